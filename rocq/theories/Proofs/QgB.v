(* amd_aat.c, amd_1.c: the scan visits every off-diagonal pair of A+A' once *)
From Coq Require Import List Arith ZArith Bool Lia.
From Verif Require Import Base.
From Verif.Model Require Import Amd Amd2.
From Verif.Spec Require Import Ordering.
From Verif.Proofs Require Import AmdB QgM.
Import ListNotations.
Open Scope Z_scope.

Section ScanP.
Context (n : nat) (Ap Ai : arr Z) (cp ci : nat -> Z).
Context (HP : holds Ap (S n) cp) (HI : holds Ai (Z.to_nat (cp n)) ci) (WF : well_formed (Z.of_nat n) n cp ci) (AS : ascending n cp ci).

Definition row (q : Z) : Z := ci (Z.to_nat q).
Definition pos (j : nat) (q : Z) : Prop := cp j <= q < cp (S j).
Definition adj (i j : nat) : Prop := (i < n)%nat /\ (j < n)%nat /\ i <> j /\ exists q, pos j q /\ row q = Z.of_nat i \/ pos i q /\ row q = Z.of_nat j.

Lemma cp_mono i j : (i <= j <= n)%nat -> 0 <= cp i <= cp j.
Proof.
  intros H. destruct WF as (W1 & W2 & _). assert (X : forall d a, (a + d <= n)%nat -> cp a <= cp (a + d)%nat).
  { induction d as [|d IH]; intros a Ha; [replace (a + 0)%nat with a by lia; lia|]. replace (a + S d)%nat with (S (a + d)) by lia. specialize (IH a ltac:(lia)). specialize (W2 (a + d)%nat ltac:(lia)). lia. }
  pose proof (X i 0%nat ltac:(lia)) as A. cbn in A. rewrite W1 in A. pose proof (X (j - i)%nat i ltac:(lia)) as B. replace (i + (j - i))%nat with j in B by lia. lia.
Qed.
Lemma pos_range j q : (j < n)%nat -> pos j q -> 0 <= q < cp n /\ 0 <= row q < Z.of_nat n.
Proof.
  intros Hj [H1 H2]. pose proof (cp_mono j (S j) ltac:(lia)). pose proof (cp_mono (S j) n ltac:(lia)). destruct WF as (_ & _ & W3).
  split; [lia|]. apply W3. lia.
Qed.
Lemma row_mono j q q' : (j < n)%nat -> pos j q -> pos j q' -> q < q' -> row q < row q'.
Proof.
  intros Hj [H1 H2] [H3 H4] Hq. pose proof (cp_mono j (S j) ltac:(lia)) as C. unfold row.
  assert (X : forall d a, cp j <= Z.of_nat a -> Z.of_nat (a + S d) < cp (S j) -> ci a < ci (a + S d)%nat).
  { induction d as [|d IH]; intros a A1 A2.
    - replace (a + 1)%nat with (S a) in * by lia. apply (AS j a Hj); lia.
    - specialize (IH a A1 ltac:(lia)). pose proof (AS j (a + S d)%nat Hj ltac:(lia) ltac:(lia)). replace (a + S (S d))%nat with (S (a + S d)) by lia. lia. }
  specialize (X (Z.to_nat q' - Z.to_nat q - 1)%nat (Z.to_nat q) ltac:(lia)). replace (Z.to_nat q + S (Z.to_nat q' - Z.to_nat q - 1))%nat with (Z.to_nat q') in X by lia. apply X. lia.
Qed.
Lemma row_inj j q q' : (j < n)%nat -> pos j q -> pos j q' -> row q = row q' -> q = q'.
Proof. intros Hj H1 H2 E. destruct (Z.lt_trichotomy q q') as [H|[H|H]]; auto; [pose proof (row_mono j q q' Hj H1 H2 H)|pose proof (row_mono j q' q Hj H2 H1 H)]; lia. Qed.
Lemma wget_row j q (P : Z -> Prop) : (j < n)%nat -> pos j q -> P (row q) -> wp (getz Ai q) P.
Proof. intros Hj Hq HPr. destruct (pos_range j q Hj Hq) as [H _]. apply wp_getz with (row q); [lia| |exact HPr]. apply HI. lia. Qed.
Lemma adj_sym i j : adj i j -> adj j i.
Proof. intros (A & B & C & q & [D|D]); (split; [auto|]; split; [auto|]; split; [auto|]; exists q; auto). Qed.

Context {T : Type} (pair : Z -> Z -> T -> option T) (Inv : list (nat * nat) -> T -> Prop).
Definition fresh (L : list (nat * nat)) (i j : nat) : Prop := adj i j /\ ~ In (i, j) L /\ ~ In (j, i) L.
Context (Hpair : forall L i j s, Inv L s -> fresh L i j -> wp (pair (Z.of_nat i) (Z.of_nat j) s) (Inv (L ++ [(i, j)]))).

(* columns below k have been visited, column k down to p; the columns visited
   are seen by the others down to column k, position pu *)
Record SI (k : nat) (p pu : Z) (L : list (nat * nat)) (tp : nat -> Z) : Prop := {
  si_ok : forall a b, In (a, b) L ->
     (a < b)%nat /\ (exists q, pos b q /\ row q = Z.of_nat a /\ ((b < k)%nat \/ b = k /\ q < p)) \/
     (b < a)%nat /\ (a < k)%nat /\ (b < k)%nat /\ exists q, pos b q /\ q < tp b /\ row q = Z.of_nat a;
  si_tp : forall j, (j < k)%nat -> cp j <= tp j <= cp (S j);
  si_up : forall j q, (j < k)%nat -> pos j q -> tp j <= q -> Z.of_nat j < row q /\
     forall c q', (j < c)%nat -> (c < k)%nat \/ c = k /\ q' < pu -> pos c q' -> row q' = Z.of_nat j -> Z.of_nat c < row q;
  si_dn : forall j q, (j < k)%nat -> pos j q -> q < tp j -> row q = Z.of_nat j \/ exists i, row q = Z.of_nat i /\ (In (i, j) L \/ In (j, i) L);
  si_cur : forall q, pos k q -> q < p -> exists i, (i < k)%nat /\ row q = Z.of_nat i /\ In (i, k) L }.

Lemma lower_ok k j pj2 t p L tp s : (k < n)%nat -> (j < k)%nat -> pos k p -> row p = Z.of_nat j -> pj2 = cp (S j) -> t = tp j ->
  SI k (p + 1) p L tp -> In (j, k) L -> Inv L s ->
  wp (scan_lower pair Ai (Z.of_nat k) (Z.of_nat j) pj2 t s) (fun '(pj, s) => exists L', SI k (p + 1) (p + 1) L' (fu tp j pj) /\ Inv L' s).
Proof.
  intros Hk Hj Hp Rp -> -> H0 HL0 HS. unfold scan_lower. assert (Hjn : (j < n)%nat) by lia. pose proof (si_tp _ _ _ _ _ H0 j Hj) as B0.
  wb. eapply (wp_while (fun '(pj, go, s) => exists L', tp j <= pj <= cp (S j) /\ SI k (p + 1) p L' (fu tp j pj) /\ In (j, k) L' /\ Inv L' s /\ (go = false -> forall q, pos j q -> pj <= q -> Z.of_nat k < row q))
     (fun '(pj, go, s) => if go : bool then Z.to_nat (cp (S j) - pj) else 0%nat)).
  - intros [[pj go] s1] (L1 & B & S1 & I1 & V1 & G1). cbn [wp]. destruct (go && (pj <? cp (S j))) eqn:E.
    + apply andb_true_iff in E. destruct E as [-> E]. apply Z.ltb_lt in E. assert (Ppj : pos j pj) by (unfold pos; lia).
      destruct (pos_range j pj Hjn Ppj) as [_ Rr]. set (i := Z.to_nat (row pj)). assert (Ei : row pj = Z.of_nat i) by (unfold i; lia).
      assert (Up : Z.of_nat j < row pj /\ forall c q', (j < c)%nat -> (c < k)%nat \/ c = k /\ q' < p -> pos c q' -> row q' = Z.of_nat j -> Z.of_nat c < row pj).
      { apply (si_up _ _ _ _ _ S1 j pj Hj Ppj). rewrite fu_eq. lia. }
      destruct Up as [Up1 Up2].
      assert (NX : forall q, pos j q -> q < pj + 1 -> q <> pj -> q < pj) by (intros; lia).
      wb. apply (wget_row j pj); auto. rewrite Ei. destruct (Z.ltb_spec (Z.of_nat i) (Z.of_nat k)) as [Lk|Lk].
      * assert (Fr : fresh L1 i j).
        { unfold fresh. csplit.
          - unfold adj. csplit; try lia. exists pj. left. auto.
          - intros X. apply (si_ok _ _ _ _ _ S1) in X. destruct X as [[X _]|(_ & _ & _ & q & X1 & X2 & X3)]; [lia|]. rewrite fu_eq in X2. assert (q = pj) by (apply (row_inj j); auto; lia). lia.
          - intros X. apply (si_ok _ _ _ _ _ S1) in X. destruct X as [[_ (q & X1 & X2 & _)]|(X & _)]; [|lia].
            specialize (Up2 i q ltac:(lia) ltac:(left; lia) X1 X2). lia. }
        wb. eapply wp_conseq; [apply (Hpair L1 i j s1 V1 Fr)|]. intros s2 V2. cbn [wp]. split; [|lia].
        exists (L1 ++ [(i, j)]). csplit; auto; try lia; try discriminate; try (apply in_app_iff; auto; fail).
        constructor.
        -- intros a b X. apply in_app_iff in X. destruct X as [X|[X|[]]].
           ++ destruct (si_ok _ _ _ _ _ S1 a b X) as [A|(A1 & A2 & A3 & q & A4 & A5 & A6)]; [left; exact A|]. right. csplit; auto. exists q. csplit; auto.
              unfold fu in *. destruct (Nat.eqb b j); lia.
           ++ inversion X; subst a b. right. csplit; try lia. exists pj. rewrite fu_eq. csplit; auto; lia.
        -- intros c Hc. pose proof (si_tp _ _ _ _ _ S1 c Hc) as Y. unfold fu in *. destruct (Nat.eqb_spec c j) as [->|]; [lia|exact Y].
        -- intros c q Hc Pc Tc. apply (si_up _ _ _ _ _ S1 c q Hc Pc). unfold fu in *. destruct (Nat.eqb c j); lia.
        -- intros c q Hc Pc Tc. unfold fu in Tc. destruct (Nat.eqb_spec c j) as [->|Nc].
           ++ destruct (Z.eq_dec q pj) as [->|Nq].
              ** right. exists i. split; [auto|]. left. apply in_app_iff. right. left. reflexivity.
              ** destruct (si_dn _ _ _ _ _ S1 j q Hc Pc ltac:(rewrite fu_eq; lia)) as [Y|(i' & Y1 & Y2)]; [auto|]. right. exists i'. split; [auto|]. rewrite !in_app_iff. tauto.
           ++ destruct (si_dn _ _ _ _ _ S1 c q Hc Pc ltac:(rewrite fu_ne; auto)) as [Y|(i' & Y1 & Y2)]; [auto|]. right. exists i'. split; [auto|]. rewrite !in_app_iff. tauto.
        -- intros q Pq Tq. destruct (si_cur _ _ _ _ _ S1 q Pq Tq) as (i' & Y1 & Y2 & Y3). exists i'. csplit; auto. apply in_app_iff; auto.
      * destruct (Z.eqb_spec (Z.of_nat i) (Z.of_nat k)) as [Ek|Ek].
        -- cbn [wp]. split; [|lia]. exists L1. csplit; auto; try lia.
           ++ constructor.
              ** intros a b X. destruct (si_ok _ _ _ _ _ S1 a b X) as [A|(A1 & A2 & A3 & q & A4 & A5 & A6)]; [left; exact A|]. right. csplit; auto. exists q. csplit; auto.
                 unfold fu in *. destruct (Nat.eqb b j); lia.
              ** intros c Hc. pose proof (si_tp _ _ _ _ _ S1 c Hc) as Y. unfold fu in *. destruct (Nat.eqb_spec c j) as [->|]; [lia|exact Y].
              ** intros c q Hc Pc Tc. apply (si_up _ _ _ _ _ S1 c q Hc Pc). unfold fu in *. destruct (Nat.eqb c j); lia.
              ** intros c q Hc Pc Tc. unfold fu in Tc. destruct (Nat.eqb_spec c j) as [->|Nc].
                 --- destruct (Z.eq_dec q pj) as [->|Nq].
                     +++ right. exists i. split; [auto|]. right. replace i with k by lia. exact I1.
                     +++ apply (si_dn _ _ _ _ _ S1 j q Hc Pc). rewrite fu_eq. lia.
                 --- apply (si_dn _ _ _ _ _ S1 c q Hc Pc). rewrite fu_ne; auto.
              ** apply (si_cur _ _ _ _ _ S1).
           ++ intros _ q Pq Hq. pose proof (row_mono j pj q Hjn Ppj Pq ltac:(lia)). lia.
        -- cbn [wp]. split; [|lia]. exists L1. csplit; auto; try lia. intros _ q Pq Hq. destruct (Z.eq_dec q pj) as [->|Nq]; [lia|]. pose proof (row_mono j pj q Hjn Ppj Pq ltac:(lia)). lia.
    + cbn [wp]. exists L1. split; [|exact V1].
      assert (G : forall q, pos j q -> pj <= q -> Z.of_nat k < row q).
      { destruct go; [|apply G1; auto]. cbn [andb] in E. apply Z.ltb_ge in E. intros q [Q1 Q2]. lia. }
      constructor; try apply S1. intros c q Hc Pc Tc. destruct (si_up _ _ _ _ _ S1 c q Hc Pc Tc) as [U1 U2]. split; [exact U1|]. intros c' q' C1 C2 C3 C4.
      destruct C2 as [C2|[C2 C2']]; [apply (U2 c' q'); auto|]. subst c'. destruct (Z_lt_le_dec q' p) as [Y|Y]; [apply (U2 k q'); auto|].
      assert (q' = p) by lia. subst q'. assert (c = j) by lia. subst c. rewrite fu_eq in Tc. apply G; auto.
  - exists L. csplit; auto; try lia. all: try discriminate. destruct H0 as [X1 X2 X3 X4 X5]. assert (Y : forall c, fu tp j (tp j) c = tp c) by (intros c; unfold fu; destruct (Nat.eqb_spec c j) as [->|]; reflexivity).
    constructor; auto; intros; rewrite ?Y in *; eauto.
  - lia.
Qed.


Definition tl (a : arr Z) (k : nat) (f : nat -> Z) : Prop := length a = n /\ holds a k f.
Lemma wtl_get a k f i (P : Z -> Prop) : tl a k f -> (i < k)%nat -> P (f i) -> wp (getz a (Z.of_nat i)) P.
Proof. intros [_ H] Hi HPf. apply wp_getz with (f i); [lia| |exact HPf]. rewrite Nat2Z.id. apply H; auto. Qed.
Lemma wtl_set a k f i v (P : arr Z -> Prop) : tl a k f -> (i <= k)%nat -> (i < n)%nat -> (forall a', tl a' (Nat.max k (S i)) (fu f i v) -> P a') -> wp (set a i v) P.
Proof.
  intros [L H] Hi Hn K. apply wp_set; [lia|]. intros a' L' G. apply K. split; [lia|]. intros c Hc. rewrite G. unfold fu. destruct (Nat.eqb_spec c i); [reflexivity|]. apply H. lia.
Qed.
Lemma wtl_setz a k f i v (P : arr Z -> Prop) : tl a k f -> (i < k)%nat -> (i < n)%nat -> (forall a', tl a' k (fu f i v) -> P a') -> wp (setz a (Z.of_nat i) v) P.
Proof.
  intros H Hi Hn K. unfold setz. destruct (Z.ltb_spec (Z.of_nat i) 0); [lia|]. rewrite Nat2Z.id. eapply (wtl_set a k f); eauto; [lia|]. intros a' H'. rewrite Nat.max_l in H' by lia. auto.
Qed.

Lemma column_ok k L tp Tp s : (k < n)%nat -> tl Tp k tp -> SI k (cp k) (cp k) L tp -> Inv L s ->
  wp (scan_column pair Ap Ai (Z.of_nat k) (cp (S k)) (cp k) Tp s) (fun '(p, Tp', s) => exists L' tp', tl Tp' k tp' /\
     SI (S k) (cp (S k)) (cp (S k)) L' (fu tp' k p) /\ Inv L' s).
Proof.
  intros Hk HT H0 HS. unfold scan_column. pose proof (cp_mono k (S k) ltac:(lia)) as CK.
  wb. eapply (wp_while (fun '(p, go, Tp, s) => exists L' tp', cp k <= p <= cp (S k) /\ tl Tp k tp' /\ Inv L' s /\
        exists p', SI k p' p' L' tp' /\ (forall q, pos k q -> p <= q -> go = false -> Z.of_nat k < row q) /\ (p = p' \/ p = p' + 1 /\ go = false /\ pos k p' /\ row p' = Z.of_nat k))
     (fun '(p, go, Tp, s) => if go : bool then Z.to_nat (cp (S k) - p) else 0%nat)).
  - intros [[[p go] Tp1] s1] (L1 & tp1 & B & T1 & V1 & p' & S1 & G1 & E1). cbn [wp]. destruct (go && (p <? cp (S k))) eqn:E.
    + apply andb_true_iff in E. destruct E as [-> E]. apply Z.ltb_lt in E. assert (Pp : pos k p) by (unfold pos; lia). destruct E1 as [<-|(_ & X & _)]; [|discriminate].
      destruct (pos_range k p Hk Pp) as [_ Rr]. set (j := Z.to_nat (row p)). assert (Ej : row p = Z.of_nat j) by (unfold j; lia).
      wb. apply (wget_row k p); auto. rewrite Ej. destruct (Z.ltb_spec (Z.of_nat j) (Z.of_nat k)) as [Lk|Lk].
      * assert (Fr : fresh L1 j k).
        { unfold fresh. csplit.
          - unfold adj. csplit; try lia. exists p. left. auto.
          - intros X. apply (si_ok _ _ _ _ _ S1) in X. destruct X as [[_ (q & X1 & X2 & [X3|[_ X3]])]|(X & _)]; [lia| |lia]. assert (q = p) by (apply (row_inj k); auto; lia). lia.
          - intros X. apply (si_ok _ _ _ _ _ S1) in X. destruct X as [[X _]|(_ & X & _)]; lia. }
        wb. eapply wp_conseq; [apply (Hpair L1 j k s1 V1 Fr)|]. intros s2 V2.
        assert (S2 : SI k (p + 1) p (L1 ++ [(j, k)]) tp1).
        { constructor.
          - intros a b X. apply in_app_iff in X. destruct X as [X|[X|[]]].
            + destruct (si_ok _ _ _ _ _ S1 a b X) as [[A (q & A1 & A2 & A3)]|A]; [|right; exact A]. left. split; [auto|]. exists q. csplit; auto. lia.
            + inversion X; subst a b. left. split; [lia|]. exists p. csplit; auto. right. lia.
          - apply S1.
          - apply S1.
          - intros c q Hc Pc Tc. destruct (si_dn _ _ _ _ _ S1 c q Hc Pc Tc) as [Y|(i & Y1 & Y2)]; [auto|]. right. exists i. split; [auto|]. rewrite !in_app_iff. tauto.
          - intros q Pq Hq. destruct (Z.eq_dec q p) as [->|Nq].
            + exists j. csplit; auto; [lia|]. apply in_app_iff. right. left. reflexivity.
            + destruct (si_cur _ _ _ _ _ S1 q Pq ltac:(lia)) as (i & Y1 & Y2 & Y3). exists i. csplit; auto. apply in_app_iff. auto. }
        wb. apply wp_getz with (cp (S j)); [lia| |].
        { replace (Z.to_nat (Z.of_nat j + 1)) with (S j) by lia. apply HP. lia. }
        wb. eapply wtl_get; [exact T1|lia|]. wb. eapply wp_conseq.
        { apply (lower_ok k j (cp (S j)) (tp1 j) p (L1 ++ [(j, k)]) tp1 s2); auto; [lia|]. apply in_app_iff. right. left. reflexivity. }
        intros [pj s3] (L3 & S3 & V3). wb. eapply wtl_setz; [exact T1|lia|lia|]. intros Tp2 T2. cbn [wp]. split; [|lia].
        exists L3, (fu tp1 j pj). csplit; auto; try lia. exists (p + 1). csplit; auto. discriminate.
      * destruct (Z.eqb_spec (Z.of_nat j) (Z.of_nat k)) as [Ek|Ek].
        -- cbn [wp]. split; [|lia]. exists L1, tp1. csplit; auto; try lia. exists p. csplit; auto.
           ++ intros q Pq Hq _. pose proof (row_mono k p q Hk Pp Pq ltac:(lia)). lia.
           ++ right. csplit; auto. lia.
        -- cbn [wp]. split; [|lia]. exists L1, tp1. csplit; auto; try lia. exists p. csplit; auto.
           intros q Pq Hq _. destruct (Z.eq_dec q p) as [->|Nq]; [lia|]. pose proof (row_mono k p q Hk Pp Pq ltac:(lia)). lia.
    + cbn [wp]. exists L1, tp1. csplit; auto.
      assert (G : forall q, pos k q -> p <= q -> Z.of_nat k < row q).
      { destruct go; [|intros q Pq Hq; apply G1; auto]. cbn [andb] in E. apply Z.ltb_ge in E. intros q [Q1 Q2]. lia. }
      assert (Cur : forall q, pos k q -> q < p -> row q = Z.of_nat k \/ exists i, (i < k)%nat /\ row q = Z.of_nat i /\ In (i, k) L1).
      { intros q Pq Hq. destruct E1 as [->|(-> & _ & P' & R')]; [right; apply (si_cur _ _ _ _ _ S1); auto|]. destruct (Z.eq_dec q p') as [->|Nq]; [auto|]. right. apply (si_cur _ _ _ _ _ S1); auto. lia. }
      constructor.
      * intros a b X. destruct (si_ok _ _ _ _ _ S1 a b X) as [[A (q & A1 & A2 & A3)]|(A1 & A2 & A3 & q & A4 & A5 & A6)].
        -- left. split; [auto|]. exists q. csplit; auto. lia.
        -- right. csplit; try lia. exists q. csplit; auto. rewrite fu_ne by lia. auto.
      * intros j Hj. unfold fu. destruct (Nat.eqb_spec j k) as [->|]; [lia|]. apply (si_tp _ _ _ _ _ S1). lia.
      * intros j q Hj Pj Tj. unfold fu in Tj. destruct (Nat.eqb_spec j k) as [->|Nj].
        -- split; [apply G; auto|]. intros c q' C1 C2 C3 C4. exfalso. destruct C2 as [C2|[C2 C2']]; [lia|]. subst c. destruct C3. lia.
        -- destruct (si_up _ _ _ _ _ S1 j q ltac:(lia) Pj Tj) as [U1 U2]. split; [exact U1|]. intros c q' C1 C2 C3 C4.
           destruct C2 as [C2|[C2 C2']]; [|subst c; destruct C3; lia]. destruct (Nat.eq_dec c k) as [->|Nc]; [|apply (U2 c q'); auto; left; lia].
           assert (q' < p') by (destruct (Z_lt_le_dec q' p) as [Y|Y]; [destruct E1 as [->|(-> & _ & P' & R')]; [auto|]; destruct (Z.eq_dec q' p') as [->|]; lia|specialize (G q' C3 Y); lia]).
           apply (U2 k q'); auto.
      * intros j q Hj Pj Tj. unfold fu in Tj. destruct (Nat.eqb_spec j k) as [->|Nj].
        -- destruct (Cur q Pj Tj) as [Y|(i & Y1 & Y2 & Y3)]; [auto|]. right. exists i. auto.
        -- apply (si_dn _ _ _ _ _ S1); auto. lia.
      * intros q [Q1 Q2] Hq. lia.
  - exists L, tp. csplit; auto; try lia. exists (cp k). csplit; auto. discriminate.
  - lia.
Qed.

Definition covers (L : list (nat * nat)) : Prop := forall i j, adj i j -> In (i, j) L \/ In (j, i) L.

(* the columns below k have been visited down to the end *)
Record SF (k : nat) (L : list (nat * nat)) (tp : nat -> Z) : Prop := {
  sf_ok : forall a b, In (a, b) L -> (a < b)%nat /\ (exists q, pos b q /\ row q = Z.of_nat a) \/
     (b < a)%nat /\ exists q, pos b q /\ row q = Z.of_nat a /\ ((b < k)%nat \/ q < tp b);
  sf_tp : forall j, (j < n)%nat -> cp j <= tp j <= cp (S j);
  sf_up : forall j q, (j < n)%nat -> pos j q -> tp j <= q -> Z.of_nat j < row q /\
     forall c q', (j < c < n)%nat -> pos c q' -> row q' = Z.of_nat j -> Z.of_nat c < row q;
  sf_dn : forall j q, (j < n)%nat -> pos j q -> (j < k)%nat \/ q < tp j -> row q = Z.of_nat j \/ exists i, row q = Z.of_nat i /\ (In (i, j) L \/ In (j, i) L) }.

Lemma scan_all_ok Tp s : length Tp = n -> Inv [] s ->
  wp (scan_all pair Ap Ai n Tp s) (fun s => exists L, covers L /\ Inv L s).
Proof.
  intros LT HS. unfold scan_all. wb. eapply wp_conseq.
  { eapply (wp_for (fun k '(Tp, s) => exists L tp, tl Tp k tp /\ SI k (cp k) (cp k) L tp /\ Inv L s)); [lia| | |intros s0 X; exact X].
    - exists [], (fun _ => 0). csplit; auto.
      + split; [exact LT|]. intros i Hi. lia.
      + constructor; [intros a b []|intros; lia|intros; lia|intros; lia|]. intros q [Q1 Q2] Hq. lia.
    - intros k [Tp1 s1] Hk (L1 & tp1 & T1 & S1 & V1). wb. apply wp_get with (cp k); [apply HP; lia|]. wb. apply wp_get with (cp (S k)); [replace (k + 1)%nat with (S k) by lia; apply HP; lia|].
      wb. eapply wp_conseq; [apply (column_ok k L1 tp1 Tp1 s1); auto; lia|]. intros [[p Tp2] s2] (L2 & tp2 & T2 & S2 & V2).
      wb. eapply wtl_set; [exact T2|lia|lia|]. intros Tp3 T3. cbn [wp]. exists L2, (fu tp2 k p). rewrite Nat.max_r in T3 by lia. auto. }
  intros [Tp1 s1] (L1 & tp1 & T1 & S1 & V1).
  assert (F0 : SF 0 L1 tp1).
  { constructor.
    - intros a b X. destruct (si_ok _ _ _ _ _ S1 a b X) as [[A (q & A1 & A2 & A3)]|(A1 & A2 & A3 & q & A4 & A5 & A6)]; [left; eauto|right]. split; [auto|]. exists q. auto.
    - apply S1.
    - intros j q Hj Pj Tj. destruct (si_up _ _ _ _ _ S1 j q Hj Pj Tj) as [U1 U2]. split; [exact U1|]. intros c q' C1 C2 C3. apply (U2 c q'); auto; lia.
    - intros j q Hj Pj [X|X]; [lia|]. apply (si_dn _ _ _ _ _ S1); auto. }
  eapply wp_conseq.
  { eapply (wp_for (fun k s => exists L, SF k L tp1 /\ Inv L s)); [lia|exists L1; auto| |intros s0 X; exact X].
    intros j s2 Hj (L2 & F2 & V2). wb. apply wp_get with (tp1 j); [apply T1; lia|]. wb. apply wp_get with (cp (S j)); [replace (j + 1)%nat with (S j) by lia; apply HP; lia|].
    assert (Hjn : (j < n)%nat) by lia. pose proof (sf_tp _ _ _ F2 j Hjn) as B. eapply wp_conseq.
    { apply (wp_for_loop (fun c s => exists L, SF j L (fu tp1 j (tp1 j + Z.of_nat c)) /\ (forall q, pos j q -> tp1 j <= q -> (q < tp1 j + Z.of_nat c -> exists i, row q = Z.of_nat i /\ In (i, j) L)) /\ Inv L s)).
      - exists L2. csplit; auto; [|intros; lia]. assert (Y : forall c, fu tp1 j (tp1 j + 0) c = tp1 c) by (intros c; unfold fu; destruct (Nat.eqb_spec c j) as [->|]; lia).
        change (Z.of_nat 0) with 0. constructor; intros; rewrite ?Y in *.
        + destruct (sf_ok _ _ _ F2 a b H) as [A|(A & q & A1 & A2 & A3)]; [left; exact A|]. right. split; [auto|]. exists q. auto.
        + apply (sf_tp _ _ _ F2); auto.
        + apply (sf_up _ _ _ F2 j0 q); auto.
        + apply (sf_dn _ _ _ F2 j0 q); auto.
      - intros c s3 Hc (L3 & F3 & G3 & V3). set (q := tp1 j + Z.of_nat c). assert (Pq : pos j q) by (unfold pos, q; lia).
        destruct (pos_range j q Hjn Pq) as [_ Rr]. set (i := Z.to_nat (row q)). assert (Ei : row q = Z.of_nat i) by (unfold i; lia).
        destruct (sf_up _ _ _ F3 j q Hjn Pq) as [U1 U2]; [rewrite fu_eq; unfold q; lia|].
        assert (Fr : fresh L3 i j).
        { unfold fresh. csplit.
          - unfold adj. csplit; try lia. exists q. left. auto.
          - intros X. apply (sf_ok _ _ _ F3) in X. destruct X as [[X _]|(_ & q' & X1 & X2 & [X3|X3])]; [lia|lia|]. rewrite fu_eq in X3. assert (q' = q) by (apply (row_inj j); auto; lia). unfold q in *. lia.
          - intros X. apply (sf_ok _ _ _ F3) in X. destruct X as [[X (q' & X1 & X2)]|(X & _)]; [|lia]. specialize (U2 i q' ltac:(lia) X1 X2). lia. }
        wb. apply (wget_row j q); auto. rewrite Ei. eapply wp_conseq; [apply (Hpair L3 i j s3 V3 Fr)|]. intros s4 V4.
        exists (L3 ++ [(i, j)]). csplit; auto.
        + constructor.
          * intros a b X. apply in_app_iff in X. destruct X as [X|[X|[]]].
            -- destruct (sf_ok _ _ _ F3 a b X) as [A|(A & q' & A1 & A2 & A3)]; [left; exact A|]. right. split; [auto|]. exists q'. csplit; auto. unfold fu in *. destruct (Nat.eqb b j); lia.
            -- inversion X; subst a b. right. split; [lia|]. exists q. csplit; auto. right. rewrite fu_eq. unfold q. lia.
          * intros x Hx. pose proof (sf_tp _ _ _ F3 x Hx) as Y. unfold fu in *. destruct (Nat.eqb_spec x j) as [->|]; lia.
          * intros x q' Hx Px Tx. apply (sf_up _ _ _ F3 x q'); auto. unfold fu in *. destruct (Nat.eqb x j); lia.
          * intros x q' Hx Px Tx. assert (Y : (x < j)%nat \/ q' < fu tp1 j (tp1 j + Z.of_nat c) x \/ x = j /\ q' = q) by (unfold fu, q in *; destruct (Nat.eqb_spec x j); lia).
            destruct Y as [Y|[Y|[-> ->]]].
            -- destruct (sf_dn _ _ _ F3 x q' Hx Px (or_introl Y)) as [Z0|(i' & Z1 & Z2)]; [auto|]. right. exists i'. split; [auto|]. rewrite !in_app_iff. tauto.
            -- destruct (sf_dn _ _ _ F3 x q' Hx Px (or_intror Y)) as [Z0|(i' & Z1 & Z2)]; [auto|]. right. exists i'. split; [auto|]. rewrite !in_app_iff. tauto.
            -- right. exists i. split; [auto|]. left. apply in_app_iff. right. left. reflexivity.
        + intros q' P' H1 H2. destruct (Z.eq_dec q' q) as [->|Nq]; [exists i; split; [auto|apply in_app_iff; right; left; reflexivity]|].
          destruct (G3 q' P' H1) as (i' & Z1 & Z2); [unfold q in *; lia|]. exists i'. split; [auto|apply in_app_iff; auto]. }
    intros s3 (L3 & F3 & G3 & V3). exists L3. split; [|exact V3]. replace (tp1 j + Z.of_nat (0 + Z.to_nat (cp (S j) - tp1 j))) with (cp (S j)) in * by lia.
    constructor.
    - intros a b X. destruct (sf_ok _ _ _ F3 a b X) as [A|(A & q' & A1 & A2 & A3)]; [left; exact A|]. right. split; [auto|]. exists q'. csplit; auto. unfold fu in *. destruct (Nat.eqb_spec b j); lia.
    - apply (sf_tp _ _ _ F2).
    - apply (sf_up _ _ _ F2).
    - intros x q Hx Px Tx. apply (sf_dn _ _ _ F3 x q Hx Px). unfold fu. destruct Tx as [Tx|Tx].
      + destruct (Nat.eqb_spec x j) as [->|]; [right; destruct Px; lia|left; lia].
      + destruct (Nat.eqb_spec x j) as [->|]; right; [destruct Px; lia|auto]. }
  intros s2 (L2 & F2 & V2). exists L2. split; [|exact V2]. intros i j (A1 & A2 & A3 & q & [[A4 A5]|[A4 A5]]).
  - destruct (sf_dn _ _ _ F2 j q A2 A4 (or_introl A2)) as [Z0|(i' & Z1 & Z2)]; [lia|]. replace i' with i in Z2 by lia. tauto.
  - destruct (sf_dn _ _ _ F2 i q A1 A4 (or_introl A1)) as [Z0|(i' & Z1 & Z2)]; [lia|]. replace i' with j in Z2 by lia. tauto.
Qed.
End ScanP.
