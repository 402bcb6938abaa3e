(* amd_aat.c, amd_1.c: the counts and the stored graph of A+A' *)
From Coq Require Import List Arith ZArith Bool Lia Permutation.
From Verif Require Import Base.
From Verif.Model Require Import Amd Amd2.
From Verif.Spec Require Import Ordering.
From Verif.Proofs Require Import AmdB AmdT QgA QgM QgB.
Import ListNotations.
Open Scope Z_scope.

(* the other ends of the pairs that touch x *)
Definition nbrs (L : list (nat * nat)) (x : nat) : list nat :=
  flat_map (fun '(a, b) => if Nat.eqb a x then [b] else if Nat.eqb b x then [a] else []) L.
Lemma nbrs_snoc L i j x : nbrs (L ++ [(i, j)]) x = nbrs L x ++ (if Nat.eqb i x then [j] else if Nat.eqb j x then [i] else []).
Proof. unfold nbrs. rewrite flat_map_app. cbn [flat_map]. rewrite app_nil_r. reflexivity. Qed.

Section NbrP.
Context (n : nat) (Ap Ai : arr Z) (cp ci : nat -> Z).
Context (HP : holds Ap (S n) cp) (HI : holds Ai (Z.to_nat (cp n)) ci) (WF : well_formed (Z.of_nat n) n cp ci) (AS : ascending n cp ci).
Notation adj := (adj n cp ci).
Notation fresh := (fresh n cp ci).
Notation covers := (covers n cp ci).

Record good (L : list (nat * nat)) : Prop := {
  gd_nd : forall x, NoDup (nbrs L x);
  gd_in : forall x y, In y (nbrs L x) <-> In (x, y) L \/ In (y, x) L;
  gd_adj : forall x y, In (x, y) L -> adj x y }.
Lemma good_nil : good [].
Proof. constructor; [intros x; constructor| |intros x y []]. intros x y. cbn. tauto. Qed.
Lemma good_snoc L i j : good L -> fresh L i j -> good (L ++ [(i, j)]).
Proof.
  intros G (A & F1 & F2). pose proof A as (_ & _ & Nij & _). constructor.
  - intros x. rewrite nbrs_snoc. apply nodup_app. split; [apply G|]. split.
    + destruct (Nat.eqb i x); [|destruct (Nat.eqb j x)]; repeat constructor; cbn; tauto.
    + intros y Hy Hz. apply (gd_in _ G) in Hy. destruct (Nat.eqb_spec i x) as [E|E].
      * subst x. destruct Hz as [<-|[]]. tauto.
      * destruct (Nat.eqb_spec j x) as [E'|E']; [|destruct Hz]. subst x. destruct Hz as [<-|[]]. tauto.
  - intros x y. rewrite nbrs_snoc, !in_app_iff, (gd_in _ G). cbn [In].
    assert (X : In y (if Nat.eqb i x then [j] else if Nat.eqb j x then [i] else []) <-> (i, j) = (x, y) \/ (i, j) = (y, x)).
    { destruct (Nat.eqb_spec i x) as [E|E].
      - subst x. cbn. split; [intros [->|[]]; auto|]. intros [X|X]; inversion X; subst; auto.
      - destruct (Nat.eqb_spec j x) as [E'|E']; cbn.
        + subst x. split; [intros [->|[]]; auto|]. intros [X|X]; inversion X; subst; auto.
        + split; [tauto|]. intros [X|X]; inversion X; subst; congruence. }
    rewrite X. tauto.
  - intros x y Hx. apply in_app_iff in Hx. destruct Hx as [Hx|[Hx|[]]]; [apply (gd_adj _ G); auto|]. inversion Hx; subst. exact A.
Qed.
Lemma good_adj L x y : good L -> In y (nbrs L x) -> adj x y.
Proof. intros G H. apply (gd_in _ G) in H. destruct H as [H|H]; apply (gd_adj _ G) in H; [auto|]. apply adj_sym; auto. Qed.
Lemma good_le L L' x : good L -> good L' -> covers L' -> (length (nbrs L x) <= length (nbrs L' x))%nat.
Proof.
  intros G G' C. apply NoDup_incl_length; [apply G|]. intros y Hy. apply (gd_in _ G'). apply C. apply (good_adj L); auto.
Qed.
Lemma good_bound L x : good L -> (x < n)%nat -> (length (nbrs L x) < n)%nat.
Proof.
  intros G Hx. assert (X : (length (x :: nbrs L x) <= length (seq 0 n))%nat).
  { apply NoDup_incl_length.
    - constructor; [|apply G]. intros H. apply (good_adj L) in H; auto. destruct H as (_ & _ & H & _). congruence.
    - intros y [<-|Hy]; apply in_seq; [lia|]. apply (good_adj L) in Hy; auto. destruct Hy as (_ & Hy & _). lia. }
  rewrite seq_length in X. cbn [length] in X. lia.
Qed.

Definition cnt (L : list (nat * nat)) (x : nat) : Z := Z.of_nat (length (nbrs L x)).
Lemma cnt_snoc L i j x : i <> j -> cnt (L ++ [(i, j)]) x = fu (fu (cnt L) i (cnt L i + 1)) j (cnt L j + 1) x.
Proof.
  intros Nij. unfold cnt, fu. rewrite nbrs_snoc, app_length. destruct (Nat.eqb_spec i x) as [E|E].
  - subst x. destruct (Nat.eqb_spec i j); [congruence|]. rewrite Nat.eqb_refl. cbn [length]. lia.
  - destruct (Nat.eqb_spec j x) as [E'|E'].
    + subst x. rewrite Nat.eqb_refl. cbn [length]. lia.
    + destruct (Nat.eqb_spec x j); [congruence|]. destruct (Nat.eqb_spec x i); [congruence|]. cbn [length]. lia.
Qed.

Lemma count_ok : forall L i j Len, good L /\ fa Len n (cnt L) -> fresh L i j ->
  wp (count_pair (Z.of_nat i) (Z.of_nat j) Len) (fun Len => good (L ++ [(i, j)]) /\ fa Len n (cnt (L ++ [(i, j)]))).
Proof.
  intros L i j Len [G F] Fr. pose proof Fr as ((Hi & Hj & Nij & _) & _). unfold count_pair.
  wb. eapply wfa_getn; [exact F|exact Hi|]. wb. eapply wfa_setn; [exact F|exact Hi|]. intros Len1 F1.
  wb. eapply wfa_getn; [exact F1|exact Hj|]. rewrite fu_ne by auto. eapply wfa_setn; [exact F1|exact Hj|]. intros Len2 F2.
  split; [apply good_snoc; auto|]. eapply fa_ext; [exact F2|]. intros x _. symmetry. apply cnt_snoc; auto.
Qed.

Lemma aat_ok Len Tp : length Len = n -> length Tp = n ->
  wp (AMD_aat n Ap Ai Len Tp) (fun '(Len, nz) => exists L, good L /\ covers L /\ fa Len n (cnt L) /\ nz = zs (cnt L) (seq 0 n)).
Proof.
  intros L1 L2. unfold AMD_aat. wb. eapply wp_conseq; [apply (wfa_fill Len n (fun _ => 0)); auto|]. intros Len1 F1.
  wb. eapply wp_conseq.
  { apply (scan_all_ok n Ap Ai cp ci HP HI WF AS count_pair (fun L Len => good L /\ fa Len n (cnt L))); auto; [apply count_ok|].
    split; [apply good_nil|exact F1]. }
  intros Len2 (L & C & G & F2). wb. eapply (wp_for (fun k z => z = zs (cnt L) (seq 0 k))); [lia|reflexivity| |].
  - intros k z Hk ->. wb. eapply wfa_get; [exact F2|lia|]. cbn [wp]. rewrite seq_S, zs_app. cbn [zs Nat.add]. lia.
  - intros z ->. cbn [wp]. exists L. auto.
Qed.

Context (R : list (nat * nat)) (GR : good R) (CR : covers R).
Definition off (x : nat) : Z := zs (cnt R) (seq 0 x).
Lemma off_S x : off (S x) = off x + cnt R x.
Proof. unfold off. rewrite seq_S, zs_app. cbn [zs Nat.add]. lia. Qed.
Lemma cnt_nonneg L x : 0 <= cnt L x. Proof. unfold cnt. lia. Qed.
Lemma off_mono x y : (x <= y)%nat -> 0 <= off x <= off y.
Proof.
  intros H. split; [apply zs_nonneg; intros; apply cnt_nonneg|]. induction H as [|y H IH]; [lia|]. rewrite off_S. pose proof (cnt_nonneg R y). lia.
Qed.
Lemma off_cover m : forall p, 0 <= p < off m -> exists x, (x < m)%nat /\ off x <= p < off x + cnt R x.
Proof.
  induction m as [|m IH]; intros p Hp; [cbn in Hp; lia|]. rewrite off_S in Hp. destruct (Z_lt_le_dec p (off m)) as [H|H].
  - destruct (IH p ltac:(lia)) as (x & H1 & H2). exists x. split; [lia|auto].
  - exists m. split; [lia|lia].
Qed.
Lemma off_disj x y : x <> y -> off x + cnt R x <= off y \/ off y + cnt R y <= off x.
Proof.
  intros H. destruct (Nat.lt_trichotomy x y) as [A|[A|A]]; [|congruence|].
  - left. rewrite <- off_S. apply off_mono. lia.
  - right. rewrite <- off_S. apply off_mono. lia.
Qed.

Definition stored (N : Z) (L : list (nat * nat)) (st : arr Z * arr Z) : Prop :=
  good L /\ fa (snd st) n (fun x => off x + cnt L x) /\ Z.of_nat (length (fst st)) = N /\
  forall x k, (x < n)%nat -> (k < length (nbrs L x))%nat -> get (fst st) (Z.to_nat (off x) + k) = Some (Z.of_nat (nth k (nbrs L x) 0%nat)).

Lemma cell_ne x y (k m : nat) : (Z.of_nat k < cnt R x) -> (Z.of_nat m < cnt R y) -> x <> y \/ k <> m -> (Z.to_nat (off x) + k <> Z.to_nat (off y) + m)%nat.
Proof.
  intros Hk Hm H. pose proof (off_mono x x ltac:(lia)). pose proof (off_mono y y ltac:(lia)). destruct (Nat.eq_dec x y) as [->|N]; [lia|]. destruct (off_disj x y N); lia.
Qed.
Lemma put_ok N Iw i j L : Z.of_nat (length Iw) = N -> off n <= N -> (i < n)%nat -> cnt L i < cnt R i ->
  wp (setz Iw (off i + cnt L i) (Z.of_nat j)) (fun Iw' => Z.of_nat (length Iw') = N /\ get Iw' (Z.to_nat (off i) + length (nbrs L i)) = Some (Z.of_nat j) /\
    forall a, a <> (Z.to_nat (off i) + length (nbrs L i))%nat -> get Iw' a = get Iw a).
Proof.
  intros LI HN Hi HL. pose proof (off_mono i n ltac:(lia)) as M1. pose proof (off_mono (S i) n ltac:(lia)) as M2. rewrite off_S in M2. pose proof (cnt_nonneg L i).
  unfold setz. destruct (Z.ltb_spec (off i + cnt L i) 0); [lia|]. apply wp_set; [lia|]. intros Iw' L' G'.
  replace (Z.to_nat (off i + cnt L i)) with (Z.to_nat (off i) + length (nbrs L i))%nat in G' by (unfold cnt; lia). split; [lia|]. split.
  - rewrite G', Nat.eqb_refl. reflexivity.
  - intros a Ha. rewrite G'. destruct (Nat.eqb_spec a (Z.to_nat (off i) + length (nbrs L i))) as [E|E]; [congruence|reflexivity].
Qed.

Lemma store_ok N : off n <= N -> forall L i j st, stored N L st -> fresh L i j ->
  wp (store_pair (Z.of_nat i) (Z.of_nat j) st) (stored N (L ++ [(i, j)])).
Proof.
  intros HN L i j [Iw Sp] (G & F & LI & V) Fr. cbn [fst snd] in *. pose proof Fr as ((Hi & Hj & Nij & _) & _). unfold store_pair.
  pose proof (good_snoc L i j G Fr) as G'.
  assert (HA : forall x, cnt (L ++ [(i, j)]) x <= cnt R x) by (intros x; unfold cnt; pose proof (good_le (L ++ [(i, j)]) R x G' GR CR); lia).
  assert (HA0 : forall x, cnt L x <= cnt R x) by (intros x; unfold cnt; pose proof (good_le L R x G GR CR); lia).
  assert (Ai1 : cnt L i < cnt R i) by (specialize (HA i); rewrite cnt_snoc, fu_ne, fu_eq in HA by auto; lia).
  assert (Aj1 : cnt L j < cnt R j) by (specialize (HA j); rewrite cnt_snoc, fu_eq in HA by auto; lia).
  wb. eapply wfa_getn; [exact F|exact Hi|]. cbv beta. wb. eapply wfa_setn; [exact F|exact Hi|]. intros Sp1 F1.
  wb. eapply wp_conseq; [apply (put_ok N Iw i j L); auto|]. intros Iw1 (L1 & P1 & Q1).
  wb. eapply wfa_getn; [exact F1|exact Hj|]. rewrite fu_ne by auto. wb. eapply wfa_setn; [exact F1|exact Hj|]. intros Sp2 F2.
  wb. eapply wp_conseq; [apply (put_ok N Iw1 j i L); auto|]. intros Iw2 (L2 & P2 & Q2). cbn [wp].
  split; [exact G'|]. cbn [fst snd]. split; [|split; [exact L2|]].
  - eapply fa_ext; [exact F2|]. intros x Hx. rewrite cnt_snoc by auto. unfold fu. destruct (Nat.eqb_spec x j) as [->|]; [lia|]. destruct (Nat.eqb_spec x i) as [->|]; lia.
  - assert (P1' : get Iw2 (Z.to_nat (off i) + length (nbrs L i)) = Some (Z.of_nat j)).
    { rewrite <- P1. apply Q2. apply cell_ne; auto. }
    intros x k Hx Hk. rewrite nbrs_snoc in Hk |- *. destruct (Nat.lt_ge_cases k (length (nbrs L x))) as [K|K].
    + rewrite app_nth1 by auto. assert (Kx : Z.of_nat k < cnt R x) by (specialize (HA0 x); unfold cnt in HA0 |- *; lia).
      rewrite Q2; [rewrite Q1; [apply V; auto|]|]; apply cell_ne; auto.
      * destruct (Nat.eq_dec x i) as [E|E]; [subst x; right; lia|auto].
      * destruct (Nat.eq_dec x j) as [E|E]; [subst x; right; lia|auto].
    + rewrite app_length in Hk. rewrite app_nth2 by auto. destruct (Nat.eqb_spec i x) as [E|E].
      * subst x. cbn [length] in Hk. replace k with (length (nbrs L i)) by lia. rewrite Nat.sub_diag. exact P1'.
      * destruct (Nat.eqb_spec j x) as [E'|E']; cbn [length] in Hk; [|lia]. subst x. replace k with (length (nbrs L j)) by lia. rewrite Nat.sub_diag. exact P2.
Qed.

Lemma graph_ok N Len Pe Iw Sp Tp : fa Len n (cnt R) -> length Pe = n -> length Sp = n -> length Tp = n -> Z.of_nat (length Iw) = N -> off n <= N ->
  wp (AMD_1_graph n Ap Ai Len Pe Iw Sp Tp) (fun '(Pe, Iw, pfree) => exists L f, good L /\ covers L /\ (forall x, cnt L x = cnt R x) /\ pfree = off n /\ fa Pe n off /\
     fz Iw N (off n) f /\ (forall x, (x < n)%nat -> at_ f (off x) (nbrs L x)) /\ forall p, 0 <= p < off n -> 0 <= f p < Z.of_nat n).
Proof.
  intros FL L1 L2 L3 LI HN. unfold AMD_1_graph. wb. eapply wp_conseq.
  { eapply (wp_for (fun k '(Pe, Sp, pfree) => tl n Pe k off /\ tl n Sp k off /\ pfree = off k)); [lia| | |intros s X; exact X].
    - csplit; [split; [exact L1|intros i Hi; lia]|split; [exact L2|intros i Hi; lia]|reflexivity].
    - intros k [[Pe1 Sp1] pf] Hk (T1 & T2 & ->). wb. eapply wtl_set; [exact T1|lia|lia|]. intros Pe2 T1'. wb. eapply wtl_set; [exact T2|lia|lia|]. intros Sp2 T2'.
      wb. eapply wfa_get; [exact FL|lia|]. cbn [wp]. rewrite Nat.max_r in T1', T2' by lia. rewrite off_S.
      destruct T1' as [A1 A2], T2' as [B1 B2]. csplit; [split; [auto|]|split; [auto|]|lia]; intros c Hc; [rewrite A2 by auto|rewrite B2 by auto]; unfold fu; destruct (Nat.eqb_spec c k) as [->|]; reflexivity. }
  intros [[Pe1 Sp1] pf] (T1 & T2 & ->). wb. eapply wp_conseq.
  { apply (scan_all_ok n Ap Ai cp ci HP HI WF AS store_pair (stored N)); auto; [apply store_ok; auto|].
    split; [apply good_nil|]. cbn [fst snd]. csplit; auto.
    - eapply fa_ext; [exact T2|]. intros x Hx. unfold cnt. cbn. lia.
    - intros x k _ Hk. cbn in Hk. lia. }
  intros [Iw2 Sp2] (L & C & G & _ & LI2 & V). cbn [fst snd] in *. cbn [wp].
  assert (E : forall x, cnt L x = cnt R x).
  { intros x. unfold cnt. pose proof (good_le L R x G GR CR). pose proof (good_le R L x GR G C). lia. }
  set (f := fun p => match get Iw2 (Z.to_nat p) with Some v => v | None => 0 end).
  assert (X : forall p, 0 <= p < off n -> exists x k, (x < n)%nat /\ (k < length (nbrs L x))%nat /\ get Iw2 (Z.to_nat p) = Some (Z.of_nat (nth k (nbrs L x) 0%nat))).
  { intros p Hp. destruct (off_cover n p Hp) as (x & Hx & B). exists x, (Z.to_nat (p - off x)). assert (K : (Z.to_nat (p - off x) < length (nbrs L x))%nat) by (specialize (E x); unfold cnt in *; lia).
    csplit; auto. rewrite <- V by auto. f_equal. pose proof (off_mono x x ltac:(lia)). lia. }
  exists L, f. csplit; auto.
  - split; [exact LI2|]. intros p Hp. unfold f. destruct (X p Hp) as (x & k & _ & _ & ->). reflexivity.
  - intros x Hx. pose proof (off_mono x x ltac:(lia)) as Ox. assert (Y : forall l m, (forall k, (k < length l)%nat -> f (off x + Z.of_nat (m + k)) = Z.of_nat (nth k l 0%nat)) -> at_ f (off x + Z.of_nat m) l).
    { induction l as [|y l IH]; intros m Hl; [exact I|]. cbn [at_]. split.
      - specialize (Hl 0%nat). cbn [length nth] in Hl. rewrite Nat.add_0_r in Hl. apply Hl. lia.
      - replace (off x + Z.of_nat m + 1) with (off x + Z.of_nat (S m)) by lia. apply IH. intros k Hk. specialize (Hl (S k)). cbn [length nth] in Hl. replace (S m + k)%nat with (m + S k)%nat by lia. apply Hl. lia. }
    replace (off x) with (off x + Z.of_nat 0) by lia. apply Y. intros k Hk. unfold f. cbn [Nat.add]. replace (Z.to_nat (off x + Z.of_nat k)) with (Z.to_nat (off x) + k)%nat by lia. rewrite V; auto.
  - intros p Hp. unfold f. destruct (X p Hp) as (x & k & Hx & Hk & ->). assert (A : adj x (nth k (nbrs L x) 0%nat)) by (apply (good_adj L); auto; apply nth_In; auto). destruct A as (_ & A & _). lia.
Qed.
End NbrP.

