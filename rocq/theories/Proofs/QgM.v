(* amd_2.c: the storage of the quotient graph in Iw, and the garbage collection *)
From Coq Require Import List Arith ZArith Bool Lia.
From Verif Require Import Base.
From Verif.Model Require Import Amd Amd2.
From Verif.Proofs Require Import AmdB QgA.
Import ListNotations.
Open Scope Z_scope.

(* a has N cells of which the first P hold f *)
Definition fz (a : arr Z) (N P : Z) (f : Z -> Z) : Prop :=
  Z.of_nat (length a) = N /\ forall i, 0 <= i < P -> get a (Z.to_nat i) = Some (f i).
Definition zu (f : Z -> Z) (i v : Z) : Z -> Z := fun k => if k =? i then v else f k.
Lemma zu_eq f i v : zu f i v i = v. Proof. unfold zu. rewrite Z.eqb_refl. reflexivity. Qed.
Lemma zu_ne f i v k : k <> i -> zu f i v k = f k. Proof. intros H. unfold zu. apply Z.eqb_neq in H. rewrite H. reflexivity. Qed.

Lemma wfz_get a N P f i (Q : Z -> Prop) : fz a N P f -> 0 <= i < P -> Q (f i) -> wp (getz a i) Q.
Proof. intros [_ H] Hi. apply wp_getz; [lia|]. apply H; lia. Qed.
Lemma fz_ext a N P P' f g : fz a N P f -> P' <= P -> (forall i, 0 <= i < P' -> f i = g i) -> fz a N P' g.
Proof. intros [L H] HP E. split; [exact L|]. intros i Hi. rewrite H, E; auto. lia. Qed.
Lemma wfz_set a N P f i v (Q : arr Z -> Prop) : fz a N P f -> 0 <= i < N -> i <= P ->
  (forall a', fz a' N (Z.max P (i + 1)) (zu f i v) -> Q a') -> wp (setz a i v) Q.
Proof.
  intros [L H] Hi HP K. unfold setz. destruct (Z.ltb_spec i 0); [lia|]. apply wp_set; [lia|]. intros a' L' G. apply K.
  split; [lia|]. intros k Hk. rewrite G. unfold zu. destruct (Nat.eqb_spec (Z.to_nat k) (Z.to_nat i)) as [E|E].
  - assert (k = i) as -> by lia. rewrite Z.eqb_refl. reflexivity.
  - destruct (Z.eqb_spec k i) as [->|]; [congruence|]. apply H. lia.
Qed.
Lemma wfz_set' a N P f i v (Q : arr Z -> Prop) : fz a N P f -> 0 <= i < P -> P <= N ->
  (forall a', fz a' N P (zu f i v) -> Q a') -> wp (setz a i v) Q.
Proof. intros H Hi HN K. eapply wfz_set; [exact H|lia|lia|]. intros a' X. apply K. rewrite Z.max_l in X by lia. exact X. Qed.

(* the list l is stored from p on *)
Fixpoint at_ (f : Z -> Z) (p : Z) (l : list nat) : Prop :=
  match l with [] => True | x :: l => f p = Z.of_nat x /\ at_ f (p + 1) l end.
Lemma at_app f l1 l2 : forall p, at_ f p (l1 ++ l2) <-> at_ f p l1 /\ at_ f (p + Z.of_nat (length l1)) l2.
Proof.
  induction l1 as [|x l1 IH]; intros p; cbn [app at_ length].
  - rewrite Z.add_0_r. tauto.
  - rewrite IH. replace (p + 1 + Z.of_nat (length l1)) with (p + Z.of_nat (S (length l1))) by lia. tauto.
Qed.
Lemma at_ext f g l : forall p q, (forall k, 0 <= k < Z.of_nat (length l) -> g (q + k) = f (p + k)) -> at_ f p l -> at_ g q l.
Proof.
  induction l as [|x l IH]; intros p q H A; [exact I|]. destruct A as [A1 A2]. cbn [length] in H. split.
  - specialize (H 0). rewrite !Z.add_0_r in H. rewrite H by lia. exact A1.
  - apply (IH (p + 1)); [|exact A2]. intros k Hk. specialize (H (1 + k)). replace (q + 1 + k) with (q + (1 + k)) by lia.
    rewrite H by lia. f_equal. lia.
Qed.
Lemma at_nth f l : forall p k d, at_ f p l -> (k < length l)%nat -> f (p + Z.of_nat k) = Z.of_nat (nth k l d).
Proof.
  induction l as [|x l IH]; intros p k d A H; cbn [length] in H; [lia|]. destruct A as [A1 A2]. destruct k as [|k]; cbn [nth].
  - rewrite Z.add_0_r. exact A1.
  - rewrite <- (IH (p + 1) k d A2) by lia. f_equal. lia.
Qed.
Lemma at_in f l p k : at_ f p l -> 0 <= k < Z.of_nat (length l) -> exists x, In x l /\ f (p + k) = Z.of_nat x.
Proof.
  intros A H. exists (nth (Z.to_nat k) l 0%nat). split; [apply nth_In; lia|]. rewrite <- (at_nth f l p (Z.to_nat k) 0%nat A) by lia. f_equal. lia.
Qed.
Lemma at_skip f l p k : at_ f p l -> (k <= length l)%nat -> at_ f (p + Z.of_nat k) (skipn k l).
Proof.
  intros A H. rewrite <- (firstn_skipn k l) in A. apply at_app in A. destruct A as [_ A]. rewrite firstn_length, Nat.min_l in A by lia. exact A.
Qed.
Lemma at_first f l p k : at_ f p l -> at_ f p (firstn k l).
Proof. intros A. rewrite <- (firstn_skipn k l) in A. apply at_app in A. tauto. Qed.
Lemma at_zu f p l i v : i < p \/ p + Z.of_nat (length l) <= i -> at_ f p l -> at_ (zu f i v) p l.
Proof. intros H. apply at_ext. intros k Hk. apply zu_ne. lia. Qed.

(* the objects x with 0 <= pe x are stored, one behind another, below P *)
Record mem (n : nat) (P : Z) (pe len : nat -> Z) (f : Z -> Z) (B : nat -> list nat) : Prop := {
  m_ne : forall x, (x < n)%nat -> 0 <= pe x -> B x <> [];
  m_len : forall x, (x < n)%nat -> 0 <= pe x -> len x = Z.of_nat (length (B x));
  m_end : forall x, (x < n)%nat -> 0 <= pe x -> pe x + len x <= P;
  m_at : forall x, (x < n)%nat -> 0 <= pe x -> at_ f (pe x) (B x);
  m_disj : forall x y, (x < n)%nat -> (y < n)%nat -> x <> y -> 0 <= pe x -> 0 <= pe y -> pe x + len x <= pe y \/ pe y + len y <= pe x;
  m_cells : forall p, 0 <= p < P -> 0 <= f p < Z.of_nat n }.

Lemma m_pos n P pe len f B : mem n P pe len f B -> forall x, (x < n)%nat -> 0 <= pe x -> 1 <= len x.
Proof. intros M x Hx H. rewrite (m_len _ _ _ _ _ _ M x Hx H). pose proof (m_ne _ _ _ _ _ _ M x Hx H). destruct (B x); [congruence|cbn [length]; lia]. Qed.

Section GC.
Context (n : nat) (N P pfree : Z) (pe len : nat -> Z) (f : Z -> Z) (B : nat -> list nat).
Context (M : mem n P pe len f B) (HP : 0 <= P <= pfree) (HN : pfree <= N).

Local Notation live x := ((x < n)%nat /\ 0 <= pe x).
Definition stored_len (pe len : nat -> Z) (x : nat) : Z := if 0 <=? pe x then len x else 0.

Lemma mark_ok Pe Iw : fa Pe n pe -> fz Iw N pfree f ->
  wp (mark_objects n (Pe, Iw)) (fun '(Pe, Iw) => exists pe1 f1, fa Pe n pe1 /\ fz Iw N pfree f1 /\
    (forall x, live x -> pe1 x = f (pe x) /\ f1 (pe x) = FLIP (Z.of_nat x)) /\
    (forall x, (x < n)%nat -> pe x < 0 -> pe1 x = pe x) /\
    (forall p, (forall x, live x -> p <> pe x) -> f1 p = f p)).
Proof.
  intros F1 F2. unfold mark_objects.
  apply (wp_for (fun j '(Pe, Iw) => exists pe1 f1, fa Pe n pe1 /\ fz Iw N pfree f1 /\
    (forall x, live x -> (x < j)%nat -> pe1 x = f (pe x) /\ f1 (pe x) = FLIP (Z.of_nat x)) /\
    (forall x, (x < n)%nat -> pe x < 0 \/ (j <= x)%nat -> pe1 x = pe x) /\
    (forall p, (forall x, live x -> (x < j)%nat -> p <> pe x) -> f1 p = f p))); [lia| | |].
  - exists pe, f. split; [exact F1|]. split; [exact F2|]. split; [intros; lia|]. split; auto.
  - intros j [Pe1 Iw1] Hj (pe1 & f1 & A1 & A2 & A3 & A4 & A5). wb. eapply wfa_get; [exact A1|lia|].
    rewrite (A4 j) by lia. destruct (Z.geb_spec (pe j) 0) as [H|H].
    + pose proof (m_pos _ _ _ _ _ _ M j ltac:(lia) H). pose proof (m_end _ _ _ _ _ _ M j ltac:(lia) H).
      assert (NE : forall x, live x -> x <> j -> pe x <> pe j).
      { intros x [X1 X2] X3 X4. pose proof (m_pos _ _ _ _ _ _ M x X1 X2). destruct (m_disj _ _ _ _ _ _ M x j X1 ltac:(lia) X3 X2 H); lia. }
      wb. eapply wfz_get; [exact A2|lia|]. wb. eapply wfa_set; [exact A1|lia|]. intros Pe2 B1. wb. eapply wfz_set'; [exact A2|lia|lia|]. intros Iw2 B2.
      cbn [wp]. exists (fu pe1 j (f1 (pe j))), (zu f1 (pe j) (FLIP (Z.of_nat j))). split; [exact B1|]. split; [exact B2|]. split; [|split].
      * intros x X1 X2. destruct (Nat.eq_dec x j) as [->|X3].
        -- rewrite fu_eq, zu_eq. split; [|reflexivity]. apply A5. intros x X3 X4. apply not_eq_sym, NE; [auto|lia].
        -- rewrite fu_ne by auto. rewrite zu_ne by (apply NE; auto). apply A3; auto. lia.
      * intros x X1 X2. destruct (Nat.eq_dec x j) as [->|X3]; [lia|]. rewrite fu_ne by auto. apply A4; auto. lia.
      * intros p X. rewrite zu_ne by (apply X; lia). apply A5. intros x X1 X2. apply X; auto.
    + cbn [wp]. exists pe1, f1. split; [exact A1|]. split; [exact A2|]. split; [|split].
      * intros x X1 X2. apply A3; auto. assert (x <> j) by (intros ->; lia). lia.
      * intros x X1 X2. destruct (Nat.eq_dec x j) as [->|X3]; [apply A4; lia|]. apply A4; lia.
      * intros p X. apply A5. intros x X1 X2. apply X; auto.
  - intros [Pe1 Iw1] (pe1 & f1 & A1 & A2 & A3 & A4 & A5). exists pe1, f1. split; [exact A1|]. split; [exact A2|]. split; [|split].
    + intros x X. apply A3; [auto|lia].
    + intros x X1 X2. apply A4; auto.
    + intros p X. apply A5. intros x X1 _. auto.
Qed.

(* length of the objects that start before s *)
Definition before (s : Z) (x : nat) : Z := if (0 <=? pe x) && (pe x <? s) then len x else 0.

Lemma before_step s j : live j -> pe j = s ->
  (forall x, live x -> s <= pe x < s + len j -> x = j) ->
  zs (before (s + len j)) (seq 0 n) = zs (before s) (seq 0 n) + len j.
Proof.
  intros [J1 J2] J3 H. pose proof (m_pos _ _ _ _ _ _ M j J1 J2) as J4.
  rewrite (zs_upd (before s) (before (s + len j)) (seq 0 n) j); [| apply seq_NoDup | apply in_seq; lia |].
  - unfold before. destruct (Z.leb_spec 0 (pe j)); [|lia]. destruct (Z.ltb_spec (pe j) (s + len j)); [|lia]. destruct (Z.ltb_spec (pe j) s); [lia|]. cbn [andb]. lia.
  - intros y Hy Hne. apply in_seq in Hy. unfold before. destruct (Z.leb_spec 0 (pe y)); [|reflexivity]. cbn [andb].
    destruct (Z.ltb_spec (pe y) (s + len j)), (Z.ltb_spec (pe y) s); try reflexivity; try lia. exfalso. apply Hne, H; [split|]; lia.
Qed.
Lemma before_skip s : (forall x, live x -> pe x <> s) -> zs (before (s + 1)) (seq 0 n) = zs (before s) (seq 0 n).
Proof.
  intros H. apply zs_ext. intros y Hy. apply in_seq in Hy. unfold before. destruct (Z.leb_spec 0 (pe y)); [|reflexivity]. cbn [andb].
  destruct (Z.ltb_spec (pe y) (s + 1)), (Z.ltb_spec (pe y) s); try reflexivity; try lia. exfalso. apply (H y); [split|]; lia.
Qed.

Lemma gc_ok Pe Len Iw : fa Pe n pe -> fa Len n len -> fz Iw N pfree f ->
  wp (collect_garbage n P pfree Len Pe Iw) (fun '(pme1, pfree', Pe, Iw) => exists pe' f',
    fa Pe n pe' /\ fz Iw N pfree' f' /\ mem n pme1 pe' len f' B /\
    (forall x, (x < n)%nat -> pe x < 0 -> pe' x = pe x) /\ (forall x, live x -> 0 <= pe' x) /\
    pfree' = pme1 + (pfree - P) /\ pme1 = zs (stored_len pe len) (seq 0 n) /\ 0 <= pme1 <= P /\
    (forall k, 0 <= k < pfree - P -> f' (pme1 + k) = f (P + k))).
Proof.
  intros F1 F2 F3. unfold collect_garbage. wb. eapply wp_conseq; [apply (mark_ok _ _ F1 F3)|]. intros [Pe1 Iw1] (pe1 & f1 & A1 & A2 & A3 & A4 & A5).
  cbv beta iota. wb.
  eapply (wp_while (fun '(psrc, pdst, Pe, Iw) => 0 <= pdst <= psrc /\ psrc <= P /\
    pdst = zs (before psrc) (seq 0 n) /\
    (forall x, live x -> pe x < psrc -> pe x + len x <= psrc) /\
    exists pe2 f2, fa Pe n pe2 /\ fz Iw N pfree f2 /\
      (forall x, live x -> pe x < psrc -> 0 <= pe2 x /\ pe2 x + len x <= pdst /\ at_ f2 (pe2 x) (B x)) /\
      (forall x y, live x -> live y -> x <> y -> pe x < psrc -> pe y < psrc -> pe2 x + len x <= pe2 y \/ pe2 y + len y <= pe2 x) /\
      (forall x, live x -> psrc <= pe x -> pe2 x = f (pe x)) /\
      (forall x, (x < n)%nat -> pe x < 0 -> pe2 x = pe x) /\
      (forall p, psrc <= p -> f2 p = f1 p) /\
      (forall p, 0 <= p < pdst -> 0 <= f2 p < Z.of_nat n)) (fun '(psrc, _, _, _) => Z.to_nat (P - psrc))).
  - intros [[[psrc pdst] Pe2] Iw2] (I1 & I2 & I3 & I4 & pe2 & f2 & I5 & I6 & I7 & I8 & I9 & I10 & I11 & I12). cbn [wp].
    destruct (Z.leb_spec psrc (P - 1)) as [Hs|Hs].
    + unfold move_object. wb. eapply wfz_get; [exact I6|lia|]. rewrite I11 by lia.
      assert (D : (exists j, live j /\ pe j = psrc) \/ (forall x, live x -> psrc <> pe x)).
      { assert (D : forall m, (exists j, (j < m)%nat /\ live j /\ pe j = psrc) \/ (forall x, (x < m)%nat -> live x -> psrc <> pe x)).
        { induction m as [|m IH]; [right; intros; lia|]. destruct IH as [(j & X & Y)|IH]; [left; exists j; split; [lia|auto]|].
          destruct (Z.eq_dec (pe m) psrc) as [E|E]; [|right; intros x X1 X2; destruct (Nat.eq_dec x m) as [->|]; [auto|apply IH; auto; lia]].
          destruct (lt_dec m n); [left; exists m; split; [lia|]; split; [split; lia|auto]|].
          right. intros x X1 X2. apply IH; auto. lia. }
        destruct (D n) as [(j & _ & X)|X]; [left; exists j; auto|right; intros x Hx; apply X; tauto]. }
      destruct D as [(j & [J1 J2] & J3)|D].
      * destruct (A3 j (conj J1 J2)) as [_ E1]. rewrite <- J3, E1. rewrite J3.
        assert (E2 : FLIP (FLIP (Z.of_nat j)) = Z.of_nat j) by (unfold FLIP; lia). rewrite E2. destruct (Z.geb_spec (Z.of_nat j) 0); [|lia].
        pose proof (m_pos _ _ _ _ _ _ M j J1 J2) as LJ. pose proof (m_end _ _ _ _ _ _ M j J1 J2) as EJ. pose proof (m_len _ _ _ _ _ _ M j J1 J2) as LJ'.
        wb. eapply wfa_getn; [exact I5|lia|]. rewrite (I9 j) by (try split; lia). rewrite J3.
        wb. eapply wfz_set'; [exact I6|lia|lia|]. intros Iw3 G1. wb. eapply wfa_setn; [exact I5|lia|]. intros Pe3 G2.
        wb. eapply wfa_getn; [exact F2|lia|].
        assert (UQ : forall x, live x -> psrc <= pe x < psrc + len j -> x = j).
        { intros x [X1 X2] X3. destruct (Nat.eq_dec x j); [auto|]. pose proof (m_pos _ _ _ _ _ _ M x X1 X2).
          destruct (m_disj _ _ _ _ _ _ M x j X1 J1 n0 X2 J2); lia. }
        wb. eapply wp_conseq.
        { apply (wp_for_loop (fun k '(ps, pd, Iw) => ps = psrc + 1 + Z.of_nat k /\ pd = pdst + 1 + Z.of_nat k /\ exists f3, fz Iw N pfree f3 /\
            (forall i, 0 <= i <= Z.of_nat k -> f3 (pdst + i) = f (psrc + i)) /\ (forall p, p < pdst -> f3 p = f2 p) /\ (forall p, ps <= p -> f3 p = f1 p))).
          - split; [lia|]. split; [lia|]. exists (zu f2 pdst (f psrc)). split; [exact G1|]. split; [|split].
            + intros i Hi. assert (i = 0) as -> by lia. rewrite !Z.add_0_r. apply zu_eq.
            + intros p Hp. apply zu_ne. lia.
            + intros p Hp. rewrite zu_ne by lia. apply I11. lia.
          - intros k [[ps pd] Iw4] Hk (-> & -> & f3 & K1 & K2 & K3 & K4). wb. eapply wfz_get; [exact K1|lia|]. wb. eapply wfz_set'; [exact K1|lia|lia|].
            intros Iw5 K5. cbn [wp]. split; [lia|]. split; [lia|]. eexists. split; [exact K5|]. split; [|split].
            + intros i Hi. destruct (Z.eq_dec i (Z.of_nat k + 1)) as [->|].
              * replace (pdst + (Z.of_nat k + 1)) with (pdst + 1 + Z.of_nat k) by lia. rewrite zu_eq, K4 by lia. rewrite A5; [f_equal; lia|].
                intros x X1 X2. assert (x = j) by (apply UQ; auto; lia). subst x. lia.
              * rewrite zu_ne by lia. apply K2. lia.
            + intros p Hp. rewrite zu_ne by lia. apply K3; lia.
            + intros p Hp. rewrite zu_ne by lia. apply K4; lia. }
        intros [[ps pd] Iw4] (-> & -> & f3 & K1 & K2 & K3 & K4). cbn [wp].
        replace (psrc + 1 + Z.of_nat (0 + Z.to_nat (len j - 1))) with (psrc + len j) in * by lia.
        replace (pdst + 1 + Z.of_nat (0 + Z.to_nat (len j - 1))) with (pdst + len j) in * by lia.
        split; [|lia]. split; [lia|]. split; [lia|]. split.
        { rewrite (before_step psrc j); [lia|split; lia|exact J3|exact UQ]. }
        split.
        { intros x X1 X2. destruct (Z_lt_dec (pe x) psrc) as [X3|X3]; [specialize (I4 x X1 X3); lia|]. rewrite (UQ x X1) by lia. lia. }
        assert (OLD : forall x, live x -> x <> j -> pe x < psrc + len j -> pe x < psrc).
        { intros x X1 X2 X3. destruct (Z_lt_dec (pe x) psrc); [auto|]. exfalso. apply X2, UQ; auto. lia. }
        exists (fu pe2 j pdst), f3. split; [exact G2|]. split; [exact K1|]. split; [|split; [|split; [|split; [|split]]]].
        -- intros x X1 X2. destruct (Nat.eq_dec x j) as [->|X3].
           ++ rewrite fu_eq. split; [lia|]. split; [lia|]. apply (at_ext f f3 (B j) (pe j)); [|apply (m_at _ _ _ _ _ _ M); auto].
              intros k Hk. rewrite K2, J3; [reflexivity|lia].
           ++ rewrite fu_ne by auto. destruct (I7 x X1 (OLD x X1 X3 X2)) as (Y1 & Y2 & Y3). split; [lia|]. split; [lia|].
              apply (at_ext f2 f3 (B x) (pe2 x)); [|exact Y3]. intros k Hk. apply K3. pose proof (m_len _ _ _ _ _ _ M x (proj1 X1) (proj2 X1)). lia.
        -- intros x y X1 X2 X3 X4 X5. destruct (Nat.eq_dec x j) as [->|X6]; destruct (Nat.eq_dec y j) as [->|X7]; [congruence| | |]; rewrite ?fu_eq; rewrite ?fu_ne by auto.
           ++ destruct (I7 y X2 (OLD y X2 X7 X5)) as (Y1 & Y2 & Y3). lia.
           ++ destruct (I7 x X1 (OLD x X1 X6 X4)) as (Y1 & Y2 & Y3). lia.
           ++ apply I8; auto.
        -- intros x X1 X2. rewrite fu_ne by (intros ->; lia). apply I9; auto. lia.
        -- intros x X1 X2. rewrite fu_ne by (intros ->; lia). apply I10; auto.
        -- intros p Hp. apply K4. lia.
        -- intros p Hp. destruct (Z_lt_dec p pdst) as [X|X]; [rewrite K3 by lia; apply I12; lia|].
           replace p with (pdst + (p - pdst)) by lia. rewrite K2 by lia. apply (m_cells _ _ _ _ _ _ M). lia.
      * rewrite A5 by (intros x Hx; apply D; auto).
        pose proof (m_cells _ _ _ _ _ _ M psrc ltac:(lia)). destruct (Z.geb_spec (FLIP (f psrc)) 0) as [X|X]; [unfold FLIP in X; lia|]. cbn [wp].
        split; [|lia]. split; [lia|]. split; [lia|]. split; [rewrite before_skip; [exact I3|intros x Hx; apply not_eq_sym, D; auto]|].
        assert (OLD : forall x, live x -> pe x < psrc + 1 -> pe x < psrc). { intros x X1 X2. specialize (D x X1). lia. }
        split; [intros x X1 X2; specialize (I4 x X1 (OLD x X1 X2)); lia|].
        exists pe2, f2. split; [exact I5|]. split; [exact I6|]. split; [|split; [|split; [|split; [|split]]]]; auto.
        -- intros x X1 X2. apply I9; auto. lia.
        -- intros p Hp. apply I11. lia.
    + assert (psrc = P) as -> by lia.
      assert (DN : forall x, live x -> pe x < P). { intros x [X1 X2]. pose proof (m_pos _ _ _ _ _ _ M x X1 X2). pose proof (m_end _ _ _ _ _ _ M x X1 X2). lia. }
      wb. eapply wp_conseq.
      { apply (wp_for_loop (fun k '(pd, Iw) => pd = pdst + Z.of_nat k /\ exists f3, fz Iw N pfree f3 /\
            (forall i, 0 <= i < Z.of_nat k -> f3 (pdst + i) = f (P + i)) /\ (forall p, p < pdst -> f3 p = f2 p) /\ (forall p, P + Z.of_nat k <= p -> f3 p = f p))).
        - split; [lia|]. exists f2. split; [exact I6|]. split; [intros; lia|]. split; [auto|]. intros p Hp. rewrite I11 by lia. apply A5.
          intros x X ->. specialize (DN x X). lia.
        - intros k [pd Iw4] Hk (-> & f3 & K1 & K2 & K3 & K4). wb. eapply wfz_get; [exact K1|lia|]. wb. eapply wfz_set'; [exact K1|lia|lia|].
          intros Iw5 K5. cbn [wp]. split; [lia|]. eexists. split; [exact K5|]. split; [|split].
          + intros i Hi. destruct (Z.eq_dec i (Z.of_nat k)) as [->|]; [rewrite zu_eq, K4 by lia; reflexivity|]. rewrite zu_ne by lia. apply K2. lia.
          + intros p Hp. rewrite zu_ne by lia. apply K3; lia.
          + intros p Hp. rewrite zu_ne by lia. apply K4; lia. }
      intros [pd Iw4] (-> & f3 & K1 & K2 & K3 & K4). cbn [wp]. replace (Z.of_nat (0 + Z.to_nat (pfree - P))) with (pfree - P) in * by lia.
      exists pe2, f3. split; [exact I5|]. split; [eapply fz_ext; [exact K1|lia|reflexivity]|]. split; [|split; [exact I10|split; [|split; [reflexivity|split; [|split; [lia|]]]]]].
      * constructor.
        -- intros x X1 X2. destruct (Z_lt_dec (pe x) 0) as [Y|Y]; [rewrite I10 in X2 by auto; lia|]. apply (m_ne _ _ _ _ _ _ M); [auto|lia].
        -- intros x X1 X2. destruct (Z_lt_dec (pe x) 0) as [Y|Y]; [rewrite I10 in X2 by auto; lia|]. apply (m_len _ _ _ _ _ _ M); [auto|lia].
        -- intros x X1 X2. destruct (Z_lt_dec (pe x) 0) as [Y|Y]; [rewrite I10 in X2 by auto; lia|]. apply I7; [split; lia|]. apply DN. split; lia.
        -- intros x X1 X2. destruct (Z_lt_dec (pe x) 0) as [Y|Y]; [rewrite I10 in X2 by auto; lia|].
           assert (LX : live x) by (split; lia). destruct (I7 x LX (DN x LX)) as (Y1 & Y2 & Y3).
           apply (at_ext f2 f3 (B x) (pe2 x)); [|exact Y3]. intros k Hk. apply K3. pose proof (m_len _ _ _ _ _ _ M x X1 (proj2 LX)). lia.
        -- intros x y X1 X2 X3 X4 X5. destruct (Z_lt_dec (pe x) 0) as [Y|Y]; [rewrite I10 in X4 by auto; lia|]. destruct (Z_lt_dec (pe y) 0) as [Y'|Y']; [rewrite (I10 y) in X5 by auto; lia|].
           apply I8; auto; try (split; lia); apply DN; split; lia.
        -- intros p Hp. rewrite K3 by lia. apply I12. lia.
      * intros x X. apply I7; auto.
      * rewrite I3. apply zs_ext. intros x Hx. apply in_seq in Hx. unfold before, stored_len. destruct (Z.leb_spec 0 (pe x)); [|reflexivity]. cbn [andb].
        destruct (Z.ltb_spec (pe x) P) as [X|X]; [reflexivity|]. specialize (DN x ltac:(split; lia)). lia.
      * exact K2.
  - split; [lia|]. split; [lia|]. split.
    { symmetry. apply zs_0. intros x _. unfold before. destruct (Z.leb_spec 0 (pe x)), (Z.ltb_spec (pe x) 0); try reflexivity; lia. }
    split; [intros x X1 X2; lia|]. exists pe1, f1. split; [exact A1|]. split; [exact A2|].
    split; [intros x [X0 X1] X2; lia|]. split; [intros x y [X0 X1] X2 X3 X4; lia|]. split; [intros x X1 X2; apply A3; auto|]. split; [exact A4|]. split; [auto|]. intros; lia.
  - lia.
Qed.
End GC.
