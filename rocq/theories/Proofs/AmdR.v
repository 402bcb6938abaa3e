(* AMD_preprocess: the row form of a pattern, sorted and without duplicates *)
From Coq Require Import List Arith ZArith Bool Lia.
From Verif Require Import Base.
From Verif.Model Require Import Amd.
From Verif.Spec Require Import Ordering.
From Verif.Proofs Require Import AmdB AmdV.
Import ListNotations.
Open Scope nat_scope.

Definition sumf (w : nat -> nat) (k : nat) : nat := list_sum (map w (seq 0 k)).
Lemma sumf_S w k : sumf w (S k) = sumf w k + w k.
Proof. unfold sumf. rewrite seq_S, map_app, list_sum_app. cbn. lia. Qed.
Lemma sumf_ext w w' k : (forall i, i < k -> w i = w' i) -> sumf w k = sumf w' k.
Proof. induction k as [|k IH]; intros H; [reflexivity|]. rewrite !sumf_S, IH, H; auto. Qed.
Lemma sumf_le w w' k : (forall i, i < k -> w i <= w' i) -> sumf w k <= sumf w' k.
Proof.
  induction k as [|k IH]; intros H; [reflexivity|]. rewrite !sumf_S. specialize (IH ltac:(auto)).
  specialize (H k ltac:(lia)). lia.
Qed.
Lemma sumf_bump w w' k i : i < k -> (forall t, t < k -> t <> i -> w' t = w t) -> w' i = S (w i) -> sumf w' k = S (sumf w k).
Proof.
  induction k as [|k IH]; intros Hi E1 E2; [lia|]. rewrite !sumf_S.
  destruct (Nat.eq_dec i k) as [->|].
  - rewrite E2. rewrite (sumf_ext w' w); [lia|]. intros; apply E1; lia.
  - rewrite IH by (auto; lia). rewrite (E1 k) by lia. lia.
Qed.
Lemma sumf_mono w i j : i <= j -> sumf w i <= sumf w j.
Proof. induction 1; [lia|]. rewrite sumf_S. lia. Qed.

Lemma sumf_0 w k : (forall i, i < k -> w i = 0) -> sumf w k = 0.
Proof. induction k as [|k IH]; intros H; [reflexivity|]. rewrite sumf_S, IH, H; auto. Qed.

Section Pre.
Variables (n : nat) (apn ain : nat -> nat).
Hypothesis ap0 : apn 0 = 0.
Hypothesis apm : forall j, j < n -> apn j <= apn (S j).
Hypothesis air : forall p, p < apn n -> ain p < n.
Variables (Ap Ai : arr Z).
Hypothesis HAp : forall j, j <= n -> get Ap j = Some (Z.of_nat (apn j)).
Hypothesis HAi : forall p, p < apn n -> get Ai p = Some (Z.of_nat (ain p)).

Lemma apm' : forall i j, i <= j -> j <= n -> apn i <= apn j.
Proof.
  intros i j Hij Hj. induction Hij as [|j Hij IH]; [lia|].
  specialize (IH ltac:(lia)). specialize (apm j ltac:(lia)). lia.
Qed.

(* i occurs among the entries apn j .. p-1 *)
Definition seenb (i j p : nat) : bool := existsb (fun q => ain q =? i) (seq (apn j) (p - apn j)).
Definition hasb (i j : nat) : bool := seenb i j (apn (S j)).
(* the columns in which row i has occurred so far *)
Definition cols (i j p : nat) : list nat := filter (hasb i) (seq 0 j) ++ (if seenb i j p then [j] else []).

Lemma seenb_0 i j : seenb i j (apn j) = false.
Proof. unfold seenb. rewrite Nat.sub_diag. reflexivity. Qed.
Lemma seenb_S i j p : apn j <= p -> seenb i j (S p) = seenb i j p || (ain p =? i).
Proof.
  intros H. unfold seenb. replace (S p - apn j) with (S (p - apn j)) by lia. rewrite seq_S, existsb_app.
  cbn. rewrite orb_false_r. replace (apn j + (p - apn j)) with p by lia. reflexivity.
Qed.
Lemma cols_0 i j : cols i j (apn j) = filter (hasb i) (seq 0 j).
Proof. unfold cols. rewrite seenb_0. apply app_nil_r. Qed.
Lemma cols_end i j : cols i j (apn (S j)) = filter (hasb i) (seq 0 (S j)).
Proof. unfold cols. rewrite seq_S, filter_app. cbn. reflexivity. Qed.

(* flags at entry p of column j *)
Definition flags (f : nat -> Z) (j p : nat) : Prop :=
  forall i, i < n -> if seenb i j p then f i = Z.of_nat j else (f i < Z.of_nat j)%Z.

Lemma flags_seen f j p i : flags f j p -> i < n -> negb (f i =? Z.of_nat j)%Z = negb (seenb i j p).
Proof.
  intros H Hi. specialize (H i Hi). destruct (seenb i j p).
  - rewrite H, Z.eqb_refl. reflexivity.
  - apply Z.lt_neq in H. apply Z.eqb_neq in H. rewrite H. reflexivity.
Qed.
Lemma flags_keep f j p : apn j <= p -> seenb (ain p) j p = true -> flags f j p -> flags f j (S p).
Proof.
  intros Hp Hs H i Hi. specialize (H i Hi). rewrite seenb_S by exact Hp.
  destruct (Nat.eqb_spec (ain p) i) as [E|E].
  - subst i. rewrite Hs in *. exact H.
  - rewrite orb_false_r. exact H.
Qed.
Lemma flags_set f j p : apn j <= p -> flags f j p -> flags (fu f (ain p) (Z.of_nat j)) j (S p).
Proof.
  intros Hp H i Hi. specialize (H i Hi). rewrite seenb_S by exact Hp. unfold fu.
  rewrite (Nat.eqb_sym i). destruct (ain p =? i); [rewrite orb_true_r; reflexivity|].
  rewrite orb_false_r. exact H.
Qed.
Lemma flags_next f j : flags f j (apn (S j)) -> flags f (S j) (apn (S j)).
Proof.
  intros H i Hi. specialize (H i Hi). rewrite seenb_0. destruct (seenb i j (apn (S j))); lia.
Qed.
Lemma cols_keep i j p : apn j <= p -> seenb (ain p) j p = true -> cols i j (S p) = cols i j p.
Proof.
  intros Hp Hs. unfold cols. rewrite seenb_S by exact Hp. destruct (Nat.eqb_spec (ain p) i) as [E|E].
  - subst i. rewrite Hs. reflexivity.
  - rewrite orb_false_r. reflexivity.
Qed.
Lemma cols_other i j p : apn j <= p -> i <> ain p -> cols i j (S p) = cols i j p.
Proof.
  intros Hp Hs. unfold cols. rewrite seenb_S by exact Hp.
  destruct (Nat.eqb_spec (ain p) i) as [E|E]; [congruence|]. rewrite orb_false_r. reflexivity.
Qed.
Lemma cols_add j p : apn j <= p -> seenb (ain p) j p = false -> cols (ain p) j (S p) = cols (ain p) j p ++ [j].
Proof.
  intros Hp Hs. unfold cols. rewrite seenb_S by exact Hp. rewrite Hs, Nat.eqb_refl, app_nil_r. reflexivity.
Qed.

(* counting *)
Definition cinv (j p : nat) (s : arr Z * arr Z) : Prop :=
  let '(W, Flag) := s in
  fa W n (fun i => Z.of_nat (length (cols i j p))) /\ (exists f, fa Flag n f /\ flags f j p) /\
  sumf (fun i => length (cols i j p)) n <= p.

Lemma count_ok W Flag : fa W n (fun _ => 0%Z) -> fa Flag n (fun _ => EMPTY) ->
  wp (pre_count n Ap Ai (W, Flag)) (cinv n (apn n)).
Proof.
  intros HW HF. unfold pre_count. apply (wp_for (fun j => cinv j (apn j))); [lia| | |auto].
  - split; [|split].
    + eapply fa_ext; [exact HW|]. intros i Hi. cbv beta. rewrite cols_0. reflexivity.
    + exists (fun _ => EMPTY). split; [exact HF|]. intros i Hi. cbv beta. rewrite seenb_0. reflexivity.
    + rewrite sumf_0; [lia|]. intros i Hi. cbv beta. rewrite cols_0. reflexivity.
  - intros j s Hj I. wb. apply (wp_get _ _ _ _ (HAp (j + 1) ltac:(lia))). wb. apply (wp_get _ _ _ _ (HAp j ltac:(lia))).
    rewrite Nat2Z.id. replace (Z.to_nat (Z.of_nat (apn (j + 1)) - Z.of_nat (apn j))) with (apn (S j) - apn j) by (rewrite Nat.add_1_r; lia).
    pose proof (apm j ltac:(lia)) as MM. pose proof (apm' (S j) n ltac:(lia) ltac:(lia)) as MN.
    eapply wp_conseq; [apply (wp_for_loop (cinv j)); [exact I|]|].
    + intros p [W1 F1] Hp (I1 & (f & I2 & I3) & I4). wb. eapply wp_get; [apply HAi; lia|].
      pose proof (air p ltac:(lia)) as Hr. wb. eapply wfa_getn; [exact I2|exact Hr|].
      rewrite (flags_seen _ _ _ _ I3 Hr). destruct (seenb (ain p) j p) eqn:SE; cbn [negb].
      * cbn. split; [|split].
        -- eapply fa_ext; [exact I1|]. intros i Hi. cbv beta. rewrite cols_keep by (auto; lia). reflexivity.
        -- exists f. split; [exact I2|]. apply flags_keep; auto; lia.
        -- rewrite (sumf_ext _ (fun i => length (cols i j p))); [lia|]. intros i Hi. cbv beta. rewrite cols_keep by (auto; lia). reflexivity.
      * wb. eapply wfa_getn; [exact I1|exact Hr|]. wb. eapply wfa_setn; [exact I1|exact Hr|]. intros W2 I1'.
        wb. eapply wfa_setn; [exact I2|exact Hr|]. intros F2 I2'. cbn. split; [|split].
        -- eapply fa_ext; [exact I1'|]. intros i Hi. unfold fu. destruct (Nat.eqb_spec i (ain p)) as [->|].
           ++ rewrite cols_add by (auto; lia). rewrite app_length. cbn. lia.
           ++ rewrite cols_other by (auto; lia). reflexivity.
        -- eexists. split; [exact I2'|]. apply flags_set; [lia|exact I3].
        -- rewrite (sumf_bump (fun i => length (cols i j p)) _ n (ain p)); [lia|exact Hr| |].
           ++ intros t Ht Hne. rewrite cols_other by (auto; lia). reflexivity.
           ++ rewrite cols_add by (auto; lia). rewrite app_length. cbn. lia.
    + intros [W1 F1] I'. replace (apn j + (apn (S j) - apn j)) with (apn (S j)) in I' by lia.
      destruct I' as (I1 & (f & I2 & I3) & I4).
      assert (EC : forall i, cols i j (apn (S j)) = cols i (S j) (apn (S j))) by (intros; rewrite cols_end, cols_0; reflexivity).
      split; [|split].
      * eapply fa_ext; [exact I1|]. intros i Hi. cbv beta. rewrite EC. reflexivity.
      * exists f. split; [exact I2|]. apply flags_next. exact I3.
      * rewrite (sumf_ext _ (fun i => length (cols i j (apn (S j))))); [lia|]. intros i Hi. cbv beta. rewrite EC. reflexivity.
Qed.

(* the columns of row i, and where row i starts *)
Definition fullr (i : nat) : list nat := filter (hasb i) (seq 0 n).
Definition rp (i : nat) : nat := sumf (fun i => length (fullr i)) i.

Lemma rp_S i : rp (S i) = rp i + length (fullr i).
Proof. clear HAi HAp Ai Ap air apm ap0. unfold rp. apply sumf_S. Qed.
Lemma rp_mono i j : i <= j -> rp i <= rp j.
Proof. clear HAi HAp Ai Ap air apm ap0. apply sumf_mono. Qed.

Lemma seenb_has i j p : apn j <= p -> p <= apn (S j) -> seenb i j p = true -> hasb i j = true.
Proof.
  intros H1 H2. unfold hasb, seenb. rewrite !existsb_exists. intros (q & Hq & E). exists q. split; [|exact E].
  apply in_seq in Hq. apply in_seq. lia.
Qed.
Lemma filter_seq_le (h : nat -> bool) a b : a <= b -> length (filter h (seq 0 a)) <= length (filter h (seq 0 b)).
Proof. clear HAi HAp Ai Ap air apm ap0.
  induction 1 as [|b H IH]; [lia|]. rewrite seq_S, filter_app, app_length. lia.
Qed.
Lemma cols_len i j p : j < n -> apn j <= p -> p <= apn (S j) -> length (cols i j p) <= length (fullr i).
Proof.
  intros Hj H1 H2. apply Nat.le_trans with (length (filter (hasb i) (seq 0 (S j)))).
  - unfold cols. rewrite seq_S, filter_app, !app_length. cbn. apply Nat.add_le_mono_l.
    destruct (seenb i j p) eqn:E; [|cbn; lia]. rewrite (seenb_has i j p) by assumption. cbn. lia.
  - apply filter_seq_le. lia.
Qed.

Definition finv (R j p : nat) (s : arr Z * arr Z * arr Z) : Prop :=
  let '(Ri, W, Flag) := s in
  length Ri = R /\
  fa W n (fun i => Z.of_nat (rp i + length (cols i j p))) /\ (exists f, fa Flag n f /\ flags f j p) /\
  forall i t, i < n -> t < length (cols i j p) -> get Ri (rp i + t) = Some (Z.of_nat (nth t (cols i j p) 0)).

Lemma fill_ok Ri W Flag : rp n <= length Ri ->
  fa W n (fun i => Z.of_nat (rp i)) -> fa Flag n (fun _ => EMPTY) ->
  wp (pre_fill n Ap Ai (Ri, W, Flag)) (finv (length Ri) n (apn n)).
Proof.
  intros HR HW HF. unfold pre_fill. apply (wp_for (fun j => finv (length Ri) j (apn j))); [lia| | |auto].
  - split; [reflexivity|]. split; [|split].
    + eapply fa_ext; [exact HW|]. intros i Hi. cbv beta. rewrite cols_0. cbn. f_equal. lia.
    + exists (fun _ => EMPTY). split; [exact HF|]. intros i Hi. cbv beta. rewrite seenb_0. reflexivity.
    + intros i t Hi. rewrite cols_0. cbn. lia.
  - intros j s Hj I. wb. apply (wp_get _ _ _ _ (HAp (j + 1) ltac:(lia))). wb. apply (wp_get _ _ _ _ (HAp j ltac:(lia))).
    rewrite Nat2Z.id. replace (Z.to_nat (Z.of_nat (apn (j + 1)) - Z.of_nat (apn j))) with (apn (S j) - apn j) by (rewrite Nat.add_1_r; lia).
    pose proof (apm j ltac:(lia)) as MM. pose proof (apm' (S j) n ltac:(lia) ltac:(lia)) as MN.
    eapply wp_conseq; [apply (wp_for_loop (finv (length Ri) j)); [exact I|]|].
    + intros p [[R1 W1] F1] Hp (I0 & I1 & (f & I2 & I3) & I4). wb. eapply wp_get; [apply HAi; lia|].
      pose proof (air p ltac:(lia)) as Hr. wb. eapply wfa_getn; [exact I2|exact Hr|].
      rewrite (flags_seen _ _ _ _ I3 Hr). destruct (seenb (ain p) j p) eqn:SE; cbn [negb].
      * cbn. split; [exact I0|]. split; [|split].
        -- eapply fa_ext; [exact I1|]. intros i Hi. cbv beta. rewrite cols_keep by (auto; lia). reflexivity.
        -- exists f. split; [exact I2|]. apply flags_keep; auto; lia.
        -- intros i t Hi. rewrite cols_keep by (auto; lia). apply I4. exact Hi.
      * assert (LB : forall i, i < n -> length (cols i j p) <= length (fullr i)) by (intros; apply cols_len; lia).
        assert (LA : length (cols (ain p) j (S p)) <= length (fullr (ain p))) by (apply cols_len; lia).
        rewrite cols_add in LA by (auto; lia). rewrite app_length in LA. cbn [length] in LA.
        pose proof (rp_S (ain p)) as RS. pose proof (rp_mono (S (ain p)) n ltac:(lia)) as RM.
        wb. eapply wfa_getn; [exact I1|exact Hr|]. cbv beta.
        wb. eapply wp_setn; [lia|]. intros R2 L2 G2.
        wb. eapply wfa_setn; [exact I1|exact Hr|]. intros W2 I1'.
        wb. eapply wfa_setn; [exact I2|exact Hr|]. intros F2 I2'. cbn. split; [lia|]. split; [|split].
        -- eapply fa_ext; [exact I1'|]. intros i Hi. unfold fu. destruct (Nat.eqb_spec i (ain p)) as [->|].
           ++ rewrite cols_add by (auto; lia). rewrite app_length. cbn. lia.
           ++ rewrite cols_other by (auto; lia). reflexivity.
        -- eexists. split; [exact I2'|]. apply flags_set; [lia|exact I3].
        -- intros i t Hi Ht. rewrite G2. destruct (Nat.eq_dec i (ain p)) as [->|NE].
           ++ rewrite cols_add in * by (auto; lia). rewrite app_length in Ht. cbn [length] in Ht.
              destruct (Nat.eqb_spec (rp (ain p) + t) (rp (ain p) + length (cols (ain p) j p))) as [E|E].
              ** replace t with (length (cols (ain p) j p)) by lia. rewrite nth_middle. reflexivity.
              ** rewrite app_nth1 by lia. apply I4; [exact Hr|lia].
           ++ rewrite cols_other in * by (auto; lia). specialize (LB i Hi).
              destruct (Nat.eqb_spec (rp i + t) (rp (ain p) + length (cols (ain p) j p))) as [E|E]; [exfalso|apply I4; assumption].
              destruct (Nat.lt_ge_cases i (ain p)).
              ** pose proof (rp_mono (S i) (ain p) ltac:(lia)). rewrite rp_S in H0. lia.
              ** pose proof (rp_mono (S (ain p)) i ltac:(lia)). lia.
    + intros [[R1 W1] F1] I'. replace (apn j + (apn (S j) - apn j)) with (apn (S j)) in I' by lia.
      destruct I' as (I0 & I1 & (f & I2 & I3) & I4).
      assert (EC : forall i, cols i j (apn (S j)) = cols i (S j) (apn (S j))) by (intros; rewrite cols_end, cols_0; reflexivity).
      split; [exact I0|]. split; [|split].
      * eapply fa_ext; [exact I1|]. intros i Hi. cbv beta. rewrite EC. reflexivity.
      * exists f. split; [exact I2|]. apply flags_next. exact I3.
      * intros i t. rewrite <- EC. apply I4.
Qed.

Lemma preprocess_run Rp Ri W Flag :
  length Rp = S n -> apn n <= length Ri -> length W = n -> length Flag = n ->
  wp (AMD_preprocess n Ap Ai Rp Ri W Flag) (fun '(Rp', Ri') =>
    fa Rp' (S n) (fun i => Z.of_nat (rp i)) /\ length Ri' = length Ri /\ rp n <= apn n /\
    forall i t, i < n -> t < length (fullr i) -> get Ri' (rp i + t) = Some (Z.of_nat (nth t (fullr i) 0))).
Proof.
  intros LR LRi LW LF. unfold AMD_preprocess.
  wb. eapply wp_conseq; [apply (wfa_fill2 W Flag n (fun _ => 0%Z) (fun _ => EMPTY)); assumption|].
  intros [W1 F1] [HW1 HF1]. wb. eapply wp_conseq; [apply count_ok; assumption|].
  intros [W2 F2] (HW2 & (f & HF2 & _) & SUM).
  assert (CE : forall i, cols i n (apn n) = fullr i) by (intros; apply cols_0).
  assert (RN : rp n <= apn n).
  { unfold rp. rewrite (sumf_ext _ (fun i => length (cols i n (apn n)))); [exact SUM|]. intros. rewrite CE. reflexivity. }
  wb. apply wp_set; [lia|]. intros Rp1 L1 G1.
  wb. apply (wp_for (fun k R => length R = S n /\ forall i, i <= k -> get R i = Some (Z.of_nat (rp i)))); [lia| | |].
  - split; [lia|]. intros i Hi. assert (i = 0) by lia. subst i. rewrite G1. reflexivity.
  - intros i R Hi [LR' GR]. wb. apply (wp_get _ _ _ _ (GR i ltac:(lia))).
    wb. eapply wfa_get; [exact HW2|lia|]. apply wp_set; [lia|]. intros R' L' G'. split; [lia|].
    intros k Hk. rewrite G'. destruct (Nat.eqb_spec k (i + 1)) as [->|]; [|apply GR; lia].
    rewrite Nat.add_1_r, rp_S, CE. f_equal. lia.
  - intros Rp2 [LR2 GR2].
    assert (HRp : fa Rp2 (S n) (fun i => Z.of_nat (rp i))).
    { split; [exact LR2|]. intros i Hi. apply GR2. lia. }
    wb. apply (wp_for (fun k '(W, F) => length W = n /\ length F = n /\
        (forall i, i < k -> get W i = Some (Z.of_nat (rp i))) /\ (forall i, i < k -> get F i = Some EMPTY))); [lia| | |].
    + destruct HW2 as [? _], HF2 as [? _]. repeat split; try assumption; intros; lia.
    + intros i [W3 F3] Hi (A1 & A2 & A3 & A4). wb. eapply wfa_get; [exact HRp|lia|].
      wb. apply wp_set; [lia|]. intros W' La Ga. wb. apply wp_set; [lia|].
      intros F' Lb Gb. cbn. repeat split; try lia; intros k Hk; [rewrite Ga|rewrite Gb];
      (destruct (Nat.eqb_spec k i) as [->|]; [reflexivity|]); [apply A3|apply A4]; lia.
    + intros [W3 F3] (A1 & A2 & A3 & A4).
      wb. eapply wp_conseq; [apply fill_ok; [lia|split; assumption|split; assumption]|].
      intros [[Ri' W4] F4] (B0 & B1 & B2 & B3). cbn. split; [exact HRp|]. split; [exact B0|]. split; [exact RN|].
      intros i t Hi Ht. specialize (B3 i t Hi). rewrite CE in B3. auto.
Qed.

Lemma sorted_filter (h : nat -> bool) len : forall lo t, S t < length (filter h (seq lo len)) ->
  nth t (filter h (seq lo len)) 0 < nth (S t) (filter h (seq lo len)) 0.
Proof. clear HAi HAp Ai Ap air apm ap0.
  induction len as [|len IH]; intros lo t Ht; [cbn in Ht; lia|]. cbn [seq filter] in *.
  destruct (h lo); [|apply IH; exact Ht].
  cbn [length] in Ht. destruct t as [|t]; cbn [nth].
  - destruct (filter h (seq (S lo) len)) as [|x l] eqn:E; [cbn in Ht; lia|]. cbn.
    assert (In x (filter h (seq (S lo) len))) as IN by (rewrite E; left; reflexivity).
    apply filter_In in IN. destruct IN as [IN _]. apply in_seq in IN. lia.
  - apply (IH (S lo)). lia.
Qed.

Lemma rp_find k p : p < rp k -> exists i, i < k /\ rp i <= p < rp i + length (fullr i).
Proof. clear HAi HAp Ai Ap air apm ap0.
  induction k as [|k IH]; intros H; [unfold rp, sumf in H; cbn in H; lia|]. rewrite rp_S in H.
  destruct (Nat.lt_ge_cases p (rp k)) as [L|L].
  - destruct (IH L) as (i & Hi & E). exists i. split; [lia|exact E].
  - exists k. split; [lia|lia].
Qed.
End Pre.

Theorem AMD_preprocess_ok n Ap Ai ap ai Rp Ri W Flag :
  well_formed (Z.of_nat n) n ap ai -> holds Ap (S n) ap -> holds Ai (Z.to_nat (ap n)) ai ->
  length Rp = S n -> Z.to_nat (ap n) <= length Ri -> length W = n -> length Flag = n ->
  exists Rp' Ri' rp ri,
    AMD_preprocess n Ap Ai Rp Ri W Flag = Some (Rp', Ri') /\
    length Rp' = S n /\ length Ri' = length Ri /\
    holds Rp' (S n) rp /\ holds Ri' (Z.to_nat (rp n)) ri /\
    well_formed (Z.of_nat n) n rp ri /\ ascending n rp ri /\ (rp n <= ap n)%Z /\
    (forall i j, entry n rp ri i j <-> entry n ap ai j i).
Proof.
  intros WF HP HI LR LRi LW LF.
  pose proof WF as (Z0 & MM & RR).
  assert (NN : forall j, j <= n -> (0 <= ap j)%Z) by (intros j Hj; pose proof (wf_mono _ _ _ _ WF 0 j ltac:(lia) Hj); lia).
  set (apn := fun j => Z.to_nat (ap j)). set (ain := fun p => Z.to_nat (ai p)).
  assert (EA : forall j, j <= n -> Z.of_nat (apn j) = ap j) by (intros j Hj; unfold apn; specialize (NN j Hj); lia).
  assert (RR' : forall p, p < apn n -> (0 <= ai p < Z.of_nat n)%Z) by (intros p Hp; apply RR; unfold apn in Hp; lia).
  assert (EI : forall p, p < apn n -> Z.of_nat (ain p) = ai p) by (intros p Hp; unfold ain; specialize (RR' p Hp); lia).
  assert (H : wp (AMD_preprocess n Ap Ai Rp Ri W Flag) (fun '(Rp', Ri') =>
    fa Rp' (S n) (fun i => Z.of_nat (rp n apn ain i)) /\ length Ri' = length Ri /\ rp n apn ain n <= apn n /\
    forall i t, i < n -> t < length (fullr n apn ain i) -> get Ri' (rp n apn ain i + t) = Some (Z.of_nat (nth t (fullr n apn ain i) 0)))).
  { apply preprocess_run; try assumption.
    - unfold apn. lia.
    - intros j Hj. unfold apn. specialize (MM j Hj). lia.
    - intros p Hp. specialize (RR' p Hp). unfold ain. lia.
    - intros j Hj. rewrite EA by exact Hj. apply HP. lia.
    - intros p Hp. rewrite EI by exact Hp. apply HI. exact Hp. }
  apply wp_elim in H. destruct H as ([Rp' Ri'] & E & (LR' & HR') & LI' & LE & GI).
  set (ri := fun p => gd 0%Z Ri' p).
  assert (GR : forall i t, i < n -> t < length (fullr n apn ain i) ->
      get Ri' (rp n apn ain i + t) = Some (ri (rp n apn ain i + t)) /\ ri (rp n apn ain i + t) = Z.of_nat (nth t (fullr n apn ain i) 0)).
  { intros i t Hi Ht. unfold ri, gd. rewrite (GI i t Hi Ht). auto. }
  assert (NB : forall i t, t < length (fullr n apn ain i) -> nth t (fullr n apn ain i) 0 < n).
  { intros i t Ht. pose proof (nth_In (fullr n apn ain i) 0 Ht) as IN. unfold fullr in IN at 2.
    apply filter_In in IN. destruct IN as [IN _]. apply in_seq in IN. lia. }
  exists Rp', Ri', (fun i => Z.of_nat (rp n apn ain i)), ri.
  split; [exact E|]. split; [exact LR'|]. split; [exact LI'|]. split; [exact HR'|]. split.
  { intros p Hp. rewrite Nat2Z.id in Hp. apply rp_find in Hp. destruct Hp as (i & Hi & Hp).
    replace p with (rp n apn ain i + (p - rp n apn ain i)) by lia. apply GR; [exact Hi|lia]. }
  split; [|split; [|split]].
  - split; [reflexivity|]. split.
    + intros j Hj. rewrite rp_S. lia.
    + intros p Hp. apply Nat2Z.inj_lt in Hp. apply rp_find in Hp. destruct Hp as (i & Hi & Hp).
      replace p with (rp n apn ain i + (p - rp n apn ain i)) by lia.
      rewrite (proj2 (GR i (p - rp n apn ain i) Hi ltac:(lia))).
      specialize (NB i (p - rp n apn ain i) ltac:(lia)). lia.
  - intros i p Hi H1 H2. rewrite rp_S in H2.
    assert (P1 : p = rp n apn ain i + (p - rp n apn ain i)) by lia.
    assert (P2 : S p = rp n apn ain i + S (p - rp n apn ain i)) by lia.
    rewrite P2. rewrite P1 at 1. rewrite (proj2 (GR i (p - rp n apn ain i) Hi ltac:(lia))).
    rewrite (proj2 (GR i (S (p - rp n apn ain i)) Hi ltac:(lia))). apply Nat2Z.inj_lt.
    apply sorted_filter. unfold fullr in H2. lia.
  - rewrite <- (EA n) by lia. lia.
  - (* entries *)
    assert (HB : forall i j, j < n -> (hasb apn ain i j = true <-> exists p, (ap j <= Z.of_nat p < ap (S j))%Z /\ ai p = Z.of_nat i)).
    { intros i j Hj. unfold hasb, seenb. rewrite existsb_exists.
      pose proof (EA j ltac:(lia)) as EAj. pose proof (EA (S j) ltac:(lia)) as EAs.
      pose proof (wf_mono _ _ _ _ WF (S j) n ltac:(lia) ltac:(lia)) as MN. rewrite <- (EA n), <- EAs in MN by lia.
      split.
      - intros (q & Hq & Eq). apply in_seq in Hq. apply Nat.eqb_eq in Eq. exists q. split; [lia|].
        rewrite <- EI by lia. lia.
      - intros (q & Hq & Eq). exists q. split; [apply in_seq; lia|]. apply Nat.eqb_eq.
        apply Nat2Z.inj. rewrite EI by lia. exact Eq. }
    intros i j. split.
    + intros (Hj & p & Hp & Ep). rewrite rp_S in Hp.
      assert (P1 : p = rp n apn ain j + (p - rp n apn ain j)) by lia. rewrite P1 in Ep.
      rewrite (proj2 (GR j (p - rp n apn ain j) Hj ltac:(lia))) in Ep. apply Nat2Z.inj in Ep.
      assert (IN : In i (fullr n apn ain j)) by (rewrite <- Ep; apply nth_In; lia).
      apply filter_In in IN. destruct IN as [IN HH]. apply in_seq in IN.
      split; [lia|]. apply HB; [lia|exact HH].
    + intros (Hi & Hp). pose proof Hp as (p & Hp1 & Hp2).
      assert (Hj : j < n).
      { assert (0 <= ai p < Z.of_nat n)%Z; [|lia]. apply RR.
        pose proof (wf_mono _ _ _ _ WF (S i) n ltac:(lia) ltac:(lia)). lia. }
      split; [exact Hj|]. apply HB in Hp; [|exact Hi].
      assert (IN : In i (fullr n apn ain j)) by (apply filter_In; split; [apply in_seq; lia|exact Hp]).
      apply (In_nth _ _ 0) in IN. destruct IN as (t & Ht & Et).
      exists (rp n apn ain j + t). split; [rewrite rp_S; lia|].
      rewrite (proj2 (GR j t Hj Ht)), Et. reflexivity.
Qed.
