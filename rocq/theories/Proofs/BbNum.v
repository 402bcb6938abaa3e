(* The rounding helpers of the mixed-integer module in exact arithmetic, and the
   shuffle. *)
From Coq Require Import Reals Lra ZArith QArith Qreals Bool Lia List Permutation.
From Verif Require Import Base Num NumE NumI.
From Verif.Model Require Import Consts Bb.
From Verif.Spec Require Import Integer.
Import ListNotations.
Open Scope R_scope.

Lemma f0_E' : @f0 EOps = Fin 0.
Proof. unfold f0; simpl. f_equal. unfold Q2R; simpl; lra. Qed.
Lemma f1_E' : @f1 EOps = Fin 1.
Proof. unfold f1; simpl. f_equal. unfold Q2R; simpl; lra. Qed.
Lemma half_E : @half EOps = Fin (/ 2).
Proof. unfold half; simpl. f_equal. unfold Q2R; simpl; lra. Qed.
Lemma m1_E : @fconst EOps (-1) = Fin (- 1).
Proof. simpl. f_equal. unfold Q2R; simpl; lra. Qed.
Lemma fofZ_E z : @fofZ EOps z = Fin (IZR z).
Proof. unfold fofZ; simpl. f_equal. unfold Q2R; simpl; lra. Qed.

Definition Zfl (tol x : R) : Z := if Rlt_dec x 0 then Rtrunc (x - (1 - tol)) else Rtrunc x.
Definition Zce (tol x : R) : Z := if Rlt_dec x 0 then Rtrunc x else Rtrunc (x + (1 - tol)).
Definition Zro (x : R) : Z := if Rle_dec 0 x then Rtrunc (x + / 2) else Rtrunc (x - / 2).

Lemma floor_E x tol :
  @pfloat_floor EOps EInt (Fin x) (Fin tol) = bind (to_int (Zfl tol x)) (fun z => Some (Fin (IZR z))).
Proof.
  unfold pfloat_floor, Zfl. rewrite f0_E', f1_E'. cbn. unfold Rltb. destruct (Rlt_dec x 0); cbn.
  - replace (x + - (1 + - tol)) with (x - (1 - tol)) by lra. destruct (to_int _); cbn; auto. f_equal. apply fofZ_E.
  - destruct (to_int _); cbn; auto. f_equal. apply fofZ_E.
Qed.

Lemma ceil_E x tol :
  @pfloat_ceil EOps EInt (Fin x) (Fin tol) = bind (to_int (Zce tol x)) (fun z => Some (Fin (IZR z))).
Proof.
  unfold pfloat_ceil, Zce. rewrite f0_E', f1_E'. cbn. unfold Rltb. destruct (Rlt_dec x 0); cbn.
  - destruct (to_int _); cbn; auto. f_equal. apply fofZ_E.
  - replace (x + (1 + - tol)) with (x + (1 - tol)) by lra. destruct (to_int _); cbn; auto. f_equal. apply fofZ_E.
Qed.

Lemma round_E x :
  @pfloat_round EOps EInt (Fin x) = bind (to_int (Zro x)) (fun z => Some (Fin (IZR z))).
Proof.
  unfold pfloat_round, Zro. rewrite f0_E', half_E. cbn. unfold Rltb, Reqb.
  destruct (Rlt_dec 0 x), (Req_EM_T 0 x), (Rle_dec 0 x); cbn; try lra;
    (destruct (to_int _); cbn; auto; f_equal; apply fofZ_E).
Qed.

Lemma Zfl_spec tol x : 0 <= tol < 1 ->
  (0 <= x -> IZR (Zfl tol x) <= x < IZR (Zfl tol x) + 1) /\
  (x < 0 -> IZR (Zfl tol x) - tol < x <= IZR (Zfl tol x) + 1 - tol).
Proof.
  intros T. unfold Zfl. split; intros H; destruct (Rlt_dec x 0); try lra.
  - apply Rtrunc_pos; lra.
  - pose proof (Rtrunc_neg (x - (1 - tol)) ltac:(lra)). lra.
Qed.

Lemma Zce_spec tol x : 0 <= tol < 1 ->
  (0 <= x -> IZR (Zce tol x) - 1 + tol <= x < IZR (Zce tol x) + tol) /\
  (x < 0 -> IZR (Zce tol x) - 1 < x <= IZR (Zce tol x)).
Proof.
  intros T. unfold Zce. split; intros H; destruct (Rlt_dec x 0); try lra.
  - pose proof (Rtrunc_pos (x + (1 - tol)) ltac:(lra)). lra.
  - apply Rtrunc_neg; lra.
Qed.

Lemma Zro_spec x : IZR (Zro x) - / 2 <= x <= IZR (Zro x) + / 2.
Proof.
  unfold Zro. destruct (Rle_dec 0 x).
  - pose proof (Rtrunc_pos (x + / 2) ltac:(lra)). lra.
  - pose proof (Rtrunc_neg (x - / 2) ltac:(lra)). lra.
Qed.

(* floor <= ceil <= floor + 1 *)
Lemma Zfl_Zce tol x : 0 <= tol < 1 -> (Zfl tol x <= Zce tol x <= Zfl tol x + 1)%Z.
Proof.
  intros T. pose proof (Zfl_spec tol x T) as [A B]. pose proof (Zce_spec tol x T) as [C D].
  destruct (Rlt_or_le x 0) as [N|P].
  - specialize (B N). specialize (D N). split.
    + apply IZR_lt_int. lra.
    + apply IZR_lt_int. rewrite plus_IZR. lra.
  - specialize (A P). specialize (C P). split.
    + apply IZR_lt_int. lra.
    + apply IZR_lt_int. rewrite plus_IZR. lra.
Qed.

Lemma frac_lt tol x : 0 < tol < 1 -> fractional tol x ->
  (Zce tol x = Zfl tol x + 1)%Z /\ IZR (Zfl tol x) < x < IZR (Zce tol x).
Proof.
  intros T Fr. pose proof (Zfl_spec tol x ltac:(lra)) as [A B]. pose proof (Zce_spec tol x ltac:(lra)) as [C D].
  pose proof (Zfl_Zce tol x ltac:(lra)) as [E1 E2].
  pose proof (Fr (Zfl tol x)) as F1. pose proof (Fr (Zce tol x)) as F2.
  assert (K: IZR (Zfl tol x) < x < IZR (Zce tol x)).
  { unfold Rabs in F1, F2. destruct (Rcase_abs (x - IZR (Zfl tol x))), (Rcase_abs (x - IZR (Zce tol x)));
    destruct (Rlt_or_le x 0); [specialize (B H); specialize (D H)|specialize (A H); specialize (C H)|specialize (B H); specialize (D H)|specialize (A H); specialize (C H)|specialize (B H); specialize (D H)|specialize (A H); specialize (C H)|specialize (B H); specialize (D H)|specialize (A H); specialize (C H)]; lra. }
  split; auto. destruct K as [K1 K2]. assert (IZR (Zfl tol x) < IZR (Zce tol x)) by lra. apply lt_IZR in H. lia.
Qed.

Lemma frac_ro tol x : 0 < tol <= / 2 -> tol <= Rabs (x - IZR (Zro x)) -> fractional tol x.
Proof.
  intros T H z. destruct (Z.eq_dec z (Zro x)) as [->|N]; auto.
  pose proof (Zro_spec x) as [A B].
  destruct (Z_lt_le_dec z (Zro x)).
  - assert (IZR z <= IZR (Zro x - 1)) by (apply IZR_le; lia). rewrite minus_IZR in H0.
    rewrite Rabs_right; lra.
  - assert (IZR (Zro x + 1) <= IZR z) by (apply IZR_le; lia). rewrite plus_IZR in H0.
    rewrite Rabs_left1; lra.
Qed.

Lemma Zfl_range tol x : 0 <= tol < 1 -> - 2147483648 < x < 2147483648 -> (-2147483648 <= Zfl tol x <= 2147483647)%Z.
Proof.
  intros T [A B]. unfold Zfl. destruct (Rlt_dec x 0).
  - pose proof (Rtrunc_neg (x - (1 - tol)) ltac:(lra)).
    split; apply IZR_lt_int; lra.
  - apply trunc_range; lra.
Qed.
Lemma Zce_range tol x : 0 <= tol < 1 -> - 2147483648 < x < 2147483647 -> (-2147483648 <= Zce tol x <= 2147483647)%Z.
Proof.
  intros T [A B]. unfold Zce. destruct (Rlt_dec x 0); apply trunc_range; lra.
Qed.
Lemma Zro_range x : - 2147483648 < x < 2147483647 -> (-2147483648 <= Zro x <= 2147483647)%Z.
Proof.
  intros [A B]. unfold Zro. destruct (Rle_dec 0 x); apply trunc_range; lra.
Qed.

(* ------------------------------------------------------------ the shuffle *)

Lemma swap_perm {A} (l : list A) i j x y :
  nth_error l i = Some x -> nth_error l j = Some y -> Permutation l (upd (upd l j x) i y).
Proof.
  intros Hi Hj. apply Permutation_nth_error. split; [rewrite !upd_length; auto|].
  pose proof (proj1 (nth_error_Some l i) ltac:(congruence)) as Li.
  pose proof (proj1 (nth_error_Some l j) ltac:(congruence)) as Lj.
  exists (fun k => if Nat.eqb k i then j else if Nat.eqb k j then i else k). split.
  - intros a b E. destruct (Nat.eqb_spec a i), (Nat.eqb_spec a j), (Nat.eqb_spec b i), (Nat.eqb_spec b j); congruence.
  - intros k. rewrite !nth_error_upd, upd_length.
    apply Nat.ltb_lt in Li, Lj. rewrite Li, Lj.
    destruct (Nat.eqb_spec k i); [congruence|]. destruct (Nat.eqb_spec k j); [congruence|auto].
Qed.

Lemma upd_map {A B} (f : A -> B) l i v : upd (map f l) i (f v) = map f (upd l i v).
Proof. revert i; induction l; destruct i; simpl; auto. rewrite IHl. auto. Qed.

Lemma get_arr_of {T} (l : list T) i : get (arr_of l) i = nth_error l i.
Proof. unfold get, arr_of. rewrite nth_error_map. destruct (nth_error l i); auto. Qed.

Lemma draw_lt r k : (0 <= r <= RAND_MAX)%Z -> (0 < k)%nat ->
  (Z.to_nat (r / (RAND_MAX / Z.of_nat k + 1)) < k)%nat.
Proof.
  intros [A B] K. set (q := (RAND_MAX / Z.of_nat k + 1)%Z).
  assert (Q: (0 < q)%Z) by (unfold q; pose proof (Z.div_pos RAND_MAX (Z.of_nat k) ltac:(unfold RAND_MAX; lia) ltac:(lia)); lia).
  assert (Bd: (RAND_MAX < q * Z.of_nat k)%Z).
  { unfold q. pose proof (Z.mul_succ_div_gt RAND_MAX (Z.of_nat k) ltac:(lia)). unfold Z.succ in H. lia. }
  assert (r / q < Z.of_nat k)%Z by (apply Z.div_lt_upper_bound; lia).
  pose proof (Z.div_pos r q A Q). lia.
Qed.

Lemma upd_app {A} (l t : list A) x y i : i = length l -> upd (l ++ x :: t) i y = l ++ y :: t.
Proof. intros ->. induction l; cbn; auto. f_equal. auto. Qed.

Section Shuffle.
Context `{O : Ops}.
Lemma shuffle_ok (rnd : nat -> Z) n (w : BbTypes.bbwork F) :
  (forall k, (0 <= rnd k <= RAND_MAX)%Z) ->
  wp (get_shuffled_array rnd n w) (fun '(a, w') =>
    (exists l, a = arr_of l /\ Permutation l (seq 0 n)) /\ exists k, w' = BbTypes.set_bb_draws w k).
Proof.
  intros HR. unfold get_shuffled_array. apply wp_bind.
  apply wp_for with (Inv := fun i (a : arr nat) => a = arr_of (seq 0 i) ++ alloc (n - i)).
  - lia.
  - rewrite Nat.sub_0_r. auto.
  - intros i a Hi ->. rewrite set_ok.
    2:{ rewrite app_length, alloc_length. unfold arr_of. rewrite map_length, seq_length. lia. }
    apply wp_ret. rewrite seq_S. unfold arr_of. rewrite map_app. cbn [map plus]. rewrite <- app_assoc. cbn [app].
    replace (n - i)%nat with (S (n - S i)) by lia.
    apply (upd_app (map Some (seq 0 i)) (alloc (n - S i)) None (Some i) i). rewrite map_length, seq_length. auto.
  - intros a ->. rewrite Nat.sub_diag. cbn [alloc repeat]. rewrite app_nil_r.
    apply wp_bind.
    apply wp_for with (Inv := fun i '(a, k) => exists l, a = arr_of l /\ Permutation l (seq 0 n)).
    + lia.
    + exists (seq 0 n). auto.
    + intros i (a & k) Hi (l & -> & P).
      assert (Len: length l = n) by (rewrite (Permutation_length P), seq_length; auto).
      pose proof (draw_lt (rnd k) (n - i) (HR k) ltac:(lia)) as D.
      set (j := (i + Z.to_nat (rnd k / (RAND_MAX / Z.of_nat (n - i) + 1)))%nat) in *.
      destruct (nth_error l j) as [t|] eqn:Ej; [|apply nth_error_None in Ej; lia].
      destruct (nth_error l i) as [v|] eqn:Ei; [|apply nth_error_None in Ei; lia].
      rewrite !get_arr_of, Ej, Ei. cbn [bind].
      rewrite set_ok by (unfold arr_of; rewrite map_length; lia). cbn [bind].
      unfold arr_of. rewrite upd_map.
      rewrite set_ok by (rewrite map_length, upd_length; lia). cbn [bind].
      rewrite upd_map. cbn. eexists; split; [reflexivity|].
      eapply Permutation_trans; [|exact P]. symmetry. apply swap_perm; auto.
    + intros (a & k) (l & -> & P). cbn. split; eauto.
Qed.
End Shuffle.
