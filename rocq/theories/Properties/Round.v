(* C35: the rounding helpers and the shuffle of the mixed-integer module. *)
From Coq Require Import Reals Lra ZArith Bool Lia List Permutation.
From Coq Require Import Floats.SpecFloat.
From Verif Require Import Base Num NumE NumI.
From Verif.Model Require Import Consts Bb BbTypes.
From Verif.Spec Require Import Integer.
From Verif.Proofs Require Import BbNum.
Import ListNotations.
Open Scope R_scope.

(* Floor: the mathematical floor, or the integer just above when that is closer
   than the tolerance (the latter only for negative values). *)
Theorem C35_floor (x tol : R) :
  0 < tol < 1 -> - 2147483648 < x < 2147483648 ->
  exists z, @pfloat_floor EOps EInt (Fin x) (Fin tol) = Some (Fin (IZR z)) /\
    (is_floor z x \/ (x < 0 /\ IZR z - tol < x < IZR z)) /\
    (fractional tol x \/ 0 <= x -> is_floor z x).
Proof.
  intros T Rx. exists (Zfl tol x). rewrite floor_E, to_int_ok by (apply Zfl_range; lra).
  split; [reflexivity|]. pose proof (Zfl_spec tol x ltac:(lra)) as [A B]. unfold is_floor. split.
  - destruct (Rlt_or_le x 0) as [N|P]; [|left; auto].
    specialize (B N). destruct (Rlt_or_le x (IZR (Zfl tol x))); [right|left]; lra.
  - intros [Fr|P]; [|auto].
    pose proof (frac_lt tol x T Fr) as [E [L1 L2]]. rewrite E, plus_IZR in L2. lra.
Qed.

(* Ceiling: the mathematical ceiling, or the integer just below when that is
   closer than the tolerance (the latter only for non-negative values). *)
Theorem C35_ceil (x tol : R) :
  0 < tol < 1 -> - 2147483648 < x < 2147483647 ->
  exists z, @pfloat_ceil EOps EInt (Fin x) (Fin tol) = Some (Fin (IZR z)) /\
    (is_ceil z x \/ (0 <= x /\ IZR z < x < IZR z + tol)) /\
    (fractional tol x \/ x < 0 -> is_ceil z x).
Proof.
  intros T Rx. exists (Zce tol x). rewrite ceil_E, to_int_ok by (apply Zce_range; lra).
  split; [reflexivity|]. pose proof (Zce_spec tol x ltac:(lra)) as [A B]. unfold is_ceil. split.
  - destruct (Rlt_or_le x 0) as [N|P]; [left; auto|].
    specialize (A P). destruct (Rlt_or_le (IZR (Zce tol x)) x); [right|left]; lra.
  - intros [Fr|P]; [|auto].
    pose proof (frac_lt tol x T Fr) as [E [L1 L2]]. rewrite E in L2 |- *. rewrite plus_IZR in *. lra.
Qed.

(* The two never leave an integer between them and never cross. *)
Theorem C35_bracket (x tol : R) (zf zc : Z) :
  0 < tol < 1 ->
  @pfloat_floor EOps EInt (Fin x) (Fin tol) = Some (Fin (IZR zf)) ->
  @pfloat_ceil EOps EInt (Fin x) (Fin tol) = Some (Fin (IZR zc)) ->
  (zf <= zc <= zf + 1)%Z.
Proof.
  intros T. rewrite floor_E, ceil_E.
  destruct (to_int (Zfl tol x)) as [a|] eqn:Ea; [|discriminate].
  destruct (to_int (Zce tol x)) as [b|] eqn:Eb; [|discriminate].
  cbn. intros K1 K2. injection K1 as K1. injection K2 as K2. apply eq_IZR in K1, K2.
  apply to_int_inv in Ea as [-> _]. apply to_int_inv in Eb as [-> _]. subst.
  apply Zfl_Zce. lra.
Qed.

(* Rounding delivers a nearest integer. *)
Theorem C35_round (x : R) :
  - 2147483648 < x < 2147483647 ->
  exists z, @pfloat_round EOps EInt (Fin x) = Some (Fin (IZR z)) /\ is_nearest z x.
Proof.
  intros Rx. exists (Zro x). rewrite round_E, to_int_ok by (apply Zro_range; lra).
  split; [reflexivity|]. pose proof (Zro_spec x). unfold is_nearest. apply Rabs_le. lra.
Qed.

(* The candidate shuffle is a permutation, for every sequence of random numbers,
   every number of candidates and every arithmetic; it draws n-1 numbers and
   changes nothing else. *)
Theorem C35_shuffle `{O : Ops} (rnd : nat -> Z) (n : nat) (w : bbwork F) :
  (forall k, (0 <= rnd k <= RAND_MAX)%Z) ->
  exists l k, get_shuffled_array rnd n w = Some (arr_of l, set_bb_draws w k) /\ Permutation l (seq 0 n).
Proof.
  intros HR. destruct (wp_elim _ _ (shuffle_ok rnd n w HR)) as ((a & w') & E & (l & -> & P) & k & ->).
  eauto.
Qed.

(* Outside the supported range the conversion to int is undefined. *)
Theorem C35_refuted_range (x tol : R) : 2147483648 <= x -> 0 <= tol <= 1 ->
  @pfloat_floor EOps EInt (Fin x) (Fin tol) = None /\ @pfloat_ceil EOps EInt (Fin x) (Fin tol) = None /\
  @pfloat_round EOps EInt (Fin x) = None.
Proof.
  intros H T. rewrite floor_E, ceil_E, round_E.
  assert (G: forall y, 2147483648 <= y -> to_int (Rtrunc y) = None).
  { intros y Hy. destruct (to_int (Rtrunc y)) eqn:E; auto. apply to_int_inv in E as [_ [_ E]].
    pose proof (Rtrunc_pos y ltac:(lra)). apply IZR_le in E. lra. }
  unfold Zfl, Zce, Zro. destruct (Rlt_dec x 0); [lra|]. destruct (Rle_dec 0 x); [|lra].
  rewrite !G by lra. auto.
Qed.

(* In binary64 rounding is not to nearest: x = 0.49999999999999994, the largest
   double below 1/2, is rounded to 1. *)
Theorem C35_refuted_round_binary64 :
  let x := S754_finite false 9007199254740991 (-54) in
  SFltb x (S754_finite false 4503599627370496 (-53)) = true /\
  @pfloat_round FOps FInt x = Some (@fofZ FOps 1).
Proof. split; vm_compute; reflexivity. Qed.

Print Assumptions C35_floor.
Print Assumptions C35_ceil.
Print Assumptions C35_bracket.
Print Assumptions C35_round.
Print Assumptions C35_shuffle.
Print Assumptions C35_refuted_range.
Print Assumptions C35_refuted_round_binary64.

(* non-vacuity *)
Example C35_ex : fractional (/ 10000) (5 / 2) /\ - 2147483648 < 5 / 2 < 2147483647.
Proof.
  split; [|lra]. intros z. destruct (Z_le_gt_dec z 2) as [L|L].
  - apply IZR_le in L. rewrite Rabs_right; lra.
  - assert (IZR 3 <= IZR z) by (apply IZR_le; lia). rewrite Rabs_left1; lra.
Qed.
