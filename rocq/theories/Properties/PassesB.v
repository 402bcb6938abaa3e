(* C33 in IEEE double precision: which values of a relaxation branch and bound can
   round without undefined behaviour. *)
From Coq Require Import Reals Lra Lia ZArith QArith List Bool.
From Flocq Require Import Core BinarySingleNaN.
From Verif Require Import Base Num NumI.
From Verif.Model Require Import Consts Bb.
From Verif.Spec Require Import Solver Integer.
From Verif.Proofs Require Import RoundB.
From Verif.Properties Require Passes.
Open Scope R_scope.

#[local] Existing Instance p53.
#[local] Existing Instance p53e.

(* the conversion to int: truncation towards zero, undefined out of range *)
#[export] Instance BInt (ex lg : b64 -> b64) : ToInt (BOps ex lg) :=
  { ftoi := fun a : b64 => if is_finite a then to_int (Btrunc a) else None }.

Section Conv.
Variables ex lg : b64 -> b64.
#[local] Existing Instance BInt.
Notation B := (BOps ex lg).

Lemma rnd_bpow x k : (0 <= k <= 1000)%Z -> Rabs x <= bpow radix2 k ->
  Rabs (rnd x) <= bpow radix2 k /\ Rlt_bool (Rabs (rnd x)) (bpow radix2 1024) = true.
Proof.
  intros K L. split.
  - apply abs_round_le_generic; auto with typeclass_instances.
    + change (Valid_exp (FLT_exp (-1074) 53)). apply FLT_exp_valid. exact p53.
    + change (generic_format radix2 (FLT_exp (-1074) 53) (bpow radix2 k)). apply generic_format_FLT_bpow; [exact p53|lia].
  - apply rnd_fin. rewrite bOm4. eapply Rle_trans; [exact L|]. apply bpow_le. lia.
Qed.

Definition small (k : Z) (x : b64) : Prop := is_finite x = true /\ Rabs (B2R x) <= bpow radix2 k.

Lemma plus_small (a b : b64) k : (0 <= k <= 1000)%Z -> is_finite a = true -> is_finite b = true ->
  Rabs (B2R a + B2R b) <= bpow radix2 k -> small k (Bplus mode_NE a b).
Proof.
  intros K A C L. pose proof (Bplus_correct 53 1024 _ _ mode_NE a b A C) as H.
  destruct (rnd_bpow _ _ K L) as [L1 L2]. rewrite L2 in H. destruct H as (H1 & H2 & _). split; [exact H2|]. rewrite H1. exact L1.
Qed.

Lemma minus_small (a b : b64) k : (0 <= k <= 1000)%Z -> is_finite a = true -> is_finite b = true ->
  Rabs (B2R a - B2R b) <= bpow radix2 k -> small k (Bminus mode_NE a b).
Proof.
  intros K A C L. pose proof (Bminus_correct 53 1024 _ _ mode_NE a b A C) as H.
  destruct (rnd_bpow _ _ K L) as [L1 L2]. rewrite L2 in H. destruct H as (H1 & H2 & _). split; [exact H2|]. rewrite H1. exact L1.
Qed.

Lemma trunc_small (a : b64) k : small k a -> Rabs (IZR (Btrunc a)) <= bpow radix2 k.
Proof.
  intros [A L]. rewrite Btrunc_correct by exact p53e.
  assert (E: round radix2 (FIX_exp 0) Ztrunc (B2R a) = IZR (Ztrunc (B2R a))).
  { unfold round, F2R, scaled_mantissa, cexp, FIX_exp. cbn. rewrite !Rmult_1_r. reflexivity. }
  rewrite E. eapply Rle_trans; [|exact L]. rewrite <- abs_IZR, <- Ztrunc_abs, Ztrunc_floor by apply Rabs_pos. apply Zfloor_lb.
Qed.

Lemma ftoi_small (a : b64) k : (0 <= k <= 30)%Z -> small k a ->
  exists z, @ftoi B _ a = Some z /\ Rabs (IZR z) <= bpow radix2 k.
Proof.
  intros K S. pose proof (trunc_small a k S) as L. destruct S as [A _].
  exists (Btrunc a). split; [|exact L]. cbn [ftoi BInt]. rewrite A. apply to_int_ok.
  assert (M: Rabs (IZR (Btrunc a)) <= IZR (2 ^ 30)).
  { eapply Rle_trans; [exact L|]. rewrite <- (bpow_powerRZ radix2 30) || idtac. change (IZR (2 ^ 30)) with (bpow radix2 30). apply bpow_le. lia. }
  rewrite <- abs_IZR in M. apply le_IZR in M. change (2 ^ 30)%Z with 1073741824%Z in M. lia.
Qed.

Lemma val_half : is_finite (@half B) = true /\ B2R (@half B) = / 2.
Proof.
  split; [vm_compute; reflexivity|]. rewrite <- SF2R_B2SF.
  assert (E: B2SF (@half B : b64) = SpecFloat.S754_finite false 4503599627370496 (-53)) by (vm_compute; reflexivity).
  rewrite E. unfold SF2R, F2R. cbn. lra.
Qed.
Lemma val_1 : is_finite (@f1 B) = true /\ B2R (@f1 B) = 1.
Proof.
  split; [vm_compute; reflexivity|]. rewrite <- SF2R_B2SF.
  assert (E: B2SF (@f1 B : b64) = SpecFloat.S754_finite false 4503599627370496 (-52)) by (vm_compute; reflexivity).
  rewrite E. unfold SF2R, F2R. cbn. lra.
Qed.

(* 1 - tol is between 0 and 1 *)
Lemma one_minus (tol : b64) : is_finite tol = true -> 0 <= B2R tol <= 1 -> small 0 (Bminus mode_NE (@f1 B) tol).
Proof.
  intros T L. destruct val_1 as [O1 O2]. apply minus_small; [lia|exact O1|exact T|].
  eapply eq_ind_r with (P := fun v => Rabs (v - B2R tol) <= _); [|exact O2]. cbn. rewrite Rabs_pos_eq; lra.
Qed.

Lemma room (x d : R) k : (0 <= k)%Z -> Rabs x <= bpow radix2 k - 1 -> Rabs d <= 1 ->
  Rabs (x + d) <= bpow radix2 k /\ Rabs (x - d) <= bpow radix2 k /\ Rabs x <= bpow radix2 k.
Proof. intros _ X D. unfold Rabs in *. repeat destruct (Rcase_abs _); lra. Qed.

Lemma round_small (x : b64) k : (0 <= k <= 30)%Z -> is_finite x = true -> Rabs (B2R x) <= bpow radix2 k - 1 ->
  exists z, @pfloat_round B _ x = Some (@fofZ B z) /\ Rabs (IZR z) <= bpow radix2 k.
Proof.
  intros K X L. destruct val_half as [H1 H2].
  assert (D: Rabs (B2R (@half B : b64)) <= 1). { eapply eq_ind_r with (P := fun v => Rabs v <= 1); [|exact H2]. rewrite Rabs_pos_eq; lra. }
  destruct (room _ _ k ltac:(lia) L D) as (R1 & R2 & _).
  pose proof (plus_small x (@half B) k ltac:(lia) X H1 R1) as P.
  pose proof (minus_small x (@half B) k ltac:(lia) X H1 R2) as M.
  unfold pfloat_round. destruct (@fle B f0 x).
  - destruct (ftoi_small _ k K P) as (z & E & Z). exists z. split; [|exact Z].
    change (@fadd B x half) with (Bplus mode_NE x (@half B)). rewrite E. reflexivity.
  - destruct (ftoi_small _ k K M) as (z & E & Z). exists z. split; [|exact Z].
    change (@fsub B x half) with (Bminus mode_NE x (@half B)). rewrite E. reflexivity.
Qed.

Lemma fofZ_small z k : (0 <= k <= 30)%Z -> Rabs (IZR z) <= bpow radix2 k -> small k (@fofZ B z).
Proof.
  intros K L. change (@fofZ B z) with (Bdiv mode_NE (b64_ofZ z) (b64_ofZ 1)).
  destruct ofZ_1 as [O1 O2].
  assert (S: small k (b64_ofZ z)).
  { unfold b64_ofZ. pose proof (binary_normalize_correct 53 1024 p53 p53e mode_NE z 0 false) as H. cbv zeta in H.
    assert (E1 : F2R (Float radix2 z 0) = IZR z :> R) by (unfold F2R; cbn; lra). rewrite E1 in H.
    destruct (rnd_bpow _ k ltac:(lia) L) as [L1 L2]. rewrite L2 in H. destruct H as (A & C & _). split; [exact C|]. rewrite A. exact L1. }
  destruct S as [S1 S2].
  assert (Q: Rabs (B2R (b64_ofZ z) / B2R (b64_ofZ 1)) <= bpow radix2 k) by (rewrite O2; unfold Rdiv; rewrite Rinv_1, Rmult_1_r; exact S2).
  destruct (div_val (b64_ofZ z) (b64_ofZ 1) S1 O1 ltac:(rewrite O2; lra)) as [D1 D2].
  { rewrite bOm4. eapply Rle_trans; [exact Q|]. apply bpow_le. lia. }
  split; [exact D1|]. rewrite D2. apply rnd_bpow; [lia|exact Q].
Qed.

(* Finite doubles of at most 2^30 - 1 can be rounded up, down and to nearest, for every
   tolerance between 0 and 1; those of at most 63 are chars once rounded. *)
Theorem C33_binary64_convertible (x tol : b64) :
  is_finite tol = true -> 0 <= B2R tol <= 1 ->
  is_finite x = true -> Rabs (B2R x) <= 1073741823 ->
  @convertible B (BInt ex lg) tol x /\ (Rabs (B2R x) <= 63 -> @char_sized B (BInt ex lg) x).
Proof.
  intros T T1 X L.
  assert (L30: Rabs (B2R x) <= bpow radix2 30 - 1) by (change (bpow radix2 30) with 1073741824; lra).
  destruct (one_minus tol T T1) as [D1 D2]. change (bpow radix2 0) with 1 in D2.
  destruct (room _ _ 30 ltac:(lia) L30 D2) as (R1 & R2 & R3).
  split; [split; [|split]|].
  - unfold pfloat_floor. destruct (@flt B x f0).
    + destruct (ftoi_small _ 30 ltac:(lia) (minus_small x _ 30 ltac:(lia) X D1 R2)) as (z & E & _).
      intros N. change (@fsub B x (@fsub B f1 tol)) with (Bminus mode_NE x (Bminus mode_NE (@f1 B) tol)) in N. rewrite E in N. discriminate N.
    + destruct (ftoi_small x 30 ltac:(lia) (conj X R3)) as (z & E & _). rewrite E. discriminate.
  - unfold pfloat_ceil. destruct (@flt B x f0).
    + destruct (ftoi_small x 30 ltac:(lia) (conj X R3)) as (z & E & _). rewrite E. discriminate.
    + destruct (ftoi_small _ 30 ltac:(lia) (plus_small x _ 30 ltac:(lia) X D1 R1)) as (z & E & _).
      intros N. change (@fadd B x (@fsub B f1 tol)) with (Bplus mode_NE x (Bminus mode_NE (@f1 B) tol)) in N. rewrite E in N. discriminate N.
  - destruct (round_small x 30 ltac:(lia) X L30) as (z & E & _). rewrite E. discriminate.
  - intros C. destruct (round_small x 6 ltac:(lia) X) as (z & E & Z); [change (bpow radix2 6) with 64; lra|].
    destruct (ftoi_small (@fofZ B z) 6 ltac:(lia) (fofZ_small z 6 ltac:(lia) Z)) as (k & Ek & Hk).
    exists (@fofZ B z), k. split; [exact E|]. unfold ftochar. rewrite Ek. cbn [bind].
    rewrite <- abs_IZR in Hk. change (bpow radix2 6) with (IZR 64) in Hk. apply le_IZR in Hk.
    destruct (Z.leb_spec (-128) k); [|lia]. destruct (Z.leb_spec k 127); [reflexivity|lia].
Qed.

(* NaN and the infinities cannot be rounded. *)
Theorem C33_binary64_nan (x : b64) : is_finite x = false -> @pfloat_round B (BInt ex lg) x = None.
Proof.
  destruct x as [s|[]| |s m e h]; intros N; try discriminate N; unfold pfloat_round; vm_compute; reflexivity.
Qed.

(* and the cost kept is infinite before any solution is found: no relaxation is worse *)
Theorem C33_binary64_inf : forall a, @flt B finf a = false.
Proof. intros [s|[]| |[] m e h]; reflexivity. Qed.

(* The order on the costs is transitive, so what C34 says holds of doubles. *)
Theorem C34_binary64_order : forall a b c : b64, @flt B a b = true -> @flt B b c = true -> @flt B a c = true.
Proof. intros a b c. apply (Passes.C34_order_F (B2SF a) (B2SF b) (B2SF c)). Qed.

(* ------------------------------------------------------------- C35 *)

Lemma rnd_int z : (Z.abs z <= 2 ^ 52)%Z -> rnd (IZR z) = IZR z.
Proof.
  intros L. apply round_generic; auto with typeclass_instances.
  change (generic_format radix2 (FLT_exp (-1074) 53) (IZR z)). apply generic_format_FLT.
  exists (Float radix2 z 0); [unfold F2R; cbn; lra| |cbn; lia]. cbn [Fnum]. change (radix2 ^ 53)%Z with (2 * 2 ^ 52)%Z. lia.
Qed.

(* the double made of an int is that int *)
Lemma fofZ_val z : (Z.abs z <= 2 ^ 52)%Z -> bval (@fofZ B z) = Some (IZR z).
Proof.
  intros L. apply bval_some. change (@fofZ B z) with (Bdiv mode_NE (b64_ofZ z) (b64_ofZ 1)). destruct ofZ_1 as [O1 O2].
  assert (L1: Rabs (IZR z) <= 4 * bOm).
  { rewrite bOm4. rewrite <- abs_IZR. apply Rle_trans with (bpow radix2 52); [|apply bpow_le; lia]. change (bpow radix2 52) with (IZR (2 ^ 52)). apply IZR_le, L. }
  assert (S: is_finite (b64_ofZ z) = true /\ B2R (b64_ofZ z) = IZR z).
  { unfold b64_ofZ. pose proof (binary_normalize_correct 53 1024 p53 p53e mode_NE z 0 false) as H. cbv zeta in H.
    assert (E1 : F2R (Float radix2 z 0) = IZR z :> R) by (unfold F2R; cbn; lra). rewrite E1 in H.
    rewrite (rnd_fin _ L1) in H. destruct H as (A & C & _). split; [exact C|]. rewrite A. apply rnd_int, L. }
  destruct S as [S1 S2]. assert (Q: B2R (b64_ofZ z) / B2R (b64_ofZ 1) = IZR z) by (rewrite O2, S2; unfold Rdiv; rewrite Rinv_1, Rmult_1_r; reflexivity).
  destruct (div_val (b64_ofZ z) (b64_ofZ 1) S1 O1 ltac:(rewrite O2; lra)) as [D1 D2]; [rewrite Q; exact L1|].
  split; [exact D1|]. rewrite D2, Q. apply rnd_int, L.
Qed.

(* what truncation gives *)
Lemma trunc_val (a : b64) : Btrunc a = Ztrunc (B2R a).
Proof.
  apply eq_IZR. rewrite Btrunc_correct by exact p53e.
  unfold round, F2R, scaled_mantissa, cexp, FIX_exp. cbn. rewrite !Rmult_1_r. reflexivity.
Qed.
Lemma ftoi_val (a : b64) : small 30 a -> @ftoi B _ a = Some (Ztrunc (B2R a)) /\ (Z.abs (Ztrunc (B2R a)) <= 2 ^ 30)%Z.
Proof.
  intros S. destruct (ftoi_small a 30 ltac:(lia) S) as (z & E & L). pose proof E as E'. cbn [ftoi BInt] in E'. rewrite (proj1 S) in E'.
  apply to_int_inv in E' as [-> _]. rewrite trunc_val in *. split; [exact E|].
  rewrite <- abs_IZR in L. change (bpow radix2 30) with (IZR (2 ^ 30)) in L. apply le_IZR, L.
Qed.
Lemma Ztrunc_up x : 0 <= x -> IZR (Ztrunc x) <= x < IZR (Ztrunc x) + 1.
Proof. intros H. rewrite Ztrunc_floor by exact H. split; [apply Zfloor_lb|apply Zfloor_ub]. Qed.
Lemma Ztrunc_dn x : x <= 0 -> IZR (Ztrunc x) - 1 < x <= IZR (Ztrunc x).
Proof. intros H. rewrite Ztrunc_ceil by exact H. split; [|apply Zceil_ub]. pose proof (Zceil_lb x). lra. Qed.

Definition delta : R := bpow radix2 (-22).

Lemma err_small x : Rabs x <= bpow radix2 30 -> Rabs (rnd x - x) <= 3 / 4 * delta.
Proof.
  intros L. eapply Rle_trans; [apply rnd_err|].
  assert (A: bu * Rabs x <= bpow radix2 (-23)).
  { unfold bu. change (-23)%Z with (-53 + 30)%Z. rewrite bpow_plus. apply Rmult_le_compat_l; [apply bpow_ge_0|exact L]. }
  assert (C: beta64 <= bpow radix2 (-24)) by (apply bpow_le; lia).
  replace (3 / 4 * delta) with (bpow radix2 (-23) + bpow radix2 (-24)); [lra|]. unfold delta. cbn. lra.
Qed.
Lemma err_one x : Rabs x <= 1 -> Rabs (rnd x - x) <= 1 / 4 * delta.
Proof.
  intros L. eapply Rle_trans; [apply rnd_err|].
  assert (A: bu * Rabs x <= bpow radix2 (-53)).
  { unfold bu. rewrite <- (Rmult_1_r (bpow radix2 (-53))) at 2. apply Rmult_le_compat_l; [apply bpow_ge_0|exact L]. }
  assert (C: beta64 <= bpow radix2 (-53)) by (apply bpow_le; lia).
  assert (D: bpow radix2 (-53) <= bpow radix2 (-25)) by (apply bpow_le; lia).
  replace (1 / 4 * delta) with (2 * bpow radix2 (-25)); [lra|]. unfold delta. cbn. lra.
Qed.

Lemma plus_val (a b : b64) : is_finite a = true -> is_finite b = true -> Rabs (B2R a + B2R b) <= bpow radix2 30 ->
  B2R (Bplus mode_NE a b) = rnd (B2R a + B2R b).
Proof.
  intros A C L. pose proof (Bplus_correct 53 1024 _ _ mode_NE a b A C) as H.
  destruct (rnd_bpow _ 30 ltac:(lia) L) as [L1 L2]. rewrite L2 in H. apply H.
Qed.
Lemma minus_val (a b : b64) : is_finite a = true -> is_finite b = true -> Rabs (B2R a - B2R b) <= bpow radix2 30 ->
  B2R (Bminus mode_NE a b) = rnd (B2R a - B2R b).
Proof.
  intros A C L. pose proof (Bminus_correct 53 1024 _ _ mode_NE a b A C) as H.
  destruct (rnd_bpow _ 30 ltac:(lia) L) as [L1 L2]. rewrite L2 in H. apply H.
Qed.

Lemma lt0 (x : b64) : is_finite x = true -> @flt B x f0 = true -> B2R x < 0.
Proof.
  intros X H. change (Bltb x (@f0 B) = true) in H. rewrite Bltb_correct in H; [|exact X|vm_compute; reflexivity].
  assert (Z0: B2R (@f0 B : b64) = 0) by (rewrite <- SF2R_B2SF; assert (E: B2SF (@f0 B : b64) = SpecFloat.S754_zero false) by (vm_compute; reflexivity); rewrite E; reflexivity).
  revert H. eapply eq_ind_r with (P := fun v => Rlt_bool (B2R x) v = true -> B2R x < 0); [|exact Z0]. intros H. destruct (Rlt_bool_spec (B2R x) 0); [assumption|discriminate].
Qed.
Lemma ge0 (x : b64) : is_finite x = true -> @flt B x f0 = false -> 0 <= B2R x.
Proof.
  intros X H. change (Bltb x (@f0 B) = false) in H. rewrite Bltb_correct in H; [|exact X|vm_compute; reflexivity].
  assert (Z0: B2R (@f0 B : b64) = 0) by (rewrite <- SF2R_B2SF; assert (E: B2SF (@f0 B : b64) = SpecFloat.S754_zero false) by (vm_compute; reflexivity); rewrite E; reflexivity).
  revert H. eapply eq_ind_r with (P := fun v => Rlt_bool (B2R x) v = false -> 0 <= B2R x); [|exact Z0]. intros H. destruct (Rlt_bool_spec (B2R x) 0); [discriminate|assumption].
Qed.
Lemma le0 (x : b64) : is_finite x = true -> if @fle B f0 x then 0 <= B2R x else B2R x < 0.
Proof.
  intros X. change (@fle B f0 x) with (Bleb (@f0 B) x). rewrite Bleb_correct; [|vm_compute; reflexivity|exact X].
  assert (Z0: B2R (@f0 B : b64) = 0) by (rewrite <- SF2R_B2SF; assert (E: B2SF (@f0 B : b64) = SpecFloat.S754_zero false) by (vm_compute; reflexivity); rewrite E; reflexivity).
  eapply eq_ind_r with (P := fun v => if Rle_bool v (B2R x) then _ else _); [|exact Z0]. destruct (Rle_bool_spec 0 (B2R x)); assumption.
Qed.

Section Round.
Variables (x tol : b64).
Hypotheses (T : is_finite tol = true) (T1 : 0 <= B2R tol <= 1) (X : is_finite x = true) (L : Rabs (B2R x) <= 1073741823).

(* the two sums that are truncated *)
Lemma shifted : exists d : R, Rabs (d - (1 - B2R tol)) <= 1 / 4 * delta /\ Rabs d <= 1 /\
  small 30 x /\
  (small 30 (Bplus mode_NE x (Bminus mode_NE (@f1 B) tol)) /\ Rabs (B2R (Bplus mode_NE x (Bminus mode_NE (@f1 B) tol)) - (B2R x + d)) <= 3 / 4 * delta) /\
  (small 30 (Bminus mode_NE x (Bminus mode_NE (@f1 B) tol)) /\ Rabs (B2R (Bminus mode_NE x (Bminus mode_NE (@f1 B) tol)) - (B2R x - d)) <= 3 / 4 * delta).
Proof.
  assert (L30: Rabs (B2R x) <= bpow radix2 30 - 1) by (change (bpow radix2 30) with 1073741824; lra).
  destruct (one_minus tol T T1) as [D1 D2]. change (bpow radix2 0) with 1 in D2.
  destruct (room _ _ 30 ltac:(lia) L30 D2) as (R1 & R2 & R3).
  exists (B2R (Bminus mode_NE (@f1 B : b64) tol)). split; [|split; [exact D2|split; [exact (conj X R3)|]]].
  - destruct val_1 as [O1 O2].
    assert (Q: Rabs (1 - B2R tol) <= 1) by (rewrite Rabs_pos_eq; lra).
    assert (E: B2R (Bminus mode_NE (@f1 B : b64) tol) = rnd (1 - B2R tol)).
    { assert (Q': Rabs (B2R (@f1 B : b64) - B2R tol) <= bpow radix2 30).
      { eapply eq_ind_r with (P := fun v => Rabs (v - B2R tol) <= _); [|exact O2]. change (bpow radix2 30) with 1073741824. lra. }
      eapply eq_trans; [exact (minus_val _ tol O1 T Q')|]. exact (f_equal (fun v => rnd (v - B2R tol)) O2). }
    eapply eq_ind_r with (P := fun v => Rabs (v - _) <= _); [|exact E]. apply err_one, Q.
  - split; (split; [first [apply plus_small|apply minus_small]; auto; lia|]).
    + eapply eq_ind_r with (P := fun v => Rabs (v - _) <= _); [|exact (plus_val x _ X D1 R1)]. apply err_small, R1.
    + eapply eq_ind_r with (P := fun v => Rabs (v - _) <= _); [|exact (minus_val x _ X D1 R2)]. apply err_small, R2.
Qed.

Lemma int_bound z : (Z.abs z <= 2 ^ 30)%Z -> (Z.abs z <= 2 ^ 52)%Z.
Proof. intros H. eapply Z.le_trans; [exact H|]. apply Z.pow_le_mono_r; lia. Qed.
End Round.

(* In doubles of at most 2^30 - 1, rounding down returns an integer, exactly; it is the
   floor, except that a negative value within the tolerance (and 2^-22) below an integer
   may give that integer. *)
Theorem C35_binary64_floor (x tol : b64) :
  is_finite tol = true -> delta < B2R tol <= 1 -> is_finite x = true -> Rabs (B2R x) <= 1073741823 ->
  exists r z, @pfloat_floor B (BInt ex lg) x tol = Some r /\ bval r = Some (IZR z) /\
    (is_floor z (B2R x) \/ (B2R x < 0 /\ IZR z - (B2R tol + delta) < B2R x < IZR z)).
Proof.
  intros T T1 X L. unfold is_floor, is_ceil. assert (D0: 0 < delta) by apply bpow_gt_0.
  destruct (shifted x tol T ltac:(lra) X L) as (d & E1 & E2 & Sx & _ & Sm & Em).
  unfold pfloat_floor. destruct (@flt B x f0) eqn:C.
  - pose proof (lt0 x X C) as N. destruct (ftoi_val _ Sm) as [Q Qb].
    change (@fsub B x (@fsub B f1 tol)) with (Bminus mode_NE x (Bminus mode_NE (@f1 B) tol)). rewrite Q. cbn [bind].
    set (y := B2R (Bminus mode_NE x (Bminus mode_NE (@f1 B : b64) tol))) in *.
    eexists; exists (Ztrunc y). split; [reflexivity|]. split; [apply fofZ_val, int_bound, Qb|].
    apply Rabs_le_inv in E1, Em.
    destruct (Rle_or_lt y 0) as [Y|Y].
    + pose proof (Ztrunc_dn y Y) as Z. destruct (Rle_or_lt (IZR (Ztrunc y)) (B2R x)); [left; lra|right; lra].
    + pose proof (Ztrunc_up y ltac:(lra)) as Z.
      assert (Ztrunc y = 0%Z) as Z0.
      { apply eq_IZR. assert (IZR (Ztrunc y) < 1) as K by (assert (delta <= 1 / 4) by (unfold delta; cbn; lra); lra).
        assert (0 <= Ztrunc y)%Z by (apply Z.lt_succ_r, lt_IZR; unfold Z.succ; rewrite plus_IZR; lra). assert (Ztrunc y < 1)%Z by (apply lt_IZR; lra). replace (Ztrunc y) with 0%Z by lia. reflexivity. }
      rewrite Z0. right. lra.
  - pose proof (ge0 x X C) as P. destruct (ftoi_val _ Sx) as [Q Qb]. rewrite Q. cbn [bind].
    eexists; exists (Ztrunc (B2R x)). split; [reflexivity|]. split; [apply fofZ_val, int_bound, Qb|]. left. apply Ztrunc_up, P.
Qed.

(* Likewise rounding up. *)
Theorem C35_binary64_ceil (x tol : b64) :
  is_finite tol = true -> delta < B2R tol <= 1 -> is_finite x = true -> Rabs (B2R x) <= 1073741823 ->
  exists r z, @pfloat_ceil B (BInt ex lg) x tol = Some r /\ bval r = Some (IZR z) /\
    (is_ceil z (B2R x) \/ (0 <= B2R x /\ IZR z < B2R x < IZR z + (B2R tol + delta))).
Proof.
  intros T T1 X L. unfold is_floor, is_ceil. assert (D0: 0 < delta) by apply bpow_gt_0.
  destruct (shifted x tol T ltac:(lra) X L) as (d & E1 & E2 & Sx & (Sm & Em) & _).
  unfold pfloat_ceil. destruct (@flt B x f0) eqn:C.
  - pose proof (lt0 x X C) as P. destruct (ftoi_val _ Sx) as [Q Qb]. rewrite Q. cbn [bind].
    eexists; exists (Ztrunc (B2R x)). split; [reflexivity|]. split; [apply fofZ_val, int_bound, Qb|]. left. apply Ztrunc_dn. lra.
  - pose proof (ge0 x X C) as N. destruct (ftoi_val _ Sm) as [Q Qb].
    change (@fadd B x (@fsub B f1 tol)) with (Bplus mode_NE x (Bminus mode_NE (@f1 B) tol)). rewrite Q. cbn [bind].
    set (y := B2R (Bplus mode_NE x (Bminus mode_NE (@f1 B : b64) tol))) in *.
    eexists; exists (Ztrunc y). split; [reflexivity|]. split; [apply fofZ_val, int_bound, Qb|].
    apply Rabs_le_inv in E1, Em.
    destruct (Rle_or_lt 0 y) as [Y|Y].
    + pose proof (Ztrunc_up y Y) as Z. destruct (Rle_or_lt (B2R x) (IZR (Ztrunc y))); [left; lra|right; lra].
    + pose proof (Ztrunc_dn y ltac:(lra)) as Z.
      assert (Ztrunc y = 0%Z) as Z0.
      { apply eq_IZR. assert (-1 < IZR (Ztrunc y)) as K by (assert (delta <= 1 / 4) by (unfold delta; cbn; lra); lra).
        assert (Ztrunc y <= 0)%Z by (apply Z.lt_succ_r, lt_IZR; unfold Z.succ; rewrite plus_IZR; lra). assert (-1 < Ztrunc y)%Z by (apply lt_IZR; lra). replace (Ztrunc y) with 0%Z by lia. reflexivity. }
      rewrite Z0. destruct (Rle_or_lt (B2R x) 0); [left; lra|right; lra].
Qed.

(* Rounding returns an integer within 1/2 + 2^-22. *)
Theorem C35_binary64_round (x : b64) :
  is_finite x = true -> Rabs (B2R x) <= 1073741823 ->
  exists r z, @pfloat_round B (BInt ex lg) x = Some r /\ bval r = Some (IZR z) /\ Rabs (IZR z - B2R x) <= / 2 + delta.
Proof.
  intros X L. assert (D0: 0 < delta) by apply bpow_gt_0. destruct val_half as [H1 H2].
  assert (L30: Rabs (B2R x) <= bpow radix2 30 - 1) by (change (bpow radix2 30) with 1073741824; lra).
  assert (D: Rabs (B2R (@half B : b64)) <= 1). { eapply eq_ind_r with (P := fun v => Rabs v <= 1); [|exact H2]. rewrite Rabs_pos_eq; lra. }
  destruct (room _ _ 30 ltac:(lia) L30 D) as (R1 & R2 & _).
  pose proof (le0 x X) as C. unfold pfloat_round. destruct (@fle B f0 x).
  - destruct (ftoi_val _ (plus_small x (@half B) 30 ltac:(lia) X H1 R1)) as [Q Qb].
    change (@fadd B x half) with (Bplus mode_NE x (@half B)). rewrite Q. cbn [bind].
    assert (E: Rabs (B2R (Bplus mode_NE x (@half B : b64)) - (B2R x + / 2)) <= 3 / 4 * delta).
    { eapply eq_ind_r with (P := fun v => Rabs (v - _) <= _); [|exact (plus_val x _ X H1 R1)].
      pose proof (err_small _ R1) as Er. revert Er. eapply eq_ind_r with (P := fun v => Rabs (rnd (B2R x + v) - (B2R x + v)) <= _ -> Rabs (rnd (B2R x + v) - _) <= _); [|exact H2]. auto. }
    set (y := B2R (Bplus mode_NE x (@half B : b64))) in *.
    eexists; exists (Ztrunc y). split; [reflexivity|]. split; [apply fofZ_val, int_bound, Qb|].
    apply Rabs_le_inv in E. assert (delta <= 1 / 4) by (unfold delta; cbn; lra). pose proof (Ztrunc_up y ltac:(lra)) as Z. apply Rabs_le. lra.
  - destruct (ftoi_val _ (minus_small x (@half B) 30 ltac:(lia) X H1 R2)) as [Q Qb].
    change (@fsub B x half) with (Bminus mode_NE x (@half B)). rewrite Q. cbn [bind].
    assert (E: Rabs (B2R (Bminus mode_NE x (@half B : b64)) - (B2R x - / 2)) <= 3 / 4 * delta).
    { eapply eq_ind_r with (P := fun v => Rabs (v - _) <= _); [|exact (minus_val x _ X H1 R2)].
      pose proof (err_small _ R2) as Er. revert Er. eapply eq_ind_r with (P := fun v => Rabs (rnd (B2R x - v) - (B2R x - v)) <= _ -> Rabs (rnd (B2R x - v) - _) <= _); [|exact H2]. auto. }
    set (y := B2R (Bminus mode_NE x (@half B : b64))) in *.
    eexists; exists (Ztrunc y). split; [reflexivity|]. split; [apply fofZ_val, int_bound, Qb|].
    apply Rabs_le_inv in E. assert (delta <= 1 / 4) by (unfold delta; cbn; lra). pose proof (Ztrunc_dn y ltac:(lra)) as Z. apply Rabs_le. lra.
Qed.
End Conv.

(* 0.3 with the default tolerance, and -17.25 *)
Theorem C33_binary64_example ex lg :
  let x := @fconst (BOps ex lg) (3 # 10) in let y := @fconst (BOps ex lg) (-69 # 4) in
  @pfloat_round _ (BInt ex lg) x = Some (@f0 (BOps ex lg)) /\
  @pfloat_ceil _ (BInt ex lg) x (@fconst (BOps ex lg) (1 # 10000)) = Some (@f1 (BOps ex lg)) /\
  @pfloat_floor _ (BInt ex lg) y (@fconst (BOps ex lg) (1 # 10000)) = Some (@fofZ (BOps ex lg) (-18)).
Proof. cbv zeta. repeat split; vm_compute; reflexivity. Qed.

(* the default tolerance 1e-4 and 0.3 meet the hypotheses *)
Theorem C35_binary64_example ex lg :
  let x : b64 := @fconst (BOps ex lg) (3 # 10) in let t : b64 := @fconst (BOps ex lg) (1 # 10000) in
  is_finite t = true /\ delta < B2R t <= 1 /\ is_finite x = true /\ Rabs (B2R x) <= 1073741823.
Proof.
  cbv zeta. 
  assert (E1: B2SF (@fconst (BOps ex lg) (1 # 10000) : b64) = SpecFloat.S754_finite false 7378697629483821 (-66)) by (vm_compute; reflexivity).
  assert (E2: B2SF (@fconst (BOps ex lg) (3 # 10) : b64) = SpecFloat.S754_finite false 5404319552844595 (-54)) by (vm_compute; reflexivity).
  split; [vm_compute; reflexivity|]. split; [|split; [vm_compute; reflexivity|]].
  - rewrite <- SF2R_B2SF, E1. unfold SF2R, F2R, delta. cbn. lra.
  - rewrite <- SF2R_B2SF, E2. unfold SF2R, F2R. cbn. rewrite Rabs_pos_eq; lra.
Qed.

Print Assumptions C33_binary64_convertible.
Print Assumptions C35_binary64_floor.
