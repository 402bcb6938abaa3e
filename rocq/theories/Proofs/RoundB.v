(* IEEE binary64 with rounding to nearest, ties to even, satisfies the rounding
   laws of Spec/Rounding.v.  The floating-point formats and the correctness of
   the operations are those of the Flocq library. *)
From Coq Require Import Reals Lra Lia ZArith QArith List.
From Flocq Require Import Core BinarySingleNaN Relative.
From Verif Require Import Num Spec.Rounding.

Open Scope R_scope.

#[local] Instance p53 : Prec_gt_0 53. Proof. reflexivity. Qed.
#[local] Instance p53e : Prec_lt_emax 53 1024. Proof. reflexivity. Qed.

Definition b64 : Type := binary_float 53 1024.
Definition b64_ofZ (z : Z) : b64 := binary_normalize 53 1024 _ _ mode_NE z 0 false.

(* double: + - * / and sqrt rounded to nearest even, comparisons false on NaN.
   exp and log of the C library are the parameters ex and lg: no rounding law
   mentions them. *)
Definition BOps (ex lg : b64 -> b64) : Ops := {|
  F := b64;
  fconst := fun q => Bdiv mode_NE (b64_ofZ (Qnum q)) (b64_ofZ (Zpos (Qden q)));
  fadd := Bplus mode_NE; fsub := Bminus mode_NE; fmul := Bmult mode_NE; fdiv := Bdiv mode_NE;
  fneg := @Bopp 53 1024; fsqrt := Bsqrt mode_NE; fabs := @Babs 53 1024;
  fexp := ex; flog := lg;
  flt := @Bltb 53 1024; fle := @Bleb 53 1024; feq := @Beqb 53 1024;
  fisnan := @is_nan 53 1024;
  finf := B754_infinity false; fnan := B754_nan
|}.

(* the value of a double: none for infinities and NaN *)
Definition bval (x : b64) : option R := if is_finite x then Some (B2R x) else None.

Definition bu : R := bpow radix2 (-53).
Definition beta64 : R := bpow radix2 (-1075).
Definition bOm : R := bpow radix2 1021.

#[local] Instance vexp : Valid_exp (SpecFloat.fexp 53 1024).
Proof. change (Valid_exp (FLT_exp (-1074) 53)). apply FLT_exp_valid. exact p53. Qed.

Notation rnd := (round radix2 (SpecFloat.fexp 53 1024) (round_mode mode_NE)).

Lemma bOm4 : 4 * bOm = bpow radix2 1023.
Proof. unfold bOm. change 4 with (bpow radix2 2). rewrite <- bpow_plus. reflexivity. Qed.

Lemma rnd_err x : Rabs (rnd x - x) <= bu * Rabs x + beta64.
Proof.
  assert (P1 : 0 < bu) by apply bpow_gt_0.
  assert (P2 : 0 < beta64) by apply bpow_gt_0.
  assert (Q : 0 <= bu * Rabs x) by (apply Rmult_le_pos; [lra | apply Rabs_pos]).
  change (rnd x) with (round radix2 (FLT_exp (-1074) 53) (Znearest (fun z => negb (Z.even z))) x).
  destruct (Rle_or_lt (bpow radix2 (-1074 + 53 - 1)) (Rabs x)) as [L | L].
  - pose proof (relative_error_N_FLT radix2 (-1074) 53 p53 (fun z => negb (Z.even z)) x L) as E.
    replace (/ 2 * bpow radix2 (- (53) + 1)) with bu in E; [eapply Rle_trans; [exact E | lra] |].
    unfold bu. change (/ 2) with (bpow radix2 (-1)). rewrite <- bpow_plus. reflexivity.
  - pose proof (error_le_half_ulp radix2 (FLT_exp (-1074) 53) (fun z => negb (Z.even z)) x) as E.
    rewrite ulp_FLT_small in E; [| exact p53 |].
    + replace (/ 2 * bpow radix2 (-1074)) with beta64 in E; [eapply Rle_trans; [exact E | lra] |].
      unfold beta64. change (/ 2) with (bpow radix2 (-1)). rewrite <- bpow_plus. reflexivity.
    + eapply Rlt_trans; [exact L |]. apply bpow_lt. lia.
Qed.

Lemma rnd_fin x : Rabs x <= 4 * bOm -> Rlt_bool (Rabs (rnd x)) (bpow radix2 1024) = true.
Proof.
  intros L. rewrite bOm4 in L. apply Rlt_bool_true.
  apply Rle_lt_trans with (bpow radix2 1023); [| apply bpow_lt; lia].
  apply abs_round_le_generic; auto with typeclass_instances.
  change (generic_format radix2 (FLT_exp (-1074) 53) (bpow radix2 1023)).
  apply generic_format_FLT_bpow; [exact p53 | lia].
Qed.

Lemma rnd_pos x : 0 <= x -> 0 <= rnd x.
Proof. intros L. apply round_ge_generic; auto with typeclass_instances. apply generic_format_0. Qed.

Lemma bval_some x r : bval x = Some r <-> is_finite x = true /\ B2R x = r.
Proof.
  unfold bval. destruct (is_finite x); split; intros H; try discriminate.
  - inversion H; auto.
  - destruct H; congruence.
  - destruct H; discriminate.
Qed.

Lemma over_inf (x : b64) s : B2SF x = binary_overflow 53 1024 mode_NE s -> x = B754_infinity s.
Proof. destruct x; cbn; intros E; try discriminate; inversion E; subst; reflexivity. Qed.

Lemma bsign (x : b64) : is_finite x = true -> (Bsign x = true -> B2R x <= 0) /\ (Bsign x = false -> 0 <= B2R x).
Proof.
  destruct x as [s | s | | s m e H]; cbn; intros; try discriminate.
  - split; intros; lra.
  - split; intros ->; cbn.
    + apply F2R_le_0. cbn. lia.
    + apply F2R_ge_0. cbn. lia.
Qed.

(* finite results come from finite arguments *)
Lemma plus_fin (a b : b64) : is_finite (Bplus mode_NE a b) = true -> is_finite a = true /\ is_finite b = true.
Proof. destruct a as [[]| [] | |[]]; destruct b as [[]|[]| |[]]; intros H; try (split; reflexivity); discriminate H. Qed.
Lemma minus_fin (a b : b64) : is_finite (Bminus mode_NE a b) = true -> is_finite a = true /\ is_finite b = true.
Proof. destruct a as [[]| [] | |[]]; destruct b as [[]|[]| |[]]; intros H; try (split; reflexivity); discriminate H. Qed.
Lemma mult_fin (a b : b64) : is_finite (Bmult mode_NE a b) = true -> is_finite a = true /\ is_finite b = true.
Proof. destruct a as [[]| [] | |[]]; destruct b as [[]|[]| |[]]; intros H; try (split; reflexivity); discriminate H. Qed.
Lemma div_fin (a b : b64) : is_finite (Bdiv mode_NE a b) = true -> is_finite b = true -> is_finite a = true /\ B2R b <> 0.
Proof.
  destruct a as [s| s | |s m e h]; destruct b as [s'|s'| |s' m' e' h']; cbn; intros; try discriminate; split; auto;
    intros E; apply eq_0_F2R in E; destruct s'; discriminate.
Qed.
Lemma sqrt_fin (a : b64) : is_finite (Bsqrt mode_NE a) = true -> is_finite a = true /\ 0 <= B2R a.
Proof.
  destruct a as [s| [] | |[] m e h]; cbn; intros; try discriminate; split; auto; try lra.
  apply F2R_ge_0. cbn. lia.
Qed.

Lemma ofZ_1 : is_finite (b64_ofZ 1) = true /\ B2R (b64_ofZ 1) = 1.
Proof.
  unfold b64_ofZ.
  pose proof (binary_normalize_correct 53 1024 p53 p53e mode_NE 1 0 false) as H. cbv zeta in H.
  assert (E1 : F2R (Float radix2 1 0) = 1 :> R) by (unfold F2R; cbn; lra).
  rewrite E1 in H.
  assert (E2 : rnd 1 = 1).
  { apply round_generic; auto with typeclass_instances.
    change (generic_format radix2 (FLT_exp (-1074) 53) (bpow radix2 0)).
    apply generic_format_FLT_bpow; [exact p53 | lia]. }
  rewrite (rnd_fin 1) in H.
  - destruct H as (H1 & H2 & _). rewrite E2 in H1. auto.
  - rewrite bOm4, Rabs_R1. change 1 with (bpow radix2 0). apply bpow_le. lia.
Qed.

Lemma div_val (a b : b64) : is_finite a = true -> is_finite b = true -> B2R b <> 0 ->
  Rabs (B2R a / B2R b) <= 4 * bOm ->
  is_finite (Bdiv mode_NE a b) = true /\ B2R (Bdiv mode_NE a b) = rnd (B2R a / B2R b).
Proof.
  intros Ha Hb Nb L. pose proof (Bdiv_correct 53 1024 p53 p53e mode_NE a b Nb) as H.
  rewrite (rnd_fin _ L) in H. destruct H as (H1 & H2 & _). rewrite H2. auto.
Qed.

Lemma rnd_01 : rnd 0 = 0 /\ rnd 1 = 1.
Proof.
  split; [apply round_0; auto with typeclass_instances |].
  apply round_generic; auto with typeclass_instances.
  change (generic_format radix2 (FLT_exp (-1074) 53) (bpow radix2 0)).
  apply generic_format_FLT_bpow; [exact p53 | lia].
Qed.

Lemma Rlt_boolb x y : Rlt_bool x y = Rltb x y.
Proof.
  unfold Rltb. destruct (Rlt_dec x y) as [L | L].
  - apply Rlt_bool_true; exact L.
  - apply Rlt_bool_false; lra.
Qed.
Lemma Rle_boolb x y : Rle_bool x y = Rleb x y.
Proof.
  unfold Rleb. destruct (Rle_dec x y) as [L | L].
  - apply Rle_bool_true; exact L.
  - apply Rle_bool_false; lra.
Qed.

Theorem b64_rounds ex lg : rounds (BOps ex lg) bval bu beta64 bOm.
Proof.
  assert (G4 : 1 <= 4 * bOm).
  { rewrite bOm4. change 1 with (bpow radix2 0). apply bpow_le. lia. }
  destruct ofZ_1 as (F1 & V1).
  assert (N1 : B2R (b64_ofZ 1) <> 0) by (rewrite V1; lra).
  constructor; cbn [F fconst fadd fsub fmul fdiv fneg fsqrt flt fle fnan BOps].
  - unfold bu. apply Rlt_le, bpow_gt_0.
  - unfold beta64. apply Rlt_le, bpow_gt_0.
  - apply bval_some. unfold f0; cbn [fconst BOps]. cbn [Qnum Qden].
    assert (E0 : b64_ofZ 0 = B754_zero false) by reflexivity.
    assert (L : Rabs (B2R (b64_ofZ 0) / B2R (b64_ofZ 1)) <= 4 * bOm).
    { rewrite E0; cbn [B2R]. rewrite V1. unfold Rdiv. rewrite Rmult_0_l, Rabs_R0. lra. }
    destruct (div_val (b64_ofZ 0) (b64_ofZ 1) eq_refl F1 N1 L) as (H1 & H2).
    split; [exact H1 |]. rewrite H2, E0; cbn [B2R]. rewrite V1.
    replace (0 / 1) with 0 by lra. apply rnd_01.
  - apply bval_some. unfold f1; cbn [fconst BOps]. cbn [Qnum Qden].
    assert (L : Rabs (B2R (b64_ofZ 1) / B2R (b64_ofZ 1)) <= 4 * bOm).
    { rewrite V1. replace (1 / 1) with 1 by lra. rewrite Rabs_R1. lra. }
    destruct (div_val (b64_ofZ 1) (b64_ofZ 1) F1 F1 N1 L) as (H1 & H2).
    split; [exact H1 |]. rewrite H2, V1.
    replace (1 / 1) with 1 by lra. apply rnd_01.
  - intros a b r H. apply bval_some in H; destruct H as (H & E).
    destruct (plus_fin _ _ H) as (Ha & Hb).
    exists (B2R a), (B2R b). split; [apply bval_some; auto | split; [apply bval_some; auto |]].
    pose proof (Bplus_correct 53 1024 p53 p53e mode_NE a b Ha Hb) as C.
    destruct (Rlt_bool _ _) in C.
    + destruct C as (C & _). rewrite <- E, C. apply rnd_err.
    + destruct C as (C & _). apply over_inf in C. rewrite C in H. discriminate.
  - intros a b r H. apply bval_some in H; destruct H as (H & E).
    destruct (minus_fin _ _ H) as (Ha & Hb).
    exists (B2R a), (B2R b). split; [apply bval_some; auto | split; [apply bval_some; auto |]].
    pose proof (Bminus_correct 53 1024 p53 p53e mode_NE a b Ha Hb) as C.
    destruct (Rlt_bool _ _) in C.
    + destruct C as (C & _). rewrite <- E, C. apply rnd_err.
    + destruct C as (C & _). apply over_inf in C. rewrite C in H. discriminate.
  - intros a b r H. apply bval_some in H; destruct H as (H & E).
    destruct (mult_fin _ _ H) as (Ha & Hb).
    exists (B2R a), (B2R b). split; [apply bval_some; auto | split; [apply bval_some; auto |]].
    pose proof (Bmult_correct 53 1024 p53 p53e mode_NE a b) as C.
    destruct (Rlt_bool _ _) in C.
    + destruct C as (C & _). rewrite <- E, C. apply rnd_err.
    + apply over_inf in C. rewrite C in H. discriminate.
  - intros a b r y H Hb. apply bval_some in H; destruct H as (H & E).
    apply bval_some in Hb; destruct Hb as (Hb & Ey).
    destruct (div_fin _ _ H Hb) as (Ha & Nb).
    exists (B2R a). split; [apply bval_some; auto |]. subst y. split; [exact Nb |].
    pose proof (Bdiv_correct 53 1024 p53 p53e mode_NE a b Nb) as C.
    destruct (Rlt_bool _ _) in C.
    + destruct C as (C & _). rewrite <- E, C. apply rnd_err.
    + apply over_inf in C. rewrite C in H. discriminate.
  - intros a r H. apply bval_some in H; destruct H as (H & E).
    destruct (sqrt_fin _ H) as (Ha & Pa).
    exists (B2R a). split; [apply bval_some; auto |]. split; [exact Pa |].
    pose proof (Bsqrt_correct 53 1024 p53 p53e mode_NE a) as (C & _).
    rewrite <- E, C. split; [apply rnd_pos, sqrt_pos |].
    pose proof (rnd_err (sqrt (B2R a))) as Er. rewrite (Rabs_pos_eq (sqrt (B2R a))) in Er by apply sqrt_pos. exact Er.
  - intros a. unfold bval. rewrite is_finite_Bopp, B2R_Bopp. destruct (is_finite a); reflexivity.
  - intros a b x y Ha Hb. apply bval_some in Ha, Hb. destruct Ha as (Ha & <-), Hb as (Hb & <-).
    rewrite Bltb_correct by auto. apply Rlt_boolb.
  - intros a b x y Ha Hb. apply bval_some in Ha, Hb. destruct Ha as (Ha & <-), Hb as (Hb & <-).
    rewrite Bleb_correct by auto. apply Rle_boolb.
  - intros a b x y r Ha Hb H L. apply bval_some in Ha, Hb, H. destruct Ha as (Ha & <-), Hb as (Hb & <-), H as (H & <-).
    pose proof (Bplus_correct 53 1024 p53 p53e mode_NE a b Ha Hb) as C.
    destruct (Rlt_bool _ _) in C.
    + destruct C as (C & _). rewrite C. apply rnd_pos, L.
    + destruct C as (C & _). apply over_inf in C. rewrite C in H. discriminate.
  - intros a b x y r Ha Hb H L. apply bval_some in Ha, Hb, H. destruct Ha as (Ha & <-), Hb as (Hb & <-), H as (H & <-).
    pose proof (Bmult_correct 53 1024 p53 p53e mode_NE a b) as C.
    destruct (Rlt_bool _ _) in C.
    + destruct C as (C & _). rewrite C. apply rnd_pos, L.
    + apply over_inf in C. rewrite C in H. discriminate.
  - intros a b x y Ha Hb L. apply bval_some in Ha, Hb. destruct Ha as (Ha & <-), Hb as (Hb & <-).
    pose proof (Bplus_correct 53 1024 p53 p53e mode_NE a b Ha Hb) as C.
    rewrite (rnd_fin _ L) in C. destruct C as (_ & C & _). eexists. apply bval_some. split; [exact C | reflexivity].
  - intros a b x y Ha Hb L. apply bval_some in Ha, Hb. destruct Ha as (Ha & <-), Hb as (Hb & <-).
    pose proof (Bminus_correct 53 1024 p53 p53e mode_NE a b Ha Hb) as C.
    rewrite (rnd_fin _ L) in C. destruct C as (_ & C & _). eexists. apply bval_some. split; [exact C | reflexivity].
  - intros a b x y Ha Hb L. apply bval_some in Ha, Hb. destruct Ha as (Ha & <-), Hb as (Hb & <-).
    pose proof (Bmult_correct 53 1024 p53 p53e mode_NE a b) as C.
    rewrite (rnd_fin _ L) in C. destruct C as (_ & C & _). eexists. apply bval_some.
    split; [rewrite C, Ha, Hb; reflexivity | reflexivity].
  - intros a b x y Ha Hb Ny L. apply bval_some in Ha, Hb. destruct Ha as (Ha & <-), Hb as (Hb & <-).
    eexists. apply bval_some. split; [apply (div_val a b Ha Hb Ny L) | reflexivity].
  - intros a x Ha L. apply bval_some in Ha. destruct Ha as (Ha & <-).
    pose proof (Bsqrt_correct 53 1024 p53 p53e mode_NE a) as (_ & C & _).
    eexists. apply bval_some. split; [| reflexivity]. rewrite C.
    destruct a as [s| s | |[] m e h]; try discriminate; try reflexivity.
    exfalso. cbn in L. assert (F2R (Float radix2 (Zneg m) e) < 0) by (apply F2R_lt_0; cbn; lia). lra.
  - intros a b c x y Ha Hb Ny H Lt. apply bval_some in Ha, Hb. destruct Ha as (Ha & <-), Hb as (Hb & <-).
    pose proof (Bdiv_correct 53 1024 p53 p53e mode_NE a b Ny) as C.
    destruct (Rlt_bool _ _) in C.
    + destruct C as (_ & C & _). unfold bval in H. rewrite C, Ha in H. discriminate.
    + apply over_inf in C. rewrite C in Lt.
      destruct (bsign a Ha) as (A1 & A2). destruct (bsign b Hb) as (B1 & B2).
      unfold Rdiv. set (x := B2R a) in *. set (y := B2R b) in *.
      destruct (Bsign a), (Bsign b).
      * exfalso. destruct c as [[]|[]| |[]]; discriminate Lt.
      * specialize (A1 eq_refl). specialize (B2 eq_refl).
        assert (0 < / y) by (apply Rinv_0_lt_compat; lra).
        assert (x * / y <= 0 * / y) by (apply Rmult_le_compat_r; lra). lra.
      * specialize (A2 eq_refl). specialize (B1 eq_refl).
        assert (/ y < 0) by (apply Rinv_lt_0_compat; lra).
        assert (0 <= x * - / y) by (apply Rmult_le_pos; lra). lra.
      * exfalso. destruct c as [[]|[]| |[]]; discriminate Lt.
  - intros a. destruct a; reflexivity.
Qed.
