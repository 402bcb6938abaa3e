(* C49, continued: what solving does to the caller's cost vector when the
   arithmetic rounds.  ECOS_solve divides c by the column scaling in place and
   multiplies it back before it returns (src/ecos.c:1099 and 1060), so in
   rounding arithmetic c need not come back exactly. *)
From Coq Require Import List Arith Bool ZArith QArith Reals Lia Lra Psatz.
From Flocq Require Core BinarySingleNaN.
From Verif Require Import Base Num NumX.
From Verif.Model Require Import Spla Types Consts Cone Ecos Preproc.
From Verif.Spec Require Import Matrix Conic SetupSpec Rounding.
From Verif.Proofs Require Import SplaP PhiP RoundB.
From Verif.Properties Require Import Exit Rounding.
Import ListNotations.
Open Scope R_scope.

Section Rounded.
Context {O : Ops} (phi : F -> option R).

(* w' is reached from w by k calls to ECOS_solve that return normally (neither
   ECOS_OUTCONE nor ECOS_FATAL, for which see C26), with settings changed at will
   in between *)
Inductive solves (w : pwork F) : nat -> pwork F -> Prop :=
| so_refl : solves w 0 w
| so_settings k w' g : solves w k w' -> solves w k (set_w_stgs w' g)
| so_solve k w' sig t code t' w'' : solves w k w' -> (0 <= sg_maxit (w_stgs w'))%Z ->
    ECOS_solve sig t w' = Some (code, t', w'') -> code <> ECOS_OUTCONE -> code <> ECOS_FATAL -> solves w (S k) w''.

Variables (u eta Om : R) (H : rounds O phi u eta Om).

Lemma there_and_back v e r y : u <= 1 -> phi (fmul (fdiv v e) e) = Some r -> phi e = Some y ->
  exists x, phi v = Some x /\ Rabs (r - x) <= ((1 + u) ^ 2 - 1) * Rabs x + eta * (1 + 2 * Rabs y).
Proof.
  intros U1 E Ey. pose proof (rn_u _ _ _ _ _ H) as U0. pose proof (rn_eta _ _ _ _ _ H) as E0.
  destruct (rn_mul _ _ _ _ _ H _ _ _ E) as (q & y' & Eq & Ey' & B1). rewrite Ey in Ey'. injection Ey' as <-.
  destruct (rn_div _ _ _ _ _ H _ _ _ _ Eq Ey) as (x & Ex & Ny & B2). exists x. split; [exact Ex|].
  assert (B3: Rabs (q * y - x) <= u * Rabs x + eta * Rabs y).
  { replace (q * y - x) with ((q - x / y) * y) by (field; auto). rewrite Rabs_mult.
    apply Rle_trans with ((u * Rabs (x / y) + eta) * Rabs y); [apply Rmult_le_compat_r; [apply Rabs_pos|exact B2]|].
    rewrite Rmult_plus_distr_r, Rmult_assoc, <- Rabs_mult. replace (x / y * y) with x by (field; auto). lra. }
  assert (B4: Rabs (q * y) <= (1 + u) * Rabs x + eta * Rabs y).
  { replace (q * y) with (x + (q * y - x)) by ring. eapply Rle_trans; [apply Rabs_triang|]. lra. }
  replace (r - x) with ((r - q * y) + (q * y - x)) by ring. eapply Rle_trans; [apply Rabs_triang|].
  pose proof (Rmult_le_compat_l u _ _ U0 B4) as B5. pose proof (Rabs_pos y) as Py. pose proof (Rabs_pos x) as Px.
  assert (u * (eta * Rabs y) <= 1 * (eta * Rabs y)). { apply Rmult_le_compat_r; [apply Rmult_le_pos; lra|lra]. }
  cbn [pow]. lra.
Qed.

Lemma solves_frame w k w' : solves w k w' -> w_n w' = w_n w /\ w_xequil w' = w_xequil w.
Proof.
  induction 1 as [|k w' g SV IH|k w' sig t code t' w'' SV IH M E N1 N2]; [auto|exact IH|].
  destruct IH as [I1 I2]. apply C26_data_untouched in E as (_ & _ & _ & _ & A1 & _ & _ & A2 & _); auto. split; congruence.
Qed.

(* after k solves the caller's c is what it was, but for 2 k roundings *)
Theorem C49_cost w k w' xe c' : u <= 1 -> solves w k w' -> holds phi (w_xequil w) (w_n w) xe -> holds phi (w_c w') (w_n w) c' ->
  forall i, (i < w_n w)%nat -> exists v c, get (w_c w) i = Some v /\ phi v = Some c /\
    Rabs (c' i - c) <= ((1 + u) ^ (2 * k) - 1) * Rabs c + INR k * (1 + u) ^ (2 * k) * (eta * (1 + 2 * Rabs (xe i))).
Proof.
  intros U1 SV HX HC i Hi. pose proof (rn_u _ _ _ _ _ H) as U0. pose proof (rn_eta _ _ _ _ _ H) as E0.
  specialize (HX i Hi). destruct HX as (e & Ge & Pe). destruct (HC i Hi) as (v' & Gv' & Pv'). clear HC. revert Pv'. generalize (c' i). clear c'. intros cc Pv'.
  revert v' Gv' cc Pv'. induction SV as [|k w' g SV IH|k w' sig t code t' w'' SV IH M E N1 N2]; intros v' Gv' cc Pv'.
  - exists v', cc. split; [exact Gv'|]. split; [exact Pv'|]. rewrite Rminus_diag_eq by auto. rewrite Rabs_R0. cbn. lra.
  - exact (IH v' Gv' cc Pv').
  - destruct (solves_frame _ _ _ SV) as [Fn Fx].
    destruct (C26_normal_exit _ _ _ _ _ _ E M N1 N2) as (_ & C & _). rewrite Fn in C.
    destruct (C i Hi) as (v1 & e1 & G1 & G2 & G3). rewrite Fx, Ge in G2. injection G2 as <-.
    rewrite G3 in Gv'. injection Gv' as <-.
    destruct (there_and_back _ _ _ _ U1 Pv' Pe) as (x & Px & B).
    destruct (IH v1 G1 x Px) as (v & c & Gv & Pv & Bk). exists v, c. split; [exact Gv|]. split; [exact Pv|].
    set (t0 := eta * (1 + 2 * Rabs (xe i))) in *.
    assert (T0: 0 <= t0). { unfold t0. apply Rmult_le_pos; [lra|]. pose proof (Rabs_pos (xe i)). lra. }
    replace (2 * S k)%nat with (2 + 2 * k)%nat by lia. rewrite pow_add, S_INR.
    assert (Q1: 1 <= (1 + u) ^ 2) by (apply pow_R1_Rle; lra). assert (Q2: 1 <= (1 + u) ^ (2 * k)) by (apply pow_R1_Rle; lra).
    set (q := (1 + u) ^ 2) in *. set (p := (1 + u) ^ (2 * k)) in *. pose proof (pos_INR k) as Pk. set (n := INR k) in *.
    assert (X: Rabs x <= Rabs c + Rabs (x - c)). { replace x with (c + (x - c)) at 1 by ring. apply Rabs_triang. }
    replace (cc - c) with ((cc - x) + (x - c)) by ring. eapply Rle_trans; [apply Rabs_triang|].
    assert (B': (q - 1) * Rabs x <= (q - 1) * (Rabs c + Rabs (x - c))) by (apply Rmult_le_compat_l; lra).
    assert (B2: q * Rabs (x - c) <= q * ((p - 1) * Rabs c + n * p * t0)) by (apply Rmult_le_compat_l; lra).
    assert (B3: t0 <= q * p * t0). { rewrite <- (Rmult_1_l t0) at 1. apply Rmult_le_compat_r; [exact T0|]. nra. }
    pose proof (Rabs_pos c). lra.
Qed.
End Rounded.

Notation b2 := (Core.Raux.bpow Core.Zaux.radix2).

(* in IEEE double precision *)
Theorem C49_binary64_cost ex lg w k w' xe c' : @solves (BOps ex lg) w k w' ->
  @holds (BOps ex lg) bval (w_xequil w) (w_n w) xe -> @holds (BOps ex lg) bval (w_c w') (w_n w) c' ->
  forall i, (i < w_n w)%nat -> exists v c, get (w_c w) i = Some v /\ bval v = Some c /\
    Rabs (c' i - c) <= ((1 + b2 (-53)) ^ (2 * k) - 1) * Rabs c + INR k * (1 + b2 (-53)) ^ (2 * k) * (b2 (-1075) * (1 + 2 * Rabs (xe i))).
Proof.
  apply (@C49_cost (BOps ex lg) bval (b2 (-53)) (b2 (-1075)) (b2 1021) (C47_binary64 ex lg)).
  change 1 with (b2 0). apply Core.Raux.bpow_le. lia.
Qed.

Print Assumptions C49_cost.
Print Assumptions C49_binary64_cost.
