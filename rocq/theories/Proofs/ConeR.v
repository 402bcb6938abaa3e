(* The cone kernels in exact arithmetic. *)
From Coq Require Import List Arith Bool ZArith Reals QArith Qreals Lia Lra.
From Verif Require Import Base Num.
From Verif.Spec Require Import Matrix Conic Jordan.
From Verif.Model Require Import Spla Types Consts Expcone Cone Preproc.
From Verif.Proofs Require Import LoopLib ConeP ScalP Scal2P RotP.
Import ListNotations.
Open Scope R_scope.

Notation EPSR := (@EPS ROps).

Lemma EPS_R : EPSR = / 10000000000000.
Proof. unfold EPS; cbn. unfold Q2R; cbn. lra. Qed.
Lemma EPS_pos : 0 < EPSR. Proof. rewrite EPS_R. lra. Qed.
Lemma EPS_lt1 : EPSR < 1. Proof. rewrite EPS_R. lra. Qed.
Lemma half_R : @half ROps = / 2. Proof. unfold half; cbn; unfold Q2R; cbn. lra. Qed.
Lemma GAMMA_R : @GAMMA ROps = 99 / 100. Proof. unfold GAMMA; cbn; unfold Q2R; cbn. lra. Qed.

Lemma safediv_R x y : EPSR <= y -> @safediv ROps x y = x / y.
Proof.
  intros H. change (@safediv ROps x y) with (if Rltb y EPSR then x / EPSR else x / y).
  destruct (Rltb_spec y EPSR); [lra|auto].
Qed.

(* ------------------------------------------------------------ cells in R *)
Lemma socres_R p u : (1 <= p)%nat -> @socres_f ROps p u = det p u.
Proof.
  intros Hp. unfold socres_f. cbn -[Nat.sub]. rewrite (nfold_minus 1 (p - 1) (fun i => u i * u i)). reflexivity.
Qed.

Lemma dot_R p u v : @dot_f ROps p u v = dotp p u v.
Proof.
  unfold dot_f. unR. rewrite (nfold_plus 0 p (fun i => u i * v i)). unfold dotp. cbn [Nat.add]. lra.
Qed.

Lemma zeta_R (c : socone R) z : @zeta_f ROps c z = dotp (so_p c - 1) (gd 0 (so_q c)) (from 1 z).
Proof.
  unfold zeta_f. unR. rewrite (nfold_plus 1 (so_p c - 1) (fun i => gd 0 (so_q c) (i - 1)%nat * z i)).
  rewrite Rplus_0_l. apply Rsum_ext. intros i Hi. unfold from. do 2 f_equal. lia.
Qed.

Notation oscR := (@osc ROps).
Notation qv c := (gd 0 (so_q c)).

Lemma scale_R (c : socone R) z i : 0 < oscR (so_a c) -> (i < so_p c)%nat ->
  @scale_f ROps c z i = oscR (so_eta c) * rot (so_p c) (oscR (so_a c)) (qv c) z i.
Proof.
  intros Ha Hi. unfold scale_f, rot. rewrite zeta_R.
  pose proof EPS_lt1. rewrite safediv_R by (unR; lra).
  destruct (Nat.eqb i 0); unR; auto.
Qed.
Lemma unscale_R (c : socone R) z i : 0 < oscR (so_a c) -> EPSR <= oscR (so_eta c) -> (i < so_p c)%nat ->
  @unscale_f ROps c z i = rot (so_p c) (oscR (so_a c)) (fun i => - qv c i) z i / oscR (so_eta c).
Proof.
  intros Ha He Hi. unfold unscale_f, rot. rewrite zeta_R. rewrite dotp_opp_l.
  pose proof EPS_lt1. rewrite !safediv_R by (unR; lra).
  pose proof EPS_pos. destruct (Nat.eqb i 0); unR; field; lra.
Qed.

(* --------------------------------------------- Nesterov-Todd of one block *)
Section Block.
Variables (p : nat) (s z : nat -> R).
Hypothesis Hp : (1 <= p)%nat.
Hypothesis Is : int_soc p s.
Hypothesis Iz : int_soc p z.
Hypothesis Ms : EPSR * EPSR <= det p s.
Hypothesis Mz : EPSR * EPSR <= det p z.

Notation sb := (fun i => s i / sqrt (det p s)).
Notation zb := (fun i => z i / sqrt (det p z)).

Lemma sqrt_margin d : EPSR * EPSR <= d -> EPSR <= sqrt d.
Proof.
  intros H. pose proof EPS_pos. rewrite <- (sqrt_square EPSR) by lra. apply sqrt_le_1_alt. auto.
Qed.
Lemma rs : EPSR <= sqrt (det p s). Proof. apply sqrt_margin; auto. Qed.
Lemma rz : EPSR <= sqrt (det p z). Proof. apply sqrt_margin; auto. Qed.

Lemma sb_R i : @nt_sb ROps p s i = sb i.
Proof. unfold nt_sb. rewrite socres_R by auto. unR. apply safediv_R, rs. Qed.
Lemma zb_R i : @nt_zb ROps p z i = zb i.
Proof. unfold nt_zb. rewrite socres_R by auto. unR. apply safediv_R, rz. Qed.

Lemma norm_det u r : 0 < r -> r * r = det p u -> det p (fun i => u i / r) = 1.
Proof.
  intros Hr E. unfold det in *.
  replace (Rsum (p - 1) (fun i => u (1 + i)%nat / r * (u (1 + i)%nat / r)))
    with (Rsum (p - 1) (fun i => u (1 + i)%nat * u (1 + i)%nat) * (/ r * / r)).
  - apply Rmult_eq_reg_l with (r * r); [|nra].
    replace (r * r * (u 0%nat / r * (u 0%nat / r) - Rsum (p - 1) (fun i => u (1 + i)%nat * u (1 + i)%nat) * (/ r * / r)))
      with (u 0%nat * u 0%nat - Rsum (p - 1) (fun i => u (1 + i)%nat * u (1 + i)%nat)) by (field; lra). lra.
  - rewrite <- Rsum_scal_r. apply Rsum_ext. intros. field. lra.
Qed.
Lemma norm_int u r : 0 < r -> r * r = det p u -> int_soc p u -> int_soc p (fun i => u i / r).
Proof.
  intros Hr E H. apply int_soc_det. rewrite norm_det by auto. apply int_soc_det in H.
  split; [|lra]. apply Rdiv_lt_0_compat; lra.
Qed.
Lemma sq_s : sqrt (det p s) * sqrt (det p s) = det p s.
Proof. apply sqrt_sqrt. pose proof EPS_pos. nra. Qed.
Lemma sq_z : sqrt (det p z) * sqrt (det p z) = det p z.
Proof. apply sqrt_sqrt. pose proof EPS_pos. nra. Qed.
Lemma ps : 0 < sqrt (det p s). Proof. pose proof EPS_pos. pose proof rs. lra. Qed.
Lemma pz : 0 < sqrt (det p z). Proof. pose proof EPS_pos. pose proof rz. lra. Qed.
Lemma Isb : int_soc p sb. Proof. apply norm_int; auto. apply ps. apply sq_s. Qed.
Lemma Izb : int_soc p zb. Proof. apply norm_int; auto. apply pz. apply sq_z. Qed.
Lemma Dsb : det p sb = 1. Proof. apply norm_det. apply ps. apply sq_s. Qed.
Lemma Dzb : det p zb = 1. Proof. apply norm_det. apply pz. apply sq_z. Qed.

Notation g := (@nt_gamma ROps p s z).
Lemma gamma_R : g = sqrt ((1 + dotp p sb zb) / 2).
Proof.
  unfold nt_gamma. unR. rewrite half_R. f_equal.
  rewrite (nfold_plus 0 p (fun i => @nt_sb ROps p s i * @nt_zb ROps p z i)). cbn [Nat.add].
  unfold dotp. rewrite (Rsum_ext p _ (fun i => sb i * zb i)).
  - field.
  - intros i Hi. rewrite sb_R, zb_R. auto.
Qed.
Lemma gamma_sq : g * g = (1 + dotp p sb zb) / 2.
Proof. rewrite gamma_R. apply sqrt_sqrt. pose proof (nt_dot p sb zb Hp Isb Izb Dsb Dzb). lra. Qed.
Lemma gamma_ge1 : 1 <= g.
Proof.
  rewrite gamma_R. rewrite <- sqrt_1 at 1. apply sqrt_le_1_alt. pose proof (nt_dot p sb zb Hp Isb Izb Dsb Dzb). lra.
Qed.
Lemma g2_R : @nt_g2 ROps p s z = / (2 * g).
Proof.
  unfold nt_g2. pose proof gamma_ge1. pose proof EPS_lt1. rewrite safediv_R by lra. rewrite half_R. unR. field. lra.
Qed.

Lemma a_R : @nt_a ROps p s z = nta sb zb g.
Proof. unfold nt_a, nta. rewrite g2_R, sb_R, zb_R. unR. pose proof gamma_ge1. field. pose proof ps; pose proof pz. lra. Qed.
Lemma q_R i : @nt_q ROps p s z i = ntq sb zb g i.
Proof.
  unfold nt_q, ntq. rewrite g2_R, sb_R, zb_R. unR. cbn [Nat.add]. pose proof gamma_ge1.
  pose proof ps; pose proof pz. field. lra.
Qed.
Lemma w_R : @nt_w ROps p s z = dotp (p - 1) (ntq sb zb g) (ntq sb zb g).
Proof.
  unfold nt_w. unR. rewrite (nfold_plus 1 (p - 1) (fun i => @nt_q ROps p s z (i - 1) * @nt_q ROps p s z (i - 1))).
  rewrite Rplus_0_l. apply Rsum_ext. intros i Hi. rewrite q_R. replace (1 + i - 1)%nat with i by lia. auto.
Qed.
Lemma es_R : @nt_es ROps p s z = sqrt (det p s) / sqrt (det p z).
Proof. unfold nt_es. rewrite !socres_R by auto. unR. apply safediv_R, rz. Qed.
Lemma eta_pos : 0 < @nt_eta ROps p s z.
Proof. unfold nt_eta. rewrite es_R. unR. apply sqrt_lt_R0. apply Rdiv_lt_0_compat; [apply ps|apply pz]. Qed.
Lemma eta_sq : @nt_eta ROps p s z * @nt_eta ROps p s z = sqrt (det p s) / sqrt (det p z).
Proof. unfold nt_eta. rewrite es_R. unR. apply sqrt_sqrt. left. apply Rdiv_lt_0_compat; [apply ps|apply pz]. Qed.

Lemma blk_pos : 0 < @nt_a ROps p s z.
Proof. rewrite a_R. pose proof gamma_ge1. apply (nt_pos p); auto; [apply Isb|apply Izb|lra]. Qed.
Lemma blk_hyp : @nt_a ROps p s z * @nt_a ROps p s z - dotp (p - 1) (@nt_q ROps p s z) (@nt_q ROps p s z) = 1.
Proof.
  rewrite a_R. rewrite (dotp_ext (p - 1) _ (ntq sb zb g) _ (ntq sb zb g)) by (intros; apply q_R).
  pose proof gamma_ge1. apply (nt_hyp p); auto; [apply Dsb|apply Dzb|lra|apply gamma_sq].
Qed.
Lemma blk_w : @nt_w ROps p s z = @nt_a ROps p s z * @nt_a ROps p s z - 1.
Proof.
  rewrite w_R. pose proof blk_hyp as H.
  rewrite (dotp_ext (p - 1) _ (ntq sb zb g) _ (ntq sb zb g)) in H by (intros; apply q_R). lra.
Qed.

(* W z = W^-1 s *)
Lemma blk_meet i : (i < p)%nat ->
  @nt_eta ROps p s z * rot p (@nt_a ROps p s z) (@nt_q ROps p s z) z i =
  rot p (@nt_a ROps p s z) (fun i => - @nt_q ROps p s z i) s i / @nt_eta ROps p s z.
Proof.
  intros Hi. pose proof gamma_ge1 as G1.
  assert (E: rot p (nta sb zb g) (ntq sb zb g) zb i = rot p (nta sb zb g) (fun i => - ntq sb zb g i) sb i).
  { apply nt_meet; auto using Isb, Izb, Dsb, Dzb, gamma_sq. lra. }
  rewrite a_R. rewrite (rot_extq p _ _ (ntq sb zb g)) by (auto; intros; apply q_R).
  rewrite (rot_extq p _ (fun i => - @nt_q ROps p s z i) (fun i => - ntq sb zb g i)) by (auto; intros; rewrite q_R; auto).
  pose proof ps as P1. pose proof pz as P2. pose proof eta_pos as P3. pose proof eta_sq as Q3.
  rewrite (rot_ext p _ _ z (fun j => sqrt (det p z) * zb j)) by (auto; intros; field; lra).
  rewrite (rot_ext p _ _ s (fun j => sqrt (det p s) * sb j)) by (auto; intros; field; lra).
  rewrite !rot_lin, E. set (r := rot _ _ _ _ _). set (eta := @nt_eta ROps p s z) in *.
  apply Rmult_eq_reg_l with eta; [|lra].
  replace (eta * (eta * (sqrt (det p z) * r))) with ((eta * eta) * (sqrt (det p z) * r)) by ring.
  rewrite Q3. field. lra.
Qed.

(* the numbers of the expansion *)
Lemma c_R a : 1 <= a -> @nt_c ROps a (a * a - 1) = 2 * a.
Proof. intros H. unfold nt_c. pose proof EPS_lt1. rewrite safediv_R by (unR; lra). unR. field. lra. Qed.
Lemma d_R a : 1 <= a -> @nt_d ROps a (a * a - 1) = 2.
Proof. intros H. unfold nt_d. pose proof EPS_lt1. rewrite !safediv_R by (unR; nra). unR. field. lra. Qed.
Lemma d1_R a : 1 <= a -> @nt_d1 ROps a (a * a - 1) = / (2 * (2 * a * a - 1)).
Proof.
  intros H. unfold nt_d1.
  assert (E: @nt_d1r ROps a (a * a - 1) = / (2 * (2 * a * a - 1))).
  { unfold nt_d1r. rewrite c_R, d_R by auto. pose proof EPS_lt1. rewrite safediv_R by (unR; nra). unR. rewrite half_R.
    field. nra. }
  rewrite E. change (@flt ROps) with Rltb. rewrite f0_R.
  destruct (Rltb_spec (/ (2 * (2 * a * a - 1))) 0) as [L|]; auto.
  assert (0 < / (2 * (2 * a * a - 1))) by (apply Rinv_0_lt_compat; nra). lra.
Qed.
Lemma u0s_R a : 1 <= a -> @nt_u0s ROps a (a * a - 1) = 2 * a * a - 1 - / (2 * (2 * a * a - 1)).
Proof. intros H. unfold nt_u0s. rewrite d1_R by auto. unR. ring. Qed.
Lemma d1_small a : 1 <= a -> 0 < / (2 * (2 * a * a - 1)) <= / 2.
Proof.
  intros H. split; [apply Rinv_0_lt_compat; nra|]. apply Rinv_le_contravar; nra.
Qed.
Lemma u0s_ge a : 1 <= a -> / 2 <= @nt_u0s ROps a (a * a - 1) < 2 * (a * a).
Proof. intros H. rewrite u0s_R by auto. pose proof (d1_small a H). split; nra. Qed.
Lemma c2_R a : 1 <= a -> @nt_c2 ROps a (a * a - 1) = 4 * a * a / @nt_u0s ROps a (a * a - 1).
Proof.
  intros H. unfold nt_c2. rewrite c_R by auto. pose proof (u0s_ge a H). pose proof EPS_R.
  rewrite safediv_R by lra. unR. unfold Rdiv. ring.
Qed.
Lemma c2_gt a : 1 <= a -> 2 < @nt_c2 ROps a (a * a - 1).
Proof.
  intros H. rewrite c2_R by auto. pose proof (u0s_ge a H) as U. apply Rmult_lt_reg_r with (@nt_u0s ROps a (a * a - 1)); [lra|].
  unfold Rdiv. rewrite Rmult_assoc, Rinv_l by lra. lra.
Qed.
Lemma bad_R a : 1 <= a -> @nt_bad ROps a (a * a - 1) = false.
Proof.
  intros H. unfold nt_bad. rewrite d_R by auto. pose proof (c2_gt a H). unR.
  destruct (Rleb_spec (@nt_c2 ROps a (a * a - 1) - 2) 0); auto. lra.
Qed.
(* d1 + u0^2 = 2a^2-1, u0 u1 = 2a, u1^2 - v1^2 = 2 *)
Lemma exp_00 a : 1 <= a -> @nt_d1 ROps a (a * a - 1) + @nt_u0 ROps a (a * a - 1) * @nt_u0 ROps a (a * a - 1) = 2 * a * a - 1.
Proof.
  intros H. unfold nt_u0. pose proof (u0s_ge a H). cbn [fsqrt ROps]. rewrite sqrt_sqrt by lra.
  rewrite u0s_R, d1_R by auto. ring.
Qed.
Lemma exp_01 a : 1 <= a -> @nt_u0 ROps a (a * a - 1) * @nt_u1 ROps a (a * a - 1) = 2 * a.
Proof.
  intros H. unfold nt_u0, nt_u1. cbn [fsqrt ROps]. pose proof (u0s_ge a H). pose proof (c2_gt a H).
  rewrite <- sqrt_mult by lra. rewrite c2_R by auto.
  replace (@nt_u0s ROps a (a * a - 1) * (4 * a * a / @nt_u0s ROps a (a * a - 1))) with ((2 * a) * (2 * a)) by (field; lra).
  apply sqrt_square. lra.
Qed.
Lemma exp_11 a : 1 <= a -> @nt_u1 ROps a (a * a - 1) * @nt_u1 ROps a (a * a - 1) -
   @nt_v1 ROps a (a * a - 1) * @nt_v1 ROps a (a * a - 1) = 2.
Proof.
  intros H. unfold nt_u1, nt_v1. pose proof (c2_gt a H). rewrite d_R by auto. unR. cbn [fsqrt ROps].
  rewrite !sqrt_sqrt by lra. ring.
Qed.

Lemma blk_a1 : 1 <= @nt_a ROps p s z.
Proof.
  pose proof blk_pos as P. pose proof blk_hyp as Q. set (a := @nt_a ROps p s z) in *.
  pose proof (Rsum_sq_nonneg (p - 1) (@nt_q ROps p s z)) as N. unfold dotp in Q. nra.
Qed.
Lemma blk_ok : @nt_out ROps p s z = false.
Proof.
  unfold nt_out. rewrite blk_w, bad_R by apply blk_a1. rewrite !socres_R by auto.
  pose proof EPS_pos. unR.
  destruct (Rleb_spec (det p s) 0); [nra|]. destruct (Rleb_spec (det p z) 0); [nra|]. reflexivity.
Qed.
End Block.
