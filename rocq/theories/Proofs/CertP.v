(* From the exit logic and the values of the statistics to the certificates. *)
From Coq Require Import List Arith Bool ZArith Reals Lia Lra Psatz.
From Verif Require Import Base Num NumX.
From Verif.Model Require Import Spla Types Consts Ecos.
From Verif.Spec Require Import Matrix Conic Certificate.
From Verif.Proofs Require Import SplaP ExitP XEvalP.
Import ListNotations.
Open Scope R_scope.

Definition XW := pwork (option R).

(* workspace data before ECOS_solve: numbers, equilibrated except for c *)
Record numeric (w : XW) (P : problem) (A G : spmat R) (xe Ae Ge : nat -> R) : Prop := {
  nm_n : w_n w = pb_n P; nm_p : w_p w = pb_p P; nm_m : w_m w = pb_m P;
  nm_G : w_G w = xmat G; nm_wfG : wf_sp G; nm_Gn : sp_n G = pb_n P; nm_Gm : sp_m G = pb_m P;
  nm_dG : pb_G P = dense G;
  nm_A : (0 < pb_p P)%nat -> w_A w = Some (xmat A) /\ wf_sp A /\ sp_n A = pb_n P /\ sp_m A = pb_p P /\ pb_A P = dense A;
  nm_c : xvec (w_c w) (pb_n P) (fun i => xe i * pb_c P i);
  nm_b : xvec (w_b w) (pb_p P) (pb_b P);
  nm_h : xvec (w_h w) (pb_m P) (pb_h P);
  nm_xe : xvec (w_xequil w) (pb_n P) xe; nm_xe0 : forall i, (i < pb_n P)%nat -> 0 < xe i;
  nm_Ae : xvec (w_Aequil w) (pb_p P) Ae; nm_Ae0 : forall i, (i < pb_p P)%nat -> 0 < Ae i;
  nm_Ge : xvec (w_Gequil w) (pb_m P) Ge; nm_Ge0 : forall i, (i < pb_m P)%nat -> 0 < Ge i;
  nm_rx : length (w_rx w) = pb_n P; nm_ry : length (w_ry w) = pb_p P; nm_rz : length (w_rz w) = pb_m P }.

(* the workspace returned holds numbers *)
Record returned (w : XW) (P : problem) (x y z s : nat -> R) (tau : R) : Prop := {
  rt_x : xvec (w_x w) (pb_n P) x; rt_y : xvec (w_y w) (pb_p P) y;
  rt_z : xvec (w_z w) (pb_m P) z; rt_s : xvec (w_s w) (pb_m P) s;
  rt_tau : w_tau w = Some tau }.

Lemma xprob_prob (w w' : XW) P A G : @prob_of XOps w' = @prob_of XOps w -> xprob w P A G -> xprob w' P A G.
Proof.
  unfold prob_of. intros H [H1 H2 H3 H4 H5 H6 H7 H8 H9 H10 H11 H12 H13 H14 H15]. injection H as.
  constructor; try congruence; auto.
  1: intros Hp; destruct (H9 Hp) as (B1 & B2); split; [congruence|auto].
  all: intros i Hi; match goal with E : ?f ?a = _ |- get (?f ?a) _ = _ => rewrite E end; auto.
Qed.

Lemma xprob0 (w w' : XW) P A G : @prob0_of XOps w' = @prob0_of XOps w -> xprob w P A G -> xprob w' P A G.
Proof.
  unfold prob0_of. intros H [H1 H2 H3 H4 H5 H6 H7 H8 H9 H10 H11 H12 H13 H14 H15]. injection H as.
  constructor; try congruence; auto.
  1: intros Hp; destruct (H9 Hp) as (B1 & B2); split; [congruence|auto].
  all: intros i Hi; match goal with E : ?f ?a = _ |- get (?f ?a) _ = _ => rewrite E end; auto.
Qed.

Lemma numeric_xprob w P A G xe Ae Ge c : numeric w P A G xe Ae Ge -> @scaled_c XOps w c ->
  xprob (set_w_c w c) P A G.
Proof.
  intros [] H. apply scaled_c_inv in H as (L & H & _). constructor; wcbn; auto.
  intros i Hi. change (@F XOps) with (option R) in H. rewrite nm_n0 in H. destruct (H i Hi) as (v & e & E1 & E2 & E3).
  change (@F XOps) with (option R) in *. rewrite E3.
  rewrite (nm_c0 i Hi) in E1. rewrite (nm_xe1 i Hi) in E2. injection E1 as <-. injection E2 as <-.
  rewrite xdiv by (pose proof (nm_xe2 i Hi); lra). do 2 f_equal. field. pose proof (nm_xe2 i Hi); lra.
Qed.

(* values of the statistics of the point in the workspace *)
Lemma Cur_stats w P A G x y z s kap tau reltol :
  @Cur XOps w -> xprob w P A G -> xpoint w P x y z s kap tau -> @norms_ok XOps w ->
  sg_reltol (w_stgs w) = Some reltol -> tau <> 0 ->
  xstats P x y z s tau (Rmax 1 (nrm (pb_n P) (pb_c P))) (Rmax 1 (nrm (pb_p P) (pb_b P)))
    (Rmax 1 (nrm (pb_m P) (pb_h P))) reltol (w_info w) /\
  w_cx w = Some (dotp (pb_n P) (pb_c P) x) /\ w_by w = Some (dotp (pb_p P) (pb_b P) y) /\
  w_hz w = Some (dotp (pb_m P) (pb_h P) z).
Proof.
  intros (w1 & (w0 & wr & C & U) & Pr & Ax & Ay & Az & As & Ek & Et & Sm) XP [Qx Qy Qz Qs Qk Qt] NO Er Ht.
  pose proof (computeResiduals_frame _ _ C) as (P1 & _ & Pt1 & _).
  pose proof (updateStatistics_frame _ _ U) as (P2 & _ & Pt2 & _).
  assert (XP1: xprob w1 P A G) by (exact (xprob_prob w w1 P A G Pr XP)).
  assert (XP0: xprob w0 P A G) by (eapply xprob_prob; [|exact XP1]; congruence).
  assert (XPr: xprob wr P A G) by (eapply xprob_prob; [|exact XP1]; congruence).
  assert (N1: @norms_ok XOps wr) by (eapply norms_ok_prob; [|exact NO]; congruence).
  assert (X1: xpoint w1 P x y z s kap tau).
  { pose proof (xp_n _ _ _ _ XP) as Dn. pose proof (xp_p _ _ _ _ XP) as Dp. pose proof (xp_m _ _ _ _ XP) as Dm.
    constructor; try (change (@F XOps) with (option R) in *; congruence).
    - intros i Hi. etransitivity; [symmetry; apply (Ax i); change (@F XOps) with (option R); rewrite Dn; auto|]. auto.
    - intros i Hi. etransitivity; [symmetry; apply (Ay i); change (@F XOps) with (option R); rewrite Dp; auto|]. auto.
    - intros i Hi. etransitivity; [symmetry; apply (Az i); change (@F XOps) with (option R); rewrite Dm; auto|]. auto.
    - intros i Hi. etransitivity; [symmetry; apply (As i); change (@F XOps) with (option R); rewrite Dm; auto|]. auto. }
  assert (Xr: xpoint wr P x y z s kap tau).
  { unfold point_of in Pt2. injection Pt2 as. change (@F XOps) with (option R) in *. destruct X1. constructor; try congruence; intros i Hi; match goal with E : _ = ?g |- get ?g _ = _ => rewrite <- E end; auto. }
  assert (X0: xpoint w0 P x y z s kap tau).
  { unfold point_of in Pt1. injection Pt1 as. change (@F XOps) with (option R) in *. destruct Xr. constructor; try congruence; intros i Hi; match goal with E : _ = ?g |- get ?g _ = _ => rewrite <- E end; auto. }
  pose proof (computeResiduals_X P A G x y z s kap tau w0 wr XP0 X0 C) as XR.
  destruct N1 as (a & b & c & M1 & M2 & M3 & M4 & M5 & M6).
  change (@F XOps) with (option R) in *.
  rewrite (xp_n _ _ _ _ XPr), (norm2_X _ (pb_c P)) in M1 by apply (xp_c _ _ _ _ XPr).
  rewrite (xp_p _ _ _ _ XPr), (norm2_X _ (pb_b P)) in M2 by apply (xp_b _ _ _ _ XPr).
  rewrite (xp_m _ _ _ _ XPr), (norm2_X _ (pb_h P)) in M3 by apply (xp_h _ _ _ _ XPr).
  injection M1 as <-. injection M2 as <-. injection M3 as <-.
  rewrite f1_X, fmax_X in M4, M5, M6.
  assert (Er': sg_reltol (w_stgs wr) = Some reltol).
  { rewrite <- Er. pose proof (@prob_dims XOps _ _ Pr) as (_ & _ & _ & S1). pose proof (@prob_dims XOps _ _ P2) as (_ & _ & _ & S2). change (@F XOps) with (option R) in *. congruence. }
  pose proof (updateStatistics_X P x y z s kap tau _ _ _ reltol wr w1 XR Xr
     (xp_n _ _ _ _ XPr) (xp_p _ _ _ _ XPr) (xp_m _ _ _ _ XPr) Ht M4 M5 M6 Er' U) as XS.
  assert (K: w_cx w1 = w_cx wr /\ w_by w1 = w_by wr /\ w_hz w1 = w_hz wr).
  { clear - U. unfold updateStatistics in U. binv U. injection U as <-. auto. }
  unfold summ, st_core in Sm. injection Sm as S1 S2 S3 D1 D2 D3 D4 D5 D6 D7 D8 D9 D10.
  destruct K as (K1 & K2 & K3). destruct XR. destruct XS.
  change (@F XOps) with (option R) in *.
  csplit; try congruence.
  constructor; etransitivity; try eassumption; auto.
Qed.

(* ------------------------------------------------ from tests to certificates *)
Section Tests.
Variables (P : problem) (tau : R) (x y z s : nat -> R).
Let n := pb_n P. Let p := pb_p P. Let m := pb_m P.
Hypothesis Ht : 0 < tau.
Let xs := vscal tau x. Let ys := vscal tau y. Let zs := vscal tau z. Let ss := vscal tau s.

Lemma mulv_scal k M v i : mulv k M (vscal tau v) i = tau * mulv k M v i.
Proof. unfold mulv, vscal. rewrite <- Rsum_scal. apply Rsum_ext; intros; ring. Qed.
Lemma mulvT_scal k M v i : mulvT k M (vscal tau v) i = tau * mulvT k M v i.
Proof. unfold mulvT, vscal. rewrite <- Rsum_scal. apply Rsum_ext; intros; ring. Qed.

Lemma nrm_scal' k u v : (forall i, (i < k)%nat -> u i = tau * v i) -> nrm k u = tau * nrm k v.
Proof. intros H. rewrite <- nrm_scal by lra. apply nrm_ext. intros; rewrite H; auto. Qed.

Lemma e_ry : nrm p (t_ry P xs tau) = tau * nrm p (res_eq P x).
Proof. apply nrm_scal'. intros i Hi. unfold t_ry, h_ry, res_eq, xs. rewrite mulv_scal. fold n. ring. Qed.
Lemma e_rz : nrm m (t_rz P xs ss tau) = tau * nrm m (res_ineq P x s).
Proof. apply nrm_scal'. intros i Hi. unfold t_rz, h_rz, res_ineq, xs, ss. rewrite mulv_scal. unfold vscal. fold n. ring. Qed.
Lemma e_rx : nrm n (t_rx P ys zs tau) = tau * nrm n (res_dual P y z).
Proof. apply nrm_scal'. intros i Hi. unfold t_rx, h_rx, res_dual, ys, zs. rewrite !mulvT_scal. fold p m. ring. Qed.
Lemma e_hx : nrm n (h_rx P ys zs) = tau * nrm n (fun j => mulvT p (pb_A P) y j + mulvT m (pb_G P) z j).
Proof. apply nrm_scal'. intros i Hi. unfold h_rx, ys, zs. rewrite !mulvT_scal. fold p m. ring. Qed.
Lemma e_hy : nrm p (h_ry P xs) = tau * nrm p (mulv n (pb_A P) x).
Proof. apply nrm_scal'. intros i Hi. unfold h_ry, xs. rewrite !mulv_scal. fold n. ring. Qed.
Lemma e_hz : nrm m (h_rz P xs ss) = tau * nrm m (fun i => mulv n (pb_G P) x i + s i).
Proof. apply nrm_scal'. intros i Hi. unfold h_rz, xs, ss. rewrite !mulv_scal. unfold vscal. fold n. ring. Qed.

Lemma lt_div_mul a b c : 0 < b -> a / b < c -> a < c * b.
Proof. intros Hb H. apply Rmult_lt_reg_r with (/ b); [apply Rinv_0_lt_compat; auto|]. rewrite Rmult_assoc, Rinv_r by lra. unfold Rdiv in H. lra. Qed.

Lemma div_tau_lt a b c : 1 <= b -> tau * a / b / tau < c -> a < c * b.
Proof.
  intros Hb H. apply lt_div_mul; [lra|]. replace (a / b) with (tau * a / b / tau) by (field; lra). auto.
Qed.

Lemma ltX a b : @flt XOps a (Some b) = true -> exists v, a = Some v /\ v < b.
Proof. destruct a; cbn; [|discriminate]. destruct (Rltb_spec r b); [eauto|discriminate]. Qed.

Lemma ltX2 a b : @flt XOps a b = true -> exists v u, a = Some v /\ b = Some u /\ v < u.
Proof. destruct a, b; cbn; try discriminate. destruct (Rltb_spec r r0); [eauto|discriminate]. Qed.
Lemma leX2 a b : @fle XOps a b = true -> exists v u, a = Some v /\ b = Some u /\ v <= u.
Proof. destruct a, b; cbn; try discriminate. destruct (Rleb_spec r r0); [eauto|discriminate]. Qed.

Variables (rt0 : R) (w : XW).
Hypothesis St : xstats P xs ys zs ss tau (Rmax 1 (nrm n (pb_c P))) (Rmax 1 (nrm p (pb_b P)))
    (Rmax 1 (nrm m (pb_h P))) rt0 (w_info w).
Hypothesis Hcx : w_cx w = Some (dotp n (pb_c P) xs).
Hypothesis Hby : w_by w = Some (dotp p (pb_b P) ys).
Hypothesis Hhz : w_hz w = Some (dotp m (pb_h P) zs).

Lemma test_optimal_X mode ft at_ rt : @tols XOps (w_stgs w) mode = (Some ft, Some at_, Some rt) ->
  @test_optimal XOps w mode = true -> approx_optimal P ft at_ rt tau x y z s.
Proof.
  intros Et H. unfold test_optimal in H. change (@F XOps) with (option R) in H. rewrite Et in H.
  destruct St as [S1 S2 S3 S4 S5 S6 S7 S8]. fold n p m in S1, S2, S3, S4, S5, S6, S7, S8.
  change (@F XOps) with (option R) in H.
  rewrite Hcx, Hby, Hhz, S3, S4, S5, S6 in H.
  apply andb_prop in H as [H H3]. apply andb_prop in H as [H1 H2]. apply andb_prop in H2 as [H2 H2'].
  rewrite xlt in H2. rewrite xlt in H2'.
  destruct (Rltb_spec (Rmax (nrm p (t_ry P xs tau) / Rmax (Rmax 1 (nrm p (pb_b P)) + nrm n xs) 1) (nrm m (t_rz P xs ss tau) / Rmax (Rmax 1 (nrm m (pb_h P)) + nrm n xs + nrm m ss) 1) / tau) ft) as [K1|]; [|discriminate].
  destruct (Rltb_spec (nrm n (t_rx P ys zs tau) / Rmax (Rmax 1 (nrm n (pb_c P)) + nrm p ys + nrm m zs) 1 / tau) ft) as [K2|]; [|discriminate].
  rewrite e_ry, e_rz in K1. rewrite e_rx in K2. unfold xs, ys, zs, ss in K1, K2.
  rewrite !nrm_scal in K1 by lra. rewrite !nrm_scal in K2 by lra.
  assert (IT: 0 < / tau) by (apply Rinv_0_lt_compat; auto).
  unfold approx_optimal. fold n p m. csplit.
  - apply div_tau_lt; [apply Rmax_r|]. eapply Rle_lt_trans; [|exact K1].
    unfold Rdiv at 1 3. apply Rmult_le_compat_r; [lra|]. apply Rmax_l.
  - apply div_tau_lt; [apply Rmax_r|]. eapply Rle_lt_trans; [|exact K1].
    unfold Rdiv at 1 3. apply Rmult_le_compat_r; [lra|]. apply Rmax_r.
  - apply div_tau_lt; [apply Rmax_r|]. exact K2.
  - assert (Eg: dotp m ss zs = tau * tau * dotp m s z).
    { unfold ss, zs. rewrite dotp_scal, dotp_scal_r. ring. }
    assert (Ec: dotp n (pb_c P) xs / tau = pobj P x).
    { unfold xs. rewrite dotp_scal_r. unfold pobj. fold n. field. lra. }
    assert (Ed: - (dotp m (pb_h P) zs + dotp p (pb_b P) ys) / tau = dobj P y z).
    { unfold ys, zs. rewrite !dotp_scal_r. unfold dobj. fold n p m. field. lra. }
    rewrite Ec, Ed, Eg in H3.
    apply orb_prop in H3 as [H3|H3].
    + left. rewrite xlt in H3. destruct (Rltb_spec (tau * tau * dotp m s z) at_); [auto|discriminate].
    + right. destruct (Rltb_spec (pobj P x) 0) as [L|L].
      * left. rewrite xdiv in H3 by lra. rewrite xlt in H3.
        destruct (Rltb_spec (tau * tau * dotp m s z / - pobj P x) rt) as [K3|]; [|discriminate].
        apply lt_div_mul in K3; lra.
      * right. destruct (Rltb_spec 0 (dobj P y z)) as [L2|]; [|discriminate].
        rewrite xdiv in H3 by lra. rewrite xlt in H3.
        destruct (Rltb_spec (tau * tau * dotp m s z / dobj P y z) rt) as [K3|]; [|discriminate].
        apply lt_div_mul in K3; lra.
  - apply orb_prop in H1 as [H1|H1].
    + left. rewrite xneg, f0_X, xlt in H1. destruct (Rltb_spec 0 (- dotp n (pb_c P) xs)) as [L|]; [|discriminate].
      unfold xs in L. rewrite dotp_scal_r in L. unfold pobj. fold n. nra.
    + right. apply leX2 in H1 as (v & u & E1 & E2 & L). cbn in E1, E2. injection E1 as <-. injection E2 as <-.
      unfold ys, zs in L. rewrite !dotp_scal_r in L. unfold dobj. fold n p m. lra.
Qed.

Lemma test_pinf_X mode ft at_ rt feastol :
  @tols XOps (w_stgs w) mode = (Some ft, Some at_, Some rt) -> sg_feastol (w_stgs w) = Some feastol ->
  @test_pinf XOps w mode = true -> approx_pinf P ft rt0 tau y z \/ approx_pinf P feastol rt0 tau y z.
Proof.
  intros Et Ef H. unfold test_pinf in H. change (@F XOps) with (option R) in H. rewrite Et, Ef in H.
  destruct St as [S1 S2 S3 S4 S5 S6 S7 S8]. fold n p m in S1, S2, S3, S4, S5, S6, S7, S8.
  assert (K: forall t, @flt XOps (st_pinfres (w_info w)) (Some t) = true -> approx_pinf P t rt0 tau y z).
  { intros t Hl. rewrite S7 in Hl.
    destruct (Rltb_spec ((dotp m (pb_h P) zs + dotp p (pb_b P) ys) / Rmax (nrm p ys + nrm m zs) 1) (- rt0)) as [L|];
      [|discriminate].
    rewrite xlt in Hl. destruct (Rltb_spec (nrm n (h_rx P ys zs) / Rmax (nrm p ys + nrm m zs) 1) t) as [L2|]; [|discriminate].
    rewrite e_hx in L2. unfold ys, zs in L, L2. rewrite !nrm_scal in L by lra. rewrite !nrm_scal in L2 by lra. rewrite !dotp_scal_r in L.
    pose proof (Rmax_r (tau * nrm p y + tau * nrm m z) 1) as HM.
    apply lt_div_mul in L; [|lra]. apply lt_div_mul in L2; [|lra].
    unfold approx_pinf, dobj. fold n p m. split; [|exact L2]. lra. }
  apply orb_prop in H as [H|H].
  - apply andb_prop in H as [H _]. apply andb_prop in H as [_ H]. left; apply K; exact H.
  - apply andb_prop in H as [_ H]. right; apply K; exact H.
Qed.

Lemma test_dinf_X mode ft at_ rt : @tols XOps (w_stgs w) mode = (Some ft, Some at_, Some rt) ->
  @test_dinf XOps w mode = true -> approx_dinf P ft rt0 tau x s.
Proof.
  intros Et H. unfold test_dinf in H. change (@F XOps) with (option R) in H. rewrite Et in H.
  destruct St as [S1 S2 S3 S4 S5 S6 S7 S8]. fold n p m in S1, S2, S3, S4, S5, S6, S7, S8.
  apply andb_prop in H as [H _]. apply andb_prop in H as [_ H]. change (@F XOps) with (option R) in H. rewrite S8 in H.
  destruct (Rltb_spec (dotp n (pb_c P) xs / Rmax (nrm n xs) 1) (- rt0)) as [L|]; [|discriminate].
  rewrite xlt in H.
  destruct (Rltb_spec (Rmax (nrm p (h_ry P xs) / Rmax (nrm n xs) 1) (nrm m (h_rz P xs ss) / Rmax (nrm n xs + nrm m ss) 1)) ft) as [L2|]; [|discriminate].
  rewrite e_hy, e_hz in L2. unfold xs, ss in L, L2. rewrite !nrm_scal in L by lra. rewrite !nrm_scal in L2 by lra. rewrite !dotp_scal_r in L.
  pose proof (Rmax_r (tau * nrm n x) 1) as HM. pose proof (Rmax_r (tau * nrm n x + tau * nrm m s) 1) as HM2.
  unfold approx_dinf, pobj. fold n p m. csplit.
  - apply lt_div_mul in L; lra.
  - apply lt_div_mul; [lra|]. eapply Rle_lt_trans; [|exact L2]. apply Rmax_l.
  - apply lt_div_mul; [lra|]. eapply Rle_lt_trans; [|exact L2]. apply Rmax_r.
Qed.
End Tests.

(* ----------------------------------------------- the point behind the result *)

(* numbers returned are the numbers the statistics were computed from, rescaled *)
Lemma returned_point wf w' P A G xe Ae Ge x y z s tau : @backscale XOps wf = Some w' ->
  xprob wf P A G ->
  xvec (w_xequil wf) (pb_n P) xe -> (forall i, (i < pb_n P)%nat -> 0 < xe i) ->
  xvec (w_Aequil wf) (pb_p P) Ae -> (forall i, (i < pb_p P)%nat -> 0 < Ae i) ->
  xvec (w_Gequil wf) (pb_m P) Ge -> (forall i, (i < pb_m P)%nat -> 0 < Ge i) ->
  returned w' P x y z s tau -> 0 < tau ->
  xpoint wf P (vscal tau (fun i => xe i * x i)) (vscal tau (fun i => Ae i * y i))
    (vscal tau (fun i => Ge i * z i)) (vscal tau (fun i => s i / Ge i)) (w_kap wf) tau.
Proof.
  intros H XP Xe Xe0 AE Ae0 GE Ge0 [Rx Ry Rz Rs Rt] Ht.
  apply backscale_inv in H as (_ & _ & _ & _ & _ & Et & _ & Bx & By & Bz & Bs & _).
  change (@F XOps) with (option R) in *.
  rewrite (xp_n _ _ _ _ XP) in Bx. rewrite (xp_p _ _ _ _ XP) in By. rewrite (xp_m _ _ _ _ XP) in Bz, Bs.
  rewrite Et in Rt. rewrite Rt in Bx, By, Bz, Bs. change (@F XOps) with (option R) in *.
  assert (D: forall v e r, 0 < e -> @fdiv XOps v (@fmul XOps (Some e) (Some tau)) = Some r -> v = Some (tau * (e * r))).
  { intros v e r He. rewrite xmul. destruct v as [v|]; [|discriminate]. rewrite xdiv by nra. intros E.
    injection E as <-. f_equal. field. split; lra. }
  assert (D2: forall v e r, 0 < e -> @fmul XOps v (@fdiv XOps (Some e) (Some tau)) = Some r -> v = Some (tau * (r / e))).
  { intros v e r He. rewrite xdiv by lra. destruct v as [v|]; [|discriminate]. rewrite xmul. intros E.
    injection E as <-. f_equal. field. split; lra. }
  constructor; auto; intros i Hi.
  - destruct (Bx i Hi) as (v & e & E1 & E2 & E3). rewrite (Xe i Hi) in E2. injection E2 as <-.
    rewrite (Rx i Hi) in E3. injection E3 as E3. rewrite E1. f_equal. apply D; auto.
  - destruct (By i Hi) as (v & e & E1 & E2 & E3). rewrite (AE i Hi) in E2. injection E2 as <-.
    rewrite (Ry i Hi) in E3. injection E3 as E3. rewrite E1. f_equal. apply D; auto.
  - destruct (Bz i Hi) as (v & e & E1 & E2 & E3). rewrite (GE i Hi) in E2. injection E2 as <-.
    rewrite (Rz i Hi) in E3. injection E3 as E3. rewrite E1. f_equal. apply D; auto.
  - destruct (Bs i Hi) as (v & e & E1 & E2 & E3). rewrite (GE i Hi) in E2. injection E2 as <-.
    rewrite (Rs i Hi) in E3. injection E3 as E3. rewrite E1. f_equal.
    apply D2; auto.
Qed.
