(* The statistics and the optimality test in rounded arithmetic. *)
From Coq Require Import List Arith Bool ZArith Reals Lra Lia Psatz.
From Verif Require Import Base Num.
From Verif.Model Require Import Spla Types Consts Ecos.
From Verif.Spec Require Import Matrix Conic Rounding.
From Verif.Proofs Require Import SplaP ExitP RoundA RoundP.
Import ListNotations.
Open Scope R_scope.

Section RoundC.
Context {O : Ops} (phi : F -> option R).

(* the data of the workspace are the numbers of P *)
Record rprob (w : pwork F) (P : problem) (A G : spmat R) : Prop := {
  rp_n : w_n w = pb_n P; rp_p : w_p w = pb_p P; rp_m : w_m w = pb_m P;
  rp_G : holds_mat phi (w_G w) G; rp_wfG : wf_sp G; rp_Gn : sp_n G = pb_n P; rp_Gm : sp_m G = pb_m P;
  rp_dG : pb_G P = dense G;
  rp_A : (0 < pb_p P)%nat -> exists A0, w_A w = Some A0 /\ holds_mat phi A0 A /\ wf_sp A /\ sp_n A = pb_n P /\ sp_m A = pb_p P /\ pb_A P = dense A;
  rp_c : holds phi (w_c w) (pb_n P) (pb_c P);
  rp_b : holds phi (w_b w) (pb_p P) (pb_b P);
  rp_h : holds phi (w_h w) (pb_m P) (pb_h P) }.

(* the point in the workspace consists of numbers *)
Record rpoint (w : pwork F) (P : problem) (x y z s : nat -> R) (tau : R) : Prop := {
  rq_x : holds phi (w_x w) (pb_n P) x; rq_y : holds phi (w_y w) (pb_p P) y;
  rq_z : holds phi (w_z w) (pb_m P) z; rq_s : holds phi (w_s w) (pb_m P) s;
  rq_tau : phi (w_tau w) = Some tau }.

Lemma holds_ext a b n f : (forall i, (i < n)%nat -> get a i = get b i) -> holds phi b n f -> holds phi a n f.
Proof. intros E X i Hi. rewrite (E i Hi). auto. Qed.

Lemma rprob_prob w w' P A G : prob_of w' = prob_of w -> rprob w P A G -> rprob w' P A G.
Proof.
  unfold prob_of. intros H [H1 H2 H3 H4 H5 H6 H7 H8 H9 H10 H11 H12]. injection H as.
  constructor; try congruence; auto.
  1: intros Hp; destruct (H9 Hp) as (A0 & B1 & B2); exists A0; split; [congruence|auto].
  all: intros i Hi; match goal with E : ?f ?a = _ |- exists v, get (?f ?a) _ = _ /\ _ => rewrite E end; auto.
Qed.

Lemma rprob0 w w' P A G : prob0_of w' = prob0_of w -> rprob w P A G -> rprob w' P A G.
Proof.
  unfold prob0_of. intros H [H1 H2 H3 H4 H5 H6 H7 H8 H9 H10 H11 H12]. injection H as.
  constructor; try congruence; auto.
  1: intros Hp; destruct (H9 Hp) as (A0 & B1 & B2); exists A0; split; [congruence|auto].
  all: intros i Hi; match goal with E : ?f ?a = _ |- exists v, get (?f ?a) _ = _ /\ _ => rewrite E end; auto.
Qed.

Variables (u eta Om : R) (H : rounds O phi u eta Om).
Variables (N : nat) (eps om B : R).
Hypothesis PC : precision u eta Om N eps om B.
Variables (P : problem) (A G : spmat R) (x y z s : nat -> R) (tau : R).
Let n := pb_n P. Let p := pb_p P. Let m := pb_m P.
Notation ACCS := (accs phi u eta Om).

Definition h_x (j : nat) : R := mulvT p (pb_A P) y j + mulvT m (pb_G P) z j.
Definition t_x (j : nat) : R := h_x j + tau * pb_c P j.
Definition t_y (i : nat) : R := mulv n (pb_A P) x i - tau * pb_b P i.
Definition t_z (i : nat) : R := mulv n (pb_G P) x i + s i - tau * pb_h P i.

(* accs is about values only *)
Lemma accs_ext a k (c c' : nat -> nat) e e' M M' : (forall i, (i < k)%nat -> (c i <= c' i)%nat) -> (forall i, (i < k)%nat -> e i = e' i) ->
  (forall i, (i < k)%nat -> M i <= M' i) -> ACCS a k c e M -> ACCS a k c' e' M'.
Proof.
  intros Hc He HM X i v Hi Gv. rewrite <- (He i Hi). eapply (acc_mono _ _ _ _ H); [apply (Hc i Hi)|apply (HM i Hi)|apply X; auto].
Qed.

(* minus e *)
Lemma nrm_opp k f : nrm k (fun i => - f i) = nrm k f.
Proof. unfold nrm. f_equal. apply Rsum_ext. intros; ring. Qed.

Record rresid (w : pwork F) : Prop := {
  rr_rx : ACCS (w_rx w) n (fun j => (if Nat.ltb 0 p then collen A j else 0) + collen G j + 1)%nat (fun j => - t_x j) (mag_dual P A G tau y z);
  rr_ry : (0 < p)%nat -> ACCS (w_ry w) p (fun i => rowlen A i + 1)%nat t_y (mag_eq P A tau x);
  rr_rz : ACCS (w_rz w) m (fun i => rowlen G i + 2)%nat t_z (mag_ineq P G tau x s);
  rr_cx : eddot n (w_c w) (w_x w) = Some (w_cx w);
  rr_by : if Nat.ltb 0 p then eddot p (w_b w) (w_y w) = Some (w_by w) else w_by w = f0;
  rr_hz : eddot m (w_h w) (w_z w) = Some (w_hz w);
  rr_nx : norm2 (w_x w) n = Some (w_nx w); rr_ny : norm2 (w_y w) p = Some (w_ny w);
  rr_ns : norm2 (w_s w) m = Some (w_ns w); rr_nz : norm2 (w_z w) m = Some (w_nz w) }.

Lemma computeResiduals_round w wr : rprob w P A G -> rpoint w P x y z s tau -> computeResiduals w = Some wr -> rresid wr.
Proof.
  intros [Dn Dp Dm HG WG Gn Gm EG HA Hc Hb Hh] [Qx Qy Qz Qs Qt] E.
  unfold computeResiduals in E. rewrite Dn, Dp, Dm in E. fold n in Dn, Gn, HA, Hc, Qx, E. fold p in Dp, HA, Hb, Qy, E. fold m in Dm, Gm, Hh, Qz, Qs, E.
  bd E as rx1 E1. bd E as hx E2. bd E as rx2 E3. bd E as [ry hy] E4. bd E as rz1 E5. bd E as rz2 E6. bd E as hz_ E7. bd E as rz3 E8.
  bd E as cx E9. bd E as by_ E10. bd E as hz E11. bd E as nx E12. bd E as ny E13. bd E as ns E14. bd E as nz E15.
  injection E as <-. constructor; wcbn; auto.
  - assert (X1: ACCS rx1 n (fun j => (if Nat.ltb 0 p then collen A j else 0) + collen G j)%nat (fun j => - h_x j)
       (fun j => mulvT p (absdense A) (vabs y) j + mulvT m (absdense G) (vabs z) j)).
    { destruct (Nat.ltb_spec 0 p) as [Hp|Hp].
      - destruct (HA Hp) as (A1 & WA & HMA & WfA & An & Am & EA). rewrite WA in E1. cbn [bind] in E1. bd E1 as r1 E0.
        rewrite <- Am in Qy.
        destruct (sparseMtVm_acc phi u eta Om H A1 A _ _ _ y 1 (fun _ => 0%nat) (fun _ => 0) (fun _ => 0) HMA WfA Qy ltac:(lia) E0) as [_ X0].
        rewrite <- Gm in Qz. rewrite An in X0. rewrite <- Gn in X0.
        destruct (sparseMtVm_acc phi u eta Om H _ G _ _ _ z 0 _ _ _ HG WG Qz ltac:(intros _; exact X0) E1) as [_ X1].
        rewrite Gn in X1. cbn [Z.gtb Z.compare] in X1. eapply accs_ext; [| | |exact X1]; cbv beta; intros j Hj.
        + lia.
        + unfold h_x. rewrite EA, EG, Am, Gm. fold n p m. ring.
        + rewrite Am, Gm. fold n p m. lra.
      - rewrite <- Gm in Qz.
        destruct (sparseMtVm_acc phi u eta Om H _ G _ _ _ z 1 (fun _ => 0%nat) (fun _ => 0) (fun _ => 0) HG WG Qz ltac:(lia) E1) as [_ X1].
        rewrite Gn in X1. cbn [Z.gtb Z.compare] in X1. assert (p = 0%nat) as P0 by lia.
        eapply accs_ext; [| | |exact X1]; cbv beta; intros j Hj.
        + lia.
        + unfold h_x. rewrite P0, EG, Gm. fold m. unfold mulvT at 2. simpl Rsum. ring.
        + rewrite Gm, P0. fold m. unfold mulvT at 2. simpl Rsum. lra. }
    destruct (vsubscale_acc phi u eta Om H n _ _ _ _ _ _ _ _ _ Qt Hc X1 E3) as [_ X2].
    eapply accs_ext; [| | |exact X2]; cbv beta; intros j Hj; [lia|unfold t_x; ring|unfold mag_dual; fold p m; lra].
  - intros Hp. apply Nat.ltb_lt in Hp as Hp'. rewrite Hp' in E4.
    destruct (HA Hp) as (A1 & WA & HMA & WfA & An & Am & EA). rewrite WA in E4. cbn [bind] in E4.
    bd E4 as ry1 F1. bd E4 as hy1 F2. bd E4 as ry2 F3. injection E4 as <- <-.
    rewrite <- An in Qx.
    destruct (sparseMV_acc phi u eta Om H A1 A _ _ _ x HMA WfA Qx F1) as [_ X0]. rewrite Am in X0.
    destruct (vsubscale_acc phi u eta Om H p _ _ _ _ _ _ _ _ _ Qt Hb X0 F3) as [_ X2].
    eapply accs_ext; [| | |exact X2]; cbv beta; intros i Hi; [lia|unfold t_y; rewrite EA, An; auto|unfold mag_eq; rewrite An; fold n; lra].
  - rewrite <- Gn in Qx.
    destruct (sparseMV_acc phi u eta Om H _ G _ _ _ x HG WG Qx E5) as [_ X0]. rewrite Gm in X0.
    destruct (vadd_acc phi u eta Om H m _ _ _ _ _ _ _ Qs X0 E6) as [_ X1].
    destruct (vsubscale_acc phi u eta Om H m _ _ _ _ _ _ _ _ _ Qt Hh X1 E8) as [_ X2].
    eapply accs_ext; [| | |exact X2]; cbv beta; intros i Hi; [lia|unfold t_z; rewrite EG, Gn; auto|unfold mag_ineq; rewrite Gn; fold n; lra].
  - destruct (Nat.ltb 0 p); [auto|]. injection E10 as <-. auto.
Qed.

(* ------------------------------------------------------------ the optimality test *)
Hypothesis T : tame P A G om N B tau x y z s.
Hypothesis Ht : 0 < tau.
Let U0 := rn_u _ _ _ _ _ H.
Let E0 := rn_eta _ _ _ _ _ H.
Let Pe := pe _ _ _ _ _ _ _ PC.
Let Po := po _ _ _ _ _ _ _ PC.
Let Ue := u_eps _ _ _ _ _ _ _ U0 PC.
Let Eo := eta_om _ _ _ _ _ _ _ PC.
Let O64 := Om_64 _ _ _ _ _ _ _ PC.
Let O64' := Om64 u eta Om N eps om B PC.

Lemma B_Om : 64 * B <= Om.
Proof. destruct O64 as (K & K1 & K2). assert (1 * B <= INR (N + 1) * B) by (apply Rmult_le_compat_r; lra). lra. Qed.

Lemma mag_dot_B k f g : (k <= N)%nat -> (forall i, (i < k)%nat -> Rabs (f i) <= B) -> (forall i, (i < k)%nat -> Rabs (g i) <= B) ->
  0 <= mag_dot k f g <= Om / 64.
Proof.
  intros Hk Hf Hg. split; [apply Rsum_nonneg; intros; apply Rabs_pos|].
  assert (mag_dot k f g <= INR k * (B * B)).
  { unfold mag_dot. clear Hk. induction k; [simpl; lra|]. rewrite S_INR. simpl Rsum.
    rewrite Rabs_mult. pose proof (Rabs_pos (f k)). pose proof (Rabs_pos (g k)).
    assert (Rabs (f k) * Rabs (g k) <= B * B) by (apply Rmult_le_compat; [lra|lra|apply Hf; lia|apply Hg; lia]).
    specialize (IHk ltac:(intros; apply Hf; lia) ltac:(intros; apply Hg; lia)). lra. }
  destruct PC. assert (INR k <= INR (N + 1)) by (apply le_INR; lia).
  assert (INR k * (B * B) <= INR (N + 1) * (B * B)) by (apply Rmult_le_compat_r; [apply Rmult_le_pos|]; lra). lra.
Qed.

Lemma norm_B v k f r : holds phi v k f -> norm2 v k = Some r -> (k <= N)%nat -> (forall i, (i < k)%nat -> Rabs (f i) <= B) ->
  exists rho, phi r = Some rho /\ 0 <= rho <= Om / 4 /\ rho <= (1 + 3 * eps) * nrm k f + 3 * om /\ 0 <= nrm k f.
Proof.
  intros V E Hk Hf. destruct O64 as (_ & _ & B1).
  destruct (holds_norm phi u eta Om H N eps om B PC v k f r V E Hk) as (rho & R1 & R2 & R3).
  { intros i Hi. specialize (Hf i Hi). lra. }
  exists rho. pose proof (nrm_nonneg k f). csplit; auto; lra.
Qed.

(* max(1, norm) *)
Lemma norm_B1 v k f r : holds phi v k f -> norm2 v k = Some r -> (k <= N)%nat -> (forall i, (i < k)%nat -> Rabs (f i) <= B) ->
  exists rho, phi (fmax f1 r) = Some rho /\ 0 <= rho <= Om / 4 /\ rho <= (1 + 3 * eps) * Rmax 1 (nrm k f) + 3 * om /\ 1 <= Rmax 1 (nrm k f).
Proof.
  intros V E Hk Hf. destruct (norm_B v k f r V E Hk Hf) as (rho & R1 & R2 & R3 & R4).
  exists (Rmax 1 rho). split; [apply (fmax_phi phi u eta Om H); auto; apply (rn_1 _ _ _ _ _ H)|].
  pose proof (Rmax_l 1 (nrm k f)). pose proof (Rmax_r 1 (nrm k f)).
  assert ((1 + 3 * eps) * nrm k f <= (1 + 3 * eps) * Rmax 1 (nrm k f)) by (apply Rmult_le_compat_l; lra).
  assert ((1 + 3 * eps) * 1 <= (1 + 3 * eps) * Rmax 1 (nrm k f)) by (apply Rmult_le_compat_l; lra).
  csplit; auto.
  - pose proof (Rmax_l 1 rho). lra.
  - apply Rmax_lub; lra.
  - apply Rmax_lub; lra.
Qed.

(* from the rounded relative gap to the gap *)
Lemma gap_final g v e Z rt : 0 <= rt -> 0 <= Z -> v <= (1 + eps) * (1 + eps) * Z + om -> 0 < v -> g * (1 - u) <= v * (rt + eta) ->
  g + e <= slack eps om * (rt + om) * (Z + om) + e.
Proof.
  intros R0 Z0 V1 V0 Q. apply Rplus_le_compat_r.
  assert (K: 0 <= slack eps om * (rt + om) * (Z + om)).
  { unfold slack. repeat apply Rmult_le_pos; lra. }
  destruct (Rle_lt_dec g 0) as [|G0]; [lra|].
  assert (Q1: g * (1 - eps) <= (rt + om) * ((1 + eps) * (1 + eps) * (Z + om))).
  { apply Rle_trans with (g * (1 - u)); [apply Rmult_le_compat_l; lra|].
    apply Rle_trans with (v * (rt + om)); [eapply Rle_trans; [exact Q|]; apply Rmult_le_compat_l; lra|].
    rewrite Rmult_comm. apply Rmult_le_compat_l; [lra|].
    assert (1 * om <= (1 + eps) * (1 + eps) * om). { apply Rmult_le_compat_r; [lra|]. assert (1 * 1 <= (1 + eps) * (1 + eps)) by (apply Rmult_le_compat; lra). lra. }
    lra. }
  apply Rmult_le_reg_r with (1 - eps); [lra|]. eapply Rle_trans; [exact Q1|].
  replace (slack eps om * (rt + om) * (Z + om) * (1 - eps)) with ((rt + om) * (slack eps om * (1 - eps) * (Z + om))) by ring.
  apply Rmult_le_compat_l; [lra|]. apply Rmult_le_compat_r; [lra|]. unfold slack.
  assert (eps * eps <= / 64 * eps) by (apply Rmult_le_compat_r; lra).
  assert (eps * om <= / 64 * om) by (apply Rmult_le_compat_r; lra). lra.
Qed.

Lemma Rabs_bounds a b : Rabs a <= b -> - b <= a <= b.
Proof. unfold Rabs. destruct (Rcase_abs a); lra. Qed.

Lemma erd_nonneg k f g : 0 <= erd eps om k f g.
Proof.
  unfold erd, mag_dot. assert (0 <= Rsum k (fun i => Rabs (f i * g i))) by (apply Rsum_nonneg; intros; apply Rabs_pos).
  assert (0 <= eps * Rsum k (fun i => Rabs (f i * g i))) by (apply Rmult_le_pos; lra).
  assert (0 <= om * om) by (apply Rmult_le_pos; lra). lra.
Qed.

Lemma dotp_mag k f g : Rabs (dotp k f g) <= mag_dot k f g.
Proof.
  unfold dotp, mag_dot. induction k; simpl; [rewrite Rabs_R0; lra|].
  eapply Rle_trans; [apply Rabs_triang|]. lra.
Qed.

(* an inner product, its value in the arithmetic *)
Lemma dot_round a b k f g d : holds phi a k f -> holds phi b k g -> eddot k a b = Some d -> (k <= N)%nat ->
  (forall i, (i < k)%nat -> Rabs (f i) <= B) -> (forall i, (i < k)%nat -> Rabs (g i) <= B) ->
  exists v, phi d = Some v /\ Rabs (v - dotp k f g) <= erd eps om k f g /\ Rabs v <= 2 * mag_dot k f g + om /\ Rabs v <= Om / 16.
Proof.
  intros Ha Hb Ed Hk Hf Hg. destruct (mag_dot_B k f g Hk Hf Hg) as [M0 M1].
  destruct (eddot_num phi u eta Om H N eps om B PC k a b f g d (Om / 64) Ha Hb Ed Hk M1 ltac:(lra)) as (v & V & D).
  exists v. split; auto. split; auto. pose proof (dotp_mag k f g). unfold erd in D.
  assert (eps * mag_dot k f g <= / 64 * mag_dot k f g) by (apply Rmult_le_compat_r; lra).
  assert (om * om <= 1 * om) by (apply Rmult_le_compat_r; lra).
  assert (Rabs v <= 2 * mag_dot k f g + om).
  { replace v with (dotp k f g + (v - dotp k f g)) by lra. eapply Rle_trans; [apply Rabs_triang|]. lra. }
  split; lra.
Qed.

Lemma optimal_round wr w1 mode ft at_ rt fft fat frt : rprob wr P A G -> rpoint wr P x y z s tau -> norms_ok wr -> rresid wr ->
  updateStatistics wr = Some w1 -> tols (w_stgs w1) mode = (fft, fat, frt) ->
  phi fft = Some ft -> phi fat = Some at_ -> phi frt = Some rt -> 0 <= ft -> 0 <= at_ -> 0 <= rt ->
  test_optimal w1 mode = true -> rounded_optimal P A G eps om ft at_ rt tau x y z s.
Proof.
  intros [Dn Dp Dm HG WG Gn Gm EG HA Hc Hb Hh] [Qx Qy Qz Qs Qt] (nc & nb & nh & N1 & N2 & N3 & N4 & N5 & N6)
    [Rx Ry Rz Rcx Rby Rhz Rnx Rny Rns Rnz] Up Et Pf Pa Pr F0 A0 R0 Te.
  fold n in Dn, Gn, HA, Hc, Qx. fold p in Dp, HA, Hb, Qy. fold m in Dm, Gm, Hh, Qz, Qs.
  destruct T as [[Sn [Sp Sm]] Trow TrowG Tcol Tx Ty Tz Ts Tc Tb Th Teq Tineq Tdual Tpobj Tdobj].
  fold n in Sn, Tcol, Tx, Tc, Tdual, Tpobj. fold p in Sp, Trow, Ty, Tb, Teq, Tdobj, Tcol. fold m in Sm, TrowG, Tz, Ts, Th, Tineq, Tdobj.
  rewrite Dn in N1. rewrite Dp in N2. rewrite Dm in N3. fold n in N1. fold p in N2. fold m in N3.
  unfold updateStatistics in Up. rewrite Dn, Dp, Dm in Up.
  bd Up as gap U1. bd Up as nry U2. bd Up as nrz U3. bd Up as nrx U4. injection Up as <-.
  unfold test_optimal in Te. cbn [w_stgs set_w_info] in Et. wcbn. cbn [w_stgs w_info w_cx w_by w_hz st_pres st_dres st_gap st_relgap set_w_info] in Te.
  rewrite Et in Te.
  apply andb_prop in Te as [Te Tg]. apply andb_prop in Te as [Tc1 Te]. apply andb_prop in Te as [Tp Td].
  pose proof B_Om as BO.
  (* the norms of the point and of the data *)
  destruct (norm_B _ n x _ Qx Rnx Sn Tx) as (vx & Vx & Bx & Cx & Dx).
  destruct (norm_B _ p y _ Qy Rny Sp Ty) as (vy & Vy & By & Cy & Dy).
  destruct (norm_B _ m z _ Qz Rnz Sm Tz) as (vz & Vz & Bz & Cz & Dz).
  destruct (norm_B _ m s _ Qs Rns Sm Ts) as (vs & Vs & Bs & Cs & Ds).
  destruct (norm_B1 _ n _ _ Hc N1 Sn Tc) as (vc & Vc & Bc & Cc & Dc). rewrite <- N4 in Vc.
  destruct (norm_B1 _ p _ _ Hb N2 Sp Tb) as (vb & Vb & Bb & Cb & Db). rewrite <- N5 in Vb.
  destruct (norm_B1 _ m _ _ Hh N3 Sm Th) as (vh & Vh & Bh & Ch & Dh). rewrite <- N6 in Vh.
  (* the denominators *)
  destruct (den2 phi u eta Om H N eps om B PC _ _ _ _ _ _ Vb Vx Bb Bx Cb Cx ltac:(lra) Dx ltac:(lra)) as (dy & Py & Ey).
  destruct (den3 phi u eta Om H N eps om B PC _ _ _ _ _ _ _ _ _ Vh Vx Vs Bh Bx Bs Ch Cx Cs ltac:(lra) Dx Ds ltac:(lra)) as (dz & Pz & Ez).
  destruct (den3 phi u eta Om H N eps om B PC _ _ _ _ _ _ _ _ _ Vc Vy Vz Bc By Bz Cc Cy Cz ltac:(lra) Dy Dz ltac:(lra)) as (dx & Px & Ex).
  (* the residual norms *)
  destruct (accs_norm phi u eta Om H N eps om B PC _ _ _ _ _ _ Rz U3 Sm) as (rz & Vrz & Brz & Crz).
  { intros i Hi. split; [apply TrowG; auto|apply Tineq; auto]. }
  destruct (accs_norm phi u eta Om H N eps om B PC _ _ _ _ _ _ Rx U4 Sn) as (rx & Vrx & Brx & Crx).
  { intros i Hi. split; [apply Tcol; auto|apply Tdual; auto]. }
  rewrite nrm_opp in Crx.
  destruct (quot_fin phi u eta Om H N eps om B PC _ _ _ _ Vrz Pz Brz ltac:(lra)) as (qz & Qqz & Lz).
  destruct (quot_fin phi u eta Om H N eps om B PC _ _ _ _ Vrx Px Brx ltac:(lra)) as (qx & Qqx & Lx).
  assert (Iu: 0 < 1 - u) by lra.
  assert (Ta: 0 <= tau * (ft + eta)) by (apply Rmult_le_pos; lra).
  set (a1 := tau * (ft + eta) / (1 - u)).
  assert (A1: a1 * (1 - u) = tau * (ft + eta)) by (unfold a1; field; lra).
  assert (A1p: 0 <= a1). { unfold a1. apply Rmult_le_pos; auto. left. apply Rinv_0_lt_compat; auto. }
  assert (LE: forall q, q * (1 - u) <= tau * (ft + eta) -> q <= a1).
  { intros q Hq. apply Rmult_le_reg_r with (1 - u); [auto|]. rewrite A1. auto. }
  assert (Qy0: exists qy, phi nry = Some qy /\ ((0 < p)%nat -> exists ry, 0 <= ry /\ (1 - 2 * eps) * (nrm p t_y - err eps om p (mag_eq P A tau x)) - 2 * om <= ry /\
     forall t, qy <= t -> 0 <= t -> ry / dy * (1 - u) <= t + eta)).
  { destruct (Nat.ltb_spec 0 p) as [Hp|Hp].
    - bd U2 as nr U5. injection U2 as <-.
      destruct (accs_norm phi u eta Om H N eps om B PC _ _ _ _ _ _ (Ry Hp) U5 Sp) as (ry & Vry & Bry & Cry).
      { intros i Hi. split; [apply Trow; auto|apply Teq; auto]. }
      destruct (quot_fin phi u eta Om H N eps om B PC _ _ _ _ Vry Py Bry ltac:(lra)) as (qy & Qqy & Ly).
      exists qy. split; auto. intros _. exists ry. split; [lra|]. split; auto.
    - injection U2 as <-. exists 0. split; [apply (rn_0 _ _ _ _ _ H)|lia]. }
  destruct Qy0 as (qy & Qqy & Ly).
  pose proof (fmax_phi phi u eta Om H _ _ _ _ Qqy Qqz) as Pm.
  pose proof (test_quot phi u eta Om H N eps om B PC _ _ _ _ _ _ Pm Qt Ht Pf F0 Tp) as Tp'.
  pose proof (test_quot phi u eta Om H N eps om B PC _ _ _ _ _ _ Qqx Qt Ht Pf F0 Td) as Td'.
  apply LE in Tp'. apply LE in Td'.
  assert (Tpy: qy <= a1) by (eapply Rle_trans; [apply Rmax_l|exact Tp']).
  assert (Tpz: qz <= a1) by (eapply Rle_trans; [apply Rmax_r|exact Tp']).
  assert (TAU: 0 <= tau) by lra.
  (* the inner products *)
  destruct (dot_round _ _ n (pb_c P) x _ Hc Qx Rcx Sn Tc Tx) as (cx & Vcx & Ecx & Mcx & Ocx).
  destruct (dot_round _ _ m (pb_h P) z _ Hh Qz Rhz Sm Th Tz) as (hz & Vhz & Ehz & Mhz & Ohz).
  assert (Qby: exists by_, phi (w_by wr) = Some by_ /\ Rabs (by_ - dotp p (pb_b P) y) <= erd eps om p (pb_b P) y /\ Rabs by_ <= 2 * mag_dot p (pb_b P) y + om /\ Rabs by_ <= Om / 16).
  { destruct (Nat.ltb_spec 0 p) as [Hp|Hp].
    - apply (dot_round _ _ p (pb_b P) y _ Hb Qy Rby Sp Tb Ty).
    - exists 0. rewrite Rby. split; [apply (rn_0 _ _ _ _ _ H)|]. assert (p = 0%nat) as -> by lia.
      pose proof (erd_nonneg 0 (pb_b P) y). unfold dotp, mag_dot; simpl. rewrite Rminus_0_r, Rabs_R0. csplit; auto; lra. }
  destruct Qby as (by_ & Vby & Eby & Mby & Oby).
  destruct (dot_round _ _ m s z _ Qs Qz U1 Sm Ts Tz) as (g & Vg & Eg & _ & _).
  apply Rabs_bounds in Ecx. apply Rabs_bounds in Ehz. apply Rabs_bounds in Eby. apply Rabs_bounds in Eg.
  assert (IT: 0 < / tau) by (apply Rinv_0_lt_compat; auto).
  assert (U1': 0 <= u <= 1) by lra.
  unfold rounded_optimal. cbv zeta. fold n p m. split; [|split; [|split; [|split]]].
  - destruct (Nat.eq_dec p 0) as [P0|P0].
    + rewrite P0. unfold nrm at 1. simpl Rsum. rewrite sqrt_0. pose proof (nrm_nonneg 0 (fun i => eps * mag_eq P A tau x i + om * om)) as NE.
      fold (err eps om 0 (mag_eq P A tau x)) in NE. rewrite P0 in Db.
      assert (0 <= tau * (ft + om)) by (apply Rmult_le_pos; lra).
      assert (0 <= slack eps om * (Rmax 1 (nrm 0 (pb_b P)) + nrm n x) * (tau * (ft + om) + om)).
      { unfold slack. repeat apply Rmult_le_pos; lra. } lra.
    + destruct (Ly ltac:(lia)) as (ry & Ry0 & Cry & Lry). specialize (Lry a1 Tpy A1p).
      pose proof (final_norm u eta Om N eps om B U0 E0 PC _ (Rmax 1 (nrm p (pb_b P)) + nrm n x) dy ry a1 tau ft TAU F0 ltac:(lra) Ey Ry0 Lry (Req_le _ _ A1) Cry) as FN.
      unfold t_y in FN. fold n in FN. lra.
  - specialize (Lz a1 Tpz A1p).
    pose proof (final_norm u eta Om N eps om B U0 E0 PC _ (Rmax 1 (nrm m (pb_h P)) + nrm n x + nrm m s) dz rz a1 tau ft TAU F0 ltac:(lra) Ez (proj1 Brz) Lz (Req_le _ _ A1) Crz) as FN.
    unfold t_z in FN. fold n in FN. unfold err. lra.
  - specialize (Lx a1 Td' A1p).
    pose proof (final_norm u eta Om N eps om B U0 E0 PC _ (Rmax 1 (nrm n (pb_c P)) + nrm p y + nrm m z) dx rx a1 tau ft TAU F0 ltac:(lra) Ex (proj1 Brx) Lx (Req_le _ _ A1) Crx) as FN.
    unfold t_x, h_x in FN. fold p m in FN. unfold err. lra.
  - apply orb_prop in Tg as [Tg|Tg].
    + left. rewrite (rn_lt _ _ _ _ _ H _ _ _ _ Vg Pa) in Tg. destruct (Rltb_spec g at_); [lra|discriminate].
    + right.
      assert (TB: tau * B * / tau = B) by (field; lra).
      (* pcost *)
      destruct (rn_div_fin _ _ _ _ _ H _ _ _ _ Vcx Qt) as [pc Vpc]; [lra| |].
      { unfold Rdiv. rewrite Rabs_mult, (Rabs_pos_eq (/ tau)) by lra.
        assert (Rabs cx * / tau <= 2 * (tau * B) * / tau) by (apply Rmult_le_compat_r; lra). lra. }
      destruct (rn_div _ _ _ _ _ H _ _ _ _ Vpc Qt) as (cx' & Cx' & _ & Dpc). rewrite Vcx in Cx'. injection Cx' as <-.
      rewrite (rn_lt _ _ _ _ _ H _ _ _ _ Vpc (rn_0 _ _ _ _ _ H)) in Tg.
      destruct (Rltb_spec pc 0) as [Lp|Lp].
      * left. assert (Vn: phi (fneg (fdiv (w_cx wr) (w_tau wr))) = Some (- pc)) by (rewrite (rn_neg _ _ _ _ _ H), Vpc; auto).
        pose proof (test_quot phi u eta Om H N eps om B PC _ _ _ _ _ _ Vg Vn ltac:(lra) Pr R0 Tg) as Tq.
        apply Rle_trans with (g + erd eps om m s z); [lra|].
        apply gap_final with (v := - pc); auto; try lra.
        { apply Rmult_le_pos; [|lra]. pose proof (Rmax_l 0 (erd eps om n (pb_c P) x - dotp n (pb_c P) x)). lra. }
        pose proof (quot_up u eta (- (cx / tau)) (- pc) U1' E0) as Qu.
        replace (- pc - - (cx / tau)) with (- (pc - cx / tau)) in Qu by ring. rewrite !Rabs_Ropp in Qu. specialize (Qu Dpc).
        set (Z := (Rmax 0 (erd eps om n (pb_c P) x - dotp n (pb_c P) x) + om) / tau) in *.
        assert (RZ: Rmax 0 (- (cx / tau)) <= Z).
        { unfold Z. pose proof (Rmax_l 0 (erd eps om n (pb_c P) x - dotp n (pb_c P) x)). pose proof (Rmax_r 0 (erd eps om n (pb_c P) x - dotp n (pb_c P) x)).
          apply Rmax_lub; [apply Rmult_le_pos; lra|]. unfold Rdiv. rewrite Ropp_mult_distr_l. apply Rmult_le_compat_r; lra. }
        pose proof (Rmax_l 0 (- (cx / tau))).
        assert ((1 + u) * Rmax 0 (- (cx / tau)) <= (1 + eps) * (1 + eps) * Z).
        { apply Rmult_le_compat; try lra. assert (0 <= eps * eps) by (apply Rmult_le_pos; lra). lra. }
        lra.
      * right.
        (* dcost *)
        assert (Mv: Rabs (hz + by_) <= Rabs hz + Rabs by_) by apply Rabs_triang.
        destruct (rn_add_fin _ _ _ _ _ H _ _ _ _ Vhz Vby) as [v Vv]; [lra|].
        destruct (rn_add _ _ _ _ _ H _ _ _ Vv) as (h' & b' & H' & B' & Dv). rewrite Vhz in H'. injection H' as <-. rewrite Vby in B'. injection B' as <-.
        assert (Vnv: phi (fneg (fadd (w_hz wr) (w_by wr))) = Some (- v)) by (rewrite (rn_neg _ _ _ _ _ H), Vv; auto).
        assert (uv: u * Rabs (hz + by_) <= / 64 * Rabs (hz + by_)) by (apply Rmult_le_compat_r; [apply Rabs_pos|lra]).
        pose proof (mag_dot_B p (pb_b P) y Sp Tb Ty) as Gb. pose proof (mag_dot_B m (pb_h P) z Sm Th Tz) as Gh.
        assert (Av: Rabs (- v) <= 4 * (tau * B)).
        { rewrite Rabs_Ropp. replace v with ((hz + by_) + (v - (hz + by_))) by lra. eapply Rle_trans; [apply Rabs_triang|]. lra. }
        destruct (rn_div_fin _ _ _ _ _ H _ _ _ _ Vnv Qt) as [dc Vdc]; [lra| |].
        { unfold Rdiv. rewrite Rabs_mult, (Rabs_pos_eq (/ tau)) by lra.
          assert (Rabs (- v) * / tau <= 4 * (tau * B) * / tau) by (apply Rmult_le_compat_r; lra). lra. }
        destruct (rn_div _ _ _ _ _ H _ _ _ _ Vdc Qt) as (v' & V' & _ & Ddc). rewrite Vnv in V'. injection V' as <-.
        rewrite (rn_lt _ _ _ _ _ H _ _ _ _ (rn_0 _ _ _ _ _ H) Vdc) in Tg.
        destruct (Rltb_spec 0 dc) as [Ld|Ld]; [|rewrite (rn_nan _ _ _ _ _ H) in Tg; discriminate].
        pose proof (test_quot phi u eta Om H N eps om B PC _ _ _ _ _ _ Vg Vdc Ld Pr R0 Tg) as Tq.
        apply Rle_trans with (g + erd eps om m s z); [lra|].
        apply gap_final with (v := dc); auto; try lra.
        { apply Rmult_le_pos; [|lra]. pose proof (Rmax_l 0 (erd eps om p (pb_b P) y + erd eps om m (pb_h P) z - dotp p (pb_b P) y - dotp m (pb_h P) z)). lra. }
        pose proof (quot_up u eta (- v / tau) dc U1' E0 Ddc) as Qu.
        pose proof (quot_up u eta (- (hz + by_)) (- v) U1' E0) as Qv.
        replace (- v - - (hz + by_)) with (- (v - (hz + by_))) in Qv by ring. rewrite !Rabs_Ropp in Qv. specialize (Qv Dv).
        set (W := erd eps om p (pb_b P) y + erd eps om m (pb_h P) z - dotp p (pb_b P) y - dotp m (pb_h P) z) in *.
        assert (RW: Rmax 0 (- (hz + by_)) <= Rmax 0 W).
        { apply Rmax_lub; [apply Rmax_l|]. eapply Rle_trans; [|apply Rmax_r]. unfold W. lra. }
        pose proof (Rmax_l 0 W) as W0. pose proof (Rmax_l 0 (- (hz + by_))).
        assert (Qv2: - v <= (1 + eps) * (Rmax 0 W + om)).
        { assert ((1 + u) * Rmax 0 (- (hz + by_)) <= (1 + eps) * Rmax 0 W) by (apply Rmult_le_compat; lra).
          assert (0 <= eps * om) by (apply Rmult_le_pos; lra). lra. }
        assert (RZ: Rmax 0 (- v / tau) <= (1 + eps) * ((Rmax 0 W + om) / tau)).
        { apply Rmax_lub; [repeat apply Rmult_le_pos; lra|].
          replace ((1 + eps) * ((Rmax 0 W + om) / tau)) with ((1 + eps) * (Rmax 0 W + om) / tau) by (field; lra).
          unfold Rdiv. apply Rmult_le_compat_r; lra. }
        pose proof (Rmax_l 0 (- v / tau)).
        assert ((1 + u) * Rmax 0 (- v / tau) <= (1 + eps) * ((1 + eps) * ((Rmax 0 W + om) / tau))) by (apply Rmult_le_compat; lra).
        rewrite Rmult_assoc. lra.
  - apply orb_prop in Tc1 as [K|K].
    + left. assert (Vn: phi (fneg (w_cx wr)) = Some (- cx)) by (rewrite (rn_neg _ _ _ _ _ H), Vcx; auto).
      rewrite (rn_lt _ _ _ _ _ H _ _ _ _ (rn_0 _ _ _ _ _ H) Vn) in K. destruct (Rltb_spec 0 (- cx)); [lra|discriminate].
    + right. assert (Vn: phi (fneg (w_by wr)) = Some (- by_)) by (rewrite (rn_neg _ _ _ _ _ H), Vby; auto).
      assert (Va: phi (fneg fat) = Some (- at_)) by (rewrite (rn_neg _ _ _ _ _ H), Pa; auto).
      assert (Mv: Rabs (- by_ - hz) <= Rabs hz + Rabs by_).
      { unfold Rminus. eapply Rle_trans; [apply Rabs_triang|]. rewrite !Rabs_Ropp. lra. }
      destruct (rn_sub_fin _ _ _ _ _ H _ _ _ _ Vn Vhz) as [v Vv]; [lra|].
      destruct (rn_sub _ _ _ _ _ H _ _ _ Vv) as (b' & h' & B' & H' & Dv). rewrite Vhz in H'. injection H' as <-. rewrite Vn in B'. injection B' as <-.
      rewrite (rn_le _ _ _ _ _ H _ _ _ _ Va Vv) in K. destruct (Rleb_spec (- at_) v) as [L|]; [|discriminate].
      pose proof (quot_le u eta (by_ + hz) (- v) at_ U1' E0) as Q.
      replace (- v - (by_ + hz)) with (- (v - (- by_ - hz))) in Q by ring. rewrite Rabs_Ropp in Q.
      replace (by_ + hz) with (- (- by_ - hz)) in Q at 1 by ring. rewrite Rabs_Ropp in Q. specialize (Q Dv ltac:(lra) A0).
      assert (by_ + hz <= slack eps om * (at_ + om)); [|lra].
      assert (0 <= slack eps om * (at_ + om)) by (unfold slack; apply Rmult_le_pos; lra).
      destruct (Rle_lt_dec (by_ + hz) 0); [lra|].
      apply Rmult_le_reg_r with (1 - eps); [lra|].
      assert ((by_ + hz) * (1 - eps) <= (by_ + hz) * (1 - u)) by (apply Rmult_le_compat_l; lra).
      assert (1 * (at_ + om) <= slack eps om * (1 - eps) * (at_ + om)).
      { apply Rmult_le_compat_r; [lra|]. unfold slack.
        assert (eps * eps <= / 64 * eps) by (apply Rmult_le_compat_r; lra).
        assert (eps * om <= / 64 * om) by (apply Rmult_le_compat_r; lra). lra. }
      lra.
Qed.
End RoundC.
