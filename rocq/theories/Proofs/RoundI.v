(* The statistics behind the infeasibility tests in rounded arithmetic. *)
From Coq Require Import List Arith Bool ZArith Reals Lra Lia Psatz.
From Verif Require Import Base Num.
From Verif.Model Require Import Spla Types Consts Ecos.
From Verif.Spec Require Import Matrix Conic Rounding.
From Verif.Proofs Require Import SplaP ExitP RoundA RoundP RoundC.
Import ListNotations.
Open Scope R_scope.

Section RoundI.
Context {O : Ops} (phi : F -> option R).
Variables (u eta Om : R) (H : rounds O phi u eta Om).
Variables (N : nat) (eps om B : R).
Hypothesis PC : precision u eta Om N eps om B.
Variables (P : problem) (A G : spmat R) (x y z s : nat -> R) (tau : R).
Let n := pb_n P. Let p := pb_p P. Let m := pb_m P.
Notation ACCS := (accs phi u eta Om).

Record rhom (w : pwork F) : Prop := {
  ro_x : exists rx, norm2 rx n = Some (w_hresx w) /\
     ACCS rx n (fun j => (if Nat.ltb 0 p then collen A j else 0) + collen G j)%nat
       (fun j => - (mulvT p (pb_A P) y j + mulvT m (pb_G P) z j)) (mag_dual P A G 0 y z);
  ro_y : if Nat.ltb 0 p then exists ry, norm2 ry p = Some (w_hresy w) /\
       ACCS ry p (rowlen A) (fun i => mulv n (pb_A P) x i) (mag_eq P A 0 x)
     else w_hresy w = f0;
  ro_z : exists rz, norm2 rz m = Some (w_hresz w) /\
     ACCS rz m (fun i => rowlen G i + 1)%nat (fun i => mulv n (pb_G P) x i + s i) (mag_ineq P G 0 x s) }.

Lemma abs0 a : Rabs (0 * a) = 0. Proof. rewrite Rmult_0_l. apply Rabs_R0. Qed.

Lemma computeResiduals_hom w wr : rprob phi w P A G -> rpoint phi w P x y z s tau -> computeResiduals w = Some wr -> rhom wr.
Proof.
  intros [Dn Dp Dm HG WG Gn Gm EG HA Hc Hb Hh] [Qx Qy Qz Qs Qt] E.
  unfold computeResiduals in E. rewrite Dn, Dp, Dm in E. fold n in Dn, Gn, HA, Hc, Qx, E. fold p in Dp, HA, Hb, Qy, E. fold m in Dm, Gm, Hh, Qz, Qs, E.
  bd E as rx1 E1. bd E as hx E2. bd E as rx2 E3. bd E as [ry hy] E4. bd E as rz1 E5. bd E as rz2 E6. bd E as hz_ E7. bd E as rz3 E8.
  bd E as cx E9. bd E as by_ E10. bd E as hz E11. bd E as nx E12. bd E as ny E13. bd E as ns E14. bd E as nz E15.
  injection E as <-. constructor; wcbn; auto.
  - exists rx1. split; [exact E2|].
    destruct (Nat.ltb_spec 0 p) as [Hp|Hp].
    + destruct (HA Hp) as (A1 & WA & HMA & WfA & An & Am & EA). rewrite WA in E1. cbn [bind] in E1. bd E1 as r1 E0.
      rewrite <- Am in Qy.
      destruct (sparseMtVm_acc phi u eta Om H A1 A _ _ _ y 1 (fun _ => 0%nat) (fun _ => 0) (fun _ => 0) HMA WfA Qy ltac:(lia) E0) as [_ X0].
      rewrite <- Gm in Qz. rewrite An in X0. rewrite <- Gn in X0.
      destruct (sparseMtVm_acc phi u eta Om H _ G _ _ _ z 0 _ _ _ HG WG Qz ltac:(intros _; exact X0) E1) as [_ X1].
      rewrite Gn in X1. cbn [Z.gtb Z.compare] in X1. eapply (accs_ext phi u eta Om H); [| | |exact X1]; cbv beta; intros j Hj.
      * lia.
      * rewrite EA, EG, Am, Gm. fold n p m. ring.
      * unfold mag_dual. rewrite Am, Gm, abs0. fold n p m. lra.
    + rewrite <- Gm in Qz.
      destruct (sparseMtVm_acc phi u eta Om H _ G _ _ _ z 1 (fun _ => 0%nat) (fun _ => 0) (fun _ => 0) HG WG Qz ltac:(lia) E1) as [_ X1].
      rewrite Gn in X1. cbn [Z.gtb Z.compare] in X1. assert (p = 0%nat) as P0 by lia.
      eapply (accs_ext phi u eta Om H); [| | |exact X1]; cbv beta; intros j Hj.
      * lia.
      * rewrite P0, EG, Gm. fold m. unfold mulvT at 2. simpl Rsum. ring.
      * unfold mag_dual. fold p m. rewrite Gm, P0, abs0. fold m. unfold mulvT at 2. simpl Rsum. lra.
  - destruct (Nat.ltb_spec 0 p) as [Hp|Hp].
    + destruct (HA Hp) as (A1 & WA & HMA & WfA & An & Am & EA). rewrite WA in E4. cbn [bind] in E4.
      bd E4 as ry1 F1. bd E4 as hy1 F2. bd E4 as ry2 F3. injection E4 as <- <-. exists ry1. split; [exact F2|].
      rewrite <- An in Qx.
      destruct (sparseMV_acc phi u eta Om H A1 A _ _ _ x HMA WfA Qx F1) as [_ X0]. rewrite Am in X0.
      eapply (accs_ext phi u eta Om H); [| | |exact X0]; cbv beta; intros i Hi; [lia|rewrite EA, An; auto|unfold mag_eq; rewrite An, abs0; fold n; lra].
    + injection E4 as <- <-. auto.
  - exists rz2. split; [exact E7|]. rewrite <- Gn in Qx.
    destruct (sparseMV_acc phi u eta Om H _ G _ _ _ x HG WG Qx E5) as [_ X0]. rewrite Gm in X0.
    destruct (vadd_acc phi u eta Om H m _ _ _ _ _ _ _ Qs X0 E6) as [_ X1].
    eapply (accs_ext phi u eta Om H); [| | |exact X1]; cbv beta; intros i Hi; [lia|rewrite EG, Gn; auto|unfold mag_ineq; rewrite Gn, abs0; fold n; lra].
Qed.

Hypothesis T : tame_ray P A G N B x y z s.
Let U0 := rn_u _ _ _ _ _ H.
Let E0 := rn_eta _ _ _ _ _ H.
Let Pe := pe _ _ _ _ _ _ _ PC.
Let Po := po _ _ _ _ _ _ _ PC.
Let Ue := u_eps _ _ _ _ _ _ _ U0 PC.
Let Eo := eta_om _ _ _ _ _ _ _ PC.
Let O64 := Om_64 _ _ _ _ _ _ _ PC.
Let O64' := Om64 u eta Om N eps om B PC.

(* the computed norm, from both sides *)
Lemma norm_B2 v k f r : holds phi v k f -> norm2 v k = Some r -> (k <= N)%nat -> (forall i, (i < k)%nat -> Rabs (f i) <= B) ->
  exists rho, phi r = Some rho /\ 0 <= rho <= Om / 4 /\ (1 - 2 * eps) * nrm k f - 2 * om <= rho <= (1 + 3 * eps) * nrm k f + 3 * om /\ 0 <= nrm k f.
Proof.
  intros V E Hk Hf. destruct O64 as (_ & _ & B1).
  destruct (holds_norm phi u eta Om H N eps om B PC v k f r V E Hk) as (rho & R1 & R2 & R3).
  { intros i Hi. specialize (Hf i Hi). lra. }
  exists rho. pose proof (nrm_nonneg k f). csplit; auto; lra.
Qed.

(* d is the larger of D and 1, computed *)
Definition denom (d D : R) : Prop := 1 <= d /\ (1 - 3 * eps - 5 * om) * Rmax D 1 <= d <= (1 + 6 * eps + 12 * om) * Rmax D 1.

Lemma den_max a r D : phi a = Some r -> (1 - 3 * eps) * D - 5 * om <= r -> r <= (1 + 6 * eps) * D + 12 * om -> 0 <= D ->
  exists d, phi (fmax a f1) = Some d /\ denom d D.
Proof.
  intros Ra L U D0. exists (Rmax r 1). split; [apply (fmax_phi phi u eta Om H); auto; apply (rn_1 _ _ _ _ _ H)|].
  pose proof (Rmax_l D 1) as M1. pose proof (Rmax_r D 1) as M2. pose proof (Rmax_l r 1) as M3. pose proof (Rmax_r r 1) as M4.
  set (M := Rmax D 1) in *. assert (om * 1 <= om * M) by (apply Rmult_le_compat_l; lra).
  assert (eps * D <= eps * M) by (apply Rmult_le_compat_l; lra). assert (0 <= eps * M) by (apply Rmult_le_pos; lra).
  unfold denom. fold M. split; [auto|]. split.
  - unfold M, Rmax in *. destruct (Rle_dec D 1); [|]; lra.
  - replace ((1 + 6 * eps + 12 * om) * M) with (M + 6 * (eps * M) + 12 * (om * M)) by ring. apply Rmax_lub; lra.
Qed.

Lemma den1m a xv D : phi a = Some xv -> (1 - 2 * eps) * D - 2 * om <= xv <= (1 + 3 * eps) * D + 3 * om -> 0 <= D ->
  exists d, phi (fmax a f1) = Some d /\ denom d D.
Proof.
  intros X L D0. assert (0 <= eps * D) by (apply Rmult_le_pos; lra). apply den_max with (r := xv); auto; lra.
Qed.

Lemma den2m a b xv yv Dx Dy : phi a = Some xv -> phi b = Some yv -> 0 <= xv <= Om / 4 -> 0 <= yv <= Om / 4 ->
  (1 - 2 * eps) * Dx - 2 * om <= xv <= (1 + 3 * eps) * Dx + 3 * om -> (1 - 2 * eps) * Dy - 2 * om <= yv <= (1 + 3 * eps) * Dy + 3 * om -> 0 <= Dx -> 0 <= Dy ->
  exists d, phi (fmax (fadd a b) f1) = Some d /\ denom d (Dx + Dy).
Proof.
  intros X Y X0 Y0 X1 Y1 D1 D2.
  destruct (rn_add_fin _ _ _ _ _ H _ _ _ _ X Y) as [r R0]. { rewrite Rabs_pos_eq; lra. }
  destruct (rn_add _ _ _ _ _ H _ _ _ R0) as (x' & y' & X' & Y' & D). rewrite X in X'. injection X' as <-. rewrite Y in Y'. injection Y' as <-.
  rewrite (Rabs_pos_eq (xv + yv)) in D by lra. apply Rabs_bounds in D.
  assert (u * (xv + yv) <= eps * (xv + yv)) by (apply Rmult_le_compat_r; lra).
  set (S2 := Dx + Dy) in *.
  assert (L1: (1 - eps) * ((1 - 2 * eps) * S2 - 4 * om) <= (1 - eps) * (xv + yv)) by (apply Rmult_le_compat_l; unfold S2; lra).
  assert (L2: (1 + eps) * (xv + yv) <= (1 + eps) * ((1 + 3 * eps) * S2 + 6 * om)) by (apply Rmult_le_compat_l; unfold S2; lra).
  assert (0 <= S2) by (unfold S2; lra).
  assert (eps * eps <= / 64 * eps) by (apply Rmult_le_compat_r; lra).
  assert (0 <= eps * eps) by (apply Rmult_le_pos; lra).
  assert (0 <= eps * om <= / 64 * om) by (split; [apply Rmult_le_pos|apply Rmult_le_compat_r]; lra).
  assert (0 <= eps * S2) by (apply Rmult_le_pos; lra).
  assert (0 <= eps * eps * S2 <= / 64 * eps * S2) by (split; [apply Rmult_le_pos|apply Rmult_le_compat_r]; lra).
  apply den_max with (r := r); auto; lra.
Qed.

(* the objective of the ray is negative by the margin *)
Lemma obj_test a b c v d D rt : phi a = Some v -> phi b = Some d -> denom d D -> Rabs v <= Om -> phi c = Some rt -> 0 <= rt ->
  flt (fdiv a b) (fneg c) = true -> (1 + eps) * v <= d * (3 * om - rt).
Proof.
  intros Va Vb [d1 _] Bv Vc R0 L. assert (Id: 0 < / d <= 1).
  { split; [apply Rinv_0_lt_compat; lra|]. rewrite <- Rinv_1. apply Rinv_le_contravar; lra. }
  assert (Bq: Rabs (v / d) <= 4 * Om).
  { unfold Rdiv. rewrite Rabs_mult, (Rabs_pos_eq (/ d)) by lra. pose proof (Rabs_pos v).
    assert (Rabs v * / d <= Rabs v * 1) by (apply Rmult_le_compat_l; lra). lra. }
  destruct (rn_div_fin _ _ _ _ _ H _ _ _ _ Va Vb) as [q Q]; [lra|exact Bq|].
  destruct (rn_div _ _ _ _ _ H _ _ _ _ Q Vb) as (v' & V' & _ & Dq). rewrite Va in V'. injection V' as <-.
  assert (Vn: phi (fneg c) = Some (- rt)) by (rewrite (rn_neg _ _ _ _ _ H), Vc; auto).
  rewrite (rn_lt _ _ _ _ _ H _ _ _ _ Q Vn) in L. destruct (Rltb_spec q (- rt)) as [Lq|]; [|discriminate].
  assert (W: (1 + eps) * (v / d) <= 3 * om - rt).
  { set (w := v / d) in *. apply Rabs_bounds in Dq. unfold Rabs in Dq. destruct (Rcase_abs w) as [Wn|Wp].
    - assert (eps * w <= u * w). { assert (u * - w <= eps * - w) by (apply Rmult_le_compat_r; lra). lra. } lra.
    - assert (Wb: (1 - u) * w <= om) by lra.
      assert (W1: w <= 2 * om). { assert (/ 2 * w <= (1 - u) * w) by (apply Rmult_le_compat_r; lra). lra. }
      assert (eps * w <= / 64 * w) by (apply Rmult_le_compat_r; lra).
      assert (u * w <= / 64 * w) by (apply Rmult_le_compat_r; lra). lra. }
  replace v with (d * (v / d)) by (field; lra).
  replace ((1 + eps) * (d * (v / d))) with (d * ((1 + eps) * (v / d))) by ring. apply Rmult_le_compat_l; lra.
Qed.

Lemma obj_final v d D rt S e : denom d D -> 0 <= rt -> (1 + eps) * v <= d * (3 * om - rt) -> S <= v + e \/ (Rabs (v - S) <= u * Rabs S + eta) ->
  0 <= e -> S <= - ((2 - slack eps om) * rt * Rmax D 1) + 16 * om * Rmax D 1 + e.
Proof.
  intros [d1 [dl du]] R0 Hv HS e0. pose proof (Rmax_r D 1) as M1. set (M := Rmax D 1) in *.
  assert (d2: d <= 2 * M).
  { eapply Rle_trans; [exact du|]. apply Rmult_le_compat_r; lra. }
  assert (Dl: (1 - 3 * eps - 5 * om) * M * rt <= d * rt) by (apply Rmult_le_compat_r; lra).
  assert (Do: om * d <= om * (2 * M)) by (apply Rmult_le_compat_l; lra).
  assert (Mo: om * 1 <= om * M) by (apply Rmult_le_compat_l; lra).
  assert (MR: 0 <= M * rt) by (apply Rmult_le_pos; lra).
  assert (V1: (1 + eps) * v <= 6 * (om * M) - (1 - 3 * eps - 5 * om) * (M * rt)) by lra.
  set (X := M * rt) in *. set (Z := om * M) in *.
  assert (Z0: 0 <= Z) by (unfold Z; apply Rmult_le_pos; lra).
  assert (eps * eps <= / 64 * eps) by (apply Rmult_le_compat_r; lra).
  assert (eps * om <= / 64 * om) by (apply Rmult_le_compat_r; lra).
  assert (0 <= eps * om) by (apply Rmult_le_pos; lra).
  assert (0 <= eps * eps) by (apply Rmult_le_pos; lra).
  unfold slack.
  replace (- ((2 - (1 + 16 * (eps + om))) * rt * M) + 16 * om * M + e) with (16 * Z - (1 - 16 * (eps + om)) * X + e) by (unfold Z, X; ring).
  assert (K1: (1 + eps) * (1 - 8 * (eps + om)) <= 1 - 3 * eps - 5 * om) by lra.
  assert (K1': (1 + eps) * (1 - 8 * (eps + om)) * X <= (1 - 3 * eps - 5 * om) * X) by (apply Rmult_le_compat_r; auto).
  assert (V2: v <= 6 * Z - (1 - 8 * (eps + om)) * X).
  { apply Rmult_le_reg_l with (1 + eps); [lra|]. assert (0 <= eps * (6 * Z)) by (apply Rmult_le_pos; lra). lra. }
  assert (0 <= (eps + om) * X) by (apply Rmult_le_pos; lra).
  destruct HS as [HS|HS]; [lra|]. apply Rabs_bounds in HS. unfold Rabs in HS. destruct (Rcase_abs S) as [Sn|Sp].
  - assert (S1: (1 + u) * S <= 7 * Z - (1 - 8 * (eps + om)) * X) by lra.
    assert (S2: (1 + eps) * S <= (1 + u) * S). { assert (u * - S <= eps * - S) by (apply Rmult_le_compat_r; lra). lra. }
    assert (K2: (1 + eps) * (1 - 16 * (eps + om)) <= 1 - 8 * (eps + om)) by lra.
    assert (K2': (1 + eps) * (1 - 16 * (eps + om)) * X <= (1 - 8 * (eps + om)) * X) by (apply Rmult_le_compat_r; auto).
    assert (S <= 7 * Z - (1 - 16 * (eps + om)) * X); [|lra].
    apply Rmult_le_reg_l with (1 + eps); [lra|]. assert (0 <= eps * (7 * Z)) by (apply Rmult_le_pos; lra). lra.
  - assert (S1: (1 - u) * S <= 7 * Z - (1 - 8 * (eps + om)) * X) by lra.
    assert (S2: / 2 * S <= (1 - u) * S) by (apply Rmult_le_compat_r; lra).
    assert (u * S <= / 64 * S) by (apply Rmult_le_compat_r; lra).
    assert (X8: 0 <= (1 - 16 * (eps + om)) * X \/ (1 - 16 * (eps + om)) * X <= 0) by lra.
    assert (/ 2 * X <= (1 - 8 * (eps + om)) * X) by (apply Rmult_le_compat_r; lra).
    assert (S <= 14 * Z) by lra. lra.
Qed.

(* a residual of the ray is small *)
Lemma hom_test a b rho d D E ft c : phi a = Some rho -> phi b = Some d -> denom d D -> 0 <= rho <= Om / 8 -> (1 - 2 * eps) * E - 2 * om <= rho ->
  phi c = Some ft -> 0 <= ft -> 
  exists q, phi (fdiv a b) = Some q /\ (q <= ft -> E <= slack eps om * Rmax D 1 * (ft + 2 * om) + 3 * om).
Proof.
  intros Va Vb [d1 [dl du]] Rr Le Vc F0.
  destruct (quot_fin phi u eta Om H N eps om B PC _ _ _ _ Va Vb Rr d1) as (q & Q & L).
  exists q. split; [auto|]. intros Lq. specialize (L ft Lq F0).
  assert (a1: ft * (1 - u) <= 1 * (ft + eta)). { assert (0 <= ft * u) by (apply Rmult_le_pos; lra). lra. }
  pose proof (final_norm u eta Om N eps om B U0 E0 PC E (Rmax D 1) d rho ft 1 ft ltac:(lra) F0 (Rmax_r _ _) (conj d1 du) (proj1 Rr) L a1 Le) as FN.
  replace (1 * (ft + om) + om) with (ft + 2 * om) in FN by ring. exact FN.
Qed.

Lemma by_round wr : rprob phi wr P A G -> rpoint phi wr P x y z s tau -> rresid phi u eta Om P A G x y z s tau wr ->
  exists v, phi (w_by wr) = Some v /\ Rabs (v - dotp p (pb_b P) y) <= erd eps om p (pb_b P) y /\ Rabs v <= Om / 16.
Proof.
  intros RP X Rr. destruct T. destruct Rr as [_ _ _ _ Rby _ _ _ _ _]. fold p in Rby.
  destruct (Nat.ltb_spec 0 p) as [Hp|Hp].
  - destruct (dot_round phi u eta Om H N eps om B PC P _ _ p (pb_b P) y _ (rp_b _ _ _ _ _ RP) (rq_y _ _ _ _ _ _ _ _ X) Rby) as (v & V1 & V2 & V3 & V4); [apply tr_size|auto|auto|].
    eauto.
  - exists 0. rewrite Rby. split; [apply (rn_0 _ _ _ _ _ H)|]. assert (p = 0%nat) as P0 by lia. rewrite P0.
    pose proof (erd_nonneg u eta Om N eps om B PC 0 (pb_b P) y). unfold dotp; simpl. rewrite Rminus_0_r, Rabs_R0. split; lra.
Qed.

Lemma pinf_round wr w1 ft rt fft : rprob phi wr P A G -> rpoint phi wr P x y z s tau -> rresid phi u eta Om P A G x y z s tau wr -> rhom wr ->
  updateStatistics wr = Some w1 -> phi fft = Some ft -> phi (sg_reltol (w_stgs wr)) = Some rt -> 0 <= ft -> 0 <= rt ->
  flt (st_pinfres (w_info w1)) fft = true -> rounded_pinf P A G eps om ft rt y z.
Proof.
  intros RP X Rr [Hx _ _] Up Pf Pr F0 R0 Te. pose proof (by_round wr RP X Rr) as Qby.
  destruct RP as [Dn Dp Dm _ _ _ _ _ _ Hc Hb Hh]. destruct X as [Qx Qy Qz Qs Qt].
  destruct Rr as [_ _ _ Rcx Rby Rhz Rnx Rny Rns Rnz].
  destruct T as [[Sn [Sp Sm]] Trow TrowG Tcol Tx Ty Tz Ts Tc Tb Th Teq Tineq Tdual].
  unfold updateStatistics in Up.
  bd Up as gap U1. bd Up as nry U2. bd Up as nrz U3. bd Up as nrx U4. injection Up as <-.
  cbn [w_info st_pinfres set_w_info] in Te.
  destruct (norm_B2 _ _ y _ Qy Rny Sp Ty) as (vy & Vy & By & Cy & Dy).
  destruct (norm_B2 _ _ z _ Qz Rnz Sm Tz) as (vz & Vz & Bz & Cz & Dz).
  destruct (den2m _ _ _ _ _ _ Vy Vz By Bz Cy Cz Dy Dz) as (d & Vd & Pd).
  destruct (flt (fdiv (fadd (w_hz wr) (w_by wr)) (fmax (fadd (w_ny wr) (w_nz wr)) f1)) (fneg (sg_reltol (w_stgs wr)))) eqn:Eo1.
  2:{ rewrite (rn_nan _ _ _ _ _ H) in Te. discriminate. }
  destruct Qby as (by_ & Vby & Eby & Oby).
  destruct (dot_round phi u eta Om H N eps om B PC P _ _ m (pb_h P) z _ Hh Qz Rhz Sm Th Tz) as (hz & Vhz & Ehz & Mhz & Ohz).
  apply Rabs_bounds in Ehz. apply Rabs_bounds in Eby.
  assert (Mv: Rabs (hz + by_) <= Rabs hz + Rabs by_) by apply Rabs_triang.
  destruct (rn_add_fin _ _ _ _ _ H _ _ _ _ Vhz Vby) as [v Vv]; [lra|].
  destruct (rn_add _ _ _ _ _ H _ _ _ Vv) as (h' & b' & H' & B' & Dv). rewrite Vhz in H'. injection H' as <-. rewrite Vby in B'. injection B' as <-.
  assert (uv: u * Rabs (hz + by_) <= / 64 * Rabs (hz + by_)) by (apply Rmult_le_compat_r; [apply Rabs_pos|lra]).
  assert (Av: Rabs v <= Om).
  { replace v with ((hz + by_) + (v - (hz + by_))) by lra. eapply Rle_trans; [apply Rabs_triang|]. lra. }
  pose proof (obj_test _ _ _ _ _ _ _ Vv Vd Pd Av Pr R0 Eo1) as OT.
  pose proof (obj_final v d _ rt (hz + by_) 0 Pd R0 OT (or_intror Dv) (Rle_refl 0)) as OF.
  destruct Hx as (rx & Nx & Ax).
  destruct (accs_norm phi u eta Om H N eps om B PC _ _ _ _ _ _ Ax Nx Sn) as (r & Vr & Br & Cr).
  { intros i Hi. split; [apply Tcol; auto|apply Tdual; auto]. }
  rewrite nrm_opp in Cr.
  destruct (hom_test _ _ _ _ _ _ _ _ Vr Vd Pd Br Cr Pf F0) as (q & Q & L).
  rewrite (rn_lt _ _ _ _ _ H _ _ _ _ Q Pf) in Te. destruct (Rltb_spec q ft) as [Lq|]; [|discriminate].
  specialize (L (Rlt_le _ _ Lq)).
  unfold rounded_pinf, err. cbv zeta. fold n p m in OF, L, Ehz, Eby |- *. split; lra.
Qed.

Lemma dinf_round wr w1 ft rt fft : rprob phi wr P A G -> rpoint phi wr P x y z s tau -> rresid phi u eta Om P A G x y z s tau wr -> rhom wr ->
  updateStatistics wr = Some w1 -> phi fft = Some ft -> phi (sg_reltol (w_stgs wr)) = Some rt -> 0 <= ft -> 0 <= rt ->
  flt (st_dinfres (w_info w1)) fft = true -> rounded_dinf P A G eps om ft rt x s.
Proof.
  intros RP X Rr [_ Hy Hz] Up Pf Pr F0 R0 Te.
  destruct RP as [Dn Dp Dm _ _ _ _ _ _ Hc Hb Hh]. destruct X as [Qx Qy Qz Qs Qt].
  destruct Rr as [_ _ _ Rcx Rby Rhz Rnx Rny Rns Rnz].
  destruct T as [[Sn [Sp Sm]] Trow TrowG Tcol Tx Ty Tz Ts Tc Tb Th Teq Tineq Tdual].
  unfold updateStatistics in Up.
  bd Up as gap U1. bd Up as nry U2. bd Up as nrz U3. bd Up as nrx U4. injection Up as <-.
  cbn [w_info st_dinfres set_w_info] in Te.
  destruct (norm_B2 _ _ x _ Qx Rnx Sn Tx) as (vx & Vx & Bx & Cx & Dx).
  destruct (norm_B2 _ _ s _ Qs Rns Sm Ts) as (vs & Vs & Bs & Cs & Ds).
  destruct (den1m _ _ _ Vx Cx Dx) as (d & Vd & Pd).
  destruct (den2m _ _ _ _ _ _ Vx Vs Bx Bs Cx Cs Dx Ds) as (d2 & Vd2 & Pd2).
  destruct (flt (fdiv (w_cx wr) (fmax (w_nx wr) f1)) (fneg (sg_reltol (w_stgs wr)))) eqn:Eo1.
  2:{ rewrite (rn_nan _ _ _ _ _ H) in Te. discriminate. }
  destruct (dot_round phi u eta Om H N eps om B PC P _ _ n (pb_c P) x _ Hc Qx Rcx Sn Tc Tx) as (cx & Vcx & Ecx & Mcx & Ocx).
  apply Rabs_bounds in Ecx.
  assert (Ac: Rabs cx <= Om) by lra.
  pose proof (obj_test _ _ _ _ _ _ _ Vcx Vd Pd Ac Pr R0 Eo1) as OT.
  pose proof (obj_final cx d _ rt cx 0 Pd R0 OT (or_introl (Req_le _ _ (eq_sym (Rplus_0_r cx)))) (Rle_refl 0)) as OF.
  destruct Hz as (rz & Nz & Az).
  destruct (accs_norm phi u eta Om H N eps om B PC _ _ _ _ _ _ Az Nz Sm) as (r & Vr & Br & Cr).
  { intros i Hi. split; [apply TrowG; auto|apply Tineq; auto]. }
  destruct (hom_test _ _ _ _ _ _ _ _ Vr Vd2 Pd2 Br Cr Pf F0) as (q & Q & L).
  assert (Y: exists qy, phi (fdiv (w_hresy wr) (fmax (w_nx wr) f1)) = Some qy /\
     (qy <= ft -> nrm p (fun i => mulv n (pb_A P) x i) <= slack eps om * Rmax (nrm n x) 1 * (ft + 2 * om) + 3 * om + err eps om p (mag_eq P A 0 x))).
  { fold p in Hy, Sp, Trow, Teq. destruct (Nat.ltb_spec 0 p) as [Hp|Hp].
    - destruct Hy as (ry & Ny & Ay).
      destruct (accs_norm phi u eta Om H N eps om B PC _ _ _ _ _ _ Ay Ny Sp) as (r2 & Vr2 & Br2 & Cr2).
      { intros i Hi. split; [apply Trow; auto|apply Teq; auto]. }
      destruct (hom_test _ _ _ _ _ _ _ _ Vr2 Vd Pd Br2 Cr2 Pf F0) as (q2 & Q2 & L2).
      exists q2. split; [auto|]. intros Lq. specialize (L2 Lq). fold n in L2. unfold err. lra.
    - rewrite Hy. destruct (rn_div_fin _ _ _ _ _ H _ _ _ _ (rn_0 _ _ _ _ _ H) Vd) as [qy Q2]; [destruct Pd; lra| |].
      { unfold Rdiv. rewrite Rmult_0_l, Rabs_R0. lra. }
      exists qy. split; auto. intros _. assert (p = 0%nat) as -> by lia. unfold nrm at 1. simpl Rsum. rewrite sqrt_0.
      pose proof (nrm_nonneg 0 (fun i => eps * mag_eq P A 0 x i + om * om)) as NE. fold (err eps om 0 (mag_eq P A 0 x)) in NE.
      pose proof (Rmax_r (nrm n x) 1).
      assert (0 <= slack eps om * Rmax (nrm n x) 1 * (ft + 2 * om)) by (unfold slack; repeat apply Rmult_le_pos; lra). lra. }
  destruct Y as (qy & Qy2 & Ly).
  pose proof (fmax_phi phi u eta Om H _ _ _ _ Qy2 Q) as Pm.
  rewrite (rn_lt _ _ _ _ _ H _ _ _ _ Pm Pf) in Te. destruct (Rltb_spec (Rmax qy q) ft) as [Lq|]; [|discriminate].
  pose proof (Rmax_l qy q). pose proof (Rmax_r qy q).
  specialize (L ltac:(lra)). specialize (Ly ltac:(lra)).
  unfold rounded_dinf. cbv zeta. fold n p m in OF, L, Ecx |- *. split; [lra|]. split; [exact Ly|]. unfold err. lra.
Qed.
End RoundI.
