(* C50: what the exit codes mean for the caller's own problem when the arithmetic
   rounds: setup (C49) and solve (C47, C48) together, in IEEE double precision. *)
From Coq Require Import List Arith Bool ZArith QArith Reals Lia Lra Psatz.
From Flocq Require Core BinarySingleNaN.
From Verif Require Import Base Num NumX.
From Verif.Model Require Import Spla Types Consts Cone Equil Ecos Preproc.
From Verif.Spec Require Import Matrix Conic Jordan Shape SetupSpec Certificate Scaling User Rounding Nearby.
From Verif.Proofs Require Import SplaP PhiP EquilX RoundB.
From Verif.Properties Require Import Certificate Rounding RoundingInf RoundingData.
Import ListNotations.
Open Scope R_scope.

(* the solver's vectors X (also Y, Z) and S in the caller's units *)
Definition pt (e : nat -> R) (tau : R) (X : nat -> R) : nat -> R := fun i => X i / (e i * tau).
Definition slk (e : nat -> R) (tau : R) (S : nat -> R) : nat -> R := fun i => S i * e i / tau.

(* (X,Y,Z,S), in the caller's units, is optimal for U up to the tolerances and up
   to rounding.  P is U scaled; its matrices A and G are only used to bound the
   rounding errors. *)
Definition user_optimal (U P : problem) (A G : spmat R) (eps om : R) (xe Ae Ge : nat -> R)
    (ft at_ rt tau : R) (X Y Z S : nat -> R) : Prop :=
  let n := pb_n U in let p := pb_p U in let m := pb_m U in
  let x := pt xe tau X in let y := pt Ae tau Y in let z := pt Ge tau Z in let s := slk Ge tau S in
  let k := slack eps om in let tol := tau * (ft + om) + om in
  tau * nrm p (over (res_eq U x) Ae) <=
    k * (Rmax 1 (nrm p (over (pb_b U) Ae)) + tau * nrm n (times x xe)) * tol + 3 * om + err eps om p (mag_eq P A tau X) /\
  tau * nrm m (over (res_ineq U x s) Ge) <=
    k * (Rmax 1 (nrm m (over (pb_h U) Ge)) + tau * nrm n (times x xe) + tau * nrm m (over s Ge)) * tol + 3 * om + err eps om m (mag_ineq P G tau X S) /\
  tau * nrm n (over (res_dual U y z) xe) <=
    k * (Rmax 1 (nrm n (over (pb_c U) xe)) + tau * nrm p (times y Ae) + tau * nrm m (times z Ge)) * tol + 3 * om + err eps om n (mag_dual P A G tau Y Z) /\
  (let ec := erd eps om n (pb_c P) X in let ed := erd eps om p (pb_b P) Y + erd eps om m (pb_h P) Z in
   let gap := tau * tau * dotp m s z in let eg := erd eps om m S Z in
   (gap <= at_ + eg \/
    gap <= k * (rt + om) * ((Rmax 0 (ec - tau * pobj U x) + om) / tau + om) + eg \/
    gap <= k * (rt + om) * ((Rmax 0 (ed + tau * dobj U y z) + om) / tau + om) + eg) /\
   (tau * pobj U x <= ec \/ - (tau * dobj U y z) <= k * (at_ + om) + ed)).

(* the certificates of infeasibility, read the same way *)
Definition user_pinf (U P : problem) (A G : spmat R) (eps om : R) (xe Ae Ge : nat -> R) (ft rt tau : R) (Y Z : nat -> R) : Prop :=
  let n := pb_n U in let p := pb_p U in let m := pb_m U in
  let y := pt Ae tau Y in let z := pt Ge tau Z in
  let k := slack eps om in let D := Rmax (tau * nrm p (times y Ae) + tau * nrm m (times z Ge)) 1 in
  tau * (dotp p (pb_b U) y + dotp m (pb_h U) z) <=
    - ((2 - k) * rt * D) + 16 * om * D + erd eps om p (pb_b P) Y + erd eps om m (pb_h P) Z /\
  tau * nrm n (over (fun j => mulvT p (pb_A U) y j + mulvT m (pb_G U) z j) xe) <=
    k * D * (ft + 2 * om) + 3 * om + err eps om n (mag_dual P A G 0 Y Z).
Definition user_dinf (U P : problem) (A G : spmat R) (eps om : R) (xe Ae Ge : nat -> R) (ft rt tau : R) (X S : nat -> R) : Prop :=
  let n := pb_n U in let p := pb_p U in let m := pb_m U in
  let x := pt xe tau X in let s := slk Ge tau S in
  let k := slack eps om in let D := Rmax (tau * nrm n (times x xe)) 1 in
  tau * dotp n (pb_c U) x <= - ((2 - k) * rt * D) + 16 * om * D + erd eps om n (pb_c P) X /\
  tau * nrm p (over (mulv n (pb_A U) x) Ae) <= k * D * (ft + 2 * om) + 3 * om + err eps om p (mag_eq P A 0 X) /\
  tau * nrm m (over (fun i => mulv n (pb_G U) x i + s i) Ge) <=
    k * Rmax (tau * nrm n (times x xe) + tau * nrm m (over s Ge)) 1 * (ft + 2 * om) + 3 * om + err eps om m (mag_ineq P G 0 X S).

Section Math.
Variables (U P : problem) (xe Ae Ge : nat -> R) (tau : R).
Hypothesis H : scaled_by U P xe Ae Ge.
Hypothesis T : 0 < tau.

Lemma pt_pair e X k : (forall i, (i < k)%nat -> 0 < e i) -> forall i, (i < k)%nat -> X i / tau = pt e tau X i * e i.
Proof. intros E i Hi. unfold pt. specialize (E i Hi). field. split; lra. Qed.
Lemma mulv_div n M (X : nat -> R) i : mulv n M (fun j => X j / tau) i = mulv n M X i / tau.
Proof. unfold mulv, Rdiv. rewrite <- Rsum_scal_r. apply Rsum_ext. intros; ring. Qed.
Lemma mulvT_div n M (X : nat -> R) i : mulvT n M (fun j => X j / tau) i = mulvT n M X i / tau.
Proof. unfold mulvT, Rdiv. rewrite <- Rsum_scal_r. apply Rsum_ext. intros; ring. Qed.
Lemma dotp_div n f (X : nat -> R) : dotp n f (fun j => X j / tau) = dotp n f X / tau.
Proof. unfold dotp, Rdiv. rewrite <- Rsum_scal_r. apply Rsum_ext. intros; ring. Qed.
Lemma nrm_tau n f g : (forall i, (i < n)%nat -> f i = tau * g i) -> nrm n f = tau * nrm n g.
Proof.
  intros E. rewrite (nrm_ext _ _ (fun i => g i * tau)).
  - rewrite nrm_pos_scal by lra. ring.
  - intros i Hi. rewrite E by auto. ring.
Qed.
Lemma user_of_rounded A G eps om ft at_ rt X Y Z S :
  rounded_optimal P A G eps om ft at_ rt tau X Y Z S -> user_optimal U P A G eps om xe Ae Ge ft at_ rt tau X Y Z S.
Proof.
  intros (R1 & R2 & R3 & R4). cbv zeta in *.
  pose proof (sb_m _ _ _ _ _ H) as Em. pose proof (sb_n _ _ _ _ _ H) as En. pose proof (sb_p _ _ _ _ _ H) as Ep.
  pose proof (sb_xe _ _ _ _ _ H) as PX. pose proof (sb_Ae _ _ _ _ _ H) as PA. pose proof (sb_Ge _ _ _ _ _ H) as PG.
  assert (Xp: xpair U xe (fun i => X i / tau) (pt xe tau X)) by (intros i Hi; apply (pt_pair _ _ _ PX); auto).
  assert (Yp: ypair U Ae (fun i => Y i / tau) (pt Ae tau Y)) by (intros i Hi; apply (pt_pair _ _ _ PA); auto).
  assert (Zp: zpair U Ge (fun i => Z i / tau) (pt Ge tau Z)) by (intros i Hi; apply (pt_pair _ _ _ PG); auto).
  assert (Sp: spair U Ge (fun i => S i / tau) (slk Ge tau S)) by (intros i Hi; unfold slk; field; lra).
  assert (L1: nrm (pb_p P) (fun i => mulv (pb_n P) (pb_A P) X i - tau * pb_b P i) = tau * nrm (pb_p U) (over (res_eq U (pt xe tau X)) Ae)).
  { rewrite Ep. apply nrm_tau. intros i Hi. unfold over. rewrite <- (res_eq_scaled _ _ _ _ _ H _ _ i Xp Hi). unfold res_eq. rewrite mulv_div. field. lra. }
  assert (L2: nrm (pb_m P) (fun i => mulv (pb_n P) (pb_G P) X i + S i - tau * pb_h P i) = tau * nrm (pb_m U) (over (res_ineq U (pt xe tau X) (slk Ge tau S)) Ge)).
  { rewrite Em. apply nrm_tau. intros i Hi. unfold over. rewrite <- (res_ineq_scaled _ _ _ _ _ H _ _ _ _ i Xp Sp Hi). unfold res_ineq. rewrite mulv_div. field. lra. }
  assert (L3: nrm (pb_n P) (fun j => mulvT (pb_p P) (pb_A P) Y j + mulvT (pb_m P) (pb_G P) Z j + tau * pb_c P j) = tau * nrm (pb_n U) (over (res_dual U (pt Ae tau Y) (pt Ge tau Z)) xe)).
  { rewrite En. apply nrm_tau. intros i Hi. unfold over. rewrite <- (res_dual_scaled _ _ _ _ _ H _ _ _ _ i Yp Zp Hi). unfold res_dual. rewrite !mulvT_div. field. lra. }
  assert (L4: dotp (pb_n P) (pb_c P) X = tau * pobj U (pt xe tau X)).
  { rewrite <- (pobj_scaled _ _ _ _ _ H _ _ Xp). unfold pobj. rewrite dotp_div. field. lra. }
  assert (L5: dotp (pb_p P) (pb_b P) Y + dotp (pb_m P) (pb_h P) Z = - (tau * dobj U (pt Ae tau Y) (pt Ge tau Z))).
  { rewrite <- (dobj_scaled _ _ _ _ _ H _ _ _ _ Yp Zp). unfold dobj. rewrite !dotp_div. field. lra. }
  assert (L6: dotp (pb_m P) S Z = tau * tau * dotp (pb_m U) (slk Ge tau S) (pt Ge tau Z)).
  { rewrite <- (gap_scaled _ _ _ _ _ H _ _ _ _ Sp Zp). unfold dotp. rewrite <- Rsum_scal. apply Rsum_ext. intros. field. lra. }
  assert (Nb: nrm (pb_p P) (pb_b P) = nrm (pb_p U) (over (pb_b U) Ae)) by (rewrite Ep; apply nrm_ext; intros i Hi; apply (sb_b _ _ _ _ _ H); auto).
  assert (Nh: nrm (pb_m P) (pb_h P) = nrm (pb_m U) (over (pb_h U) Ge)) by (rewrite Em; apply nrm_ext; intros i Hi; apply (sb_h _ _ _ _ _ H); auto).
  assert (Nc: nrm (pb_n P) (pb_c P) = nrm (pb_n U) (over (pb_c U) xe)) by (rewrite En; apply nrm_ext; intros i Hi; apply (sb_c _ _ _ _ _ H); auto).
  assert (Nx: nrm (pb_n P) X = tau * nrm (pb_n U) (times (pt xe tau X) xe)).
  { rewrite En. apply nrm_tau. intros i Hi. unfold times. rewrite <- Xp by auto. field. lra. }
  assert (Ny: nrm (pb_p P) Y = tau * nrm (pb_p U) (times (pt Ae tau Y) Ae)).
  { rewrite Ep. apply nrm_tau. intros i Hi. unfold times. rewrite <- Yp by auto. field. lra. }
  assert (Nz: nrm (pb_m P) Z = tau * nrm (pb_m U) (times (pt Ge tau Z) Ge)).
  { rewrite Em. apply nrm_tau. intros i Hi. unfold times. rewrite <- Zp by auto. field. lra. }
  assert (Ns: nrm (pb_m P) S = tau * nrm (pb_m U) (over (slk Ge tau S) Ge)).
  { rewrite Em. apply nrm_tau. intros i Hi. unfold over. rewrite Sp by auto. specialize (PG i Hi). field. lra. }
  unfold user_optimal. cbv zeta.
  rewrite L1, Nb, Nx in R1. rewrite L2, Nh, Nx, Ns in R2. rewrite L3, Nc, Ny, Nz in R3.
  rewrite L4, L5, L6 in R4.
  replace (erd eps om (pb_p P) (pb_b P) Y + erd eps om (pb_m P) (pb_h P) Z - dotp (pb_p P) (pb_b P) Y - dotp (pb_m P) (pb_h P) Z)
    with (erd eps om (pb_p P) (pb_b P) Y + erd eps om (pb_m P) (pb_h P) Z - (dotp (pb_p P) (pb_b P) Y + dotp (pb_m P) (pb_h P) Z)) in R4 by ring.
  rewrite L5 in R4. unfold Rminus in R4. rewrite !Ropp_involutive in R4. unfold Rminus. rewrite <- En, <- Em, <- Ep in *.
  split; [exact R1|]. split; [exact R2|]. split; [exact R3|]. exact R4.
Qed.

Lemma user_of_pinf A G eps om ft rt Y Z : rounded_pinf P A G eps om ft rt Y Z -> user_pinf U P A G eps om xe Ae Ge ft rt tau Y Z.
Proof.
  intros (R1 & R2). cbv zeta in *.
  pose proof (sb_m _ _ _ _ _ H) as Em. pose proof (sb_n _ _ _ _ _ H) as En. pose proof (sb_p _ _ _ _ _ H) as Ep.
  pose proof (sb_xe _ _ _ _ _ H) as PX. pose proof (sb_Ae _ _ _ _ _ H) as PA. pose proof (sb_Ge _ _ _ _ _ H) as PG.
  assert (Yp: ypair U Ae (fun i => Y i / tau) (pt Ae tau Y)) by (intros i Hi; apply (pt_pair _ _ _ PA); auto).
  assert (Zp: zpair U Ge (fun i => Z i / tau) (pt Ge tau Z)) by (intros i Hi; apply (pt_pair _ _ _ PG); auto).
  assert (L3: nrm (pb_n P) (fun j => mulvT (pb_p P) (pb_A P) Y j + mulvT (pb_m P) (pb_G P) Z j) =
    tau * nrm (pb_n U) (over (fun j => mulvT (pb_p U) (pb_A U) (pt Ae tau Y) j + mulvT (pb_m U) (pb_G U) (pt Ge tau Z) j) xe)).
  { rewrite En. apply nrm_tau. intros i Hi. unfold over. pose proof (res_dual_scaled _ _ _ _ _ H _ _ _ _ i Yp Zp Hi) as Q.
    unfold res_dual in Q. rewrite !mulvT_div, (sb_c _ _ _ _ _ H) in Q by auto. specialize (PX i Hi).
    match goal with |- ?a + ?b = tau * ((?c + ?d) / xe i) => assert (Q2: (a + b) / tau = (c + d) / xe i) end.
    { unfold Rdiv in *. lra. }
    rewrite <- Q2. field. lra. }
  assert (L5: dotp (pb_p P) (pb_b P) Y + dotp (pb_m P) (pb_h P) Z = tau * (dotp (pb_p U) (pb_b U) (pt Ae tau Y) + dotp (pb_m U) (pb_h U) (pt Ge tau Z))).
  { pose proof (dobj_scaled _ _ _ _ _ H _ _ _ _ Yp Zp) as Q. unfold dobj in Q. rewrite !dotp_div in Q.
    match goal with |- ?a + ?b = tau * (?c + ?d) => assert (Q2: (a + b) / tau = c + d) by (unfold Rdiv in *; lra) end.
    rewrite <- Q2. field. lra. }
  assert (Ny: nrm (pb_p P) Y = tau * nrm (pb_p U) (times (pt Ae tau Y) Ae)).
  { rewrite Ep. apply nrm_tau. intros i Hi. unfold times. rewrite <- Yp by auto. field. lra. }
  assert (Nz: nrm (pb_m P) Z = tau * nrm (pb_m U) (times (pt Ge tau Z) Ge)).
  { rewrite Em. apply nrm_tau. intros i Hi. unfold times. rewrite <- Zp by auto. field. lra. }
  rewrite L5, Ny, Nz in R1. rewrite L3, Ny, Nz in R2. unfold user_pinf. cbv zeta. rewrite <- En, <- Em, <- Ep in *. split; [exact R1|exact R2].
Qed.

Lemma user_of_dinf A G eps om ft rt X S : rounded_dinf P A G eps om ft rt X S -> user_dinf U P A G eps om xe Ae Ge ft rt tau X S.
Proof.
  intros (R1 & R2 & R3). cbv zeta in *.
  pose proof (sb_m _ _ _ _ _ H) as Em. pose proof (sb_n _ _ _ _ _ H) as En. pose proof (sb_p _ _ _ _ _ H) as Ep.
  pose proof (sb_xe _ _ _ _ _ H) as PX. pose proof (sb_Ae _ _ _ _ _ H) as PA. pose proof (sb_Ge _ _ _ _ _ H) as PG.
  assert (Xp: xpair U xe (fun i => X i / tau) (pt xe tau X)) by (intros i Hi; apply (pt_pair _ _ _ PX); auto).
  assert (Sp: spair U Ge (fun i => S i / tau) (slk Ge tau S)) by (intros i Hi; unfold slk; field; lra).
  assert (L1: nrm (pb_p P) (fun i => mulv (pb_n P) (pb_A P) X i) = tau * nrm (pb_p U) (over (mulv (pb_n U) (pb_A U) (pt xe tau X)) Ae)).
  { rewrite Ep. apply nrm_tau. intros i Hi. unfold over. pose proof (res_eq_scaled _ _ _ _ _ H _ _ i Xp Hi) as Q.
    unfold res_eq in Q. rewrite mulv_div, (sb_b _ _ _ _ _ H) in Q by auto. specialize (PA i Hi).
    match goal with |- ?a = tau * (?c / Ae i) => assert (Q2: a / tau = c / Ae i) by (unfold Rdiv in *; lra) end.
    rewrite <- Q2. field. lra. }
  assert (L2: nrm (pb_m P) (fun i => mulv (pb_n P) (pb_G P) X i + S i) =
    tau * nrm (pb_m U) (over (fun i => mulv (pb_n U) (pb_G U) (pt xe tau X) i + slk Ge tau S i) Ge)).
  { rewrite Em. apply nrm_tau. intros i Hi. unfold over. pose proof (res_ineq_scaled _ _ _ _ _ H _ _ _ _ i Xp Sp Hi) as Q.
    unfold res_ineq in Q. rewrite mulv_div, (sb_h _ _ _ _ _ H) in Q by auto. specialize (PG i Hi).
    match goal with |- ?a + ?b = tau * ((?c + ?d) / Ge i) => assert (Q2: (a + b) / tau = (c + d) / Ge i) by (unfold Rdiv in *; lra) end.
    rewrite <- Q2. field. lra. }
  assert (L4: dotp (pb_n P) (pb_c P) X = tau * dotp (pb_n U) (pb_c U) (pt xe tau X)).
  { pose proof (pobj_scaled _ _ _ _ _ H _ _ Xp) as Q. unfold pobj in Q. rewrite <- Q, dotp_div. field. lra. }
  assert (Nx: nrm (pb_n P) X = tau * nrm (pb_n U) (times (pt xe tau X) xe)).
  { rewrite En. apply nrm_tau. intros i Hi. unfold times. rewrite <- Xp by auto. field. lra. }
  assert (Ns: nrm (pb_m P) S = tau * nrm (pb_m U) (over (slk Ge tau S) Ge)).
  { rewrite Em. apply nrm_tau. intros i Hi. unfold over. rewrite Sp by auto. specialize (PG i Hi). field. lra. }
  rewrite L4, Nx in R1. rewrite L1, Nx in R2. rewrite L2, Nx, Ns in R3. unfold user_dinf. cbv zeta. rewrite <- En, <- Em, <- Ep in *.
  split; [exact R1|]. split; [exact R2|exact R3].
Qed.
End Math.

(* ------------------------------------------------- IEEE double precision *)
Notation b2 := (Core.Raux.bpow Core.Zaux.radix2).

(* v is the number r returned, but for the rounding of returning it *)
Definition agree (v r : R) : Prop := Rabs (v - r) <= b2 (-49) * Rabs r + b2 (-800).

Lemma b2p a b : b2 a * b2 b = b2 (a + b).
Proof. symmetry. apply Core.Raux.bpow_plus. Qed.
Lemma b2_pos a : 0 < b2 a. Proof. apply Core.Raux.bpow_gt_0. Qed.
Lemma b2_le a b : (a <= b)%Z -> b2 a <= b2 b. Proof. apply Core.Raux.bpow_le. Qed.
Lemma b2_inv a : / b2 a = b2 (- a). Proof. symmetry. apply Core.Raux.bpow_opp. Qed.

Lemma near_agree v r e tau : near (b2 (-53)) (b2 (-1075)) (b2 60) v r (e * tau) ->
  / b2 60 <= e -> / b2 60 <= tau -> agree (v / (e * tau)) r.
Proof.
  unfold near, agree. intros N He Ht. rewrite b2_inv in He, Ht. change (- (60))%Z with (-60)%Z in He, Ht.
  pose proof (b2_pos (-60)) as Q.
  assert (G: b2 (-120) <= e * tau). { change (-120)%Z with (-60 + -60)%Z. rewrite <- b2p. apply Rmult_le_compat; lra. }
  pose proof (b2_pos (-120)) as Q2. set (g := e * tau) in *.
  replace (v / g - r) with ((v - r * g) * / g) by (field; lra).
  rewrite Rabs_mult, (Rabs_right (/ g)) by (apply Rle_ge; left; apply Rinv_0_lt_compat; lra).
  rewrite Rabs_mult, (Rabs_right g) in N by lra.
  assert (I: / g <= b2 120). { replace (b2 120) with (/ b2 (-120)) by (rewrite b2_inv; auto). apply Rinv_le_contravar; lra. }
  assert (I0: 0 < / g) by (apply Rinv_0_lt_compat; lra).
  apply Rle_trans with ((4 * b2 (-53) * (Rabs r * g) + 8 * b2 (-1075) * (b2 60 * b2 60)) * / g).
  { apply Rmult_le_compat_r; lra. }
  replace ((4 * b2 (-53) * (Rabs r * g) + 8 * b2 (-1075) * (b2 60 * b2 60)) * / g)
    with (4 * b2 (-53) * Rabs r + 8 * b2 (-1075) * (b2 60 * b2 60) * / g) by (field; lra).
  assert (F4: 4 = b2 2) by (cbn; lra). assert (F8: 8 = b2 3) by (cbn; lra). rewrite F4, F8, !b2p.
  change (2 + -53)%Z with (-51)%Z. change (3 + -1075 + (60 + 60))%Z with (-952)%Z.
  apply Rplus_le_compat.
  - apply Rmult_le_compat_r; [apply Rabs_pos|apply b2_le; lia].
  - apply Rle_trans with (b2 (-952) * b2 120); [apply Rmult_le_compat_l; [left; apply b2_pos|exact I]|].
    rewrite b2p. apply b2_le. lia.
Qed.

Lemma near_agree' v r e tau : near' (b2 (-53)) (b2 (-1075)) v r (e / tau) ->
  / b2 60 <= e -> / b2 60 <= tau <= b2 60 -> agree (v * e / tau) r.
Proof.
  unfold near', agree. intros N He Ht. rewrite b2_inv in He, Ht. change (- (60))%Z with (-60)%Z in He, Ht.
  pose proof (b2_pos (-60)) as Q. replace (v * e / tau) with (v * (e / tau)) by (field; lra). set (g := e / tau) in *.
  assert (G: b2 (-120) <= g).
  { unfold g, Rdiv. change (-120)%Z with (-60 + -60)%Z. rewrite <- b2p. apply Rmult_le_compat; try lra.
    change (-60)%Z with (- (60))%Z. rewrite <- b2_inv. apply Rinv_le_contravar; lra. }
  pose proof (b2_pos (-120)) as Q2.
  assert (V: Rabs v <= b2 120 * Rabs (v * g)).
  { rewrite Rabs_mult, (Rabs_right g) by lra. assert (I: 1 <= b2 120 * g).
    { apply Rle_trans with (b2 120 * b2 (-120)); [rewrite b2p; cbn; lra|]. apply Rmult_le_compat_l; [left; apply b2_pos|exact G]. }
    pose proof (Rabs_pos v). nra. }
  set (a := v * g) in *. assert (F4: 4 = b2 2) by (cbn; lra). assert (F2: 2 = b2 1) by (cbn; lra). rewrite F4, b2p in N.
  change (2 + -53)%Z with (-51)%Z in N.
  assert (N2: Rabs (r - a) <= b2 (-50) * Rabs a + b2 (-1075)).
  { eapply Rle_trans; [exact N|]. pose proof (Rabs_pos a) as Pa. pose proof (b2_pos (-1075)) as Pe.
    assert (J: b2 (-1075) * (2 * Rabs v) <= b2 (-51) * Rabs a).
    { apply Rle_trans with (b2 (-1075) * (b2 1 * (b2 120 * Rabs a))).
      - apply Rmult_le_compat_l; [lra|]. rewrite F2. apply Rmult_le_compat_l; [left; apply b2_pos|exact V].
      - replace (b2 (-1075) * (b2 1 * (b2 120 * Rabs a))) with (b2 (-954) * Rabs a).
        + apply Rmult_le_compat_r; [lra|apply b2_le; lia].
        + change (-954)%Z with (-1075 + 1 + 120)%Z. rewrite <- !b2p. ring. }
    assert (K: b2 (-50) = b2 (-51) + b2 (-51)). { change (-50)%Z with (1 + -51)%Z. rewrite <- b2p, <- F2. ring. }
    rewrite K. lra. }
  rewrite <- Rabs_Ropp, Ropp_minus_distr in N2.
  assert (H1: b2 (-50) <= / 2). { change (/ 2) with (b2 (-1)). apply b2_le. lia. }
  assert (A1: Rabs a <= Rabs (a - r) + Rabs r). { replace a with (a - r + r) at 1 by ring. apply Rabs_triang. }
  assert (A2: Rabs a <= 2 * Rabs r + 2 * b2 (-1075)). { pose proof (Rabs_pos a). nra. }
  assert (K: b2 (-49) = 2 * b2 (-50)). { rewrite F2, b2p. auto. }
  assert (L: 2 * b2 (-1075) <= b2 (-800)). { rewrite F2, b2p. apply b2_le. lia. }
  pose proof (b2_pos (-50)). pose proof (b2_pos (-1075)). pose proof (Rabs_pos r). rewrite K. nra.
Qed.

(* the vectors returned are the solver's point in the caller's units *)
Definition answers (U : problem) (xe Ae Ge : nat -> R) (tau : R) (X Y Z S x y z s : nat -> R) : Prop :=
  (forall i, (i < pb_n U)%nat -> agree (pt xe tau X i) (x i)) /\ (forall i, (i < pb_p U)%nat -> agree (pt Ae tau Y i) (y i)) /\
  (forall i, (i < pb_m U)%nat -> agree (pt Ge tau Z i) (z i)) /\ (forall i, (i < pb_m U)%nat -> agree (slk Ge tau S i) (s i)).

Lemma answers_of O (phi : F -> option R) w w' U P A G K xe Ae Ge x y z s tau X Y Z S :
  pb_n P = pb_n U -> pb_p P = pb_p U -> pb_m P = pb_m U ->
  @moderate O phi w w' P A G K (b2 60) xe Ae Ge x y z s tau ->
  (forall i, (i < pb_n P)%nat -> near (b2 (-53)) (b2 (-1075)) (b2 60) (X i) (x i) (xe i * tau)) ->
  (forall i, (i < pb_p P)%nat -> near (b2 (-53)) (b2 (-1075)) (b2 60) (Y i) (y i) (Ae i * tau)) ->
  (forall i, (i < pb_m P)%nat -> near (b2 (-53)) (b2 (-1075)) (b2 60) (Z i) (z i) (Ge i * tau)) ->
  (forall i, (i < pb_m P)%nat -> near' (b2 (-53)) (b2 (-1075)) (S i) (s i) (Ge i / tau)) ->
  answers U xe Ae Ge tau X Y Z S x y z s.
Proof.
  intros En Ep Em MD N1 N2 N3 N4. rewrite En in N1. rewrite Ep in N2. rewrite Em in N3, N4.
  destruct (md_tau _ _ _ _ _ _ _ _ _ _ _ _ _ _ _ _ MD) as [_ TT].
  destruct (md_xe _ _ _ _ _ _ _ _ _ _ _ _ _ _ _ _ MD) as [_ X2]. destruct (md_Ae _ _ _ _ _ _ _ _ _ _ _ _ _ _ _ _ MD) as [_ A2].
  destruct (md_Ge _ _ _ _ _ _ _ _ _ _ _ _ _ _ _ _ MD) as [_ G2]. rewrite En in X2. rewrite Ep in A2. rewrite Em in G2.
  split; [|split; [|split]]; intros i Hi.
  - apply near_agree; [apply N1; auto|apply X2; auto|apply TT].
  - apply near_agree; [apply N2; auto|apply A2; auto|apply TT].
  - apply near_agree; [apply N3; auto|apply G2; auto|apply TT].
  - apply near_agree'; [apply N4; auto|apply G2; auto|apply TT].
Qed.

Section Run.
Variables (ex lg : b64 -> b64) (amd : amd_oracle) (junk : pwork b64).
Variables (U : problem) (A0 : option (spmat R)) (G0 : spmat R) (MA : option (spmat b64)) (MG : spmat b64) (c h b : arr b64).
Variables (w w' : pwork b64) (g : settings b64) (sig : Z -> bool) (t t' : ctrlc) (code : Z).
Variables (P : problem) (A G : spmat R) (K : nat) (xe Ae Ge x y z s : nat -> R) (tau ft at_ rt ft' at' rt' : R).

(* the caller's problem U is set up, the settings g are chosen, and solve returns
   code; the numbers the caller sees are of moderate size *)
Record run : Prop := {
  rn_given : @given (BOps ex lg) bval U A0 G0 MA MG c h b;
  rn_setup : @ECOS_setup (BOps ex lg) amd junk (pb_n U) (pb_m U) (pb_p U) (pb_l U) (pb_q U) (pb_e U) (data_of MG) (option_map data_of MA) c h b = Some (Some w);
  rn_solve : @ECOS_solve (BOps ex lg) sig t (set_w_stgs w g) = Some (code, t', w');
  rn_maxit : (0 <= sg_maxit g)%Z;
  rn_tol : tolerances (settings_mapf bval g) ft at_ rt ft' at' rt';
  rn_pos : 0 <= ft /\ 0 <= at_ /\ 0 <= rt /\ 0 <= ft' /\ 0 <= at' /\ 0 <= rt';
  rn_held : @rheld (BOps ex lg) bval w P A G;
  rn_cones : pb_l P = pb_l U /\ pb_q P = pb_q U /\ pb_e P = pb_e U;
  rn_size : INR K <= 2 ^ 20;
  rn_mod : @moderate (BOps ex lg) bval w w' P A G K (b2 60) xe Ae Ge x y z s tau }.

Lemma run_data : run -> pb_n P = pb_n U /\ pb_p P = pb_p U /\ pb_m P = pb_m U /\ w_best w = None /\ 0 < tau /\
  exists U' A1 G1, user U' A1 G1 /\ scaled_by U' P xe Ae Ge /\ nearby (b2 (-49)) (b2 (-1000)) xe Ae Ge U U' A0 A1 G0 G1.
Proof.
  intros [GV E SO MI TL TP RH (Pl & Pq & Pe) SZ MD].
  assert (Dim: pb_n P = pb_n U /\ pb_p P = pb_p U /\ pb_m P = pb_m U /\ w_best w = None).
  { destruct (@setup_inv (BOps ex lg) _ _ _ _ _ _ _ _ _ _ _ _ _ _ E) as (_ & ? & ? & ? & ? & ? & ? & ? & ? & ? & _ & _ & _ & _ & _ & _ & _ & _ & _ & _ & _ & W9 & W10 & W11 & _ & _ & _ & _ & WB).
    rewrite <- (rh_n _ _ _ _ _ RH), <- (rh_p _ _ _ _ _ RH), <- (rh_m _ _ _ _ _ RH). auto. }
  destruct Dim as (Dn & Dp & Dm & WB). split; [auto|]. split; [auto|]. split; [auto|]. split; [auto|]. split.
  { destruct (md_tau _ _ _ _ _ _ _ _ _ _ _ _ _ _ _ _ MD) as [_ TT]. pose proof (Rinv_0_lt_compat _ (b2_pos 60)). lra. }
  destruct (md_xe _ _ _ _ _ _ _ _ _ _ _ _ _ _ _ _ MD) as [X1 _]. destruct (md_Ae _ _ _ _ _ _ _ _ _ _ _ _ _ _ _ _ MD) as [A1 _].
  destruct (md_Ge _ _ _ _ _ _ _ _ _ _ _ _ _ _ _ _ MD) as [G1 _]. rewrite Dn in X1. rewrite Dp in A1. rewrite Dm in G1.
  assert (SL: @scalings (BOps ex lg) bval w U xe Ae Ge) by (constructor; assumption).
  exact (C49_binary64_setup ex lg amd junk U A0 G0 MA MG c h b w P A G xe Ae Ge GV E RH Pl Pq Pe SL).
Qed.

(* C50: optimal.  There is a problem U' that differs from the caller's in the
   last bits of its numbers only, and a point that differs from the answer
   returned in the last bits only, such that the point is optimal for U' up to
   the tolerances and the rounding errors of evaluating the residuals. *)
Theorem C50_binary64_optimal : run -> code = 0%Z \/ code = 10%Z ->
  exists U' A1 G1 X Y Z S, user U' A1 G1 /\ scaled_by U' P xe Ae Ge /\ nearby (b2 (-49)) (b2 (-1000)) xe Ae Ge U U' A0 A1 G0 G1 /\
    answers U xe Ae Ge tau X Y Z S x y z s /\
    (code = 0%Z -> user_optimal U' P A G (b2 (-21)) (b2 (-500)) xe Ae Ge ft at_ rt tau X Y Z S) /\
    (code = 10%Z -> user_optimal U' P A G (b2 (-21)) (b2 (-500)) xe Ae Ge ft' at' rt' tau X Y Z S).
Proof.
  intros RN HC. destruct (run_data RN) as (En & Ep & Em & WB & T & U' & A1 & G1 & US & SB & NB).
  destruct RN as [GV E SO MI TL (P1 & P2 & P3 & P4 & P5 & P6) RH (Pl & Pq & Pe) SZ MD].
  assert (RH': @rheld (BOps ex lg) bval (set_w_stgs w g) P A G) by (destruct RH; constructor; assumption).
  assert (MD': @moderate (BOps ex lg) bval (set_w_stgs w g) w' P A G K (b2 60) xe Ae Ge x y z s tau) by (destruct MD; constructor; assumption).
  destruct (C47_binary64_optimal ex lg K (set_w_stgs w g) w' sig t t' code P A G xe Ae Ge x y z s tau ft at_ rt ft' at' rt' SZ SO RH' MI (or_introl WB) TL P1 P2 P3 P4 P5 P6 MD' HC)
    as (X & Y & Z & S & N1 & N2 & N3 & N4 & O1 & O2).
  exists U', A1, G1, X, Y, Z, S. split; [auto|]. split; [auto|]. split; [auto|]. split; [eapply answers_of; eauto|].
  split; intros Hc; apply user_of_rounded; auto.
Qed.

(* C50: infeasible.  Likewise, the vectors returned are a certificate of
   infeasibility for U' up to the tolerances and the rounding errors. *)
Theorem C50_binary64_infeasible : run -> In code [1; 2; 11; 12]%Z ->
  exists U' A1 G1 X Y Z S, user U' A1 G1 /\ scaled_by U' P xe Ae Ge /\ nearby (b2 (-49)) (b2 (-1000)) xe Ae Ge U U' A0 A1 G0 G1 /\
    answers U xe Ae Ge tau X Y Z S x y z s /\
    (code = 1%Z -> user_pinf U' P A G (b2 (-21)) (b2 (-500)) xe Ae Ge ft rt tau Y Z) /\
    (code = 11%Z -> user_pinf U' P A G (b2 (-21)) (b2 (-500)) xe Ae Ge ft' rt tau Y Z \/ user_pinf U' P A G (b2 (-21)) (b2 (-500)) xe Ae Ge ft rt tau Y Z) /\
    (code = 2%Z -> user_dinf U' P A G (b2 (-21)) (b2 (-500)) xe Ae Ge ft rt tau X S) /\
    (code = 12%Z -> user_dinf U' P A G (b2 (-21)) (b2 (-500)) xe Ae Ge ft' rt tau X S) /\
    rounded_infeasible code P A G (b2 (-21)) (b2 (-500)) ft ft' rt X Y Z S.
Proof.
  intros RN HC. destruct (run_data RN) as (En & Ep & Em & WB & T & U' & A1 & G1 & US & SB & NB).
  destruct RN as [GV E SO MI TL (P1 & P2 & P3 & P4 & P5 & P6) RH (Pl & Pq & Pe) SZ MD].
  assert (RH': @rheld (BOps ex lg) bval (set_w_stgs w g) P A G) by (destruct RH; constructor; assumption).
  assert (MD': @moderate (BOps ex lg) bval (set_w_stgs w g) w' P A G K (b2 60) xe Ae Ge x y z s tau) by (destruct MD; constructor; assumption).
  destruct (C48_binary64_infeasible ex lg K (set_w_stgs w g) w' sig t t' code P A G xe Ae Ge x y z s tau ft at_ rt ft' at' rt' SZ SO RH' MI (or_introl WB) TL P1 P3 P4 MD' HC)
    as (X & Y & Z & S & N1 & N2 & N3 & N4 & O1).
  exists U', A1, G1, X, Y, Z, S. split; [auto|]. split; [auto|]. split; [auto|]. split; [eapply answers_of; eauto|].
  pose proof O1 as (I1 & I2 & I3 & I4).
  split; [intros Hc; apply user_of_pinf; auto|]. split; [intros Hc; destruct (I2 Hc); [left|right]; apply user_of_pinf; auto|].
  split; [intros Hc; apply user_of_dinf; auto|]. split; [intros Hc; apply user_of_dinf; auto|exact O1].
Qed.
End Run.

(* What the certificate of primal infeasibility excludes: a feasible point of the
   caller's problem, up to the last bits of its numbers, is far away. *)
Theorem C50_no_feasible_point_nearby U P A G eps om xe Ae Ge ft rt tau Y Z x s :
  scaled_by U P xe Ae Ge -> 0 < tau -> rounded_pinf P A G eps om ft rt Y Z ->
  inKd (pb_l U) (pb_q U) (pb_e U) (pt Ge tau Z) -> primal_feasible U x s ->
  let k := slack eps om in let D := Rmax (nrm (pb_p P) Y + nrm (pb_m P) Z) 1 in
  (2 - k) * rt * D <= (k * D * (ft + 2 * om) + 3 * om + err eps om (pb_n P) (mag_dual P A G 0 Y Z)) * nrm (pb_n U) (times x xe)
    + 16 * om * D + erd eps om (pb_p P) (pb_b P) Y + erd eps om (pb_m P) (pb_h P) Z.
Proof.
  intros SB T RP KZ FS k D. pose proof (sb_Ge _ _ _ _ _ SB) as PG.
  assert (Xp: xpair U xe (times x xe) x) by (intros i Hi; reflexivity).
  assert (Sp: spair U Ge (over s Ge) s). { intros i Hi. unfold over. specialize (PG i Hi). field. lra. }
  apply (feasible_scaled _ _ _ _ _ SB _ _ _ _ Xp Sp) in FS.
  assert (Zp: zpair U Ge (fun i => Z i / tau) (pt Ge tau Z)) by (intros i Hi; apply (pt_pair _ T _ _ _ PG); auto).
  apply (Kd_scaled _ _ _ _ _ SB _ _ Zp) in KZ.
  assert (KZ': inKd (pb_l P) (pb_q P) (pb_e P) Z).
  { destruct (inK_scal (pb_l P) (pb_q P) (pb_e P) (fun _ => tau) (fun i => Z i / tau) Z) as [_ Q]; auto; [|apply Q; exact KZ].
    intros i Hi. field. lra. }
  pose proof (C48_no_feasible_point_nearby P A G eps om ft rt Y Z _ _ RP KZ' FS) as Q. cbv zeta in Q.
  rewrite (sb_n _ _ _ _ _ SB) in *. exact Q.
Qed.

(* ... and of dual infeasibility *)
Theorem C50_no_dual_feasible_point_nearby U P A G eps om xe Ae Ge ft rt tau X S y z :
  scaled_by U P xe Ae Ge -> 0 < tau -> rounded_dinf P A G eps om ft rt X S ->
  inK (pb_l U) (pb_q U) (pb_e U) (slk Ge tau S) -> dual_feasible U y z ->
  let k := slack eps om in let D := Rmax (nrm (pb_n P) X) 1 in
  (2 - k) * rt * D <=
    (k * D * (ft + 2 * om) + 3 * om + err eps om (pb_p P) (mag_eq P A 0 X)) * nrm (pb_p U) (times y Ae)
    + (k * Rmax (nrm (pb_n P) X + nrm (pb_m P) S) 1 * (ft + 2 * om) + 3 * om + err eps om (pb_m P) (mag_ineq P G 0 X S)) * nrm (pb_m U) (times z Ge)
    + 16 * om * D + erd eps om (pb_n P) (pb_c P) X.
Proof.
  intros SB T RP KS FS k D. pose proof (sb_Ge _ _ _ _ _ SB) as PG.
  assert (Yp: ypair U Ae (times y Ae) y) by (intros i Hi; reflexivity).
  assert (Zp: zpair U Ge (times z Ge) z) by (intros i Hi; reflexivity).
  apply (dfeasible_scaled _ _ _ _ _ SB _ _ _ _ Yp Zp) in FS.
  assert (Sp: spair U Ge (fun i => S i / tau) (slk Ge tau S)) by (intros i Hi; unfold slk; field; lra).
  apply (K_scaled _ _ _ _ _ SB _ _ Sp) in KS.
  assert (KS': inK (pb_l P) (pb_q P) (pb_e P) S).
  { destruct (inK_scal (pb_l P) (pb_q P) (pb_e P) (fun _ => tau) (fun i => S i / tau) S) as [Q _]; auto; [|apply Q; exact KS].
    intros i Hi. field. lra. }
  pose proof (C48_no_dual_feasible_point_nearby P A G eps om ft rt X S _ _ RP KS' FS) as Q. cbv zeta in Q.
  pose proof (sb_m _ _ _ _ _ SB) as Em. rewrite (sb_p _ _ _ _ _ SB), Em in *. exact Q.
Qed.

Print Assumptions C50_binary64_optimal.
Print Assumptions C50_binary64_infeasible.
Print Assumptions C50_no_feasible_point_nearby.
Print Assumptions C50_no_dual_feasible_point_nearby.
