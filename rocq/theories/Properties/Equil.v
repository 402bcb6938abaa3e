(* C08 and C09: equilibration is undone exactly and keeps the problem
   equivalent; C20-C22 from the data the user passes to setup to the vectors
   the user reads after solve.

   Arithmetic is exact with NaN (XOps).  The user's problem is
   [U : problem] (Spec/Conic.v); [user U A0 G0] says that the column-compressed
   matrices A0, G0 describe its matrices (Spec/User.v); [scaled_by U P xe Ae Ge]
   (Spec/Scaling.v) that P is U with columns and rows divided by positive
   factors, the rows of one cone sharing theirs.  [numeric w P A G xe Ae Ge]
   (Proofs/CertP.v): the workspace w holds the problem P and the factors. *)
From Coq Require Import List Arith Bool ZArith QArith Qreals Reals Lia Lra.
From Verif Require Import Base Num NumX.
From Verif.Model Require Import Spla Splamm Types Consts Expcone Cone Equil Ecos Preproc.
From Verif.Spec Require Import Matrix Conic Jordan Shape Certificate Scaling User.
From Verif.Proofs Require Import SplaP LoopLib ConeP ExitP XEvalP PhiP CertP EquilP EquilX.
From Verif.Properties Require Import Certificate Exit.
Import ListNotations.
Open Scope R_scope.

(* a successful call to ECOS_setup with the data of U *)
Definition set_up (U : problem) (A0 : option (spmat R)) (G0 : spmat R) (c h b : arr (option R)) (w : XW) : Prop :=
  user U A0 G0 /\ xvec c (pb_n U) (pb_c U) /\ xvec h (pb_m U) (pb_h U) /\ xvec b (pb_p U) (pb_b U) /\
  exists amd junk,
  @ECOS_setup XOps amd junk (pb_n U) (pb_m U) (pb_p U) (pb_l U) (pb_q U) (pb_e U) (ccs G0) (option_map ccs A0) c h b = Some (Some w).

(* w' is reached from w by any number of calls to ECOS_solve, whatever they
   return, with settings changed at will in between *)
Inductive solved (w : XW) : XW -> Prop :=
| sv_refl : solved w w
| sv_settings w' g : solved w w' -> solved w (set_w_stgs w' g)
| sv_solve w' sig t code t' w'' : solved w w' -> (0 <= sg_maxit (w_stgs w'))%Z ->
    @ECOS_solve XOps sig t w' = Some (code, t', w'') -> solved w w''.

(* C08: cleanup gives the caller's matrices, right-hand sides and bounds back,
   literally: the same arrays, including what lies beyond the part in use *)
Theorem C08_equilibration_undone U A0 G0 c h b w w' :
  set_up U A0 G0 c h b w -> solved w w' ->
  @ECOS_cleanup_data XOps w' = Some (option_map xmat A0, xmat G0, b, h).
Proof.
  intros (HU & Hc & Hh & Hb & amd & junk & HS) SV.
  assert (F: w_A w' = w_A w /\ w_G w' = w_G w /\ w_b w' = w_b w /\ w_h w' = w_h w /\
    w_xequil w' = w_xequil w /\ w_Aequil w' = w_Aequil w /\ w_Gequil w' = w_Gequil w).
  { clear HS. induction SV as [|w1 g SV IH|w1 sig t code t' w2 SV IH M S]; [csplit; auto|exact IH|].
    apply (@C26_data_untouched XOps) in S as (A1 & A2 & A3 & A4 & _ & _ & _ & A5 & A6 & A7 & _); auto.
    destruct IH as (B1 & B2 & B3 & B4 & B5 & B6 & B7). csplit; etransitivity; eassumption. }
  destruct F as (F1 & F2 & F3 & F4 & F5 & F6 & F7).
  destruct (setup_scaled _ _ _ _ _ _ _ _ _ HU Hc Hh Hb HS) as (P & A1 & G1 & xe & Ae & Ge & SC).
  rewrite <- (scaled_copy_back _ _ _ _ _ _ _ _ _ _ _ _ HU Hh Hb SC).
  unfold ECOS_cleanup_data. change (@F XOps) with (option R) in *. rewrite F1, F2, F3, F4, F5, F6, F7. reflexivity.
Qed.
Print Assumptions C08_equilibration_undone.

(* C09: what is in the workspace is equivalent to the user's problem *)
Theorem C09_equivalent_problem U A0 G0 c h b w :
  set_up U A0 G0 c h b w ->
  exists P A G xe Ae Ge, numeric w P A G xe Ae Ge /\ scaled_by U P xe Ae Ge /\
    (forall x s, primal_feasible P x s <-> primal_feasible U (over x xe) (times s Ge)) /\
    (forall y z, dual_feasible P y z <-> dual_feasible U (over y Ae) (over z Ge)) /\
    (forall x, pobj P x = pobj U (over x xe)) /\
    (forall y z, dobj P y z = dobj U (over y Ae) (over z Ge)) /\
    (forall x s, primal_optimal P x s <-> primal_optimal U (over x xe) (times s Ge)) /\
    (forall y z, dual_optimal P y z <-> dual_optimal U (over y Ae) (over z Ge)).
Proof.
  intros (HU & Hc & Hh & Hb & amd & junk & HS).
  destruct (setup_scaled _ _ _ _ _ _ _ _ _ HU Hc Hh Hb HS) as (P & A1 & G1 & xe & Ae & Ge & SC).
  pose proof (sc_by _ _ _ _ _ _ _ _ _ _ _ _ SC) as SB.
  exists P. eexists _, G1, xe, Ae, Ge. split; [apply (sc_num _ _ _ _ _ _ _ _ _ _ _ _ SC)|]. split; [auto|].
  assert (X: forall x, xpair U xe x (over x xe)). { intros x j Hj. unfold over. pose proof (sb_xe _ _ _ _ _ SB j Hj). field. lra. }
  assert (Y: forall y, ypair U Ae y (over y Ae)). { intros y j Hj. unfold over. pose proof (sb_Ae _ _ _ _ _ SB j Hj). field. lra. }
  assert (Z: forall z, zpair U Ge z (over z Ge)). { intros z j Hj. unfold over. pose proof (sb_Ge _ _ _ _ _ SB j Hj). field. lra. }
  assert (S: forall s, spair U Ge s (times s Ge)) by (intros s j Hj; reflexivity).
  csplit; intros; [eapply feasible_scaled|eapply dfeasible_scaled|eapply pobj_scaled|eapply dobj_scaled|eapply optimal_scaled|eapply doptimal_scaled]; eauto.
Qed.
Print Assumptions C09_equivalent_problem.

(* C20-C22 in the user's terms: set up with the user's data, solved once with
   the default settings.  P is the user's problem with rows and columns scaled,
   the point is the one returned, scaled the same way. *)
Definition tol : R := Q2R (1 # 100000000).
Definition ftol' : R := Q2R (1 # 10000).
Definition tol' : R := Q2R (5 # 100000).

Lemma amapf_id (a : arr (option R)) : amapf (fun x => x) a = a.
Proof.
  unfold amapf. rewrite <- (map_id a) at 2. apply map_ext. intros [x|]; auto.
Qed.
Lemma mmapf_id (M : spmat (option R)) : mmapf (fun x => x) M = M.
Proof. destruct M as [a1 a2 a3 a4 a5 a6]. unfold mmapf. cbn [sp_jc sp_ir sp_pr sp_n sp_m sp_nnz]. rewrite amapf_id. auto. Qed.
Lemma numeric_id w P A G xe Ae Ge : numeric w P A G xe Ae Ge -> numeric (pwork_mapf (fun x => x) None w) P A G xe Ae Ge.
Proof.
  intros []. constructor; cbn [pwork_mapf w_n w_m w_p w_G w_A w_b w_c w_h w_xequil w_Aequil w_Gequil w_rx w_ry w_rz]; rewrite ?amapf_id, ?mmapf_id; auto.
  intros Hp. destruct (nm_A Hp) as (E & R). rewrite E. split; [|auto]. cbn [option_map]. rewrite mmapf_id. auto.
Qed.
Lemma returned_id w P x y z s tau : returned w P x y z s tau -> returned (pwork_mapf (fun x => x) None w) P x y z s tau.
Proof. intros []. constructor; cbn [pwork_mapf w_x w_y w_z w_s w_tau]; rewrite ?amapf_id; auto. Qed.

Lemma prod_times a b : prod_ a b = times b a.
Proof. apply FunctionalExtensionality.functional_extensionality; intro; unfold prod_, times; ring. Qed.
Lemma quot_over a b : quot_ a b = over a b. Proof. reflexivity. Qed.

Lemma end_to_end U A0 G0 c h b w sig t code t' w' x y z s tau :
  set_up U A0 G0 c h b w -> @ECOS_solve XOps sig t w = Some (code, t', w') -> returned w' U x y z s tau -> 0 < tau ->
  exists P A G xe Ae Ge, scaled_by U P xe Ae Ge /\
    situation (O := XOps) (fun v => v) w w' sig t t' code P A G xe Ae Ge x y z s tau tol tol tol ftol' tol' tol'.
Proof.
  intros (HU & Hc & Hh & Hb & amd & junk & HS) SV RT Ht.
  destruct (setup_scaled _ _ _ _ _ _ _ _ _ HU Hc Hh Hb HS) as (P & A1 & G1 & xe & Ae & Ge & SC).
  pose proof (sc_by _ _ _ _ _ _ _ _ _ _ _ _ SC) as SB.
  apply (@setup_inv XOps) in HS as (_ & _ & _ & _ & _ & _ & _ & _ & _ & _ & _ & _ & _ & _ & _ & _ & _ & _ & _ & _ & _ & _ & _ & _ & _ & _ & _ & SG & BE).
  exists P. eexists _, G1, xe, Ae, Ge. split; [auto|]. constructor; auto.
  - apply numeric_id. apply (sc_num _ _ _ _ _ _ _ _ _ _ _ _ SC).
  - change (@F XOps) with (option R) in *. rewrite SG. cbn. unfold MAXIT. lia.
  - change (@F XOps) with (option R) in *. rewrite SG. constructor; reflexivity.
  - apply returned_id. destruct RT. constructor; auto.
    + rewrite (sb_n _ _ _ _ _ SB). auto.
    + rewrite (sb_p _ _ _ _ _ SB). auto.
    + rewrite (sb_m _ _ _ _ _ SB). auto.
    + rewrite (sb_m _ _ _ _ _ SB). auto.
Qed.

Theorem C20_user_optimal U A0 G0 c h b w sig t t' w' x y z s tau :
  set_up U A0 G0 c h b w -> @ECOS_solve XOps sig t w = Some (0%Z, t', w') -> returned w' U x y z s tau -> 0 < tau ->
  exists P xe Ae Ge, scaled_by U P xe Ae Ge /\
    approx_optimal P tol tol tol tau (times x xe) (times y Ae) (times z Ge) (over s Ge) /\
    (* in particular the objective is close to that of every feasible point *)
    (inKd (pb_l U) (pb_q U) (pb_e U) z -> forall xf sf, primal_feasible U xf sf ->
     pobj U x <= pobj U xf + dotp (pb_m U) s z
      + tol * (Rmax (Rmax 1 (nrm (pb_n P) (pb_c P)) + tau * nrm (pb_p P) (times y Ae) + tau * nrm (pb_m P) (times z Ge)) 1
               * (nrm (pb_n P) (times x xe) + nrm (pb_n P) (times xf xe))
         + Rmax (Rmax 1 (nrm (pb_p P) (pb_b P)) + tau * nrm (pb_n P) (times x xe)) 1 * nrm (pb_p P) (times y Ae)
         + Rmax (Rmax 1 (nrm (pb_m P) (pb_h P)) + tau * nrm (pb_n P) (times x xe) + tau * nrm (pb_m P) (over s Ge)) 1 * nrm (pb_m P) (times z Ge))).
Proof.
  intros HS SV RT Ht. destruct (end_to_end _ _ _ _ _ _ _ _ _ _ _ _ _ _ _ _ _ HS SV RT Ht) as (P & A & G & xe & Ae & Ge & SB & SI).
  exists P, xe, Ae, Ge. split; [auto|].
  assert (AO: approx_optimal P tol tol tol tau (times x xe) (times y Ae) (times z Ge) (over s Ge)).
  { pose proof (proj1 (C20_optimal_certificate _ reads_X _ _ _ _ _ _ _ _ _ _ _ _ _ _ _ _ _ _ _ _ _ _ _ SI) eq_refl) as AO.
    cbv zeta in AO. rewrite ?(prod_times xe x), ?(prod_times Ae y), ?(prod_times Ge z), ?(quot_over s Ge) in AO. exact AO. }
  split; [exact AO|]. intros HZ xf sf FE.
  assert (X: forall x, xpair U xe (times x xe) x) by (intros v j Hj; reflexivity).
  assert (Zp: forall x, zpair U Ge (times x Ge) x) by (intros v j Hj; reflexivity).
  assert (S: forall s, spair U Ge (over s Ge) s). { intros v j Hj. unfold over. pose proof (sb_Ge _ _ _ _ _ SB j Hj). field. lra. }
  rewrite <- (pobj_scaled _ _ _ _ _ SB _ _ (X x)), <- (pobj_scaled _ _ _ _ _ SB _ _ (X xf)), <- (gap_scaled _ _ _ _ _ SB _ _ _ _ (S s) (Zp z)).
  apply (C20_suboptimality P tol tol tol tau _ _ _ _ _ (over sf Ge) Ht AO).
  - apply (Kd_scaled _ _ _ _ _ SB _ _ (Zp z)). auto.
  - apply (feasible_scaled _ _ _ _ _ SB _ _ _ _ (X xf) (S sf)). auto.
Qed.
Print Assumptions C20_user_optimal.

Theorem C21_user_infeasible U A0 G0 c h b w sig t t' w' x y z s tau :
  set_up U A0 G0 c h b w -> @ECOS_solve XOps sig t w = Some (1%Z, t', w') -> returned w' U x y z s tau -> 0 < tau ->
  exists P xe Ae Ge, scaled_by U P xe Ae Ge /\
    approx_pinf P tol tol tau (times y Ae) (times z Ge) /\
    (* in particular every feasible point is far away *)
    (inKd (pb_l U) (pb_q U) (pb_e U) z -> forall xf sf, primal_feasible U xf sf -> 1 < nrm (pb_n U) (times xf xe)).
Proof.
  intros HS SV RT Ht. destruct (end_to_end _ _ _ _ _ _ _ _ _ _ _ _ _ _ _ _ _ HS SV RT Ht) as (P & A & G & xe & Ae & Ge & SB & SI).
  exists P, xe, Ae, Ge. split; [auto|].
  assert (AO: approx_pinf P tol tol tau (times y Ae) (times z Ge)).
  { pose proof (proj1 (C21_primal_infeasibility_certificate _ reads_X _ _ _ _ _ _ _ _ _ _ _ _ _ _ _ _ _ _ _ _ _ _ _ SI) eq_refl) as AO.
    cbv zeta in AO. rewrite ?(prod_times xe x), ?(prod_times Ae y), ?(prod_times Ge z), ?(quot_over s Ge) in AO. exact AO. }
  split; [exact AO|]. intros HZ xf sf FE.
  assert (X: forall x, xpair U xe (times x xe) x) by (intros v j Hj; reflexivity).
  assert (Zp: forall x, zpair U Ge (times x Ge) x) by (intros v j Hj; reflexivity).
  assert (S: forall s, spair U Ge (over s Ge) s). { intros v j Hj. unfold over. pose proof (sb_Ge _ _ _ _ _ SB j Hj). field. lra. }
  pose proof (C21_no_feasible_point_nearby P tol tol tau _ _ (times xf xe) (over sf Ge) Ht AO) as B.
  rewrite <- (sb_n _ _ _ _ _ SB). assert (T: 0 < tol) by (unfold tol, Q2R; cbn; lra).
  apply (Rmult_lt_reg_l tol); [auto|]. rewrite Rmult_1_r. apply B.
  - apply (Kd_scaled _ _ _ _ _ SB _ _ (Zp z)). auto.
  - apply (feasible_scaled _ _ _ _ _ SB _ _ _ _ (X xf) (S sf)). auto.
Qed.
Print Assumptions C21_user_infeasible.

Theorem C22_user_unbounded U A0 G0 c h b w sig t t' w' x y z s tau :
  set_up U A0 G0 c h b w -> @ECOS_solve XOps sig t w = Some (2%Z, t', w') -> returned w' U x y z s tau -> 0 < tau ->
  exists P xe Ae Ge, scaled_by U P xe Ae Ge /\
    approx_dinf P tol tol tau (times x xe) (over s Ge) /\
    (inK (pb_l U) (pb_q U) (pb_e U) s -> forall yf zf, dual_feasible U yf zf ->
      Rmax (tau * nrm (pb_n U) (times x xe)) 1 <
      Rmax (tau * nrm (pb_n U) (times x xe)) 1 * nrm (pb_p U) (times yf Ae)
      + Rmax (tau * nrm (pb_n U) (times x xe) + tau * nrm (pb_m U) (over s Ge)) 1 * nrm (pb_m U) (times zf Ge)).
Proof.
  intros HS SV RT Ht. destruct (end_to_end _ _ _ _ _ _ _ _ _ _ _ _ _ _ _ _ _ HS SV RT Ht) as (P & A & G & xe & Ae & Ge & SB & SI).
  exists P, xe, Ae, Ge. split; [auto|].
  assert (AO: approx_dinf P tol tol tau (times x xe) (over s Ge)).
  { pose proof (proj1 (C22_dual_infeasibility_certificate _ reads_X _ _ _ _ _ _ _ _ _ _ _ _ _ _ _ _ _ _ _ _ _ _ _ SI) eq_refl) as AO.
    cbv zeta in AO. rewrite ?(prod_times xe x), ?(prod_times Ae y), ?(prod_times Ge z), ?(quot_over s Ge) in AO. exact AO. }
  split; [exact AO|]. intros HK yf zf FE.
  assert (Yp: forall x, ypair U Ae (times x Ae) x) by (intros v j Hj; reflexivity).
  assert (Zp: forall x, zpair U Ge (times x Ge) x) by (intros v j Hj; reflexivity).
  assert (S: forall s, spair U Ge (over s Ge) s). { intros v j Hj. unfold over. pose proof (sb_Ge _ _ _ _ _ SB j Hj). field. lra. }
  pose proof (C22_no_dual_feasible_point_nearby P tol tol tau (times x xe) (over s Ge) (times yf Ae) (times zf Ge) Ht AO) as B.
  rewrite <- (sb_n _ _ _ _ _ SB), <- (sb_p _ _ _ _ _ SB), <- (sb_m _ _ _ _ _ SB). assert (T: 0 < tol) by (unfold tol, Q2R; cbn; lra).
  apply (Rmult_lt_reg_l tol); [auto|]. apply B.
  - apply (K_scaled _ _ _ _ _ SB _ _ (S s)). auto.
  - apply (dfeasible_scaled _ _ _ _ _ SB _ _ _ _ (Yp yf) (Zp zf)). auto.
Qed.
Print Assumptions C22_user_unbounded.
