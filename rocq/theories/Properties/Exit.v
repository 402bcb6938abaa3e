(* C23, C24, C25, C26 and the solver's part of C36: what a call of solve does to
   the workspace, for every arithmetic (any instance of Ops) unless stated. *)
From Coq Require Import List Arith Bool ZArith QArith Floats Reals Lia Lra.
From Verif Require Import Base Num NumX.
From Verif.Model Require Import Spla Splamm Types Consts Expcone Cone Ldl Kkt Equil Ecos Preproc.
From Verif.Spec Require Import Best.
From Verif.Proofs Require Import ExitP LoopP PhiP.
From Verif.Examples Require Import RunF.
Import ListNotations.
Open Scope nat_scope.

Section Exit.
Context {O : Ops}.
Notation W := (pwork F).

(* ------------------------------------------------------------------- C23 *)
(* The exit flags of include/ecos.h: 0, 1, 2, the same plus 10, -1, -2, -3, -4, -7.
   The internal flag -87 is not among them.  SIGINT is only reported when an
   interrupt was pending in some pass; the iteration count stays within the
   limit; with a negative limit the flag is -7. *)
Theorem C23_exit_flags sig t (w : W) code t' w' :
  ECOS_solve sig t w = Some (code, t', w') ->
  In code [0; 1; 2; 10; 11; 12; -1; -2; -3; -4; -7]%Z /\
  (code = -4 -> exists k, 0 <= k <= sg_maxit (w_stgs w) /\ sig k = true)%Z /\
  (code <> -7 -> 0 <= st_iter (w_info w') <= sg_maxit (w_stgs w))%Z /\
  (sg_maxit (w_stgs w) < 0 -> code = -7)%Z.
Proof.
  unfold ECOS_solve. intros H. binv1 H. cbv zeta in H. binv1 H. rename p into w1.
  apply init_inv in E0 as (_ & P1 & _).
  assert (Sg: w_stgs w1 = w_stgs w) by (unfold prob0_of in P1; injection P1 as; assumption).
  destruct b; cbn [negb] in H.
  2:{ injection H as <- <- <-. unfold ECOS_FATAL. csplit; auto; simpl; try tauto; lia. }
  binv1 H. rename b into ret, z into cd, p0 into w2.
  assert (D: In cd codes /\ (cd = -4 -> exists k, 0 <= k <= sg_maxit (w_stgs w) /\ sig k = true)%Z /\
     (cd <> -7 -> 0 <= st_iter (w_info w2) <= sg_maxit (w_stgs w))%Z /\
     (sg_maxit (w_stgs w) < 0 -> cd = -7)%Z).
  { destruct (Z.to_nat (sg_maxit (w_stgs w1) + 1)) as [|fuel] eqn:Ef.
    - cbn [ipm_loop] in E0. injection E0 as <- <- <-. unfold ECOS_FATAL. csplit; auto; unfold codes; simpl; try tauto; lia.
    - apply ipm_loop_codes in E0 as (A & B & C & _); [|lia|lia]. rewrite Sg in *. csplit; auto; lia. }
  destruct ret.
  - injection H as <- <- <-. exact D.
  - binv H. injection H as <- <- <-. apply backscale_frame in E1 as (I & _). rewrite I. exact D.
Qed.

(* ------------------------------------------------------------------- C24 *)
(* [iterates sig w k pp w1]: pass k of the run on w starts in w1.  When that
   pass is completed, the iterate kept as best is the one before, or the one of
   this pass; in the second case its gap and its mu are smaller than those of
   the one it replaces, and what is kept with it are its own statistics. *)
Theorem C24_best_replaced_by_better sig (w : W) k pp w1 pp' w2 w3 w4 :
  iterates sig w k pp w1 ->
  iter_exit (sig k) pp (set_info w1 (fun i => set_st_iter i k)) = Some (VGo, pp', w2) ->
  iter_save w2 = Some w3 -> iter_step w3 = Some (VGo, w4) ->
  exists b', w_best w4 = Some b' /\
    (be_iter b' = k /\ be_gap b' = st_gap (w_info w2) /\ be_mu b' = st_mu (w_info w2) /\
     be_kap b' = w_kap w2 /\ be_tau b' = w_tau w2 /\
     (k = 0%Z \/ exists b, w_best w1 = Some b /\
        flt (be_gap b') (be_gap b) = true /\ flt (be_mu b') (be_mu b) = true) \/
     (0 < k)%Z /\ w_best w1 = Some b').
Proof.
  intros A B C D. destruct (iterates_step _ _ _ _ _ _ _ _ _ A B C D) as (b' & E & H). exists b'. split; [exact E|].
  destruct H as [(H1 & H2 & H3 & H4 & H5)|H]; [left|right; exact H].
  unfold be_summ, summ, be_core, st_core in H2. injection H2 as. csplit; auto.
Qed.

(* In arithmetic where nothing equals NaN (binary64, reals with NaN), a later
   pass replaces the kept iterate exactly when its statistics improve on the kept
   ones; otherwise the kept one stays. *)
Theorem C24_replaced_iff_better sig (w : W) k pp w1 pp' w2 w3 w4 b :
  (forall x : F, feq x fnan = false) ->
  iterates sig w k pp w1 -> (0 < k)%Z -> w_best w1 = Some b ->
  iter_exit (sig k) pp (set_info w1 (fun i => set_st_iter i k)) = Some (VGo, pp', w2) ->
  iter_save w2 = Some w3 -> iter_step w3 = Some (VGo, w4) ->
  (improves (w_info w2) b -> exists b', w_best w4 = Some b' /\ be_summ b' = summ w2) /\
  (~ improves (w_info w2) b -> w_best w4 = Some b).
Proof.
  intros NN H Hk EB H1 H2 H3.
  apply iter_exit_frame in H1 as (P1 & I1 & _ & Bo1 & _).
  apply iter_step_frame in H3 as (P3 & Bo3 & I3 & _).
  change (st_iter (w_info (set_info w1 (fun i => set_st_iter i k)))) with k in I1.
  change (best_of (set_info w1 (fun i => set_st_iter i k))) with (best_of w1) in Bo1.
  unfold best_of in Bo1, Bo3. injection Bo1 as. injection Bo3 as.
  unfold iter_save in H2. rewrite I1 in H2. destruct (Z.eqb_spec k 0) as [->|Nk]; [lia|].
  binv1 H2. unfold better in E. binv1 E. injection E as Hv. assert (v0 = b) as -> by congruence.
  pose proof (compare_iff NN (w_info w2) b) as CI. rewrite Hv in CI. destruct v.
  - apply save_inv in H2 as (_ & _ & _ & _ & _ & _ & _ & _ & _ & _ & _ & b' & B1 & B2 & B3 & B4 & B5).
    split; [|tauto]. intros _. exists b'. split; [congruence|auto].
  - injection H2 as <-. split; [intros X; apply CI in X; discriminate|]. intros _. congruence.
Qed.

(* saving and restoring: exactly the saved point and statistics come back,
   whatever happened to the current point in between *)
Theorem C24_restore_brings_back_saved (w w1 w2 w3 : W) :
  saveIterateAsBest w = Some w1 ->
  best_of w2 = best_of w1 -> prob_of w2 = prob_of w1 ->
  restoreBestIterate w2 = Some w3 ->
  (forall i, i < w_n w -> get (w_x w3) i = get (w_x w) i) /\
  (forall i, i < w_p w -> get (w_y w3) i = get (w_y w) i) /\
  (forall i, i < w_m w -> get (w_z w3) i = get (w_z w) i) /\
  (forall i, i < w_m w -> get (w_s w3) i = get (w_s w) i) /\
  w_kap w3 = w_kap w /\ w_tau w3 = w_tau w /\
  w_cx w3 = w_cx w /\ w_by w3 = w_by w /\ w_hz w3 = w_hz w /\
  st_pcost (w_info w3) = st_pcost (w_info w) /\ st_dcost (w_info w3) = st_dcost (w_info w) /\
  st_pres (w_info w3) = st_pres (w_info w) /\ st_dres (w_info w3) = st_dres (w_info w) /\
  st_pinfres (w_info w3) = st_pinfres (w_info w) /\ st_dinfres (w_info w3) = st_dinfres (w_info w) /\
  st_gap (w_info w3) = st_gap (w_info w) /\ st_relgap (w_info w3) = st_relgap (w_info w) /\
  st_mu (w_info w3) = st_mu (w_info w) /\ st_kapovert (w_info w3) = st_kapovert (w_info w).
Proof.
  intros S B P R.
  apply save_inv in S as (P1 & _ & _ & _ & _ & _ & _ & X & Y & Z & Sv & b & Bb & K & T & Su & _).
  apply restore_inv in R as (P3 & _ & _ & _ & _ & X' & Y' & Z' & S' & b' & Bb' & K' & T' & Su').
  destruct (prob_dims _ _ P1) as (n1 & m1 & p1 & _). destruct (prob_dims _ _ P) as (n2 & m2 & p2 & _).
  unfold best_of in B. injection B as Bx By Bz Bs Bq. rewrite Bx in X'. rewrite By in Y'. rewrite Bz in Z'. rewrite Bs in S'. rewrite Bq, Bb in Bb'. injection Bb' as <-.
  rewrite n2, n1 in X'. rewrite p2, p1 in Y'. rewrite m2, m1 in Z', S'.
  rewrite Su' in Su. unfold summ, st_core in Su. injection Su as.
  csplit; try congruence; intros i Hi.
  - rewrite X', X; auto.
  - rewrite Y', Y; auto.
  - rewrite Z', Z; auto.
  - rewrite S', Sv; auto.
Qed.

(* The statistics returned with a solution are those of the point returned.
   [wf] is the workspace when the loop is left, before the solution is divided
   by tau and the scalings; its cost, gap and residuals are what
   computeResiduals and updateStatistics give at its point (is_eval).  The only
   exception is a run that ends in pass 0 with an iterate left by an earlier call. *)
Theorem C24_statistics_belong_to_point sig t (w : W) code t' w' :
  ECOS_solve sig t w = Some (code, t', w') -> (0 <= sg_maxit (w_stgs w))%Z -> code <> ECOS_FATAL ->
  w_best w = None \/ st_iter (w_info w') <> 0%Z ->
  exists wf w1, (wf = w' \/ backscale wf = Some w') /\ w_info w' = w_info wf /\
    is_eval wf w1.
Proof.
  intros H M N Fr. apply solve_inv in H as (wf & c & _ & _ & _ & D); auto.
  destruct D as [(-> & _)|(D1 & D2)]; [contradiction|].
  assert (I: w_info w' = w_info wf).
  { destruct D1 as [(-> & _)|(B & _)]; auto. apply backscale_frame in B as (B & _). auto. }
  destruct D2 as [((w1 & C) & _)|[D2 D3]].
  - exists wf, w1. csplit; auto. destruct D1 as [(-> & _)|(B & _)]; auto.
  - exfalso. destruct Fr as [Fr|Fr]; [apply D2; exact Fr|apply Fr; congruence].
Qed.

(* ------------------------------------------------------------------- C25 *)
(* The result does not depend on the best iterate stored before the call,
   provided the first pass does not end the run: no interrupt pending in pass 0,
   iteration limit not 0, primal cost at the starting point not NaN.
   [set_bests] replaces the stored iterate, [strip] drops it. *)
Theorem C25_result_independent_of_stored_iterate sig t (w : W) bx by_ bz bs bb :
  length (w_best_x w) = w_n w -> length (w_best_y w) = w_p w ->
  length (w_best_z w) = w_m w -> length (w_best_s w) = w_m w ->
  length bx = w_n w -> length by_ = w_p w -> length bz = w_m w -> length bs = w_m w ->
  sig 0%Z = false -> sg_maxit (w_stgs w) <> 0%Z ->
  (forall c w1 w2, scaled_c w c -> init (set_w_c w c) = Some (true, w1) ->
     first_eval (set_info w1 (fun i => set_st_iter i 0)) = Some w2 -> fisnan (st_pcost (w_info w2)) = false) ->
  option_map strip (ECOS_solve sig t (set_bests w bx by_ bz bs bb)) = option_map strip (ECOS_solve sig t w).
Proof. apply solve_sb. Qed.

(* ------------------------------------------------------------------- C26 *)
(* every exit path: matrices, right-hand sides, scalings, sizes and settings *)
Theorem C26_data_untouched sig t (w : W) code t' w' :
  ECOS_solve sig t w = Some (code, t', w') -> (0 <= sg_maxit (w_stgs w))%Z ->
  w_A w' = w_A w /\ w_G w' = w_G w /\ w_b w' = w_b w /\ w_h w' = w_h w /\
  w_n w' = w_n w /\ w_m w' = w_m w /\ w_p w' = w_p w /\
  w_xequil w' = w_xequil w /\ w_Aequil w' = w_Aequil w /\ w_Gequil w' = w_Gequil w /\ w_stgs w' = w_stgs w.
Proof.
  intros H M. apply solve_inv in H as (wf & c & _ & P & _ & D); auto.
  unfold prob0_of in P. injection P as.
  assert (Wf: wf = w' \/ backscale wf = Some w').
  { destruct D as [(_ & -> & _)|([(-> & _)|(B & _)] & _)]; auto. }
  destruct Wf as [->|B]; [csplit; assumption|].
  apply backscale_frame in B as (_ & _ & _ & _ & _ & _ & Q & _). injection Q as.
  csplit; etransitivity; eassumption.
Qed.

(* normal exits: handler back, cost vector divided and multiplied again,
   solution in the caller's units *)
Theorem C26_normal_exit sig t (w : W) code t' w' :
  ECOS_solve sig t w = Some (code, t', w') -> (0 <= sg_maxit (w_stgs w))%Z ->
  code <> ECOS_OUTCONE -> code <> ECOS_FATAL ->
  cc_handler t' = cc_handler t /\
  (forall i, i < w_n w -> exists v e, get (w_c w) i = Some v /\ get (w_xequil w) i = Some e /\
     get (w_c w') i = Some (fmul (fdiv v e) e)) /\
  exists wf,
   (forall i, i < w_n w -> exists v e, get (w_x wf) i = Some v /\ get (w_xequil w) i = Some e /\
      get (w_x w') i = Some (fdiv v (fmul e (w_tau w')))) /\
   (forall i, i < w_p w -> exists v e, get (w_y wf) i = Some v /\ get (w_Aequil w) i = Some e /\
      get (w_y w') i = Some (fdiv v (fmul e (w_tau w')))) /\
   (forall i, i < w_m w -> exists v e, get (w_z wf) i = Some v /\ get (w_Gequil w) i = Some e /\
      get (w_z w') i = Some (fdiv v (fmul e (w_tau w')))) /\
   (forall i, i < w_m w -> exists v e, get (w_s wf) i = Some v /\ get (w_Gequil w) i = Some e /\
      get (w_s w') i = Some (fmul v (fdiv e (w_tau w')))).
Proof.
  intros H M N1 N2. apply solve_inv in H as (wf & c & Sc & P & _ & D); auto.
  destruct D as [(-> & _)|([(_ & -> & _)|(B & ->)] & _)]; try contradiction.
  unfold prob0_of in P. injection P as.
  apply backscale_inv in B as (_ & _ & _ & _ & _ & T & _ & X & Y & Z & S & C).
  apply scaled_c_inv in Sc as (_ & Sc).
  rewrite T.
  assert (Eqs: w_n wf = w_n w /\ w_p wf = w_p w /\ w_m wf = w_m w /\ w_xequil wf = w_xequil w /\
     w_Aequil wf = w_Aequil w /\ w_Gequil wf = w_Gequil w /\ w_c wf = c) by (csplit; assumption).
  destruct Eqs as (En & Ep & Em & Ex & Ea & Eg & Ec).
  rewrite En in X, C. rewrite Ep in Y. rewrite Em in Z, S.
  split; [reflexivity|]. split.
  - intros i Hi. destruct Sc as [Sc _]. destruct (Sc i Hi) as (v & e & V1 & V2 & V3).
    destruct (C i Hi) as (v' & e' & V4 & V5 & V6). rewrite Ec in V4. rewrite Ex in V5.
    exists v, e. csplit; auto. congruence.
  - exists wf. rewrite Ex in X. rewrite Ea in Y. rewrite Eg in Z, S. auto.
Qed.

(* In exact arithmetic the cost vector is the caller's again. *)
Theorem C26_cost_restored_exactly (phi : F -> option R) (H : reads O phi) sig t (w : W) code t' w' :
  ECOS_solve sig t w = Some (code, t', w') -> (0 <= sg_maxit (w_stgs w))%Z ->
  code <> ECOS_OUTCONE -> code <> ECOS_FATAL ->
  forall i v e cv ev, i < w_n w -> get (w_c w) i = Some v -> get (w_xequil w) i = Some e ->
  phi v = Some cv -> phi e = Some ev -> ev <> 0%R ->
  exists v', get (w_c w') i = Some v' /\ phi v' = Some cv.
Proof.
  intros HS M N1 N2 i v e cv ev Hi Gv Ge Pv Pe Ne.
  destruct (C26_normal_exit _ _ _ _ _ _ HS M N1 N2) as (_ & C & _).
  destruct (C i Hi) as (v0 & e0 & A1 & A2 & A3). rewrite Gv in A1. injection A1 as <-.
  rewrite Ge in A2. injection A2 as <-. eexists. split; [exact A3|].
  rewrite (ph_mul _ _ H), (ph_div _ _ H), Pv, Pe.
  cbn. destruct (Req_EM_T ev 0); [contradiction|]. cbn. f_equal. field. auto.
Qed.

(* When solve reports that it left the cone, the library's handler stays in
   place and the cost vector stays scaled: C26 and C36 fail on that path. *)
Theorem C26_outcone_leaves_things_behind sig t (w : W) t' w' :
  ECOS_solve sig t w = Some (ECOS_OUTCONE, t', w') -> (0 <= sg_maxit (w_stgs w))%Z ->
  cc_handler t' = None /\
  (forall i, i < w_n w -> exists v e, get (w_c w) i = Some v /\ get (w_xequil w) i = Some e /\
     get (w_c w') i = Some (fdiv v e)).
Proof.
  intros H M.
  assert (R: t' = init_ctrlc t /\ exists c, scaled_c w c /\ w_n w' = w_n w /\ w_c w' = c).
  { unfold ECOS_solve in H. binv1 H. cbv zeta in H. binv1 H. rename p into w1, v into c.
    apply init_inv in E0 as (_ & P1 & _).
    unfold prob0_of in P1. injection P1 as.
    destruct b; cbn [negb] in H; [|discriminate].
    binv1 H. rename b into ret, z into cd, p0 into w2.
    assert (Sg: w_stgs w1 = w_stgs w) by assumption.
    apply ipm_loop_frame in E0 as Pf.
    apply ipm_loop_codes in E0 as (_ & _ & _ & D); [|rewrite Sg; lia|rewrite Sg; lia].
    destruct ret; [|binv H; injection H as -> _ _; destruct (proj1 D eq_refl)].
    injection H as -> <- <-. split; [reflexivity|]. exists c. unfold prob_of in Pf. injection Pf as.
    csplit; [exact E| |]; etransitivity; eauto. }
  destruct R as (-> & c & Sc & En & Ec). split; [reflexivity|].
  apply scaled_c_inv in Sc as (_ & Sc & _). rewrite Ec. exact Sc.
Qed.
End Exit.

(* ---------------------------------------------------------------- examples *)
Definition on {T} (r : option (pwork spec_float)) (f : pwork spec_float -> option T) : option T :=
  match r with Some w => f w | None => None end.

(* a run that ends normally: optimal after five iterations, the caller's handler
   7 back in place; the hypotheses of C23, C24, C26 hold of it *)
Example ex_normal :
  match on ex_soc (solveF quiet_ user_) with
  | Some (code, t', w') => (code =? 0)%Z && (st_iter (w_info w') =? 5)%Z &&
      match cc_handler t' with Some h => h =? 7 | None => false end
  | None => false
  end = true.
Proof. vm_compute. reflexivity. Qed.

(* the best iterate is replaced on the way: in the same run limited to three
   iterations the one kept comes from a later pass than 0 *)
Example ex_best_replaced :
  match on ex_soc (fun w => solveF quiet_ user_ (set_maxit 3 w)) with
  | Some (code, _, w') => match w_best w' with Some b => (0 <? be_iter b)%Z | None => false end
  | None => false
  end = true.
Proof. vm_compute. reflexivity. Qed.

(* C25 refuted without its proviso: with iteration limit 0 the first call reads
   an iterate that was never saved (undefined behaviour, None) ... *)
Theorem C25_refuted_maxit_0 :
  match ex_soc with
  | Some w => match w_best w, solveF quiet_ user_ (set_maxit 0 w) with None, None => true | _, _ => false end
  | None => false
  end = true.
Proof. vm_compute. reflexivity. Qed.

(* ... and so it does when an interrupt is pending in pass 0 *)
Theorem C25_refuted_interrupt :
  match ex_soc with
  | Some w => match solveF (fun k => (k =? 0)%Z) user_ w with None => true | _ => false end
  | None => false
  end = true.
Proof. vm_compute. reflexivity. Qed.

(* C26, C36 refuted: with the documented setting gamma = 1 the iterate leaves
   the cone in pass 1 (code -3); the handler is the library's, and c = 1 has
   become 0.866... *)
Theorem C26_refuted_outcone :
  match on ex_soc (fun w => solveF quiet_ user_ (set_gamma 1 w)) with
  | Some (code, t', w') => (code =? -3)%Z &&
      match cc_handler t' with Some _ => false | None => true end &&
      match w_c w' with [Some c] => SFltb c (SF_ofQ (9#10)) | _ => false end
  | None => false
  end = true.
Proof. vm_compute. reflexivity. Qed.

(* C26 refuted in binary64 also on a normal exit: dividing c = 1 by 49 and
   multiplying again does not give 1 *)
Theorem C26_refuted_rounding :
  match on ex_49 (solveF quiet_ user_) with
  | Some (code, _, w') => (code =? 0)%Z &&
      match w_c w' with [Some c] => SFltb c (SF_ofZ 1) | _ => false end
  | None => false
  end = true.
Proof. vm_compute. reflexivity. Qed.

Print Assumptions C23_exit_flags.
Print Assumptions C24_best_replaced_by_better.
Print Assumptions C24_replaced_iff_better.
Example nan_differs_binary64 : forall x : @F FOps, feq x fnan = false.
Proof. intros x. destruct x as [[]|[]| |[] m e]; reflexivity. Qed.
Example nan_differs_reals : forall x : @F XOps, feq x fnan = false.
Proof. intros [x|]; reflexivity. Qed.
Print Assumptions C24_restore_brings_back_saved.
Print Assumptions C24_statistics_belong_to_point.
Print Assumptions C25_result_independent_of_stored_iterate.
Print Assumptions C26_data_untouched.
Print Assumptions C26_normal_exit.
Print Assumptions C26_cost_restored_exactly.
Print Assumptions C26_outcone_leaves_things_behind.
