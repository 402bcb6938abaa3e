(* More about the main loop of src/ecos.c, for every arithmetic: exit codes and
   iteration counts without assumptions on the stored iterate, the histories of
   saved iterates, and independence of what was stored before the call. *)
From Coq Require Import List Arith Bool ZArith Lia.
From Verif Require Import Base Num.
From Verif.Model Require Import Spla Types Consts Expcone Cone Ldl Kkt Equil Ecos.
From Verif.Spec Require Import Best.
From Verif.Proofs Require Import ExitP.
Import ListNotations.
Open Scope nat_scope.

Section Loop.
Context {O : Ops}.
Notation W := (pwork F).

Ltac quiet := constructor; reflexivity.

Definition codes : list Z := [0; 1; 2; 10; 11; 12; -1; -2; -3; -4; -7]%Z.

(* the same without FATAL *)
Definition brk : list Z := [0; 1; 2; 10; 11; 12; -1; -2; -3; -4]%Z.
Lemma brk_codes c : In c brk -> In c codes.
Proof. unfold brk, codes. simpl. tauto. Qed.

Lemma tested_codes w mode code : tested w mode code -> mode = 0%Z \/ mode = 10%Z -> In code brk.
Proof.
  unfold tested, ECOS_OPTIMAL, ECOS_DINF, ECOS_PINF, brk. intros [[-> _]|[[-> _]|[-> _]]] [->| ->]; simpl; tauto.
Qed.

Lemma recover_codes w r fb code w' : recover w r fb = Some (code, w') -> In fb brk -> In code brk.
Proof.
  unfold recover. intros H Hf. binv H.
  destruct (checkExitConditions v ECOS_INACC_OFFSET) as [c0 v0] eqn:EC.
  injection H as <- <-. apply checkExit_inv in EC as [_ [(-> & _)|HT]].
  - rewrite Z.eqb_refl. auto.
  - destruct (Z.eqb_spec c0 ECOS_NOT_CONVERGED_YET); auto. eapply tested_codes; eauto.
Qed.

Lemma recover_outcone w r fb w' : recover w r fb = Some (-3, w')%Z -> fb = (-3)%Z.
Proof.
  unfold recover. intros H. binv H.
  destruct (checkExitConditions v ECOS_INACC_OFFSET) as [c0 v0] eqn:EC. injection H as Hc <-.
  apply checkExit_inv in EC as [_ [(-> & _)|HT]]; [rewrite Z.eqb_refl in Hc; auto|].
  destruct (Z.eqb_spec c0 ECOS_NOT_CONVERGED_YET); auto. subst c0.
  unfold tested, ECOS_OPTIMAL, ECOS_DINF, ECOS_PINF, ECOS_INACC_OFFSET in HT.
  destruct HT as [[HT _]|[[HT _]|[HT _]]]; lia.
Qed.

(* SIGINT is only ever the fallback *)
Lemma recover_sigint w r fb w' : recover w r fb = Some (-4, w')%Z -> fb = (-4)%Z.
Proof.
  unfold recover. intros H. binv H.
  destruct (checkExitConditions v ECOS_INACC_OFFSET) as [c0 v0] eqn:EC. injection H as Hc <-.
  apply checkExit_inv in EC as [_ [(-> & _)|HT]]; [rewrite Z.eqb_refl in Hc; auto|].
  destruct (Z.eqb_spec c0 ECOS_NOT_CONVERGED_YET); auto. subst c0.
  unfold tested, ECOS_OPTIMAL, ECOS_DINF, ECOS_PINF, ECOS_INACC_OFFSET in HT.
  destruct HT as [[HT _]|[[HT _]|[HT _]]]; lia.
Qed.

Lemma iter_exit_codes intr pp w v pp' w' : iter_exit intr pp w = Some (v, pp', w') ->
  match v with VBreak code => In code brk | _ => True end.
Proof.
  unfold iter_exit. intros H. binv1 H. binv1 H.
  match type of H with (if ?t then _ else _) = _ => destruct t end.
  { binv H. injection H as <- <- <-. eapply recover_codes; eauto. unfold brk; simpl; tauto. }
  destruct (checkExitConditions v1 0) as [code w2] eqn:EC.
  apply checkExit_inv in EC as [Q HT].
  destruct (Z.eqb_spec code ECOS_NOT_CONVERGED_YET) as [Ec|Ec]; cbn [negb] in H.
  2:{ injection H as <- <- <-. destruct HT as [(Hc & _)|HT]; [congruence|]. eapply tested_codes; eauto. }
  match type of H with (if ?t then _ else _) = _ => destruct t end.
  { binv H. injection H as <- <- <-. eapply recover_codes; eauto. unfold brk; simpl; tauto. }
  match type of H with (if ?t then _ else _) = _ => destruct t end.
  { binv H. injection H as <- <- <-. eapply recover_codes; eauto. destruct intr; unfold brk; simpl; tauto. }
  match type of H with (if ?t then _ else _) = _ => destruct t end.
  { binv H. injection H as <- <- <-. eapply recover_codes; eauto. unfold brk; simpl; tauto. }
  injection H as <- _ _. exact I.
Qed.

Lemma iter_exit_sigint intr pp w pp' w' : iter_exit intr pp w = Some (VBreak (-4), pp', w')%Z -> intr = true.
Proof.
  unfold iter_exit. intros H. destruct intr; auto. exfalso. binv1 H. binv1 H.
  match type of H with (if ?t then _ else _) = _ => destruct t end.
  { binv H. injection H as ? _ _; subst. match goal with K : recover _ _ _ = _ |- _ => apply recover_sigint in K end. discriminate. }
  destruct (checkExitConditions v0 0) as [code w2] eqn:EC.
  apply checkExit_inv in EC as [Q HT].
  destruct (Z.eqb_spec code ECOS_NOT_CONVERGED_YET) as [Ec|Ec]; cbn [negb] in H.
  2:{ injection H as ? _ _; subst. destruct HT as [(Hc & _)|HT]; [discriminate Hc|].
      unfold tested, ECOS_OPTIMAL, ECOS_DINF, ECOS_PINF in HT. destruct HT as [[HT _]|[[HT _]|[HT _]]]; lia. }
  match type of H with (if ?t then _ else _) = _ => destruct t end.
  { binv H. injection H as ? _ _; subst. match goal with K : recover _ _ _ = _ |- _ => apply recover_sigint in K end. discriminate. }
  match type of H with (if ?t then _ else _) = _ => destruct t end.
  { binv H. injection H as ? _ _; subst. match goal with K : recover _ _ _ = _ |- _ => apply recover_sigint in K end. discriminate. }
  match type of H with (if ?t then _ else _) = _ => destruct t end.
  { binv H. injection H as ? _ _; subst. match goal with K : recover _ _ _ = _ |- _ => apply recover_sigint in K end. discriminate. }
  discriminate.
Qed.

Lemma iter_exit_outcone intr pp w pp' w' : iter_exit intr pp w = Some (VBreak (-3), pp', w')%Z -> False.
Proof.
  unfold iter_exit. intros H. binv1 H. binv1 H.
  match type of H with (if ?t then _ else _) = _ => destruct t end.
  { binv H. injection H as ? _ _; subst. match goal with K : recover _ _ _ = _ |- _ => apply recover_outcone in K end; try destruct intr; discriminate. }
  destruct (checkExitConditions v0 0) as [code w2] eqn:EC.
  apply checkExit_inv in EC as [Q HT].
  destruct (Z.eqb_spec code ECOS_NOT_CONVERGED_YET) as [Ec|Ec]; cbn [negb] in H.
  2:{ injection H as ? _ _; subst. destruct HT as [(Hc & _)|HT]; [discriminate Hc|].
      unfold tested, ECOS_OPTIMAL, ECOS_DINF, ECOS_PINF in HT. destruct HT as [[HT _]|[[HT _]|[HT _]]]; lia. }
  match type of H with (if ?t then _ else _) = _ => destruct t end.
  { binv H. injection H as ? _ _; subst. match goal with K : recover _ _ _ = _ |- _ => apply recover_outcone in K end; try destruct intr; discriminate. }
  match type of H with (if ?t then _ else _) = _ => destruct t end.
  { binv H. injection H as ? _ _; subst. match goal with K : recover _ _ _ = _ |- _ => apply recover_outcone in K end; try destruct intr; discriminate. }
  match type of H with (if ?t then _ else _) = _ => destruct t end.
  { binv H. injection H as ? _ _; subst. match goal with K : recover _ _ _ = _ |- _ => apply recover_outcone in K end; try destruct intr; discriminate. }
  discriminate.
Qed.

(* what a step does to the bookkeeping, whatever is stored *)
Lemma iter_step_frame w v w' : iter_step w = Some (v, w') ->
  prob_of w' = prob_of w /\ best_of w' = best_of w /\ st_iter (w_info w') = st_iter (w_info w) /\
  match v with
  | VGo => True
  | VBreak code => In code brk /\ code <> (-4)%Z /\ code <> (-3)%Z
  | VReturn code => code = ECOS_FATAL \/ code = ECOS_OUTCONE
  end.
Proof.
  unfold iter_step. intros H. binv1 H.
  set (w1 := set_w_lambda (set_w_C w c) l) in *.
  assert (Q1: Quiet w w1) by (subst w1; quiet). destruct Q1 as [P1 B1 Pt1 S1 I1].
  destruct b.
  { binv1 H. destruct (checkExitConditions v0 ECOS_INACC_OFFSET) as [code w2] eqn:EC.
    injection H as <- <-.
    apply restore_inv in E0 as (P & Bo & _ & _ & I & _).
    apply checkExit_inv in EC as [Q HT]. destruct Q as [QP QB QPt QS QI].
    csplit; try congruence.
    destruct HT as [(Ec & Ev & T1 & T2 & T3)|HT].
    - subst code. rewrite Z.eqb_refl. auto.
    - apply tested_code in HT as Hn; [|unfold ECOS_INACC_OFFSET; lia].
      apply Z.eqb_neq in Hn. rewrite Hn. split; [eapply tested_codes; eauto|].
      unfold tested, ECOS_OPTIMAL, ECOS_DINF, ECOS_PINF, ECOS_INACC_OFFSET in HT.
      destruct HT as [[HT _]|[[HT _]|[HT _]]]; split; lia. }
  binv1 H. binv1 H.
  match type of H with context [set_w_KKT w1 ?k] => set (w2 := set_w_KKT w1 k) in * end.
  assert (Q2: Quiet w1 w2) by (subst w2; quiet).
  destruct b; cbn [negb] in H.
  2:{ injection H as <- <-. destruct Q2. csplit; auto; congruence. }
  binv1 H. apply solve1_quiet in E2.
  binv1 H. apply affine_dir_quiet in E3.
  binv1 H. apply combined_dir_quiet in E4.
  assert (Q: Quiet w1 p1) by (eauto using Quiet_trans).
  destruct Q as [P5 B5 Pt5 S5 I5].
  destruct b; cbn [negb] in H.
  - binv H. injection H as <- <-. unfold take_step in E5. binv E5. injection E5 as <-.
    csplit; [transitivity (prob_of p1); [reflexivity|congruence] | transitivity (best_of p1); [reflexivity|congruence] | wcbn; congruence | exact I].
  - binv H. injection H as <- <-.
    pose proof (recover_codes _ _ _ _ _ E5) as Hc. pose proof (recover_frame _ _ _ _ _ E5) as [Pf If].
    csplit; try congruence.
    + unfold recover in E5. binv E5. destruct (checkExitConditions v ECOS_INACC_OFFSET) eqn:EC. injection E5 as <- <-.
      apply checkExit_inv in EC as [[QP QB QPt QS QI] _]. apply restore_inv in E6 as (_ & Bo & _). congruence.
    + apply Hc; unfold brk; simpl; tauto.
    + intros ->. apply recover_sigint in E5. discriminate.
    + intros ->. apply recover_outcone in E5. discriminate.
Qed.

Lemma ipm_loop_codes fuel : forall sig iter pp ec w ret code w',
  ipm_loop fuel sig iter pp ec w = Some (ret, code, w') ->
  (Z.of_nat fuel = Z.max 0 (sg_maxit (w_stgs w) + 1 - iter))%Z -> (0 < fuel)%nat ->
  In code codes /\ (iter <= st_iter (w_info w') <= sg_maxit (w_stgs w))%Z /\
  (code = -4 -> exists k, iter <= k <= sg_maxit (w_stgs w) /\ sig k = true)%Z /\
  (if ret : bool then code = ECOS_FATAL \/ code = ECOS_OUTCONE else code <> ECOS_OUTCONE /\ In code brk).
Proof.
  induction fuel as [|fuel IH]; intros sig iter pp ec w ret code w' H Hf H0; [lia|].
  cbn [ipm_loop] in H. binv1 H. rename p0 into p.
  pose proof (iter_exit_codes _ _ _ _ _ _ E) as C1.
  pose proof (iter_exit_frame _ _ _ _ _ _ E) as (P1 & I1 & V1).
  change (st_iter (w_info (set_info w (fun i => set_st_iter i iter)))) with iter in I1.
  change (prob_of (set_info w (fun i => set_st_iter i iter))) with (prob_of w) in P1.
  destruct v.
  3:{ destruct V1. }
  2:{ injection H as <- <- <-. csplit; auto; try lia.
      - apply brk_codes; auto.
      - intros ->. exists iter. split; [lia|].
        eapply iter_exit_sigint; eauto.
      - intros ->. eapply iter_exit_outcone; eauto. }
  destruct V1 as (_ & Bo1 & V1 & _).
  change (iter <> sg_maxit (w_stgs w))%Z in V1.
  binv1 H.
  assert (P2: prob_of v = prob_of p /\ st_iter (w_info v) = st_iter (w_info p)).
  { unfold iter_save in E0. match type of E0 with (if ?t then _ else _) = _ => destruct t end.
    - apply save_inv in E0 as (A1 & _ & A2 & _). split; congruence.
    - binv E0. destruct v0; [|injection E0 as <-; auto].
      apply save_inv in E0 as (A1 & _ & A2 & _). split; congruence. }
  destruct P2 as [P2 I2].
  binv1 H. apply iter_step_frame in E1 as (P3 & _ & I3 & V3).
  assert (P4: prob_of p0 = prob_of w) by congruence.
  destruct (prob_dims _ _ P4) as (_ & _ & _ & Sg).
  destruct v0.
  - apply IH in H; [|rewrite Sg; lia|lia]. rewrite Sg in H. destruct H as (A & B & C & D).
    csplit; auto; try lia. intros Hc. destruct (C Hc) as (k & ? & ?). exists k. split; [lia|auto].
  - injection H as <- <- <-. destruct V3 as (V3 & V4 & V5). csplit; auto using brk_codes; try lia.
  - injection H as <- <- <-. csplit; auto; try lia.
    + destruct V3 as [->| ->]; unfold codes; simpl; tauto.
    + intros ->. destruct V3; discriminate.
Qed.

Lemma iter_save_frame w w' : iter_save w = Some w' ->
  prob_of w' = prob_of w /\ st_iter (w_info w') = st_iter (w_info w).
Proof.
  unfold iter_save. intros H. match type of H with (if ?t then _ else _) = _ => destruct t end.
  - apply save_inv in H as (A1 & _ & A2 & _). split; congruence.
  - binv H. destruct v; [|injection H as <-; auto].
    apply save_inv in H as (A1 & _ & A2 & _). split; congruence.
Qed.

Lemma ipm_loop_frame fuel : forall sig iter pp ec w ret code w',
  ipm_loop fuel sig iter pp ec w = Some (ret, code, w') -> prob_of w' = prob_of w.
Proof.
  induction fuel as [|fuel IH]; intros sig iter pp ec w ret code w' H; cbn [ipm_loop] in H.
  - injection H as _ _ <-. reflexivity.
  - binv1 H. apply iter_exit_frame in E as (P1 & _ & V1).
    change (prob_of (set_info w (fun i => set_st_iter i iter))) with (prob_of w) in P1.
    destruct v; [|injection H as _ _ <-; auto|destruct V1].
    binv1 H. apply iter_save_frame in E as (P2 & _).
    binv1 H. apply iter_step_frame in E as (P3 & _ & _ & _).
    destruct v0; [apply IH in H|injection H as _ _ <-|injection H as _ _ <-]; congruence.
Qed.

(* ----------------------------------------------------- saved iterates *)
Lemma compare_true (A : stats F) (B : best F) : compareStatistics A B = true ->
  flt (st_gap A) (be_gap B) = true /\ flt (st_mu A) (be_mu B) = true.
Proof.
  unfold compareStatistics, cmp_branch1, cmp_branch2, cmp_branch3.
  intros H. destruct (negb _ && _); [destruct (negb _)|];
  repeat (apply andb_prop in H as [H ?]);
  repeat match goal with K : (_ && _)%bool = true |- _ => apply andb_prop in K as [? ?] end; auto.
Qed.

Lemma compare_iff (NN : forall x : F, feq x fnan = false) (A : stats F) (B : best F) : compareStatistics A B = true <-> improves A B.
Proof.
  unfold compareStatistics, cmp_branch1, cmp_branch2, cmp_branch3, improves, below. rewrite !NN. cbn [negb andb].
  destruct (flt f1 (st_kapovert A)); rewrite !andb_true_iff; intuition congruence.
Qed.

(* states of the main loop: [iterates sig w k pp w'] when the k-th pass through
   the loop of the run on w starts in w' *)
Inductive iterates (sig : Z -> bool) (w : W) : Z -> F -> W -> Prop :=
| it_start c w1 : scaled_c w c -> init (set_w_c w c) = Some (true, w1) -> iterates sig w 0 fnan w1
| it_next k pp w1 pp' w2 w3 w4 : iterates sig w k pp w1 ->
    iter_exit (sig k) pp (set_info w1 (fun i => set_st_iter i k)) = Some (VGo, pp', w2) ->
    iter_save w2 = Some w3 -> iter_step w3 = Some (VGo, w4) ->
    iterates sig w (k + 1) pp' w4.

Lemma iterates_nonneg sig w k pp w' : iterates sig w k pp w' -> (0 <= k)%Z.
Proof. induction 1; lia. Qed.

(* one more pass: the saved iterate stays, or is replaced by a better one *)
Lemma iterates_step sig w k pp w1 pp' w2 w3 w4 : iterates sig w k pp w1 ->
  iter_exit (sig k) pp (set_info w1 (fun i => set_st_iter i k)) = Some (VGo, pp', w2) ->
  iter_save w2 = Some w3 -> iter_step w3 = Some (VGo, w4) ->
  exists b', w_best w4 = Some b' /\
    (be_iter b' = k /\ be_summ b' = summ w2 /\ be_kap b' = w_kap w2 /\ be_tau b' = w_tau w2 /\
     (k = 0%Z \/ exists b, w_best w1 = Some b /\ flt (be_gap b') (be_gap b) = true /\ flt (be_mu b') (be_mu b) = true) \/
     (0 < k)%Z /\ w_best w1 = Some b').
Proof.
  intros H H1 H2 H3. pose proof (iterates_nonneg _ _ _ _ _ H) as Hk.
  apply iter_exit_frame in H1 as (P1 & I1 & _ & Bo1 & _).
  apply iter_step_frame in H3 as (P3 & Bo3 & I3 & _).
  change (st_iter (w_info (set_info w1 (fun i => set_st_iter i k)))) with k in I1.
  change (best_of (set_info w1 (fun i => set_st_iter i k))) with (best_of w1) in Bo1.
  unfold best_of in Bo1, Bo3. injection Bo1 as. injection Bo3 as.
  unfold iter_save in H2. rewrite I1 in H2. destruct (Z.eqb_spec k 0) as [->|Nk].
  - apply save_inv in H2 as (_ & _ & _ & _ & _ & _ & _ & _ & _ & _ & _ & b & B1 & B2 & B3 & B4 & B5).
    exists b. split; [congruence|]. left. csplit; auto; congruence.
  - binv1 H2. unfold better in E. binv1 E. injection E as Hv. destruct v.
    + apply save_inv in H2 as (_ & _ & _ & _ & _ & _ & _ & _ & _ & _ & _ & b & B1 & B2 & B3 & B4 & B5).
      exists b. split; [congruence|]. left. csplit; auto; try congruence.
      right. exists v0. split; [congruence|].
      apply compare_true in Hv. unfold be_summ, summ, be_core, st_core in B4. injection B4 as.
      repeat match goal with K : be_gap _ = _ |- _ => rewrite K | K : be_mu _ = _ |- _ => rewrite K end. auto.
    + injection H2 as <-. exists v0. split; [congruence|]. right. split; [lia|congruence].
Qed.

(* --------------------------------- independence of what was stored before *)
Definition set_bests (w : W) bx by_ bz bs bb : W :=
  set_w_best (set_w_best_s (set_w_best_z (set_w_best_y (set_w_best_x w bx) by_) bz) bs) bb.

Lemma bind_omap {A B B'} (g : B -> B') (m : option A) k k' :
  (forall v, m = Some v -> k' v = option_map g (k v)) -> bind m k' = option_map g (bind m k).
Proof. intros H. destruct m as [v|]; cbn; auto. Qed.

Section NI.
Variables (bx by_ bz bs : arr F) (bb : option (best F)).
Notation sb := (fun w => set_bests w bx by_ bz bs bb).
Ltac go := unfold set_bests; wcbn;
  repeat (apply bind_omap; intros; dprod; wcbn; cbv zeta; unfold set_info; wcbn); try reflexivity.

Lemma computeResiduals_sb w : computeResiduals (sb w) = option_map sb (computeResiduals w).
Proof.
  unfold computeResiduals, set_bests. wcbn.
  repeat (apply bind_omap; intros; dprod). 
  all: try reflexivity.
Qed.

Lemma updateStatistics_sb w : updateStatistics (sb w) = option_map sb (updateStatistics w).
Proof.
  unfold updateStatistics, set_bests. wcbn.
  repeat (apply bind_omap; intros; dprod); try reflexivity.
Qed.

Lemma init_rhs_sb w : init_rhs (sb w) = option_map sb (init_rhs w).
Proof.
  unfold init_rhs, set_bests. wcbn.
  repeat (apply bind_omap; intros; dprod); try reflexivity.
Qed.
Definition sb2 (p : bool * W) : bool * W := (fst p, sb (snd p)).
Lemma init_mehrotra_sb w : init_mehrotra (sb w) = option_map sb2 (init_mehrotra w).
Proof.
  unfold init_mehrotra, set_bests. wcbn.
  repeat (apply bind_omap; intros; dprod).
  destruct b; cbn [negb]; [|reflexivity].
  repeat (apply bind_omap; intros; dprod); try reflexivity.
Qed.
Lemma init_unit_sb w : init_unit (sb w) = option_map sb (init_unit w).
Proof.
  unfold init_unit, set_bests. wcbn.
  repeat (apply bind_omap; intros; dprod); try reflexivity.
Qed.
Lemma init_sb w : init (sb w) = option_map sb2 (init w).
Proof.
  unfold init. rewrite init_rhs_sb. destruct (init_rhs w) as [w1|]; [|reflexivity].
  cbn [option_map bind].
  change (nexc (w_C (set_bests w1 bx by_ bz bs bb))) with (nexc (w_C w1)).
  rewrite init_mehrotra_sb, init_unit_sb.
  assert (E: forall m : option (bool * W), 
    bind (option_map sb2 m) (fun '(ok, w0) => if negb ok then Some (false, w0) else
      bind (scatter (kk_Pinv (w_KKT w0)) 0 (w_n w0) (fun i => bind (get (w_c w0) i) (fun c => Some (fneg c))) (kk_RHS1 (w_KKT w0)))
       (fun R1 => Some (true, set_info (set_w_tau (set_w_kap (set_w_KKT w0 (set_kk_RHS1 (w_KKT w0) R1)) f1) f1)
          (fun i => set_st_pinf (set_st_dinf (set_st_step_aff (set_st_step i f0) f0) f0) f0)))) =
    option_map sb2 (bind m (fun '(ok, w0) => if negb ok then Some (false, w0) else
      bind (scatter (kk_Pinv (w_KKT w0)) 0 (w_n w0) (fun i => bind (get (w_c w0) i) (fun c => Some (fneg c))) (kk_RHS1 (w_KKT w0)))
       (fun R1 => Some (true, set_info (set_w_tau (set_w_kap (set_w_KKT w0 (set_kk_RHS1 (w_KKT w0) R1)) f1) f1)
          (fun i => set_st_pinf (set_st_dinf (set_st_step_aff (set_st_step i f0) f0) f0) f0)))))).
  { intros [[ok w0]|]; [|reflexivity]. cbn [option_map bind sb2 fst snd]. destruct ok; [|reflexivity].
    cbn [negb]. unfold set_bests. wcbn. apply bind_omap. intros. reflexivity. }
  destruct (Nat.eqb (nexc (w_C w1)) 0).
  - apply E.
  - rewrite <- E. f_equal. destruct (init_unit w1); reflexivity.
Qed.

Lemma backscale_sb w : backscale (sb w) = option_map sb (backscale w).
Proof.
  unfold backscale, set_bests. wcbn.
  repeat (apply bind_omap; intros; dprod); try reflexivity.
Qed.

Lemma tests_sb w mode :
  test_optimal (set_bests w bx by_ bz bs bb) mode = test_optimal w mode /\
  test_dinf (set_bests w bx by_ bz bs bb) mode = test_dinf w mode /\
  test_pinf (set_bests w bx by_ bz bs bb) mode = test_pinf w mode.
Proof. unfold test_optimal, test_dinf, test_pinf, set_bests. wcbn. auto. Qed.

Lemma set_flags_sb w a b : set_flags (sb w) a b = sb (set_flags w a b).
Proof. unfold set_flags, set_bests. wcbn. reflexivity. Qed.

Lemma checkExit_sb w mode : checkExitConditions (sb w) mode =
  (fst (checkExitConditions w mode), sb (snd (checkExitConditions w mode))).
Proof.
  unfold checkExitConditions.
  destruct (tests_sb w mode) as (-> & -> & ->). rewrite !set_flags_sb.
  destruct (test_optimal w mode), (test_dinf w mode), (test_pinf w mode); reflexivity.
Qed.

(* the statistics of the starting point *)
Definition first_eval (w : W) : option W := w <- computeResiduals w ;; updateStatistics w.

Definition sb3 (p : verdict * F * W) : verdict * F * W := (fst p, sb (snd p)).
Lemma iter_exit_sb pp w : st_iter (w_info w) = 0%Z -> sg_maxit (w_stgs w) <> 0%Z ->
  (forall w2, first_eval w = Some w2 -> fisnan (st_pcost (w_info w2)) = false) ->
  iter_exit false pp (sb w) = option_map sb3 (iter_exit false pp w).
Proof.
  intros I0 M0 N0. unfold first_eval in N0. unfold iter_exit. rewrite computeResiduals_sb.
  destruct (computeResiduals w) as [w1|] eqn:E1; [|reflexivity]. cbn [option_map bind] in *.
  rewrite updateStatistics_sb. destruct (updateStatistics w1) as [w2|] eqn:E2; [|reflexivity]. cbn [option_map bind] in *.
  specialize (N0 _ eq_refl).
  apply computeResiduals_frame in E1 as (P1 & _ & _ & I1).
  apply updateStatistics_frame in E2 as (P2 & _ & _ & I2 & _).
  assert (I3: st_iter (w_info w2) = 0%Z) by congruence.
  assert (M3: sg_maxit (w_stgs w2) <> 0%Z).
  { destruct (prob_dims _ _ P1) as (_ & _ & _ & S1). destruct (prob_dims _ _ P2) as (_ & _ & _ & S2). congruence. }
  change (w_info (set_bests w2 bx by_ bz bs bb)) with (w_info w2). rewrite I3. cbn [Z.ltb Z.compare andb].
  rewrite checkExit_sb. destruct (checkExitConditions w2 0) as [code w3] eqn:EC.
  apply checkExit_inv in EC as [[QP _ _ _ _] _]. cbn [fst snd].
  destruct (negb _); [reflexivity|].
  change (w_stgs (set_bests w3 bx by_ bz bs bb)) with (w_stgs w3).
  destruct (prob_dims _ _ QP) as (_ & _ & _ & ->).
  destruct (Z.eqb_spec 0 (sg_maxit (w_stgs w2))); [congruence|]. cbn [orb].
  rewrite N0. reflexivity.
Qed.

Lemma copy_any n (src d d' : arr F) : length d = n -> length d' = n -> copy n src d = copy n src d'.
Proof.
  intros L L'. 
  assert (H: forall k, k <= n -> forall d d' : arr F, length d = n -> length d' = n ->
    (forall i, i < n - k -> get d i = get d' i) ->
    for_loop (n - k) k (fun i d => v <- get src i ;; set d i v) d = for_loop (n - k) k (fun i d => v <- get src i ;; set d i v) d').
  { clear. induction k; intros Hk d d' L L' A.
    - cbn [for_loop]. f_equal. apply arr_ext; [lia|]. intros i. destruct (Nat.lt_ge_cases i n).
      + apply A. lia.
      + destruct (get d i) eqn:E; [apply get_lt in E; lia|]. destruct (get d' i) eqn:E'; [apply get_lt in E'; lia|]. auto.
    - cbn [for_loop]. destruct (get src (n - Datatypes.S k)) as [v|]; [|reflexivity]. cbn [bind].
      rewrite !set_ok by lia. cbn [bind].
      replace (Datatypes.S (n - Datatypes.S k)) with (n - k) by lia.
      apply IHk; rewrite ?upd_length; try lia. intros i Hi. rewrite !get_upd by lia.
      destruct (Nat.eqb_spec i (n - Datatypes.S k)); auto. apply A. lia. }
  unfold copy, for_. rewrite Nat.sub_0_r. specialize (H n ltac:(lia) d d' L L'). rewrite Nat.sub_diag in H.
  apply H. intros; lia.
Qed.

Lemma save_sb w : length (w_best_x w) = w_n w -> length (w_best_y w) = w_p w ->
  length (w_best_z w) = w_m w -> length (w_best_s w) = w_m w ->
  length bx = w_n w -> length by_ = w_p w -> length bz = w_m w -> length bs = w_m w ->
  saveIterateAsBest (sb w) = saveIterateAsBest w.
Proof.
  intros. unfold saveIterateAsBest, set_bests. wcbn.
  rewrite (copy_any _ _ bx (w_best_x w)) by auto.
  rewrite (copy_any _ _ by_ (w_best_y w)) by auto.
  rewrite (copy_any _ _ bz (w_best_z w)) by auto.
  rewrite (copy_any _ _ bs (w_best_s w)) by auto.
  reflexivity.
Qed.
End NI.

Definition strip (r : Z * ctrlc * W) : Z * ctrlc * W := (fst r, set_bests (snd r) [] [] [] [] None).

(* At the end of the first pass everything stored by an earlier run is gone,
   unless the first pass ended the run by reading it. *)
Theorem solve_sb sig t w bx by_ bz bs bb :
  length (w_best_x w) = w_n w -> length (w_best_y w) = w_p w ->
  length (w_best_z w) = w_m w -> length (w_best_s w) = w_m w ->
  length bx = w_n w -> length by_ = w_p w -> length bz = w_m w -> length bs = w_m w ->
  sig 0%Z = false -> sg_maxit (w_stgs w) <> 0%Z ->
  (forall c w1 w2, scaled_c w c -> init (set_w_c w c) = Some (true, w1) ->
     first_eval (set_info w1 (fun i => set_st_iter i 0)) = Some w2 -> fisnan (st_pcost (w_info w2)) = false) ->
  option_map strip (ECOS_solve sig t (set_bests w bx by_ bz bs bb)) = option_map strip (ECOS_solve sig t w).
Proof.
  intros L1 L2 L3 L4 K1 K2 K3 K4 S0 M0 N0.
  unfold ECOS_solve.
  set (sb := fun w => set_bests w bx by_ bz bs bb).
  change (w_n (set_bests w bx by_ bz bs bb)) with (w_n w).
  change (w_xequil (set_bests w bx by_ bz bs bb)) with (w_xequil w).
  change (w_c (set_bests w bx by_ bz bs bb)) with (w_c w).
  match goal with |- option_map strip (bind ?m _) = _ => destruct m as [c|] eqn:EC end; [|cbn [bind option_map]; reflexivity]. cbn [bind].
  change (set_w_c (set_bests w bx by_ bz bs bb) c) with (sb (set_w_c w c)).
  unfold sb at 1. rewrite init_sb. destruct (init (set_w_c w c)) as [[ok w1]|] eqn:EI; [|cbn [bind option_map]; reflexivity].
  cbn [option_map bind sb2 fst snd]. destruct ok; [|cbn [bind option_map]; reflexivity]. cbn [negb].
  specialize (N0 c w1).
  pose proof (init_inv _ _ _ EI) as (B1 & P1 & _).
  assert (D: w_n w1 = w_n w /\ w_p w1 = w_p w /\ w_m w1 = w_m w /\ w_stgs w1 = w_stgs w).
  { unfold prob0_of in P1. injection P1 as. csplit; assumption. }
  assert (Bx: w_best_x w1 = w_best_x w /\ w_best_y w1 = w_best_y w /\ w_best_z w1 = w_best_z w /\ w_best_s w1 = w_best_s w).
  { unfold best_of in B1. injection B1 as. csplit; assumption. }
  clear B1 P1. destruct D as (D1 & D2 & D3 & Sg), Bx as (Bx1 & Bx2 & Bx3 & Bx4).
  change (w_stgs (set_bests w1 bx by_ bz bs bb)) with (w_stgs w1).
  rewrite Sg.
  destruct (Z.to_nat (sg_maxit (w_stgs w) + 1)) as [|fuel].
  - cbn [ipm_loop bind]. 
    change (set_info (set_bests w1 bx by_ bz bs bb) (fun i => set_st_iter i 0)) with
      (set_bests (set_info w1 (fun i => set_st_iter i 0)) bx by_ bz bs bb).
    rewrite backscale_sb. match goal with |- context [backscale ?a] => destruct (backscale a) end; reflexivity.
  - cbn [ipm_loop].
    change (set_info (set_bests w1 bx by_ bz bs bb) (fun i => set_st_iter i 0)) with
      (set_bests (set_info w1 (fun i => set_st_iter i 0)) bx by_ bz bs bb).
    rewrite S0. rewrite iter_exit_sb.
    2: reflexivity. 2:{ change (sg_maxit (w_stgs w1) <> 0%Z). rewrite Sg. exact M0. } 2:{ intros w2 Hw2. eapply N0; eauto. }
    match goal with |- context [iter_exit false ?a ?b] => destruct (iter_exit false a b) as [[[v pp] w2]|] eqn:EX end; [|cbn [bind option_map]; reflexivity].
    cbn [option_map bind sb3 fst snd].
    apply iter_exit_frame in EX as (P2 & I2 & V2).
    destruct v.
    + destruct V2 as (_ & B2 & _).
      assert (SV: iter_save (set_bests w2 bx by_ bz bs bb) = iter_save w2).
      { unfold iter_save. change (w_info (set_bests w2 bx by_ bz bs bb)) with (w_info w2).
        rewrite I2. cbn [Z.eqb].
        change (best_of w2 = best_of w1) in B2. change (prob_of w2 = prob_of w1) in P2.
        unfold best_of in B2. injection B2 as. unfold prob_of in P2. injection P2 as.
        apply save_sb; congruence. }
      rewrite SV. reflexivity.
    + cbn [bind]. rewrite backscale_sb. destruct (backscale w2); reflexivity.
    + destruct V2.
Qed.
End Loop.
