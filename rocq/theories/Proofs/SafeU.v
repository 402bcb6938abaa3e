(* The functions of ecos.c on a workspace, last part: a whole iteration, the
   main loop and ECOS_solve. *)
From Coq Require Import List Arith Bool ZArith Lia.
From Verif Require Import Base Num.
From Verif.Model Require Import Spla Splamm Types Consts Expcone Cone Ldl Kkt Equil Preproc Ecos.
From Verif.Spec Require Import Matrix Fill KktSpec KktMatrix Shape SetupSpec.
From Verif.Proofs Require Import SplaP LoopLib SplammP LdlSym LdlNum KktAsm KktMat ConeP ScalP Scal2P LineP KktUpd Layout EquilP Work WorkUpd
  SafeLib Stretch SafeK KktErr SafeE SafeW SafeV ExitP LoopP.
From Verif.Properties Require Import Kkt.
Import ListNotations.
Open Scope nat_scope.

Section SafeU.
Context `{O : Ops}.
Variable L : lay.
Hypothesis H1 : forall d, In d (ly_q L) -> 1 <= d.
Notation n := (ly_n L).
Notation p := (ly_p L).
Notation m := (ly_m L).
Notation N := (ly_nK L).
Notation W := (pwork F).

Definition rhs_full (w : W) : Prop := full (kk_RHS1 (w_KKT w)) N /\ full (kk_RHS2 (w_KKT w)) N.
Definition okw (w : W) : Prop := exists lpv soc ex, ws L lpv soc ex w.

Lemma ws_restate lpv soc ex lpv' soc' ex' w K : ws L lpv soc ex w -> kws L lpv' soc' ex' K -> ws L lpv' soc' ex' (set_w_KKT w K).
Proof.
  intros WS KW'. pose proof (ws_K _ _ _ _ _ WS) as KW.
  pose proof (ly_same L lpv soc ex lpv' soc' ex' (kw_q _ _ _ _ _ KW) (kw_q _ _ _ _ _ KW') (kw_e _ _ _ _ _ KW) (kw_e _ _ _ _ _ KW')) as SP.
  destruct WS; constructor; wcbn; auto; [eapply indexed_same; eauto|eapply dws_same; eauto].
Qed.

Lemma iter_step_safe lpv soc ex w (Q : verdict * W -> Prop) : ws L lpv soc ex w -> at_pt L w -> residuals L w -> best_ok L w -> w_best w <> None -> rhs_full w ->
  (forall v w', okw w' -> at_pt L w' -> key w' = key w -> (v = VGo -> rhs_full w') -> (forall c, v = VReturn c -> c = ECOS_OUTCONE) -> Q (v, w')) ->
  wp (iter_step w) Q.
Proof.
  intros WS PT RE BO WB [R1 R2] HQ. unfold iter_step. pose proof PT as [PX PY PZ PS]. pose proof (ws_K _ _ _ _ _ WS) as KW.
  pose proof (ws_msize L WS) as EM. pose proof (ws_hm L WS) as HM.
  destruct (updateScalings_eq (w_C w) (w_s w) (w_z w) (gd f0 (w_s w)) (gd f0 (w_z w)) (w_lambda w) (st_mu (w_info w))) as (C' & la & Eu & SIM & Ll & HT & HF);
    [apply (co_shape _ _ _ _ (ws_C _ _ _ _ _ WS))|rewrite EM; apply full_vecd; auto|rewrite EM; apply full_vecd; auto|destruct WS; lia|].
  wb. apply (wp_intro _ _ _ Eu). cbv beta iota. clear Eu. cbv zeta.
  set (w1 := set_w_lambda _ _). assert (WS1 : ws L lpv soc ex w1) by (pose proof (ws_cone L lpv soc ex w C' WS SIM) as WC; pose proof (ws_ll _ _ _ _ _ WS) as Lla; rewrite <- Ll in Lla; unfold w1; clear - WC Lla; destruct WC; constructor; wcbn; assumption).
  assert (PT1 : at_pt L w1) by (destruct PT; constructor; auto).
  assert (BO1 : best_ok L w1) by (eapply best_key; [|exact BO]; reflexivity).
  wif T.
  - wb. apply (restore_safe L lpv soc ex); auto. intros w2 [WS2 PT2 KY2 EK2 EC2].
    destruct (chk_ok w2 ECOS_INACC_OFFSET) as (code & i & -> & Hi). apply (wp_intro _ _ _ eq_refl). apply HQ.
    + exists lpv, soc, ex. apply ws_info; auto.
    + apply pt_info; auto.
    + assert (KY : key w2 = key w) by exact KY2. rewrite <- KY. unfold key. wcbn. rewrite Hi. reflexivity.
    + destruct (code =? _)%Z; discriminate.
    + intros c Hc. destruct (code =? _)%Z; congruence.
  - destruct (HF eq_refl) as (UP & FI). clear HF HT. pose proof (updated_scaled _ _ _ _ UP) as SC.
    pose proof (ws_C _ _ _ _ _ WS1) as CO1. pose proof (ws_ix _ _ _ _ _ WS1) as IX1.
    wb. change (w_C w1) with C' in *. change (w_KKT w1) with (w_KKT w) in *. change (w_stgs w1) with (w_stgs w).
    apply wp_conseq with (P := fun pr' => length pr' = length (sp_pr (kk_PKPt (w_KKT w))) /\
       kws L (lp_scaled C') (soc_vals C') (exp_vals C') (set_kk_PKPt (w_KKT w) (with_pr (kk_PKPt (w_KKT w)) pr')));
      [apply (kws_update_wp L lpv soc ex); auto; apply scaled_ready; auto|].
    intros pr' [Lp KW1]. cbv beta iota. wb. pose proof (ws_dat _ _ _ _ _ WS1) as DW.
    apply (kkt_factor_wp L (lp_scaled C') (soc_vals C') (exp_vals C') _ _ _ _ _ _ _ _ _ KW1 H1 DW).
    intros K2 KW2 FA2 ER1 ER2 _ _ _. cbv beta iota. cbn [negb].
    assert (GO : going L (lp_scaled C') (soc_vals C') (exp_vals C') (set_w_KKT w1 K2)).
    { constructor; wcbn; auto.
      - apply (ws_restate lpv soc ex); auto.
      - destruct PT1; constructor; auto.
      - destruct RE; constructor; auto.
      - unfold w1; wcbn. apply filled_full in FI. auto.
      - rewrite ER1. auto.
      - rewrite ER2. auto. }
    assert (KYg : key (set_w_KKT w1 K2) = key w) by reflexivity. set (wg := set_w_KKT w1 K2) in *. clearbody wg.
    wb. apply (solve1_safe L (lp_scaled C') (soc_vals C') (exp_vals C')); auto. intros w3 GO3 D3 KY3.
    wb. apply (affine_dir_safe L (lp_scaled C') (soc_vals C') (exp_vals C')); auto. intros den da dk w4 GO4 AF4 KY4. cbv beta iota.
    wb. apply (combined_dir_safe L (lp_scaled C') (soc_vals C') (exp_vals C')); auto. intros ok dt dkp w5 RD KY5. cbv beta iota.
    assert (KY : key w5 = key w) by congruence. pose proof RD as [WS5 PT5 D5 DS5 R15 R25].
    assert (BO5 : best_ok L w5) by (eapply best_key; [|exact BO]; congruence).
    assert (WB5 : w_best w5 <> None) by (injection KY; congruence).
    wif T5.
    + wb. apply (recover_safe L (lp_scaled C') (soc_vals C') (exp_vals C')); auto. intros c w6 [WS6 PT6 KY6 EK6 EC6]. cbv beta iota.
      apply (wp_intro _ _ _ eq_refl). apply HQ; auto; [eexists _, _, _; eauto|congruence|discriminate|discriminate].
    + wb. apply (take_step_safe L (lp_scaled C') (soc_vals C') (exp_vals C')); auto. intros w6 WS6 PT6 KY6 EK6.
      apply (wp_intro _ _ _ eq_refl). apply HQ; auto; [eexists _, _, _; eauto|congruence| |discriminate].
      intros _. unfold rhs_full. rewrite EK6. auto.
Qed.

Lemma set_iter_ok i lpv soc ex w : ws L lpv soc ex w -> at_pt L w -> best_ok L w -> rhs_full w ->
  let w' := set_info w (fun x => set_st_iter x i) in ws L lpv soc ex w' /\ at_pt L w' /\ best_ok L w' /\ rhs_full w'.
Proof. intros WS PT BO RH. unfold set_info. cbv zeta. csplit; auto using ws_info, pt_info. Qed.

Lemma ipm_loop_safe sig : forall fuel iter pp code w (Q : bool * Z * W -> Prop),
  okw w -> at_pt L w -> best_ok L w -> rhs_full w ->
  (fuel <> 0 -> may_exit (sig iter) (set_info w (fun i => set_st_iter i iter))) ->
  (forall r c w', okw w' -> at_pt L w' -> best_ok L w' -> w_stgs w' = w_stgs w -> (r = true -> c = ECOS_OUTCONE) -> Q (r, c, w')) ->
  wp (ipm_loop fuel sig iter pp code w) Q.
Proof.
  induction fuel as [|fuel IH]; intros iter pp code w Q (lpv & soc & ex & WS) PT BO RH ME HQ; cbn [ipm_loop].
  - apply (wp_intro _ _ _ eq_refl). destruct (set_iter_ok iter lpv soc ex w WS PT BO RH) as (A & B & D & E). apply HQ; auto; [|discriminate]. eexists _, _, _; eauto.
  - specialize (ME ltac:(discriminate)). destruct (set_iter_ok iter lpv soc ex w WS PT BO RH) as (WS0 & PT0 & BO0 & RH0).
    assert (SG0 : w_stgs (set_info w (fun i => set_st_iter i iter)) = w_stgs w) by reflexivity.
    assert (IT0 : st_iter (w_info (set_info w (fun i => set_st_iter i iter))) = iter) by reflexivity.
    set (w0 := set_info _ _) in *. clearbody w0.
    wb. apply (iter_exit_safe L lpv soc ex); auto. intros v pp' w1 [WS1 PT1 KY1 EK1 EC1] RE NR. cbv beta iota.
    assert (BO1 : best_ok L w1) by (eapply best_key; eauto).
    assert (SG1 : w_stgs w1 = w_stgs w) by (injection KY1; congruence).
    assert (IT1 : st_iter (w_info w1) = iter) by (injection KY1; congruence).
    assert (OK1 : okw w1) by (eexists _, _, _; eauto).
    destruct v as [|cd|cd]; [|apply (wp_intro _ _ _ eq_refl); apply HQ; auto; discriminate|destruct (NR cd); auto]. specialize (RE eq_refl).
    wb. apply (iter_save_safe L lpv soc ex); auto.
    { intros E. rewrite IT1. destruct ME as (ME & _); [|congruence]. injection KY1; congruence. }
    intros w2 WS2 PT2 RE2 BO2 WB2 [EK2 EC2 EI2 EG2].
    wb. apply (iter_step_safe lpv soc ex); auto.
    { unfold rhs_full. rewrite EK2, EK1. auto. }
    intros v w3 OK3 PT3 KY3 RH3 VR. cbv beta iota. assert (BO3 : best_ok L w3) by (eapply best_key; eauto).
    assert (SG3 : w_stgs w3 = w_stgs w) by (injection KY3; congruence).
    destruct v as [|cd|cd]; [|apply (wp_intro _ _ _ eq_refl); apply HQ; auto; discriminate|apply (wp_intro _ _ _ eq_refl); apply HQ; auto].
    apply IH; auto.
    + intros _ E. exfalso. apply WB2. injection KY3. intros _ _ _ _ _ _ H. rewrite <- H. exact E.
    + intros r c w4 A B D E G. apply HQ; auto. congruence.
Qed.

Lemma scale_loop_safe k (f : F -> F -> F) (a e : arr F) (Q : arr F -> Prop) : full a k -> full e k -> length a = k ->
  (forall d, length d = k -> full d k -> Q d) ->
  wp (for_ 0 k (fun i a => v <- get a i ;; x <- get e i ;; set a i (f v x)) a) Q.
Proof.
  intros Fa Fe La HQ. apply (for_keep k); auto; [lia| |].
  - intros i a' Hi L' F'. destruct (F' i ltac:(lia)) as [v Ev]. destruct (Fe i ltac:(lia)) as [x Ex]. exists i, (f v x). split; [lia|].
    rewrite Ev. cbn [bind]. rewrite Ex. reflexivity.
  - intros d Ld Fd. apply HQ; auto. congruence.
Qed.
Lemma scale_loop_full k (f : F -> F -> F) (a e : arr F) (Q : arr F -> Prop) : full a k -> full e k ->
  (forall d, length d = length a -> full d k -> Q d) ->
  wp (for_ 0 k (fun i a => v <- get a i ;; x <- get e i ;; set a i (f v x)) a) Q.
Proof.
  intros Fa Fe HQ. pose proof (full_len _ _ Fa). apply (for_keep k); auto; [lia|].
  intros i a' Hi L' F'. destruct (F' i ltac:(lia)) as [v Ev]. destruct (Fe i ltac:(lia)) as [x Ex]. exists i, (f v x). split; [lia|].
  rewrite Ev. cbn [bind]. rewrite Ex. reflexivity.
Qed.

Lemma backscale_safe w (Q : W -> Prop) : okw w -> at_pt L w -> best_ok L w ->
  (forall w', okw w' -> at_pt L w' -> best_ok L w' -> w_stgs w' = w_stgs w -> Q w') -> wp (backscale w) Q.
Proof.
  intros (lpv & soc & ex & WS) [PX PY PZ PS] BO HQ. unfold backscale. cbv zeta. rewrite (ws_n _ _ _ _ _ WS), (ws_p _ _ _ _ _ WS), (ws_m _ _ _ _ _ WS).
  set (tau := w_tau w). clearbody tau.
  pose proof (ws_xe _ _ _ _ _ WS) as FX. pose proof (ws_Ae _ _ _ _ _ WS) as FA. pose proof (ws_Ge _ _ _ _ _ WS) as FG.
  wb. apply (scale_loop_safe n (fun v e => v / (e * tau))%fl); auto; [destruct WS; auto|]. intros x Lx Fx.
  wb. apply (scale_loop_safe p (fun v e => v / (e * tau))%fl); auto; [destruct WS; auto|]. intros y Ly Fy.
  wb. apply (scale_loop_safe m (fun v e => v / (e * tau))%fl); auto; [destruct WS; auto|]. intros z Lz Fz.
  wb. apply (scale_loop_safe m (fun v e => v * (e / tau))%fl); auto; [destruct WS; auto|]. intros s Ls Fs.
  wb. apply (scale_loop_full n (fun v e => v * e)%fl); auto; [destruct WS; auto|]. intros c Lc Fc.
  apply (wp_intro _ _ _ eq_refl). apply HQ; [|constructor; auto|exact BO|reflexivity].
  exists lpv, soc, ex. clear - WS Lx Ly Lz Ls Fc. destruct WS; constructor; wcbn; assumption.
Qed.

(* A workspace on which ECOS_solve may be called: set up, best iterate either
   never saved or initialised. *)
Definition usable (w : W) : Prop := okw w /\ best_ok L w.

(* the point at which a solve starts, and its statistics *)
Definition starts (w w1 w2 : W) : Prop := exists c w0,
    for_ 0 (w_n w) (fun i a => v <- get a i ;; e <- get (w_xequil w) i ;; set a i (v / e)%fl) (w_c w) = Some c /\
    init (set_w_c w c) = Some (true, w0) /\
    computeResiduals (set_info w0 (fun i => set_st_iter i 0%Z)) = Some w1 /\ updateStatistics w1 = Some w2.

Definition first_ok (sig : Z -> bool) (w : W) : Prop := w_best w = None -> (0 <= sg_maxit (w_stgs w))%Z ->
  forall w1 w2, starts w w1 w2 -> fst (checkExitConditions w2 0) = ECOS_NOT_CONVERGED_YET ->
    sig 0%Z = false /\ sg_maxit (w_stgs w) <> 0%Z /\ fisnan (st_pcost (w_info w2)) = false.

Lemma ECOS_solve_safe sig t w (Q : Z * ctrlc * W -> Prop) : usable w -> first_ok sig w ->
  (forall c t' w', usable w' -> at_pt L w' -> w_stgs w' = w_stgs w -> (c = ECOS_FATAL -> sg_maxit (w_stgs w) < 0)%Z -> Q (c, t', w')) -> wp (ECOS_solve sig t w) Q.
Proof.
  intros [(lpv & soc & ex & WS) BO] FO HQ. unfold ECOS_solve. cbv zeta.
  destruct (wp_elim _ _ (scale_loop_full n (fun v e => v / e)%fl (w_c w) (w_xequil w) (fun d => full d n) (ws_c _ _ _ _ _ WS) (ws_xe _ _ _ _ _ WS) (fun d _ F => F)))
    as (c & Ec & Fc).
  rewrite <- (ws_n _ _ _ _ _ WS) in Ec. wb. apply (wp_intro _ _ _ Ec). cbv beta iota.
  assert (WSc : ws L lpv soc ex (set_w_c w c)) by (clear - WS Fc; destruct WS; constructor; wcbn; assumption).
  assert (IN : wp (init (set_w_c w c)) (fun r => exists w1 soc', r = (true, w1) /\
      ws L lp_unit soc' ex w1 /\ at_pt L w1 /\ rhs_full w1 /\ key w1 = key (set_w_c w c))).
  { apply (init_safe L H1 lpv soc ex (set_w_c w c)); auto. intros w' soc' A B D E G. exists w', soc'. csplit; auto. split; auto. }
  destruct (wp_elim _ _ IN) as (r & Ei & w1 & soc' & -> & WS1 & PT1 & RH1 & KY1).
  wb. apply (wp_intro _ _ _ Ei). cbv beta iota. cbn [negb].
  assert (BO1 : best_ok L w1) by (eapply best_key; [exact KY1|exact BO]).
  assert (SG1 : w_stgs w1 = w_stgs w) by (injection KY1; auto).
  assert (BE1 : w_best w1 = w_best w) by (injection KY1; auto).
  assert (LP : wp (ipm_loop (Z.to_nat (sg_maxit (w_stgs w1) + 1)) sig 0 fnan ECOS_FATAL w1) (fun r => let '(r, c, w') := r in
    okw w' /\ at_pt L w' /\ best_ok L w' /\ w_stgs w' = w_stgs w1 /\ (r = true -> c = ECOS_OUTCONE))).
  { apply ipm_loop_safe; auto.
    { eexists _, _, _; eauto. }
    { rewrite SG1. intros NF E. split; [reflexivity|]. intros w2 w3 E2 E3 NC. unfold set_info in *; wcbn. rewrite SG1. wcbn in E. eapply (FO ltac:(congruence)); eauto.
      - destruct (Z.to_nat _) eqn:EZ in NF; [congruence|]. lia.
      - exists c, w1. csplit; eauto. } }
  apply wp_elim in LP. destruct LP as ([[ret cd] w2] & EL & OK2 & PT2 & BO2 & SG2 & RT). wb. apply (wp_intro _ _ _ EL). cbv beta iota.
  assert (NF : cd = ECOS_FATAL -> (sg_maxit (w_stgs w) < 0)%Z).
  { intros ->. destruct (Z_lt_le_dec (sg_maxit (w_stgs w)) 0) as [|GE]; auto. exfalso. rewrite <- SG1 in GE.
    apply ipm_loop_codes in EL as (_ & _ & _ & D); [|lia|lia]. destruct ret; [specialize (RT eq_refl); discriminate|].
    destruct D as (_ & D). unfold brk, ECOS_FATAL in D. simpl in D. intuition discriminate. }
  destruct ret.
  - apply (wp_intro _ _ _ eq_refl). apply HQ; auto; [split; auto|congruence].
  - wb. apply backscale_safe; auto. intros w3 OK3 PT3 BO3 SG3. apply (wp_intro _ _ _ eq_refl). apply HQ; auto; [split; auto|congruence].
Qed.

(* the condition is also necessary *)
Lemma ECOS_solve_needs sig t w r : ECOS_solve sig t w = Some r -> first_ok sig w.
Proof.
  unfold ECOS_solve. cbv zeta. intros E NB MI w1 w2 (c & w0 & E1 & E2 & E3 & E4) NC. rewrite E1 in E. cbn [bind] in E. rewrite E2 in E. cbn [bind negb] in E.
  destruct (init_inv _ _ _ E2) as (B0 & P0 & _).
  assert (SG : w_stgs w0 = w_stgs w) by (unfold prob0_of in P0; wcbn in P0; congruence).
  assert (BE : w_best w0 = w_best w) by (unfold best_of in B0; wcbn in B0; congruence).
  rewrite SG in E. replace (Z.to_nat (sg_maxit (w_stgs w) + 1)) with (Datatypes.S (Z.to_nat (sg_maxit (w_stgs w)))) in E by lia.
  cbn [ipm_loop] in E. destruct (iter_exit (sig 0%Z) fnan (set_info w0 (fun i => set_st_iter i 0%Z))) as [r0|] eqn:EX; [|discriminate].
  apply iter_exit_needs in EX; [|reflexivity]. destruct EX as (_ & EX); [unfold set_info; wcbn; congruence|].
  specialize (EX _ _ E3 E4 NC). unfold set_info in EX; wcbn in EX. rewrite SG in EX. exact EX.
Qed.

End SafeU.
