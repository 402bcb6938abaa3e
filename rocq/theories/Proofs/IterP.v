(* Every state of the main loop satisfies the workspace invariant. *)
From Coq Require Import List Arith Bool ZArith Lia.
From Verif Require Import Base Num.
From Verif.Model Require Import Spla Splamm Types Consts Expcone Cone Ldl Kkt Equil Preproc Ecos.
From Verif.Spec Require Import Matrix Fill KktSpec KktMatrix Shape SetupSpec.
From Verif.Proofs Require Import SplaP LoopLib SplammP LdlSym LdlNum KktAsm KktMat ConeP ScalP Scal2P LineP KktUpd Layout EquilP Work WorkUpd
  SafeLib Stretch SafeK KktErr SafeE SafeW SafeV ExitP LoopP SafeU.
From Verif.Properties Require Import Kkt.
Import ListNotations.
Open Scope nat_scope.

Section Iter.
Context `{O : Ops}.
Notation W := (pwork F).
Variable L : lay.
Hypothesis H1 : forall d, In d (ly_q L) -> 1 <= d.

Lemma iter_exit_point intr pp w pp' w' : iter_exit intr pp w = Some (VGo, pp', w') -> point_of w' = point_of w.
Proof.
  unfold iter_exit. intros H. binv1 H. binv1 H. apply computeResiduals_frame in E as (_ & _ & P1 & _). apply updateStatistics_frame in E0 as (_ & _ & P2 & _).
  match type of H with (if ?t then _ else _) = _ => destruct t end. { binv H. discriminate. }
  destruct (checkExitConditions v0 0) as [code w2] eqn:EC. apply checkExit_inv in EC as [[_ _ Q _ _] _].
  repeat match type of H with (if ?t then _ else _) = _ => destruct t end; try (binv H; discriminate); try discriminate.
  injection H as _ <-. congruence.
Qed.

Lemma iter_save_point w w' : iter_save w = Some w' -> point_of w' = point_of w.
Proof.
  unfold iter_save. intros H. destruct (_ =? 0)%Z; [apply save_inv in H; tauto|]. binv1 H. destruct v; [apply save_inv in H; tauto|]. injection H as <-. reflexivity.
Qed.

Record looping (w w' : W) : Prop := {
  lo_ok : okw L w'; lo_pt : at_pt L w'; lo_best : best_ok L w'; lo_rhs : rhs_full L w'; lo_stgs : w_stgs w' = w_stgs w }.

(* between the start of a pass and its step *)
Lemma pass_ok sig w k pp w1 pp' w2 w3 : looping w w1 -> (w_best w1 = None -> k = 0%Z) ->
  iter_exit (sig k) pp (set_info w1 (fun i => set_st_iter i k)) = Some (VGo, pp', w2) ->
  iter_save w2 = Some w3 ->
  exists lpv soc ex, ws L lpv soc ex w3 /\ at_pt L w3 /\ residuals L w3 /\ best_ok L w3 /\ w_best w3 <> None /\ rhs_full L w3 /\
    w_stgs w3 = w_stgs w /\ w_C w3 = w_C w1 /\ w_KKT w3 = w_KKT w1 /\ point_of w3 = point_of w1.
Proof.
  intros [(lpv & soc & ex & WS) PT BO RH SG] NB E1 E2. exists lpv, soc, ex.
  destruct (set_iter_ok L k lpv soc ex w1 WS PT BO RH) as (WS0 & PT0 & BO0 & RH0).
  assert (ME : may_exit (sig k) (set_info w1 (fun i => set_st_iter i k))).
  { eapply iter_exit_needs; [|exact E1]. intros NB'. unfold set_info; wcbn. apply NB. exact NB'. }
  destruct (wp_elim _ _ (iter_exit_safe L lpv soc ex (sig k) pp _ (fun r => let '(v, pp', w') := r in kept L lpv soc ex (set_info w1 (fun i => set_st_iter i k)) w' /\ (v = VGo -> residuals L w'))
    WS0 PT0 BO0 ME ltac:(intros; split; auto))) as ([[v p'] w'] & E & K & RE).
  rewrite E1 in E. injection E as <- <- <-. specialize (RE eq_refl). destruct K as [WS1 PT1 KY1 EK1 EC1].
  assert (BO1 : best_ok L w2) by (eapply best_key; eauto).
  assert (NB2 : w_best w2 = None -> (st_iter (w_info w2) = 0)%Z).
  { intros E. injection KY1. intros I _ _ _ _ _ B. rewrite I. unfold set_info; wcbn. apply NB. rewrite B in E. exact E. }
  destruct (wp_elim _ _ (iter_save_safe L lpv soc ex w2 (fun w' => ws L lpv soc ex w' /\ at_pt L w' /\ residuals L w' /\ best_ok L w' /\ w_best w' <> None /\ samebut_best w2 w')
    WS1 PT1 RE BO1 NB2 ltac:(intros ? a0 a1 a2 a3 a4 a5; exact (conj a0 (conj a1 (conj a2 (conj a3 (conj a4 a5)))))))) as (w' & E & WS2 & PT2 & RE2 & BO2 & WB2 & [EK2 EC2 EI2 EG2]).
  rewrite E2 in E. injection E as <-.
  csplit; auto.
  - unfold rhs_full. rewrite EK2, EK1. exact RH.
  - injection KY1. intros _ S _ _ _ _ _. rewrite EG2, S. exact SG.
  - rewrite EC2. exact EC1.
  - rewrite EK2. exact EK1.
  - apply iter_exit_point in E1. apply iter_save_point in E2. rewrite E2, E1. reflexivity.
Qed.

Lemma iterates_ok sig w k pp w' : usable L w -> iterates sig w k pp w' -> looping w w' /\ (0 <= k)%Z /\ (w_best w' = None -> k = 0%Z).
Proof.
  intros US. induction 1 as [c w1 Ec Ei|k pp w1 pp' w2 w3 w4 HI IH E1 E2 E3].
  - destruct US as [(lpv & soc & ex & WS) BO].
    destruct (wp_elim _ _ (scale_loop_full (ly_n L) (fun v e => v / e)%fl (w_c w) (w_xequil w) (fun d => full d (ly_n L)) (ws_c _ _ _ _ _ WS) (ws_xe _ _ _ _ _ WS) (fun d _ F => F)))
      as (c' & Ec' & Fc). unfold scaled_c in Ec. rewrite (ws_n _ _ _ _ _ WS) in Ec. rewrite Ec in Ec'. injection Ec' as <-.
    assert (WSc : ws L lpv soc ex (set_w_c w c)) by (clear - WS Fc; destruct WS; constructor; wcbn; assumption).
    assert (IN : wp (init (set_w_c w c)) (fun r => exists w1 soc', r = (true, w1) /\
        ws L lp_unit soc' ex w1 /\ at_pt L w1 /\ rhs_full L w1 /\ key w1 = key (set_w_c w c))).
    { apply (init_safe L H1 lpv soc ex (set_w_c w c)); auto. intros w' soc' A B D E G. exists w', soc'. csplit; auto. split; auto. }
    destruct (wp_elim _ _ IN) as (r & Ei' & w1' & soc' & -> & WS1 & PT1 & RH1 & KY1). rewrite Ei in Ei'. injection Ei' as <-.
    split; [|split; [lia|auto]]. constructor; auto.
    + eexists _, _, _; eauto.
    + eapply best_key; [exact KY1|exact BO].
    + injection KY1; auto.
  - destruct IH as (LO & Hk & NB). destruct (pass_ok sig w k pp w1 pp' w2 w3 LO NB E1 E2) as (lpv & soc & ex & WS & PT & RE & BO & WB & RH & SG & _).
    destruct (wp_elim _ _ (iter_step_safe L H1 lpv soc ex w3 (fun r => let '(v, w') := r in okw L w' /\ at_pt L w' /\ key w' = key w3 /\ (v = VGo -> rhs_full L w')) WS PT RE BO WB RH
      ltac:(intros v w' a0 a1 a2 a3 a4; exact (conj a0 (conj a1 (conj a2 a3)))))) as ([v w'] & E & OK & PT' & KY & RH').
    rewrite E3 in E. injection E as <- <-. specialize (RH' eq_refl). split; [|split; [lia|]].
    + constructor; auto; [eapply best_key; [exact KY|exact BO]|]. injection KY. intros _ S _ _ _ _ _. congruence.
    + intros NB'. exfalso. apply WB. injection KY. intros _ _ _ _ _ _ B. congruence.
Qed.

Lemma init_exists w : usable L w -> exists c w1, scaled_c w c /\ init (set_w_c w c) = Some (true, w1).
Proof.
  intros [(lpv & soc & ex & WS) BO].
  destruct (wp_elim _ _ (scale_loop_full (ly_n L) (fun v e => v / e)%fl (w_c w) (w_xequil w) (fun d => full d (ly_n L)) (ws_c _ _ _ _ _ WS) (ws_xe _ _ _ _ _ WS) (fun d _ F => F)))
    as (c & Ec & Fc).
  assert (WSc : ws L lpv soc ex (set_w_c w c)) by (clear - WS Fc; destruct WS; constructor; wcbn; assumption).
  assert (IN : wp (init (set_w_c w c)) (fun r => exists w1, r = (true, w1))).
  { apply (init_safe L H1 lpv soc ex (set_w_c w c)); auto. intros w' soc' A B D E G. exists w'. reflexivity. }
  destruct (wp_elim _ _ IN) as (r & Ei & w1 & ->). exists c, w1. split; [|exact Ei]. unfold scaled_c. rewrite (ws_n _ _ _ _ _ WS). exact Ec.
Qed.
End Iter.
