(* Without exponential cones an iteration that can scale its point goes on. *)
From Coq Require Import List Arith Bool ZArith Lia.
From Verif Require Import Base Num.
From Verif.Model Require Import Spla Splamm Types Consts Expcone Cone Ldl Kkt Equil Preproc Ecos.
From Verif.Spec Require Import Matrix Fill KktSpec KktMatrix Shape SetupSpec.
From Verif.Proofs Require Import SplaP LoopLib SplammP LdlSym LdlNum KktAsm KktMat ConeP ScalP Scal2P LineP KktUpd Layout EquilP Work WorkUpd
  SafeLib Stretch SafeK KktErr SafeE SafeW SafeV ExitP LoopP SafeU.
From Verif.Properties Require Import Kkt.
Import ListNotations.
Open Scope nat_scope.

Section DirG.
Context `{O : Ops}.
Variable L : lay.
Hypothesis H1 : forall d, In d (ly_q L) -> 1 <= d.
Hypothesis NE : ly_e L = 0.
Notation n := (ly_n L).
Notation p := (ly_p L).
Notation m := (ly_m L).
Notation N := (ly_nK L).
Notation W := (pwork F).

Lemma combined_dir_ok lpv soc ex den da dk w (Q : bool * F * F * W -> Prop) : going L lpv soc ex w -> affined L w ->
  (forall a b w', ready L lpv soc ex w' -> key w' = key w -> Q (true, a, b, w')) -> wp (combined_dir den da dk w) Q.
Proof.
  intros GO AF HQ. unfold combined_dir. wb. apply (combined_solve_safe L lpv soc ex); auto. intros w1 GO1 AF1 D21 K1.
  wb. apply (combined_newton_safe L lpv soc ex); auto. intros a b w2 GO2 AF2 D22 K2. cbv beta iota.
  assert (OK : forall ok w3, combined_exp a b w2 = Some (ok, w3) -> ok = true).
  { intros ok w3 E. unfold combined_exp in E. destruct (ds_unscale _ _); [cbn [bind] in E|discriminate]. cbv zeta in E.
    pose proof (go_ws _ _ _ _ _ GO2) as WS2. pose proof (co_e _ _ _ _ (ws_C _ _ _ _ _ WS2)) as E0. rewrite NE in E0. unfold set_info in E. wcbn in E. rewrite E0 in E. cbn [Nat.ltb Nat.leb] in E. injection E as <- _. reflexivity. }
  wb. apply wp_conseq with (P := fun r => ready L lpv soc ex (snd r) /\ key (snd r) = key w2 /\ combined_exp a b w2 = Some r).
  - destruct (wp_elim _ _ (combined_exp_safe L lpv soc ex a b w2 (fun r => ready L lpv soc ex (snd r) /\ key (snd r) = key w2) GO2 AF2 D22 (fun ok w' A B => conj A B))) as (r & Er & A & B).
    apply (wp_intro _ _ _ Er). auto.
  - intros [ok w3] (RD & K3 & Er). cbn [snd] in *. rewrite (OK _ _ Er). cbv beta iota. apply (wp_intro _ _ _ eq_refl). apply HQ; auto. congruence.
Qed.

Lemma iter_step_go lpv soc ex w (Q : verdict * W -> Prop) : ws L lpv soc ex w -> at_pt L w -> residuals L w -> rhs_full L w ->
  (forall o C la, updateScalings (w_C w) (w_s w) (w_z w) (w_lambda w) (st_mu (w_info w)) = Some (o, C, la) -> o = false) ->
  (forall w', Q (VGo, w')) ->
  wp (iter_step w) Q.
Proof.
  intros WS PT RE [R1 R2] NO HQ. unfold iter_step. pose proof PT as [PX PY PZ PS]. pose proof (ws_K _ _ _ _ _ WS) as KW.
  pose proof (ws_msize L WS) as EM. pose proof (ws_hm L WS) as HM.
  destruct (updateScalings_eq (w_C w) (w_s w) (w_z w) (gd f0 (w_s w)) (gd f0 (w_z w)) (w_lambda w) (st_mu (w_info w))) as (C' & la & Eu & SIM & Ll & HT & HF);
    [apply (co_shape _ _ _ _ (ws_C _ _ _ _ _ WS))|rewrite EM; apply full_vecd; auto|rewrite EM; apply full_vecd; auto|destruct WS; lia|].
  pose proof (NO _ _ _ Eu) as EO. rewrite EO in Eu, HF. wb. apply (wp_intro _ _ _ Eu). cbv beta iota. clear Eu. cbv zeta.
  set (w1 := set_w_lambda _ _). assert (WS1 : ws L lpv soc ex w1) by (pose proof (ws_cone L lpv soc ex w C' WS SIM) as WC; pose proof (ws_ll _ _ _ _ _ WS) as Lla; rewrite <- Ll in Lla; unfold w1; clear - WC Lla; destruct WC; constructor; wcbn; assumption).
  assert (PT1 : at_pt L w1) by (destruct PT; constructor; auto).
    destruct (HF eq_refl) as (UP & FI). clear HF HT. pose proof (updated_scaled _ _ _ _ UP) as SC.
    pose proof (ws_C _ _ _ _ _ WS1) as CO1. pose proof (ws_ix _ _ _ _ _ WS1) as IX1.
    wb. change (w_C w1) with C' in *. change (w_KKT w1) with (w_KKT w) in *. change (w_stgs w1) with (w_stgs w).
    apply wp_conseq with (P := fun pr' => length pr' = length (sp_pr (kk_PKPt (w_KKT w))) /\
       kws L (lp_scaled C') (soc_vals C') (exp_vals C') (set_kk_PKPt (w_KKT w) (with_pr (kk_PKPt (w_KKT w)) pr')));
      [apply (kws_update_wp L lpv soc ex); auto; apply scaled_ready; auto|].
    intros pr' [Lp KW1]. cbv beta iota. wb. pose proof (ws_dat _ _ _ _ _ WS1) as DW.
    apply (kkt_factor_wp L (lp_scaled C') (soc_vals C') (exp_vals C') _ _ _ _ _ _ _ _ _ KW1 H1 DW).
    intros K2 KW2 FA2 ER1 ER2 _ _ _. cbv beta iota. cbn [negb].
    assert (GO : going L (lp_scaled C') (soc_vals C') (exp_vals C') (set_w_KKT w1 K2)).
    { constructor; wcbn; auto.
      - apply (ws_restate L lpv soc ex); auto.
      - destruct PT1; constructor; auto.
      - destruct RE; constructor; auto.
      - unfold w1; wcbn. apply filled_full in FI. auto.
      - rewrite ER1. auto.
      - rewrite ER2. auto. }
    assert (KYg : key (set_w_KKT w1 K2) = key w) by reflexivity. set (wg := set_w_KKT w1 K2) in *. clearbody wg.
    wb. apply (solve1_safe L (lp_scaled C') (soc_vals C') (exp_vals C')); auto. intros w3 GO3 D3 KY3.
    wb. apply (affine_dir_safe L (lp_scaled C') (soc_vals C') (exp_vals C')); auto. intros den da dk w4 GO4 AF4 KY4. cbv beta iota.
    wb. apply (combined_dir_ok (lp_scaled C') (soc_vals C') (exp_vals C')); auto. intros dt dkp w5 RD KY5. cbv beta iota. cbn [negb].
    wb. apply (take_step_safe L (lp_scaled C') (soc_vals C') (exp_vals C')); auto. intros w6 WS6 PT6 KY6 EK6.
    apply (wp_intro _ _ _ eq_refl). apply HQ.
Qed.
End DirG.
