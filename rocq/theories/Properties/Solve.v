(* C23: a call of solve on a workspace made by setup returns, with one of the
   documented exit flags, in every arithmetic.  In this model a read or write
   outside an array, a read of memory that was never written and a dereference of
   a null pointer make the whole call return None, so "returns" includes the
   absence of all of these. *)
From Coq Require Import List Arith Bool ZArith Reals Lia Lra.
From Verif Require Import Base Num.
From Verif.Model Require Import Spla Splamm Types Consts Expcone Cone Ldl Kkt Equil Preproc Ecos.
From Verif.Spec Require Import Matrix Fill KktSpec KktMatrix Shape SetupSpec UpdateSpec.
From Verif.Proofs Require Import SplaP LoopLib Work SetupP WorkUpd SafeLib SafeW SafeV SafeU ExitP UpdP.
From Verif.Properties Require Import Kkt Exit.
Import ListNotations.
Open Scope nat_scope.

(* The workspaces a program can hold: made by setup from valid data, then any
   number of solves, changes of the settings, updates of the whole data on the same
   pattern and changes of single entries of h and c, in any order. *)
Inductive session `{O : Ops} : pwork F -> Prop :=
| ss_setup amd junk n m p l q e G0 A0 c h b w :
    valid_data n m p q G0 A0 c h b -> amd_ok amd ->
    ECOS_setup amd junk n m p l q e (data_of G0) (option_map data_of A0) c h b = Some (Some w) -> session w
| ss_solve w sig t code t' w' : session w -> ECOS_solve sig t w = Some (code, t', w') -> session w'
| ss_settings w g : session w -> session (set_w_stgs w g)
| ss_h w idx v w' : session w -> idx < w_m w -> ecos_updateDataEntry_h w idx v = Some w' -> session w'
| ss_c w idx v w' : session w -> idx < w_n w -> ecos_updateDataEntry_c w idx v = Some w' -> session w'
| ss_update w ap Gpr Apr c h b w' old : session w -> new_values w Gpr Apr c h b ->
    ECOS_updateData w ap Gpr Apr c h b = Some (w', old) -> session w'.

Definition holds_layout `{O : Ops} (w : pwork F) : Prop := exists L, (forall d, In d (ly_q L) -> 1 <= d) /\ usable L w.

Lemma solve_total `{O : Ops} L sig t w : (forall d, In d (ly_q L) -> 1 <= d) -> usable L w -> first_ok sig w ->
  exists c t' w', ECOS_solve sig t w = Some (c, t', w') /\ usable L w' /\ at_pt L w'.
Proof.
  intros H1 US FO. destruct (wp_elim _ _ (ECOS_solve_safe L H1 sig t w (fun r => let '(c, t', w') := r in usable L w' /\ at_pt L w') US FO
    (fun c t' w' A B D _ => conj A B))) as ([[c t'] w'] & E & A). exists c, t', w'. auto.
Qed.

Lemma session_layout `{O : Ops} w : session w -> holds_layout w.
Proof.
  induction 1 as [amd junk n m p l q e G0 A0 c h b w V AM E|w sig t code t' w' _ (L & H1 & US) E|w g _ (L & H1 & (lpv & soc & ex & WS) & BO)
    |w idx v w' _ (L & H1 & (lpv & soc & ex & WS) & BO) Hi E|w idx v w' _ (L & H1 & (lpv & soc & ex & WS) & BO) Hi E
    |w ap Gpr Apr c h b w' old _ (L & H1 & (lpv & soc & ex & WS) & BO) NV E].
  - destruct (setup_inv _ _ _ _ _ _ _ _ _ _ _ _ _ _ V AM E) as (L & _ & _ & _ & Eq & _ & _ & (WS & NB & _) & _).
    exists L. split; [rewrite Eq; apply (vd_q _ _ _ _ _ _ _ _ _ V)|]. split; [eexists _, _, _; eauto|]. intros HB. congruence.
  - exists L. split; auto. destruct (solve_total L sig t w H1 US (ECOS_solve_needs _ _ _ _ E)) as (c1 & t1 & w1 & E1 & US1 & _). congruence.
  - exists L. split; auto. split; [|exact BO]. exists lpv, soc, ex. destruct WS; constructor; wcbn; assumption.
  - exists L. split; auto. unfold ecos_updateDataEntry_h in E. binv E. injection E as <-. split; [|exact BO]. exists lpv, soc, ex.
    apply set_inv in E1 as (_ & _ & G). rewrite (ws_m _ _ _ _ _ WS) in Hi. pose proof (full_set _ _ _ _ _ (ws_h _ _ _ _ _ WS) G) as FH.
    clear - WS FH. destruct WS; constructor; wcbn; assumption.
  - exists L. split; auto. unfold ecos_updateDataEntry_c in E. binv E. injection E as <-. split; [|exact BO]. exists lpv, soc, ex.
    apply set_inv in E0 as (_ & _ & G). pose proof (full_set _ _ _ _ _ (ws_c _ _ _ _ _ WS) G) as FH.
    clear - WS FH. destruct WS; constructor; wcbn; assumption.
  - pose proof (updateData_wp L lpv soc ex w ap Gpr Apr c h b (fun r => holds_layout (fst r)) WS NV (updateData_needs _ _ _ _ _ _ _ _ E)) as X.
    rewrite E in X. apply X. intros At Gt A' G' b' h' xe Ae Ge pr _ w1 _ WS1. exists (relay L At Gt). split; [exact H1|]. split; [eexists _, _, _; exact WS1|]. exact BO.
Qed.

(* The one situation in which a call of solve has undefined behaviour: no iterate
   was ever saved in this workspace, the exit tests do not stop at the starting
   point, and the call is to be abandoned there: because of an interrupt, because
   the iteration limit is 0, or because the objective is not a number.  w2 is the
   workspace at the starting point. *)
Definition abandoned_at_start `{O : Ops} (sig : Z -> bool) (w : pwork F) : Prop :=
  w_best w = None /\ (0 <= sg_maxit (w_stgs w))%Z /\
  exists w1 w2, starts w w1 w2 /\ fst (checkExitConditions w2 0) = ECOS_NOT_CONVERGED_YET /\
    (sig 0%Z = true \/ sg_maxit (w_stgs w) = 0%Z \/ fisnan (st_pcost (w_info w2)) = true).

(* Otherwise solve returns one of the exit flags of include/ecos.h; never the
   internal -87.  SIGINT (-4) only when an interrupt was pending in some pass;
   the iteration count is within the limit; FATAL (-7) exactly when that limit is
   negative.  Every entry of x, y, z and s has been written. *)
Theorem C23_solve_returns : forall `{O : Ops} sig t (w : pwork F), session w -> ~ abandoned_at_start sig w ->
  exists code t' w', ECOS_solve sig t w = Some (code, t', w') /\
    In code [0; 1; 2; 10; 11; 12; -1; -2; -3; -4; -7]%Z /\
    (code = -4 -> exists k, 0 <= k <= sg_maxit (w_stgs w) /\ sig k = true)%Z /\
    (code <> -7 -> 0 <= st_iter (w_info w') <= sg_maxit (w_stgs w))%Z /\
    (code = -7 <-> sg_maxit (w_stgs w) < 0)%Z /\
    full (w_x w') (w_n w) /\ full (w_y w') (w_p w) /\ full (w_z w') (w_m w) /\ full (w_s w') (w_m w).
Proof.
  intros O sig t w SE NA. destruct (session_layout _ SE) as (L & H1 & US).
  assert (FO : first_ok sig w).
  { intros NB MI w1 w2 ST NC. destruct (sig 0%Z) eqn:ES; [exfalso; apply NA; split; [auto|split; [auto|exists w1, w2; auto]]|].
    split; [auto|]. split; [intros EM; apply NA; split; [auto|split; [auto|exists w1, w2; auto]]|].
    destruct (fisnan _) eqn:EN; auto. exfalso; apply NA; split; [auto|split; [auto|exists w1, w2; auto]]. }
  destruct (wp_elim _ _ (ECOS_solve_safe L H1 sig t w (fun r => let '(c, t', w') := r in at_pt L w' /\ (c = ECOS_FATAL -> sg_maxit (w_stgs w) < 0)%Z) US FO
    (fun c t' w' A B D E => conj B E))) as ([[code t'] w'] & E & [PX PY PZ PS] & FA).
  exists code, t', w'. split; auto. apply C23_exit_flags in E as (A & B & D & G).
  destruct US as [(lpv & soc & ex & WS) _]. rewrite (ws_n _ _ _ _ _ WS), (ws_p _ _ _ _ _ WS), (ws_m _ _ _ _ _ WS).
  csplit; auto. split; auto.
Qed.
Print Assumptions C23_solve_returns.

(* and in the situation excluded above it really is undefined: it reads the saved
   iterate, which was never written *)
Theorem C23_abandoned_at_start_undefined : forall `{O : Ops} sig t (w : pwork F),
  abandoned_at_start sig w -> ECOS_solve sig t w = None.
Proof.
  intros O sig t w (NB & MI & w1 & w2 & ST & NC & H). destruct (ECOS_solve sig t w) as [r|] eqn:E; auto. exfalso.
  apply ECOS_solve_needs in E. destruct (E NB MI w1 w2 ST NC) as (A & B & D). destruct H as [H|[H|H]]; congruence.
Qed.
Print Assumptions C23_abandoned_at_start_undefined.

(* In particular a second call never is in that situation, once an iterate was
   saved; and a first call with a positive iteration limit, no interrupt before
   the first pass and a number as starting objective is not. *)
Lemma not_abandoned `{O : Ops} sig w : (w_best w <> None) \/
  (sig 0%Z = false /\ sg_maxit (w_stgs w) <> 0%Z /\ forall w1 w2, starts w w1 w2 -> fisnan (st_pcost (w_info w2)) = false) -> ~ abandoned_at_start sig w.
Proof.
  intros [H|(H1 & H2 & H3)] (NB & MI & w1 & w2 & ST & NC & H'); [auto|]. rewrite (H3 _ _ ST) in H'. destruct H' as [?|[?|?]]; congruence.
Qed.

(* a mixed problem (a linear row, a second-order cone of size 3, an exponential
   cone, an equality) meets the hypotheses, with any interrupts after the first pass *)
Example C23_example : forall junk : pwork R, exists w : pwork R, @session ROps w /\
  forall sig, sig 0%Z = false -> ~ @abandoned_at_start ROps sig w.
Proof.
  intros junk. destruct (exG_setup junk) as [w E]. exists w. split; [eapply (@ss_setup ROps); [apply exG_valid|apply natural_ok|exact E]|].
  intros sig Hs. apply not_abandoned. right. csplit; auto.
  destruct (@setup_inv ROps _ _ _ _ _ _ _ _ _ _ _ _ _ _ exG_valid natural_ok E) as (L & _ & _ & _ & _ & _ & _ & (_ & _ & SG) & _).
  rewrite SG. discriminate.
Qed.
