(* Two workspaces of the same origin: what their histories cannot change. *)
From Coq Require Import List Arith Bool ZArith Reals Lia Lra.
From Verif Require Import Base Num.
From Verif.Model Require Import Spla Splamm Types Consts Expcone Cone Ldl Kkt Equil Preproc Ecos.
From Verif.Spec Require Import Matrix Fill KktSpec KktMatrix Shape SetupSpec UpdateSpec ReproSpec.
From Verif.Proofs Require Import SplaP LoopLib EquilP Work SetupP WorkUpd SafeLib SafeW SafeV SafeU ExitP UpdP Mono Mono2 Mono3 Mono4 Mono5 ReproPat.
From Verif.Properties Require Import Kkt Exit Solve Update.
Import ListNotations.
Open Scope nat_scope.

Section R.
Context `{O : Ops}.
Notation W := (pwork F).

(* what setup computes does not depend on what the memory held before *)
Lemma setup_sized amd junk n m p l q e Gd Ad c h b w :
  ECOS_setup amd junk n m p l q e Gd Ad c h b = Some (Some w) -> sized (w_KKT w) /\ w_c w = c /\ w_stgs w = default_settings /\
  forall junk2, exists w2, ECOS_setup amd junk2 n m p l q e Gd Ad c h b = Some (Some w2) /\ same w w2 /\ w_c w2 = w_c w.
Proof.
  unfold ECOS_setup. intros E. destruct (negb _); [discriminate|]. destruct Gd as [[Gpr Gjc] Gir]. cbv zeta in *.
  binv E. match goal with x : eqvecs |- _ => destruct x as [[xe Ae] Ge] end. binv E.
  destruct (amd _ _ _) as [P|] eqn:EP; [|discriminate]. binv E. injection E as <-. wcbn. csplit; auto.
  - unfold sized. wcbn. repeat match goal with X : permuteSparseSymmetricMatrix _ _ _ _ = Some _ |- _ => apply permute_size in X as [? ?] end.
    match goal with X : newSparseMatrix _ _ _ = Some _ |- _ => unfold newSparseMatrix, ecoscreateSparseMatrix in X; binv X; injection X as <- end.
    cbn [sp_pr sp_nnz] in *. rewrite alloc_length in *. congruence.
  - intros junk2. eexists. cbn [bind].
    repeat (match goal with X : ?m = Some _ |- bind ?m _ = _ /\ _ => rewrite X | X : ?m = Some _ |- context [match ?m with _ => _ end] => rewrite X end; cbn [bind]).
    split; [reflexivity|]. split; [|reflexivity]. constructor; reflexivity.
Qed.

(* what no history changes *)
Record struc (w0 w : W) : Prop := {
  st_n : w_n w = w_n w0; st_m : w_m w = w_m w0; st_p : w_p w = w_p w0; st_D : w_D w = w_D w0;
  st_AtoK : w_AtoK w = w_AtoK w0; st_GtoK : w_GtoK w = w_GtoK w0;
  st_C : symC (w_C w) = symC (w_C w0); st_K : symP (w_KKT w) = symP (w_KKT w0);
  st_A : same_patternA (w_A w0) (w_A w); st_G : same_pattern (w_G w0) (w_G w);
  st_lx : length (w_xequil w) = length (w_xequil w0); st_la : length (w_Aequil w) = length (w_Aequil w0); st_lg : length (w_Gequil w) = length (w_Gequil w0)
}.
Lemma struc_refl w : struc w w. Proof. constructor; auto using pat_refl, patA_refl. Qed.
Lemma struc_trans w w1 w2 : struc w w1 -> struc w1 w2 -> struc w w2.
Proof. intros [] []. constructor; try congruence; eauto using pat_trans, patA_trans. Qed.
Lemma struc_sym w w1 : struc w w1 -> struc w1 w.
Proof. intros []. constructor; try congruence; eauto using pat_sym, patA_sym. Qed.
Lemma same_struc w w1 : same w w1 -> struc w w1.
Proof. intros []. constructor; try congruence; rewrite ?sm_A, ?sm_G; auto using pat_refl, patA_refl. Qed.
Lemma same_prob w w1 : same w w1 -> w_c w1 = w_c w -> same_problem w w1.
Proof. intros [] E. constructor; congruence. Qed.
Lemma struc_same w w1 : struc w w1 -> same_problem w w1 -> same w w1.
Proof. intros [] []. constructor; congruence. Qed.

Lemma update_struc w ap Gpr Apr c h b w' old : session w -> new_values w Gpr Apr c h b ->
  ECOS_updateData w ap Gpr Apr c h b = Some (w', old) -> struc w w' /\ (sized (w_KKT w) -> sized (w_KKT w')) /\ w_c w' = c /\ w_stgs w' = w_stgs w /\
  exists b', (w_A w <> None -> b' = b) /\ (w_A w = None -> b' = w_b w) /\
  set_equilibration (w_C w) (new_A (w_A w) Apr) (new_G w Gpr) b' h (w_xequil w, w_Aequil w, w_Gequil w) =
    Some (w_A w', w_G w', w_b w', w_h w', (w_xequil w', w_Aequil w', w_Gequil w')).
Proof.
  intros SE NV E. destruct (session_layout _ SE) as (L & H1 & (lpv & soc & ex & WS) & BO).
  pose proof (updateData_wp L lpv soc ex w ap Gpr Apr c h b (fun r => r = (w', old) -> struc w w' /\ (sized (w_KKT w) -> sized (w_KKT w')) /\ w_c w' = c /\ w_stgs w' = w_stgs w /\
     exists b', (w_A w <> None -> b' = b) /\ (w_A w = None -> b' = w_b w) /\
     set_equilibration (w_C w) (new_A (w_A w) Apr) (new_G w Gpr) b' h (w_xequil w, w_Aequil w, w_Gequil w) =
     Some (w_A w', w_G w', w_b w', w_h w', (w_xequil w', w_Aequil w', w_Gequil w'))) WS NV (updateData_needs _ _ _ _ _ _ _ _ E)) as X.
  rewrite E in X. refine (X _ eq_refl). clear X. intros At Gt A' G' b' h' xe Ae Ge pr ES w1 LP WS1 EE. injection EE as <- _.
  unfold w1. wcbn. csplit; auto.
  2:{ unfold sized. wcbn. cbn [with_pr sp_pr sp_nnz]. intros SZ. rewrite LP. exact SZ. }
  2:{ exists (new_b w b). unfold new_b. csplit; auto; destruct (w_A w); auto; congruence. }
  pose proof (fresh_valid L lpv soc ex w Gpr Apr c h b H1 WS NV) as V. destruct V as [V1 V2 V3 V4 V5 V6 V7 V8 V9].
  assert (RA : rowsA (new_A (w_A w) Apr) = w_p w /\ wfA (new_A (w_A w) Apr) (sp_n (new_G w Gpr))).
  { rewrite V2. unfold okA in V5. destruct (new_A (w_A w) Apr); cbn; intuition. }
  destruct RA as [RA WA]. apply equil_pat in ES as (PA & PG & L1 & L2 & L3 & _); auto.
  2:{ rewrite V3, (ws_m _ _ _ _ _ WS). destruct (ws_C _ _ _ _ _ WS) as [_ E1 E2 E3]. unfold msize, hsize, ly_m. rewrite E1, E2, E3. reflexivity. }
  2:{ rewrite V2, (ws_lxe _ _ _ _ _ WS), (ws_n _ _ _ _ _ WS). auto. }
  2:{ rewrite RA, (ws_lAe _ _ _ _ _ WS), (ws_p _ _ _ _ _ WS). auto. }
  2:{ rewrite V3, (ws_lGe _ _ _ _ _ WS), (ws_m _ _ _ _ _ WS). auto. }
  2:{ rewrite RA. auto. }
  2:{ rewrite V3. auto. }
  constructor; wcbn; auto.
  - unfold symP. wcbn. cbn [with_pr sp_pr sp_nnz sp_jc sp_ir sp_n sp_m]. rewrite LP. reflexivity.
  - eapply patA_trans; [|exact PA]. unfold new_A. destruct NV as (_ & NA & _). destruct (w_A w); cbn; auto. destruct NA as (pr0 & -> & _). repeat split.
Qed.

Lemma since_session w w' : session w -> since w w' -> session w'.
Proof. intros S; induction 1; [assumption|eapply ss_solve|eapply ss_settings|eapply ss_h|eapply ss_c|eapply ss_update]; eauto. Qed.

Lemma since_struc w w' : session w -> sized (w_KKT w) -> since w w' -> struc w w' /\ sized (w_KKT w').
Proof.
  intros SE SZ. induction 1 as [|w1 sig t code t' w' S1 [IH IZ] E|w1 g S1 [IH IZ]|w1 idx v w' S1 [IH IZ] Hi E|w1 idx v w' S1 [IH IZ] Hi E|w1 ap Gpr Apr c h b w' old S1 [IH IZ] NV E].
  - auto using struc_refl.
  - destruct (session_layout _ (since_session _ _ SE S1)) as (L & H1 & US). pose proof (solve_same L sig t w1 code t' w' H1 IZ US E) as S.
    split; [eapply struc_trans; [exact IH|apply same_struc; exact S]|eapply same_sized; eauto].
  - split; [|exact IZ]. eapply struc_trans; [exact IH|]. constructor; wcbn; auto using pat_refl, patA_refl.
  - unfold ecos_updateDataEntry_h in E. binv E. injection E as <-. split; [|exact IZ]. eapply struc_trans; [exact IH|]. constructor; wcbn; auto using pat_refl, patA_refl.
  - unfold ecos_updateDataEntry_c in E. binv E. injection E as <-. split; [|exact IZ]. eapply struc_trans; [exact IH|]. constructor; wcbn; auto using pat_refl, patA_refl.
  - destruct (update_struc _ _ _ _ _ _ _ _ _ (since_session _ _ SE S1) NV E) as (X & Y & _). split; [eapply struc_trans; eauto|auto].
Qed.

Lemma session_sized w : session w -> sized (w_KKT w).
Proof.
  induction 1 as [amd junk n m p l q e G0 A0 c h b w V AM E|w sig t code t' w' S IH E|w g S IH|w idx v w' S IH Hi E|w idx v w' S IH Hi E|w ap Gpr Apr c h b w' old S IH NV E].
  - eapply setup_sized; eauto.
  - destruct (session_layout _ S) as (L & H1 & US). pose proof (solve_same L sig t w code t' w' H1 IH US E). eapply same_sized; eauto.
  - exact IH.
  - unfold ecos_updateDataEntry_h in E. binv E. injection E as <-. exact IH.
  - unfold ecos_updateDataEntry_c in E. binv E. injection E as <-. exact IH.
  - destruct (update_struc _ _ _ _ _ _ _ _ _ S NV E) as (_ & Y & _). auto.
Qed.

(* the main fact *)
Lemma repro_struc sig t w1 w2 : session w1 -> session w2 -> struc w1 w2 -> same_problem w1 w2 -> ~ abandoned_in_first_pass sig w1 -> same_result sig t w1 w2.
Proof.
  intros S1 S2 ST SP NA. pose proof (struc_same _ _ ST SP) as SM. pose proof (sp_same_c _ _ SP) as Ec.
  destruct (session_layout _ S1) as (L & H1 & US1). destruct (session_layout _ S2) as (L2 & H2 & US2).
  pose proof US1 as [(lpv & soc & ex & W1) _]. destruct US2 as [(lpv2 & soc2 & ex2 & W2) B2].
  pose proof (same_lay w1 w2 L L2 _ _ _ _ _ _ SM Ec W1 W2) as W2'.
  assert (US2 : usable L w2).
  { split; [eexists _, _, _; exact W2'|]. intros NB. specialize (B2 NB).
    rewrite <- (ws_n _ _ _ _ _ W2), <- (ws_m _ _ _ _ _ W2), <- (ws_p _ _ _ _ _ W2) in B2.
    rewrite (ws_n _ _ _ _ _ W2'), (ws_m _ _ _ _ _ W2'), (ws_p _ _ _ _ _ W2') in B2. exact B2. }
  assert (NC : ~ cut_short sig w1).
  { intros (MI & v1 & v2 & (c & v0 & A1 & A2 & A3 & A4) & B & C). apply NA. split; [exact MI|]. exists v2. split; [exists c, v0, v1; auto|auto]. }
  destruct (repro_core L sig t w1 w2 H1 (session_sized _ S1) US1 US2 SM Ec NC) as (code & t' & u1 & u2 & E1 & E2 & EA & EF & _).
  exists code, t', u1, u2. split; [exact E1|]. split; [exact E2|]. unfold answer in EA. injection EA as A1 A2 A3 A4 A5 A6 A7 A8 A9 A10 A11 A12 A13.
  split; [constructor; auto|]. split; [auto|]. intros MI. specialize (EF MI). unfold figures in EF. injection EF as F1 F2 F3 F4 F5 F6 F7 F8 F9 F10. constructor; auto.
Qed.

(* the cost vector after a normal exit, as an array *)
Lemma solve_c sig t w code t' w' : ECOS_solve sig t w = Some (code, t', w') -> (0 <= sg_maxit (w_stgs w))%Z -> code <> ECOS_OUTCONE -> code <> ECOS_FATAL ->
  length (w_c w') = length (w_c w) /\
  (forall i, i < w_n w -> exists v e, get (w_c w) i = Some v /\ get (w_xequil w) i = Some e /\ get (w_c w') i = Some (fmul (fdiv v e) e)) /\
  (forall i, w_n w <= i -> get (w_c w') i = get (w_c w) i).
Proof.
  intros E MI N1 N2. apply solve_inv in E as (wf & c & Sc & P & _ & D); auto.
  destruct D as [(-> & _)|([(_ & -> & _)|(B & ->)] & _)]; try contradiction.
  unfold prob0_of in P. injection P as. apply scaled_c_inv in Sc as (Sl & Sc & So).
  unfold backscale in B. binv B. injection B as <-. wcbn.
  match goal with X : for_ 0 _ _ (w_c wf) = Some _ |- _ => apply (zip_loop_inv (fun v e => fmul v e)) in X as (Bl & Bc & Bo) end.
  assert (Eqs : w_n wf = w_n w /\ w_xequil wf = w_xequil w /\ w_c wf = c) by (csplit; assumption). destruct Eqs as (En & Ex & Ec).
  rewrite En in Bc, Bo. rewrite Ex in Bc. rewrite Ec in Bl, Bc, Bo. split; [congruence|]. split; [|intros i Hi; rewrite Bo, So; auto].
  intros i Hi. destruct (Sc i Hi) as (cv & ev & G1 & G2 & G3). destruct (Bc i Hi) as (v' & e' & G4 & G5 & G6). exists cv, ev. csplit; auto. congruence.
Qed.
End R.
