(* C07 and C39: changing the data of a workspace. *)
From Coq Require Import List Arith Bool ZArith Reals Lia Lra.
From Verif Require Import Base Num NumX.
From Verif.Model Require Import Spla Splamm Types Consts Expcone Cone Ldl Kkt Equil Preproc Ecos.
From Verif.Spec Require Import Matrix Fill KktSpec KktMatrix Shape SetupSpec UpdateSpec User.
From Verif.Proofs Require Import SplaP LoopLib KktMat KktR ConeP Layout EquilP EquilX Work SetupP WorkR WorkUpd SafeLib SafeU ExitP XEvalP PhiP UpdP.
From Verif.Properties Require Import Kkt Exit Equil Solve.
Import ListNotations.
Open Scope nat_scope.

(* the problem of workspace w with new values: what a caller would pass to setup *)
Definition fresh `{O : Ops} (w : pwork F) amd junk Gpr Apr c h b : option (option (pwork F)) :=
  ECOS_setup amd junk (w_n w) (w_m w) (w_p w) (lpp (w_C w)) (map so_p (co_soc (w_C w))) (nexc (w_C w))
    (data_of (new_G w Gpr)) (option_map data_of (new_A (w_A w) Apr)) c h (new_b w b).

Lemma fresh_valid `{O : Ops} L lpv soc ex w Gpr Apr c h b : (forall d, In d (ly_q L) -> 1 <= d) -> ws L lpv soc ex w -> new_values w Gpr Apr c h b ->
  valid_data (w_n w) (w_m w) (w_p w) (map so_p (co_soc (w_C w))) (new_G w Gpr) (new_A (w_A w) Apr) c h (new_b w b).
Proof.
  intros H1 WS (NG & NA & NC & NH & NB). pose proof (ws_dat _ _ _ _ _ WS) as [D1 D2 D3 [D4 _] D5 _ _].
  rewrite (co_q _ _ _ _ (ws_C _ _ _ _ _ WS)). constructor; auto.
  - apply with_pr_wf; auto.
  - cbn. rewrite D2. symmetry. apply (ws_n _ _ _ _ _ WS).
  - cbn. rewrite D3. symmetry. apply (ws_m _ _ _ _ _ WS).
  - rewrite (ws_n _ _ _ _ _ WS), (ws_p _ _ _ _ _ WS). unfold new_A. destruct (w_A w) as [A|], (ly_At L) as [At|]; try contradiction; auto.
    destruct NA as (pr & -> & Hp). destruct D5 as (X1 & X2 & X3 & X4 & _). cbn [okA]. csplit; auto. apply with_pr_wf; auto.
  - unfold new_b. destruct (w_A w); auto. rewrite (ws_p _ _ _ _ _ WS). apply WS.
Qed.

(* ------------------------------------------------------------------- C07 *)

(* Whatever was done with the workspace before, updateData with new values on the
   same pattern succeeds, unless it has to compare the location of the new G on a
   workspace without equalities.  The equilibrated matrices and
   vectors and the scaling factors are exactly those a fresh setup with the new
   values computes, in every arithmetic; the sizes, the
   cones, the iterates, the settings, the index maps and everything in the KKT
   structure but the values of the matrix are untouched; and the workspace can be used like any other. *)
Theorem C07_update : forall `{O : Ops} (w : pwork F) ap Gpr Apr c h b,
  session w -> new_values w Gpr Apr c h b -> (ap_G ap = true -> w_A w <> None) ->
  exists w' old, ECOS_updateData w ap Gpr Apr c h b = Some (w', old) /\ session w' /\
    (forall amd junk w2, fresh w amd junk Gpr Apr c h b = Some (Some w2) ->
       w_A w' = w_A w2 /\ w_G w' = w_G w2 /\ w_c w' = w_c w2 /\ w_h w' = w_h w2 /\ w_b w' = w_b w2 /\
       w_xequil w' = w_xequil w2 /\ w_Aequil w' = w_Aequil w2 /\ w_Gequil w' = w_Gequil w2) /\
    (forall amd junk, amd_ok amd -> fresh w amd junk Gpr Apr c h b = Some None -> exists N jc ir, amd N jc ir = None) /\
    w_n w' = w_n w /\ w_m w' = w_m w /\ w_p w' = w_p w /\ w_C w' = w_C w /\ w_stgs w' = w_stgs w /\ w_info w' = w_info w /\
    w_x w' = w_x w /\ w_y w' = w_y w /\ w_z w' = w_z w /\ w_s w' = w_s w /\ w_best w' = w_best w /\
    w_AtoK w' = w_AtoK w /\ w_GtoK w' = w_GtoK w /\
    exists pr, w_KKT w' = set_kk_PKPt (w_KKT w) (with_pr (kk_PKPt (w_KKT w)) pr).
Proof.
  intros O w ap Gpr Apr c h b SE NV HA. destruct (session_layout _ SE) as (L & H1 & (lpv & soc & ex & WS) & BO).
  pose proof (updateData_wp L lpv soc ex w ap Gpr Apr c h b (fun r => exists A' G' b' h' xe Ae Ge pr,
     set_equilibration (w_C w) (new_A (w_A w) Apr) (new_G w Gpr) (new_b w b) h (w_xequil w, w_Aequil w, w_Gequil w)
       = Some (A', G', b', h', (xe, Ae, Ge)) /\
     fst r = set_w_KKT (set_w_Gequil (set_w_Aequil (set_w_xequil (set_w_h (set_w_b (set_w_c (set_w_G (set_w_A w A') G') c) b') h') xe) Ae) Ge)
                 (set_kk_PKPt (w_KKT w) (with_pr (kk_PKPt (w_KKT w)) pr))) WS NV HA) as X.
  apply wp_elim in X.
  2:{ intros At Gt A' G' b' h' xe Ae Ge pr ES w' _ _. exists A', G', b', h', xe, Ae, Ge, pr. split; [exact ES|reflexivity]. }
  destruct X as ([w' old] & E & A' & G' & b' & h' & xe & Ae & Ge & pr & ES & EW). cbn [fst] in EW.
  exists w', old. split; [exact E|]. split; [eapply ss_update; eauto|].
  pose proof (fresh_valid L lpv soc ex w Gpr Apr c h b H1 WS NV) as V.
  unfold new_values in NV. pose proof (ws_dat _ _ _ _ _ WS) as DW. pose proof (dw_Gn _ _ _ _ _ _ DW) as Gn. pose proof (dw_Gm _ _ _ _ _ _ DW) as Gm.
  split; [|split].
  - intros amd junk w2 E2. unfold fresh in E2. apply setup_data in E2; try apply V. destruct E2 as [E2 Ec].
    rewrite (set_equilibration_same (w_C w) (new_cone (lpp (w_C w)) (map so_p (co_soc (w_C w))) (nexc (w_C w))) _ _ _ _ _ _ _ (alloc (w_n w)) (alloc (w_p w)) (alloc (w_m w))) in ES.
    + rewrite E2 in ES. injection ES as E1 E3 E4 E5 E6 E7 E8. rewrite EW. wcbn. csplit; auto.
    + reflexivity.
    + cbn. rewrite map_map. cbn. symmetry. apply map_id.
    + unfold nexc. cbn. rewrite repeat_length. reflexivity.
    + rewrite (ws_lxe _ _ _ _ _ WS). pose proof (dw_A _ _ _ _ _ _ DW) as DA. unfold colsA, new_A. destruct (w_A w) as [A|], (ly_At L); try contradiction; [|cbn; auto].
      destruct NV as (_ & (pr0 & -> & _) & _). cbn. apply DA.
    + rewrite (ws_lAe _ _ _ _ _ WS). pose proof (dw_A _ _ _ _ _ _ DW) as DA. unfold rowsA, new_A. destruct (w_A w) as [A|], (ly_At L); try contradiction; [|cbn; auto].
      destruct NV as (_ & (pr0 & -> & _) & _). cbn. apply DA.
    + rewrite (ws_lGe _ _ _ _ _ WS). cbn. auto.
    + rewrite alloc_length, (ws_lxe _ _ _ _ _ WS). apply WS.
    + rewrite alloc_length, (ws_lAe _ _ _ _ _ WS). apply WS.
    + rewrite alloc_length, (ws_lGe _ _ _ _ _ WS). apply WS.
  - intros amd junk AM E2. unfold fresh in E2. destruct (ws_C _ _ _ _ _ WS) as [_ C1 C2 C3].
    destruct (C05_accepts amd junk (w_n w) (w_m w) (w_p w) (lpp (w_C w)) (map so_p (co_soc (w_C w))) (nexc (w_C w)) _ _ _ _ _ V AM) as (r & E3 & M).
    { rewrite C1, C2, C3. rewrite (ws_m _ _ _ _ _ WS). reflexivity. }
    rewrite E2 in E3. injection E3 as <-. destruct M as (jc & ir & M). eauto.
  - rewrite EW. wcbn. csplit; auto. exists pr. reflexivity.
Qed.
Print Assumptions C07_update.

(* In exact arithmetic the KKT matrix of the workspace, before and after the
   update, is the same matrix of the data, with the same conic block V: so
   exactly the entries of A and G have been exchanged. *)
Theorem C07_matrix : forall (w : pwork R) ap Gpr Apr c h b w' old,
  @session ROps w -> @new_values ROps w Gpr Apr c h b -> @ECOS_updateData ROps w ap Gpr Apr c h b = Some (w', old) ->
  let n := w_n w in let p := w_p w in let l := @lpp ROps (w_C w) in let q := map so_p (co_soc (w_C w)) in let N := n + p + w_m w + 2 * length q in
  exists pf V, is_perm N pf /\ vec (kk_Pinv (w_KKT w)) N pf /\
    (forall i j, i <= j -> j < N -> symdense (kk_PKPt (w_KKT w)) (pf i) (pf j) =
      kkt_entry n p (denseA (w_A w)) (dense (w_G w)) (@DELTASTAT ROps) (- @DELTASTAT ROps)%R l q V i j) /\
    (forall i j, i <= j -> j < N -> symdense (kk_PKPt (w_KKT w')) (pf i) (pf j) =
      kkt_entry n p (denseA (w_A w')) (dense (w_G w')) (@DELTASTAT ROps) (- @DELTASTAT ROps)%R l q V i j).
Proof.
  intros w ap Gpr Apr c h b w' old SE NV E n p l q N.
  destruct (@session_layout ROps _ SE) as (L & H1 & (lpv & soc & ex & WS) & BO).
  pose proof (@updateData_wp ROps L lpv soc ex w ap Gpr Apr c h b (fun r => exists At Gt, @ws ROps (@relay ROps L At Gt) lpv soc ex (fst r)) WS NV
    (@updateData_needs ROps _ _ _ _ _ _ _ _ E)) as X.
  unfold wp in X. rewrite E in X.
  assert (X' : exists At Gt, @ws ROps (@relay ROps L At Gt) lpv soc ex w').
  { apply X. intros At Gt A' G' b' h' xe Ae Ge pr _ _ W1. exists At, Gt. exact W1. }
  clear X. destruct X' as (At & Gt & WS').
  destruct (ws_C _ _ _ _ _ WS) as [_ C1 C2 C3]. pose proof (ws_n _ _ _ _ _ WS) as C4. pose proof (ws_m _ _ _ _ _ WS) as C5. pose proof (ws_p _ _ _ _ _ WS) as C6.
  change (@F ROps) with R in C2, C4, C5, C6.
  assert (EN : @ly_nK ROps L = N).
  { unfold N, n, p, q. rewrite C2, C4, C5, C6. unfold ly_nK, ly_mt. lia. }
  pose proof (ws_K _ _ _ _ _ WS) as KW. pose proof (ws_K _ _ _ _ _ WS') as KW'.
  pose proof (@ly_cols_length ROps L lpv soc ex (kw_q _ _ _ _ _ KW) (kw_e _ _ _ _ _ KW)) as LC.
  exists (ly_pf L), (vmat (ly_l L) lpv soc ex). unfold n, p, l, q. rewrite C2.
  replace (@lpp ROps (w_C w)) with (ly_l L) by (symmetry; exact C1). rewrite C4, C6. csplit.
  - rewrite <- EN, <- LC. exact (pt_perm _ _ _ _ (pd_pat _ _ _ _ (kw_perm _ _ _ _ _ KW))).
  - rewrite <- EN. apply (kw_Pinv _ _ _ _ _ KW).
  - intros i j Hij Hj. rewrite <- EN in Hj. exact (kws_entries L _ _ _ _ _ _ _ _ KW H1 (ws_dat _ _ _ _ _ WS) i j Hij Hj).
  - intros i j Hij Hj. rewrite <- EN in Hj. exact (kws_entries (@relay ROps L At Gt) _ _ _ _ _ _ _ _ KW' H1 (ws_dat _ _ _ _ _ WS') i j Hij Hj).
Qed.
Print Assumptions C07_matrix.

(* On a workspace without equalities (A = NULL) the call dereferences the null
   pointer as soon as the new values of G are elsewhere. *)
Theorem C07_refuted_no_equalities : forall `{O : Ops} (w : pwork F) ap Gpr Apr c h b,
  w_A w = None -> ap_G ap = true -> ECOS_updateData w ap Gpr Apr c h b = None.
Proof. intros O w ap Gpr Apr c h b EA EG. unfold ECOS_updateData. rewrite EG, EA. reflexivity. Qed.
Print Assumptions C07_refuted_no_equalities.

(* In exact arithmetic the caller gets the old arrays back as they were before
   setup, if all five new ones are elsewhere. *)
Theorem C07_old_arrays : forall U A0 G0 c h b w w1 Gpr Apr c' h' b' w' old,
  set_up U A0 G0 c h b w -> solved w w1 ->
  @ECOS_updateData XOps w1 (mkApart true true true true true) Gpr Apr c' h' b' = Some (w', old) ->
  old = Some (sp_pr (xmat G0), option_map (fun A => sp_pr (xmat A)) A0, h, b).
Proof.
  intros U A0 G0 c h b w w1 Gpr Apr c' h' b' w' old SU SV E.
  pose proof (C08_equilibration_undone _ _ _ _ _ _ _ _ SU SV) as E1. unfold ECOS_cleanup_data in E1.
  unfold ECOS_updateData in E. change (@F XOps) with (option R) in *. revert E E1. destruct (w_A w1) as [A1|]; intros E E1; cbn [ap_G ap_A ap_c ap_h ap_b andb bind] in E; [|discriminate].
  rewrite E1 in E. cbn [bind] in E. binv E.
  match goal with e : eqvecs |- _ => destruct e as [[xe Ae] Ge] end. binv E. injection E as _ <-. destruct A0; reflexivity.
Qed.
Print Assumptions C07_old_arrays.

(* a mixed problem after setup meets the hypotheses, whatever the new values *)
Example C07_example : forall junk : pwork R, exists w : pwork R, @session ROps w /\ w_A w <> None /\
  forall g a c h b : nat -> R, @new_values ROps w (arr_fun 8 g) (Some (arr_fun 2 a)) (arr_fun 2 c) (arr_fun 7 h) (arr_fun 1 b).
Proof.
  intros junk. destruct (exG_setup junk) as [w E]. exists w. split; [eapply (@ss_setup ROps); [apply exG_valid|apply natural_ok|exact E]|].
  destruct (@setup_inv ROps _ _ _ _ _ _ _ _ _ _ _ _ _ _ exG_valid natural_ok E) as (L & E1 & E2 & E3 & E4 & E5 & E6 & (WS & _ & SG) & SP & SA).
  assert (EA : exists A, w_A w = Some A /\ sp_nnz A = 2).
  { unfold same_patternA in SA. destruct (w_A w) as [A|]; [|destruct SA]. destruct SA as (_ & _ & _ & _ & Ez). exists A. split; [reflexivity|exact Ez]. }
  destruct EA as (A & EA & Ez). destruct SP as (_ & _ & _ & _ & Eg). cbn [exG sp_nnz] in Eg.
  pose proof (ws_n _ _ _ _ _ WS) as F1. pose proof (ws_m _ _ _ _ _ WS) as F2. pose proof (ws_p _ _ _ _ _ WS) as F3.
  rewrite E1 in F1. rewrite E2 in F3. rewrite E6 in F2. clear - EA Ez Eg F1 F2 F3. change (@F ROps) with R in *.
  assert (AF : forall n (f : nat -> R), full (arr_fun n f) n). { intros n f i Hi. eexists. apply get_arr_fun. exact Hi. }
  split; [rewrite EA; discriminate|]. intros. unfold new_values. change (@F ROps) with R. rewrite EA, F1, F2, F3, Eg. csplit; try apply AF.
  eexists. split; [reflexivity|]. rewrite Ez. apply AF.
Qed.

(* ------------------------------------------------------------------- C39 *)

Lemma set_equilibration_h `{O : Ops} C A G b h eq A' G' b' h' xe Ae Ge :
  set_equilibration C A G b h eq = Some (A', G', b', h', (xe, Ae, Ge)) ->
  div_all (sp_m G) Ge h = Some h' /\
  forall h2 h2', div_all (sp_m G) Ge h2 = Some h2' -> set_equilibration C A G b h2 eq = Some (A', G', b', h2', (xe, Ae, Ge)).
Proof.
  intros E. unfold set_equilibration in *. destruct eq as [[xe0 Ae0] Ge0]. binv E.
  match goal with e : eqvecs |- _ => destruct e as [[xe1 Ae1] Ge1] end. binv E. injection E as <- <- <- <- <- <- <-.
  split; [assumption|]. intros h2 h2' H2. cbn [bind]. rewrite E3. cbn [bind]. rewrite E4. cbn [bind]. rewrite H2. reflexivity.
Qed.

(* Setting one entry of h after setup is the same as having passed the changed h
   to setup: the workspaces agree in all data and scaling factors. *)
Theorem C39_entry_h : forall `{O : Ops} amd junk junk2 n m p l q e G0 A0 c h b w idx v h2 w2,
  valid_data n m p q G0 A0 c h b -> amd_ok amd -> idx < m ->
  ECOS_setup amd junk n m p l q e (data_of G0) (option_map data_of A0) c h b = Some (Some w) ->
  set h idx v = Some h2 ->
  ECOS_setup amd junk2 n m p l q e (data_of G0) (option_map data_of A0) c h2 b = Some (Some w2) ->
  exists w', ecos_updateDataEntry_h w idx v = Some w' /\ w' = set_w_h w (w_h w2) /\
    w_A w' = w_A w2 /\ w_G w' = w_G w2 /\ w_c w' = w_c w2 /\ w_b w' = w_b w2 /\
    w_xequil w' = w_xequil w2 /\ w_Aequil w' = w_Aequil w2 /\ w_Gequil w' = w_Gequil w2.
Proof.
  intros O amd junk junk2 n m p l q e G0 A0 c h b w idx v h2 w2 V AM Hi E E2 E3. pose proof (full_len _ _ (vd_h _ _ _ _ _ _ _ _ _ V)) as LH.
  destruct (setup_inv _ _ _ _ _ _ _ _ _ _ _ _ _ _ V AM E) as (L & En & Ep & _ & _ & _ & Em & (WS & _) & SP & SA).
  apply setup_data in E; try apply V. apply setup_data in E3; try apply V. destruct E as [E Ec], E3 as [E3 Ec3].
  apply set_equilibration_h in E as (D1 & IND). apply set_inv in E2 as (Li & L2 & G2).
  pose proof (ws_Ge _ _ _ _ _ WS) as FG. rewrite Em in FG.
  pose proof (full_vec f0 _ _ FG) as VG. pose proof (full_vec f0 _ _ (vd_h _ _ _ _ _ _ _ _ _ V)) as VH.
  rewrite (vd_Gm _ _ _ _ _ _ _ _ _ V) in *.
  assert (VH2 : vec h2 m (fun i => if Nat.eqb i idx then v else gd f0 h i)). { intros i Hm. rewrite G2. destruct (Nat.eqb i idx); auto. }
  destruct (div_all_eq m _ h _ _ VG VH) as (h1' & D1' & L1' & V1' & O1'). rewrite D1 in D1'. injection D1' as <-.
  destruct (div_all_eq m _ h2 _ _ VG VH2) as (h2' & D2' & L2' & V2' & O2').
  apply IND in D2'. rewrite E3 in D2'. injection D2' as E4 E5 E6 E7 E8 E9 E10.
  unfold ecos_updateDataEntry_h. destruct (FG idx Hi) as [g Hg]. rewrite Hg. cbn [bind].
  unfold set. destruct (Nat.ltb_spec idx (length (w_h w))) as [Lt|Ge]; [|lia]. cbn [bind]. eexists. split; [reflexivity|].
  assert (EH : upd (w_h w) idx (Some (v / g)%fl) = w_h w2).
  { rewrite E7. apply arr_ext; [rewrite upd_length; congruence|]. intros i. rewrite get_upd by auto. destruct (Nat.lt_ge_cases i m) as [H|H].
    - rewrite V2', V1' by auto. destruct (Nat.eqb_spec i idx) as [->|]; auto. rewrite (gd_get _ _ _ _ Hg). auto.
    - destruct (Nat.eqb_spec i idx); [lia|]. rewrite O1', O2' by auto. rewrite G2. destruct (Nat.eqb_spec i idx); [lia|auto]. }
  split; [rewrite EH; reflexivity|]. wcbn. csplit; congruence.
Qed.
Print Assumptions C39_entry_h.

(* The same for c, which setup leaves alone. *)
Theorem C39_entry_c : forall `{O : Ops} amd junk junk2 n m p l q e G0 A0 c h b w idx v c2 w2,
  valid_data n m p q G0 A0 c h b -> amd_ok amd ->
  ECOS_setup amd junk n m p l q e (data_of G0) (option_map data_of A0) c h b = Some (Some w) ->
  set c idx v = Some c2 ->
  ECOS_setup amd junk2 n m p l q e (data_of G0) (option_map data_of A0) c2 h b = Some (Some w2) ->
  exists w', ecos_updateDataEntry_c w idx v = Some w' /\ w' = set_w_c w (w_c w2) /\
    w_A w' = w_A w2 /\ w_G w' = w_G w2 /\ w_h w' = w_h w2 /\ w_b w' = w_b w2 /\
    w_xequil w' = w_xequil w2 /\ w_Aequil w' = w_Aequil w2 /\ w_Gequil w' = w_Gequil w2.
Proof.
  intros O amd junk junk2 n m p l q e G0 A0 c h b w idx v c2 w2 V AM E E2 E3.
  apply setup_data in E; try apply V. apply setup_data in E3; try apply V. destruct E as [E Ec], E3 as [E3 Ec3].
  rewrite E in E3. injection E3 as F1 F2 F3 F4 F5 F6 F7. unfold ecos_updateDataEntry_c. rewrite Ec, E2. cbn [bind].
  eexists. split; [reflexivity|]. wcbn. rewrite Ec3. csplit; auto.
Qed.
Print Assumptions C39_entry_c.

(* Both calls succeed on every workspace in use, and change nothing else. *)
Theorem C39_entry_total : forall `{O : Ops} (w : pwork F) idx v, session w ->
  (idx < w_m w -> exists h, ecos_updateDataEntry_h w idx v = Some (set_w_h w h) /\ length h = length (w_h w) /\
     (forall i, i <> idx -> get h i = get (w_h w) i) /\ exists g, get (w_Gequil w) idx = Some g /\ get h idx = Some (v / g)%fl) /\
  (idx < w_n w -> exists c, ecos_updateDataEntry_c w idx v = Some (set_w_c w c) /\ length c = length (w_c w) /\
     (forall i, i <> idx -> get c i = get (w_c w) i) /\ get c idx = Some v).
Proof.
  intros O w idx v SE. destruct (session_layout _ SE) as (L & H1 & (lpv & soc & ex & WS) & BO). split; intros Hi.
  - rewrite (ws_m _ _ _ _ _ WS) in Hi. destruct (ws_Ge _ _ _ _ _ WS idx Hi) as [g Hg]. pose proof (full_len _ _ (ws_h _ _ _ _ _ WS)) as LH.
    unfold ecos_updateDataEntry_h. rewrite Hg. cbn [bind]. destruct (set (w_h w) idx (v / g)%fl) as [h|] eqn:ES.
    2:{ unfold set in ES. destruct (Nat.ltb_spec idx (length (w_h w))); [discriminate|lia]. }
    cbn [bind]. apply set_inv in ES as (A & B & D). exists h. csplit; auto.
    + intros i Ne. rewrite D. destruct (Nat.eqb_spec i idx); [contradiction|auto].
    + exists g. split; auto. rewrite D, Nat.eqb_refl. auto.
  - rewrite (ws_n _ _ _ _ _ WS) in Hi. pose proof (full_len _ _ (ws_c _ _ _ _ _ WS)) as LH.
    unfold ecos_updateDataEntry_c. destruct (set (w_c w) idx v) as [h|] eqn:ES.
    2:{ unfold set in ES. destruct (Nat.ltb_spec idx (length (w_c w))); [discriminate|lia]. }
    cbn [bind]. apply set_inv in ES as (A & B & D). exists h. csplit; auto.
    + intros i Ne. rewrite D. destruct (Nat.eqb_spec i idx); [contradiction|auto].
    + rewrite D, Nat.eqb_refl. auto.
Qed.
Print Assumptions C39_entry_total.

Definition exh (v : R) : arr R := arr_of [1; 1; 1; v; 1; 1; 1]%R.
Example C39_example : forall (junk : pwork R) v, set (exh 1) 3 v = Some (exh v) /\ exists w,
  valid_data 2 7 1 [3] exG (Some exA) (arr_of [1; 1]%R) (exh v) (arr_of [1%R]) /\
  @ECOS_setup ROps natural junk 2 7 1 1 [3] 1 (data_of exG) (Some (data_of exA)) (arr_of [1; 1]%R) (exh v) (arr_of [1%R]) = Some (Some w).
Proof.
  intros junk v. split; [reflexivity|].
  assert (V : valid_data 2 7 1 [3] exG (Some exA) (arr_of [1; 1]%R) (exh v) (arr_of [1%R])).
  { destruct exG_valid. constructor; auto. intros i Hi. do 7 (destruct i as [|i]; [eexists; reflexivity|]). lia. }
  destruct (@C05_accepts ROps natural junk 2 7 1 1 [3] 1 exG (Some exA) _ _ _ V natural_ok eq_refl) as ([w2|] & E2 & H); [|destruct H as (jc & ir & H); discriminate].
  exists w2. split; [exact V|exact E2].
Qed.
