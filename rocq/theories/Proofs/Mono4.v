(* The definedness order, last part: initialisation, iterations and ECOS_solve on
   workspaces that hold the same problem. *)
From Coq Require Import List Arith Bool ZArith QArith Lia.
From Verif Require Import Base Num.
From Verif.Model Require Import Spla Splamm Types Consts Expcone Cone Ldl Kkt Equil Preproc Ecos.
From Verif.Spec Require Import Matrix Fill KktSpec KktMatrix Shape SetupSpec.
From Verif.Proofs Require Import SplaP LoopLib SplammP LdlSym LdlNum KktAsm KktMat ConeP ScalP Scal2P LineP KktUpd Layout EquilP Work WorkUpd
  SafeLib Stretch SafeK KktErr SafeE SafeW SafeV ExitP LoopP SafeU Mono Mono2 Mono3.
Import ListNotations.
Open Scope nat_scope.

Lemma rel_wp {T} (R : T -> T -> Prop) (P P' : T -> Prop) m m' : rel R m m' -> wp m P -> wp m' P' ->
  rel (fun x x' => R x x' /\ P x /\ P' x') m m'.
Proof.
  intros H W1 W2 x E. destruct (H x E) as (x' & E' & Hr). exists x'. rewrite E in W1. rewrite E' in W2. cbn in W1, W2. auto.
Qed.

Section MonoU.
Context `{O : Ops}.
Notation A := (arr F).
Notation W := (pwork F).
Variable L : lay.
Hypothesis H1 : forall d, In d (ly_q L) -> 1 <= d.
Variable w0 : W.
Notation leW := (leW w0).
Hint Resolve copy_mono scatter_mono rel_same rhs_conic_mono : mono.

Lemma csim_sym (C C' : cone F) : csim C C' -> symC C' = symC C.
Proof.
  intros [A1 A2 _ _ A3 A4 A5]. unfold symC. rewrite A1, A2, A5. f_equal. f_equal; [f_equal|].
  - induction A3 as [|c c' l l' H HF IH]; cbn [map]; auto. rewrite IH. f_equal. destruct H as (? & ? & ?). f_equal; intuition congruence.
  - induction A4 as [|c c' l l' H HF IH]; cbn [map]; auto. rewrite IH. f_equal. destruct H as (? & ? & ?). intuition congruence.
Qed.

(* the matrix values are all reached through PK *)
Lemma kws_sub lpv soc ex lpv1 soc1 ex1 K cols A0 G atk gtk (a a' : A) : kws L lpv soc ex K -> dws L cols A0 G atk gtk ->
  kws L lpv1 soc1 ex1 (set_kk_PKPt K (with_pr (kk_PKPt K) a)) -> kv (concat (ly_cols L lpv1 soc1 ex1)) (kk_PK K) a' ->
  length a = sp_nnz (kk_PKPt K) -> sub a a'.
Proof.
  intros KW D KWa KVa' La i v Ei. pose proof (kw_perm _ _ _ _ _ KWa) as P. wcbn in P.
  assert (OK : allc (okc False) 0 (ly_cols L lpv1 soc1 ex1)) by (eapply kws_okc; eauto).
  apply get_lt in Ei as Hi. destruct (pm_surj _ _ _ _ P _ OK i) as (j & t & Ht & Et); [cbn [with_pr sp_nnz]; lia|].
  destruct (pt_ent _ _ _ _ (pd_pat _ _ _ _ P) j t Ht) as [EP _]. rewrite Et in EP.
  pose proof (in_col_nnz _ _ _ (pm_wfM _ _ OK) Ht) as Hn. cbn [mat_of sp_nnz] in Hn.
  destruct (nth_error (concat (ly_cols L lpv1 soc1 ex1)) t) as [e|] eqn:En; [|apply nth_error_None in En; lia].
  destruct (kv_val _ _ _ (pd_val _ _ _ _ P) t e En) as (k1 & A1 & A2). destruct (kv_val _ _ _ KVa' t e En) as (k2 & B1 & B2). cbn [with_pr sp_pr] in A2. congruence.
Qed.

Definition sized (K : kkt F) : Prop := length (sp_pr (kk_PKPt K)) = sp_nnz (kk_PKPt K).

Lemma same_sized w : same w0 w -> sized (w_KKT w0) -> sized (w_KKT w).
Proof. intros S. pose proof (sm_K _ _ S) as E. unfold symP in E. injection E as E1 E2 E3 E4 E5 E6 _ _ _ _ _ _ _ _ _. unfold sized. congruence. Qed.

Lemma kupd_rel lv lpv soc ex lpv' soc' ex' w w' C C' : sized (w_KKT w0) -> leW lv w w' -> ws L lpv soc ex w -> ws L lpv' soc' ex' w' ->
  csim (w_C w) C -> kready C -> le C C' ->
  rel (fun a a' => sub a a' /\ length a = length (sp_pr (kk_PKPt (w_KKT w))) /\ length a' = length (sp_pr (kk_PKPt (w_KKT w'))))
    (kkt_update (sp_pr (kk_PKPt (w_KKT w))) (kk_PK (w_KKT w)) C) (kkt_update (sp_pr (kk_PKPt (w_KKT w'))) (kk_PK (w_KKT w')) C').
Proof.
  intros SZ H WS WS' SIM KR HC a Ea. pose proof (ws_cone L lpv soc ex w C WS SIM) as WC.
  pose proof (ws_C _ _ _ _ _ WC) as CO. pose proof (ws_ix _ _ _ _ _ WC) as IX. wcbn in CO. wcbn in IX.
  pose proof (ws_K _ _ _ _ _ WS) as KW. pose proof (ws_K _ _ _ _ _ WS') as KW'.
  pose proof (ly_same L lpv soc ex lpv' soc' ex' (kw_q _ _ _ _ _ KW) (kw_q _ _ _ _ _ KW') (kw_e _ _ _ _ _ KW) (kw_e _ _ _ _ _ KW')) as SP.
  pose proof (kws_update_wp L lpv soc ex _ C KW CO IX KR) as U. rewrite Ea in U. cbn in U. destruct U as [La KWa].
  pose proof (kws_update_wp L lpv' soc' ex' _ C KW' CO (indexed_same _ _ _ _ _ _ SP IX) KR) as U. apply wp_elim in U. destruct U as (a2 & E2 & L2 & KW2).
  destruct (kkt_update_mono (kk_PK (w_KKT w')) C C' _ _ HC (le_refl_arr (sp_pr (kk_PKPt (w_KKT w')))) a2 E2) as (a' & Ea' & [L3 S3]).
  exists a'. split; auto. split; [|split; [auto|congruence]]. intros i v Ei. apply S3.
  refine (kws_sub _ _ _ _ _ _ _ _ _ _ _ _ _ _ KW (ws_dat _ _ _ _ _ WS) KWa _ _ i v Ei).
  - pose proof (pd_val _ _ _ _ (kw_perm _ _ _ _ _ KW2)) as V. cbn [set_kk_PKPt kk_PK kk_PKPt with_pr sp_pr] in V. rewrite (lk_PK _ _ (lw_K _ _ _ _ H)). exact V.
  - rewrite La. apply (same_sized w); auto. apply (lw_s _ _ _ _ H).
Qed.

Lemma kinit_rel lv lpv soc ex lpv' soc' ex' w w' : sized (w_KKT w0) -> leW lv w w' -> ws L lpv soc ex w -> ws L lpv' soc' ex' w' ->
  rel (fun a a' => (nexc (w_C w) = 0 -> sub a a') /\ length a = length (sp_pr (kk_PKPt (w_KKT w))) /\ length a' = length (sp_pr (kk_PKPt (w_KKT w'))))
    (kkt_init (sp_pr (kk_PKPt (w_KKT w))) (kk_PK (w_KKT w)) (w_C w)) (kkt_init (sp_pr (kk_PKPt (w_KKT w'))) (kk_PK (w_KKT w')) (w_C w')).
Proof.
  intros SZ H WS WS' a Ea. pose proof (ws_C _ _ _ _ _ WS) as CO. pose proof (ws_ix _ _ _ _ _ WS) as IX.
  pose proof (ws_K _ _ _ _ _ WS) as KW. pose proof (ws_K _ _ _ _ _ WS') as KW'.
  pose proof (kws_init_wp L lpv soc ex _ _ KW CO IX) as U. rewrite Ea in U. cbn in U. destruct U as [La KWa].
  pose proof (kws_init_wp L lpv' soc' ex' _ _ KW' (ws_C _ _ _ _ _ WS') (ws_ix _ _ _ _ _ WS')) as U. apply wp_elim in U. destruct U as (a' & E2 & L2 & KW2).
  exists a'. split; auto. split; [|split; auto]. intros NE.
  refine (kws_sub _ _ _ _ _ _ _ _ _ _ _ _ _ _ KW (ws_dat _ _ _ _ _ WS) KWa _ _).
  - pose proof (pd_val _ _ _ _ (kw_perm _ _ _ _ _ KW2)) as V. cbn [set_kk_PKPt kk_PK kk_PKPt with_pr sp_pr] in V. rewrite (lk_PK _ _ (lw_K _ _ _ _ H)).
    assert (ES : soc_units (w_C w) = soc_units (w_C w')).
    { unfold soc_units. pose proof (le_socs _ _ (lw_C _ _ _ _ H)) as HS. induction HS as [|c c' l l' Hc HF IH]; cbn [map]; auto.
      rewrite IH. f_equal. f_equal. apply Hc. }
    assert (EX : ex = [] /\ ex' = []).
    { pose proof (kw_e _ _ _ _ _ KW) as X. pose proof (kw_e _ _ _ _ _ KW') as X'. pose proof (co_e _ _ _ _ CO) as Y. rewrite NE in Y. rewrite <- Y in X, X'.
      split; apply length_zero_iff_nil; auto. }
    destruct EX as [-> ->]. rewrite ES. exact V.
  - rewrite La. apply (same_sized w); auto. apply (lw_s _ _ _ _ H).
Qed.

Lemma scal_sim lpv soc ex w r : ws L lpv soc ex w -> at_pt L w ->
  updateScalings (w_C w) (w_s w) (w_z w) (w_lambda w) (st_mu (w_info w)) = Some r ->
  csim (w_C w) (snd (fst r)) /\ (fst (fst r) = false -> kready (snd (fst r))).
Proof.
  intros WS [PX PY PZ PS] E. pose proof (ws_msize L WS) as EM. pose proof (ws_hm L WS) as HM.
  destruct (updateScalings_eq (w_C w) (w_s w) (w_z w) (gd f0 (w_s w)) (gd f0 (w_z w)) (w_lambda w) (st_mu (w_info w))) as (C' & la & Eu & SIM & Ll & HT & HF);
    [apply (co_shape _ _ _ _ (ws_C _ _ _ _ _ WS))|rewrite EM; apply full_vecd; auto|rewrite EM; apply full_vecd; auto|destruct WS; lia|].
  rewrite E in Eu. injection Eu as ->. cbn [fst snd]. split; auto. intros G. destruct (HF G) as [UP _]. apply scaled_ready. eapply updated_scaled; eauto.
Qed.

Ltac fin5 H := constructor; wcbn;
  first [ assumption | exact (lw_s _ _ _ _ H) | exact (lw_s' _ _ _ _ H) | exact (lw_c _ _ _ _ H) | reflexivity | exact (lw_x _ _ _ _ H) | exact (lw_y _ _ _ _ H)
   | exact (lw_z _ _ _ _ H) | exact (lw_sl _ _ _ _ H) | exact (lw_la _ _ _ _ H) | exact (lw_bx _ _ _ _ H) | exact (lw_by _ _ _ _ H) | exact (lw_bz _ _ _ _ H)
   | exact (lw_bs _ _ _ _ H) | exact (lw_best _ _ _ _ H) | exact (lw_ds _ _ _ _ H) | exact (lw_wd _ _ _ _ H) | exact (lw_dw _ _ _ _ H) | exact (lw_rx _ _ _ _ H)
   | exact (lw_ry _ _ _ _ H) | exact (lw_rz _ _ _ _ H) | exact (lw_C _ _ _ _ H) | exact (lw_K _ _ _ _ H) | idtac ].

(* the same at level 0 *)
Ltac fin0 H := fin5 H;
  first [ let G := fresh in intros G; exfalso; clear - G; lia
   | let E := fresh "E" in pose proof (lw_s _ _ _ _ H) as E; destruct E; constructor; wcbn; assumption
   | let E := fresh "E" in pose proof (lw_s' _ _ _ _ H) as E; destruct E; constructor; wcbn; assumption ].

(* a new cone and scaled point *)
Lemma leW_cone lv w w' C C' la la' : leW lv w w' -> le C C' -> le la la' -> symC C = symC (w_C w) -> symC C' = symC (w_C w') ->
  leW lv (set_w_lambda (set_w_C w C) la) (set_w_lambda (set_w_C w' C') la').
Proof.
  intros H HC HL SC SC'. pose proof (lw_s _ _ _ _ H) as HS. pose proof (lw_s' _ _ _ _ H) as HS'.
  pose proof (eq_trans SC (sm_C _ _ HS)). pose proof (eq_trans SC' (sm_C _ _ HS')).
  fin5 H.
  - destruct HS; constructor; wcbn; assumption.
  - destruct HS'; constructor; wcbn; assumption.
  - intros G. destruct (lw_1 _ _ _ _ H G); constructor; wcbn; assumption.
  - intros G. exact (lw_2 _ _ _ _ H G).
  - intros G. destruct (lw_3 _ _ _ _ H G); constructor; wcbn; assumption.
  - intros G. exact (lw_4 _ _ _ _ H G).
Qed.

(* a new KKT structure *)
Lemma leW_kkt lv w w' K K' : leW lv w w' -> leK K K' -> symP K = symP (w_KKT w) -> symP K' = symP (w_KKT w') -> leW lv (set_w_KKT w K) (set_w_KKT w' K').
Proof.
  intros H HK SC SC'. pose proof (lw_s _ _ _ _ H) as HS. pose proof (lw_s' _ _ _ _ H) as HS'.
  pose proof (eq_trans SC (sm_K _ _ HS)). pose proof (eq_trans SC' (sm_K _ _ HS')).
  fin5 H.
  - destruct HS; constructor; wcbn; assumption.
  - destruct HS'; constructor; wcbn; assumption.
  - intros G. destruct (lw_1 _ _ _ _ H G); constructor; wcbn; assumption.
  - intros G. exact (lw_2 _ _ _ _ H G).
  - intros G. destruct (lw_3 _ _ _ _ H G); constructor; wcbn; assumption.
  - intros G. exact (lw_4 _ _ _ _ H G).
Qed.

Lemma leK_pr (K K' : kkt F) a a' : leK K K' -> leK (set_kk_PKPt K (with_pr (kk_PKPt K) a)) (set_kk_PKPt K' (with_pr (kk_PKPt K') a')).
Proof. intros []; constructor; wcbn; assumption. Qed.
Lemma symP_pr (K : kkt F) a : length a = length (sp_pr (kk_PKPt K)) -> symP (set_kk_PKPt K (with_pr (kk_PKPt K) a)) = symP K.
Proof. intros E. unfold symP. wcbn. cbn [with_pr sp_pr sp_jc sp_ir sp_n sp_m sp_nnz]. rewrite E. reflexivity. Qed.

Lemma iter_step_mono lpv soc ex lpv' soc' ex' w w' : sized (w_KKT w0) -> leW 3 w w' -> ws L lpv soc ex w -> ws L lpv' soc' ex' w' -> at_pt L w -> at_pt L w' ->
  rel (fun a a' => fst a = fst a' /\ leW 3 (snd a) (snd a')) (iter_step w) (iter_step w').
Proof.
  intros SZ H WS WS' PT PT'. cbv beta delta [iter_step].
  pose proof (s3_mu _ _ (lw_3 _ _ _ _ H ltac:(lia))) as Emu.
  eapply rel_bind.
  { apply rel_eqs. rewrite Emu. apply updateScalings_mono; [apply (lw_C _ _ _ _ H)|apply (lw_sl _ _ _ _ H)|apply (lw_z _ _ _ _ H)|apply (lw_la _ _ _ _ H)]. }
  intros [[out C] la] [[out' C'] la'] (Hr & Eu & Eu'). apply le_pair_inv in Hr as [Hr Hla]. apply le_pair_inv in Hr as [Ho HC]. change (out = out') in Ho. subst out'.
  destruct (scal_sim _ _ _ _ _ WS PT Eu) as [SIM KR]. destruct (scal_sim _ _ _ _ _ WS' PT' Eu') as [SIM' _]. cbn [fst snd] in *. clear Eu Eu'.
  cbv zeta. pose proof (leW_cone 3 w w' C C' la la' H HC Hla (csim_sym _ _ SIM) (csim_sym _ _ SIM')) as HW1.
  destruct out.
  - eapply rel_bind; [apply (restoreBestIterate_mono w0 3); [exact HW1|lia]|]. clear. intros w w' H.
    destruct (checkExit_mono w0 3 w w' ECOS_INACC_OFFSET H ltac:(lia)) as [E1 E2]. destruct (checkExitConditions w _) as [c u]. destruct (checkExitConditions w' _) as [c' u'].
    cbn [fst snd] in *. subst c'. apply rel_ret. auto.
  - specialize (KR eq_refl). wcbn. eapply rel_bind; [apply (kupd_rel 3 lpv soc ex lpv' soc' ex' w w' C C' SZ H WS WS' SIM KR HC)|].
    intros a a' (Sa & La & La'). rewrite (sm_stgs _ _ (lw_s _ _ _ _ H)), (sm_stgs _ _ (lw_s' _ _ _ _ H)).
    eapply rel_bind; [apply kkt_factor_mono; [apply leK_pr; apply (lw_K _ _ _ _ H)|exact Sa]|].
    intros [ok K2] [ok' K2'] (E & HK2 & S2 & S2'). cbn [fst snd] in *. subst ok'.
    assert (HW2 : leW 3 (set_w_KKT (set_w_lambda (set_w_C w C) la) K2) (set_w_KKT (set_w_lambda (set_w_C w' C') la') K2')).
    { apply leW_kkt; auto; wcbn.
      - rewrite (symK_P _ _ S2). apply symP_pr; auto.
      - rewrite (symK_P _ _ S2'). apply symP_pr; auto. }
    revert HW2. generalize (set_w_KKT (set_w_lambda (set_w_C w C) la) K2) (set_w_KKT (set_w_lambda (set_w_C w' C') la') K2'). clear. intros w w' H.
    destruct ok; cbn [negb]; [|apply rel_ret; auto].
    eapply rel_bind; [apply (solve1_mono w0 3); [exact H|lia]|]. clear. intros w w' H.
    eapply rel_bind; [apply (affine_dir_mono w0); exact H|]. clear. intros [[[a b] c] w] [[[a' b'] c'] w'] [E H]. cbn [fst snd] in *. injection E as <- <- <-.
    eapply rel_bind; [apply (combined_dir_mono w0); exact H|]. clear. intros [[[g d] e] w] [[[g' d'] e'] w'] [E H]. cbn [fst snd] in *. injection E as <- <- <-.
    apply (leW_down w0 4 3) in H; [|lia]. destruct g; cbn [negb].
    + eapply rel_bind; [apply (take_step_mono w0 3); [exact H|lia]|]. clear. intros w w' H. apply rel_ret. auto.
    + eapply rel_bind; [apply (recover_mono w0 3); [exact H|lia]|]. clear. intros [i w] [i' w'] [E H]. cbn [fst snd] in *. subst. apply rel_ret. auto.
Qed.

Definition res0 (w : W) := (w_resx0 w, w_resy0 w, w_resz0 w).

Lemma init_rhs_mono lpv soc ex lpv' soc' ex' w w' : sized (w_KKT w0) -> leW 0 w w' -> ws L lpv soc ex w -> ws L lpv' soc' ex' w' ->
  rel (fun a a' => leW 0 a a' /\ res0 a' = res0 a /\ (nexc (w_C a) = 0 -> sub (sp_pr (kk_PKPt (w_KKT a))) (sp_pr (kk_PKPt (w_KKT a')))))
    (init_rhs w) (init_rhs w').
Proof.
  intros SZ H WS WS'. cbv beta delta [init_rhs]. cbv zeta. wcbn.
  eapply rel_bind; [apply (kinit_rel 0 lpv soc ex lpv' soc' ex' w w' SZ H WS WS')|]. intros a a' (Sa & La & La').
  pose proof (lw_s _ _ _ _ H) as HS. pose proof (lw_s' _ _ _ _ H) as HS'. pose proof (lw_K _ _ _ _ H) as HK. pose proof (lw_C _ _ _ _ H) as HC.
  cbn [with_pr sp_n].
  rewrite (sm_n _ _ HS), (sm_n _ _ HS'), (sm_p _ _ HS), (sm_p _ _ HS'), (sm_m _ _ HS), (sm_m _ _ HS'), (sm_b _ _ HS), (sm_b _ _ HS'), (sm_h _ _ HS), (sm_h _ _ HS'), (lw_c _ _ _ _ H).
  rewrite <- (lk_Pinv _ _ HK), <- (lk_n _ _ HK). pose proof (lk_r1 _ _ HK). pose proof (lk_r2 _ _ HK).
  pose proof (le_refl_arr (w_c w)). pose proof (le_refl_arr (w_b w0)). pose proof (le_refl_arr (w_h w0)).
  mono1; [apply scatter_mono; auto; intros; mono|]. mono1; [apply scatter_mono; auto; intros; mono|]. mono1; [apply rhs_conic_mono; auto; intros; mono|].
  mono1; [apply scatter_mono; auto; intros; mono|]. mono1; [apply scatter_mono; auto; intros; mono|].
  mono1; [mono|]. mono1; [mono|]. mono1; [mono|]. apply rel_ret. csplit; wcbn; auto.
  assert (HK' : leK (set_kk_RHS2 (set_kk_RHS1 (set_kk_PKPt (set_kk_delta (w_KKT w) (sg_delta (w_stgs w))) (with_pr (kk_PKPt (w_KKT w)) a)) x1) x3)
     (set_kk_RHS2 (set_kk_RHS1 (set_kk_PKPt (set_kk_delta (w_KKT w') (sg_delta (w_stgs w'))) (with_pr (kk_PKPt (w_KKT w')) a')) y1) y3)).
  { destruct HK; constructor; wcbn; assumption. }
  pose proof (leW_kkt 0 w w' _ _ H HK') as HW. specialize (HW (symP_pr _ _ La) (symP_pr _ _ La')).
  fin0 HW.
Qed.

Lemma init_mehrotra_mono w w' : leW 0 w w' -> res0 w' = res0 w -> sub (sp_pr (kk_PKPt (w_KKT w))) (sp_pr (kk_PKPt (w_KKT w'))) ->
  rel (fun a a' => fst a = fst a' /\ leW 0 (snd a) (snd a') /\ res0 (snd a') = res0 (snd a) /\
      (fst a = true -> st_nitref1 (w_info (snd a')) = st_nitref1 (w_info (snd a)) /\ st_nitref2 (w_info (snd a')) = st_nitref2 (w_info (snd a))))
    (init_mehrotra w) (init_mehrotra w').
Proof.
  intros H HR Sp. cbv beta delta [init_mehrotra set_info]. cbv zeta. wcbn.
  pose proof (lw_s _ _ _ _ H) as HS. pose proof (lw_s' _ _ _ _ H) as HS'. pose proof (lw_C _ _ _ _ H) as HC.
  rewrite (sm_n _ _ HS), (sm_n _ _ HS'), (sm_p _ _ HS), (sm_p _ _ HS'), (sm_m _ _ HS), (sm_m _ _ HS'), (sm_A _ _ HS), (sm_A _ _ HS'), (sm_G _ _ HS), (sm_G _ _ HS'), (sm_stgs _ _ HS), (sm_stgs _ _ HS').
  eapply rel_bind; [apply kkt_factor_mono; [apply (lw_K _ _ _ _ H)|exact Sp]|].
  intros [ok K2] [ok' K2'] (E & HK2 & S2 & S2'). cbn [fst snd] in *. subst ok'. wcbn.
  pose proof (leW_kkt 0 w w' _ _ H HK2 (symK_P _ _ S2) (symK_P _ _ S2')) as H2.
  destruct ok; cbn [negb]; [|apply rel_ret; cbn [fst snd]; csplit; auto; discriminate].
  eapply rel_bind; [apply kkt_solve_mono; auto; apply HK2|]. intros [[[[i K3] x] y] z] [[[[i' K3'] x'] y'] z'] (<- & HK3 & S3 & S3' & Hx & Hy & Hz). wcbn.
  pose proof (lk_w1 _ _ HK3). pose proof (lw_x _ _ _ _ H). pose proof (lw_y _ _ _ _ H). pose proof (lw_z _ _ _ _ H). pose proof (lw_sl _ _ _ _ H).
  mono1; [mono|]. mono1; [mono|]. mono1; [mono|].
  eapply rel_bind; [apply kkt_solve_mono; auto; [destruct HK3; constructor; wcbn; assumption|apply HK3|apply HK3|apply HK3|apply HK3]|].
  intros [[[[j K4] u] v] q] [[[[j' K4'] u'] v'] q'] (<- & HK4 & S4 & S4' & Hu & Hv & Hq). wcbn.
  mono1; [mono|]. mono1; [mono|]. apply rel_ret. cbn [fst snd]. csplit; auto.
  assert (HK5 : leK (set_kk_dz2 (set_kk_dy2 (set_kk_dx2 K4 u) v) q) (set_kk_dz2 (set_kk_dy2 (set_kk_dx2 K4' u') v') q')) by (destruct HK4; constructor; wcbn; assumption).
  pose proof (leW_kkt 0 w w' _ _ H HK5) as HW.
  assert (P5 : symP (set_kk_dz2 (set_kk_dy2 (set_kk_dx2 K4 u) v) q) = symP (w_KKT w)).
  { transitivity (symP K4); [reflexivity|]. rewrite (symK_P _ _ S4). etransitivity; [|exact (eq_trans (symK_P _ _ S3) (symK_P _ _ S2))]. reflexivity. }
  assert (P5' : symP (set_kk_dz2 (set_kk_dy2 (set_kk_dx2 K4' u') v') q') = symP (w_KKT w')).
  { transitivity (symP K4'); [reflexivity|]. rewrite (symK_P _ _ S4'). etransitivity; [|exact (eq_trans (symK_P _ _ S3') (symK_P _ _ S2'))]. reflexivity. }
  specialize (HW P5 P5'). fin0 HW.
Qed.

Lemma fill_mono k v (a a' : A) : le a a' -> rel le (Equil.fill k v a) (Equil.fill k v a').
Proof. intros. cbv beta delta [Equil.fill]. mono. Qed.

Lemma init_unit_mono w w' : leW 0 w w' -> res0 w' = res0 w ->
  rel (fun a a' => leW 0 a a' /\ res0 a' = res0 a /\ st_nitref1 (w_info a') = st_nitref1 (w_info a) /\ st_nitref2 (w_info a') = st_nitref2 (w_info a))
    (init_unit w) (init_unit w').
Proof.
  intros H HR. cbv beta delta [init_unit set_info]. cbv zeta. pose proof (lw_s _ _ _ _ H) as HS. pose proof (lw_s' _ _ _ _ H) as HS'.
  rewrite (sm_n _ _ HS), (sm_n _ _ HS'), (sm_p _ _ HS), (sm_p _ _ HS').
  mono1; [apply unitInitialization_mono; apply H|]. mono1; [apply fill_mono; apply H|]. mono1; [apply fill_mono; apply H|]. apply rel_ret. csplit; auto. fin0 H.
Qed.

Lemma init_mono lpv soc ex lpv' soc' ex' w w' : sized (w_KKT w0) -> leW 0 w w' -> ws L lpv soc ex w -> ws L lpv' soc' ex' w' ->
  rel (fun a a' => fst a = fst a' /\ (fst a = true -> leW 1 (snd a) (snd a'))) (init w) (init w').
Proof.
  intros SZ H WS WS'. cbv beta delta [init]. eapply rel_bind; [apply (init_rhs_mono lpv soc ex lpv' soc' ex'); auto|].
  clear H WS WS' w w'. intros w w' (H & HR & HS). rewrite <- (le_nexc _ _ (lw_C _ _ _ _ H)).
  apply rel_bind with (R := fun a a' => fst a = fst a' /\ leW 0 (snd a) (snd a') /\ res0 (snd a') = res0 (snd a) /\
      (fst a = true -> st_nitref1 (w_info (snd a')) = st_nitref1 (w_info (snd a)) /\ st_nitref2 (w_info (snd a')) = st_nitref2 (w_info (snd a)))).
  - destruct (Nat.eqb_spec (nexc (w_C w)) 0) as [E|E].
    + apply init_mehrotra_mono; auto.
    + eapply rel_bind; [apply init_unit_mono; auto|]. intros a a' (A1 & A2 & A3 & A4). apply rel_ret. cbn [fst snd]. csplit; auto.
  - clear H HR HS w w'. intros [ok w] [ok' w'] (E & H & HR & HN). cbn [fst snd] in *. subst ok'.
    destruct ok; cbn [negb]; [|apply rel_ret; split; auto; discriminate]. destruct (HN eq_refl) as [N1 N2]. cbv zeta. cbv beta delta [set_info]. cbv beta.
    rewrite (sm_n _ _ (lw_s _ _ _ _ H)), (sm_n _ _ (lw_s' _ _ _ _ H)), (lw_c _ _ _ _ H), <- (lk_Pinv _ _ (lw_K _ _ _ _ H)).
    mono1; [apply scatter_mono; [intros; mono|apply H]|]. apply rel_ret. split; auto. intros _. cbn [snd]. unfold res0 in HR. injection HR as R1 R2 R3.
    assert (HK : leK (set_kk_RHS1 (w_KKT w) x) (set_kk_RHS1 (w_KKT w') y)) by (destruct (lw_K _ _ _ _ H); constructor; wcbn; assumption).
    pose proof (leW_kkt 0 w w' _ _ H HK eq_refl eq_refl) as HW. fin5 HW; try (intros G; exfalso; clear - G; lia).
    + destruct (lw_s _ _ _ _ HW); constructor; wcbn; assumption.
    + destruct (lw_s' _ _ _ _ HW); constructor; wcbn; assumption.
    + intros _. constructor; wcbn; auto.
Qed.

(* a workspace inside the main loop *)
Definition inl (iter : Z) (w : W) : Prop := okw L w /\ at_pt L w /\ best_ok L w /\ rhs_full L w /\ (w_best w = None -> iter = 0%Z).

Lemma inl_iter iter w : inl iter w -> inl iter (set_info w (fun i => set_st_iter i iter)).
Proof.
  intros ((lpv & soc & ex & WS) & PT & BO & RH & NB). destruct (set_iter_ok L iter lpv soc ex w WS PT BO RH) as (A & B & D & E).
  unfold inl. csplit; auto. eexists _, _, _; eauto.
Qed.

Lemma exit_inl intr pp iter w r : inl iter w -> st_iter (w_info w) = iter -> iter_exit intr pp w = Some r ->
  inl iter (snd r) /\ (fst (fst r) = VGo -> residuals L (snd r)) /\ st_iter (w_info (snd r)) = iter.
Proof.
  intros ((lpv & soc & ex & WS) & PT & BO & RH & NB) EI E.
  assert (ME : may_exit intr w) by (eapply iter_exit_needs; [|exact E]; rewrite EI; exact NB).
  pose proof (iter_exit_safe L lpv soc ex intr pp w (fun r => inl iter (snd r) /\ (fst (fst r) = VGo -> residuals L (snd r)) /\ st_iter (w_info (snd r)) = iter) WS PT BO ME) as X.
  rewrite E in X. apply X. intros v pp' w1 [WS1 PT1 KY1 EK1 EC1] RE NR. cbn [fst snd]. csplit; auto.
  - unfold inl. csplit; auto.
    + eexists _, _, _; eauto.
    + eapply best_key; eauto.
    + unfold rhs_full. rewrite EK1. auto.
    + intros G. apply NB. injection KY1; congruence.
  - injection KY1; congruence.
Qed.

Lemma save_inl iter w r : inl iter w -> residuals L w -> st_iter (w_info w) = iter -> iter_save w = Some r -> inl iter r /\ residuals L r /\ w_best r <> None.
Proof.
  intros ((lpv & soc & ex & WS) & PT & BO & RH & NB) RE EI E.
  pose proof (iter_save_safe L lpv soc ex w (fun r => inl iter r /\ residuals L r /\ w_best r <> None) WS PT RE BO ltac:(rewrite EI; auto)) as X.
  rewrite E in X. apply X. intros w2 WS2 PT2 RE2 BO2 WB2 [EK2 EC2 EI2 EG2]. csplit; auto. unfold inl. csplit; auto.
  - eexists _, _, _; eauto.
  - unfold rhs_full. rewrite EK2. auto.
  - contradiction.
Qed.

Lemma step_inl iter w r : inl iter w -> residuals L w -> w_best w <> None -> iter_step w = Some r -> fst r = VGo -> inl (iter + 1) (snd r).
Proof.
  intros ((lpv & soc & ex & WS) & PT & BO & RH & NB) RE WB E EG.
  pose proof (iter_step_safe L H1 lpv soc ex w (fun r => fst r = VGo -> inl (iter + 1) (snd r)) WS PT RE BO WB RH) as X.
  rewrite E in X. apply X; auto. intros v w3 OK3 PT3 KY3 RH3 VR. cbn [fst snd]. intros ->. unfold inl. csplit; auto.
  - eapply best_key; eauto.
  - intros G. exfalso. apply WB. injection KY3; congruence.
Qed.

Lemma leW_iter lv w w' i : leW lv w w' -> leW (if lv =? 1 then 2 else lv) (set_info w (fun x => set_st_iter x i)) (set_info w' (fun x => set_st_iter x i)).
Proof.
  intros H. unfold set_info. fin5 H.
  - destruct (lw_s _ _ _ _ H); constructor; wcbn; assumption.
  - destruct (lw_s' _ _ _ _ H); constructor; wcbn; assumption.
  - intros G. assert (G1 : 1 <= lv) by (destruct (Nat.eqb_spec lv 1); lia). destruct (lw_1 _ _ _ _ H G1); constructor; wcbn; assumption.
  - intros G. assert (G1 : 3 <= lv) by (destruct (Nat.eqb_spec lv 1); lia). destruct (lw_3 _ _ _ _ H G1); constructor; wcbn; assumption.
  - intros G. assert (G1 : 4 <= lv) by (destruct (Nat.eqb_spec lv 1); lia). exact (lw_4 _ _ _ _ H G1).
Qed.

Lemma ipm_loop_mono sig : sized (w_KKT w0) -> forall fuel lv iter pp code w w', leW lv w w' -> lv = 1 \/ lv = 3 -> inl iter w -> inl iter w' ->
  rel (fun a a' => fst a = fst a' /\ leW 2 (snd a) (snd a') /\ (fuel <> 0 \/ lv = 3 -> leW 3 (snd a) (snd a')))
    (ipm_loop fuel sig iter pp code w) (ipm_loop fuel sig iter pp code w').
Proof.
  intros SZ. induction fuel as [|fuel IH]; intros lv iter pp code w w' H HL I I'; cbn [ipm_loop].
  - apply rel_ret. cbn [fst snd]. pose proof (leW_iter lv w w' iter H) as G. csplit; auto; destruct HL as [-> | ->]; cbn [Nat.eqb] in G; auto.
    + apply (leW_down w0 3); auto.
    + intros [?|?]; [congruence|discriminate].
  - cbv zeta. apply inl_iter in I. apply inl_iter in I'. assert (G : exists l, leW l (set_info w (fun x => set_st_iter x iter)) (set_info w' (fun x => set_st_iter x iter)) /\ (l = 2 \/ l = 3)).
    { pose proof (leW_iter lv w w' iter H) as G. destruct HL as [-> | ->]; cbn [Nat.eqb] in G; eauto. }
    assert (EI : st_iter (w_info (set_info w (fun i => set_st_iter i iter))) = iter) by reflexivity.
    assert (EI' : st_iter (w_info (set_info w' (fun i => set_st_iter i iter))) = iter) by reflexivity.
    revert I I' G EI EI'. generalize (set_info w (fun x => set_st_iter x iter)) (set_info w' (fun x => set_st_iter x iter)). clear H HL w w' code.
    intros w w' I I' (l & H & HL) EI EI'.
    eapply rel_bind; [apply rel_eqs; apply (iter_exit_mono w0 _ _ l); auto|]. intros [[v q] w1] [[v' q'] w1'] ([E H'] & E1 & E1'). cbn [fst snd] in *. injection E as <- <-.
    destruct (exit_inl _ _ _ _ _ I EI E1) as (I1 & RE1 & EI1). destruct (exit_inl _ _ _ _ _ I' EI' E1') as (I1' & RE1' & EI1'). cbn [fst snd] in *.
    pose proof (leW_down w0 3 2 _ _ ltac:(lia) H') as H'2.
    destruct v; [|apply rel_ret; csplit; auto|apply rel_ret; csplit; auto].
    eapply rel_bind; [apply rel_eqs; apply (iter_save_mono w0); exact H'|]. intros w2 w2' (H2 & E2 & E2').
    destruct (save_inl _ _ _ I1 (RE1 eq_refl) EI1 E2) as (I2 & RE2 & WB2). destruct (save_inl _ _ _ I1' (RE1' eq_refl) EI1' E2') as (I2' & RE2' & WB2').
    pose proof I2 as ((lpv & soc & ex & WS) & PT & _). pose proof I2' as ((lpv' & soc' & ex' & WS') & PT' & _).
    eapply rel_bind; [apply rel_eqs; apply (iter_step_mono lpv soc ex lpv' soc' ex'); auto|]. intros [v w3] [v' w3'] ([E H3] & E3 & E3'). cbn [fst snd] in *. subst v'.
    pose proof (leW_down w0 3 2 _ _ ltac:(lia) H3) as H32.
    destruct v; [|apply rel_ret; csplit; auto|apply rel_ret; csplit; auto].
    eapply rel_conseq; [apply (IH 3); [exact H3|auto|apply (step_inl _ _ _ I2 RE2 WB2 E3 eq_refl)|apply (step_inl _ _ _ I2' RE2' WB2' E3' eq_refl)]|].
    intros a a' (A1 & A2 & A3). csplit; auto.
Qed.

Lemma backscale_mono lv w w' : leW lv w w' -> 1 <= lv -> rel (leW lv) (backscale w) (backscale w').
Proof.
  intros H HL. cbv beta delta [backscale]. cbv zeta. pose proof (lw_s _ _ _ _ H) as HS. pose proof (lw_s' _ _ _ _ H) as HS'.
  rewrite (sm_n _ _ HS), (sm_n _ _ HS'), (sm_p _ _ HS), (sm_p _ _ HS'), (sm_m _ _ HS), (sm_m _ _ HS'), (sm_xe _ _ HS), (sm_xe _ _ HS'), (sm_Ae _ _ HS), (sm_Ae _ _ HS'), (sm_Ge _ _ HS), (sm_Ge _ _ HS'), (lw_c _ _ _ _ H).
  rewrite (s1_tau _ _ (lw_1 _ _ _ _ H HL)).
  pose proof (lw_x _ _ _ _ H). pose proof (lw_y _ _ _ _ H). pose proof (lw_z _ _ _ _ H). pose proof (lw_sl _ _ _ _ H).
  pose proof (le_refl_arr (w_xequil w0)). pose proof (le_refl_arr (w_Aequil w0)). pose proof (le_refl_arr (w_Gequil w0)).
  mono1; [mono|]. mono1; [mono|]. mono1; [mono|]. mono1; [mono|].
  apply rel_bind with (R := eq); [intros u Eu; exists u; auto|]. intros u ? <-. apply rel_ret.
  fin5 H.
  - destruct HS; constructor; wcbn; assumption.
  - destruct HS'; constructor; wcbn; assumption.
  - intros G. destruct (lw_1 _ _ _ _ H G); constructor; wcbn; assumption.
  - intros G. exact (lw_2 _ _ _ _ H G).
  - intros G. destruct (lw_3 _ _ _ _ H G); constructor; wcbn; assumption.
  - intros G. exact (lw_4 _ _ _ _ H G).
Qed.

(* A solve that succeeds on a workspace goes the same way on one that holds the same
   problem and at least the same values. *)
Lemma ECOS_solve_mono sig t w w' : sized (w_KKT w0) -> leW 0 w w' -> usable L w -> usable L w' ->
  rel (fun a a' => fst a = fst a' /\ leW 2 (snd a) (snd a') /\ (0 <= sg_maxit (w_stgs w0) -> leW 3 (snd a) (snd a'))%Z) (ECOS_solve sig t w) (ECOS_solve sig t w').
Proof.
  intros SZ H [(lpv & soc & ex & WS) BO] [(lpv' & soc' & ex' & WS') BO']. cbv beta delta [ECOS_solve].
  rewrite (sm_n _ _ (lw_s _ _ _ _ H)), (sm_n _ _ (lw_s' _ _ _ _ H)), (sm_xe _ _ (lw_s _ _ _ _ H)), (sm_xe _ _ (lw_s' _ _ _ _ H)), (lw_c _ _ _ _ H).
  apply rel_bind with (R := fun c c' => c = c' /\ full c (ly_n L)).
  { pose proof (scale_loop_full (ly_n L) (fun v e => v / e)%fl (w_c w) (w_xequil w) (fun d => full d (ly_n L)) (ws_c _ _ _ _ _ WS) (ws_xe _ _ _ _ _ WS) (fun d _ F => F)) as X.
    rewrite <- (ws_n _ _ _ _ _ WS), (sm_n _ _ (lw_s _ _ _ _ H)), (sm_xe _ _ (lw_s _ _ _ _ H)) in X. intros c Ec. exists c. rewrite Ec in X. cbn in X.
    rewrite <- (sm_n _ _ (lw_s _ _ _ _ H)), (ws_n _ _ _ _ _ WS) in X. auto. }
  intros c c' [<- Fc]. cbv zeta.
  assert (WSc : ws L lpv soc ex (set_w_c w c)) by (clear - WS Fc; destruct WS; constructor; wcbn; assumption).
  assert (WSc' : ws L lpv' soc' ex' (set_w_c w' c)) by (clear - WS' Fc; destruct WS'; constructor; wcbn; assumption).
  assert (Hc : leW 0 (set_w_c w c) (set_w_c w' c)) by fin0 H.
  eapply rel_bind; [apply rel_eqs; apply (init_mono lpv soc ex lpv' soc' ex'); auto|].
  intros [ok w1] [ok' w1'] ([E HI] & Ei & Ei'). cbn [fst snd] in *. subst ok'.
  assert (IN : forall a b d u c0 u1, best_ok L u -> w_c u = w_c u -> ws L a b d (set_w_c u c0) -> init (set_w_c u c0) = Some (ok, u1) -> ok = true /\ inl 0 u1).
  { intros a b d u c0 u1 BU _ WU EU.
    pose proof (init_safe L H1 a b d (set_w_c u c0) (fun r => fst r = true /\ inl 0 (snd r)) WU) as X. rewrite EU in X. apply X.
    intros u2 soc2 A B D2 E G. split; auto. cbn [snd]. unfold inl. csplit; auto.
    - eexists _, _, _; eauto.
    - eapply best_key; [exact G|exact BU].
    - split; auto. }
  destruct (IN _ _ _ _ _ _ BO eq_refl WSc Ei) as [-> I1]. destruct (IN _ _ _ _ _ _ BO' eq_refl WSc' Ei') as [_ I1']. specialize (HI eq_refl). cbn [negb].
  rewrite (sm_stgs _ _ (lw_s _ _ _ _ HI)), (sm_stgs _ _ (lw_s' _ _ _ _ HI)).
  eapply rel_bind; [apply (ipm_loop_mono sig SZ _ 1); auto|]. intros [[r cd] w2] [[r' cd'] w2'] (E & H2 & H3). cbn [fst snd] in *. injection E as <- <-.
  assert (H4 : (0 <= sg_maxit (w_stgs w0))%Z -> leW 3 w2 w2') by (intros; apply H3; left; lia). clear H3.
  destruct r; [apply rel_ret; auto|].
  eapply rel_bind with (R := fun a a' => leW 2 a a' /\ ((0 <= sg_maxit (w_stgs w0))%Z -> leW 3 a a')).
  - intros x Ex. destruct (backscale_mono 2 w2 w2' H2 ltac:(lia) x Ex) as (x' & Ex' & Hx). exists x'. csplit; auto.
    intros MI. destruct (backscale_mono 3 w2 w2' (H4 MI) ltac:(lia) x Ex) as (x2 & Ex2 & Hx2). congruence.
  - intros a a' [A1 A2]. apply rel_ret. auto.
Qed.
End MonoU.
