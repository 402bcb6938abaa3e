(* The definedness order on workspaces: src/ecos.c.  Two runs on workspaces that
   agree on the problem data and the symbolic structure, and of which the second
   holds every value the first one holds, go the same way. *)
From Coq Require Import List Arith Bool ZArith QArith Lia.
From Verif Require Import Base Num.
From Verif.Model Require Import Spla Types Consts Expcone Cone Ldl Kkt Ecos.
From Verif.Proofs Require Import ExitP Mono Mono2.
Import ListNotations.
Open Scope nat_scope.

Section MonoW.
Context `{O : Ops}.
Notation A := (arr F).
Notation W := (pwork F).

(* what a cone structure holds besides numbers *)
Definition symC (C : cone F) := (lp_p (co_lpc C), lp_kkt_idx (co_lpc C), map (fun c => (so_p c, so_Didx c)) (co_soc C), map ex_colstart (co_expc C), co_fexv C).
(* what a KKT structure holds besides numbers *)
Definition symP (K : kkt F) := (sp_jc (kk_PKPt K), sp_ir (kk_PKPt K), sp_n (kk_PKPt K), sp_m (kk_PKPt K), sp_nnz (kk_PKPt K), length (sp_pr (kk_PKPt K)),
  (sp_jc (kk_L K), sp_n (kk_L K), sp_m (kk_L K), sp_nnz (kk_L K)), (kk_P K, kk_PK K, kk_Pinv K, kk_Parent K, kk_Sign K)).

(* the problem and the structure, which no part of a solve changes; c is not here
   because a solve scales it *)
Record same (w0 w : W) : Prop := {
  sm_n : w_n w = w_n w0; sm_m : w_m w = w_m w0; sm_p : w_p w = w_p w0; sm_D : w_D w = w_D w0;
  sm_A : w_A w = w_A w0; sm_G : w_G w = w_G w0; sm_b : w_b w = w_b w0; sm_h : w_h w = w_h w0;
  sm_xe : w_xequil w = w_xequil w0; sm_Ae : w_Aequil w = w_Aequil w0; sm_Ge : w_Gequil w = w_Gequil w0;
  sm_AtoK : w_AtoK w = w_AtoK w0; sm_GtoK : w_GtoK w = w_GtoK w0; sm_stgs : w_stgs w = w_stgs w0;
  sm_C : symC (w_C w) = symC (w_C w0); sm_K : symP (w_KKT w) = symP (w_KKT w0)
}.

(* the scalars, in the order in which a solve sets them *)
Record sc1 (w w' : W) : Prop := {
  s1_tau : w_tau w' = w_tau w; s1_kap : w_kap w' = w_kap w;
  s1_rx0 : w_resx0 w' = w_resx0 w; s1_ry0 : w_resy0 w' = w_resy0 w; s1_rz0 : w_resz0 w' = w_resz0 w;
  s1_pinf : st_pinf (w_info w') = st_pinf (w_info w); s1_dinf : st_dinf (w_info w') = st_dinf (w_info w);
  s1_step : st_step (w_info w') = st_step (w_info w); s1_saff : st_step_aff (w_info w') = st_step_aff (w_info w);
  s1_n1 : st_nitref1 (w_info w') = st_nitref1 (w_info w); s1_n2 : st_nitref2 (w_info w') = st_nitref2 (w_info w)
}.
Record sc3 (w w' : W) : Prop := {
  s3_cx : w_cx w' = w_cx w; s3_by : w_by w' = w_by w; s3_hz : w_hz w' = w_hz w; s3_rt : w_rt w' = w_rt w;
  s3_hx : w_hresx w' = w_hresx w; s3_hy : w_hresy w' = w_hresy w; s3_hzr : w_hresz w' = w_hresz w;
  s3_nx : w_nx w' = w_nx w; s3_ny : w_ny w' = w_ny w; s3_nz : w_nz w' = w_nz w; s3_ns : w_ns w' = w_ns w;
  s3_pc : st_pcost (w_info w') = st_pcost (w_info w); s3_dc : st_dcost (w_info w') = st_dcost (w_info w);
  s3_pr : st_pres (w_info w') = st_pres (w_info w); s3_dr : st_dres (w_info w') = st_dres (w_info w);
  s3_pi : st_pinfres (w_info w') = st_pinfres (w_info w); s3_di : st_dinfres (w_info w') = st_dinfres (w_info w);
  s3_gap : st_gap (w_info w') = st_gap (w_info w); s3_rg : st_relgap (w_info w') = st_relgap (w_info w);
  s3_mu : st_mu (w_info w') = st_mu (w_info w); s3_kt : st_kapovert (w_info w') = st_kapovert (w_info w)
}.

Variable w0 : W.

Record leW (lv : nat) (w w' : W) : Prop := {
  lw_s : same w0 w; lw_s' : same w0 w'; lw_c : w_c w' = w_c w;
  lw_x : le (w_x w) (w_x w'); lw_y : le (w_y w) (w_y w'); lw_z : le (w_z w) (w_z w'); lw_sl : le (w_s w) (w_s w');
  lw_la : le (w_lambda w) (w_lambda w');
  lw_bx : le (w_best_x w) (w_best_x w'); lw_by : le (w_best_y w) (w_best_y w');
  lw_bz : le (w_best_z w) (w_best_z w'); lw_bs : le (w_best_s w) (w_best_s w'); lw_best : le (w_best w) (w_best w');
  lw_ds : le (w_dsaff w) (w_dsaff w'); lw_wd : le (w_W_times_dzaff w) (w_W_times_dzaff w'); lw_dw : le (w_dsaff_by_W w) (w_dsaff_by_W w');
  lw_rx : le (w_rx w) (w_rx w'); lw_ry : le (w_ry w) (w_ry w'); lw_rz : le (w_rz w) (w_rz w');
  lw_C : le (w_C w) (w_C w'); lw_K : leK (w_KKT w) (w_KKT w');
  lw_1 : 1 <= lv -> sc1 w w';
  lw_2 : 2 <= lv -> st_iter (w_info w') = st_iter (w_info w);
  lw_3 : 3 <= lv -> sc3 w w';
  lw_4 : 4 <= lv -> st_sigma (w_info w') = st_sigma (w_info w)
}.

Lemma leW_down a b w w' : b <= a -> leW a w w' -> leW b w w'.
Proof. intros H []; constructor; auto; intros; match goal with K : _ <= a -> _ |- _ => apply K; lia end. Qed.

Lemma symK_P K K' : symK K = symK K' -> symP K = symP K'.
Proof. unfold symK, symP. intros E. injection E as E1 E2 E3 E4 E5 E6 E7 E8 E9 E10. rewrite E1. congruence. Qed.

(* rewrite everything that is the same on both sides *)
Ltac smrw H := destruct H; repeat match goal with E : ?f _ = ?f w0 |- _ => rewrite ?E; clear E end.
Ltac opn H :=
  let HS := fresh "HS" in let HS' := fresh "HS'" in
  pose proof (lw_s _ _ _ H) as HS; pose proof (lw_s' _ _ _ H) as HS';
  rewrite ?(sm_n _ _ HS), ?(sm_m _ _ HS), ?(sm_p _ _ HS), ?(sm_D _ _ HS), ?(sm_A _ _ HS), ?(sm_G _ _ HS), ?(sm_b _ _ HS), ?(sm_h _ _ HS),
    ?(sm_xe _ _ HS), ?(sm_Ae _ _ HS), ?(sm_Ge _ _ HS), ?(sm_stgs _ _ HS);
  rewrite ?(sm_n _ _ HS'), ?(sm_m _ _ HS'), ?(sm_p _ _ HS'), ?(sm_D _ _ HS'), ?(sm_A _ _ HS'), ?(sm_G _ _ HS'), ?(sm_b _ _ HS'), ?(sm_h _ _ HS'),
    ?(sm_xe _ _ HS'), ?(sm_Ae _ _ HS'), ?(sm_Ge _ _ HS'), ?(sm_stgs _ _ HS'), ?(lw_c _ _ _ H).
Ltac lv1 H := let E := fresh "SC" in pose proof (lw_1 _ _ _ H ltac:(lia)) as E; destruct E;
  repeat match goal with K : ?f _ = ?f _ |- _ => rewrite ?K; clear K end.
Ltac lv2 H := rewrite ?(lw_2 _ _ _ H ltac:(lia)).
Ltac lv3 H := let E := fresh "SC" in pose proof (lw_3 _ _ _ H ltac:(lia)) as E; destruct E;
  repeat match goal with K : ?f _ = ?f _ |- _ => rewrite ?K; clear K end.
Ltac lv4 H := rewrite ?(lw_4 _ _ _ H ltac:(lia)).
Ltac arrs H := let HC := fresh "HC" in let HK := fresh "HK" in
  pose proof (lw_x _ _ _ H); pose proof (lw_y _ _ _ H); pose proof (lw_z _ _ _ H); pose proof (lw_sl _ _ _ H); pose proof (lw_la _ _ _ H);
  pose proof (lw_bx _ _ _ H); pose proof (lw_by _ _ _ H); pose proof (lw_bz _ _ _ H); pose proof (lw_bs _ _ _ H); pose proof (lw_best _ _ _ H);
  pose proof (lw_ds _ _ _ H); pose proof (lw_wd _ _ _ H); pose proof (lw_dw _ _ _ H);
  pose proof (lw_rx _ _ _ H); pose proof (lw_ry _ _ _ H); pose proof (lw_rz _ _ _ H); pose proof (lw_C _ _ _ H) as HC; pose proof (lw_K _ _ _ H) as HK.
(* close a goal leW lv (set .. w) (set .. w') *)
Ltac finS H := let E := fresh "E" in
  first [ pose proof (lw_s _ _ _ H) as E; destruct E; constructor; wcbn; assumption
        | pose proof (lw_s' _ _ _ H) as E; destruct E; constructor; wcbn; assumption ].
Ltac finK H := let E := fresh "E" in pose proof (lw_K _ _ _ H) as E; destruct E; constructor; wcbn; assumption.
Ltac fin1 H := let G := fresh "G" in intros G;
  first [ exfalso; clear - G; lia
        | match goal with |- sc1 _ _ => idtac | |- sc3 _ _ => idtac | |- _ = _ => idtac end;
          try (let E := fresh "E" in pose proof (lw_1 _ _ _ H ltac:(lia)) as E; destruct E);
          try (let E := fresh "E" in pose proof (lw_3 _ _ _ H ltac:(lia)) as E; destruct E);
          try (let E := fresh "E" in pose proof (lw_2 _ _ _ H ltac:(lia)) as E);
          try (let E := fresh "E" in pose proof (lw_4 _ _ _ H ltac:(lia)) as E);
          first [reflexivity | assumption | constructor; wcbn; first [reflexivity | assumption | congruence]] ].
Ltac fin H := constructor; wcbn;
  first [ assumption | exact (lw_s _ _ _ H) | exact (lw_s' _ _ _ H) | exact (lw_c _ _ _ H) | reflexivity | exact (lw_x _ _ _ H) | exact (lw_y _ _ _ H)
   | exact (lw_z _ _ _ H) | exact (lw_sl _ _ _ H) | exact (lw_la _ _ _ H) | exact (lw_bx _ _ _ H) | exact (lw_by _ _ _ H) | exact (lw_bz _ _ _ H)
   | exact (lw_bs _ _ _ H) | exact (lw_best _ _ _ H) | exact (lw_ds _ _ _ H) | exact (lw_wd _ _ _ H) | exact (lw_dw _ _ _ H) | exact (lw_rx _ _ _ H)
   | exact (lw_ry _ _ _ H) | exact (lw_rz _ _ _ H) | exact (lw_C _ _ _ H) | exact (lw_K _ _ _ H) | finS H | finK H | fin1 H | apply le_some | idtac ].

Ltac cone H := cbv beta delta [lpp]; lerec; cbv beta iota delta [co_lpc co_soc co_expc co_fexv lp_p lp_w lp_v lp_kkt_idx].

Lemma copy_mono n (s s' d d' : A) : le s s' -> le d d' -> rel le (copy n s d) (copy n s' d').
Proof. intros. cbv beta delta [copy]. mono. Qed.
Hint Resolve copy_mono : mono.

Lemma saveIterateAsBest_mono lv w w' : leW lv w w' -> 3 <= lv -> rel (leW lv) (saveIterateAsBest w) (saveIterateAsBest w').
Proof.
  intros H HL. cbv beta delta [saveIterateAsBest]. cbv zeta. opn H. lv1 H. lv2 H. lv3 H. arrs H. mono. apply rel_ret. fin H.
Qed.

Lemma restoreBestIterate_mono lv w w' : leW lv w w' -> 3 <= lv -> rel (leW lv) (restoreBestIterate w) (restoreBestIterate w').
Proof.
  intros H HL. cbv beta delta [restoreBestIterate]. cbv zeta. opn H. lv1 H. lv2 H. arrs H. mono. apply rel_ret. fin H.
Qed.

Lemma checkExit_mono lv w w' mode : leW lv w w' -> 3 <= lv ->
  fst (checkExitConditions w mode) = fst (checkExitConditions w' mode) /\ leW lv (snd (checkExitConditions w mode)) (snd (checkExitConditions w' mode)).
Proof.
  intros H HL. cbv beta delta [checkExitConditions].
  assert (E1 : test_optimal w' mode = test_optimal w mode) by (cbv beta delta [test_optimal]; cbv zeta; opn H; lv3 H; reflexivity).
  assert (E2 : test_dinf w' mode = test_dinf w mode) by (cbv beta delta [test_dinf]; cbv zeta; opn H; lv1 H; lv3 H; reflexivity).
  assert (E3 : test_pinf w' mode = test_pinf w mode) by (cbv beta delta [test_pinf]; cbv zeta; opn H; lv1 H; lv3 H; reflexivity).
  rewrite E1, E2, E3. destruct (test_optimal w mode); [|destruct (test_dinf w mode); [|destruct (test_pinf w mode)]]; cbn [fst snd]; split; auto; unfold set_flags; fin H.
Qed.

Lemma scatter_mono Pinv k cnt f f' (d d' : A) : (forall i, rel le (f i) (f' i)) -> le d d' -> rel le (scatter Pinv k cnt f d) (scatter Pinv k cnt f' d').
Proof. intros HF HD. cbv beta delta [scatter]. mono. Qed.
Hint Resolve scatter_mono rel_same : mono.
Lemma rhs_conic_mono Pinv C C' k f f' (R R' : A) : le C C' -> (forall i, rel le (f i) (f' i)) -> le R R' ->
  rel le (rhs_conic Pinv C k f R) (rhs_conic Pinv C' k f' R').
Proof.
  intros HC HF HR. cbv beta delta [rhs_conic]. cone HC. mono.
Qed.
Hint Resolve scatter_mono rhs_conic_mono : mono.

Lemma le_fexv (C C' : cone F) : le C C' -> co_fexv C = co_fexv C'.
Proof. intros (_ & _ & _ & H). exact H. Qed.
Lemma le_socs (C C' : cone F) : le C C' -> Forall2 le (co_soc C) (co_soc C').
Proof. intros (_ & H & _). exact H. Qed.
Lemma le_expcs (C C' : cone F) : le C C' -> Forall2 le (co_expc C) (co_expc C').
Proof. intros (_ & _ & H & _). exact H. Qed.
Ltac kc H :=
  let HC := fresh "HC" in let HK := fresh "HK" in
  pose proof (lw_C _ _ _ H) as HC; pose proof (lw_K _ _ _ H) as HK;
  rewrite <- ?(le_lpp _ _ HC), <- ?(le_nexc _ _ HC), <- ?(le_fexv _ _ HC), <- ?(lk_Pinv _ _ HK), <- ?(lk_PK _ _ HK), <- ?(lk_n _ _ HK);
  pose proof (le_socs _ _ HC); pose proof (le_expcs _ _ HC);
  pose proof (lk_w1 _ _ HK); pose proof (lk_w2 _ _ HK); pose proof (lk_r1 _ _ HK); pose proof (lk_r2 _ _ HK);
  pose proof (lk_dx1 _ _ HK); pose proof (lk_dx2 _ _ HK); pose proof (lk_dy1 _ _ HK); pose proof (lk_dy2 _ _ HK); pose proof (lk_dz1 _ _ HK); pose proof (lk_dz2 _ _ HK).

Lemma computeResiduals_mono lv w w' : leW lv w w' -> lv = 2 \/ lv = 3 ->
  rel (fun a a' => leW 2 a a' /\ le (w_rx a) (w_rx a') /\ (w_cx a', w_by a', w_hz a', w_rt a') = (w_cx a, w_by a, w_hz a, w_rt a) /\
     (w_hresx a', w_hresy a', w_hresz a') = (w_hresx a, w_hresy a, w_hresz a) /\ (w_nx a', w_ny a', w_nz a', w_ns a') = (w_nx a, w_ny a, w_nz a, w_ns a))
    (computeResiduals w) (computeResiduals w').
Proof.
  intros H HL. assert (H2 : leW 2 w w') by (eapply leW_down; [|exact H]; lia). clear H HL. rename H2 into H.
  cbv beta delta [computeResiduals]. cbv zeta. opn H. lv1 H. arrs H. destruct (0 <? w_p w0).
  - destruct (w_A w0) as [M|]; [|intros ? ?; discriminate]. mono. apply rel_ret. wcbn. csplit; auto. fin H.
  - mono. apply rel_ret. wcbn. csplit; auto. fin H.
Qed.

Lemma updateStatistics_mono w w' : leW 2 w w' -> le (w_rx w) (w_rx w') -> (w_cx w', w_by w', w_hz w', w_rt w') = (w_cx w, w_by w, w_hz w, w_rt w) ->
  (w_hresx w', w_hresy w', w_hresz w') = (w_hresx w, w_hresy w, w_hresz w) -> (w_nx w', w_ny w', w_nz w', w_ns w') = (w_nx w, w_ny w, w_nz w, w_ns w) ->
  rel (leW 3) (updateStatistics w) (updateStatistics w').
Proof.
  intros H _ [= Ecx Eby Ehz Ert] [= Ehx Ehy Ehr] [= Enx Eny Enz Ens].
  cbv beta delta [updateStatistics]. opn H. rewrite Ecx, Eby, Ehz, Ehx, Ehy, Ehr, Enx, Eny, Enz, Ens. arrs H.
  rewrite (s1_tau _ _ (lw_1 _ _ _ H ltac:(lia))), (s1_kap _ _ (lw_1 _ _ _ H ltac:(lia))), (s1_rx0 _ _ (lw_1 _ _ _ H ltac:(lia))),
    (s1_ry0 _ _ (lw_1 _ _ _ H ltac:(lia))), (s1_rz0 _ _ (lw_1 _ _ _ H ltac:(lia))). mono. apply rel_ret. fin H.
Qed.

Lemma residuals_mono lv w w' : leW lv w w' -> lv = 2 \/ lv = 3 ->
  rel (leW 3) (w <- computeResiduals w ;; updateStatistics w) (w <- computeResiduals w' ;; updateStatistics w).
Proof.
  intros H HL. eapply rel_bind; [apply (computeResiduals_mono lv); auto|]. intros a a' (H1 & H2 & H3 & H4 & H5). apply updateStatistics_mono; auto.
Qed.

Lemma recover_mono lv w w' r fb : leW lv w w' -> 3 <= lv ->
  rel (fun a a' => fst a = fst a' /\ leW lv (snd a) (snd a')) (recover w r fb) (recover w' r fb).
Proof.
  intros H HL. cbv beta delta [recover]. eapply (rel_bind (leW lv)).
  - destruct r; [apply restoreBestIterate_mono; auto|apply rel_ret; auto].
  - intros a a' Ha. destruct (checkExit_mono lv a a' ECOS_INACC_OFFSET Ha HL) as [E1 E2].
    destruct (checkExitConditions a _), (checkExitConditions a' _). cbn [fst snd] in *. subst. apply rel_ret. auto.
Qed.

Lemma better_mono lv w w' : leW lv w w' -> 3 <= lv -> rel le (better w) (better w').
Proof.
  intros H HL. cbv beta delta [better]. mono1; [apply rel_opt; apply (lw_best _ _ _ H)|].
  unfold compareStatistics, cmp_branch1, cmp_branch2, cmp_branch3. lv3 H. mono.
Qed.

Lemma iter_exit_mono intr pp lv w w' : leW lv w w' -> lv = 2 \/ lv = 3 ->
  rel (fun a a' => fst a = fst a' /\ leW 3 (snd a) (snd a')) (iter_exit intr pp w) (iter_exit intr pp w').
Proof.
  intros H HL. cbv beta delta [iter_exit]. eapply rel_bind; [apply (computeResiduals_mono lv); auto|]. intros a a' (H1 & H2 & H3 & H4 & H5).
  eapply rel_bind; [apply updateStatistics_mono; auto|]. clear. intros w w' H. cbv zeta. rewrite (lw_2 _ _ _ H ltac:(lia)).
  rewrite (s3_pr _ _ (lw_3 _ _ _ H ltac:(lia))), (s3_gap _ _ (lw_3 _ _ _ H ltac:(lia))), (s3_pc _ _ (lw_3 _ _ _ H ltac:(lia))), (s1_step _ _ (lw_1 _ _ _ H ltac:(lia))).
  match goal with |- rel _ (if ?t then _ else _) _ => destruct t end.
  { eapply rel_bind; [apply (recover_mono 3); auto|]. intros [c a] [c' a'] [E HA]. cbn [fst snd] in *. subst. apply rel_ret. auto. }
  destruct (checkExit_mono 3 w w' 0 H ltac:(lia)) as [E1 H1]. destruct (checkExitConditions w 0) as [c v], (checkExitConditions w' 0) as [c' v'].
  cbn [fst snd] in *. subst c'. destruct (negb _); [apply rel_ret; auto|].
  match goal with |- rel _ (if ?t then _ else _) _ => destruct t end.
  { eapply rel_bind; [apply (recover_mono 3); auto|]. intros [c1 a] [c1' a'] [E HA]. cbn [fst snd] in *. subst. apply rel_ret. auto. }
  replace (w_stgs v') with (w_stgs v) by (rewrite (sm_stgs _ _ (lw_s _ _ _ H1)), (sm_stgs _ _ (lw_s' _ _ _ H1)); auto).
  match goal with |- rel _ (if ?t then _ else _) _ => destruct t end.
  { eapply (rel_bind le); [apply (better_mono 3); auto|]. intros b b' Eb. change (b = b') in Eb. subst b'.
    eapply rel_bind; [apply (recover_mono 3); auto|]. intros [c1 a] [c1' a'] [E HA]. cbn [fst snd] in *. subst. apply rel_ret. auto. }
  match goal with |- rel _ (if ?t then _ else _) _ => destruct t end.
  { eapply (rel_bind le); [apply (better_mono 3); auto|]. intros b b' Eb. change (b = b') in Eb. subst b'.
    eapply rel_bind; [apply (recover_mono 3); auto|]. intros [c1 a] [c1' a'] [E HA]. cbn [fst snd] in *. subst. apply rel_ret. auto. }
  apply rel_ret. auto.
Qed.

Lemma iter_save_mono w w' : leW 3 w w' -> rel (leW 3) (iter_save w) (iter_save w').
Proof.
  intros H. cbv beta delta [iter_save]. rewrite (lw_2 _ _ _ H ltac:(lia)). destruct (_ =? 0)%Z; [apply saveIterateAsBest_mono; auto|].
  eapply (rel_bind le); [apply (better_mono 3); auto|]. intros b b' Eb. change (b = b') in Eb. subst b'. destruct b; [apply saveIterateAsBest_mono; auto|apply rel_ret; auto].
Qed.

(* -- directions and steps -- *)
Lemma RHS_affine_mono lv w w' : leW lv w w' -> rel le (RHS_affine w) (RHS_affine w').
Proof.
  intros H. cbv beta delta [RHS_affine]. cbv zeta. opn H. kc H. arrs H.
  mono1; [apply scatter_mono; auto; intros; mono|]. mono1; [apply scatter_mono; auto; intros; mono|]. apply rhs_conic_mono; auto. intros; mono.
Qed.

Lemma rhs_comb_exp_mono Pinv (s s' rz rz' : A) a b e e' k j (R R' : A) : le s s' -> le rz rz' -> le e e' -> le R R' ->
  rel le (rhs_comb_exp Pinv s rz a b e k j R) (rhs_comb_exp Pinv s' rz' a b e' k j R').
Proof. intros. cbv beta delta [rhs_comb_exp]. lerec. mono. Qed.
Hint Resolve rhs_comb_exp_mono : mono.
Lemma rhs_comb_exps_mono Pinv (s s' rz rz' : A) a b : le s s' -> le rz rz' -> forall l l', Forall2 le l l' -> forall k j (R R' : A), le R R' ->
  rel le (rhs_comb_exps Pinv s rz a b l k j R) (rhs_comb_exps Pinv s' rz' a b l' k j R').
Proof.
  intros Hs Hr. induction 1 as [|c c' l l' Hc Hl IH]; intros k j R R' HR; cbn [rhs_comb_exps].
  - apply rel_ret. split; auto. constructor.
  - mono1; [mono|]. mono1; [mono|]. apply rel_ret. split; auto. constructor; auto.
Qed.
Lemma rhs_comb_exps_sym Pinv (s rz : A) a b : forall l k j (R : A) l1 R1, rhs_comb_exps Pinv s rz a b l k j R = Some (l1, R1) -> map ex_colstart l1 = map ex_colstart l.
Proof.
  induction l as [|c l IH]; intros k j R l1 R1 E; cbn [rhs_comb_exps] in E; [injection E as <- _; auto|].
  binv E. injection E as <- _. cbn [map]. f_equal; [|eapply IH; eauto].
  unfold rhs_comb_exp in E0. binv E0. injection E0 as <- _. reflexivity.
Qed.

Lemma ls_soc_mono (la la' ds ds' dz dz' : A) k p (w1 w1' w2 w2' : A) al : le la la' -> le ds ds' -> le dz dz' -> le w1 w1' -> le w2 w2' ->
  rel (fun r r' => match r, r' with Some x, Some x' => le x x' | None, None => True | _, _ => False end)
    (ls_soc la ds dz k p w1 w2 al) (ls_soc la' ds' dz' k p w1' w2' al).
Proof.
  intros. cbv beta delta [ls_soc]. mono; apply rel_ret; auto; letac.
Qed.
Lemma ls_socs_mono (la la' ds ds' dz dz' : A) : le la la' -> le ds ds' -> le dz dz' -> forall l l', Forall2 le l l' ->
  forall k (w1 w1' w2 w2' : A) al, le w1 w1' -> le w2 w2' -> rel le (ls_socs la ds dz l k w1 w2 al) (ls_socs la' ds' dz' l' k w1' w2' al).
Proof.
  intros Ha Hs Hz. induction 1 as [|c c' l l' Hc Hl IH]; intros k w1 w1' w2 w2' al H1 H2; cbn [ls_socs]; [apply rel_ret; letac|].
  replace (so_p c') with (so_p c) by apply Hc.
  eapply rel_bind; [apply ls_soc_mono; eauto|]. intros [[[x1 x2] x3]|] [[[y1 y2] y3]|] Hr; try tauto; [|apply IH; auto]. lehyp. apply IH; auto.
Qed.
Lemma lineSearch_mono (la la' ds ds' dz dz' : A) t dt k dk C C' (w1 w1' w2 w2' : A) : le la la' -> le ds ds' -> le dz dz' -> le C C' -> le w1 w1' -> le w2 w2' ->
  rel le (lineSearch la ds dz t dt k dk C w1 w2) (lineSearch la' ds' dz' t dt k dk C' w1' w2').
Proof.
  intros Ha Hs Hz HC H1 H2. cbv beta delta [lineSearch]. rewrite <- (le_lpp C C' HC). pose proof (le_socs _ _ HC) as HS. clear HC.
  cbv zeta. mono1; [destruct (_ <? _); mono|]. mono1; [apply ls_socs_mono; auto|]. mono.
Qed.

Lemma cell2_mono f m (a a' b b' d d' : A) : le a a' -> le b b' -> le d d' -> rel le (cell2 f m a b d) (cell2 f m a' b' d').
Proof.
  intros [La Ha] [Lb Hb] Hd. cbv beta delta [cell2]. apply rel_for; auto. intros i s s' [Ls Hs] x E.
  destruct (nth_error a i) as [u|] eqn:Eu; [|discriminate]. destruct (nth_error b i) as [v|] eqn:Ev; [|discriminate]. cbn [bind] in E.
  destruct (nth_error a' i) as [u'|] eqn:Eu'; [|apply nth_error_None in Eu'; assert (i < length a) by (apply nth_error_Some; congruence); lia].
  destruct (nth_error b' i) as [v'|] eqn:Ev'; [|apply nth_error_None in Ev'; assert (i < length b) by (apply nth_error_Some; congruence); lia].
  cbn [bind]. rewrite <- Ls. destruct (Nat.ltb_spec i (length s)) as [Hi|]; [|discriminate]. injection E as <-. eexists. split; [reflexivity|].
  split; [rewrite !upd_length; auto|]. intros j y. unfold get. rewrite !nth_error_upd, <- Ls. destruct (Nat.eqb_spec j i) as [->|Hj].
  - destruct (Nat.ltb_spec i (length s)); [|lia]. intros Ey. destruct u as [u|]; [|discriminate]. destruct v as [v|]; [|discriminate].
    assert (U : get a' i = Some u) by (apply Ha; unfold get; rewrite Eu; auto). assert (V : get b' i = Some v) by (apply Hb; unfold get; rewrite Ev; auto).
    unfold get in U, V. rewrite Eu' in U. rewrite Ev' in V. subst. auto.
  - apply Hs.
Qed.
Lemma axpy_mono n a (x x' y y' : A) : le x x' -> le y y' -> rel le (axpy n a x y) (axpy n a x' y').
Proof. intros. cbv beta delta [axpy]. mono. Qed.
Hint Resolve cell2_mono axpy_mono lineSearch_mono rhs_comb_exps_mono : mono.

Lemma ds_unscale_mono lv w w' f f' : leW lv w w' -> (forall i, rel le (f i) (f' i)) -> rel le (ds_unscale w f) (ds_unscale w' f').
Proof.
  intros H HF. cbv beta delta [ds_unscale]. cbv zeta. opn H. kc H. arrs H. mono.
Qed.

Lemma expg_mono (C C' : cone F) i : le C C' -> rel le (expg C i) (expg C' i).
Proof.
  intros HC. cbv beta delta [expg]. pose proof (le_expcs _ _ HC) as HE. clear HC. generalize (i / 3) as k. revert HE.
  generalize (co_expc C) (co_expc C'). induction 1 as [|c c' l l' Hc Hl IH]; intros [|k]; cbn [nth_error]; try apply rel_none.
  - cbn [bind]. apply rel_get. apply Hc.
  - apply IH.
Qed.

Lemma dot3_mono lv w w' (x x' y y' z z' : A) : leW lv w w' -> le x x' -> le y y' -> le z z' -> rel le (dot3 w x y z) (dot3 w' x' y' z').
Proof. intros H X Y Z. cbv beta delta [dot3]. opn H. mono. Qed.

Lemma rel_eqs {T} (R : T -> T -> Prop) m m' : rel R m m' -> rel (fun x x' => R x x' /\ m = Some x /\ m' = Some x') m m'.
Proof. intros H x E. destruct (H x E) as (x' & E' & Hr). exists x'. auto. Qed.

Lemma le_set_expc (C C' : cone F) e e' : le C C' -> Forall2 le e e' -> le (set_co_expc C e) (set_co_expc C' e').
Proof. intros (H1 & H2 & H3 & H4) He. split; [auto|split; [auto|split; auto]]. Qed.
Lemma symC_set_expc (C : cone F) e : map ex_colstart e = map ex_colstart (co_expc C) -> symC (set_co_expc C e) = symC C.
Proof. intros E. unfold symC. cbn. rewrite E. reflexivity. Qed.

(* like fin, with facts about a new KKT structure *)
Ltac finA H HKK := fin H; try (destruct HKK; constructor; wcbn; assumption).

Lemma RHS_combined_mono lv w w' : leW lv w w' -> 4 <= lv -> rel (leW lv) (RHS_combined w) (RHS_combined w').
Proof.
  intros H HL. cbv beta delta [RHS_combined]. cbv zeta. opn H. kc H. arrs H. lv4 H. rewrite (s3_mu _ _ (lw_3 _ _ _ H ltac:(lia))).
  mono1; [mono|]. mono1; [mono|]. mono1; [mono|]. mono1; [mono|]. mono1; [mono|]. mono1; [mono|]. mono1; [mono|].
  mono1; [apply scatter_mono; auto; intros; mono|].
  mono1. { mono1. mono1; [apply scatter_mono; auto; intros; mono|]. mono1; [apply scatter_mono; auto; intros; mono|]. mono. }
  eapply rel_bind; [apply rel_eqs; apply rhs_comb_exps_mono; auto|]. intros [e1 R1] [e1' R1'] (HE & E1 & E1').
  apply le_pair_inv in HE as [HE HR]. apply rhs_comb_exps_sym in E1. apply rhs_comb_exps_sym in E1'. apply rel_ret.
  pose proof (le_set_expc _ _ _ _ HC HE) as HCC. pose proof (eq_trans (symC_set_expc _ _ E1) (sm_C _ _ HS)) as S1. pose proof (eq_trans (symC_set_expc _ _ E1') (sm_C _ _ HS')) as S1'.
  fin H.
Qed.

Lemma solve1_mono lv w w' : leW lv w w' -> 1 <= lv -> rel (leW lv) (solve1 w) (solve1 w').
Proof.
  intros H HL. cbv beta delta [solve1 set_info]. cbv zeta. opn H. kc H. arrs H.
  eapply rel_bind; [apply kkt_solve_mono; auto|]. intros [[[[i K1] x] y] z] [[[[i' K1'] x'] y'] z'] (-> & HK1 & S1 & S1' & Hx & Hy & Hz).
  apply rel_ret. pose proof (eq_trans (symK_P _ _ S1) (sm_K _ _ HS)) as P1. pose proof (eq_trans (symK_P _ _ S1') (sm_K _ _ HS')) as P1'. finA H HK1.
Qed.

Lemma solve2_mono lv w w' : leW lv w w' -> rel (fun a a' => fst a = fst a' /\ leW lv (snd a) (snd a')) (solve2 w) (solve2 w').
Proof.
  intros H. cbv beta delta [solve2 set_info]. cbv zeta. opn H. kc H. arrs H.
  eapply rel_bind; [apply kkt_solve_mono; auto|]. intros [[[[i K1] x] y] z] [[[[i' K1'] x'] y'] z'] (-> & HK1 & S1 & S1' & Hx & Hy & Hz).
  apply rel_ret. cbn [fst snd]. split; auto.
  pose proof (eq_trans (symK_P _ _ S1) (sm_K _ _ HS)) as P1. pose proof (eq_trans (symK_P _ _ S1') (sm_K _ _ HS')) as P1'. finA H HK1.
Qed.

Lemma affine_solve_mono lv w w' : leW lv w w' -> 1 <= lv -> rel (leW lv) (affine_solve w) (affine_solve w').
Proof.
  intros H HL. cbv beta delta [affine_solve set_info]. mono1; [apply (RHS_affine_mono lv); auto|]. cbv zeta.
  assert (H1 : leW lv (set_w_KKT w (set_kk_RHS2 (w_KKT w) x)) (set_w_KKT w' (set_kk_RHS2 (w_KKT w') y))) by fin H.
  eapply rel_bind; [apply (solve2_mono lv); exact H1|]. clear. intros [i w] [i' w'] [E H]. cbn [fst snd] in *. subst. apply rel_ret. fin H.
Qed.

Lemma affine_newton_mono lv w w' : leW lv w w' -> 3 <= lv ->
  rel (fun a a' => fst a = fst a' /\ leW lv (snd a) (snd a')) (affine_newton w) (affine_newton w').
Proof.
  intros H HL. cbv beta delta [affine_newton set_info]. cbv zeta. wcbn. opn H. kc H. arrs H.
  rewrite (s1_tau _ _ (lw_1 _ _ _ H ltac:(lia))), (s1_kap _ _ (lw_1 _ _ _ H ltac:(lia))), (s3_rt _ _ (lw_3 _ _ _ H ltac:(lia))).
  mono1; [apply (dot3_mono lv); auto|]. mono1; [apply (dot3_mono lv); auto|]. mono1; [mono|]. mono1; [mono|]. mono1; [mono|]. mono1; [mono|].
  apply rel_ret. cbn [fst snd]. split; [reflexivity|]. fin H.
Qed.

(* the counters of the exponential line search *)
Definition setcnt (i : stats F) ce cb cob pb db : stats F :=
  mkStats (st_pcost i) (st_dcost i) (st_pres i) (st_dres i) (st_pinf i) (st_dinf i) (st_pinfres i) (st_dinfres i) (st_gap i) (st_relgap i)
    (st_sigma i) (st_mu i) (st_step i) (st_step_aff i) (st_kapovert i) (st_iter i) (st_nitref1 i) (st_nitref2 i) (st_nitref3 i)
    0%Z cb cob pb db (st_affBack i) (st_cmbBack i) ce.

Lemma mui_at_mono (a a' b b' : A) j : le a a' -> le b b' -> rel le (mui_at a b j) (mui_at a' b' j).
Proof. intros. cbv beta delta [mui_at]. mono. Qed.
Hint Resolve mui_at_mono : mono.
Lemma mui_while_mono (a a' b b' : A) m lim : le a a' -> le b b' -> forall fuel mui j, rel le (mui_while fuel a b m lim mui j) (mui_while fuel a' b' m lim mui j).
Proof. intros Ha Hb. induction fuel as [|fuel IH]; intros; cbn [mui_while]; [apply rel_none|]. destruct (_ && _); [|mono]. cbv zeta. mono1; [destruct (_ <? _); mono|]. apply IH. Qed.
Hint Resolve mui_while_mono : mono.

Lemma bk_loop_mono lv w w' dt dk i0 i0' : leW lv w w' -> 1 <= lv -> forall fuel al (ws ws' wz wz' : A) ce cb cob pb db, le ws ws' -> le wz wz' ->
  rel (fun r r' => let '(a, u, v, i) := r in let '(a', u', v', i') := r' in
      a = a' /\ le u u' /\ le v v' /\ exists ce cb cob pb db, i = setcnt i0 ce cb cob pb db /\ i' = setcnt i0' ce cb cob pb db)
    (bk_loop fuel w dt dk al ws wz (setcnt i0 ce cb cob pb db)) (bk_loop fuel w' dt dk al ws' wz' (setcnt i0' ce cb cob pb db)).
Proof.
  intros H HL. induction fuel as [|fuel IH]; intros al ws ws' wz wz' ce cb cob pb db Hs Hz; cbn [bk_loop].
  - apply rel_ret. csplit; auto. eexists _, _, _, _, _. split; reflexivity.
  - cbv zeta. opn H. kc H. arrs H. rewrite (s1_tau _ _ (lw_1 _ _ _ H ltac:(lia))), (s1_kap _ _ (lw_1 _ _ _ H ltac:(lia))).
    mono1; [mono|]. mono1; [mono|]. destruct y2 || idtac.
    match goal with |- rel _ (if ?t then _ else _) _ => destruct t end; [|apply IH; auto].
    mono1; [mono|]. match goal with |- rel _ (if ?t then _ else _) _ => destruct t end; [|apply IH; auto].
    mono1; [mono|]. mono1; [mono|]. match goal with |- rel _ (if ?t then _ else _) _ => destruct t end; [|apply IH; auto].
    mono1; [mono|]. mono1; [mono|]. match goal with |- rel _ (if ?t then _ else _) _ => destruct t end; [|apply IH; auto].
    apply rel_ret. csplit; auto. eexists _, _, _, _, _. split; reflexivity.
Qed.

Lemma expConeLineSearch_mono lv w w' dt dk aff : leW lv w w' -> 1 <= lv ->
  rel (fun a a' => fst a = fst a' /\ leW lv (snd a) (snd a')) (expConeLineSearch w dt dk aff) (expConeLineSearch w' dt dk aff).
Proof.
  intros H HL. cbv beta delta [expConeLineSearch]. cbv zeta. opn H. kc H. arrs H.
  rewrite (s1_step _ _ (lw_1 _ _ _ H ltac:(lia))), (s1_saff _ _ (lw_1 _ _ _ H ltac:(lia))).
  eapply rel_bind; [apply (bk_loop_mono lv w w' dt dk (w_info w) (w_info w') H HL _ _ _ _ _ _ big300 0%Z 0%Z 0%Z 0%Z); auto|].
  intros [[[a u] v] i] [[[a' u'] v'] i'] (-> & Hu & Hv & ce & cb & cob & pb & db & -> & ->). apply rel_ret. cbn [fst snd]. split; auto. unfold setcnt. fin H.
Qed.

Lemma affine_exp_mono lv w w' dt dk : leW lv w w' -> 3 <= lv -> rel (leW lv) (affine_exp dt dk w) (affine_exp dt dk w').
Proof.
  intros H HL. cbv beta delta [affine_exp set_info]. rewrite <- (le_fexv _ _ (lw_C _ _ _ H)).
  mono1; [apply (ds_unscale_mono lv); auto; intros; apply rel_get; apply (lw_sl _ _ _ H)|]. cbv zeta. wcbn.
  rewrite <- (le_nexc _ _ (lw_C _ _ _ H)).
  assert (H1 : leW lv (set_w_info (set_w_dsaff w x) (set_st_affBack (w_info w) 0)) (set_w_info (set_w_dsaff w' y) (set_st_affBack (w_info w') 0))) by fin H.
  destruct (0 <? _); [|apply rel_ret; auto].
  eapply rel_bind; [apply (expConeLineSearch_mono lv); [exact H1|lia]|]. clear - HL. intros [a w] [a' w'] [E H]. cbn [fst snd] in *. subst.
  apply rel_ret. destruct (a' ==? _)%fl; fin H.
Qed.

Lemma affine_sigma_mono w w' : leW 3 w w' -> leW 4 (affine_sigma w) (affine_sigma w').
Proof.
  intros H. cbv beta delta [affine_sigma set_info]. cbv zeta. rewrite (s1_saff _ _ (lw_1 _ _ _ H ltac:(lia))). fin H.
Qed.

Lemma affine_dir_mono w w' : leW 3 w w' -> rel (fun a a' => fst a = fst a' /\ leW 4 (snd a) (snd a')) (affine_dir w) (affine_dir w').
Proof.
  intros H. cbv beta delta [affine_dir]. eapply rel_bind; [apply (affine_solve_mono 3); auto|]. clear. intros w w' H.
  eapply rel_bind; [apply (affine_newton_mono 3); auto|]. clear. intros [[[a b] c] w] [[[a' b'] c'] w'] [E H]. cbn [fst snd] in *. injection E as <- <- <-.
  eapply rel_bind; [apply (affine_exp_mono 3); auto|]. clear. intros w w' H. apply rel_ret. split; auto. apply affine_sigma_mono; auto.
Qed.

Lemma combined_solve_mono lv w w' : leW lv w w' -> 4 <= lv -> rel (leW lv) (combined_solve w) (combined_solve w').
Proof.
  intros H HL. cbv beta delta [combined_solve set_info]. eapply rel_bind; [apply (RHS_combined_mono lv); auto|]. clear - HL. intros w w' H.
  eapply rel_bind; [apply (solve2_mono lv); auto|]. clear - HL. intros [i w] [i' w'] [E H]. cbn [fst snd] in *. subst. apply rel_ret. fin H.
Qed.

Lemma combined_newton_mono lv w w' a b c : leW lv w w' -> 4 <= lv ->
  rel (fun a a' => fst a = fst a' /\ leW lv (snd a) (snd a')) (combined_newton a b c w) (combined_newton a b c w').
Proof.
  intros H HL. cbv beta delta [combined_newton set_info]. cbv zeta. wcbn. opn H. kc H. arrs H. lv4 H.
  rewrite (s1_tau _ _ (lw_1 _ _ _ H ltac:(lia))), (s1_kap _ _ (lw_1 _ _ _ H ltac:(lia))), (s3_rt _ _ (lw_3 _ _ _ H ltac:(lia))), (s3_mu _ _ (lw_3 _ _ _ H ltac:(lia))).
  mono1; [apply (dot3_mono lv); auto|]. mono1; [mono|]. mono1; [mono|]. mono1; [mono|]. mono1; [mono|]. mono1; [mono|]. mono1; [mono|].
  apply rel_ret. cbn [fst snd]. split; [reflexivity|]. fin H.
Qed.

Lemma combined_exp_mono lv w w' dt dk : leW lv w w' -> 3 <= lv ->
  rel (fun a a' => fst a = fst a' /\ leW lv (snd a) (snd a')) (combined_exp dt dk w) (combined_exp dt dk w').
Proof.
  intros H HL. cbv beta delta [combined_exp set_info].
  mono1; [apply (ds_unscale_mono lv); auto; intros; apply expg_mono; apply (lw_C _ _ _ H)|]. cbv zeta. wcbn.
  rewrite <- (le_nexc _ _ (lw_C _ _ _ H)).
  assert (H1 : leW lv (set_w_info (set_w_dsaff w x) (set_st_cmbBack (w_info w) 0)) (set_w_info (set_w_dsaff w' y) (set_st_cmbBack (w_info w') 0))) by fin H.
  destruct (0 <? _); [|apply rel_ret; auto].
  eapply rel_bind; [apply (expConeLineSearch_mono lv); [exact H1|lia]|]. clear - HL. intros [a w] [a' w'] [E H]. cbn [fst snd] in *. subst.
  apply rel_ret. cbn [fst snd]. split; auto. fin H.
Qed.

Lemma combined_dir_mono w w' a b c : leW 4 w w' -> rel (fun a a' => fst a = fst a' /\ leW 4 (snd a) (snd a')) (combined_dir a b c w) (combined_dir a b c w').
Proof.
  intros H. cbv beta delta [combined_dir]. eapply rel_bind; [apply (combined_solve_mono 4); auto|]. clear. intros w w' H.
  eapply rel_bind; [apply (combined_newton_mono 4); auto|]. clear. intros [[d e] w] [[d' e'] w'] [E H]. cbn [fst snd] in *. injection E as <- <-.
  eapply rel_bind; [apply (combined_exp_mono 4); auto|]. clear. intros [f w] [f' w'] [E H]. cbn [fst snd] in *. subst. apply rel_ret. auto.
Qed.

Lemma take_step_mono lv w w' dt dk : leW lv w w' -> 1 <= lv -> rel (leW lv) (take_step dt dk w) (take_step dt dk w').
Proof.
  intros H HL. cbv beta delta [take_step]. cbv zeta. wcbn. opn H. kc H. arrs H.
  rewrite (s1_step _ _ (lw_1 _ _ _ H ltac:(lia))), (s1_tau _ _ (lw_1 _ _ _ H ltac:(lia))), (s1_kap _ _ (lw_1 _ _ _ H ltac:(lia))).
  mono1; [mono|]. mono1; [mono|]. mono1; [mono|]. mono1; [mono|]. apply rel_ret. fin H.
Qed.
End MonoW.
