(* The functions of ecos.c on a workspace, third part: exit tests, directions,
   line searches and the main loop. *)
From Coq Require Import List Arith Bool ZArith Lia.
From Verif Require Import Base Num.
From Verif.Model Require Import Spla Splamm Types Consts Expcone Cone Ldl Kkt Equil Preproc Ecos.
From Verif.Spec Require Import Matrix Fill KktSpec KktMatrix Shape SetupSpec.
From Verif.Proofs Require Import SplaP LoopLib SplammP LdlSym LdlNum KktAsm KktMat ConeP ScalP Scal2P LineP KktUpd Layout EquilP Work WorkUpd
  SafeLib Stretch SafeK KktErr SafeE SafeW ExitP.
From Verif.Properties Require Import Kkt.
Import ListNotations.
Open Scope nat_scope.

Ltac wif T := match goal with |- wp (if ?b then _ else _) _ => destruct b eqn:T end.

Section SafeV.
Context `{O : Ops}.
Variable L : lay.
Hypothesis H1 : forall d, In d (ly_q L) -> 1 <= d.
Notation n := (ly_n L).
Notation p := (ly_p L).
Notation m := (ly_m L).
Notation N := (ly_nK L).
Notation W := (pwork F).

Lemma set_info_id (w : W) : set_w_info w (w_info w) = w.
Proof. destruct w; reflexivity. Qed.
Lemma ws_info lpv soc ex (w : W) i : ws L lpv soc ex w -> ws L lpv soc ex (set_w_info w i).
Proof. intros WS. wsup WS. Qed.
Lemma pt_info (w : W) i : at_pt L w -> at_pt L (set_w_info w i).
Proof. intros []; constructor; auto. Qed.
Lemma re_info (w : W) i : residuals L w -> residuals L (set_w_info w i).
Proof. intros []; constructor; auto. Qed.

Lemma chk_ok (w : W) mode : exists code i, checkExitConditions w mode = (code, set_w_info w i) /\ st_iter i = st_iter (w_info w).
Proof.
  unfold checkExitConditions, set_flags. destruct (test_optimal w mode); [eexists _, _; split; reflexivity|].
  destruct (test_dinf w mode); [eexists _, _; split; reflexivity|]. destruct (test_pinf w mode); [eexists _, _; split; reflexivity|].
  exists ECOS_NOT_CONVERGED_YET, (w_info w). rewrite set_info_id. auto.
Qed.

(* what a break out of the loop leaves *)
Record kept lpv soc ex (w w' : W) : Prop := {
  kp_ws : ws L lpv soc ex w'; kp_pt : at_pt L w'; kp_key : key w' = key w; kp_K : w_KKT w' = w_KKT w; kp_C : w_C w' = w_C w
}.

Lemma kept_info lpv soc ex w w' i : kept lpv soc ex w w' -> st_iter i = st_iter (w_info w') -> kept lpv soc ex w (set_w_info w' i).
Proof.
  intros [A B D E G] H. constructor; auto using ws_info, pt_info. rewrite <- D. unfold key. wcbn. rewrite H. auto.
Qed.

Lemma restore_safe lpv soc ex w (Q : W -> Prop) : ws L lpv soc ex w -> best_ok L w -> w_best w <> None ->
  (forall w', kept lpv soc ex w w' -> Q w') -> wp (restoreBestIterate w) Q.
Proof.
  intros WS B NB HQ. destruct (B NB) as (Bx & By & Bz & Bs). destruct (lens _ _ _ _ _ WS) as (Lx & Ly & Lz & Ls & _).
  unfold restoreBestIterate. rewrite (ws_n _ _ _ _ _ WS), (ws_p _ _ _ _ _ WS), (ws_m _ _ _ _ _ WS).
  wb. apply copy_safe; [auto|lia|]. intros x Lx' Fx _. wb. apply copy_safe; [auto|lia|]. intros y Ly' Fy _.
  wb. apply copy_safe; [auto|lia|]. intros z Lz' Fz _. wb. apply copy_safe; [auto|lia|]. intros s Ls' Fs _.
  destruct (w_best w) as [b|] eqn:Eb; [|congruence]. cbn [bind]. apply (wp_intro _ _ _ eq_refl). apply HQ. constructor; wcbn; auto.
  - wsup WS.
  - constructor; wcbn; auto.
Qed.

Lemma recover_safe lpv soc ex w r fb (Q : Z * W -> Prop) : ws L lpv soc ex w -> at_pt L w -> best_ok L w -> (r = true -> w_best w <> None) ->
  (forall c w', kept lpv soc ex w w' -> Q (c, w')) -> wp (recover w r fb) Q.
Proof.
  intros WS PT B NB HQ. unfold recover. wb. eapply wp_conseq with (P := fun w' => kept lpv soc ex w w').
  - destruct r; [apply (restore_safe lpv soc ex); auto|]. apply (wp_intro _ _ _ eq_refl). constructor; auto.
  - intros w' KP. destruct (chk_ok w' ECOS_INACC_OFFSET) as (c & i & E & Hi). rewrite E. apply (wp_intro _ _ _ eq_refl).
    apply HQ. apply kept_info; auto.
Qed.

Lemma save_safe lpv soc ex w (Q : W -> Prop) : ws L lpv soc ex w -> at_pt L w ->
  (forall bx by_ bz bs b, let w' := set_w_best (set_w_best_s (set_w_best_z (set_w_best_y (set_w_best_x w bx) by_) bz) bs) (Some b) in
     ws L lpv soc ex w' -> at_pt L w' -> best_ok L w' -> Q w') -> wp (saveIterateAsBest w) Q.
Proof.
  intros WS [FX FY FZ FS] HQ. unfold saveIterateAsBest. rewrite (ws_n _ _ _ _ _ WS), (ws_p _ _ _ _ _ WS), (ws_m _ _ _ _ _ WS).
  wb. apply copy_safe; [auto|destruct WS; lia|]. intros x Lx' Fx _. wb. apply copy_safe; [auto|destruct WS; lia|]. intros y Ly' Fy _.
  wb. apply copy_safe; [auto|destruct WS; lia|]. intros z Lz' Fz _. wb. apply copy_safe; [auto|destruct WS; lia|]. intros s Ls' Fs _.
  apply (wp_intro _ _ _ eq_refl). apply HQ.
  - wsup WS.
  - constructor; wcbn; auto.
  - intros _. wcbn. auto.
Qed.

(* what the exit tests need: a best iterate, or the first iteration's tests not reading one *)
(* With no best iterate saved, an iteration may not be abandoned: exactly the
   tests that would fall back to the best iterate must not apply. *)
Definition may_exit (intr : bool) (w : W) : Prop := w_best w = None ->
  (st_iter (w_info w) = 0)%Z /\
  forall w1 w2, computeResiduals w = Some w1 -> updateStatistics w1 = Some w2 ->
    fst (checkExitConditions w2 0) = ECOS_NOT_CONVERGED_YET ->
    intr = false /\ (sg_maxit (w_stgs w) <> 0)%Z /\ fisnan (st_pcost (w_info w2)) = false.

Lemma iter_exit_safe lpv soc ex intr pp w (Q : verdict * F * W -> Prop) : ws L lpv soc ex w -> at_pt L w -> best_ok L w -> may_exit intr w ->
  (forall v pp' w', kept lpv soc ex w w' -> (v = VGo -> residuals L w') -> (forall c, v <> VReturn c) -> Q (v, pp', w')) ->
  wp (iter_exit intr pp w) Q.
Proof.
  intros WS PT B ME HQ. unfold iter_exit. wb.
  assert (CR := computeResiduals_safe L lpv soc ex w (fun w1 => kept lpv soc ex w w1 /\ residuals L w1 /\ w_info w1 = w_info w)
    WS PT ltac:(intros; split; [constructor; auto|split; auto])).
  apply wp_elim in CR. destruct CR as (w1 & E1 & KP1 & RE1 & I1). apply (wp_intro _ _ _ E1). cbv beta.
  pose proof KP1 as [WS1 PT1 KE1 KK1 KC1].
  assert (US := updateStatistics_safe L lpv soc ex w1 (fun w2 => exists i, w2 = set_w_info w1 i /\ st_iter i = st_iter (w_info w1)) WS1 PT1 RE1
    ltac:(intros i Hi _ _; exists i; auto)).
  apply wp_elim in US. destruct US as (w2 & E2 & i & -> & Hi). wb. apply (wp_intro _ _ _ E2). wcbn.
  assert (KP2 : kept lpv soc ex w (set_w_info w1 i)) by (apply kept_info; auto).
  assert (RE2 : residuals L (set_w_info w1 i)) by (apply re_info; auto).
  assert (B2 : best_ok L (set_w_info w1 i)) by (eapply best_key; [apply (kp_key _ _ _ _ _ KP2)|auto]).
  assert (BE : w_best (set_w_info w1 i) = w_best w) by (pose proof (kp_key _ _ _ _ _ KP2) as E; unfold key in E; congruence).
  assert (SE : w_stgs (set_w_info w1 i) = w_stgs w) by (pose proof (kp_key _ _ _ _ _ KP2) as E; unfold key in E; congruence).
  assert (IE : st_iter i = st_iter (w_info w)) by congruence.
  assert (REC : forall (w2 : W) r fb pp', kept lpv soc ex w w2 -> (r = true -> w_best w <> None) ->
     wp ('(code, w') <- recover w2 r fb ;; Some (VBreak code, pp', w')) Q).
  { intros w2 r fb pp' KP HR. pose proof KP as [A0 A1 A2 A3 A4]. wb. apply (recover_safe lpv soc ex); auto.
    - eapply best_key; eauto.
    - intros Hr. pose proof A2 as E. unfold key in E. injection E as E _ _ _ _ _ _. rewrite E. auto.
    - intros c w' [D0 D1 D2 D3 D4]. cbv beta iota. apply (wp_intro _ _ _ eq_refl). apply HQ; [constructor; auto; congruence|discriminate|discriminate]. }
  assert (IT : (0 <? st_iter i)%Z = true -> w_best w <> None).
  { intros Hz HB. destruct (ME HB) as (Z0 & _). rewrite IE, Z0 in Hz. discriminate. }
  wif T1.
  { apply andb_prop in T1. destruct T1 as [T1 _]. apply REC; auto. }
  destruct (chk_ok (set_w_info w1 i) 0) as (c & i3 & E3 & Hi3). rewrite E3. wcbn in Hi3. cbv beta iota.
  set (w3 := set_w_info (set_w_info w1 i) i3) in *. assert (KP3 : kept lpv soc ex w w3) by (apply kept_info; auto).
  assert (RE3 : residuals L w3) by (apply re_info; auto).
  wif T0; [apply (wp_intro _ _ _ eq_refl); apply HQ; auto; discriminate|].
  assert (NC : c = ECOS_NOT_CONVERGED_YET) by (apply Z.eqb_eq; destruct (c =? _)%Z; auto).
  wif T2.
  { apply andb_prop in T2. destruct T2 as [T2 _]. apply REC; auto. }
  assert (BE3 : w_best w3 = w_best w) by exact BE. assert (SE3 : w_stgs w3 = w_stgs w) by exact SE.
  unfold better. rewrite BE3, SE3.
  wif T3.
  { destruct (w_best w) as [b|] eqn:EB.
    - cbn [bind]. apply REC; auto. discriminate.
    - destruct (ME EB) as (Z0 & NE). destruct (NE _ _ E1 E2) as (-> & NM & _); [rewrite E3; exact NC|]. cbn [orb] in T3. apply Z.eqb_eq in T3. congruence. }
  wif T4.
  { destruct (w_best w) as [b|] eqn:EB.
    - cbn [bind]. apply REC; auto. discriminate.
    - destruct (ME EB) as (Z0 & NE). destruct (NE _ _ E1 E2) as (_ & _ & NN); [rewrite E3; exact NC|]. wcbn in NN. congruence. }
  apply (wp_intro _ _ _ eq_refl). apply HQ; auto. discriminate.
Qed.

(* the condition is also necessary *)
Lemma iter_exit_needs intr pp w r : (w_best w = None -> st_iter (w_info w) = 0%Z) -> iter_exit intr pp w = Some r -> may_exit intr w.
Proof.
  intros Z0 E NB. split; auto. intros w1 w2 E1 E2 NC. unfold iter_exit in E. rewrite E1 in E. cbn [bind] in E. rewrite E2 in E. cbn [bind] in E. cbv zeta in E.
  destruct (computeResiduals_frame _ _ E1) as (P1 & BB1 & _ & I1). destruct (updateStatistics_frame _ _ E2) as (P2 & BB2 & _ & I2 & _).
  assert (B2 : w_best w2 = w_best w) by (unfold best_of in *; congruence). assert (S2 : w_stgs w2 = w_stgs w) by (unfold prob_of in *; congruence).
  rewrite I2, I1, (Z0 NB) in E. cbn [Z.ltb Z.compare andb] in E.
  destruct (chk_ok w2 0) as (c & i & Ec & Hi). rewrite Ec in *. cbn [fst] in NC. subst c. rewrite Z.eqb_refl in E. cbn [negb] in E.
  unfold better in E. wcbn in E. rewrite B2, NB, S2 in E. cbn [bind] in E.
  destruct intr; [discriminate|]. cbn [orb] in E. destruct (Z.eqb_spec 0 (sg_maxit (w_stgs w))) as [|NM]; [discriminate|].
  destruct (fisnan _); [discriminate|]. csplit; auto.
Qed.

Record samebut_best (w w' : W) : Prop := { sb_K : w_KKT w' = w_KKT w; sb_C : w_C w' = w_C w; sb_i : w_info w' = w_info w; sb_g : w_stgs w' = w_stgs w }.

Lemma iter_save_safe lpv soc ex w (Q : W -> Prop) : ws L lpv soc ex w -> at_pt L w -> residuals L w -> best_ok L w ->
  (w_best w = None -> (st_iter (w_info w) = 0)%Z) ->
  (forall w', ws L lpv soc ex w' -> at_pt L w' -> residuals L w' -> best_ok L w' -> w_best w' <> None -> samebut_best w w' -> Q w') ->
  wp (iter_save w) Q.
Proof.
  intros WS PT RE B NB HQ. unfold iter_save.
  assert (SV : wp (saveIterateAsBest w) Q).
  { apply (save_safe lpv soc ex); auto. intros bx by_ bz bs b w' A0 A1 A2. apply HQ; auto; try (unfold w'; wcbn; discriminate).
    - destruct RE; constructor; auto.
    - constructor; reflexivity. }
  destruct (Z.eqb_spec (st_iter (w_info w)) 0) as [E|E]; auto.
  unfold better. destruct (w_best w) as [b|] eqn:EB; [|exfalso; auto]. cbn [bind]. destruct (compareStatistics _ _); auto.
  apply (wp_intro _ _ _ eq_refl). apply HQ; auto; [congruence|]. constructor; auto.
Qed.

(* ------------------------------------------------------------ directions *)
Record going lpv soc ex (w : W) : Prop := {
  go_ws : ws L lpv soc ex w; go_pt : at_pt L w; go_re : residuals L w; go_sc : ConeP.scaled (w_C w);
  go_la : full (w_lambda w) (hsize (w_C w)); go_fa : factored N (w_KKT w);
  go_r1 : full (kk_RHS1 (w_KKT w)) N; go_r2 : full (kk_RHS2 (w_KKT w)) N
}.
Record dir1 (w : W) : Prop := { d1_x : full (kk_dx1 (w_KKT w)) n; d1_y : full (kk_dy1 (w_KKT w)) p; d1_z : full (kk_dz1 (w_KKT w)) m }.
Record dir2 (w : W) : Prop := { d2_x : full (kk_dx2 (w_KKT w)) n; d2_y : full (kk_dy2 (w_KKT w)) p; d2_z : full (kk_dz2 (w_KKT w)) m }.

Lemma going_K lpv soc ex w K : going lpv soc ex w -> kws L lpv soc ex K -> factored N K -> full (kk_RHS1 K) N -> full (kk_RHS2 K) N ->
  going lpv soc ex (set_w_KKT w K).
Proof. intros [A B D E G H I J] KW FA R1 R2. constructor; wcbn; auto; [apply ws_setK; auto|destruct B; constructor; auto|destruct D; constructor; auto]. Qed.
Lemma going_info lpv soc ex w i : going lpv soc ex w -> going lpv soc ex (set_w_info w i).
Proof. intros [A B D E G H I J]. constructor; auto using ws_info, pt_info, re_info. Qed.

Lemma solve1_safe lpv soc ex w (Q : W -> Prop) : going lpv soc ex w ->
  (forall w', going lpv soc ex w' -> dir1 w' -> key w' = key w -> Q w') -> wp (solve1 w) Q.
Proof.
  intros GO HQ. pose proof GO as [WS PT RE SC LA FA R1 R2]. unfold solve1, set_info. cbv zeta. wb.
  pose proof (ws_K _ _ _ _ _ WS) as KW.
  apply (solve_safe L WS); auto; try (destruct KW; assumption).
  intros it K dx dy dz KW' FA' E1 E2 E3 E4 E5 Lx Ly Lz Fx Fy Fz. cbv beta iota. apply (wp_intro _ _ _ eq_refl).
  apply HQ; [apply going_K; auto using going_info| |reflexivity].
  - wsup KW'.
  - destruct FA'; constructor; auto.
  - wcbn. rewrite E1. auto.
  - wcbn. rewrite E2. auto.
  - constructor; wcbn; auto.
Qed.

Lemma solve2_safe lpv soc ex w (Q : Z * W -> Prop) : going lpv soc ex w -> dir1 w ->
  (forall it K', let w' := set_w_KKT w K' in going lpv soc ex w' -> dir1 w' -> dir2 w' -> Q (it, w')) -> wp (solve2 w) Q.
Proof.
  intros GO [X1 Y1 Z1] HQ. pose proof GO as [WS PT RE SC LA FA R1 R2]. unfold solve2. cbv zeta. wb.
  pose proof (ws_K _ _ _ _ _ WS) as KW.
  apply (solve_safe L WS); auto; try (destruct KW; assumption).
  intros it K dx dy dz KW' FA' E1 E2 E3 E4 E5 Lx Ly Lz Fx Fy Fz. cbv beta iota. apply (wp_intro _ _ _ eq_refl).
  apply HQ; [apply going_K; auto| |].
  - wsup KW'.
  - destruct FA'; constructor; auto.
  - wcbn. rewrite E1. auto.
  - wcbn. rewrite E2. auto.
  - constructor; wcbn; [rewrite E3|rewrite E4|rewrite E5]; auto.
  - constructor; wcbn; auto.
Qed.

Lemma rhs_conic_keep lpv soc ex w f (a : arr F) (Q : arr F -> Prop) : ws L lpv soc ex w -> length a = N -> full a N ->
  (forall j, j < m -> exists v, f j = Some v) -> (forall a', length a' = N -> full a' N -> Q a') ->
  wp (rhs_conic (kk_Pinv (w_KKT w)) (w_C w) (n + p) f a) Q.
Proof.
  intros WS La Fa Hf HQ. pose proof (ws_K _ _ _ _ _ WS) as KW. pose proof (kws_dim _ _ _ _ _ KW) as (PP & _). pose proof (ws_N L WS) as NN.
  apply (rhs_conic_wp N (ly_pf L) _ (kw_Pinv _ _ _ _ _ KW) PP (w_C w) (n + p) f (fun j => match f j with Some v => v | None => f0 end)); [lia|lia| |].
  - intros j Hj. rewrite (ws_msize L WS) in Hj. destruct (Hf j Hj) as [v ->]. auto.
  - intros a' (A & B & D). apply HQ; [congruence|]. apply (full_perm _ _ _ PP). intros i Hi. destruct (Nat.lt_ge_cases i (n + p)).
    + rewrite D by (auto; lia). apply Fa. apply PP. auto.
    + replace i with (n + p + (i - (n + p))) by lia. eexists. apply B. lia.
Qed.

Lemma RHS_affine_safe lpv soc ex w (Q : arr F -> Prop) : going lpv soc ex w -> (forall R, length R = N -> full R N -> Q R) -> wp (RHS_affine w) Q.
Proof.
  intros [WS [FX FY FZ FS] [RX RY RZ] SC LA FA R1 R2] HQ. unfold RHS_affine. cbv zeta. pose proof (ws_K _ _ _ _ _ WS) as KW.
  rewrite (ws_n _ _ _ _ _ WS), (ws_p _ _ _ _ _ WS).
  wb. apply (scatter_keep L _ lpv soc ex); auto; [unfold ly_nK; lia|destruct KW; auto|]. intros a La Fa.
  wb. apply (scatter_keep L _ lpv soc ex); auto; [unfold ly_nK; lia| |].
  { intros i Hi. destruct (RY i Hi) as [v ->]. cbn. eauto. }
  intros a' La' Fa'. apply (rhs_conic_keep lpv soc ex); auto. intros j Hj. destruct (FS j Hj) as [u ->], (RZ j Hj) as [v ->]. cbn. eauto.
Qed.

Lemma dot3_safe lpv soc ex w dx dy dz : ws L lpv soc ex w -> full dx n -> full dy p -> full dz m -> exists r, dot3 w dx dy dz = Some r.
Proof.
  intros WS Fx Fy Fz. unfold dot3. rewrite (ws_n _ _ _ _ _ WS), (ws_p _ _ _ _ _ WS), (ws_m _ _ _ _ _ WS).
  destruct (eddot_safe (w_c w) dx n) as [a ->]; [apply (ws_c _ _ _ _ _ WS)|auto|]. destruct (eddot_safe (w_b w) dy p) as [b Eb]; [apply (ws_b _ _ _ _ _ WS)|auto|].
  destruct (eddot_safe (w_h w) dz m) as [c Ec]; [apply (ws_h _ _ _ _ _ WS)|auto|]. cbn [bind]. rewrite Eb. cbn [bind]. rewrite Ec. cbn [bind]. eauto.
Qed.

Lemma ds_unscale_safe lpv soc ex w base (Q : arr F -> Prop) : ws L lpv soc ex w -> ConeP.scaled (w_C w) -> full (w_dsaff_by_W w) (hsize (w_C w)) ->
  full (kk_dz2 (w_KKT w)) m -> (forall i, i < 3 * nexc (w_C w) -> exists v, base i = Some v) ->
  (forall d, length d = m -> full d m -> Q d) -> wp (ds_unscale w base) Q.
Proof.
  intros WS SC FD FZ FB HQ. unfold ds_unscale. cbv zeta. pose proof (ws_hm L WS) as HM. rewrite (ws_m _ _ _ _ _ WS), (ws_fexv L WS).
  destruct (scale_eq (w_C w) (w_dsaff_by_W w) (gd f0 (w_dsaff_by_W w)) (w_dsaff w)) as (d & E & FI); [apply (ws_pos L WS)|apply scaled_W; auto|apply full_vecd; auto|destruct WS; lia|].
  pose proof (filled_len _ _ _ _ _ FI) as Ld. pose proof (filled_full _ _ _ _ _ FI) as Fd. pose proof (ws_lda _ _ _ _ _ WS) as Lda.
  wb. apply (wp_intro _ _ _ E). wb. apply for_ext; auto; [lia|lia|intros; eexists; reflexivity|]. intros d1 L1 F1.
  wb. apply (hess_safe (co_expc (w_C w)) (hsize (w_C w)) d1 _ m); auto; [unfold nexc in HM; lia| |].
  { intros e He. eapply vec_fulld. apply (sd_ev _ SC). auto. }
  intros d2 L2 F2. apply (for_keep m); auto; [lia| |].
  - intros i a' Hi La Fa. destruct (Fa i ltac:(lia)) as [v Ev]. destruct (FB (i - hsize (w_C w)) ltac:(lia)) as [b Eb]. eexists i, _. split; [lia|].
    rewrite Ev. cbn [bind]. rewrite Eb. reflexivity.
  - intros d3 L3 F3. apply HQ; auto. lia.
Qed.

Lemma bk_safe lpv soc ex w dtau dkap : ws L lpv soc ex w -> at_pt L w -> full (w_dsaff w) m -> full (kk_dz2 (w_KKT w)) m -> 0 < nexc (w_C w) ->
  forall fuel alpha (a b : arr F) i (Q : F * arr F * arr F * stats F -> Prop), length a = N -> length b = N ->
  (forall al a' b' i', length a' = N -> length b' = N -> st_iter i' = st_iter i -> Q (al, a', b', i')) ->
  wp (bk_loop fuel w dtau dkap alpha a b i) Q.
Proof.
  intros WS [FX FY FZ FS] FD FZ2 NE. pose proof (ws_hm L WS) as HM. pose proof (ws_mN L) as MN.
  induction fuel as [|fuel IH]; intros alpha a b i Q La Lb HQ; cbn [bk_loop]; [apply (wp_intro _ _ _ eq_refl); apply HQ; auto|].
  cbv zeta. rewrite (ws_m _ _ _ _ _ WS), (ws_fexv L WS). wb.
  apply (wp_for (fun j st => let '(a', b', mu) := st in length a' = N /\ length b' = N /\ full a' j /\ full b' j)); [lia|csplit; auto using full_0| |].
  { intros j [[a' b'] mu] Hj (A & B & D & E). destruct (FS j ltac:(lia)) as [s Es]. destruct (FD j ltac:(lia)) as [ds Eds].
    destruct (FZ j ltac:(lia)) as [z Ez]. destruct (FZ2 j ltac:(lia)) as [dz Edz]. wget Es. wget Eds. wget Ez. wget Edz.
    wb. apply wp_set; [lia|]. intros a2 L2 G2. wb. apply wp_set; [lia|]. intros b2 L3 G3. apply (wp_intro _ _ _ eq_refl). csplit; try congruence.
    - intros t Ht. rewrite G2. destruct (Nat.eqb_spec t j); eauto. apply D. lia.
    - intros t Ht. rewrite G3. destruct (Nat.eqb_spec t j); eauto. apply E. lia. }
  intros [[a1 b1] mu] (La1 & Lb1 & Fa1 & Fb1). cbv beta iota.
  destruct (dualfeas_safe b1 (nexc (w_C w)) (hsize (w_C w)) m ltac:(lia) Fb1) as [du Edu]. wb. apply (wp_intro _ _ _ Edu).
  wif T1; [|apply IH; auto].
  destruct (primfeas_safe a1 (nexc (w_C w)) (hsize (w_C w)) m ltac:(lia) Fa1) as [pr Epr]. wb. apply (wp_intro _ _ _ Epr).
  wif T2; [|apply IH; auto].
  destruct (mui_at_safe a1 b1 (hsize (w_C w)) m ltac:(lia) Fa1 Fb1) as [mui Emui]. wb. apply (wp_intro _ _ _ Emui).
  match goal with |- wp (bind (mui_while ?f _ _ _ ?lim ?mu _) _) _ => destruct (mui_while_safe a1 b1 m lim (nexc (w_C w)) Fa1 Fb1 f (hsize (w_C w)) mu ltac:(lia) ltac:(lia)) as [j Ej] end.
  wb. apply (wp_intro _ _ _ Ej). wif T3; [|apply IH; auto].
  destruct (expbarrier_safe a1 b1 (hsize (w_C w)) (nexc (w_C w)) m ltac:(lia) Fa1 Fb1) as [b1' Eb1]. wb. apply (wp_intro _ _ _ Eb1).
  match goal with |- wp (bind (evalSymmetricBarrierValue _ _ ?t ?k _ ?d) _) _ => destruct (symbarrier_safe a1 b1 t k (w_C w) d (ws_pos L WS)) as [b2 Eb2] end;
    [eapply full_le; [exact Fa1|lia]|eapply full_le; [exact Fb1|lia]|].
  wb. apply (wp_intro _ _ _ Eb2). wif T4; [apply (wp_intro _ _ _ eq_refl); apply HQ; auto|apply IH; auto].
Qed.

Lemma expls_safe lpv soc ex w dtau dkap aff (Q : F * W -> Prop) : ws L lpv soc ex w -> at_pt L w -> full (w_dsaff w) m -> full (kk_dz2 (w_KKT w)) m -> 0 < nexc (w_C w) ->
  (forall al a b i, length a = N -> length b = N -> st_iter i = st_iter (w_info w) -> Q (al, set_w_info (set_w_KKT w (set_kk_work2 (set_kk_work1 (w_KKT w) a) b)) i)) ->
  wp (expConeLineSearch w dtau dkap aff) Q.
Proof.
  intros WS PT FD FZ2 NE HQ. unfold expConeLineSearch. cbv zeta. wb. pose proof (ws_K _ _ _ _ _ WS) as KW.
  apply (bk_safe lpv soc ex); auto; destruct KW; assumption.
Qed.

(* the affine direction leaves these behind *)
Record affined (w : W) : Prop := { af_d1 : dir1 w; af_wd : full (w_W_times_dzaff w) (hsize (w_C w)); af_dw : full (w_dsaff_by_W w) (hsize (w_C w)) }.

Lemma axpy_len k a x y (Q : arr F -> Prop) : full x k -> full y k -> length y = k -> (forall d, length d = k -> full d k -> Q d) -> wp (axpy k a x y) Q.
Proof. intros Fx Fy Ly HQ. apply axpy_safe; auto. intros d Ld Fd. apply HQ; auto. congruence. Qed.

Lemma going_keep lpv soc ex (w w' : W) : going lpv soc ex w -> ws L lpv soc ex w' -> w_x w' = w_x w -> w_y w' = w_y w -> w_z w' = w_z w -> w_s w' = w_s w ->
  w_rx w' = w_rx w -> w_ry w' = w_ry w -> w_rz w' = w_rz w -> w_C w' = w_C w -> w_lambda w' = w_lambda w ->
  kk_L (w_KKT w') = kk_L (w_KKT w) -> kk_D (w_KKT w') = kk_D (w_KKT w) -> kk_RHS1 (w_KKT w') = kk_RHS1 (w_KKT w) -> full (kk_RHS2 (w_KKT w')) N ->
  going lpv soc ex w'.
Proof.
  intros [WS [P1 P2 P3 P4] [R1 R2 R3] SC LA [A1 A2 A3 A4] Q1 Q2] WS' E1 E2 E3 E4 E5 E6 E7 E8 E9 E10 E11 E12 F2.
  constructor; auto; try (constructor; congruence).
  - constructor; [rewrite E1|rewrite E2|rewrite E3|rewrite E4]; auto.
  - constructor; [rewrite E5|rewrite E6|rewrite E7]; auto.
  - rewrite E8; auto.
  - rewrite E8, E9; auto.
  - constructor; [rewrite E10|rewrite E10|rewrite E10|rewrite E11]; auto.
  - rewrite E12; auto.
Qed.

Lemma affine_solve_safe lpv soc ex w (Q : W -> Prop) : going lpv soc ex w -> dir1 w ->
  (forall w', going lpv soc ex w' -> dir1 w' -> dir2 w' -> key w' = key w -> Q w') -> wp (affine_solve w) Q.
Proof.
  intros GO D1 HQ. unfold affine_solve, set_info. wb. apply (RHS_affine_safe lpv soc ex); auto. intros R LR FR.
  assert (GO1 : going lpv soc ex (set_w_KKT w (set_kk_RHS2 (w_KKT w) R))).
  { pose proof GO as [WS PT RE SC LA FA R1 R2]. pose proof (ws_K _ _ _ _ _ WS) as KW. apply going_K; auto; [wsup KW|destruct FA; constructor; auto]. }
  wb. apply (solve2_safe lpv soc ex); auto; [destruct D1; constructor; auto|]. intros it K1 w1 GO2 D12 D22. cbv beta iota. apply (wp_intro _ _ _ eq_refl).
  apply HQ; [apply going_info; auto|destruct D12; constructor; auto|destruct D22; constructor; auto|reflexivity].
Qed.

Lemma affine_newton_safe lpv soc ex w (Q : F * F * F * W -> Prop) : going lpv soc ex w -> dir1 w -> dir2 w ->
  (forall a b c w', going lpv soc ex w' -> affined w' -> dir2 w' -> key w' = key w -> Q (a, b, c, w')) -> wp (affine_newton w) Q.
Proof.
  intros GO D1 D2 HQ. unfold affine_newton, set_info. cbv zeta. pose proof GO as [WS PT RE SC LA FA R1 R2].
  pose proof D1 as [X1 Y1 Z1]. pose proof D2 as [X2 Y2 Z2]. pose proof (ws_K _ _ _ _ _ WS) as KW.
  pose proof (ws_hm L WS) as HM. pose proof (ws_mN L) as MN.
  destruct (dot3_safe lpv soc ex w _ _ _ WS X1 Y1 Z1) as [[[a b] c] Ed]. wb. apply (wp_intro _ _ _ Ed). cbv beta iota.
  destruct (dot3_safe lpv soc ex w _ _ _ WS X2 Y2 Z2) as [[[a' b'] c'] Ed']. wb. apply (wp_intro _ _ _ Ed'). cbv beta iota.
  set (den := (_ - c)%fl). set (dta := (_ / den)%fl). set (dka := (_ - _ * dta)%fl). clearbody den dta dka. clear Ed Ed' a b c a' b' c'.
  rewrite (ws_m _ _ _ _ _ WS). wb. apply axpy_len; auto; [destruct KW; auto|]. intros dz2 Ldz Fdz.
  destruct (scale_eq (w_C w) dz2 (gd f0 dz2) (w_W_times_dzaff w)) as (wdz & Ew & Fw);
    [apply (ws_pos L WS)|apply scaled_W; auto|apply full_vecd; eapply full_le; eauto; lia|destruct WS; lia|].
  pose proof (filled_len _ _ _ _ _ Fw) as Lw. apply filled_full in Fw. pose proof (ws_lwd _ _ _ _ _ WS) as Lwd.
  wb. wcbn. apply (wp_intro _ _ _ Ew). wb. rewrite (ws_m _ _ _ _ _ WS).
  apply (cell2_safe _ m (hsize (w_C w))); auto; try (destruct WS; congruence). intros dsw Lds Fds. wcbn.
  match goal with |- context [lineSearch _ _ _ ?t ?dt ?k ?dk _ ?k1 ?k2] =>
    destruct (lineSearch_eq (w_C w) (w_lambda w) dsw wdz (gd f0 (w_lambda w)) (gd f0 dsw) (gd f0 wdz) t dt k dk k1 k2) as (k1' & k2' & El & Lk1 & Lk2) end;
    [apply full_vecd; auto|apply full_vecd; auto|apply full_vecd; auto|apply (ws_pos L WS)|destruct KW; lia|destruct KW; lia|].
  set (al := ls_alpha _ _ _ _ _ _ _ _) in El. clearbody al. wb. apply (wp_intro _ _ _ El). cbv beta iota. apply (wp_intro _ _ _ eq_refl).
  assert (KW3 : kws L lpv soc ex (set_kk_work2 (set_kk_work1 (set_kk_dz2 (w_KKT w) dz2) k1') k2')) by (wsup KW).
  apply HQ; [|constructor; wcbn; auto; constructor; auto|constructor; auto|reflexivity].
  apply (going_keep lpv soc ex w); auto. wsup WS.
Qed.

Lemma affine_exp_safe lpv soc ex a b w (Q : W -> Prop) : going lpv soc ex w -> affined w -> dir2 w ->
  (forall w', going lpv soc ex w' -> affined w' -> key w' = key w -> Q w') -> wp (affine_exp a b w) Q.
Proof.
  intros GO AF D2 HQ. unfold affine_exp, set_info. pose proof GO as [WS PT RE SC LA FA R1 R2]. wb.
  apply (ds_unscale_safe lpv soc ex); auto; [apply (af_dw _ AF)|apply (d2_z _ D2)| |].
  { intros i Hi. destruct PT as [_ _ _ FS]. apply FS. rewrite (ws_fexv L WS). pose proof (ws_hm L WS). lia. }
  intros ds Lds Fds. cbv zeta. set (w4 := set_w_info _ _).
  assert (GO5 : going lpv soc ex w4).
  { apply (going_keep lpv soc ex w); auto. apply ws_info. wsup WS. }
  assert (AF5 : affined w4) by (destruct AF as [[] ]; constructor; auto; constructor; auto).
  assert (D25 : dir2 w4) by (destruct D2; constructor; auto).
  assert (KY5 : key w4 = key w) by reflexivity. assert (F5 : full (w_dsaff w4) m) by exact Fds. clearbody w4.
  wif T; [|apply (wp_intro _ _ _ eq_refl); auto]. apply Nat.ltb_lt in T. wb.
  apply (expls_safe lpv soc ex); auto; [destruct GO5; auto|destruct GO5; auto|destruct D25; auto|].
  intros al ka kb i La Lb Hi. cbv beta iota. apply (wp_intro _ _ _ eq_refl). apply HQ.
  - apply going_info, going_info. destruct GO5 as [WS5 PT5 RE5 SC5 LA5 FA5 R15 R25].
    apply going_K; auto; [constructor; auto|pose proof (ws_K _ _ _ _ _ WS5) as KW; wsup KW|destruct FA5; constructor; auto].
  - destruct AF5 as [[] ]. constructor; auto. constructor; auto.
  - rewrite <- KY5. unfold key. wcbn. f_equal. match goal with |- context [if ?b then _ else _] => destruct b end; wcbn; auto.
Qed.

Lemma affine_dir_safe lpv soc ex w (Q : F * F * F * W -> Prop) : going lpv soc ex w -> dir1 w ->
  (forall a b c w', going lpv soc ex w' -> affined w' -> key w' = key w -> Q (a, b, c, w')) -> wp (affine_dir w) Q.
Proof.
  intros GO D1 HQ. unfold affine_dir. wb. apply (affine_solve_safe lpv soc ex); auto. intros w1 GO1 D11 D21 K1.
  wb. apply (affine_newton_safe lpv soc ex); auto. intros a b c w2 GO2 AF2 D22 K2. cbv beta iota.
  wb. apply (affine_exp_safe lpv soc ex); auto. intros w3 GO3 AF3 K3. apply (wp_intro _ _ _ eq_refl). apply HQ.
  - apply going_info; auto.
  - destruct AF3 as [[] ]. constructor; auto. constructor; auto.
  - rewrite <- K1, <- K2, <- K3. reflexivity.
Qed.

(* ---------------------------------------------------- combined direction *)
Definition exp_next (e e' : expcone F) : Prop :=
  ex_colstart e' = ex_colstart e /\ ex_v e' = ex_v e /\ length (ex_g e') = length (ex_g e) /\ full (ex_g e') 3.

Lemma comb_exp_safe lpv soc ex K s rz oms sm e k j (R : arr F) (Q : expcone F * arr F -> Prop) : kws L lpv soc ex K -> k + 3 <= N -> j + 3 <= m ->
  full s m -> full rz m -> full (ex_g e) 3 -> length R = N -> full R N ->
  (forall e' R', exp_next e e' -> length R' = N -> full R' N -> Q (e', R')) -> wp (rhs_comb_exp (kk_Pinv K) s rz oms sm e k j R) Q.
Proof.
  intros KW Hk Hj Fs Fr Fg LR FR HQ. unfold rhs_comb_exp. destruct (kws_dim _ _ _ _ _ KW) as ([P1 P2] & _). pose proof (full_len _ _ Fg) as Lg. wb.
  apply (wp_for (fun _ st => let '(g, R') := st in length g = length (ex_g e) /\ full g 3 /\ length R' = N /\ full R' N)); [lia|auto| |].
  - intros i [g R'] Hi (A & B & D & E). destruct (Fs (j + i) ltac:(lia)) as [si Es]. destruct (B i ltac:(lia)) as [gi Eg]. destruct (Fr (j + i) ltac:(lia)) as [ri Er].
    wget Es. wget Eg. wb. apply wp_set; [lia|]. intros g2 L2 G2. pose proof (full_set _ _ _ _ _ B G2) as FG2.
    destruct (FG2 i ltac:(lia)) as [gi2 Eg2]. wget Eg2. wget Er. wget (kw_Pinv _ _ _ _ _ KW (k + i) ltac:(lia)). wb.
    apply wp_set; [rewrite D; apply P1; lia|]. intros R2 L3 G3. apply (wp_intro _ _ _ eq_refl). csplit; [congruence|auto|congruence|eapply full_set; eauto].
  - intros [g R'] (A & B & D & E). cbv beta iota. apply (wp_intro _ _ _ eq_refl). apply HQ; auto. unfold exp_next; wcbn. auto.
Qed.

Lemma comb_exps_safe lpv soc ex K s rz oms sm : kws L lpv soc ex K -> full s m -> full rz m ->
  forall l k j (R : arr F) (Q : list (expcone F) * arr F -> Prop), k + 3 * length l <= N -> j + 3 * length l <= m ->
  (forall e, In e l -> full (ex_g e) 3) -> length R = N -> full R N ->
  (forall l' R', Forall2 exp_next l l' -> length R' = N -> full R' N -> Q (l', R')) -> wp (rhs_comb_exps (kk_Pinv K) s rz oms sm l k j R) Q.
Proof.
  intros KW Fs Fr. induction l as [|e t IH]; intros k j R Q Hk Hj Fg LR FR HQ; cbn [rhs_comb_exps length] in *.
  - apply (wp_intro _ _ _ eq_refl). apply HQ; auto.
  - wb. apply (comb_exp_safe lpv soc ex); auto; try lia; [apply Fg; left; auto|]. intros e' R' Ee L' F'. cbv beta iota.
    wb. apply IH; auto; try lia; [intros; apply Fg; right; auto|]. intros l' R2 Hl L2 F2. cbv beta iota. apply (wp_intro _ _ _ eq_refl). apply HQ; auto.
Qed.

Lemma csim_fits C C' : csim C C' -> shape C -> fits C C'.
Proof.
  intros SIM SH. constructor.
  - eapply csim_shape; eauto.
  - apply csim_lpp; auto.
  - apply (cs_idx _ _ SIM).
  - apply csim_socs; auto.
  - destruct SIM as [_ _ _ _ S _ _]. clear -S. induction S as [|c c' t t' (_ & D & _) ? IH]; cbn; congruence.
  - destruct SIM as [_ _ _ _ _ S _]. clear -S. induction S as [|c c' t t' (D & _) ? IH]; cbn; congruence.
Qed.

Lemma ws_cone lpv soc ex w C : ws L lpv soc ex w -> csim (w_C w) C -> ws L lpv soc ex (set_w_C w C).
Proof.
  intros WS SIM. pose proof (csim_fits _ _ SIM (co_shape _ _ _ _ (ws_C _ _ _ _ _ WS))) as FT.
  destruct WS; constructor; wcbn; auto; [eapply fits_cone; eauto|eapply fits_indexed; eauto].
Qed.

Lemma next_csim C l : Forall2 exp_next (co_expc C) l -> csim C (set_co_expc C l).
Proof.
  intros H. constructor; auto; wcbn.
  - apply Forall2_refl, soc_sim_refl.
  - clear -H. induction H as [|e e' t t' (A & B & D & E) ? IH]; constructor; auto. split; auto. split; auto. rewrite B; auto.
Qed.
Lemma next_scaled C l : Forall2 exp_next (co_expc C) l -> ConeP.scaled C -> ConeP.scaled (set_co_expc C l).
Proof.
  intros H [A B D E G]. constructor; auto; wcbn.
  - intros e He. destruct (Forall2_in_r _ _ _ _ H He) as (x & Hx & (_ & -> & _)). auto.
  - intros e He. destruct (Forall2_in_r _ _ _ _ H He) as (x & Hx & (_ & _ & _ & FG)). apply full_vecd; auto.
Qed.

(* lines 699-710: ds1 = lambda o lambda + ds o dz - sigma mu e on the symmetric cones *)
Lemma comb_soc_safe C h (ds2 : arr F) sm : (forall c, In c (co_soc C) -> 1 <= so_p c) -> hsize C <= h -> full ds2 h ->
  forall (ds1 : arr F) (Q : arr F * nat -> Prop), length ds1 = length ds1 -> full ds1 h ->
  (forall d k, length d = length ds1 -> full d h -> Q (d, k)) ->
  wp (for_each (co_soc C) (fun c st =>
      let '(ds1, k) := st in
      a <- get ds1 k ;; b <- get ds2 k ;;
      ds1 <- set ds1 k (a + (b - sm))%fl ;;
      ds1 <- for_ 1 (so_p c) (fun j ds1 =>
          a <- get ds1 (k + j)%nat ;; b <- get ds2 (k + j)%nat ;; set ds1 (k + j)%nat (a + b)%fl) ds1 ;;
      Some (ds1, (k + Nat.max 1 (so_p c))%nat)) (ds1, lpp C)) Q.
Proof.
  intros Hp Hh F2 ds1 Q _ F1 HQ. pose proof (full_len _ _ F1) as L1. unfold hsize in Hh.
  apply (wp_for_each (fun pre st => let '(d, k) := st in k = lpp C + list_sum (map so_p pre) /\ length d = length ds1 /\ full d h)).
  - cbn [map list_sum fold_right]. csplit; auto; cbn; lia.
  - intros pre c post [d k] El (Ek & Ld & Fd). 
    assert (HS : list_sum (map so_p (co_soc C)) = list_sum (map so_p pre) + so_p c + list_sum (map so_p post)).
    { rewrite El, map_app, list_sum_app. change (map so_p (c :: post)) with (so_p c :: map so_p post).
      change (list_sum (so_p c :: map so_p post)) with (so_p c + list_sum (map so_p post)). lia. }
    assert (Pc : 1 <= so_p c) by (apply Hp; rewrite El; apply in_or_app; right; left; auto).
    destruct (Fd k ltac:(lia)) as [u Eu]. destruct (F2 k ltac:(lia)) as [v Ev]. wget Eu. wget Ev. wb. apply wp_set; [lia|]. intros d1 L2 G2.
    pose proof (full_set _ _ _ _ _ Fd G2) as FD1. wb. apply (for_keep h); auto.
    + intros j a' Hj La Fa. destruct (Fa (k + j) ltac:(lia)) as [u' Eu']. destruct (F2 (k + j) ltac:(lia)) as [v' Ev']. eexists (k + j), _. split; [lia|].
      rewrite Eu'. cbn [bind]. rewrite Ev'. reflexivity.
    + intros d2 L3 F3. apply (wp_intro _ _ _ eq_refl). csplit; [|congruence|auto].
      rewrite map_app, list_sum_app. change (list_sum (map so_p [c])) with (so_p c + 0). lia.
  - intros [d k] (Ek & Ld & Fd). auto.
Qed.

Lemma RHS_combined_safe lpv soc ex w (Q : W -> Prop) : going lpv soc ex w -> affined w ->
  (forall w', going lpv soc ex w' -> affined w' -> key w' = key w -> Q w') -> wp (RHS_combined w) Q.
Proof.
  intros GO [[X1 Y1 Z1] FW FD] HQ. pose proof GO as [WS [PX PY PZ PS] [RX RY RZ] SC LA FA R1 R2]. unfold RHS_combined. cbv zeta.
  pose proof (ws_K _ _ _ _ _ WS) as KW. pose proof (ws_pos L WS) as HP. pose proof (ws_hm L WS) as HM. pose proof (ws_mN L) as MN.
  pose proof (ws_N L WS) as NN. pose proof (kws_dim _ _ _ _ _ KW) as (PP & _). pose proof (kw_Pinv _ _ _ _ _ KW) as VP.
  set (sm := (st_sigma _ * _)%fl). set (oms := (f1 - _)%fl). clearbody sm oms.
  destruct (conicProduct_eq (w_C w) (w_lambda w) (w_lambda w) (gd f0 (w_lambda w)) (gd f0 (w_lambda w)) (kk_work1 (w_KKT w))) as (d1 & E1 & F1);
    [auto|apply full_vecd; auto|apply full_vecd; auto|destruct KW; lia|].
  wb. apply (wp_intro _ _ _ E1). cbv beta iota. pose proof (filled_len _ _ _ _ _ F1) as L1. apply filled_full in F1. clear E1.
  destruct (conicProduct_eq (w_C w) (w_dsaff_by_W w) (w_W_times_dzaff w) (gd f0 (w_dsaff_by_W w)) (gd f0 (w_W_times_dzaff w)) (kk_work2 (w_KKT w))) as (d2 & E2 & F2);
    [auto|apply full_vecd; auto|apply full_vecd; auto|destruct KW; lia|].
  wb. apply (wp_intro _ _ _ E2). cbv beta iota. pose proof (filled_len _ _ _ _ _ F2) as L2. apply filled_full in F2. clear E2.
  assert (LH : lpp (w_C w) <= hsize (w_C w)) by (unfold hsize; lia).
  assert (LN : n + p + lpp (w_C w) <= N) by (unfold msize in NN; lia).
  wb. apply (for_keep (hsize (w_C w))); auto; [lia| |].
  { intros i a' Hi La Fa. destruct (Fa i ltac:(lia)) as [u Eu]. destruct (F2 i ltac:(lia)) as [v Ev]. eexists i, _. split; [destruct KW; lia|].
    rewrite Eu. cbn [bind]. rewrite Ev. reflexivity. }
  intros d3 L3 F3. wb. apply (comb_soc_safe (w_C w) (hsize (w_C w))); auto. intros d4 k4 L4 F4. cbv beta iota.
  destruct (conicDivision_eq (w_C w) (w_lambda w) d4 (gd f0 (w_lambda w)) (gd f0 d4) (w_dsaff_by_W w)) as (dsw & E5 & F5);
    [auto|apply full_vecd; auto|apply full_vecd; auto|destruct WS; lia|].
  wb. apply (wp_intro _ _ _ E5). pose proof (filled_len _ _ _ _ _ F5) as L5. apply filled_full in F5. clear E5.
  assert (L1N : length d4 = N) by (destruct KW; congruence).
  destruct (scale_eq (w_C w) dsw (gd f0 dsw) d4) as (d6 & E6 & F6); [auto|apply scaled_W; auto|apply full_vecd; auto|lia|].
  wb. apply (wp_intro _ _ _ E6). pose proof (filled_len _ _ _ _ _ F6) as L6. apply filled_full in F6. clear E6.
  rewrite (ws_n _ _ _ _ _ WS), (ws_p _ _ _ _ _ WS).
  assert (LR2 : length (kk_RHS2 (w_KKT w)) = N) by (destruct KW; auto).
  wb. apply (for_keep N); auto; [lia| |].
  { intros i a' Hi La Fa. pose proof (proj1 PP i ltac:(lia)) as Pi. destruct (Fa (ly_pf L i) Pi) as [v Ev]. exists (ly_pf L i), (v * oms)%fl. split; [lia|].
    rewrite VP by lia. cbn [bind]. rewrite Ev. reflexivity. }
  intros Ra LRa FRa. rewrite LR2 in LRa.
  set (val := fun j => r <- get (w_rz w) j ;; d <- get d6 j ;; Some (- oms * r + d)%fl).
  assert (HV : forall j, j < hsize (w_C w) -> exists v, val j = Some v).
  { intros j Hj. unfold val. destruct (RZ j ltac:(lia)) as [u ->]. destruct (F6 j Hj) as [v ->]. cbn. eauto. }
  wb. apply (scatter_keep L _ lpv soc ex); auto; [intros; apply HV; lia|]. intros Rb LRb FRb.
  assert (EXS : exsum (map so_p (co_soc (w_C w))) = list_sum (map so_p (co_soc (w_C w))) + 2 * nsoc (w_C w)) by (unfold exsum, nsoc; rewrite map_length; auto).
  unfold msize in NN. unfold hsize in NN at 1.
  wb. apply (rhs_socs_wp N (ly_pf L) _ VP PP val (fun j => match val j with Some v => v | None => f0 end)).
  { lia. } { lia. } { intros i Hi. destruct (HV i) as [v ->]; auto. unfold hsize. lia. }
  intros Rc (LRc & C2 & C3). cbv beta iota.
  assert (FRc : full Rc N).
  { apply (full_perm _ _ _ PP). intros i Hi. destruct (Nat.lt_ge_cases i (n + p + lpp (w_C w))); [rewrite C3 by (auto; lia); apply FRb, PP; auto|].
    destruct (Nat.lt_ge_cases i (n + p + lpp (w_C w) + exsum (map so_p (co_soc (w_C w))))); [|rewrite C3 by (auto; lia); apply FRb, PP; auto].
    replace i with (n + p + lpp (w_C w) + (i - (n + p + lpp (w_C w)))) by lia. eexists. apply C2. lia. }
  wb. apply (comb_exps_safe lpv soc ex); auto; try lia.
  { fold (nexc (w_C w)). lia. }
  { fold (nexc (w_C w)). rewrite (ws_fexv L WS). lia. }
  { intros e He. eapply vec_fulld. apply (sd_eg _ SC e He). }
  intros l' Rd Hl LRd FRd. cbv beta iota. apply (wp_intro _ _ _ eq_refl).
  pose proof (next_csim _ _ Hl) as SIM. assert (LD2 : length d2 = N) by (destruct KW; congruence). assert (LDS : length dsw = m) by (destruct WS; congruence).
  set (K' := set_kk_RHS2 _ _). assert (KW' : kws L lpv soc ex K') by (unfold K'; wsup KW).
  set (w' := set_w_KKT _ _).
  assert (WS' : ws L lpv soc ex w').
  { pose proof (ws_cone lpv soc ex w _ WS SIM) as WC. unfold w'. wsup WC. }
  apply HQ; [|constructor; [constructor; auto| |]|reflexivity].
  - constructor; auto; try (constructor; auto; fail).
    + apply next_scaled; auto.
    + destruct FA; constructor; auto.
  - exact FW.
  - exact F5.
Qed.

Lemma combined_solve_safe lpv soc ex w (Q : W -> Prop) : going lpv soc ex w -> affined w ->
  (forall w', going lpv soc ex w' -> affined w' -> dir2 w' -> key w' = key w -> Q w') -> wp (combined_solve w) Q.
Proof.
  intros GO AF HQ. unfold combined_solve, set_info. wb. apply (RHS_combined_safe lpv soc ex); auto. intros w1 GO1 AF1 K1.
  wb. apply (solve2_safe lpv soc ex); auto; [apply AF1|]. intros it K' w2 GO2 D1 D2. cbv beta iota. apply (wp_intro _ _ _ eq_refl). apply HQ.
  - apply going_info; auto.
  - destruct AF1 as [_ A B], D1. constructor; auto. constructor; auto.
  - destruct D2; constructor; auto.
  - rewrite <- K1. reflexivity.
Qed.

Lemma combined_newton_safe lpv soc ex den da dk w (Q : F * F * W -> Prop) : going lpv soc ex w -> affined w -> dir2 w ->
  (forall a b w', going lpv soc ex w' -> affined w' -> dir2 w' -> key w' = key w -> Q (a, b, w')) -> wp (combined_newton den da dk w) Q.
Proof.
  intros GO AF D2 HQ. unfold combined_newton, set_info. cbv zeta. pose proof GO as [WS PT RE SC LA FA R1 R2].
  pose proof AF as [[X1 Y1 Z1] FW FD]. pose proof D2 as [X2 Y2 Z2]. pose proof (ws_K _ _ _ _ _ WS) as KW.
  pose proof (ws_hm L WS) as HM. pose proof (ws_mN L) as MN.
  destruct (dot3_safe lpv soc ex w _ _ _ WS X2 Y2 Z2) as [[[a b] c] Ed]. wb. apply (wp_intro _ _ _ Ed). cbv beta iota.
  set (dta := (_ / den)%fl). set (bk := (_ - _ * st_mu (w_info w))%fl). clearbody dta bk. clear Ed a b c.
  rewrite (ws_n _ _ _ _ _ WS), (ws_p _ _ _ _ _ WS), (ws_m _ _ _ _ _ WS).
  wb. apply axpy_len; auto; [destruct KW; auto|]. intros dx2 Ldx Fdx.
  wb. apply axpy_len; auto; [destruct KW; auto|]. intros dy2 Ldy Fdy.
  wb. apply axpy_len; auto; [destruct KW; auto|]. intros dz2 Ldz Fdz.
  destruct (scale_eq (w_C w) dz2 (gd f0 dz2) (w_W_times_dzaff w)) as (wdz & Ew & Fw);
    [apply (ws_pos L WS)|apply scaled_W; auto|apply full_vecd; eapply full_le; eauto; lia|destruct WS; lia|].
  pose proof (filled_len _ _ _ _ _ Fw) as Lw. apply filled_full in Fw. pose proof (ws_lwd _ _ _ _ _ WS) as Lwd.
  wb. wcbn. apply (wp_intro _ _ _ Ew). wb. rewrite (ws_m _ _ _ _ _ WS).
  apply (cell2_safe _ m (hsize (w_C w))); auto; try (destruct WS; congruence). intros dsw Lds Fds. wcbn.
  match goal with |- context [lineSearch _ _ _ ?t ?dt ?k ?dk _ ?k1 ?k2] =>
    destruct (lineSearch_eq (w_C w) (w_lambda w) dsw wdz (gd f0 (w_lambda w)) (gd f0 dsw) (gd f0 wdz) t dt k dk k1 k2) as (k1' & k2' & El & Lk1 & Lk2) end;
    [apply full_vecd; auto|apply full_vecd; auto|apply full_vecd; auto|apply (ws_pos L WS)|destruct KW; lia|destruct KW; lia|].
  set (al := ls_alpha _ _ _ _ _ _ _ _) in El. clearbody al. wb. apply (wp_intro _ _ _ El). cbv beta iota. apply (wp_intro _ _ _ eq_refl).
  assert (KW3 : kws L lpv soc ex (set_kk_work2 (set_kk_work1 (set_kk_dz2 (set_kk_dy2 (set_kk_dx2 (w_KKT w) dx2) dy2) dz2) k1') k2')) by (wsup KW).
  apply HQ; [|constructor; wcbn; auto; constructor; auto|constructor; auto|reflexivity].
  apply (going_keep lpv soc ex w); auto. wsup WS.
Qed.

Lemma expg_safe C i : ConeP.scaled C -> i < 3 * nexc C -> exists v, expg C i = Some v.
Proof.
  intros SC Hi. unfold expg. destruct (nth_error (co_expc C) (i / 3)) as [e|] eqn:E.
  - cbn [bind]. apply nth_error_In in E. pose proof (sd_eg _ SC e E) as V. apply vec_fulld in V. apply V. apply Nat.mod_upper_bound. lia.
  - exfalso. apply nth_error_None in E. fold (nexc C) in E. pose proof (Nat.div_lt_upper_bound i 3 (nexc C) ltac:(lia) ltac:(lia)). lia.
Qed.

Record ready lpv soc ex (w : W) : Prop := {
  rd_ws : ws L lpv soc ex w; rd_pt : at_pt L w; rd_d2 : dir2 w; rd_ds : full (w_dsaff w) m;
  rd_r1 : full (kk_RHS1 (w_KKT w)) N; rd_r2 : full (kk_RHS2 (w_KKT w)) N
}.

Lemma combined_exp_safe lpv soc ex a b w (Q : bool * W -> Prop) : going lpv soc ex w -> affined w -> dir2 w ->
  (forall ok w', ready lpv soc ex w' -> key w' = key w -> Q (ok, w')) -> wp (combined_exp a b w) Q.
Proof.
  intros GO AF D2 HQ. unfold combined_exp, set_info. pose proof GO as [WS PT RE SC LA FA R1 R2]. wb.
  apply (ds_unscale_safe lpv soc ex); auto; [apply (af_dw _ AF)|apply (d2_z _ D2)|intros; apply expg_safe; auto|].
  intros ds Lds Fds. cbv zeta. set (w4 := set_w_info _ _).
  assert (WS4 : ws L lpv soc ex w4) by (apply ws_info; wsup WS).
  assert (PT4 : at_pt L w4) by (destruct PT; constructor; auto).
  assert (RD4 : ready lpv soc ex w4) by (destruct D2; constructor; auto; constructor; auto).
  assert (KY4 : key w4 = key w) by reflexivity. clearbody w4.
  wif T; [|apply (wp_intro _ _ _ eq_refl); auto]. apply Nat.ltb_lt in T. wb.
  apply (expls_safe lpv soc ex); auto; [apply RD4|apply RD4|].
  intros al ka kb i La Lb Hi. cbv beta iota. apply (wp_intro _ _ _ eq_refl). apply HQ.
  - destruct RD4 as [A [] [] E G H]. constructor; auto; try (constructor; auto; fail). apply ws_info, ws_info, ws_setK; auto.
    pose proof (ws_K _ _ _ _ _ A) as KW. wsup KW.
  - rewrite <- KY4. unfold key. wcbn. rewrite Hi. reflexivity.
Qed.

Lemma combined_dir_safe lpv soc ex den da dk w (Q : bool * F * F * W -> Prop) : going lpv soc ex w -> affined w ->
  (forall ok a b w', ready lpv soc ex w' -> key w' = key w -> Q (ok, a, b, w')) -> wp (combined_dir den da dk w) Q.
Proof.
  intros GO AF HQ. unfold combined_dir. wb. apply (combined_solve_safe lpv soc ex); auto. intros w1 GO1 AF1 D21 K1.
  wb. apply (combined_newton_safe lpv soc ex); auto. intros a b w2 GO2 AF2 D22 K2. cbv beta iota.
  wb. apply (combined_exp_safe lpv soc ex); auto. intros ok w3 RD K3. cbv beta iota. apply (wp_intro _ _ _ eq_refl). apply HQ; auto. congruence.
Qed.

Lemma take_step_safe lpv soc ex a b w (Q : W -> Prop) : ready lpv soc ex w ->
  (forall w', ws L lpv soc ex w' -> at_pt L w' -> key w' = key w -> w_KKT w' = w_KKT w -> Q w') -> wp (take_step a b w) Q.
Proof.
  intros [WS [PX PY PZ PS] [X2 Y2 Z2] FD R1 R2] HQ. unfold take_step. cbv zeta. set (st := st_step (w_info w)). clearbody st.
  rewrite (ws_n _ _ _ _ _ WS), (ws_p _ _ _ _ _ WS), (ws_m _ _ _ _ _ WS).
  wb. apply axpy_len; auto; [destruct WS; auto|]. intros x Lx Fx. wb. apply axpy_len; auto; [destruct WS; auto|]. intros y Ly Fy.
  wb. apply axpy_len; auto; [destruct WS; auto|]. intros z Lz Fz. wb. apply axpy_len; auto; [destruct WS; auto|]. intros s Ls Fs.
  apply (wp_intro _ _ _ eq_refl). apply HQ; [wsup WS|constructor; auto|reflexivity|reflexivity].
Qed.

End SafeV.
