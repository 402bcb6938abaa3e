(* One iteration that goes on, as a list of equations between the vectors it
   computes.  Arithmetic is arbitrary. *)
From Coq Require Import List Arith Bool ZArith Lia.
From Verif Require Import Base Num.
From Verif.Model Require Import Spla Splamm Types Consts Expcone Cone Ldl Kkt Equil Preproc Ecos.
From Verif.Spec Require Import Matrix Fill KktSpec KktMatrix Shape SetupSpec Direction.
From Verif.Proofs Require Import SplaP LoopLib SplammP LdlSym LdlNum KktAsm KktMat ConeP ScalP Scal2P LineP KktUpd Layout EquilP Work WorkUpd
  SafeLib Stretch SafeK KktErr SafeE SafeW SafeV ExitP LoopP SafeU IterP Wlp DirP.
From Verif.Properties Require Import Kkt.
Import ListNotations.
Open Scope nat_scope.

Section DirT.
Context `{O : Ops}.
Notation W := (pwork F).
Variable L : lay.
Hypothesis H1 : forall d, In d (ly_q L) -> 1 <= d.
Notation n := (ly_n L).
Notation p := (ly_p L).
Notation m := (ly_m L).
Notation N := (ly_nK L).
Notation pf := (ly_pf L).

(* dx, dy, dz is what the solver of the KKT systems returns for the right-hand side R,
   with the factorization in K and the scaling in C *)
Definition solves (w : W) (K : kkt F) (C : cone F) (R dx dy dz : arr F) : Prop :=
  exists K0 it K' x0 y0 z0, kcore K0 = kcore K /\
    kkt_solve K0 (w_A w) (w_G w) R x0 y0 z0 (w_n w) (w_p w) (w_m w) C false (sg_nitref (w_stgs w)) = Some (it, K', dx, dy, dz).

(* the vectors of an iteration *)
Record trace := mkTrace {
  tc_C : cone F; tc_la : arr F; tc_K : kkt F;
  tc_x1 : arr F; tc_y1 : arr F; tc_z1 : arr F;            (* solution for the constant right-hand side *)
  tc_Ra : arr F; tc_xa : arr F; tc_ya : arr F; tc_za : arr F;  (* affine *)
  tc_den : F; tc_dta : F; tc_dka : F; tc_dza : arr F; tc_wdz : arr F; tc_dwa : arr F;
  tc_sigma : F; tc_Cc : cone F; tc_u : arr F;
  tc_Rc : arr F; tc_xc : arr F; tc_yc : arr F; tc_zc : arr F;  (* combined *)
  tc_dtau : F; tc_dkap : F; tc_dx : arr F; tc_dy : arr F; tc_dz : arr F; tc_dw : arr F; tc_ds : arr F; tc_a : F
}.

(* c'dx + b'dy + h'dz *)
Definition dots (w : W) (dx dy dz : arr F) (a b c : F) : Prop :=
  eddot (w_n w) (w_c w) dx = Some a /\ eddot (w_p w) (w_b w) dy = Some b /\ eddot (w_m w) (w_h w) dz = Some c.

Definition sigma_of (step : F) : F :=
  let sigma := (f1 - step)%fl in
  let sigma := (sigma * sigma * sigma)%fl in
  let sigma := if flt SIGMAMAX sigma then SIGMAMAX else sigma in
  if flt sigma SIGMAMIN then SIGMAMIN else sigma.

(* the conic part of the combined right-hand side *)
Definition comb_zz (C : cone F) (rz s : arr F) (sm om : F) (g : arr F) (i : nat) : F :=
  let h := hsize C in
  if i <? h then (- om * gd f0 rz i + gd f0 g i)%fl
  else match nth_error (co_expc C) ((i - h) / 3) with
       | Some e => (- om * gd f0 rz i + (gd f0 s i + sm * gd f0 (ex_g e) ((i - h) mod 3)))%fl
       | None => f0
       end.

Record traced (w w' : W) (t : trace) : Prop := {
  tr_scal : updateScalings (w_C w) (w_s w) (w_z w) (w_lambda w) (st_mu (w_info w)) = Some (false, tc_C t, tc_la t);
  tr_rhs1 : kk_RHS1 (tc_K t) = kk_RHS1 (w_KKT w);
  tr_pinv : kk_Pinv (tc_K t) = kk_Pinv (w_KKT w);
  tr_core : kcore (w_KKT w') = kcore (tc_K t);
  tr_s1 : solves w (tc_K t) (tc_C t) (kk_RHS1 (tc_K t)) (tc_x1 t) (tc_y1 t) (tc_z1 t);
  tr_Ra : rhs_is L (tc_Ra t) (gd f0 (w_rx w)) (fun i => - gd f0 (w_ry w) i)%fl (fun i => gd f0 (w_s w) i - gd f0 (w_rz w) i)%fl;
  tr_sa : solves w (tc_K t) (tc_C t) (tc_Ra t) (tc_xa t) (tc_ya t) (tc_za t);
  tr_full1 : full (tc_x1 t) n /\ full (tc_y1 t) p /\ full (tc_z1 t) m;
  tr_fulla : full (tc_xa t) n /\ full (tc_ya t) p /\ full (tc_za t) m;
  tr_den : exists a b c, dots w (tc_x1 t) (tc_y1 t) (tc_z1 t) a b c /\ tc_den t = (w_kap w / w_tau w - a - b - c)%fl;
  tr_dta : exists a b c, dots w (tc_xa t) (tc_ya t) (tc_za t) a b c /\ tc_dta t = ((w_rt w - w_kap w + a + b + c) / tc_den t)%fl;
  tr_dka : tc_dka t = (- w_kap w - w_kap w / w_tau w * tc_dta t)%fl;
  tr_dza : axpy (w_m w) (tc_dta t) (tc_z1 t) (tc_za t) = Some (tc_dza t);
  tr_wdz : exists d0, scale (tc_dza t) (tc_C t) d0 = Some (tc_wdz t) /\ length d0 = m;
  tr_dwa : exists d0, cell2 (fun x y => - x - y)%fl (w_m w) (tc_wdz t) (tc_la t) d0 = Some (tc_dwa t);
  tr_sigma : exists a, tc_sigma t = sigma_of a;
  tr_conic : exists a b k1 k2 d1 d2 d4 d5 g l',
    conicProduct (tc_la t) (tc_la t) (tc_C t) k1 = Some (a, d1) /\
    conicProduct (tc_dwa t) (tc_wdz t) (tc_C t) k2 = Some (b, d2) /\
    (forall i, i < hsize (tc_C t) -> get d4 i = Some (gd f0 d1 i + (if unit_at (ly_l L) (ly_q L) i then gd f0 d2 i - tc_sigma t * st_mu (w_info w) else gd f0 d2 i))%fl) /\
    conicDivision (tc_la t) d4 (tc_C t) d5 = Some (tc_u t) /\
    scale (tc_u t) (tc_C t) d4 = Some g /\
    rhs_is L (tc_Rc t) (fun i => gd f0 (w_rx w) i * (f1 - tc_sigma t))%fl (fun i => - gd f0 (w_ry w) i * (f1 - tc_sigma t))%fl
      (comb_zz (tc_C t) (w_rz w) (w_s w) (tc_sigma t * st_mu (w_info w))%fl (f1 - tc_sigma t)%fl g) /\
    tc_Cc t = set_co_expc (tc_C t) l' /\ map ex_v l' = map ex_v (co_expc (tc_C t)) /\
    (forall j e e', nth_error (co_expc (tc_C t)) j = Some e -> nth_error l' j = Some e' ->
      vec (ex_g e') 3 (fun i => gd f0 (w_s w) (hsize (tc_C t) + 3 * j + i) + tc_sigma t * st_mu (w_info w) * gd f0 (ex_g e) i)%fl) /\
    hsize (tc_C t) <= length k1 /\ hsize (tc_C t) <= length k2 /\ hsize (tc_C t) <= length d5;
  tr_sc : solves w (tc_K t) (tc_Cc t) (tc_Rc t) (tc_xc t) (tc_yc t) (tc_zc t);
  tr_fullc : full (tc_xc t) n /\ full (tc_yc t) p /\ full (tc_zc t) m;
  tr_dtau : exists a b c, dots w (tc_xc t) (tc_yc t) (tc_zc t) a b c /\
    tc_dtau t = (((f1 - tc_sigma t) * w_rt w - (w_kap w * w_tau w + tc_dka t * tc_dta t - tc_sigma t * st_mu (w_info w)) / w_tau w + a + b + c) / tc_den t)%fl;
  tr_dkap : tc_dkap t = (- ((w_kap w * w_tau w + tc_dka t * tc_dta t - tc_sigma t * st_mu (w_info w)) + w_kap w * tc_dtau t) / w_tau w)%fl;
  tr_dx : axpy (w_n w) (tc_dtau t) (tc_x1 t) (tc_xc t) = Some (tc_dx t);
  tr_dy : axpy (w_p w) (tc_dtau t) (tc_y1 t) (tc_yc t) = Some (tc_dy t);
  tr_dz : axpy (w_m w) (tc_dtau t) (tc_z1 t) (tc_zc t) = Some (tc_dz t);
  tr_dw : exists d0 wdz d1, scale (tc_dz t) (tc_Cc t) d0 = Some wdz /\ length d0 = m /\ cell2 (fun x y => - (x + y))%fl (w_m w) (tc_u t) wdz d1 = Some (tc_dw t);
  tr_ds : exists wd, w_C wd = tc_Cc t /\ w_m wd = w_m w /\ w_dsaff_by_W wd = tc_dw t /\ kk_dz2 (w_KKT wd) = tc_dz t /\ length (w_dsaff wd) = m /\
    ds_unscale wd (expg (tc_Cc t)) = Some (tc_ds t);
  tr_x : axpy (w_n w) (tc_a t) (tc_dx t) (w_x w) = Some (w_x w');
  tr_y : axpy (w_p w) (tc_a t) (tc_dy t) (w_y w) = Some (w_y w');
  tr_z : axpy (w_m w) (tc_a t) (tc_dz t) (w_z w) = Some (w_z w');
  tr_ss : axpy (w_m w) (tc_a t) (tc_ds t) (w_s w) = Some (w_s w');
  tr_tau : w_tau w' = (w_tau w + tc_a t * tc_dtau t)%fl;
  tr_kap : w_kap w' = (w_kap w + tc_a t * tc_dkap t)%fl;
  tr_step : tc_a t = st_step (w_info w') /\ tc_sigma t = st_sigma (w_info w') /\ tc_la t = w_lambda w' /\ tc_Cc t = w_C w';
  tr_prob : prob_of w' = prob_of w
}.

Lemma wp_get {A} (x : option A) (a : A) (Q : A -> Prop) : x = Some a -> wp x Q -> Q a.
Proof. intros -> H. exact H. Qed.


Record like (v w : W) (la : arr F) : Prop := {
  lk_n : w_n v = w_n w; lk_p : w_p v = w_p w; lk_m : w_m v = w_m w; lk_A : w_A v = w_A w; lk_G : w_G v = w_G w;
  lk_c : w_c v = w_c w; lk_b : w_b v = w_b w; lk_h : w_h v = w_h w; lk_st : w_stgs v = w_stgs w;
  lk_x : w_x v = w_x w; lk_y : w_y v = w_y w; lk_z : w_z v = w_z w; lk_s : w_s v = w_s w; lk_tau : w_tau v = w_tau w; lk_kap : w_kap v = w_kap w;
  lk_rx : w_rx v = w_rx w; lk_ry : w_ry v = w_ry w; lk_rz : w_rz v = w_rz w; lk_rt : w_rt v = w_rt w;
  lk_la : w_lambda v = la; lk_mu : st_mu (w_info v) = st_mu (w_info w); lk_prob : prob_of v = prob_of w
}.
Lemma still_like v w la : still v = (prob_of w, point_of w, (w_rx w, w_ry w, w_rz w, w_rt w), la, st_mu (w_info w)) -> like v w la.
Proof.
  unfold still. intros E. pose proof (f_equal (fun r => fst (fst (fst (fst r)))) E) as AA. cbn [fst] in AA. unfold prob_of, point_of in E. injection E. intros. constructor; assumption.
Qed.

Lemma dots_of v w la dx dy dz a b c : like v w la -> dot3 v dx dy dz = Some (a, b, c) -> dots w dx dy dz a b c.
Proof.
  intros []. unfold dot3, dots. intros E. binv E. injection E as <- <- <-. rewrite <- lk_n0, <- lk_p0, <- lk_m0, <- lk_c0, <- lk_b0, <- lk_h0. auto.
Qed.

Lemma upd_sigma w : st_sigma (w_info (affine_sigma w)) = sigma_of (st_step_aff (w_info w)).
Proof. reflexivity. Qed.

Lemma iter_step_trace lpv soc ex w w' : ws L lpv soc ex w -> at_pt L w -> residuals L w -> rhs_full L w ->
  iter_step w = Some (VGo, w') -> exists t, traced w w' t.
Proof.
  intros WS PT RE [R1 R2] E. unfold iter_step in E. pose proof PT as [PX PY PZ PS]. pose proof (ws_K _ _ _ _ _ WS) as KW.
  pose proof (ws_msize L WS) as EM. pose proof (ws_hm L WS) as HM.
  destruct (updateScalings_eq (w_C w) (w_s w) (w_z w) (gd f0 (w_s w)) (gd f0 (w_z w)) (w_lambda w) (st_mu (w_info w))) as (C' & la & Eu & SIM & Ll & HT & HF);
    [apply (co_shape _ _ _ _ (ws_C _ _ _ _ _ WS))|rewrite EM; apply full_vecd; auto|rewrite EM; apply full_vecd; auto|destruct WS; lia|].
  rewrite Eu in E. cbn [bind] in E. cbv zeta in E.
  match type of Eu with _ = Some (?o, _, _) => destruct o eqn:EO end.
  { destruct (restoreBestIterate _) as [wr|]; [cbn [bind] in E|discriminate]. destruct (checkExitConditions wr ECOS_INACC_OFFSET) as [code wr']. destruct (code =? _)%Z; discriminate. }
  set (w1 := set_w_lambda (set_w_C w C') la) in E.
  assert (WS1 : ws L lpv soc ex w1) by (pose proof (ws_cone L lpv soc ex w C' WS SIM) as WC; pose proof (ws_ll _ _ _ _ _ WS) as Lla; rewrite <- Ll in Lla; unfold w1; clear - WC Lla; destruct WC; constructor; wcbn; assumption).
  assert (PT1 : at_pt L w1) by (destruct PT; constructor; auto).
  destruct (HF eq_refl) as (UP & FI). clear HF HT. pose proof (updated_scaled _ _ _ _ UP) as SC.
  pose proof (ws_C _ _ _ _ _ WS1) as CO1. pose proof (ws_ix _ _ _ _ _ WS1) as IX1.
  change (w_C w1) with C' in *. change (w_KKT w1) with (w_KKT w) in *. change (w_stgs w1) with (w_stgs w) in *.
  destruct (kkt_update _ _ C') as [pr'|] eqn:Ek; [cbn [bind] in E|discriminate].
  assert (KW1 : kws L (lp_scaled C') (soc_vals C') (exp_vals C') (set_kk_PKPt (w_KKT w) (with_pr (kk_PKPt (w_KKT w)) pr'))).
  { apply (wp_get _ _ (fun pr' => kws L (lp_scaled C') (soc_vals C') (exp_vals C') (set_kk_PKPt (w_KKT w) (with_pr (kk_PKPt (w_KKT w)) pr'))) Ek).
    apply wp_conseq with (P := fun pr' => length pr' = length (sp_pr (kk_PKPt (w_KKT w))) /\
       kws L (lp_scaled C') (soc_vals C') (exp_vals C') (set_kk_PKPt (w_KKT w) (with_pr (kk_PKPt (w_KKT w)) pr')));
      [apply (kws_update_wp L lpv soc ex); auto; apply scaled_ready; auto|]. intros x [_ H]. exact H. }
  destruct (kkt_factor _ _ _) as [[okf K2]|] eqn:Ef; [cbn [bind] in E|discriminate]. pose proof (ws_dat _ _ _ _ _ WS1) as DW.
  assert (X2 : kws L (lp_scaled C') (soc_vals C') (exp_vals C') K2 /\ factored N K2 /\ kk_RHS1 K2 = kk_RHS1 (w_KKT w) /\ kk_RHS2 K2 = kk_RHS2 (w_KKT w) /\ kk_Pinv K2 = kk_Pinv (w_KKT w) /\ okf = true).
  { apply (wp_get _ _ (fun r => kws L (lp_scaled C') (soc_vals C') (exp_vals C') (snd r) /\ factored N (snd r) /\ kk_RHS1 (snd r) = kk_RHS1 (w_KKT w) /\ kk_RHS2 (snd r) = kk_RHS2 (w_KKT w) /\ kk_Pinv (snd r) = kk_Pinv (w_KKT w) /\ fst r = true) Ef).
    apply (kkt_factor_wp L (lp_scaled C') (soc_vals C') (exp_vals C') _ _ _ _ _ _ _ _ _ KW1 H1 DW). intros K' A B D G _ _ HPi. cbn [snd fst]. csplit; auto. }
  destruct X2 as (KW2 & FA2 & ER1 & ER2 & EPi & ->). cbn [negb] in E.
  assert (GO : going L (lp_scaled C') (soc_vals C') (exp_vals C') (set_w_KKT w1 K2)).
  { constructor; wcbn; auto.
    - apply (ws_restate L lpv soc ex); auto.
    - destruct PT1; constructor; auto.
    - destruct RE; constructor; auto.
    - unfold w1; wcbn. apply filled_full in FI. auto.
    - rewrite ER1. auto.
    - rewrite ER2. auto. }
  set (wg := set_w_KKT w1 K2) in *.
  assert (Sg : still wg = (prob_of w, point_of w, (w_rx w, w_ry w, w_rz w, w_rt w), la, st_mu (w_info w))) by reflexivity.
  assert (Kg : w_KKT wg = K2) by reflexivity. assert (Cg : w_C wg = C') by reflexivity. clearbody wg.
  clear Ek Ef KW1 FI UP SC CO1 IX1 DW WS1 PT1 w1 pr' SIM Ll.
  set (v1 := lp_scaled C') in *. set (v2 := soc_vals C') in *. set (v3 := exp_vals C') in *. clearbody v1 v2 v3.
  destruct (solve1 wg) as [w3|] eqn:E3; [cbn [bind] in E|discriminate].
  destruct (wp_get _ _ (fun w' => going L v1 v2 v3 w' /\ dir1 L w') E3 (solve1_safe L v1 v2 v3 wg _ GO (fun w' A B _ => conj A B))) as [GO3 D3].
  apply solve1_val in E3. unfold affine_dir in E.
  destruct (affine_solve w3) as [w4|] eqn:E4; [cbn [bind] in E|discriminate].
  destruct (wp_get _ _ (fun w' => going L v1 v2 v3 w' /\ dir1 L w' /\ dir2 L w') E4 (affine_solve_safe L v1 v2 v3 w3 _ GO3 D3 (fun w' A B D _ => conj A (conj B D)))) as (GO4 & D14 & D24).
  apply affine_solve_val in E4 as (Ra & ER & E4). apply (RHS_affine_val L v1 v2 v3) in ER; [|exact GO3].
  destruct (affine_newton w4) as [[[[den dta] dka] w5]|] eqn:E5; [cbn [bind] in E|discriminate].
  destruct (wp_get _ _ (fun r => going L v1 v2 v3 (snd r) /\ affined L (snd r) /\ dir2 L (snd r)) E5 (affine_newton_safe L v1 v2 v3 w4 _ GO4 D14 D24 (fun a b c w' A B D _ => conj A (conj B D)))) as (GO5 & AF5 & D25).
  cbn [snd] in GO5, AF5, D25. apply affine_newton_val in E5.
  destruct (affine_exp dta dka w5) as [w6|] eqn:E6; [cbn [bind] in E|discriminate].
  destruct (wp_get _ _ (fun w' => going L v1 v2 v3 w' /\ affined L w') E6 (affine_exp_safe L v1 v2 v3 _ _ w5 _ GO5 AF5 D25 (fun w' A B _ => conj A B))) as (GO6 & AF6).
  apply affine_exp_val in E6. cbn [bind] in E.
  assert (GO7 : going L v1 v2 v3 (affine_sigma w6)) by (apply going_info; auto).
  assert (AF7 : affined L (affine_sigma w6)) by (destruct AF6 as [[] ]; constructor; auto; constructor; auto).
  pose proof (upd_sigma w6) as SIG. assert (S7 : still (affine_sigma w6) = still w6) by reflexivity.
  assert (K7 : w_KKT (affine_sigma w6) = w_KKT w6) by reflexivity. assert (C7 : w_C (affine_sigma w6) = w_C w6) by reflexivity.
  assert (A7 : w_dsaff_by_W (affine_sigma w6) = w_dsaff_by_W w6) by reflexivity. assert (B7 : w_W_times_dzaff (affine_sigma w6) = w_W_times_dzaff w6) by reflexivity.
  set (w7 := affine_sigma w6) in *. clearbody w7. cbv beta iota in E.
  unfold combined_dir in E.
  destruct (combined_solve w7) as [w9|] eqn:E9; [cbn [bind] in E|discriminate].
  destruct (wp_get _ _ (fun w' => going L v1 v2 v3 w' /\ affined L w' /\ dir2 L w') E9 (combined_solve_safe L v1 v2 v3 w7 _ GO7 AF7 (fun w' A B D _ => conj A (conj B D)))) as (GO9 & AF9 & D29).
  apply (combined_solve_val L v1 v2 v3) in E9 as (w8 & E8 & E9 & SG9); [|exact GO7|exact AF7].
  destruct (combined_newton den dta dka w9) as [[[dtau dkap] w10]|] eqn:E10; [cbn [bind] in E|discriminate].
  destruct (wp_get _ _ (fun r => going L v1 v2 v3 (snd r) /\ affined L (snd r) /\ dir2 L (snd r)) E10 (combined_newton_safe L v1 v2 v3 _ _ _ w9 _ GO9 AF9 D29 (fun a b w' A B D _ => conj A (conj B D)))) as (GO10 & AF10 & D210).
  cbn [snd] in GO10, AF10, D210. apply combined_newton_val in E10.
  destruct (combined_exp dtau dkap w10) as [[ok w11]|] eqn:E11; [cbn [bind] in E|discriminate].
  apply combined_exp_val in E11. cbv beta iota in E. destruct ok; cbn [negb] in E.
  2:{ match type of E with bind ?mm _ = _ => destruct mm as [[]|]; discriminate E end. }
  destruct (take_step dtau dkap w11) as [w12|] eqn:E12; [cbn [bind] in E|discriminate]. injection E as <-. apply take_step_val in E12.
  (* everything in terms of w *)
  pose proof (s1_still _ _ E3) as T3. pose proof (s2_still _ _ _ E4) as T4. pose proof (n1_still _ _ _ _ _ E5) as T5. pose proof (e1_still _ _ E6) as T6.
  pose proof (c1_still _ _ _ E8) as T8. pose proof (s2_still _ _ _ E9) as T9. pose proof (n2_still _ _ _ _ _ _ _ E10) as T10. pose proof (e2_still _ _ E11) as T11.
  rewrite Sg in T3. rewrite T3 in T4. rewrite T4 in T5. rewrite T5 in T6. rewrite T6 in S7. rewrite S7 in T8. rewrite T8 in T9. rewrite T9 in T10. rewrite T10 in T11.
  pose proof (s1_core _ _ E3) as Q3. pose proof (s2_core _ _ _ E4) as Q4. pose proof (n1_core _ _ _ _ _ E5) as Q5. pose proof (e1_core _ _ E6) as Q6.
  pose proof (c1_core _ _ _ E8) as Q8. pose proof (s2_core _ _ _ E9) as Q9. pose proof (n2_core _ _ _ _ _ _ _ E10) as Q10. pose proof (e2_core _ _ E11) as Q11.
  rewrite Kg in Q3. rewrite K7 in Q8. rewrite Q3 in Q4. rewrite Q4 in Q5. rewrite Q5 in Q6. rewrite Q6 in Q8. rewrite Q8 in Q9. rewrite Q9 in Q10. rewrite Q10 in Q11.
  exists (mkTrace C' la K2 (kk_dx1 (w_KKT w3)) (kk_dy1 (w_KKT w3)) (kk_dz1 (w_KKT w3)) Ra (kk_dx2 (w_KKT w4)) (kk_dy2 (w_KKT w4)) (kk_dz2 (w_KKT w4))
    den dta dka (kk_dz2 (w_KKT w5)) (w_W_times_dzaff w5) (w_dsaff_by_W w5) (st_sigma (w_info w7)) (w_C w8) (w_dsaff_by_W w8)
    (kk_RHS2 (w_KKT w8)) (kk_dx2 (w_KKT w9)) (kk_dy2 (w_KKT w9)) (kk_dz2 (w_KKT w9)) dtau dkap
    (kk_dx2 (w_KKT w10)) (kk_dy2 (w_KKT w10)) (kk_dz2 (w_KKT w10)) (w_dsaff_by_W w10) (w_dsaff w11) (st_step (w_info w11))).
  apply still_like in T3, T4, T5, T6, S7, T8, T9, T10, T11. apply still_like in Sg.
  pose proof (s1_C _ _ E3) as C3. pose proof (s2_C _ _ _ E4) as C4. pose proof (n1_C _ _ _ _ _ E5) as C5. pose proof (e1_C _ _ E6) as C6.
  rewrite Cg in C3. rewrite C3 in C4. rewrite C4 in C5. rewrite C5 in C6. rewrite C6 in C7.
  pose proof (s2_C _ _ _ E9) as C9. pose proof (n2_C _ _ _ _ _ _ _ E10) as C10. pose proof (e2_C _ _ E11) as C11. rewrite C9 in C10. rewrite C10 in C11.
  pose proof (s2_d1 _ _ _ E4) as D4. pose proof (n1_d1 _ _ _ _ _ E5) as D5. pose proof (e1_d1 _ _ E6) as D6. pose proof (c1_d1 _ _ _ E8) as D8. pose proof (s2_d1 _ _ _ E9) as D9.
  rewrite D4 in D5. rewrite D5 in D6. rewrite K7 in D8. rewrite D6 in D8. rewrite D8 in D9.
  assert (D4x : kk_dx1 (w_KKT w4) = kk_dx1 (w_KKT w3) /\ kk_dy1 (w_KKT w4) = kk_dy1 (w_KKT w3) /\ kk_dz1 (w_KKT w4) = kk_dz1 (w_KKT w3)) by (unfold kdir1 in D4; injection D4; intros; auto).
  assert (D9x : kk_dx1 (w_KKT w9) = kk_dx1 (w_KKT w3) /\ kk_dy1 (w_KKT w9) = kk_dy1 (w_KKT w3) /\ kk_dz1 (w_KKT w9) = kk_dz1 (w_KKT w3)) by (unfold kdir1 in D9; injection D9; intros; auto).
  destruct D4x as (D4x & D4y & D4z), D9x as (D9x & D9y & D9z).
  assert (D11 : kk_dx2 (w_KKT w11) = kk_dx2 (w_KKT w10) /\ kk_dy2 (w_KKT w11) = kk_dy2 (w_KKT w10) /\ kk_dz2 (w_KKT w11) = kk_dz2 (w_KKT w10)) by (pose proof (e2_d2 _ _ E11) as DD; unfold kdir2 in DD; injection DD; intros; auto).
  destruct D11 as (D11x & D11y & D11z).
  pose proof (c1_info _ _ _ E8) as I8. pose proof (n2_sig _ _ _ _ _ _ _ E10) as G10. pose proof (e2_sig _ _ E11) as G11. rewrite SG9 in G10. rewrite G10 in G11.
  pose proof (e1_wdz _ _ E6) as U6. pose proof (e1_dsw _ _ E6) as V6. rewrite U6 in B7. rewrite V6 in A7.
  constructor; cbn [tc_C tc_la tc_K tc_x1 tc_y1 tc_z1 tc_Ra tc_xa tc_ya tc_za tc_den tc_dta tc_dka tc_dza tc_wdz tc_dwa tc_sigma tc_Cc tc_u tc_Rc tc_xc tc_yc tc_zc tc_dtau tc_dkap tc_dx tc_dy tc_dz tc_dw tc_ds tc_a].
  - exact Eu.
  - exact ER1.
  - exact EPi.
  - rewrite (st_K _ _ _ _ E12). exact Q11.
  - destruct (s1_solve _ _ E3) as (it & K' & a & b & c & X). exists K2, it, K', a, b, c. split; [reflexivity|].
    rewrite Kg, Cg, (lk_A _ _ _ Sg), (lk_G _ _ _ Sg), (lk_n _ _ _ Sg), (lk_p _ _ _ Sg), (lk_m _ _ _ Sg), (lk_st _ _ _ Sg) in X. exact X.
  - rewrite (lk_rx _ _ _ T3), (lk_ry _ _ _ T3), (lk_rz _ _ _ T3), (lk_s _ _ _ T3) in ER. exact ER.
  - destruct (s2_solve _ _ _ E4) as (K0 & it & K' & a & b & c & X1 & X). exists K0, it, K', a, b, c. split; [rewrite X1; exact Q3|].
    rewrite C3, (lk_A _ _ _ T3), (lk_G _ _ _ T3), (lk_n _ _ _ T3), (lk_p _ _ _ T3), (lk_m _ _ _ T3), (lk_st _ _ _ T3) in X. exact X.
  - destruct D3. auto.
  - destruct D24. auto.
  - destruct (n1_den _ _ _ _ _ E5) as (a & b & c & X & Y). exists a, b, c. rewrite D4x, D4y, D4z in X. split; [exact (dots_of _ _ _ _ _ _ _ _ _ T4 X)|].
    rewrite (lk_kap _ _ _ T4), (lk_tau _ _ _ T4) in Y. exact Y.
  - destruct (n1_dta _ _ _ _ _ E5) as (a & b & c & X & Y). exists a, b, c. split; [exact (dots_of _ _ _ _ _ _ _ _ _ T4 X)|].
    rewrite (lk_kap _ _ _ T4), (lk_rt _ _ _ T4) in Y. exact Y.
  - pose proof (n1_dka _ _ _ _ _ E5) as Y. rewrite (lk_kap _ _ _ T4), (lk_tau _ _ _ T4) in Y. exact Y.
  - pose proof (n1_dz _ _ _ _ _ E5) as Y. rewrite (lk_m _ _ _ T4), D4z in Y. exact Y.
  - pose proof (n1_wdz _ _ _ _ _ E5) as Y. rewrite C4 in Y. eexists. split; [exact Y|]. destruct (go_ws _ _ _ _ _ GO4); auto.
  - pose proof (n1_dsw _ _ _ _ _ E5) as Y. rewrite (lk_m _ _ _ T4), (lk_la _ _ _ T4) in Y. eexists. exact Y.
  - eexists. exact SIG.
  - destruct (c1_conic _ _ _ E8) as (a & b & k1 & k2 & d1 & d2 & d4 & g & Y1 & Y2 & Y3 & Y4 & Y5 & Y6 & Y7 & Y8 & Y9).
    destruct (c1_C _ _ _ E8) as (l' & Z1 & Z2 & Z3).
    unfold smu in Y3, Z3. rewrite (lk_mu _ _ _ S7) in Y3, Z3. rewrite C7 in *. rewrite (lk_la _ _ _ S7) in *. rewrite A7, B7 in *. rewrite (lk_s _ _ _ S7) in Z3.
    exists a, b, k1, k2, d1, d2, d4, (w_dsaff_by_W w5), g, l'. csplit; auto.
    assert (RR : rhs_is L (kk_RHS2 (w_KKT w7)) (gd f0 (w_rx w)) (fun i => - gd f0 (w_ry w) i)%fl (fun i => gd f0 (w_s w) i - gd f0 (w_rz w) i)%fl).
    { rewrite K7, (e1_R _ _ E6), (n1_R _ _ _ _ _ E5), (s2_R _ _ _ E4). rewrite (lk_rx _ _ _ T3), (lk_ry _ _ _ T3), (lk_rz _ _ _ T3), (lk_s _ _ _ T3) in ER. exact ER. }
    apply Y9 in RR. unfold comb_z, oms, smu in RR. rewrite C7, (lk_mu _ _ _ S7), (lk_s _ _ _ S7), (lk_rz _ _ _ S7) in RR. exact RR.
  - destruct (s2_solve _ _ _ E9) as (K0 & it & K' & a & b & c & X1 & X). exists K0, it, K', a, b, c. split; [rewrite X1; exact Q8|].
    rewrite (lk_A _ _ _ T8), (lk_G _ _ _ T8), (lk_n _ _ _ T8), (lk_p _ _ _ T8), (lk_m _ _ _ T8), (lk_st _ _ _ T8) in X. exact X.
  - destruct D29. auto.
  - destruct (n2_dtau _ _ _ _ _ _ _ E10) as (a & b & c & X & Y). exists a, b, c. split; [exact (dots_of _ _ _ _ _ _ _ _ _ T9 X)|].
    rewrite (lk_kap _ _ _ T9), (lk_tau _ _ _ T9), (lk_rt _ _ _ T9), (lk_mu _ _ _ T9), SG9 in Y. exact Y.
  - pose proof (n2_dkap _ _ _ _ _ _ _ E10) as Y. rewrite (lk_kap _ _ _ T9), (lk_tau _ _ _ T9), (lk_mu _ _ _ T9), SG9 in Y. exact Y.
  - pose proof (n2_dx _ _ _ _ _ _ _ E10) as Y. rewrite (lk_n _ _ _ T9), D9x in Y. exact Y.
  - pose proof (n2_dy _ _ _ _ _ _ _ E10) as Y. rewrite (lk_p _ _ _ T9), D9y in Y. exact Y.
  - pose proof (n2_dz _ _ _ _ _ _ _ E10) as Y. rewrite (lk_m _ _ _ T9), D9z in Y. exact Y.
  - destruct (n2_dsw _ _ _ _ _ _ _ E10) as (wdz & Y1 & Y2). rewrite C9 in Y1. rewrite (lk_m _ _ _ T9), (s2_dw _ _ _ E9) in Y2. eexists _, wdz, _. split; [exact Y1|].
    split; [destruct (go_ws _ _ _ _ _ GO9); auto|exact Y2].
  - exists w10. pose proof (e2_ds _ _ E11) as Y. rewrite C10 in Y. csplit; auto; [exact (lk_m _ _ _ T10)|destruct (go_ws _ _ _ _ _ GO10); auto].
  - pose proof (st_x _ _ _ _ E12) as Y. rewrite (lk_n _ _ _ T11), D11x, (lk_x _ _ _ T11) in Y. exact Y.
  - pose proof (st_y _ _ _ _ E12) as Y. rewrite (lk_p _ _ _ T11), D11y, (lk_y _ _ _ T11) in Y. exact Y.
  - pose proof (st_z _ _ _ _ E12) as Y. rewrite (lk_m _ _ _ T11), D11z, (lk_z _ _ _ T11) in Y. exact Y.
  - pose proof (st_s _ _ _ _ E12) as Y. rewrite (lk_m _ _ _ T11), (lk_s _ _ _ T11) in Y. exact Y.
  - pose proof (st_tau _ _ _ _ E12) as Y. rewrite (lk_tau _ _ _ T11) in Y. exact Y.
  - pose proof (st_kap _ _ _ _ E12) as Y. rewrite (lk_kap _ _ _ T11) in Y. exact Y.
  - rewrite (st_info _ _ _ _ E12), (st_la _ _ _ _ E12), (st_sC _ _ _ _ E12). csplit; auto; [symmetry; exact (lk_la _ _ _ T11)].
  - rewrite (st_prob _ _ _ _ E12). exact (lk_prob _ _ _ T11).
Qed.

End DirT.
