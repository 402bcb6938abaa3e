(* Two workspaces of one problem: forgetting everything a solve does not read, and
   what all workspaces of a session have in common. *)
From Coq Require Import List Arith Bool ZArith QArith Lia.
From Verif Require Import Base Num.
From Verif.Model Require Import Spla Splamm Types Consts Expcone Cone Ldl Kkt Equil Preproc Ecos.
From Verif.Spec Require Import Matrix Fill KktSpec KktMatrix Shape SetupSpec UpdateSpec.
From Verif.Proofs Require Import SplaP LoopLib SplammP LdlSym LdlNum KktAsm KktMat ConeP ScalP Scal2P LineP KktUpd Layout EquilP Work WorkUpd
  SafeLib Stretch SafeK KktErr SafeE SafeW SafeV ExitP LoopP SafeU UpdP Mono Mono2 Mono3 Mono4.
Import ListNotations.
Open Scope nat_scope.

Lemma for_loop_keep {St} (P : St -> Prop) body n : (forall i s s', body i s = Some s' -> P s -> P s') ->
  forall lo s s', for_loop lo n body s = Some s' -> P s -> P s'.
Proof.
  intros H. induction n as [|n IH]; intros lo s s' E Ps; cbn [for_loop] in E; [injection E as <-; auto|].
  destruct (body lo s) as [s1|] eqn:E1; [|discriminate]. eapply IH; eauto.
Qed.

Section Perm.
Context {T : Type}.
Lemma permute_size (M : spmat T) pinv C PK C' PK' : permuteSparseSymmetricMatrix M pinv C PK = Some (C', PK') ->
  length (sp_pr C') = length (sp_pr C) /\ sp_nnz C' = sp_nnz C.
Proof.
  unfold permuteSparseSymmetricMatrix. intros E. binv E. injection E as <- <-. cbn [sp_pr sp_nnz]. split; auto.
  revert E3. unfold for_. intros E3.
  refine (for_loop_keep (fun s => length (snd (fst s)) = length (sp_pr C)) _ _ _ _ _ _ E3 eq_refl). clear.
  intros i s s' E. binv E. unfold col_loop in E. binv E. revert E. unfold for_.
  apply (for_loop_keep (fun s => length (snd (fst s)) = length (sp_pr C))). clear.
  intros k s s' E Hs. destruct s as [[[w1 ir1] pr1] pk1]. cbn [fst snd] in *. binv1 E. destruct (i <? v0); [injection E as <- <- <- <-; auto|]. binv E. injection E as <- <- <- <-.
  cbn [fst snd]. match goal with X : set pr1 _ _ = Some _ |- _ => apply set_inv in X as (_ & X & _) end. congruence.
Qed.
End Perm.

Lemma nth_error_ext' {T} (a b : list T) : (forall i, nth_error b i = nth_error a i) -> b = a.
Proof.
  revert b. induction a as [|x a IH]; intros [|y b] H; auto; try (specialize (H 0); discriminate).
  f_equal; [specialize (H 0); cbn in H; congruence|]. apply IH. intros i. apply (H (S i)).
Qed.

Section Two.
Context `{O : Ops}.
Notation W := (pwork F).
Notation A := (arr F).

(* ------------------------------------------------------------ forgetting *)

Definition era {T} (a : arr T) : arr T := alloc (length a).
Definition er_so (c : socone F) : socone F := mkSo (so_p c) (era (so_skbar c)) (era (so_zkbar c)) None None None None None (era (so_q c)) (so_Didx c) None None None.
Definition er_ex (e : expcone F) : expcone F := mkEx (ex_colstart e) (era (ex_v e)) (era (ex_g e)).
Definition er_C (C : cone F) : cone F :=
  mkCone (mkLp (lp_p (co_lpc C)) (era (lp_w (co_lpc C))) (era (lp_v (co_lpc C))) (lp_kkt_idx (co_lpc C))) (map er_so (co_soc C)) (map er_ex (co_expc C)) (co_fexv C).
Definition er_K (K : kkt F) : kkt F :=
  mkKkt (kk_PKPt K) (mkSp (sp_jc (kk_L K)) (era (sp_ir (kk_L K))) (era (sp_pr (kk_L K))) (sp_n (kk_L K)) (sp_m (kk_L K)) (sp_nnz (kk_L K))) (era (kk_D K))
    (era (kk_work1 K)) (era (kk_work2 K)) (era (kk_work3 K)) (era (kk_work4 K)) (era (kk_work5 K)) (era (kk_work6 K)) (era (kk_RHS1 K)) (era (kk_RHS2 K))
    (era (kk_dx1 K)) (era (kk_dx2 K)) (era (kk_dy1 K)) (era (kk_dy2 K)) (era (kk_dz1 K)) (era (kk_dz2 K))
    (kk_P K) (kk_Pinv K) (kk_PK K) (kk_Parent K) (kk_Sign K) (era (kk_Pattern K)) (era (kk_Flag K)) (era (kk_Lnz K)) (kk_delta K).
Definition er (w : W) : W :=
  mkW (w_n w) (w_m w) (w_p w) (w_D w) (era (w_x w)) (era (w_y w)) (era (w_z w)) (era (w_s w)) (era (w_lambda w)) (w_kap w) (w_tau w)
    (era (w_best_x w)) (era (w_best_y w)) (era (w_best_z w)) (era (w_best_s w)) None (era (w_dsaff w)) (era (w_W_times_dzaff w)) (era (w_dsaff_by_W w))
    (er_C (w_C w)) (w_A w) (w_G w) (w_c w) (w_b w) (w_h w) (w_AtoK w) (w_GtoK w) (w_xequil w) (w_Aequil w) (w_Gequil w)
    (w_resx0 w) (w_resy0 w) (w_resz0 w) (era (w_rx w)) (era (w_ry w)) (era (w_rz w)) (w_rt w)
    (w_hresx w) (w_hresy w) (w_hresz w) (w_nx w) (w_ny w) (w_nz w) (w_ns w) (w_cx w) (w_by w) (w_hz w) (er_K (w_KKT w)) (w_info w) (w_stgs w).

Lemma era_length {T} (a : arr T) : length (era a) = length a.
Proof. apply alloc_length. Qed.
Lemma era_le {T} (a b : arr T) : length a = length b -> le (era a) b.
Proof. intros E. split; [rewrite era_length; auto|]. intros i v. unfold era. rewrite get_alloc. discriminate. Qed.

Lemma er_C_sym C : symC (er_C C) = symC C.
Proof. unfold symC, er_C. cbn. rewrite !map_map. reflexivity. Qed.
Lemma er_K_sym K : symP (er_K K) = symP K.
Proof. reflexivity. Qed.

Lemma er_same w0 w : same w0 w -> same w0 (er w).
Proof. intros []; constructor; cbn [er w_n w_m w_p w_D w_A w_G w_b w_h w_xequil w_Aequil w_Gequil w_AtoK w_GtoK w_stgs w_C w_KKT]; rewrite ?er_C_sym, ?er_K_sym; auto. Qed.

Lemma er_lpp C : lpp (er_C C) = lpp C. Proof. reflexivity. Qed.
Lemma er_q C : map so_p (co_soc (er_C C)) = map so_p (co_soc C).
Proof. cbn. rewrite map_map. reflexivity. Qed.
Lemma er_nexc C : nexc (er_C C) = nexc C.
Proof. unfold nexc. cbn. apply map_length. Qed.
Lemma er_nsoc C : nsoc (er_C C) = nsoc C.
Proof. unfold nsoc. cbn. apply map_length. Qed.
Lemma er_hsize C : hsize (er_C C) = hsize C.
Proof. unfold hsize. rewrite er_q. reflexivity. Qed.

Lemma er_cone C l q e : cone_of C l q e -> cone_of (er_C C) l q e.
Proof.
  intros [[A1 A2 A3 A4 A5 A6 A7 A8 A9] B1 B2 B3]. constructor.
  - constructor; try (intros c Hc; cbn in Hc; apply in_map_iff in Hc as (c0 & <- & Hc); cbn; rewrite ?era_length; auto).
    + cbn. rewrite era_length. exact A1.
    + cbn. rewrite era_length. exact A2.
    + rewrite er_hsize. exact A3.
  - exact B1.
  - rewrite er_q. auto.
  - rewrite er_nexc. auto.
Qed.

Lemma er_indexed cols len n p C : indexed cols len n p C -> indexed cols len n p (er_C C).
Proof.
  intros [X S E]. constructor; rewrite ?er_lpp, ?er_hsize, ?er_nsoc.
  - exact X.
  - revert S. generalize (n + p + lpp C) as base. generalize (lpp C) as cs. cbn [er_C co_soc]. induction (co_soc C) as [|c t IH]; cbn; auto.
    intros cs base (H1 & H2 & H3). csplit; auto.
  - revert E. generalize (n + p + hsize C + 2 * nsoc C) as base. generalize (hsize C) as cs. cbn [er_C co_expc]. induction (co_expc C) as [|c t IH]; cbn [map colstart_ok]; auto.
    intros cs base (H1 & H2 & H3). csplit; auto.
Qed.

Lemma er_kws L lpv soc ex K : kws L lpv soc ex K -> kws L lpv soc ex (er_K K).
Proof.
  intros []; constructor; cbn [er_K kk_PKPt kk_PK kk_Pinv kk_Sign kk_Parent kk_L kk_D kk_work1 kk_work2 kk_work3 kk_work4 kk_work5 kk_work6
     kk_RHS1 kk_RHS2 kk_dx1 kk_dx2 kk_dy1 kk_dy2 kk_dz1 kk_dz2 kk_Pattern kk_Flag kk_Lnz sp_n sp_m sp_nnz sp_jc sp_ir sp_pr]; rewrite ?era_length; auto.
Qed.

Lemma er_ws L lpv soc ex w : ws L lpv soc ex w -> ws L lpv soc ex (er w).
Proof.
  intros []; constructor; cbn [er w_n w_m w_p w_D w_x w_y w_z w_s w_lambda w_best_x w_best_y w_best_z w_best_s w_dsaff w_W_times_dzaff w_dsaff_by_W w_C w_A w_G w_c w_b w_h
    w_AtoK w_GtoK w_xequil w_Aequil w_Gequil w_rx w_ry w_rz w_KKT]; rewrite ?era_length; auto using er_cone, er_indexed, er_kws.
Qed.

Lemma er_usable L w : usable L w -> usable L (er w).
Proof. intros [(lpv & soc & ex & WS) BO]. split; [exists lpv, soc, ex; apply er_ws; auto|]. intros H. destruct H. reflexivity. Qed.

(* ------------------------------------------- one layout for both workspaces *)

Lemma same_lay w1 w2 L L' lpv soc ex lpv' soc' ex' : same w1 w2 -> w_c w2 = w_c w1 -> ws L lpv soc ex w1 -> ws L' lpv' soc' ex' w2 -> ws L lpv' soc' ex' w2.
Proof.
  intros S Ec W1 W2.
  assert (En : ly_n L' = ly_n L) by (rewrite <- (ws_n _ _ _ _ _ W1), <- (ws_n _ _ _ _ _ W2); apply S).
  assert (Ep : ly_p L' = ly_p L) by (rewrite <- (ws_p _ _ _ _ _ W1), <- (ws_p _ _ _ _ _ W2); apply S).
  pose proof (sm_C _ _ S) as SC. unfold symC in SC. injection SC as C1 C2 C3 C4 C5.
  assert (El : ly_l L' = ly_l L) by (rewrite <- (co_l _ _ _ _ (ws_C _ _ _ _ _ W1)), <- (co_l _ _ _ _ (ws_C _ _ _ _ _ W2)); exact C1).
  assert (Eq : ly_q L' = ly_q L).
  { rewrite <- (co_q _ _ _ _ (ws_C _ _ _ _ _ W1)), <- (co_q _ _ _ _ (ws_C _ _ _ _ _ W2)).
    transitivity (map fst (map (fun c : socone F => (so_p c, so_Didx c)) (co_soc (w_C w2)))); [rewrite map_map; reflexivity|]. rewrite C3, map_map. reflexivity. }
  assert (Ee : ly_e L' = ly_e L).
  { rewrite <- (co_e _ _ _ _ (ws_C _ _ _ _ _ W1)), <- (co_e _ _ _ _ (ws_C _ _ _ _ _ W2)). unfold nexc. rewrite <- (map_length ex_colstart), C4, map_length. reflexivity. }
  pose proof (ws_dat _ _ _ _ _ W1) as D1. pose proof (ws_dat _ _ _ _ _ W2) as D2.
  assert (EG : ly_Gt L' = ly_Gt L).
  { destruct (dw_Gt _ _ _ _ _ _ D1) as [_ [mp X]]. destruct (dw_Gt _ _ _ _ _ _ D2) as [_ [mp' X']]. rewrite (sm_G _ _ S) in X'. congruence. }
  assert (EA : ly_At L' = ly_At L).
  { pose proof (dw_A _ _ _ _ _ _ D1) as X. pose proof (dw_A _ _ _ _ _ _ D2) as X'. rewrite (sm_A _ _ S) in X'.
    destruct (w_A w1), (ly_At L), (ly_At L'); try contradiction; auto. destruct X as (_ & _ & _ & _ & mp & X). destruct X' as (_ & _ & _ & _ & mp' & X'). congruence. }
  assert (Em : ly_m L' = ly_m L) by (unfold ly_m; congruence).
  assert (EN : ly_nK L' = ly_nK L) by (unfold ly_nK, ly_mt; congruence).
  assert (EC : forall a b d, ly_cols L' a b d = ly_cols L a b d) by (intros; unfold ly_cols; rewrite EG, En, Ep, EA, El; reflexivity).
  assert (ELen : ly_len L' = ly_len L) by (unfold ly_len; rewrite EG; reflexivity).
  pose proof (ws_K _ _ _ _ _ W1) as K1. pose proof (ws_K _ _ _ _ _ W2) as K2.
  assert (Q2 : map fst soc' = ly_q L) by (rewrite <- Eq; apply K2). assert (E2 : length ex' = ly_e L) by (rewrite <- Ee; apply K2).
  pose proof (ly_same L lpv soc ex lpv' soc' ex' (kw_q _ _ _ _ _ K1) Q2 (kw_e _ _ _ _ _ K1) E2) as SP.
  pose proof (sm_K _ _ S) as SK. unfold symP in SK. injection SK as P1 P2 P3 P4 P5 P6 P7 P8 P9 P10 P11 P12 P13 P14 P15.
  assert (KW : kws L lpv' soc' ex' (w_KKT w2)).
  { assert (EL : Fill.starts (cnt (ly_R L) (ly_nK L)) (ly_nK L) = Fill.starts (cnt (ly_R L') (ly_nK L')) (ly_nK L')).
    { rewrite <- (kw_Lnnz _ _ _ _ _ K1), <- (kw_Lnnz _ _ _ _ _ K2). auto. }
    assert (PT : permuted (ly_cols L lpv' soc' ex') (ly_pf L) (kk_PKPt (w_KKT w2)) (kk_PK (w_KKT w2))).
    { constructor; [|rewrite <- EC; apply (pd_val _ _ _ _ (kw_perm _ _ _ _ _ K2))].
      destruct (pattern_same _ _ _ _ _ SP (pd_pat _ _ _ _ (kw_perm _ _ _ _ _ K1))) as [X1 X2 X3 X4 X5 X6].
      constructor; rewrite ?P1, ?P2, ?P3, ?P4, ?P5, ?P12; auto. }
    assert (ET : etree (kk_PKPt (w_KKT w2)) (ly_nK L) (ly_par L) (ly_R L)).
    { pose proof (kw_et _ _ _ _ _ K1) as [Y1 Y2 Y3 Y4 Y5].
      assert (AD : forall r i, adj (kk_PKPt (w_KKT w2)) r i <-> adj (kk_PKPt (w_KKT w1)) r i).
      { intros r i. unfold adj, in_col. rewrite P1, P2, P3. tauto. }
      constructor; auto.
      + intros r i Hr H. apply Y2; auto. apply AD; auto.
      + intros r i Hr H. destruct (Y5 r i Hr H) as [H'|H']; auto. left. apply AD; auto. }
    clear - K1 K2 EN En Ep Em EL PT ET Q2 E2 P7 P8 P9 P10 P13 P14 P15.
    constructor; auto; rewrite ?P7, ?P8, ?P9, ?P10, ?P13, ?P14, ?P15; try apply (kw_Pinv _ _ _ _ _ K1); try apply (kw_Sign _ _ _ _ _ K1); try apply (kw_Parent _ _ _ _ _ K1);
      try apply (kw_Ln _ _ _ _ _ K1); try apply (kw_Lm _ _ _ _ _ K1); try apply (kw_Lnnz _ _ _ _ _ K1); try apply (kw_Lp _ _ _ _ _ K1); rewrite ?EL; destruct K2;
      rewrite <- ?EN, <- ?En, <- ?Ep, <- ?Em; assumption. }
  destruct W2; constructor; rewrite <- ?En, <- ?Ep, <- ?Em, <- ?El, <- ?Eq, <- ?Ee, <- ?EC, <- ?ELen; try assumption.
  destruct D2 as [Z1 Z2 Z3 Z4 Z5 Z6 Z7]. rewrite ?En, ?Ep, ?Em, ?EG, ?EA, ?El, ?Eq, ?EC in *. constructor; assumption.
Qed.

Lemma same_refl (w : W) : same w w.
Proof. constructor; reflexivity. Qed.

Lemma le_none {T} (o : option T) : le None o.
Proof. intros v E. discriminate. Qed.

Lemma er_le_C (C1 C2 : cone F) l q e : cone_of C1 l q e -> cone_of C2 l q e -> symC C2 = symC C1 -> le (er_C C1) C2.
Proof.
  intros [[A1 A2 A3 A4 A5 A6 A7 A8 A9] B1 B2 B3] [[D1 D2 D3 D4 D5 D6 D7 D8 D9] E1 E2 E3] SC. unfold symC in SC. injection SC as C1e C2e C3e C4e C5e.
  split; [|split; [|split]].
  - split; [symmetry; exact C1e|]. split; [apply era_le; rewrite A1, D1; congruence|]. split; [apply era_le; rewrite A2, D2; congruence|]. symmetry; exact C2e.
  - change (Forall2 le (map er_so (co_soc C1)) (co_soc C2)). revert C3e A5 A6 A7 D5 D6 D7. clear. revert C2. generalize (co_soc C1) as l. intros l C2. generalize (co_soc C2) as l'. clear.
    induction l as [|c l IH]; intros [|c' l'] E A5 A6 A7 D5 D6 D7; cbn [map] in *; try discriminate; constructor.
    + injection E as Ep Ed _. assert (I : In c (c :: l)) by (left; auto). assert (I' : In c' (c' :: l')) by (left; auto).
      unfold le, Le_so, er_so. cbn. csplit; auto using le_none; try (apply era_le).
      * rewrite (A6 _ I), (D6 _ I'). auto.
      * rewrite (A7 _ I), (D7 _ I'). auto.
      * rewrite (A5 _ I), (D5 _ I'). congruence.
    + injection E as _ _ E. apply IH; auto; intros; [apply A5|apply A6|apply A7|apply D5|apply D6|apply D7]; right; auto.
  - change (Forall2 le (map er_ex (co_expc C1)) (co_expc C2)). revert C4e A8 A9 D8 D9. clear. revert C2. generalize (co_expc C1) as l. intros l C2. generalize (co_expc C2) as l'. clear.
    induction l as [|c l IH]; intros [|c' l'] E A8 A9 D8 D9; cbn [map] in *; try discriminate; constructor.
    + injection E as Ep _. assert (I : In c (c :: l)) by (left; auto). assert (I' : In c' (c' :: l')) by (left; auto).
      unfold le, Le_ex, er_ex. cbn. csplit; auto; apply era_le.
      * rewrite (A8 _ I), (D8 _ I'). auto.
      * rewrite (A9 _ I), (D9 _ I'). auto.
    + injection E as _ E. apply IH; auto; intros; [apply A8|apply A9|apply D8|apply D9]; right; auto.
  - symmetry. exact C5e.
Qed.

Lemma er_le_K (K1 K2 : kkt F) L lpv soc ex lpv' soc' ex' : kws L lpv soc ex K1 -> kws L lpv' soc' ex' K2 -> symP K2 = symP K1 -> leK (er_K K1) K2.
Proof.
  intros [] [] SK. unfold symP in SK. injection SK as P1 P2 P3 P4 P5 P6 P7 P8 P9 P10 P11 P12 P13 P14 P15.
  constructor; cbn [er_K kk_PKPt kk_PK kk_Pinv kk_Sign kk_Parent kk_L kk_D kk_work1 kk_work2 kk_work3 kk_work4 kk_work5 kk_work6
     kk_RHS1 kk_RHS2 kk_dx1 kk_dx2 kk_dy1 kk_dy2 kk_dz1 kk_dz2 kk_Pattern kk_Flag kk_Lnz sp_n sp_m sp_nnz sp_jc sp_ir sp_pr]; auto; apply era_le; congruence.
Qed.

Lemma er_le w1 w2 L lpv soc ex lpv' soc' ex' : same w1 w2 -> w_c w2 = w_c w1 -> ws L lpv soc ex w1 -> ws L lpv' soc' ex' w2 -> leW w1 0 (er w1) w2.
Proof.
  intros S Ec W1 W2.
  assert (HC : le (er_C (w_C w1)) (w_C w2)) by (eapply er_le_C; [apply (ws_C _ _ _ _ _ W1)|apply (ws_C _ _ _ _ _ W2)|apply S]).
  assert (HK : leK (er_K (w_KKT w1)) (w_KKT w2)) by (eapply er_le_K; [apply (ws_K _ _ _ _ _ W1)|apply (ws_K _ _ _ _ _ W2)|apply S]).
  constructor; auto; try (intros G; exfalso; clear - G; lia).
  - apply er_same, same_refl.
  - apply era_le; rewrite (ws_lx _ _ _ _ _ W1), (ws_lx _ _ _ _ _ W2); auto.
  - apply era_le; rewrite (ws_ly _ _ _ _ _ W1), (ws_ly _ _ _ _ _ W2); auto.
  - apply era_le; rewrite (ws_lz _ _ _ _ _ W1), (ws_lz _ _ _ _ _ W2); auto.
  - apply era_le; rewrite (ws_ls _ _ _ _ _ W1), (ws_ls _ _ _ _ _ W2); auto.
  - apply era_le; rewrite (ws_ll _ _ _ _ _ W1), (ws_ll _ _ _ _ _ W2); auto.
  - apply era_le; rewrite (ws_lbx _ _ _ _ _ W1), (ws_lbx _ _ _ _ _ W2); auto.
  - apply era_le; rewrite (ws_lby _ _ _ _ _ W1), (ws_lby _ _ _ _ _ W2); auto.
  - apply era_le; rewrite (ws_lbz _ _ _ _ _ W1), (ws_lbz _ _ _ _ _ W2); auto.
  - apply era_le; rewrite (ws_lbs _ _ _ _ _ W1), (ws_lbs _ _ _ _ _ W2); auto.
  - apply le_none.
  - apply era_le; rewrite (ws_lda _ _ _ _ _ W1), (ws_lda _ _ _ _ _ W2); auto.
  - apply era_le; rewrite (ws_lwd _ _ _ _ _ W1), (ws_lwd _ _ _ _ _ W2); auto.
  - apply era_le; rewrite (ws_ldw _ _ _ _ _ W1), (ws_ldw _ _ _ _ _ W2); auto.
  - apply era_le; rewrite (ws_lrx _ _ _ _ _ W1), (ws_lrx _ _ _ _ _ W2); auto.
  - apply era_le; rewrite (ws_lry _ _ _ _ _ W1), (ws_lry _ _ _ _ _ W2); auto.
  - apply era_le; rewrite (ws_lrz _ _ _ _ _ W1), (ws_lrz _ _ _ _ _ W2); auto.
Qed.

(* the order is reflexive *)
Lemma leK_refl (K : kkt F) : leK K K.
Proof. constructor; auto; apply le_refl_arr. Qed.
Lemma le_refl_opt {T} (o : option T) : le o o.
Proof. intros v E. exact E. Qed.
Lemma le_refl_so (c : socone F) : le c c.
Proof. unfold le, Le_so. csplit; auto; try apply le_refl_arr; apply le_refl_opt. Qed.
Lemma le_refl_ex (c : expcone F) : le c c.
Proof. unfold le, Le_ex. csplit; auto; apply le_refl_arr. Qed.
Lemma le_refl_C (C : cone F) : le C C.
Proof.
  split; [|split; [|split]]; auto.
  - split; [auto|]. split; [apply le_refl_arr|]. split; [apply le_refl_arr|auto].
  - change (Forall2 le (co_soc C) (co_soc C)). induction (co_soc C); constructor; auto. apply le_refl_so.
  - change (Forall2 le (co_expc C) (co_expc C)). induction (co_expc C); constructor; auto. apply le_refl_ex.
Qed.
Lemma leW_refl (w : W) : leW w 0 w w.
Proof. constructor; auto using same_refl, leK_refl, le_refl_C; try apply le_refl_arr; try apply le_refl_opt; intros G; exfalso; clear - G; lia. Qed.

(* a solve changes neither the problem nor the structure *)
Lemma solve_same L sig t w code t' w' : (forall d, In d (ly_q L) -> 1 <= d) -> sized (w_KKT w) -> usable L w -> ECOS_solve sig t w = Some (code, t', w') -> same w w'.
Proof.
  intros H1 SZ US E. destruct (ECOS_solve_mono L H1 w sig t w w SZ (leW_refl w) US US _ E) as (r & Er & _ & X & _). apply (lw_s _ _ _ _ X).
Qed.

(* ------------------------------------------------------------- the result *)

(* the first pass is abandoned: the exit tests do not stop at the starting point but
   an interrupt, an iteration limit of 0 or an objective that is not a number does *)
Definition cut_short (sig : Z -> bool) (w : W) : Prop := (0 <= sg_maxit (w_stgs w))%Z /\
  exists w1 w2, SafeU.starts w w1 w2 /\ fst (checkExitConditions w2 0) = ECOS_NOT_CONVERGED_YET /\
    (sig 0%Z = true \/ sg_maxit (w_stgs w) = 0%Z \/ fisnan (st_pcost (w_info w2)) = true).

Lemma starts_mono L w w' w1 w2 : (forall d, In d (ly_q L) -> 1 <= d) -> sized (w_KKT w') -> leW w' 0 w w' -> usable L w -> usable L w' -> SafeU.starts w w1 w2 ->
  exists w1' w2', SafeU.starts w' w1' w2' /\ leW w' 3 w2 w2'.
Proof.
  intros H1 SZ H [(lpv & soc & ex & WS) BO] [(lpv' & soc' & ex' & WS') BO'] (c & w0 & Ec & Ei & E1 & E2).
  pose proof (scale_loop_full (ly_n L) (fun v e => v / e)%fl (w_c w) (w_xequil w) (fun d => full d (ly_n L)) (ws_c _ _ _ _ _ WS) (ws_xe _ _ _ _ _ WS) (fun d _ F => F)) as X.
  rewrite <- (ws_n _ _ _ _ _ WS), Ec in X. cbn in X. rewrite (ws_n _ _ _ _ _ WS) in X.
  assert (WSc : ws L lpv soc ex (set_w_c w c)) by (clear - WS X; destruct WS; constructor; wcbn; assumption).
  assert (WSc' : ws L lpv' soc' ex' (set_w_c w' c)) by (clear - WS' X; destruct WS'; constructor; wcbn; assumption).
  assert (Hc : leW w' 0 (set_w_c w c) (set_w_c w' c)).
  { destruct H. constructor; wcbn; auto; try (intros G; exfalso; clear - G; lia).
    - destruct lw_s; constructor; wcbn; assumption.
    - constructor; wcbn; reflexivity. }
  destruct (init_mono L H1 w' lpv soc ex lpv' soc' ex' _ _ SZ Hc WSc WSc' _ Ei) as ([ok w0'] & Ei' & E0 & H0). cbn [fst snd] in *. subst ok. specialize (H0 eq_refl).
  pose proof (leW_iter w' 1 w0 w0' 0%Z H0) as H2. cbn [Nat.eqb] in H2.
  destruct (computeResiduals_mono w' 2 _ _ H2 ltac:(auto) _ E1) as (w1' & E1' & G1 & G2 & G3 & G4 & G5).
  destruct (updateStatistics_mono w' _ _ G1 G2 G3 G4 G5 _ E2) as (w2' & E2' & H3).
  exists w1', w2'. split; auto. exists c, w0'. csplit; auto.
  rewrite <- (lw_c _ _ _ _ H) in Ec. rewrite <- (sm_n _ _ (lw_s _ _ _ _ H)), <- (sm_xe _ _ (lw_s _ _ _ _ H)). exact Ec.
Qed.

Lemma er_first L sig w : (forall d, In d (ly_q L) -> 1 <= d) -> sized (w_KKT w) -> usable L w -> ~ cut_short sig w -> first_ok sig (er w).
Proof.
  intros H1 SZ US NC _ MI w1 w2 ST CV. pose proof US as [(lpv & soc & ex & WS) _].
  destruct (starts_mono L (er w) w w1 w2 H1 SZ (er_le w w L lpv soc ex lpv soc ex (same_refl w) eq_refl WS WS) (er_usable L w US) US ST) as (w1' & w2' & ST' & H).
  rewrite (proj1 (checkExit_mono w 3 w2 w2' 0 H ltac:(lia))) in CV. rewrite <- (s3_pc _ _ (lw_3 _ _ _ _ H ltac:(lia))).
  assert (N : forall P : Prop, (sig 0%Z = true \/ sg_maxit (w_stgs w) = 0%Z \/ fisnan (st_pcost (w_info w2')) = true) -> P).
  { intros P Y. exfalso. apply NC. split; [exact MI|]. exists w1', w2'. csplit; auto. }
  change (w_stgs (er w)) with (w_stgs w). destruct (sig 0%Z); [apply N; auto|]. split; auto. split; [intros E; apply N; auto|].
  destruct (fisnan (st_pcost (w_info w2'))); [apply N; auto|auto].
Qed.

Lemma full_le_eq {T} (a b : arr T) n : full a n -> length a = n -> le a b -> b = a.
Proof.
  intros Fa La [Lb S]. apply nth_error_ext'. intros i. destruct (Nat.lt_ge_cases i n) as [H|H].
  - destruct (Fa i H) as [v E]. pose proof (S i v E) as E'. unfold get in *. destruct (nth_error a i) as [[x|]|]; try discriminate. destruct (nth_error b i) as [[y|]|]; congruence.
  - rewrite (proj2 (nth_error_None a i)), (proj2 (nth_error_None b i)) by lia. auto.
Qed.

(* what a caller sees after a solve *)
Definition answer (w : W) := (w_x w, w_y w, w_z w, w_s w, w_c w, w_tau w, w_kap w, st_iter (w_info w), (st_pinf (w_info w), st_dinf (w_info w), st_step (w_info w), st_nitref1 (w_info w), st_nitref2 (w_info w))).
Definition figures (w : W) := let i := w_info w in
  (st_pcost i, st_dcost i, st_pres i, st_dres i, st_pinfres i, st_dinfres i, st_gap i, st_relgap i, st_mu i, st_kapovert i).

Lemma repro_core L sig t w1 w2 : (forall d, In d (ly_q L) -> 1 <= d) -> sized (w_KKT w1) -> usable L w1 -> usable L w2 -> same w1 w2 -> w_c w2 = w_c w1 ->
  ~ cut_short sig w1 ->
  exists code t' u1 u2, ECOS_solve sig t w1 = Some (code, t', u1) /\ ECOS_solve sig t w2 = Some (code, t', u2) /\
    answer u2 = answer u1 /\ ((0 <= sg_maxit (w_stgs w1))%Z -> figures u2 = figures u1) /\ same w1 u1 /\ same w1 u2.
Proof.
  intros H1 SZ U1 U2 S Ec NC. pose proof (er_usable L w1 U1) as UE. pose proof (er_first L sig w1 H1 SZ U1 NC) as FO.
  pose proof U1 as [(lpv & soc & ex & W1) _]. pose proof U2 as [(lpv' & soc' & ex' & W2) _].
  pose proof (er_le w1 w1 L lpv soc ex lpv soc ex (same_refl w1) eq_refl W1 W1) as HL1. pose proof (er_le w1 w2 L lpv soc ex lpv' soc' ex' S Ec W1 W2) as HL2.
  destruct (wp_elim _ _ (ECOS_solve_safe L H1 sig t (er w1) (fun r => usable L (snd r) /\ at_pt L (snd r)) UE FO (fun c t' w' A B _ _ => conj A B))) as ([[code t'] u] & E & UU & [PX PY PZ PS]).
  cbn [snd] in *. destruct UU as [(lpu & sou & exu & WU) _].
  destruct (ECOS_solve_mono L H1 w1 sig t _ _ SZ HL1 UE U1 _ E) as ([[code1 t1] u1] & E1 & F1 & G1 & G1').
  destruct (ECOS_solve_mono L H1 w1 sig t _ _ SZ HL2 UE U2 _ E) as ([[code2 t2] u2] & E2 & F2 & G2 & G2'). cbn [fst snd] in *.
  injection F1 as <- <-. injection F2 as <- <-. exists code, t', u1, u2. csplit; auto.
  - unfold answer.
    rewrite (full_le_eq _ _ _ PX (ws_lx _ _ _ _ _ WU) (lw_x _ _ _ _ G1)), (full_le_eq _ _ _ PX (ws_lx _ _ _ _ _ WU) (lw_x _ _ _ _ G2)).
    rewrite (full_le_eq _ _ _ PY (ws_ly _ _ _ _ _ WU) (lw_y _ _ _ _ G1)), (full_le_eq _ _ _ PY (ws_ly _ _ _ _ _ WU) (lw_y _ _ _ _ G2)).
    rewrite (full_le_eq _ _ _ PZ (ws_lz _ _ _ _ _ WU) (lw_z _ _ _ _ G1)), (full_le_eq _ _ _ PZ (ws_lz _ _ _ _ _ WU) (lw_z _ _ _ _ G2)).
    rewrite (full_le_eq _ _ _ PS (ws_ls _ _ _ _ _ WU) (lw_sl _ _ _ _ G1)), (full_le_eq _ _ _ PS (ws_ls _ _ _ _ _ WU) (lw_sl _ _ _ _ G2)).
    rewrite (lw_c _ _ _ _ G1), (lw_c _ _ _ _ G2), (lw_2 _ _ _ _ G1 ltac:(lia)), (lw_2 _ _ _ _ G2 ltac:(lia)).
    destruct (lw_1 _ _ _ _ G1 ltac:(lia)), (lw_1 _ _ _ _ G2 ltac:(lia)). congruence.
  - intros MI. specialize (G1' MI). specialize (G2' MI). unfold figures. cbv zeta. destruct (lw_3 _ _ _ _ G1' ltac:(lia)), (lw_3 _ _ _ _ G2' ltac:(lia)). congruence.
  - apply (lw_s' _ _ _ _ G1).
  - apply (lw_s' _ _ _ _ G2).
Qed.
End Two.
