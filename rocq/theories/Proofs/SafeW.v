(* The functions of ecos.c on a workspace: they return, for every arithmetic,
   and keep the layout.  Second part: initialisation, residuals, exit tests. *)
From Coq Require Import List Arith Bool ZArith Lia.
From Verif Require Import Base Num.
From Verif.Model Require Import Spla Splamm Types Consts Expcone Cone Ldl Kkt Equil Preproc Ecos.
From Verif.Spec Require Import Matrix Fill KktSpec KktMatrix Shape SetupSpec.
From Verif.Proofs Require Import SplaP LoopLib SplammP LdlSym LdlNum KktAsm KktMat ConeP ScalP Scal2P LineP KktUpd Layout EquilP Work WorkUpd
  SafeLib Stretch SafeK KktErr SafeE.
From Verif.Properties Require Import Kkt.
Import ListNotations.
Open Scope nat_scope.

Ltac wsup W := destruct W; constructor; wcbn; auto; try congruence.

Section SafeW.
Context `{O : Ops}.
Variable L : lay.
Hypothesis H1 : forall d, In d (ly_q L) -> 1 <= d.
Notation n := (ly_n L).
Notation p := (ly_p L).
Notation m := (ly_m L).
Notation N := (ly_nK L).
Notation W := (pwork F).

(* what no function but saveIterateAsBest, the caller and the loop counter changes *)
Definition key (w : W) := (w_best w, (w_best_x w, w_best_y w, w_best_z w, w_best_s w), w_stgs w, st_iter (w_info w)).
(* the iterate is initialised *)
Record at_pt (w : W) : Prop := { ap_x : full (w_x w) n; ap_y : full (w_y w) p; ap_z : full (w_z w) m; ap_s : full (w_s w) m }.
(* the stored best iterate, if there is one, is initialised *)
Definition best_ok (w : W) : Prop := w_best w <> None -> full (w_best_x w) n /\ full (w_best_y w) p /\ full (w_best_z w) m /\ full (w_best_s w) m.

Lemma best_key w w' : key w' = key w -> best_ok w -> best_ok w'.
Proof. unfold key, best_ok. intros E. injection E as -> -> -> -> -> _ _. auto. Qed.

Section Facts.
Context {lpv : nat -> F} {soc : list (nat * socv F)} {ex : list (expv F)} {w : W}.
Hypothesis WS : ws L lpv soc ex w.

Lemma ws_msize : msize (w_C w) = m.
Proof. destruct (ws_C _ _ _ _ _ WS) as [_ A B D]. unfold msize, hsize, ly_m. rewrite A, B, D. lia. Qed.
Lemma ws_hsize : hsize (w_C w) = ly_l L + list_sum (ly_q L).
Proof. destruct (ws_C _ _ _ _ _ WS) as [_ A B D]. unfold hsize. rewrite A, B. lia. Qed.
Lemma ws_hm : hsize (w_C w) + 3 * nexc (w_C w) = m.
Proof. rewrite <- ws_msize. reflexivity. Qed.
Lemma ws_nsoc : nsoc (w_C w) = length (ly_q L).
Proof. destruct (ws_C _ _ _ _ _ WS) as [_ A B D]. unfold nsoc. rewrite <- B, map_length. auto. Qed.
Lemma ws_N : n + p + (msize (w_C w) + 2 * nsoc (w_C w)) = N.
Proof. rewrite ws_msize, ws_nsoc. reflexivity. Qed.
Lemma ws_mN : m <= N.
Proof. unfold ly_nK, ly_mt. lia. Qed.
Lemma ws_pos : forall c, In c (co_soc (w_C w)) -> 1 <= so_p c.
Proof. apply (sh_pos _ (co_shape _ _ _ _ (ws_C _ _ _ _ _ WS))). Qed.
Lemma ws_fexv : co_fexv (w_C w) = hsize (w_C w).
Proof. apply (sh_fexv _ (co_shape _ _ _ _ (ws_C _ _ _ _ _ WS))). Qed.
Lemma ws_HA : match w_A w with Some A => wf_sp A /\ sp_n A = n /\ sp_m A = p | None => p = 0 end.
Proof.
  pose proof (dw_A _ _ _ _ _ _ (ws_dat _ _ _ _ _ WS)) as DA. destruct (w_A w), (ly_At L); try contradiction; auto.
  destruct DA as (a1 & a2 & a3 & _). auto.
Qed.
Lemma ws_G : wf_sp (w_G w) /\ sp_n (w_G w) = n /\ sp_m (w_G w) = m.
Proof. destruct (ws_dat _ _ _ _ _ WS). auto. Qed.
Lemma ws_setK K : kws L lpv soc ex K -> ws L lpv soc ex (set_w_KKT w K).
Proof. intros KW. wsup WS. Qed.

Lemma solve_safe K Pb dx dy dz isinit nit (Q : Z * kkt F * arr F * arr F * arr F -> Prop) :
  kws L lpv soc ex K -> factored N K -> full Pb N -> (isinit = false -> ConeP.scaled (w_C w)) ->
  length dx = n -> length dy = p -> length dz = m ->
  (forall it K' dx' dy' dz', kws L lpv soc ex K' -> factored N K' -> kk_RHS1 K' = kk_RHS1 K -> kk_RHS2 K' = kk_RHS2 K ->
    kk_dx1 K' = kk_dx1 K -> kk_dy1 K' = kk_dy1 K -> kk_dz1 K' = kk_dz1 K ->
    length dx' = n -> length dy' = p -> length dz' = m -> full dx' n -> full dy' p -> full dz' m -> Q (it, K', dx', dy', dz')) ->
  wp (kkt_solve K (w_A w) (w_G w) Pb dx dy dz (w_n w) (w_p w) (w_m w) (w_C w) isinit nit) Q.
Proof.
  intros KW FA FP SC Lx Ly Lz HQ.
  rewrite (ws_n _ _ _ _ _ WS), (ws_p _ _ _ _ _ WS), (ws_m _ _ _ _ _ WS).
  destruct (kws_dim _ _ _ _ _ KW) as (PP & KN & KM). destruct ws_G as (G1 & G2 & G3).
  pose proof (kkt_solve_wp K (w_A w) (w_G w) Pb n p (w_C w) isinit (ly_pf L) (gd f0 Pb)) as S. rewrite ws_N, ws_msize in S.
  specialize (S (kw_Pinv _ _ _ _ _ KW) PP (full_vecd _ _ FP) ws_pos SC G1 G2 G3 ws_HA KN FA dx dy dz nit Q).
  apply S; auto; try (destruct KW; assumption).
  intros k w1 w2 w3 w4 w5 w6 xv dx' dy' dz' L1 L2 L3 L4 L5 L6 Lx' Ly' Lz' Vx En (P1 & P2 & P3 & P4).
  rewrite ws_msize in P3. apply HQ; auto.
  - wsup KW.
  - destruct FA; constructor; auto.
  - eapply vec_fulld; eauto.
  - eapply vec_fulld; eauto.
Qed.
End Facts.

(* --------------------------------------------------------------- init *)
Lemma full_perm (pf : nat -> nat) (a : arr F) : is_perm N pf -> (forall i, i < N -> exists v, get a (pf i) = Some v) -> full a N.
Proof. intros PP H i Hi. destruct (perm_inv _ _ PP) as (g & G1 & _). destruct (G1 i Hi) as [A B]. rewrite <- B. apply H; auto. Qed.

Lemma scatter_keep K lpv soc ex k cnt f (a : arr F) (Q : arr F -> Prop) : kws L lpv soc ex K -> k + cnt <= N -> length a = N ->
  (forall i, i < cnt -> exists v, f i = Some v) -> full a N -> (forall a', length a' = N -> full a' N -> Q a') ->
  wp (scatter (kk_Pinv K) k cnt f a) Q.
Proof.
  intros KW HN La Hf Fa HQ. destruct (kws_dim _ _ _ _ _ KW) as ([P1 P2] & _). unfold scatter.
  apply (for_keep N); auto; [lia| |].
  - intros i a' Hi L' F'. destruct (Hf i ltac:(lia)) as [v E]. exists (ly_pf L (k + i)), v. split; [rewrite La; apply P1; lia|].
    rewrite (kw_Pinv _ _ _ _ _ KW) by lia. cbn [bind]. rewrite E. reflexivity.
  - intros a' L' F'. apply HQ; auto. congruence.
Qed.

Lemma init_rhs_safe lpv soc ex w (Q : W -> Prop) : ws L lpv soc ex w ->
  (forall w' soc', ws L lp_unit soc' ex w' -> full (kk_RHS1 (w_KKT w')) N -> full (kk_RHS2 (w_KKT w')) N -> key w' = key w ->
     w_C w' = w_C w -> Q w') ->
  wp (init_rhs w) Q.
Proof.
  intros WS HQ. unfold init_rhs. cbv zeta. set (K0 := set_kk_delta (w_KKT w) (sg_delta (w_stgs w))).
  assert (KW0 : kws L lpv soc ex K0). { pose proof (ws_K _ _ _ _ _ WS) as KW. wsup KW. }
  wb. eapply wp_conseq; [apply (kws_init_wp L lpv soc ex K0 (w_C w) KW0 (ws_C _ _ _ _ _ WS) (ws_ix _ _ _ _ _ WS))|].
  intros pr (Lpr & KW). cbv beta. set (K1 := set_kk_PKPt K0 (with_pr (kk_PKPt K0) pr)) in *.
  pose proof (kws_dim _ _ _ _ _ KW) as (PP & KN & KM). pose proof (ws_N WS) as NN.
  assert (VP : vec (kk_Pinv K1) N (ly_pf L)) by (apply (kw_Pinv _ _ _ _ _ KW)).
  assert (LR1 : length (kk_RHS1 K1) = N) by (apply (kw_r1 _ _ _ _ _ KW)). assert (LR2 : length (kk_RHS2 K1) = N) by (apply (kw_r2 _ _ _ _ _ KW)).
  rewrite (ws_n _ _ _ _ _ WS), (ws_p _ _ _ _ _ WS).
  wb. apply (scatter_wp N (ly_pf L) (kk_Pinv K1) VP PP 0 n _ (fun _ => f0)); [lia|lia|auto|]. intros R1 U1.
  wb. apply (scatter_wp N (ly_pf L) (kk_Pinv K1) VP PP n p _ (gd f0 (w_b w))); [lia|destruct U1; lia|intros i Hi; apply full_vecd with (n := p); auto; apply (ws_b _ _ _ _ _ WS)|]. intros R2 U2.
  wb. apply (rhs_conic_wp N (ly_pf L) (kk_Pinv K1) VP PP (w_C w) (n + p) _ (gd f0 (w_h w))); [lia|destruct U1, U2; lia| |].
  { intros j Hj. rewrite (ws_msize WS) in Hj. apply full_vecd with (n := m); auto. apply (ws_h _ _ _ _ _ WS). }
  intros R3 U3.
  wb. apply (scatter_wp N (ly_pf L) (kk_Pinv K1) VP PP 0 n _ (fun i => (- gd f0 (w_c w) i)%fl)); [lia|lia| |].
  { intros i Hi. pose proof (full_vecd (w_c w) n (ws_c _ _ _ _ _ WS) i Hi) as E. rewrite E. reflexivity. }
  intros S1 V1.
  wb. apply (scatter_wp N (ly_pf L) (kk_Pinv K1) VP PP n _ _ (fun _ => f0)); [rewrite KN; lia|destruct V1; lia|auto|]. intros S2 V2.
  assert (FR1 : full R3 N /\ length R3 = N).
  { destruct U1 as (a1 & a2 & a3), U2 as (b1 & b2 & b3), U3 as (c1 & c2 & c3). split; [|congruence]. apply (full_perm _ _ PP). intros i Hi.
    destruct (Nat.lt_ge_cases i (n + p)).
    - rewrite c3 by (auto; lia). destruct (Nat.lt_ge_cases i n); [rewrite b3 by (auto; lia); eexists; apply (a2 i); lia|].
      replace i with (n + (i - n)) by lia. eexists; apply b2; lia.
    - replace i with (n + p + (i - (n + p))) by lia. eexists; apply c2; lia. }
  assert (FR2 : full S2 N /\ length S2 = N).
  { destruct V1 as (a1 & a2 & a3), V2 as (b1 & b2 & b3). split; [|congruence]. apply (full_perm _ _ PP). intros i Hi. rewrite KN in *.
    destruct (Nat.lt_ge_cases i n); [rewrite b3 by (auto; lia); eexists; apply (a2 i); lia|].
    replace i with (n + (i - n)) by lia. eexists; apply b2; lia. }
  destruct FR1 as (FR1 & LR1'), FR2 as (FR2 & LR2').
  set (K2 := set_kk_RHS2 (set_kk_RHS1 K1 R3) S2).
  assert (KW2 : kws L lp_unit (soc_units (w_C w)) ex K2) by (wsup KW).
  destruct (norm2_safe (w_c (set_w_KKT w K2)) n) as [rx Ex]; [apply (ws_c _ _ _ _ _ WS)|].
  destruct (norm2_safe (w_b (set_w_KKT w K2)) p) as [ry Ey]; [apply (ws_b _ _ _ _ _ WS)|].
  destruct (norm2_safe (w_h (set_w_KKT w K2)) m) as [rz Ez]; [apply (ws_h _ _ _ _ _ WS)|].
  wb. apply (wp_intro _ _ _ Ex). wb. apply (wp_intro _ _ _ Ey). wb. 
  change (w_m (set_w_KKT w K2)) with (w_m w). rewrite (ws_m _ _ _ _ _ WS). apply (wp_intro _ _ _ Ez).
  apply (wp_intro _ _ _ eq_refl).
  assert (SP : same_pat (ly_cols L lpv soc ex) (ly_cols L lp_unit (soc_units (w_C w)) ex)).
  { apply ly_same; try apply (kw_q _ _ _ _ _ KW0); try apply (kw_e _ _ _ _ _ KW0); try apply (kw_q _ _ _ _ _ KW2); try apply (kw_e _ _ _ _ _ KW2). }
  apply (HQ _ (soc_units (w_C w))); wcbn; auto.
  destruct WS; constructor; wcbn; auto.
  - eapply indexed_same; eauto.
  - eapply dws_same; eauto.
Qed.

Lemma lens lpv soc ex w : ws L lpv soc ex w -> length (w_x w) = n /\ length (w_y w) = p /\ length (w_z w) = m /\ length (w_s w) = m /\ length (w_lambda w) = m.
Proof. intros []; auto. Qed.

Lemma init_mehrotra_safe lpv soc ex w (Q : bool * W -> Prop) : ws L lpv soc ex w -> nexc (w_C w) = 0 ->
  full (kk_RHS1 (w_KKT w)) N -> full (kk_RHS2 (w_KKT w)) N ->
  (forall w', ws L lpv soc ex w' -> at_pt w' -> full (kk_RHS1 (w_KKT w')) N -> full (kk_RHS2 (w_KKT w')) N -> key w' = key w ->
     w_C w' = w_C w -> Q (true, w')) ->
  wp (init_mehrotra w) Q.
Proof.
  intros WS NE R1 R2 HQ. destruct (lens _ _ _ _ WS) as (Lx & Ly & Lz & Ls & Ll). pose proof (ws_hm WS) as HM. rewrite NE in HM.
  unfold init_mehrotra. wb.
  apply (kkt_factor_wp L lpv soc ex (w_KKT w) _ _ _ _ _ _ _ _ (ws_K _ _ _ _ _ WS) H1 (ws_dat _ _ _ _ _ WS)).
  intros K1 KW1 FA1 E1 E2 E3 E4 E5. cbv beta iota. wcbn. wb.
  apply (solve_safe WS); auto; try (destruct KW1; assumption); [rewrite E1; auto|discriminate|].
  intros it2 K2 dx dy dz KW2 FA2 E6 E7 E8 E9 E10 Ldx Ldy Ldz Fx Fy Fz. unfold set_info. wcbn.
  rewrite (ws_n _ _ _ _ _ WS), (ws_m _ _ _ _ _ WS), (ws_p _ _ _ _ _ WS).
  wb. apply copy_safe; [auto|lia|]. intros x Lx' Fx' _.
  set (K3 := set_kk_dz1 _ _). assert (KW3 : kws L lpv soc ex K3) by (wsup KW2).
  wb. apply for_full; [pose proof (kw_w1 _ _ _ _ _ KW2); pose proof ws_mN; wcbn; lia| |].
  { intros i a' Hi _ _ _. destruct (Fz i Hi) as [v E]. rewrite E. eexists. reflexivity. }
  intros w1 Lw1 Fw1 _.
  destruct (bring2cone_eq (w_C w) w1 (gd f0 w1) (w_s w)) as (s & Es & Fs); [apply (ws_pos WS)|apply full_vecd; eapply full_le; eauto; lia|lia|].
  wb. apply (wp_intro _ _ _ Es).
  pose proof (solve_safe WS) as SS. rewrite (ws_n _ _ _ _ _ WS), (ws_m _ _ _ _ _ WS), (ws_p _ _ _ _ _ WS) in SS.
  wb. set (K4 := set_kk_work1 _ _). assert (KW4 : kws L lpv soc ex K4) by (pose proof (kw_w1 _ _ _ _ _ KW2); wsup KW3; unfold K4; wcbn; congruence).
  apply SS; auto; try (destruct KW4; assumption); [destruct FA2; constructor; auto|unfold K4, K3; wcbn; rewrite E7, E2; auto|discriminate|].
  clear SS. intros it5 K5 dx2 dy2 dz2 KW5 FA5 E11 E12 E13 E14 E15 Ldx2 Ldy2 Ldz2 Fx2 Fy2 Fz2. cbv beta iota.
  wb. apply copy_safe; [auto|lia|]. intros y Ly' Fy' _.
  destruct (bring2cone_eq (w_C w) dz2 (gd f0 dz2) (w_z w)) as (z & Ez & Fz'); [apply (ws_pos WS)|apply full_vecd; eapply full_le; eauto; lia|lia|].
  wb. apply (wp_intro _ _ _ Ez). apply (wp_intro _ _ _ eq_refl).
  assert (Lz' : length z = m) by (rewrite <- Lz; eapply filled_len; eauto). assert (Ls' : length s = m) by (rewrite <- Ls; eapply filled_len; eauto).
  assert (KW6 : kws L lpv soc ex (set_kk_dz2 (set_kk_dy2 (set_kk_dx2 K5 dx2) dy2) dz2)) by (wsup KW5).
  apply HQ; wcbn; auto.
  - wsup WS.
  - constructor; wcbn; auto; (eapply full_le; [eapply filled_full; eauto|lia]).
  - rewrite E11. unfold K4, K3. wcbn. rewrite E6, E1. auto.
  - rewrite E12. unfold K4, K3. wcbn. rewrite E7, E2. auto.
Qed.

Lemma unit_full C s sc : (forall c, In c (co_soc C) -> 1 <= so_p c) -> co_fexv C = hsize C -> msize C <= length s ->
  exists s', unitInit1 C s sc = Some s' /\ length s' = length s /\ full s' (msize C).
Proof.
  intros Hp Hf HL. destruct (unitInit1_eq C s sc Hp Hf HL) as (s' & E & L' & A & B & D & _). exists s'. csplit; auto.
  intros j Hj. destruct (Nat.lt_ge_cases j (lpp C)); [eauto|].
  destruct (Nat.lt_ge_cases j (hsize C)) as [Hh|Hh].
  - rewrite hsize_tot in Hh. destruct (lay_cover (@so_p F) (lpp C) (co_soc C) j) as (k & c & Hi & Hk); [lia|].
    replace j with (k + (j - k)) by lia. eexists. apply B with (c := c); auto. lia.
  - destruct (lay_cover (fun _ : expcone F => 3) (hsize C) (co_expc C) j) as (k & c & Hi & Hk).
    { assert (T : forall l : list (expcone F), tot (fun _ => 3) l = 3 * length l) by (induction l; cbn [tot length]; lia).
      rewrite T. unfold msize, nexc in Hj. lia. }
    replace j with (k + (j - k)) by lia. eexists. apply D with (e := c); [unfold eblocks; rewrite Hf; exact Hi|lia].
Qed.

Lemma init_unit_safe lpv soc ex w (Q : W -> Prop) : ws L lpv soc ex w ->
  (forall w', ws L lpv soc ex w' -> at_pt w' -> w_KKT w' = w_KKT w -> key w' = key w -> w_C w' = w_C w -> Q w') ->
  wp (init_unit w) Q.
Proof.
  intros WS HQ. destruct (lens _ _ _ _ WS) as (Lx & Ly & Lz & Ls & Ll). unfold init_unit, unitInitialization, set_info.
  pose proof (ws_msize WS) as MS.
  destruct (unit_full (w_C w) (w_s w) f1 (ws_pos WS) (ws_fexv WS)) as (s & Es & Ls' & Fs); [lia|].
  destruct (unit_full (w_C w) (w_z w) f1 (ws_pos WS) (ws_fexv WS)) as (z & Ez & Lz' & Fz); [lia|].
  rewrite Es. cbn [bind]. rewrite Ez. cbn [bind]. rewrite MS in *. rewrite (ws_n _ _ _ _ _ WS), (ws_p _ _ _ _ _ WS).
  wb. apply fill_safe; [lia|]. intros y Ly' Fy. wb. apply fill_safe; [lia|]. intros x Lx' Fx. apply (wp_intro _ _ _ eq_refl).
  apply HQ; wcbn; auto. { wsup WS. } { constructor; wcbn; auto. }
Qed.

Lemma init_safe lpv soc ex w (Q : bool * W -> Prop) : ws L lpv soc ex w ->
  (forall w' soc', ws L lp_unit soc' ex w' -> at_pt w' -> full (kk_RHS1 (w_KKT w')) N -> full (kk_RHS2 (w_KKT w')) N -> key w' = key w -> Q (true, w')) ->
  wp (init w) Q.
Proof.
  intros WS HQ. unfold init, set_info. wb. apply (init_rhs_safe _ _ _ _ _ WS). intros w1 soc1 WS1 F1 F2 K1 C1. wb.
  eapply wp_conseq with (P := fun r => exists w', r = (true, w') /\ ws L lp_unit soc1 ex w' /\ at_pt w' /\ full (kk_RHS1 (w_KKT w')) N /\
    full (kk_RHS2 (w_KKT w')) N /\ key w' = key w1).
  { destruct (Nat.eqb_spec (nexc (w_C w1)) 0) as [E|E].
    - apply (init_mehrotra_safe _ _ _ _ _ WS1); auto. intros w' A B D1 D2 D3 D4. exists w'. csplit; auto.
    - wb. apply (init_unit_safe _ _ _ _ _ WS1). intros w' A B D1 D2 D3. apply (wp_intro _ _ _ eq_refl). exists w'. rewrite D1. csplit; auto. }
  intros r (w' & -> & WS2 & PT & R1 & R2 & KE). cbv beta iota. cbn [negb]. wb. rewrite (ws_n _ _ _ _ _ WS2).
  pose proof (ws_K _ _ _ _ _ WS2) as KW.
  apply (scatter_keep _ lp_unit soc1 ex); auto; [unfold ly_nK; lia|destruct KW; auto| |].
  { intros i Hi. destruct (ws_c _ _ _ _ _ WS2 i Hi) as [v E]. rewrite E. cbn. eauto. }
  intros R Lr Fr. apply (wp_intro _ _ _ eq_refl). apply (HQ _ soc1); wcbn; auto.
  - destruct WS2; constructor; wcbn; auto. wsup KW.
  - destruct PT; constructor; auto.
  - rewrite <- K1, <- KE. reflexivity.
Qed.

(* -------------------------------------------------- residuals, statistics *)
Record residuals (w : W) : Prop := { re_x : full (w_rx w) n; re_y : full (w_ry w) p; re_z : full (w_rz w) m }.

Lemma computeResiduals_safe lpv soc ex w (Q : W -> Prop) : ws L lpv soc ex w -> at_pt w ->
  (forall w', ws L lpv soc ex w' -> at_pt w' -> residuals w' -> w_KKT w' = w_KKT w -> w_C w' = w_C w -> key w' = key w -> w_info w' = w_info w -> Q w') ->
  wp (computeResiduals w) Q.
Proof.
  intros WS PT HQ. pose proof PT as [FX FY FZ FS]. pose proof WS as WS'. destruct WS'. unfold computeResiduals. cbv zeta.
  rewrite ws_n, ws_m, ws_p. destruct (ws_G WS) as (G1 & G2 & G3). pose proof (ws_HA WS) as HA.
  assert (MtG : forall y nv sk (Q : arr F -> Prop), n <= length y -> ((nv <= 0)%Z -> full y n) ->
     (forall y', length y' = length y -> full y' n -> Q y') -> wp (sparseMtVm (w_G w) (w_z w) y nv sk) Q).
  { intros y nv sk Q' Hl Hn HQ'. apply sparseMtVm_safe; auto; rewrite ?G2, ?G3; auto. }
  wb. eapply wp_conseq with (P := fun rx => length rx = n /\ full rx n).
  { destruct (Nat.ltb_spec 0 p).
    - destruct (w_A w) as [A|] eqn:EA; [|lia]. destruct HA as (A1 & A2 & A3). cbn [bind]. wb.
      apply sparseMtVm_safe; auto; rewrite ?A2, ?A3; auto; [lia|lia|]. intros y' _ Ly Fy _. apply MtG; auto; [lia|]. intros; split; auto; congruence.
    - apply MtG; auto; [lia|lia|]. intros; split; auto; congruence. }
  intros rx (Lrx & Frx). destruct (norm2_safe rx n Frx) as [hx Ehx]. wb. apply (wp_intro _ _ _ Ehx).
  destruct (vsubscale_eq n (w_tau w) (w_c w) rx (gd f0 (w_c w)) (gd f0 rx)) as (rx' & Erx & Wrx); [apply full_vecd; auto|apply full_vecd; auto|lia|].
  wb. apply (wp_intro _ _ _ Erx). wb.
  eapply wp_conseq with (P := fun r => let '(ry, hresy) := r in length ry = p /\ full ry p).
  { destruct (Nat.ltb_spec 0 p).
    - destruct (w_A w) as [A|] eqn:EA; [|lia]. destruct HA as (A1 & A2 & A3). cbn [bind]. wb.
      apply sparseMV_safe; auto; rewrite ?A2, ?A3; auto; [lia|lia|]. intros ry _ Lry Fry _.
      destruct (norm2_safe ry p Fry) as [hy Ehy]. wb. apply (wp_intro _ _ _ Ehy).
      destruct (vsubscale_eq p (w_tau w) (w_b w) ry (gd f0 (w_b w)) (gd f0 ry)) as (ry' & Ery & Wry); [apply full_vecd; auto|apply full_vecd; auto|lia|].
      wb. apply (wp_intro _ _ _ Ery). apply (wp_intro _ _ _ eq_refl). split; [rewrite (wrote_len _ _ _ _ _ Wry); congruence|eapply full_wrote; eauto].
    - apply (wp_intro _ _ _ eq_refl). assert (p = 0) as -> by lia. split; [lia|apply full_0]. }
  intros [ry hresy] (Lry & Fry). cbv beta iota.
  wb. apply sparseMV_safe; auto; rewrite ?G2, ?G3; auto; [lia|lia|]. intros rz _ Lrz Frz _.
  destruct (vadd_eq m (w_s w) rz (gd f0 (w_s w)) (gd f0 rz)) as (rz1 & Erz1 & Wrz1); [apply full_vecd; auto|apply full_vecd; auto|lia|].
  wb. apply (wp_intro _ _ _ Erz1). assert (Frz1 : full rz1 m) by (eapply full_wrote; eauto). pose proof (wrote_len _ _ _ _ _ Wrz1) as Lrz1.
  destruct (norm2_safe rz1 m Frz1) as [hz Ehz]. wb. apply (wp_intro _ _ _ Ehz).
  destruct (vsubscale_eq m (w_tau w) (w_h w) rz1 (gd f0 (w_h w)) (gd f0 rz1)) as (rz2 & Erz2 & Wrz2); [apply full_vecd; auto|apply full_vecd; auto|lia|].
  wb. apply (wp_intro _ _ _ Erz2). assert (Frz2 : full rz2 m) by (eapply full_wrote; eauto). pose proof (wrote_len _ _ _ _ _ Wrz2) as Lrz2.
  destruct (eddot_safe (w_c w) (w_x w) n) as [cx Ecx]; auto. wb. apply (wp_intro _ _ _ Ecx).
  destruct (eddot_safe (w_b w) (w_y w) p) as [bY Eby]; auto.
  assert (EB : exists v, (if Nat.ltb 0 p then eddot p (w_b w) (w_y w) else Some f0) = Some v) by (destruct (Nat.ltb 0 p); eauto).
  destruct EB as [bv EB]. wb. apply (wp_intro _ _ _ EB).
  destruct (eddot_safe (w_h w) (w_z w) m) as [hz' Ehz']; auto. wb. apply (wp_intro _ _ _ Ehz').
  destruct (norm2_safe (w_x w) n) as [nx Enx]; auto. wb. apply (wp_intro _ _ _ Enx).
  destruct (norm2_safe (w_y w) p) as [ny Eny]; auto. wb. apply (wp_intro _ _ _ Eny).
  destruct (norm2_safe (w_s w) m) as [nS Ens]; auto. wb. apply (wp_intro _ _ _ Ens).
  destruct (norm2_safe (w_z w) m) as [nz Enz]; auto. wb. apply (wp_intro _ _ _ Enz).
  pose proof (wrote_len _ _ _ _ _ Wrx) as Lrx'. assert (Frx' : full rx' n) by (eapply full_wrote; eauto).
  apply (wp_intro _ _ _ eq_refl). apply HQ; wcbn; auto.
  - constructor; wcbn; auto; congruence.
  - constructor; wcbn; auto.
  - constructor; wcbn; auto.
Qed.

Lemma updateStatistics_safe lpv soc ex w (Q : W -> Prop) : ws L lpv soc ex w -> at_pt w -> residuals w ->
  (forall i', st_iter i' = st_iter (w_info w) -> st_step i' = st_step (w_info w) -> st_pcost i' = (w_cx w / w_tau w)%fl -> Q (set_w_info w i')) ->
  wp (updateStatistics w) Q.
Proof.
  intros WS [FX FY FZ FS] [RX RY RZ] HQ. pose proof WS as WS'. destruct WS'. unfold updateStatistics. cbv zeta. rewrite ws_n, ws_m, ws_p.
  destruct (eddot_safe (w_s w) (w_z w) m) as [g Eg]; auto. wb. apply (wp_intro _ _ _ Eg).
  destruct (norm2_safe (w_ry w) p) as [ny Eny]; auto.
  match goal with |- wp (bind ?X _) _ => assert (EB : exists v, X = Some v) by (destruct (Nat.ltb 0 p); rewrite ?Eny; cbn [bind]; eauto) end.
  destruct EB as [bv EB]. wb. apply (wp_intro _ _ _ EB).
  destruct (norm2_safe (w_rz w) m) as [nz Enz]; auto. wb. apply (wp_intro _ _ _ Enz).
  destruct (norm2_safe (w_rx w) n) as [nx Enx]; auto. wb. apply (wp_intro _ _ _ Enx).
  apply (wp_intro _ _ _ eq_refl). apply HQ; reflexivity.
Qed.

End SafeW.
