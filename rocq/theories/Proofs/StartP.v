(* The starting point: what bring2cone does to a vector, and the two solves. *)
From Coq Require Import List Arith Bool ZArith QArith Reals Lia Lra.
From Verif Require Import Base Num.
From Verif.Model Require Import Spla Splamm Types Consts Expcone Cone Ldl Kkt Equil Preproc Ecos.
From Verif.Spec Require Import Matrix Fill Conic Jordan KktSpec KktMatrix Shape SetupSpec Refine Direction Start.
From Verif.Proofs Require Import SplaP LoopLib SplammP LdlSym LdlNum LdlR KktAsm KktMat ConeP ScalP Scal2P RotP ConeR KernR NtR LineP KktUpd KktAct KktR Layout EquilP Work WorkR WorkUpd
  SafeLib Stretch SafeK KktErr KktErrR SafeE SafeW SafeV ExitP LoopP SafeU IterP Wlp SetupP DirP DirT DirI DirR.
From Verif.Properties Require Import Sparse Kkt Cone Exp Refine.
Import ListNotations.
Open Scope R_scope.

(* -------------------------------------------------------------- bring2cone *)
Lemma b2c_lp_at C rf : @b2c_lp ROps C rf = - (99 / 100) \/ exists i, (i < @lpp ROps C)%nat /\ rf i <= 0 /\ @b2c_lp ROps C rf = - rf i.
Proof.
  unfold b2c_lp. rewrite GAMMA_R. unR.
  assert (G: forall n lo m, let f := nfold lo n (fun i alpha => if (Rleb (rf i) 0 && Rltb alpha (- rf i))%bool then - rf i else alpha) m in
     f = m \/ exists i, (lo <= i < lo + n)%nat /\ rf i <= 0 /\ f = - rf i).
  { induction n; intros lo m; cbn [nfold]; [left; auto|].
    match goal with |- context [nfold _ n _ ?x] => set (m' := x); destruct (IHn (Datatypes.S lo) m') as [A|(i & A & B & D)] end.
    - cbv zeta in A. rewrite A. unfold m'. destruct (Rleb_spec (rf lo) 0); destruct (Rltb_spec m (- rf lo)); cbn [andb]; auto.
      right. exists lo. split; [lia|]. auto.
    - right. exists i. split; [lia|]. auto. }
  destruct (G (@lpp ROps C) 0%nat (- (99 / 100))) as [A|(i & A & B & D)]; [left; exact A|right; exists i; split; [lia|auto]].
Qed.

Lemma b2c_alpha_at C rf : @b2c_alpha ROps C rf = - (99 / 100) \/
  (exists i, (i < @lpp ROps C)%nat /\ rf i <= 0 /\ @b2c_alpha ROps C rf = - rf i) \/
  (exists k c, In (k, c) (@blocks ROps C) /\ rf k <= nrm (so_p c - 1) (from 1 (from k rf)) /\
     @b2c_alpha ROps C rf = nrm (so_p c - 1) (from 1 (from k rf)) - rf k).
Proof.
  unfold b2c_alpha.
  assert (G: forall l m, let f := fold_left (fun alpha '(k, c) => @b2c_step ROps rf k c alpha) l m in f = m \/
     exists k c, In (k, c) l /\ rf k <= nrm (so_p c - 1) (from 1 (from k rf)) /\ f = nrm (so_p c - 1) (from 1 (from k rf)) - rf k).
  { induction l as [|[k c] t IH]; intros m; cbn [fold_left]; [left; auto|].
    match goal with |- context [fold_left _ t ?x] => set (m' := x); destruct (IH m') as [A|(k' & c' & A & B & D)] end.
    - cbv zeta in A. rewrite A. unfold m', b2c_step. change (@sh ROps k rf) with (from k rf). rewrite b2c_res_R. unR.
      replace (from k rf 0%nat) with (rf k) by (unfold from; f_equal; lia). set (n := nrm _ _).
      destruct (Rleb_spec (rf k - n) 0); destruct (Rltb_spec m (- (rf k - n))); cbn [andb]; auto.
      right. exists k, c. fold n. split; [left; auto|]. split; lra.
    - right. exists k', c'. split; [right; auto|]. auto. }
  destruct (G (@blocks ROps C) (@b2c_lp ROps C rf)) as [A|(k & c & A)]; [|right; right; exists k, c; exact A].
  cbv zeta in A. rewrite A. destruct (b2c_lp_at C rf) as [B|B]; auto.
Qed.

Lemma bring2cone_pushed C l q e r rf s s' : @cone_of ROps C l q e -> vec r (l + list_sum q) rf -> (l + list_sum q <= length s)%nat ->
  @bring2cone ROps C r s = Some s' -> exists a, pushed l q rf (gd 0 s') a.
Proof.
  intros CO Hr Hl E0. pose proof (hsize_of C l q e CO) as HS. rewrite <- HS in Hr, Hl. pose proof CO as [SH EL EQ EE].
  destruct (@bring2cone_eq ROps C r rf s (@sh_pos ROps C SH) Hr Hl) as (s1 & E & FI). unR. rewrite E0 in E. injection E as <-.
  destruct FI as (L & A & B & D). destruct (b2c_alpha_R C rf) as (X & Y & Z). set (al := @b2c_alpha ROps C rf) in *.
  assert (Hq : forall d, In d q -> (1 <= d)%nat). { rewrite <- EQ. intros d Hd. apply in_map_iff in Hd as (c & <- & Hc). apply (@sh_pos ROps C SH c Hc). }
  assert (LP : forall i, (i < l)%nat -> gd 0 s' i = rf i + (al + 1)).
  { intros i Hi. unfold gd. pose proof (A i ltac:(rewrite EL; exact Hi)) as G. unR. rewrite G. reflexivity. }
  assert (BK : forall k p, In (k, p) (layout l q) -> exists c, In (k, c) (@blocks ROps C) /\ so_p c = p).
  { intros k p HI. rewrite <- EL, <- EQ in HI. apply layout_blocks in HI as (c & Hc & Ep). eauto. }
  assert (SO : forall k p i, In (k, p) (layout l q) -> (i < p)%nat -> gd 0 s' (k + i)%nat = rf (k + i)%nat + if (i =? 0)%nat then al + 1 else 0).
  { intros k p i HI Hi. destruct (BK k p HI) as (c & Hc & Ep). unfold gd. pose proof (B k c i Hc ltac:(rewrite Ep; exact Hi)) as G. unR. rewrite G.
    destruct (Nat.eqb_spec i 0) as [->|]; [rewrite Nat.add_0_r; reflexivity|]. ring. }
  assert (NR : forall k p, In (k, p) (layout l q) -> nrm (p - 1) (from 1 (from k (gd 0 s'))) = nrm (p - 1) (from 1 (from k rf))).
  { intros k p HI. unfold nrm. f_equal. apply Rsum_ext. intros i Hi. unfold from. rewrite !(SO k p (1 + i)%nat HI) by lia. cbn [Nat.eqb Nat.add]. ring. }
  assert (H0 : forall k p, In (k, p) (layout l q) -> gd 0 s' k = rf k + (al + 1)).
  { intros k p HI. pose proof (layout_ge q l k p HI) as (_ & _ & G). pose proof (Hq p G). specialize (SO k p 0%nat HI ltac:(lia)). rewrite Nat.add_0_r in SO. exact SO. }
  exists (al + 1). split.
  - intros i Hi. destruct (Nat.lt_ge_cases i l) as [Hl'|Hl']; [rewrite unit_at_lp by auto; apply LP; auto|].
    assert (CV : forall q b, (b <= i < b + list_sum q)%nat -> exists k p j, In (k, p) (layout b q) /\ (j < p)%nat /\ i = (k + j)%nat).
    { clear. induction q as [|d t IH]; intros b H; [cbn in H; lia|]. change (list_sum (d :: t)) with (d + list_sum t)%nat in H. cbn [layout].
      destruct (Nat.lt_ge_cases i (b + d)); [exists b, d, (i - b)%nat; split; [left; auto|lia]|].
      destruct (IH (b + d)%nat ltac:(lia)) as (k & p & j & G1 & G2). exists k, p, j. split; [right; auto|auto]. }
    destruct (CV q l ltac:(lia)) as (k & p & j & G1 & G2 & ->). rewrite (unit_at_soc l q k p j) by auto. apply SO with (p := p); auto.
  - rewrite EL in *. destruct (b2c_alpha_at C rf) as [Q|Q]; fold al in Q.
    + left. split; [|lra]. constructor.
      * intros i Hi. apply Rnot_le_lt. intros R. specialize (Y i Hi R). lra.
      * intros k p HI. destruct (BK k p HI) as (c & Hc & <-). unfold int_soc. apply Rnot_le_lt. unfold from at 1. rewrite Nat.add_0_r. intros R. specialize (Z k c Hc R). lra.
    + right. assert (P0 : 0 <= al) by (rewrite EL in Q; destruct Q as [(i & _ & Q1 & Q2)|(k & c & _ & Q1 & Q2)]; lra). split; [|split; [lra|split]].
      * intros [I1 I2]. destruct Q as [(i & Q0 & Q1 & _)|(k & c & Q0 & Q1 & _)].
        -- rewrite EL in Q0. specialize (I1 i Q0). lra.
        -- assert (HI : In (k, so_p c) (layout l q)) by (rewrite <- EL, <- EQ; apply layout_blocks; eauto). specialize (I2 _ _ HI). unfold int_soc in I2. unfold from at 3 in I2. rewrite Nat.add_0_r in I2. lra.
      * constructor.
        -- intros i Hi. rewrite LP by auto. destruct (Rle_dec (rf i) 0) as [R|R]; [specialize (Y i Hi R)|]; lra.
        -- intros k p HI. rewrite (H0 k p HI), (NR k p HI). destruct (BK k p HI) as (c & Hc & <-). set (nn := nrm _ _) in *.
           destruct (Rle_dec (rf k) nn) as [R|R]; [specialize (Z k c Hc R); fold nn in Z|]; lra.
      * destruct Q as [(i & Q0 & Q1 & Q2)|(k & c & Q0 & Q1 & Q2)].
        -- rewrite EL in Q0. left. exists i. split; [auto|]. rewrite LP by auto. lra.
        -- assert (HI : In (k, so_p c) (layout l q)) by (rewrite <- EL, <- EQ; apply layout_blocks; eauto).
           right. exists k, (so_p c). split; [auto|]. rewrite (H0 _ _ HI), (NR _ _ HI). lra.
Qed.

(* ------------------------------------------------------------- the two solves *)
Lemma refinement_ext N np k M K dr (b b' : nat -> R) xs : (forall i, (i < N)%nat -> b i = b' i) ->
  refinement N k M b (resid N np K dr b) xs -> refinement N k M b' (resid N np K dr b') xs.
Proof.
  intros E [A B D]. assert (ER : forall x i, (i < N)%nat -> resid N np K dr b' x i = resid N np K dr b x i) by (intros; unfold resid; rewrite E; auto).
  assert (EM : forall x r, maxabs N (resid N np K dr b' x) r -> maxabs N (resid N np K dr b x) r).
  { intros x r (M1 & M2 & M3). split; [auto|]. split; [intros i Hi; rewrite <- ER by auto; auto|]. destruct M3 as [M3|(i & Hi & M3)]; [auto|]. right. exists i. split; [auto|]. rewrite <- ER; auto. }
  constructor.
  - intros i Hi. rewrite <- E by auto. auto.
  - intros s i Hs Hi. rewrite ER by auto. auto.
  - intros s r r' Hs H1 H2. apply (D s r r'); auto.
Qed.

(* ----------------------------------------------------------- right-hand sides *)
(* the scaled problem of a workspace *)
Definition fdata {T} (w : pwork T) := (w_n w, w_p w, w_m w, w_A w, w_G w, w_c w, w_b w, w_h w).

Section InitRhs.
Context `{O : Ops}.
Open Scope nat_scope.
Variable L : lay.
Hypothesis H1 : forall d, In d (ly_q L) -> 1 <= d.
Notation n := (ly_n L).
Notation p := (ly_p L).
Notation m := (ly_m L).
Notation N := (ly_nK L).
Notation W := (pwork F).

Lemma init_rhs_unit lpv soc ex (w : W) (Q : W -> Prop) : ws L lpv soc ex w ->
  (forall w', ws L lp_unit (soc_units (w_C w)) ex w' ->
     rhs_is L (kk_RHS1 (w_KKT w')) (fun _ => f0) (gd f0 (w_b w)) (gd f0 (w_h w)) -> rhs_is L (kk_RHS2 (w_KKT w')) (fun i => - gd f0 (w_c w) i)%fl (fun _ => f0) (fun _ => f0) ->
     full (kk_RHS1 (w_KKT w')) N -> full (kk_RHS2 (w_KKT w')) N ->
     fdata w' = fdata w -> w_stgs w' = w_stgs w -> w_C w' = w_C w -> Q w') ->
  wp (init_rhs w) Q.
Proof.
  intros WS HQ. unfold init_rhs. cbv zeta. set (K0 := set_kk_delta (w_KKT w) (sg_delta (w_stgs w))).
  assert (KW0 : kws L lpv soc ex K0). { pose proof (ws_K _ _ _ _ _ WS) as KW. wsup KW. }
  wb. eapply wp_conseq; [apply (kws_init_wp L lpv soc ex K0 (w_C w) KW0 (ws_C _ _ _ _ _ WS) (ws_ix _ _ _ _ _ WS))|].
  intros pr (Lpr & KW). cbv beta. set (K1 := set_kk_PKPt K0 (with_pr (kk_PKPt K0) pr)) in *.
  pose proof (kws_dim _ _ _ _ _ KW) as (PP & KN & KM). pose proof (ws_N L WS) as NN.
  assert (VP : vec (kk_Pinv K1) N (ly_pf L)) by (apply (kw_Pinv _ _ _ _ _ KW)).
  assert (LR1 : length (kk_RHS1 K1) = N) by (apply (kw_r1 _ _ _ _ _ KW)). assert (LR2 : length (kk_RHS2 K1) = N) by (apply (kw_r2 _ _ _ _ _ KW)).
  rewrite (ws_n _ _ _ _ _ WS), (ws_p _ _ _ _ _ WS).
  wb. apply (scatter_wp N (ly_pf L) (kk_Pinv K1) VP PP 0 n _ (fun _ => f0)); [lia|lia|auto|]. intros R1 U1.
  wb. apply (scatter_wp N (ly_pf L) (kk_Pinv K1) VP PP n p _ (gd f0 (w_b w))); [lia|destruct U1; lia|intros i Hi; apply full_vecd with (n := p); auto; apply (ws_b _ _ _ _ _ WS)|]. intros R2 U2.
  wb. apply (rhs_conic_wp N (ly_pf L) (kk_Pinv K1) VP PP (w_C w) (n + p) _ (gd f0 (w_h w))); [lia|destruct U1, U2; lia| |].
  { intros j Hj. rewrite (ws_msize L WS) in Hj. apply full_vecd with (n := m); auto. apply (ws_h _ _ _ _ _ WS). }
  intros R3 U3.
  wb. apply (scatter_wp N (ly_pf L) (kk_Pinv K1) VP PP 0 n _ (fun i => (- gd f0 (w_c w) i)%fl)); [lia|lia| |].
  { intros i Hi. pose proof (full_vecd (w_c w) n (ws_c _ _ _ _ _ WS) i Hi) as E. rewrite E. reflexivity. }
  intros S1 V1.
  wb. apply (scatter_wp N (ly_pf L) (kk_Pinv K1) VP PP n _ _ (fun _ => f0)); [rewrite KN; lia|destruct V1; lia|auto|]. intros S2 V2.
  rewrite (ws_msize L WS), (ws_nsoc L WS) in U3. destruct (ws_cq L _ _ _ _ WS) as (Q1 & Q2 & _). rewrite Q1, Q2 in U3.
  assert (NE : N = n + p + (m + 2 * length (ly_q L))) by (unfold ly_nK, ly_mt; lia).
  assert (LR1' : length R3 = N) by (destruct U1, U2, U3; lia). assert (LR2' : length S2 = N) by (destruct V1, V2; lia).
  assert (RI1 : rhs_is L R3 (fun _ => f0) (gd f0 (w_b w)) (gd f0 (w_h w))) by (eapply put3; eauto).
  assert (RI2 : rhs_is L S2 (fun i => - gd f0 (w_c w) i)%fl (fun _ => f0) (fun _ => f0)).
  { destruct V1 as (a1 & a2 & a3), V2 as (b1 & b2 & b3). rewrite KN in *. split; [|split].
    - intros i Hi. rewrite b3 by lia. apply (a2 i Hi).
    - intros i Hi. apply b2. lia.
    - intros t Ht. replace (n + p + t) with (n + (p + t)) by lia. rewrite b2 by lia. unfold stretch. destruct (unz _ _ t); reflexivity. }
  assert (FU : forall R fx fy fz, rhs_is L R fx fy fz -> full R N).
  { intros R fx fy fz (A1 & A2 & A3). apply (full_perm L _ _ PP). intros i Hi.
    destruct (Nat.lt_ge_cases i n); [eexists; apply A1; auto|]. destruct (Nat.lt_ge_cases i (n + p)).
    - replace i with (n + (i - n)) by lia. eexists. apply A2. lia.
    - replace i with (n + p + (i - (n + p))) by lia. eexists. apply A3. lia. }
  set (K2 := set_kk_RHS2 (set_kk_RHS1 K1 R3) S2).
  assert (KW2 : kws L lp_unit (soc_units (w_C w)) ex K2) by (wsup KW).
  destruct (norm2_safe (w_c (set_w_KKT w K2)) n) as [rx Ex]; [apply (ws_c _ _ _ _ _ WS)|].
  destruct (norm2_safe (w_b (set_w_KKT w K2)) p) as [ry Ey]; [apply (ws_b _ _ _ _ _ WS)|].
  destruct (norm2_safe (w_h (set_w_KKT w K2)) m) as [rz Ez]; [apply (ws_h _ _ _ _ _ WS)|].
  wb. apply (wp_intro _ _ _ Ex). wb. apply (wp_intro _ _ _ Ey). wb.
  change (w_m (set_w_KKT w K2)) with (w_m w). rewrite (ws_m _ _ _ _ _ WS). apply (wp_intro _ _ _ Ez).
  apply (wp_intro _ _ _ eq_refl).
  assert (SP : same_pat (ly_cols L lpv soc ex) (ly_cols L lp_unit (soc_units (w_C w)) ex)).
  { apply ly_same; try apply (kw_q _ _ _ _ _ KW0); try apply (kw_e _ _ _ _ _ KW0); try apply (kw_q _ _ _ _ _ KW2); try apply (kw_e _ _ _ _ _ KW2). }
  apply HQ; wcbn; eauto.
  destruct WS; constructor; wcbn; auto.
  - eapply indexed_same; eauto.
  - eapply dws_same; eauto.
Qed.
End InitRhs.

Section StartP.
Variable L : @lay ROps.
Hypothesis H1 : forall d, In d (@ly_q ROps L) -> (1 <= d)%nat.
Notation n := (@ly_n ROps L).
Notation p := (@ly_p ROps L).
Notation m := (@ly_m ROps L).
Notation N := (@ly_nK ROps L).
Notation pf := (@ly_pf ROps L).
Notation l := (@ly_l ROps L).
Notation q := (@ly_q ROps L).
Notation W := (pwork R).

Lemma solve_one lpv soc ex (K : kkt R) A G atk gtk C nitref (Pb dx dy dz : arr R) (r : triple) Dv :
  @kws ROps L lpv soc ex K -> @dws ROps L (@ly_cols ROps L lpv soc ex) A G atk gtk ->
  @cone_of ROps C l q (ly_e L) -> @factored ROps N K -> strictly_lower (kk_L K) -> vec (kk_D K) N Dv -> (forall i, (i < N)%nat -> Dv i <> 0) ->
  @rhs_is ROps L Pb (q_x r) (q_y r) (q_z r) -> length dx = n -> length dy = p -> length dz = m ->
  exists it K' dx' dy' dz', @kkt_solve ROps K A G Pb dx dy dz n p m C true nitref = Some (it, K', dx', dy', dz') /\
    @kws ROps L lpv soc ex K' /\ @factored ROps N K' /\ kk_L K' = kk_L K /\ kk_D K' = kk_D K /\ kk_RHS1 K' = kk_RHS1 K /\ kk_RHS2 K' = kk_RHS2 K /\
    (kk_dx1 K' = kk_dx1 K /\ kk_dy1 K' = kk_dy1 K /\ kk_dz1 K' = kk_dz1 K /\ kk_dx2 K' = kk_dx2 K /\ kk_dy2 K' = kk_dy2 K /\ kk_dz2 K' = kk_dz2 K) /\
    @full R dx' n /\ @full R dy' p /\ @full R dz' m /\ length dx' = n /\ length dy' = p /\ length dz' = m /\
    refined n p m l q (Kof A G n p C l q true) (fun i j => ldl_prod N (dense (kk_L K)) Dv (pf i) (pf j)) (drof l q true) nitref r
      (mkTriple (gd 0 dx') (gd 0 dy') (gd 0 dz')).
Proof.
  intros KW D CO FA SL VD D0 RI Lx Ly Lz.
  destruct (@kws_dim ROps _ _ _ _ _ KW) as (PP & KN & KM). pose proof (fa_L _ _ FA) as WL. pose proof (fa_n _ _ FA) as Ln. pose proof (fa_m _ _ FA) as Lm.
  destruct (msize_C C l q (ly_e L) CO) as (MS & NS & CL & CQ).
  assert (NN : (n + p + (@msize ROps C + 2 * @nsoc ROps C))%nat = N) by (change (@F ROps) with R in *; rewrite MS, NS; reflexivity).
  assert (ME : m = @msize ROps C) by (change (@F ROps) with R in *; rewrite MS; reflexivity).
  assert (NE : N = (n + p + (m + 2 * length q))%nat) by (rewrite <- NN, MS, NS; reflexivity).
  assert (WG : wf_sp G) by apply (dw_G _ _ _ _ _ _ D).
  assert (Gn : sp_n G = n) by apply (dw_Gn _ _ _ _ _ _ D).
  assert (Gm : sp_m G = m) by apply (dw_Gm _ _ _ _ _ _ D).
  assert (HA : match A with Some A => wf_sp A /\ sp_n A = n /\ sp_m A = p | None => p = 0%nat end).
  { pose proof (dw_A _ _ _ _ _ _ D) as DA. destruct A, (ly_At L); try contradiction; [|exact DA].
    destruct DA as (a1 & a2 & a3 & _). csplit; auto. }
  assert (FB : @full R Pb N).
  { apply (@full_perm ROps L _ _ PP). intros i Hi. destruct RI as (R1 & R2 & R3).
    destruct (Nat.lt_ge_cases i n); [eexists; apply R1; auto|]. destruct (Nat.lt_ge_cases i (n + p)).
    - replace i with (n + (i - n))%nat by lia. eexists. apply R2. lia.
    - replace i with (n + p + (i - (n + p)))%nat by lia. eexists. apply R3. lia. }
  set (bf := gd 0 Pb). assert (VB : vec Pb N bf) by (apply fullR; exact FB).
  assert (EB : forall i, (i < N)%nat -> bf (pf i) = spread n p l q r i).
  { intros i Hi. destruct RI as (R1 & R2 & R3). unfold spread, bf. destruct (Nat.ltb_spec i n); [apply gd_get; apply R1; auto|]. destruct (Nat.ltb_spec i (n + p)).
    - apply gd_get. specialize (R2 (i - n)%nat ltac:(lia)). replace (n + (i - n))%nat with i in R2 by lia. exact R2.
    - apply gd_get. specialize (R3 (i - (n + p))%nat ltac:(lia)). replace (n + p + (i - (n + p)))%nat with i in R3 by lia. etransitivity; [exact R3|].
      f_equal. unfold stretch. change (@F ROps) with R. destruct (unz _ _ _); [reflexivity|]. apply f0_R. }
  pose proof (@kkt_solve_wp ROps K A G Pb n p C true pf bf) as W.
  rewrite NN in W. rewrite <- ME in W.
  specialize (W (kw_Pinv _ _ _ _ _ KW) PP VB (sh_pos _ (co_shape _ _ _ _ CO)) ltac:(discriminate) WG Gn Gm HA KN FA dx dy dz nitref).
  specialize (W (fun r => let '(kz, K'', dx', dy', dz') := r in exists k w1 w2 w3 w4 w5 w6 xv, kz = Z.of_nat k /\ (Z.of_nat k <= Z.max 0 nitref)%Z /\
    K'' = set_kk_work6 (set_kk_work5 (set_kk_work4 (set_kk_work3 (set_kk_work2 (set_kk_work1 K w1) w2) w3) w4) w5) w6 /\
    length w1 = N /\ length w2 = N /\ length w3 = N /\ length w4 = N /\ length w5 = N /\ length w6 = N /\ length dx' = n /\ length dy' = p /\ length dz' = m /\
    vec w1 N xv /\ @KktErr.ended ROps K A G Pb n p C true pf bf nitref k w1 /\ @parts ROps n p C pf xv dx' dy' dz')).
  apply wp_elim in W; try (destruct KW; assumption); auto.
  2:{ intros k w1 w2 w3 w4 w5 w6 xv dx' dy' dz' A1 A2 A3 A4 A5 A6 A7 A8 A9 Vx En' Pa. exists k, w1, w2, w3, w4, w5, w6, xv. csplit; auto.
      destruct En' as [(a1 & a2 & _)|(a1 & a2 & _)]; lia. }
  destruct W as ([[[[kz K''] dx'] dy'] dz'] & ES & k & w1 & w2 & w3 & w4 & w5 & w6 & xv & -> & Hk & -> & A1 & A2 & A3 & A4 & A5 & A6 & A7 & A8 & A9 & Vx & En' & (P1 & P2 & P3 & P4)).
  destruct (ended_R K A G Pb n p C l q (ly_e L) true pf bf Dv CO ltac:(discriminate) WG Gn Gm HA PP VB KN WL Ln Lm SL VD D0 nitref k w1 xv En' Vx) as (xs & X1 & X2).
  eexists _, _, dx', dy', dz'. split; [exact ES|]. split; [wsup KW|]. split; [destruct FA; constructor; auto|]. wcbn. change (@F ROps) with R in *.
  rewrite ME in *. csplit; auto.
  - intros i Hi. eexists. apply P1; auto.
  - intros i Hi. eexists. apply P2; auto.
  - exists k, xs. split; [exact Hk|]. rewrite <- NE. split; [|cbn [q_x q_y q_z]; split; [|split]].
    + eapply refinement_ext; [exact EB|]. exact X2.
    + intros i Hi. rewrite X1 by (change (i < N)%nat; lia). apply gd_get. apply P1; auto.
    + intros i Hi. rewrite X1 by (change (n + i < N)%nat; lia). apply gd_get. apply P2; auto.
    + intros t j Ht Hu. rewrite X1 by (change (n + p + t < N)%nat; lia). apply gd_get. apply P4; [rewrite NS; exact Ht|rewrite CL, CQ; exact Hu].
Qed.

Lemma vec_for (f : nat -> R) k (a a' : arr R) (body : nat -> arr R -> option (arr R)) : (k <= length a)%nat ->
  for_ 0 k body a = Some a' -> (forall i b, (i < k)%nat -> body i b = set b i (f i)) -> vec a' k f /\ length a' = length a.
Proof.
  intros Hk E HB. apply (wp_get _ _ (fun a' => vec a' k f /\ length a' = length a) E).
  apply (wp_for (fun j b => vec b j f /\ length b = length a)); [lia|split; [intros i Hi; lia|auto]| |auto].
  intros i b Hi (V & LB). rewrite HB by lia. apply wp_set; [lia|]. intros b' L' G. split; [|lia].
  intros j Hj. destruct (Nat.eq_dec j i) as [->|]; [rewrite G, Nat.eqb_refl; auto|]. rewrite G. destruct (Nat.eqb_spec j i); [lia|]. apply V. lia.
Qed.

Lemma mehrotra_start ex (w w2 : W) : @ws ROps L (@lp_unit ROps) (@soc_units ROps (w_C w)) ex w -> ly_e L = 0%nat ->
  nodup (w_G w) -> match w_A w with Some A => nodup A | None => True end -> 0 <= sg_eps (w_stgs w) -> 0 < sg_delta (w_stgs w) ->
  let r1 := mkTriple (fun _ => 0) (gd 0 (w_b w)) (gd 0 (w_h w)) in let r2 := mkTriple (fun i => - gd 0 (w_c w) i) (fun _ => 0) (fun _ => 0) in
  @rhs_is ROps L (kk_RHS1 (w_KKT w)) (q_x r1) (q_y r1) (q_z r1) -> @rhs_is ROps L (kk_RHS2 (w_KKT w)) (q_x r2) (q_y r2) (q_z r2) ->
  @init_mehrotra ROps w = Some (true, w2) ->
  let KM := kkt_entry n p (denseA (w_A w)) (dense (w_G w)) (@DELTASTAT ROps) (- @DELTASTAT ROps) l q (unitV l q) in
  let dr := drift0 l q (@DELTASTAT ROps) in
  exists M d1 d2 a1 a2, pivoted N KM (fun i => IZR (ksign n p l q i)) (sg_eps (w_stgs w)) (sg_delta (w_stgs w)) M /\
    refined n p m l q KM M dr (sg_nitref (w_stgs w)) r1 d1 /\ refined n p m l q KM M dr (sg_nitref (w_stgs w)) r2 d2 /\
    (forall i, (i < n)%nat -> gd 0 (w_x w2) i = q_x d1 i) /\ (forall i, (i < p)%nat -> gd 0 (w_y w2) i = q_y d2 i) /\
    pushed l q (fun i => - q_z d1 i) (gd 0 (w_s w2)) a1 /\ pushed l q (q_z d2) (gd 0 (w_z w2)) a2 /\ fdata w2 = fdata w.
Proof.
  intros WS Ee NG NA He Hd r1 r2 RI1 RI2 E KM dr.
  pose proof (ws_K _ _ _ _ _ WS) as KW. pose proof (ws_dat _ _ _ _ _ WS) as D. pose proof (ws_C _ _ _ _ _ WS) as CO.
  destruct (@lens ROps L _ _ _ _ WS) as (Lx & Ly & Lz & Ls & Ll).
  assert (EX : ex = []) by (pose proof (kw_e _ _ _ _ _ KW) as X; rewrite Ee in X; apply length_zero_iff_nil; exact X).
  assert (EM : m = (l + list_sum q)%nat) by (unfold ly_m; rewrite Ee; lia).
  assert (US : @soc_units ROps (w_C w) = map (fun d => (d, socid)) q).
  { unfold soc_units. rewrite <- (co_q _ _ _ _ CO), map_map. apply map_ext. intros k. f_equal.
    unfold soc_unit, soc_written, socid. unR. f_equal; [apply FunctionalExtensionality.functional_extensionality; intros j; destruct (Nat.eqb j 0); auto|
      apply FunctionalExtensionality.functional_extensionality; intros j; destruct (Nat.eqb j 0); auto]. }
  assert (HK : forall i j, (i <= j)%nat -> (j < N)%nat -> symdense (kk_PKPt (w_KKT w)) (pf i) (pf j) = KM i j).
  { intros i j Hij Hj. refine (eq_trans (kws_entries L _ _ _ _ (w_A w) (w_G w) _ _ KW H1 D i j Hij Hj) _). unfold KM. rewrite US.
    apply kkt_entry_V; auto. intros r c' Hrc Hc Hnp.
    assert (Hc' : (c' < l + list_sum q + 3 * 0 + 2 * length q)%nat) by (unfold ly_nK, ly_mt in Hj; lia).
    rewrite <- (vmat_id l q 0) by auto. rewrite EX. unfold lp_unit, expid. unR. reflexivity. }
  unfold init_mehrotra, set_info in E. cbv zeta in E.
  destruct (kkt_factor_R L _ _ _ (w_KKT w) (sg_eps (w_stgs w)) (sg_delta (w_stgs w)) _ (w_A w) (w_G w) _ _ KM KW H1 D NG NA He Hd HK) as
    (K' & Dv & EF & KW' & FA & E1 & E2 & EPK & _ & EPi & SL & VD & D0 & PV).
  unR. rewrite EF in E. cbn [bind negb] in E.
  wcbn in E.
  pose proof (ws_n _ _ _ _ _ WS) as En. pose proof (ws_p _ _ _ _ _ WS) as Ep. pose proof (ws_m _ _ _ _ _ WS) as Em. unR.
  rewrite En, Ep, Em in E.
  assert (LK : forall K : kkt R, @kws ROps L (@lp_unit ROps) (@soc_units ROps (w_C w)) ex K ->
    length (kk_dx1 K) = n /\ length (kk_dy1 K) = p /\ length (kk_dz1 K) = m /\ length (kk_dx2 K) = n /\ length (kk_dy2 K) = p /\ length (kk_dz2 K) = m /\ length (kk_work1 K) = N).
  { intros K KWK. destruct KWK. unR. csplit; assumption. }
  destruct (LK K' KW') as (l1 & l2 & l3 & _). unR. rewrite <- E1 in RI1. rewrite <- E2 in RI2.
  destruct (solve_one _ _ _ K' (w_A w) (w_G w) _ _ (w_C w) (sg_nitref (w_stgs w)) (kk_RHS1 K') (kk_dx1 K') (kk_dy1 K') (kk_dz1 K') r1 Dv KW' D CO FA SL VD D0 RI1 l1 l2 l3)
    as (it & K1 & dx & dy & dz & ES & KW1 & FA1 & EL1 & ED1 & ER1 & ER2 & EDX & Fx & Fy & Fz & Ldx & Ldy & Ldz & RF1).
  unR. rewrite ES in E. cbn [bind] in E.
  destruct (@copy ROps n dx (w_x w)) as [x|] eqn:Ex; [cbn [bind] in E|discriminate].
  match type of E with bind ?mm _ = _ => destruct mm as [wk|] eqn:Ew; [cbn [bind] in E|discriminate] end.
  destruct (@bring2cone ROps _ wk _) as [s|] eqn:Es; [cbn [bind] in E|discriminate].
  wcbn in Ew. destruct (LK K1 KW1) as (_ & _ & _ & l4 & l5 & l6 & l7). unR.
  pose proof (fullR _ _ Fz) as Vz. pose proof (fullR _ _ Fx) as Vx.
  assert (MN : (m <= N)%nat) by (unfold ly_nK, ly_mt; lia).
  destruct (vec_for (fun i => - gd 0 dz i) m (kk_work1 K1) wk _ ltac:(lia) Ew ltac:(intros i b Hi; cbv beta; unR; rewrite (Vz i Hi); reflexivity)) as (Vw & Lw).
  unfold copy in Ex. destruct (vec_for (gd 0 dx) n (w_x w) x _ ltac:(lia) Ex ltac:(intros i b Hi; cbv beta; unR; rewrite (Vx i Hi); reflexivity)) as (Vx' & _).
  destruct (bring2cone_pushed (w_C w) l q (ly_e L) wk (fun i => - gd 0 dz i) (w_s w) s CO ltac:(rewrite <- EM; exact Vw) ltac:(unR; lia) Es) as (a1 & PS).
  match type of E with context [@kkt_solve ROps ?KK _ _ _ _ _ _ _ _ _ _ _ _] => set (K2 := KK) in E end.
  assert (KW2 : @kws ROps L (@lp_unit ROps) (@soc_units ROps (w_C w)) ex K2) by (unfold K2; wsup KW1; wcbn; unR; lia).
  assert (FA2 : @factored ROps N K2) by (unfold K2; destruct FA1; constructor; wcbn; assumption).
  assert (EL2 : kk_L K2 = kk_L K') by exact EL1. assert (ED2 : kk_D K2 = kk_D K') by exact ED1.
  destruct (LK K2 KW2) as (_ & _ & _ & l8 & l9 & l10 & _).
  assert (RI2' : @rhs_is ROps L (kk_RHS2 K2) (q_x r2) (q_y r2) (q_z r2)) by (change (kk_RHS2 K2) with (kk_RHS2 K1); rewrite ER2; exact RI2).
  destruct (solve_one _ _ _ K2 (w_A w) (w_G w) _ _ (w_C w) (sg_nitref (w_stgs w)) (kk_RHS2 K2) (kk_dx2 K2) (kk_dy2 K2) (kk_dz2 K2) r2 Dv KW2 D CO FA2
    ltac:(rewrite EL2; exact SL) ltac:(rewrite ED2; exact VD) D0 RI2' l8 l9 l10)
    as (it2 & K3 & dx2 & dy2 & dz2 & ES2 & _ & _ & _ & _ & _ & _ & _ & Fx2 & Fy2 & Fz2 & Ldx2 & Ldy2 & Ldz2 & RF2).
  unR. change (kk_RHS2 K1) with (kk_RHS2 K2) in E. change (kk_dx2 K1) with (kk_dx2 K2) in E. change (kk_dy2 K1) with (kk_dy2 K2) in E. change (kk_dz2 K1) with (kk_dz2 K2) in E.
  rewrite ES2 in E. cbn [bind] in E.
  destruct (@copy ROps p dy2 (w_y w)) as [y|] eqn:Ey; [cbn [bind] in E|discriminate].
  destruct (@bring2cone ROps _ dz2 _) as [z|] eqn:Ez; [cbn [bind] in E|discriminate]. injection E as <-.
  pose proof (fullR _ _ Fz2) as Vz2. pose proof (fullR _ _ Fy2) as Vy2.
  unfold copy in Ey. destruct (vec_for (gd 0 dy2) p (w_y w) y _ ltac:(lia) Ey ltac:(intros i b Hi; cbv beta; unR; rewrite (Vy2 i Hi); reflexivity)) as (Vy' & _).
  destruct (bring2cone_pushed (w_C w) l q (ly_e L) dz2 (gd 0 dz2) (w_z w) z CO ltac:(rewrite <- EM; exact Vz2) ltac:(unR; lia) Ez) as (a2 & PZ).
  rewrite EL2 in RF2. eexists _, _, _, a1, a2. split; [exact PV|]. split; [exact RF1|]. split; [exact RF2|]. wcbn.
  split; [intros i Hi; apply gd_get; apply Vx'; auto|]. split; [intros i Hi; apply gd_get; apply Vy'; auto|]. split; [exact PS|]. split; [exact PZ|reflexivity].
Qed.

(* src/ecos.c:260-443 init, without exponential cones *)
Lemma init_start lpv soc ex (w w1 : W) : @ws ROps L lpv soc ex w -> ly_e L = 0%nat ->
  nodup (w_G w) -> match w_A w with Some A => nodup A | None => True end -> 0 <= sg_eps (w_stgs w) -> 0 < sg_delta (w_stgs w) ->
  @init ROps w = Some (true, w1) ->
  let KM := kkt_entry n p (denseA (w_A w)) (dense (w_G w)) (@DELTASTAT ROps) (- @DELTASTAT ROps) l q (unitV l q) in
  let dr := drift0 l q (@DELTASTAT ROps) in
  fdata w1 = fdata w /\
  exists M d1 d2 a1 a2, pivoted N KM (fun i => IZR (ksign n p l q i)) (sg_eps (w_stgs w)) (sg_delta (w_stgs w)) M /\
    refined n p m l q KM M dr (sg_nitref (w_stgs w)) (rhs_primal (prog_of w)) d1 /\ refined n p m l q KM M dr (sg_nitref (w_stgs w)) (rhs_dual (prog_of w)) d2 /\
    started (prog_of w) l q d1 d2 a1 a2 (spot_of w1).
Proof.
  intros WS Ee NG NA He Hd E KM dr. unfold init in E. destruct (@init_rhs ROps w) as [w'|] eqn:E1; [cbn [bind] in E|discriminate].
  pose proof (ws_C _ _ _ _ _ WS) as CO. pose proof (ws_n _ _ _ _ _ WS) as En. pose proof (ws_p _ _ _ _ _ WS) as Ep. 
  assert (IR : @ws ROps L (@lp_unit ROps) (@soc_units ROps (w_C w')) ex w' /\
    @rhs_is ROps L (kk_RHS1 (w_KKT w')) (fun _ => @f0 ROps) (gd (@f0 ROps) (w_b w)) (gd (@f0 ROps) (w_h w)) /\
    @rhs_is ROps L (kk_RHS2 (w_KKT w')) (fun i => - gd (@f0 ROps) (w_c w) i) (fun _ => @f0 ROps) (fun _ => @f0 ROps) /\
    fdata w' = fdata w /\ w_stgs w' = w_stgs w /\ w_C w' = w_C w).
  { apply (wp_get _ _ (fun w' => @ws ROps L (@lp_unit ROps) (@soc_units ROps (w_C w')) ex w' /\
      @rhs_is ROps L (kk_RHS1 (w_KKT w')) (fun _ => @f0 ROps) (gd (@f0 ROps) (w_b w)) (gd (@f0 ROps) (w_h w)) /\
      @rhs_is ROps L (kk_RHS2 (w_KKT w')) (fun i => - gd (@f0 ROps) (w_c w) i) (fun _ => @f0 ROps) (fun _ => @f0 ROps) /\
      fdata w' = fdata w /\ w_stgs w' = w_stgs w /\ w_C w' = w_C w) E1).
    eapply (@init_rhs_unit ROps L); [exact WS|]. intros v A1 A2 A3 _ _ A6 A7 A8. rewrite A8. csplit; auto. }
  destruct IR as (WS' & RI1 & RI2 & FD & SG & EC). rewrite EC in E at 1.
  pose proof (co_e _ _ _ _ CO) as CE. unR. rewrite CE, Ee in E. cbn [Nat.eqb] in E.
  destruct (@init_mehrotra ROps w') as [[ok w2]|] eqn:E2; [cbn [bind] in E|discriminate]. destruct ok; cbn [negb] in E; [|discriminate].
  unfold fdata in FD. injection FD as F1 F2 F3 F4 F5 F6 F7 F8.
  destruct (mehrotra_start ex w' w2 WS' Ee ltac:(rewrite F5; exact NG) ltac:(rewrite F4; exact NA) ltac:(rewrite SG; exact He) ltac:(rewrite SG; exact Hd)
    ltac:(rewrite F7, F8; exact RI1) ltac:(rewrite F6; exact RI2) E2) as (M & d1 & d2 & a1 & a2 & PV & R1 & R2 & X & Y & PS & PZ & FD2).
  rewrite F4, F5, SG in PV, R1, R2. rewrite F7, F8 in R1. rewrite F6 in R2.
  destruct (@scatter ROps _ _ _ _ _) as [R3|] eqn:Es; [cbn [bind] in E|discriminate]. injection E as <-. unfold set_info.
  unfold fdata in FD2. injection FD2 as G1 G2 G3 G4 G5 G6 G7 G8.
  split; [unfold fdata; wcbn; congruence|].
  exists M, d1, d2, a1, a2. split; [exact PV|]. split; [exact R1|]. split; [exact R2|].
  constructor; wcbn; cbn [g_n g_p prog_of spot_of t_x t_y t_s t_z t_tau t_kap]; auto; wcbn; unR; rewrite ?En, ?Ep; auto.
Qed.

(* with exponential cones: the unit point *)
Lemma unit_at_block (C : cone R) l q e k c i : @cone_of ROps C l q e -> In (k, c) (@blocks ROps C) -> (i < so_p c)%nat -> unit_at l q (k + i) = (i =? 0)%nat.
Proof.
  intros [SH EL EQ EE] HI Hi. assert (HL : In (k, so_p c) (layout l q)) by (rewrite <- EL, <- EQ; apply layout_blocks; exists c; auto).
  apply (unit_at_soc l q k (so_p c) i); auto. rewrite <- EQ. intros d Hd. apply in_map_iff in Hd as (c' & <- & Hc'). apply (@sh_pos ROps C SH c' Hc').
Qed.

Lemma unit1_at (C : cone R) l q e (s s' : arr R) : @cone_of ROps C l q e -> (l + list_sum q + 3 * e <= length s)%nat -> @unitInit1 ROps C s 1 = Some s' ->
  forall i, (i < l + list_sum q + 3 * e)%nat -> gd 0 s' i = unit_point l q i.
Proof.
  intros CO Ls E0. pose proof CO as [SH EL EQ EE]. pose proof (msize_of C l q e CO) as MS. pose proof (hsize_of C l q e CO) as HS. rewrite <- MS in Ls.
  destruct (@unitInit1_eq ROps C s 1 (@sh_pos ROps C SH) (@sh_fexv ROps C SH) Ls) as (s1 & E & L' & A & B & D & _). unR. rewrite E0 in E. injection E as <-.
  assert (KV : forall i, (i < @hsize ROps C)%nat -> get s' i = Some (if unit_at l q i then 1 else 0)).
  { apply by_blocks.
    - intros i Hi. rewrite A by auto. rewrite unit_at_lp; auto. unfold lpp in *. lia.
    - intros k c i Hin Hi. rewrite (unit_at_block C l q e k c i CO Hin Hi). etransitivity; [exact (B k c i Hin Hi)|]. destruct (i =? 0)%nat; auto. }
  intros i Hi. apply gd_get. unfold unit_point. destruct (Nat.ltb_spec i (l + list_sum q)) as [Hlt|Hge]; [apply KV; lia|].
  assert (EB : forall i, (i < e)%nat -> exists x, In ((l + list_sum q + 3 * i)%nat, x) (@eblocks ROps C)).
  { clear i Hi Hge. intros i Hi. unfold eblocks. rewrite (@sh_fexv ROps C SH), HS. unfold nexc in EE. revert i Hi. rewrite <- EE. generalize (l + list_sum q)%nat as k.
    clear. unR. generalize (@co_expc R C) as ex. induction ex as [|x t IH]; intros k i Hi; cbn [length LoopLib.lay] in *; [lia|]. destruct i.
    - exists x. left. f_equal. lia.
    - destruct (IH (k + 3)%nat i ltac:(lia)) as (y & Hy). exists y. right. replace (k + 3 * Datatypes.S i)%nat with (k + 3 + 3 * i)%nat by lia. auto. }
  set (t := (i - (l + list_sum q))%nat). assert (EI : (i = l + list_sum q + 3 * (t / 3) + t mod 3)%nat) by (pose proof (Nat.div_mod t 3 ltac:(lia)); lia).
  assert (Ht : (t mod 3 < 3)%nat) by (apply Nat.mod_upper_bound; lia). assert (Hd : (t / 3 < e)%nat) by (apply Nat.div_lt_upper_bound; lia).
  destruct (EB _ Hd) as (x & Hx). rewrite EI at 1. etransitivity; [exact (D _ _ _ Hx Ht)|]. f_equal. rewrite Rmult_1_l. revert Ht. generalize (t mod 3)%nat. clear.
  intros j Hj. unfold list_fun, expray. destruct j as [|[|[|j]]]; [| | |lia]; cbn [nth ray fconst ROps]; unR; unfold Q2R; cbn [QArith_base.Qnum QArith_base.Qden]; lra.
Qed.

Lemma init_unit_start lpv soc ex (w w1 : W) : @ws ROps L lpv soc ex w -> ly_e L <> 0%nat -> @init ROps w = Some (true, w1) ->
  fdata w1 = fdata w /\ unit_started (prog_of w) l q (spot_of w1).
Proof.
  intros WS Ee E. unfold init in E. destruct (@init_rhs ROps w) as [w'|] eqn:E1; [cbn [bind] in E|discriminate].
  pose proof (ws_C _ _ _ _ _ WS) as CO. pose proof (ws_n _ _ _ _ _ WS) as En. pose proof (ws_p _ _ _ _ _ WS) as Ep. pose proof (ws_m _ _ _ _ _ WS) as Em.
  assert (IR : @ws ROps L (@lp_unit ROps) (@soc_units ROps (w_C w')) ex w' /\ fdata w' = fdata w /\ w_C w' = w_C w).
  { apply (wp_get _ _ (fun w' => @ws ROps L (@lp_unit ROps) (@soc_units ROps (w_C w')) ex w' /\ fdata w' = fdata w /\ w_C w' = w_C w) E1).
    eapply (@init_rhs_unit ROps L); [exact WS|]. intros v A1 _ _ _ _ A6 _ A8. rewrite A8. csplit; auto. }
  destruct IR as (WS' & FD & EC). rewrite EC in E at 1. destruct (@lens ROps L _ _ _ _ WS') as (Lx & Ly & Lz & Ls & _).
  pose proof (co_e _ _ _ _ CO) as CE. unR. rewrite CE in E. destruct (Nat.eqb_spec (ly_e L) 0) as [|_]; [contradiction|].
  unfold fdata in FD. injection FD as F1 F2 F3 F4 F5 F6 F7 F8.
  destruct (@init_unit ROps w') as [w2|] eqn:E2; [cbn [bind negb] in E|discriminate]. cbv zeta in E.
  destruct (@scatter ROps _ _ _ _ _) as [R3|] eqn:Es; [cbn [bind] in E|discriminate]. injection E as <-. unfold set_info.
  unfold init_unit, unitInitialization, set_info in E2. unR. rewrite EC in E2.
  destruct (@unitInit1 ROps _ (w_s w') _) as [s|] eqn:ES; [cbn [bind] in E2|discriminate].
  destruct (@unitInit1 ROps _ (w_z w') _) as [z|] eqn:EZ; [cbn [bind] in E2|discriminate].
  destruct (@Equil.fill ROps _ _ (w_y w')) as [y|] eqn:EY; [cbn [bind] in E2|discriminate].
  destruct (@Equil.fill ROps _ _ (w_x w')) as [x|] eqn:EX; [cbn [bind] in E2|discriminate].
  injection E2 as <-. split; [unfold fdata; wcbn; congruence|].
  assert (EMm : m = (l + list_sum q + 3 * ly_e L)%nat) by reflexivity.
  assert (FL : forall k (a b : arr R), (k <= length a)%nat -> @Equil.fill ROps k 0 a = Some b -> forall i, (i < k)%nat -> gd 0 b i = 0).
  { intros k a b Hk EF i Hi. destruct (@fill_eq ROps k 0 a Hk) as (b' & EF' & _ & V & _). unR. rewrite EF in EF'. injection EF' as <-. apply gd_get. apply V; auto. }
  constructor; wcbn; cbn [g_n g_p g_m prog_of spot_of t_x t_y t_s t_z t_tau t_kap]; auto; wcbn; unR; rewrite ?En, ?Ep, ?Em.
  - rewrite F1, En in EX. eapply FL; [|exact EX]. lia.
  - rewrite F2, Ep in EY. eapply FL; [|exact EY]. lia.
  - rewrite EMm. eapply unit1_at; [exact CO| |exact ES]. unR. lia.
  - rewrite EMm. eapply unit1_at; [exact CO| |exact EZ]. unR. lia.
Qed.
End StartP.
