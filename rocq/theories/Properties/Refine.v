(* C14: the linear-system solve with iterative refinement. *)
From Coq Require Import List Arith Bool ZArith Reals Lia Lra.
From Verif Require Import Base Num.
From Verif.Model Require Import Spla Splamm Types Consts Expcone Cone Ldl Kkt Equil Preproc.
From Verif.Spec Require Import Matrix Conic Jordan Scaling Fill KktSpec KktMatrix Refine Shape SetupSpec.
From Verif.Proofs Require Import SplaP SplammP LdlSym KktAsm KktMat KktR ConeP ScalP Scal2P KktUpd Layout Work SetupP WorkR KktAct WorkUpd
  SafeLib Stretch SafeK KktErr KktErrR.
From Verif.Properties Require Import Cone Kkt.
Import ListNotations.
Open Scope nat_scope.

(* The refreshed and factored KKT system of a workspace can be solved for every
   right-hand side, in every arithmetic (NaN included): nothing is read or
   written outside the arrays, nothing uninitialised is read, the loop ends
   after at most nitref corrections and returns how many it kept, k.  What it
   returns are the parts of a vector w that is the base solution plus k
   corrections, none of which increased the measured error; a correction that
   increased the error was subtracted again (see KktErr.ended). *)
Theorem C14_bounded : forall `{O : Ops} amd junk n m p l q e G0 A0 c h b w Cs C eps delta nitref Pb bf dx dy dz,
  valid_data n m p q G0 A0 c h b -> amd_ok amd ->
  ECOS_setup amd junk n m p l q e (data_of G0) (option_map data_of A0) c h b = Some (Some w) ->
  (forall C', In C' (Cs ++ [C]) -> fits (w_C w) C' /\ ConeP.scaled C') ->
  let P := kk_PKPt (w_KKT w) in let N := n + p + m + 2 * length q in
  vec Pb N bf -> length dx = n -> length dy = p -> length dz = m ->
  exists pf pr' K', is_perm N pf /\ vec (kk_Pinv (w_KKT w)) N pf /\
    kkt_updates (sp_pr P) (kk_PK (w_KKT w)) (Cs ++ [C]) = Some pr' /\
    kkt_factor (set_kk_PKPt (w_KKT w) (with_pr P pr')) eps delta = Some (true, K') /\
    exists k K'' dx' dy' dz' x xv,
      kkt_solve K' (w_A w) (w_G w) Pb dx dy dz n p m C false nitref = Some (Z.of_nat k, K'', dx', dy', dz') /\
      (Z.of_nat k <= Z.max 0 nitref)%Z /\
      vec x N xv /\ ended K' (w_A w) (w_G w) Pb n p C false pf bf nitref k x /\
      vec dx' n (fun i => xv (pf i)) /\ vec dy' p (fun i => xv (pf (n + i))) /\ full dz' m /\
      (forall t j, t < m + 2 * length q -> unz l q t = Some j -> get dz' j = Some (xv (pf (n + p + t)))).
Proof.
  intros O amd junk n m p l q e G0 A0 c h b w Cs C eps delta nitref Pb bf dx dy dz V AM E HC P N VB Lx Ly Lz.
  destruct (setup_inv _ _ _ _ _ _ _ _ _ _ _ _ _ _ V AM E) as (L & En & Ep & El & Eq & Ee & Em & (WS & _) & SG & SA).
  pose proof (ws_K _ _ _ _ _ WS) as KW. pose proof (ws_dat _ _ _ _ _ WS) as D.
  assert (H1 : forall d, In d (ly_q L) -> 1 <= d) by (rewrite Eq; apply (vd_q _ _ _ _ _ _ _ _ _ V)).
  assert (EN : ly_nK L = N) by (unfold ly_nK, ly_mt, N; rewrite En, Ep, Em, Eq; lia).
  destruct (updates_kws L (Cs ++ [C]) _ _ _ _ _ KW (ws_C _ _ _ _ _ WS) (ws_ix _ _ _ _ _ WS) HC) as (pr' & E' & M').
  rewrite rev_unit in M'.
  destruct (HC C) as [FT SC]; [apply in_or_app; right; left; auto|].
  pose proof (fits_cone _ _ _ _ _ FT (ws_C _ _ _ _ _ WS)) as CO.
  set (K0 := set_kk_PKPt (w_KKT w) (with_pr P pr')) in *.
  pose proof (kkt_factor_wp L _ _ _ K0 eps delta _ (w_A w) (w_G w) _ _ (fun r => exists K', r = (true, K') /\
    kws L (lp_scaled C) (soc_vals C) (exp_vals C) K' /\ factored (ly_nK L) K' /\ kk_Pinv K' = kk_Pinv K0) M' H1 D) as W.
  apply wp_elim in W. 2:{ intros K' k1 k2 _ _ _ _ k7. exists K'. csplit; auto. }
  destruct W as (r & EF & K' & -> & KW' & FA & EPinv).
  destruct (kws_dim _ _ _ _ _ KW') as (PP & KN & KM).
  exists (ly_pf L), pr', K'. rewrite <- EN. split; [auto|]. split; [apply (kw_Pinv _ _ _ _ _ KW)|]. split; [exact E'|]. split; [exact EF|].
  destruct CO as [SH CL CQ CE].
  assert (MS : msize C = m) by (unfold msize, hsize; rewrite CL, CQ, CE, El, Eq, Ee; unfold ly_m in Em; rewrite El, Eq, Ee in Em; lia).
  assert (NS : nsoc C = length q) by (unfold nsoc; rewrite <- (map_length so_p), CQ, Eq; auto).
  assert (NN : n + p + (msize C + 2 * nsoc C) = ly_nK L) by (rewrite MS, NS, EN; unfold N; lia).
  pose proof (kkt_solve_wp K' (w_A w) (w_G w) Pb n p C false (ly_pf L) bf) as W.
  rewrite NN in W. rewrite MS in W.
  specialize (W (kw_Pinv _ _ _ _ _ KW') PP ltac:(rewrite EN; exact VB) (sh_pos _ SH) (fun _ => SC)).
  specialize (W (dw_G _ _ _ _ _ _ D) ltac:(rewrite <- En; apply (dw_Gn _ _ _ _ _ _ D)) ltac:(rewrite <- Em; apply (dw_Gm _ _ _ _ _ _ D))).
  assert (HA : match w_A w with Some A => wf_sp A /\ sp_n A = n /\ sp_m A = p | None => p = 0 end).
  { pose proof (dw_A _ _ _ _ _ _ D) as DA. destruct (w_A w), (ly_At L); try contradiction; [|congruence].
    destruct DA as (a1 & a2 & a3 & _). csplit; auto; congruence. }
  specialize (W HA KN FA dx dy dz nitref).
  specialize (W (fun r => let '(kz, K'', dx', dy', dz') := r in exists k x xv, kz = Z.of_nat k /\ (Z.of_nat k <= Z.max 0 nitref)%Z /\
    vec x (ly_nK L) xv /\ ended K' (w_A w) (w_G w) Pb n p C false (ly_pf L) bf nitref k x /\ parts n p C (ly_pf L) xv dx' dy' dz')).
  apply wp_elim in W; try (destruct KW'; assumption); auto.
  - destruct W as ([[[[kz K''] dx'] dy'] dz'] & ES & k & x & xv & -> & Hk & Vx & En' & (P1 & P2 & P3 & P4)).
    exists k, K'', dx', dy', dz', x, xv. rewrite MS in P3. rewrite MS, NS in P4. rewrite CL, CQ, El, Eq in P4. csplit; auto.
  - intros k w1 w2 w3 w4 w5 w6 xv dx' dy' dz' _ _ _ _ _ _ _ _ _ Vx En' Pa. exists k, w1, xv. csplit; auto.
    destruct En' as [(a1 & a2 & _)|(a1 & a2 & _)]; lia.
Qed.
Print Assumptions C14_bounded.

(* ---- exact arithmetic ---- *)
Open Scope R_scope.

Lemma solve_exact (L : @lay ROps) (lpv : nat -> R) soc ex (K0 : kkt R) A G atk gtk C isinit (eps delta : R) nitref (Pb dx dy dz : arr R) (bf : nat -> R) :
  let n := ly_n L in let p := ly_p L in let l := ly_l L in let q := ly_q L in let m := @ly_m ROps L in
  let N := @ly_nK ROps L in let pf := ly_pf L in
  @kws ROps L lpv soc ex K0 -> @dws ROps L (@ly_cols ROps L lpv soc ex) A G atk gtk -> (forall d, In d q -> (1 <= d)%nat) ->
  @cone_of ROps C l q (ly_e L) -> (isinit = false -> @ConeP.scaled ROps C) ->
  nodup G -> match A with Some A => nodup A | None => True end -> 0 <= eps -> 0 < delta ->
  (forall i j, (i <= j)%nat -> (j < N)%nat -> symdense (kk_PKPt K0) (pf i) (pf j) = Kof A G n p C l q isinit i j) ->
  vec Pb N bf -> length dx = n -> length dy = p -> length dz = m ->
  exists K' M, @kkt_factor ROps K0 eps delta = Some (true, K') /\
    pivoted N (Kof A G n p C l q isinit) (fun i => IZR (ksign n p l q i)) eps delta M /\
    exists k K'' dx' dy' dz' xs,
      @kkt_solve ROps K' A G Pb dx dy dz n p m C isinit nitref = Some (Z.of_nat k, K'', dx', dy', dz') /\
      (Z.of_nat k <= Z.max 0 nitref)%Z /\
      refinement N k M (fun i => bf (pf i)) (resid N (n + p) (Kof A G n p C l q isinit) (drof l q isinit) (fun i => bf (pf i))) xs /\
      vec dx' n (xs k) /\ vec dy' p (fun i => xs k (n + i)%nat) /\ full dz' m /\
      (forall t j, (t < m + 2 * length q)%nat -> unz l q t = Some j -> get dz' j = Some (xs k (n + p + t)%nat)).
Proof.
  intros n p l q m N pf KW D H1 CO SC NG NA He Hd HK VB Lx Ly Lz.
  destruct (kkt_factor_R L lpv soc ex K0 eps delta _ A G atk gtk (Kof A G n p C l q isinit) KW H1 D NG NA He Hd HK) as
    (K' & Dv & EF & KW' & FA & _ & _ & EPK & _ & EPi & SL & VD & D0 & PV).
  destruct (@kws_dim ROps _ _ _ _ _ KW') as (PP & KN & KM). pose proof (fa_L _ _ FA) as WL. pose proof (fa_n _ _ FA) as Ln. pose proof (fa_m _ _ FA) as Lm.
  exists K', (fun i j => ldl_prod N (dense (kk_L K')) Dv (pf i) (pf j)). split; [exact EF|]. split; [exact PV|].
  destruct (msize_C C l q (ly_e L) CO) as (MS & NS & CL & CQ).
  assert (NN : (n + p + (@msize ROps C + 2 * @nsoc ROps C))%nat = N) by (change (@F ROps) with R in *; rewrite MS, NS; reflexivity).
  assert (ME : m = @msize ROps C) by (change (@F ROps) with R in *; rewrite MS; reflexivity).
  assert (WG : wf_sp G) by apply (dw_G _ _ _ _ _ _ D).
  assert (Gn : sp_n G = n) by apply (dw_Gn _ _ _ _ _ _ D).
  assert (Gm : sp_m G = m) by apply (dw_Gm _ _ _ _ _ _ D).
  assert (HA : match A with Some A => wf_sp A /\ sp_n A = n /\ sp_m A = p | None => p = 0%nat end).
  { pose proof (dw_A _ _ _ _ _ _ D) as DA. destruct A, (ly_At L); try contradiction; [|exact DA].
    destruct DA as (a1 & a2 & a3 & _). csplit; auto. }
  pose proof (@kkt_solve_wp ROps K' A G Pb n p C isinit pf bf) as W.
  rewrite NN in W. rewrite <- ME in W.
  specialize (W (kw_Pinv _ _ _ _ _ KW') PP VB (sh_pos _ (co_shape _ _ _ _ CO)) SC WG Gn Gm HA KN FA dx dy dz nitref).
  specialize (W (fun r => let '(kz, K'', dx', dy', dz') := r in exists k x xv, kz = Z.of_nat k /\ (Z.of_nat k <= Z.max 0 nitref)%Z /\
    vec x N xv /\ @ended ROps K' A G Pb n p C isinit pf bf nitref k x /\ @parts ROps n p C pf xv dx' dy' dz')).
  apply wp_elim in W; try (destruct KW'; assumption); auto.
  - destruct W as ([[[[kz K''] dx'] dy'] dz'] & ES & k & x & xv & -> & Hk & Vx & En' & (P1 & P2 & P3 & P4)).
    destruct (ended_R K' A G Pb n p C l q (ly_e L) isinit pf bf Dv CO SC WG Gn Gm HA PP VB KN WL Ln Lm SL VD D0 nitref k x xv En' Vx) as (xs & X1 & X2).
    exists k, K'', dx', dy', dz', xs. change (@F ROps) with R in *. rewrite MS, NS in P4. rewrite CL, CQ in P4.
    assert (NE : N = (n + p + (m + 2 * length q))%nat) by (rewrite <- NN, MS, NS; reflexivity).
    csplit; auto.
    + intros i Hi. rewrite P1 by auto. rewrite X1; auto. change (i < N)%nat. lia.
    + intros i Hi. rewrite P2 by auto. rewrite X1; auto. change (n + i < N)%nat. lia.
    + rewrite ME. exact P3.
    + intros t j Ht Hu. rewrite (P4 t j Ht Hu). rewrite X1; auto. change (n + p + t < N)%nat. lia.
  - intros k w1 w2 w3 w4 w5 w6 xv dx' dy' dz' _ _ _ _ _ _ _ _ _ Vx En' Pa. exists k, w1, xv. csplit; auto.
    destruct En' as [(a1 & a2 & _)|(a1 & a2 & _)]; lia.
Qed.

Lemma same_nodup {T} (M M' : spmat T) : same_pattern M M' -> nodup M -> nodup M'.
Proof.
  intros (J & I & Nn & _ & _) H j a b Ha Hb E. rewrite I in E. apply (H j); auto; unfold in_col in *; rewrite J, Nn in *; auto.
Qed.
Lemma same_nodupA {T} (A A' : option (spmat T)) : same_patternA A A' -> match A with Some A => nodup A | None => True end ->
  match A' with Some A => nodup A | None => True end.
Proof. destruct A, A'; cbn; auto; try contradiction. apply same_nodup. Qed.

(* In exact arithmetic, for a problem without duplicate entries, the vectors
   xs 0, ..., xs k behind the result of the refreshed and factored system satisfy:
   M xs 0 = b, M (xs (s+1) - xs s) = r(xs s), and the largest entry of r(xs s) does not increase.
   M is the KKT matrix K of C10_scaling, except for pivots the
   factorisation replaced.  The residual r(x) is b - K x, except on the last row of
   every second-order cone, where it is b - K x - 2 d x (the static regularisation d
   enters with the wrong sign), and on the two extra rows (see Spec/Refine.drift). *)
Theorem C14_refines : forall amd junk n m p l q e G0 A0 c h b w Cs C (eps delta : R) nitref (Pb dx dy dz : arr R) (bf : nat -> R),
  valid_data n m p q G0 A0 c h b -> amd_ok amd -> nodup G0 -> match A0 with Some A => nodup A | None => True end ->
  @ECOS_setup ROps amd junk n m p l q e (data_of G0) (option_map data_of A0) c h b = Some (Some w) ->
  (forall C', In C' (Cs ++ [C]) -> @fits ROps (w_C w) C' /\ @ConeP.scaled ROps C') ->
  0 <= eps -> 0 < delta ->
  let P := kk_PKPt (w_KKT w) in let mt := (l + list_sum q + 3 * e + 2 * length q)%nat in let N := (n + p + mt)%nat in
  vec Pb N bf -> length dx = n -> length dy = p -> length dz = m ->
  exists pf pr' V K' M, is_perm N pf /\ vec (kk_Pinv (w_KKT w)) N pf /\
    @kkt_updates ROps (sp_pr P) (kk_PK (w_KKT w)) (Cs ++ [C]) = Some pr' /\
    @kkt_factor ROps (set_kk_PKPt (w_KKT w) (with_pr P pr')) eps delta = Some (true, K') /\
    (forall x y xf yf, vec x mt xf -> vec y mt yf -> (mt <= length y)%nat ->
      exists y', @scale2add ROps x y C = Some y' /\
        vec y' mt (fun r => yf r - symmul mt V xf r - @DELTASTAT ROps * vreg l q r * xf r)) /\
    let K := kkt_entry n p (denseA (w_A w)) (dense (w_G w)) (@DELTASTAT ROps) (- @DELTASTAT ROps) l q V in
    let b := fun i => bf (pf i) in
    pivoted N K (fun i => IZR (ksign n p l q i)) eps delta M /\
    exists k K'' dx' dy' dz' xs,
      @kkt_solve ROps K' (w_A w) (w_G w) Pb dx dy dz n p m C false nitref = Some (Z.of_nat k, K'', dx', dy', dz') /\
      (Z.of_nat k <= Z.max 0 nitref)%Z /\
      refinement N k M b (resid N (n + p) K (drift l q (@DELTASTAT ROps)) b) xs /\
      vec dx' n (xs k) /\ vec dy' p (fun i => xs k (n + i)%nat) /\ full dz' m /\
      (forall t j, (t < mt)%nat -> unz l q t = Some j -> get dz' j = Some (xs k (n + p + t)%nat)).
Proof.
  intros amd junk n m p l q e G0 A0 c h b w Cs C eps delta nitref Pb dx dy dz bf V AM NG NA E HC He Hd P mt N VB Lx Ly Lz.
  destruct (@setup_inv ROps _ _ _ _ _ _ _ _ _ _ _ _ _ _ V AM E) as (L & En & Ep & El & Eq & Ee & Em & (WS & _) & SG & SA).
  pose proof (ws_K _ _ _ _ _ WS) as KW. pose proof (ws_dat _ _ _ _ _ WS) as D.
  assert (H1 : forall d, In d (ly_q L) -> (1 <= d)%nat) by (rewrite Eq; apply (vd_q _ _ _ _ _ _ _ _ _ V)).
  assert (EN : @ly_nK ROps L = N) by (unfold ly_nK, ly_mt, N, mt, ly_m; rewrite En, Ep, El, Eq, Ee; lia).
  destruct (@updates_kws ROps L (Cs ++ [C]) _ _ _ _ _ KW (ws_C _ _ _ _ _ WS) (ws_ix _ _ _ _ _ WS) HC) as (pr' & E' & M').
  rewrite rev_unit in M'.
  destruct (HC C) as [FT SC]; [apply in_or_app; right; left; auto|].
  pose proof (fits_cone _ _ _ _ _ FT (ws_C _ _ _ _ _ WS)) as CO.
  assert (D' : @dws ROps L (@ly_cols ROps L (@lp_scaled ROps C) (@soc_vals ROps C) (@exp_vals ROps C)) (w_A w) (w_G w) (w_AtoK w) (w_GtoK w)).
  { eapply dws_same; [|exact D]. apply ly_same; try apply (kw_q _ _ _ _ _ KW) ; try apply (kw_e _ _ _ _ _ KW);
      try apply (kw_q _ _ _ _ _ M'); try apply (kw_e _ _ _ _ _ M'). }
  destruct (@kws_dim ROps _ _ _ _ _ KW) as (PP & _ & _).
  destruct (solve_exact L _ _ _ _ (w_A w) (w_G w) _ _ C false eps delta nitref Pb dx dy dz bf M' D' H1 CO (fun _ => SC)
    (same_nodup _ _ SG NG) (same_nodupA _ _ SA NA) He Hd) as (K' & M & EF & PV & k & K'' & dx' & dy' & dz' & xs & ES & Hk & RF & X1 & X2 & X3 & X4).
  - intros i j Hij Hj. refine (eq_trans (kws_entries L _ _ _ _ (w_A w) (w_G w) _ _ M' H1 D' i j Hij Hj) _).
    unfold Kof, Vof, vmat_of. rewrite (co_l _ _ _ _ CO). reflexivity.
  - rewrite EN. exact VB.
  - congruence.
  - congruence.
  - congruence.
  - exists (ly_pf L), pr', (vmat_of C), K', M. rewrite EN, En, Ep, El, Eq in *.
    split; [exact PP|]. split; [pose proof (kw_Pinv _ _ _ _ _ KW) as X; rewrite EN in X; exact X|]. split; [exact E'|]. split; [exact EF|].
    split.
    { intros x y xf yf Hx Hy Hl. rewrite Ee in CO. exact (conic_scale2add C l q e x y xf yf CO SC Hx Hy Hl). }
    split; [exact PV|].
    exists k, K'', dx', dy', dz', xs. rewrite Em in *. csplit; auto.
    intros t j Ht Hu. apply X4; auto. unfold mt in Ht. unfold ly_m in Em. rewrite El, Eq, Ee in Em. lia.
Qed.
Print Assumptions C14_refines.

(* The two systems of the initialisation: the same with the identity scaling. *)
Theorem C14_refines_init : forall amd junk n m p l q e G0 A0 c h b w C (eps delta : R) nitref (Pb dx dy dz : arr R) (bf : nat -> R),
  valid_data n m p q G0 A0 c h b -> amd_ok amd -> nodup G0 -> match A0 with Some A => nodup A | None => True end ->
  @ECOS_setup ROps amd junk n m p l q e (data_of G0) (option_map data_of A0) c h b = Some (Some w) ->
  @fits ROps (w_C w) C -> 0 <= eps -> 0 < delta ->
  let P := kk_PKPt (w_KKT w) in let mt := (l + list_sum q + 3 * e + 2 * length q)%nat in let N := (n + p + mt)%nat in
  vec Pb N bf -> length dx = n -> length dy = p -> length dz = m ->
  exists pf pr' K' M, is_perm N pf /\ vec (kk_Pinv (w_KKT w)) N pf /\
    @kkt_init ROps (sp_pr P) (kk_PK (w_KKT w)) C = Some pr' /\
    @kkt_factor ROps (set_kk_PKPt (w_KKT w) (with_pr P pr')) eps delta = Some (true, K') /\
    let K := kkt_entry n p (denseA (w_A w)) (dense (w_G w)) (@DELTASTAT ROps) (- @DELTASTAT ROps) l q (unitV l q) in
    let b := fun i => bf (pf i) in
    pivoted N K (fun i => IZR (ksign n p l q i)) eps delta M /\
    exists k K'' dx' dy' dz' xs,
      @kkt_solve ROps K' (w_A w) (w_G w) Pb dx dy dz n p m C true nitref = Some (Z.of_nat k, K'', dx', dy', dz') /\
      (Z.of_nat k <= Z.max 0 nitref)%Z /\
      refinement N k M b (resid N (n + p) K (drift0 l q (@DELTASTAT ROps)) b) xs /\
      vec dx' n (xs k) /\ vec dy' p (fun i => xs k (n + i)%nat) /\ full dz' m /\
      (forall t j, (t < mt)%nat -> unz l q t = Some j -> get dz' j = Some (xs k (n + p + t)%nat)).
Proof.
  intros amd junk n m p l q e G0 A0 c h b w C eps delta nitref Pb dx dy dz bf V AM NG NA E FT He Hd P mt N VB Lx Ly Lz.
  destruct (@setup_inv ROps _ _ _ _ _ _ _ _ _ _ _ _ _ _ V AM E) as (L & En & Ep & El & Eq & Ee & Em & (WS & _) & SG & SA).
  pose proof (ws_K _ _ _ _ _ WS) as KW. pose proof (ws_dat _ _ _ _ _ WS) as D.
  assert (H1 : forall d, In d (ly_q L) -> (1 <= d)%nat) by (rewrite Eq; apply (vd_q _ _ _ _ _ _ _ _ _ V)).
  assert (EN : @ly_nK ROps L = N) by (unfold ly_nK, ly_mt, N, mt, ly_m; rewrite En, Ep, El, Eq, Ee; lia).
  pose proof (fits_cone _ _ _ _ _ FT (ws_C _ _ _ _ _ WS)) as CO.
  pose proof (fits_indexed _ _ _ _ _ _ FT (ws_ix _ _ _ _ _ WS)) as IX.
  pose proof (@kws_init_wp ROps L _ _ _ _ C KW CO IX) as W. apply wp_elim in W. destruct W as (pr' & E' & _ & M').
  assert (D' : @dws ROps L (@ly_cols ROps L (@lp_unit ROps) (@soc_units ROps C) (@id_exp ROps (ly_e L))) (w_A w) (w_G w) (w_AtoK w) (w_GtoK w)).
  { eapply dws_same; [|exact D]. apply ly_same; try apply (kw_q _ _ _ _ _ KW) ; try apply (kw_e _ _ _ _ _ KW);
      try apply (kw_q _ _ _ _ _ M'); try apply (kw_e _ _ _ _ _ M'). }
  assert (US : @soc_units ROps C = map (fun d => (d, socid)) q).
  { unfold soc_units. rewrite <- Eq, <- (co_q _ _ _ _ CO), map_map. apply map_ext. intros k. f_equal.
    unfold soc_unit, soc_written, socid. unR. f_equal; [apply FunctionalExtensionality.functional_extensionality; intros j; destruct (Nat.eqb j 0); auto|
      apply FunctionalExtensionality.functional_extensionality; intros j; destruct (Nat.eqb j 0); auto]. }
  destruct (@kws_dim ROps _ _ _ _ _ KW) as (PP & _ & _).
  destruct (solve_exact L _ _ _ _ (w_A w) (w_G w) _ _ C true eps delta nitref Pb dx dy dz bf M' D' H1 CO ltac:(discriminate)
    (same_nodup _ _ SG NG) (same_nodupA _ _ SA NA) He Hd) as (K' & M & EF & PV & k & K'' & dx' & dy' & dz' & xs & ES & Hk & RF & X1 & X2 & X3 & X4).
  - intros i j Hij Hj. refine (eq_trans (kws_entries L _ _ _ _ (w_A w) (w_G w) _ _ M' H1 D' i j Hij Hj) _).
    unfold Kof, Vof. rewrite En, Ep, El, Eq, US.
    apply kkt_entry_V; auto. intros r c' Hrc Hc Hnp.
    assert (Hc' : (c' < l + list_sum q + 3 * e + 2 * length q)%nat) by (rewrite EN in Hj; unfold N, mt in Hj; lia).
    rewrite <- (vmat_id l q e) by (auto; rewrite <- Eq; auto).
    unfold id_exp, expv_id, expid, lp_unit. rewrite Ee. unR. reflexivity.
  - rewrite EN. exact VB.
  - congruence.
  - congruence.
  - congruence.
  - exists (ly_pf L), pr', K', M. rewrite EN, En, Ep, El, Eq in *.
    split; [exact PP|]. split; [pose proof (kw_Pinv _ _ _ _ _ KW) as X; rewrite EN in X; exact X|]. split; [exact E'|]. split; [exact EF|].
    split; [exact PV|].
    exists k, K'', dx', dy', dz', xs. rewrite Em in *. csplit; auto.
    intros t j Ht Hu. apply X4; auto. unfold mt in Ht. unfold ly_m in Em. rewrite El, Eq, Ee in Em. lia.
Qed.
Print Assumptions C14_refines_init.

(* The example of C05/C06/C10 again: it has no duplicate entries, and the scaling
   update at the point s = z = (1; 2,0,0; 1,1,1) supplies a cone that fits. *)
Lemma exG_nodup : nodup exG.
Proof.
  intros j a b [Hj Ha] [_ Hb] E.
  cbn [exG sp_n] in Hj. destruct j as [|[|j]]; [| |lia];
    cbn in Ha, Hb;
    do 8 (destruct a as [|a]; [do 8 (destruct b as [|b]; [try lia; try reflexivity; cbn in E; discriminate|]); lia|]); lia.
Qed.
Lemma exA_nodup : nodup exA.
Proof.
  intros j a b [Hj Ha] [_ Hb] E. cbn [exA sp_n] in Hj. destruct j as [|[|j]]; [| |lia];
    cbn in Ha, Hb; lia.
Qed.
Definition exs : arr R := arr_of [1; 2; 0; 0; 1; 1; 1].
Lemma exs_vec : vec exs 7 (fun i => nth i [1; 2; 0; 0; 1; 1; 1] 0).
Proof. intros i Hi. do 7 (destruct i as [|i]; [reflexivity|]). lia. Qed.
Lemma exs_margin : margin Cone.eps 1 [3%nat] (fun i => nth i [1; 2; 0; 0; 1; 1; 1] 0) (fun i => nth i [1; 2; 0; 0; 1; 1; 1] 0).
Proof.
  set (s := fun i => nth i [1; 2; 0; 0; 1; 1; 1] 0).
  assert (NS : nrm 2 (from 1 (from 1 s)) = 0).
  { unfold nrm. rewrite Rsum_0; [apply sqrt_0|]. intros i Hi. destruct i as [|[|i]]; [| |lia]; unfold from, s; cbn; ring. }
  assert (DS : det 3 (from 1 s) = 4). { unfold det. cbn [Nat.sub]. unfold dotp. cbn [Rsum]. unfold from, s. cbn [nth Nat.add]. lra. }
  unfold Cone.eps. constructor.
  - constructor.
    + intros i Hi. replace i with 0%nat by lia. cbn. lra.
    + intros k p [E|[]]. inversion E; subst. unfold int_soc. cbn [Nat.sub]. rewrite NS. unfold from, s. cbn. lra.
  - constructor.
    + intros i Hi. replace i with 0%nat by lia. cbn. lra.
    + intros k p [E|[]]. inversion E; subst. unfold int_soc. cbn [Nat.sub]. rewrite NS. unfold from, s. cbn. lra.
  - intros i Hi. replace i with 0%nat by lia. unfold s. cbn. lra.
  - intros k p [E|[]]. inversion E; subst. rewrite DS. lra.
Qed.
Example exG_scaled : forall junk, exists w C,
  @ECOS_setup ROps natural junk 2 7 1 1 [3%nat] 1 (data_of exG) (Some (data_of exA)) (arr_of [1; 1]) (arr_of [1; 1; 1; 1; 1; 1; 1]) (arr_of [1]) = Some (Some w) /\
  @fits ROps (w_C w) C /\ @ConeP.scaled ROps C.
Proof.
  intros junk. destruct (exG_setup junk) as [w E].
  destruct (@setup_inv ROps natural junk 2 7 1 1 [3%nat] 1 exG (Some exA) _ _ _ _ exG_valid natural_ok E) as (L & En & Ep & El & Eq & Ee & Em & (WS & _) & _).
  pose proof (ws_C _ _ _ _ _ WS) as CO. rewrite El, Eq, Ee in CO.
  destruct (@C10_supplied ROps (w_C w) 1 [3%nat] 1 exs exs (alloc 7) 1 _ _ CO exs_vec exs_vec ltac:(cbn; lia)) as (out & C & lam & E1 & FT & SC).
  destruct (C16_scaling (w_C w) 1 [3%nat] 1 exs exs (alloc 7) 1 _ _ CO exs_margin exs_vec exs_vec ltac:(cbn; lia)) as (C' & lam' & _ & _ & E2 & _).
  rewrite E1 in E2. injection E2 as -> _ _. exists w, C. auto.
Qed.
