(* C05, C06, C10: setup, the KKT matrix it assembles, and its refresh. *)
From Coq Require Import List Arith Bool ZArith QArith Reals Lia Lra.
From Verif Require Import Base Num.
From Verif.Model Require Import Spla Splamm Types Consts Expcone Cone Ldl Kkt Equil Preproc.
From Verif.Spec Require Import Matrix Fill KktSpec KktMatrix Shape SetupSpec.
From Verif.Proofs Require Import SplaP SplammP LdlSym KktAsm KktMat KktR ConeP ScalP KktUpd Layout EquilP Work SetupP WorkR KktAct WorkUpd.
Import ListNotations.
Open Scope nat_scope.

(* ------------------------------------------------------------------- C05 *)

(* Setup refuses every problem whose cones do not have m rows in all, whatever
   the other arguments are. *)
Theorem C05_refuses : forall `{O : Ops} amd junk n m p l q e Gd Ad c h b,
  l + list_sum q + 3 * e <> m -> ECOS_setup amd junk n m p l q e Gd Ad c h b = Some None.
Proof.
  intros O amd junk n m p l q e Gd Ad c h b H. unfold ECOS_setup.
  destruct (Nat.eqb_spec (list_sum q + l + 3 * e) m) as [E|Ne]; [lia|]. reflexivity.
Qed.
Print Assumptions C05_refuses.

(* It accepts every other problem, without touching any memory it should not
   (the result is never undefined), unless the ordering routine refuses.  The
   cones of the workspace are those of the problem. *)
Theorem C05_accepts : forall `{O : Ops} amd junk n m p l q e G0 A0 c h b,
  valid_data n m p q G0 A0 c h b -> amd_ok amd -> l + list_sum q + 3 * e = m ->
  exists r, ECOS_setup amd junk n m p l q e (data_of G0) (option_map data_of A0) c h b = Some r /\
    match r with
    | Some w => w_n w = n /\ w_m w = m /\ w_p w = p /\ w_D w = l + length q + 3 * e /\
        cone_of (w_C w) l q e /\ co_fexv (w_C w) = l + list_sum q
    | None => exists jc ir, amd (n + p + m + 2 * length q) jc ir = None
    end.
Proof.
  intros O amd junk n m p l q e G0 A0 c h b [V1 V2 V3 V4 V5 V6 V7 V8 V9] AM Em.
  pose proof (setup_wp amd junk n m p l q e G0 A0 c h b V1 V2 V3 V4 V5 V6 V7 V8 V9 AM (fun r => match r with
    | Some w => w_n w = n /\ w_m w = m /\ w_p w = p /\ w_D w = l + length q + 3 * e /\
        cone_of (w_C w) l q e /\ co_fexv (w_C w) = l + list_sum q
    | None => exists jc ir, amd (n + p + m + 2 * length q) jc ir = None
    end) Em) as W.
  apply wp_elim in W.
  - destruct W as (r & E & H). exists r. split; auto.
  - intros L En Ep El Eq Ee cols H. eexists _, _. unfold ly_nK, ly_mt, ly_m in H. rewrite En, Ep, El, Eq, Ee in H.
    replace (n + p + m + 2 * length q) with (n + p + (l + list_sum q + 3 * e + 2 * length q)) by lia. exact H.
  - intros L w En Ep El Eq Ee [WS _] _ _ _. destruct WS. unfold ly_m in *. rewrite En, Ep, El, Eq, Ee in *.
    csplit; auto; try congruence. rewrite (sh_fexv _ (co_shape _ _ _ _ ws_C)). unfold hsize.
    rewrite (co_l _ _ _ _ ws_C), (co_q _ _ _ _ ws_C). auto.
Qed.
Print Assumptions C05_accepts.

(* ------------------------------------------------------------------- C06 *)

Lemma setup_inv `{O : Ops} amd junk n m p l q e G0 A0 c h b w :
  valid_data n m p q G0 A0 c h b -> amd_ok amd ->
  ECOS_setup amd junk n m p l q e (data_of G0) (option_map data_of A0) c h b = Some (Some w) ->
  exists L, ly_n L = n /\ ly_p L = p /\ ly_l L = l /\ ly_q L = q /\ ly_e L = e /\ ly_m L = m /\ set_up_as L amd w /\
    same_pattern G0 (w_G w) /\ same_patternA A0 (w_A w).
Proof.
  intros V AM E. destruct (Nat.eq_dec (l + list_sum q + 3 * e) m) as [Em|Ne].
  2:{ rewrite C05_refuses in E by auto. discriminate. }
  destruct V as [V1 V2 V3 V4 V5 V6 V7 V8 V9].
  pose proof (setup_wp amd junk n m p l q e G0 A0 c h b V1 V2 V3 V4 V5 V6 V7 V8 V9 AM (fun r => match r with
    | Some w => exists L, ly_n L = n /\ ly_p L = p /\ ly_l L = l /\ ly_q L = q /\ ly_e L = e /\ ly_m L = m /\ set_up_as L amd w /\
    same_pattern G0 (w_G w) /\ same_patternA A0 (w_A w)
    | None => True end) Em) as W.
  unfold setup_call in W. rewrite E in W. apply W; auto.
  intros L w' En Ep El Eq Ee S _ S1 S2. exists L. csplit; auto. unfold ly_m. congruence.
Qed.

(* The permuted KKT matrix of a fresh workspace is a well-formed upper triangular
   matrix of order n + p + m + 2 (number of second-order cones) with exactly the
   announced number of entries; the recorded ordering is a permutation; and the
   recorded sign of every pivot is the one the method needs. *)
Theorem C06_structure : forall `{O : Ops} amd junk n m p l q e G0 A0 c h b w,
  valid_data n m p q G0 A0 c h b -> amd_ok amd ->
  ECOS_setup amd junk n m p l q e (data_of G0) (option_map data_of A0) c h b = Some (Some w) ->
  let K := w_KKT w in let N := n + p + m + 2 * length q in
  exists pf, is_perm N pf /\ vec (kk_Pinv K) N pf /\
    wf_sp (kk_PKPt K) /\ sp_n (kk_PKPt K) = N /\ sp_m (kk_PKPt K) = N /\ upper (kk_PKPt K) /\
    sp_nnz (kk_PKPt K) = kkt_nnz (match A0 with Some A => sp_nnz A | None => 0 end) (sp_nnz G0) n p l q e /\
    (forall i, i < N -> get (kk_Sign K) (pf i) = Some (ksign n p l q i)).
Proof.
  intros O amd junk n m p l q e G0 A0 c h b w V AM E K N.
  destruct (setup_inv _ _ _ _ _ _ _ _ _ _ _ _ _ _ V AM E) as (L & En & Ep & El & Eq & Ee & Em & (WS & _) & SG & SA).
  pose proof (ws_K _ _ _ _ _ WS) as KW. pose proof (ws_dat _ _ _ _ _ WS) as D.
  assert (H1 : forall d, In d (ly_q L) -> 1 <= d) by (rewrite Eq; apply (vd_q _ _ _ _ _ _ _ _ _ V)).
  destruct (dws_facts _ _ _ _ _ _ D) as (WGt & Gtn & Gtm & Gtz & WAt & ZAt).
  pose proof (ly_okc L (fun _ => (- f1)%fl) _ _ (kw_q _ _ _ _ _ KW) (kw_e _ _ _ _ _ KW) H1 WGt Gtn Gtm WAt) as OK.
  assert (EN : ly_nK L = N) by (unfold ly_nK, ly_mt, N; rewrite En, Ep, Em, Eq; lia).
  pose proof (ly_cols_length L (fun _ => (- f1)%fl) _ _ (kw_q _ _ _ _ _ KW) (kw_e _ _ _ _ _ KW)) as LC. rewrite EN in LC.
  pose proof (kw_perm _ _ _ _ _ KW) as P. pose proof (pd_pat _ _ _ _ P) as PT. fold K in P, PT, KW.
  exists (ly_pf L).
  assert (PN : sp_n (kk_PKPt K) = N) by (rewrite (pt_n _ _ _ _ PT); exact LC).
  csplit.
  - rewrite <- LC. exact (pt_perm _ _ _ _ PT).
  - rewrite <- EN. apply (kw_Pinv _ _ _ _ _ KW).
  - apply (pm_wf _ _ _ _ P _ OK).
  - exact PN.
  - rewrite (pt_m _ _ _ _ PT). exact LC.
  - apply (pm_upper _ _ _ _ P _ OK).
  - rewrite (pt_nnz _ _ _ _ PT), (ly_cols_count L _ _ _ _ _ _ _ _ (kw_q _ _ _ _ _ KW) (kw_e _ _ _ _ _ KW) H1 D).
    rewrite En, Ep, El, Eq, Ee. destruct SG as (_ & _ & _ & _ & ->). f_equal.
    destruct A0, (w_A w); cbn in SA; try contradiction; auto. apply SA.
  - intros i Hi. rewrite <- EN in Hi. rewrite (kw_Sign _ _ _ _ _ KW i Hi). rewrite En, Ep, El, Eq. auto.
Qed.
Print Assumptions C06_structure.

(* In exact arithmetic it represents, in the original order of rows and columns,

     [ d I   A'    G~' ]
     [ A   - d I   0   ]        d the static regularisation,
     [ G~    0     V   ]

   where A and G are the (equilibrated) matrices of the workspace, G~ is G with
   two zero rows inserted after each second-order cone, and V is the identity
   scaling. *)
Theorem C06_entries : forall amd junk n m p l q e G0 A0 c h b w,
  valid_data n m p q G0 A0 c h b -> amd_ok amd ->
  @ECOS_setup ROps amd junk n m p l q e (data_of G0) (option_map data_of A0) c h b = Some (Some w) ->
  let N := n + p + m + 2 * length q in
  exists pf, is_perm N pf /\ vec (kk_Pinv (w_KKT w)) N pf /\
    same_pattern G0 (w_G w) /\ same_patternA A0 (w_A w) /\
    forall i j, i <= j -> j < N ->
      symdense (kk_PKPt (w_KKT w)) (pf i) (pf j) =
      kkt_entry n p (denseA (w_A w)) (dense (w_G w)) (@DELTASTAT ROps) (- @DELTASTAT ROps)%R l q (unitV l q) i j.
Proof.
  intros amd junk n m p l q e G0 A0 c h b w V AM E N.
  destruct (@setup_inv ROps _ _ _ _ _ _ _ _ _ _ _ _ _ _ V AM E) as (L & En & Ep & El & Eq & Ee & Em & (WS & _) & SG & SA).
  pose proof (ws_K _ _ _ _ _ WS) as KW. pose proof (ws_dat _ _ _ _ _ WS) as D.
  assert (H1 : forall d, In d (ly_q L) -> 1 <= d) by (rewrite Eq; apply (vd_q _ _ _ _ _ _ _ _ _ V)).
  assert (EN : @ly_nK ROps L = N) by (unfold ly_nK, ly_mt, N; rewrite En, Ep, Em, Eq; lia).
  pose proof (@ly_cols_length ROps L (fun _ => (- f1)%fl) _ _ (kw_q _ _ _ _ _ KW) (kw_e _ _ _ _ _ KW)) as LC. rewrite EN in LC.
  pose proof (pd_pat _ _ _ _ (kw_perm _ _ _ _ _ KW)) as PT.
  exists (ly_pf L). csplit; auto.
  - rewrite <- LC. exact (pt_perm _ _ _ _ PT).
  - rewrite <- EN. apply (kw_Pinv _ _ _ _ _ KW).
  - intros i j Hij Hj. rewrite <- EN in Hj.
    refine (eq_trans (kws_entries L _ _ _ _ (w_A w) (w_G w) _ _ KW H1 D i j Hij Hj) _). rewrite En, Ep, El, Eq, Ee.
    apply kkt_entry_V; auto. intros r c' Hrc Hc Hnp.
    assert (Hc' : c' < l + list_sum q + 3 * e + 2 * length q).
    { rewrite EN in Hj. unfold N in Hj. unfold ly_m in Em. rewrite El, Eq, Ee in Em. lia. }
    rewrite <- (vmat_id l q e) by (auto; rewrite <- Eq; auto).
    unfold id_soc, id_exp, socv_id, expv_id, socid, expid. unR. reflexivity.
Qed.
Print Assumptions C06_entries.

(* ------------------------------------------------------------------- C10 *)

(* C has the structure of the cone of a workspace: sizes and recorded positions *)
Record fits `{O : Ops} (C0 C : cone F) : Prop := {
  ft_shape : shape C;
  ft_l : lpp C = lpp C0;
  ft_idx : lp_kkt_idx (co_lpc C) = lp_kkt_idx (co_lpc C0);
  ft_q : map so_p (co_soc C) = map so_p (co_soc C0);
  ft_Didx : map so_Didx (co_soc C) = map so_Didx (co_soc C0);
  ft_cs : map ex_colstart (co_expc C) = map ex_colstart (co_expc C0)
}.

(* the refreshes of a run, one per list element *)
Fixpoint kkt_updates `{O : Ops} (pr : arr F) (PK : arr nat) (Cs : list (cone F)) : option (arr F) :=
  match Cs with
  | [] => Some pr
  | C :: t => pr <- kkt_update pr PK C ;; kkt_updates pr PK t
  end.

Lemma fits_indexed `{O : Ops} (cols : list (col F)) len n p C0 C : fits C0 C -> indexed cols len n p C0 -> indexed cols len n p C.
Proof.
  intros [S L I Q D X] [[A1 A2] B E]. unfold hsize in *. constructor; unfold hsize, nsoc.
  - split; rewrite I; [rewrite A1; exact (eq_sym L)|]. intros j Hj. apply A2. change (j < lpp C0). rewrite <- L. exact Hj.
  - rewrite L. revert B. generalize (n + p + lpp C0) as base. generalize (lpp C0) as cs. revert Q D.
    generalize (co_soc C0) as l0. induction (co_soc C) as [|c t IH]; intros [|c0 t0] Q D cs base; try discriminate; cbn [didx_ok]; auto.
    injection Q as Q1 Q2. injection D as D1 D2. intros (H1 & H2 & H3). rewrite D1, Q1. csplit; auto. eapply IH; eauto.
  - assert (N : length (co_soc C) = length (co_soc C0)) by (rewrite <- (map_length so_p), Q, map_length; auto).
    rewrite L, Q, N. unfold nsoc in E. revert E. generalize (n + p + (lpp C0 + list_sum (map so_p (co_soc C0))) + 2 * length (co_soc C0)) as base.
    generalize (lpp C0 + list_sum (map so_p (co_soc C0))) as cs. revert X.
    generalize (co_expc C0) as l0. induction (co_expc C) as [|c t IH]; intros [|c0 t0] X cs base; try discriminate; cbn [colstart_ok]; auto.
    injection X as X1 X2. intros (H1 & H2 & H3). rewrite X1. csplit; auto. eapply IH; eauto.
Qed.
Lemma fits_cone `{O : Ops} C0 C l q e : fits C0 C -> cone_of C0 l q e -> cone_of C l q e.
Proof.
  intros [S L I Q D X] [S0 L0 Q0 E0]. constructor; auto; try congruence. unfold nexc in *.
  rewrite <- (map_length ex_colstart), X, map_length. auto.
Qed.

Lemma updates_kws `{O : Ops} L Cs : forall lpv soc ex K C0, kws L lpv soc ex K -> cone_of C0 (ly_l L) (ly_q L) (ly_e L) ->
  indexed (ly_cols L lpv soc ex) (ly_len L) (ly_n L) (ly_p L) C0 ->
  (forall C, In C Cs -> fits C0 C /\ ConeP.scaled C) ->
  exists pr', kkt_updates (sp_pr (kk_PKPt K)) (kk_PK K) Cs = Some pr' /\
    match rev Cs with
    | [] => pr' = sp_pr (kk_PKPt K)
    | C :: _ => kws L (lp_scaled C) (soc_vals C) (exp_vals C) (set_kk_PKPt K (with_pr (kk_PKPt K) pr'))
    end.
Proof.
  induction Cs as [|C t IH]; intros lpv soc ex K C0 KW CO IX H.
  - exists (sp_pr (kk_PKPt K)). split; reflexivity.
  - destruct (H C (or_introl eq_refl)) as [FT SC].
    pose proof (fits_cone _ _ _ _ _ FT CO) as CO1. pose proof (fits_indexed _ _ _ _ _ _ FT IX) as IX1.
    pose proof (kws_update_wp L lpv soc ex K C KW CO1 IX1 (scaled_ready _ SC)) as W. apply wp_elim in W. destruct W as (pr1 & E1 & L1 & KW1).
    cbn [kkt_updates]. rewrite E1. cbn [bind].
    destruct (IH _ _ _ _ C0 KW1 CO) as (pr' & E' & M').
    { eapply indexed_same; [|exact IX]. apply ly_same; try apply (kw_q _ _ _ _ _ KW) ; try apply (kw_e _ _ _ _ _ KW);
      try apply (kw_q _ _ _ _ _ KW1); try apply (kw_e _ _ _ _ _ KW1). }
    { intros C' HC'. apply H. right; auto. }
    exists pr'. split; [exact E'|]. cbn [rev]. destruct (rev t) as [|C' rt] eqn:ER; cbn [app].
    + rewrite M'. exact KW1.
    + exact M'.
Qed.

(* Any number of refreshes of the matrix of a fresh workspace, with cones whose
   scalings have been computed, succeeds; none of them changes an entry outside
   the conic block (an entry whose row or column, in the original order, is one of the first
   n + p: those of A, of G and the regularisation of x and y). *)
Theorem C10_untouched : forall `{O : Ops} amd junk n m p l q e G0 A0 c h b w Cs,
  valid_data n m p q G0 A0 c h b -> amd_ok amd ->
  ECOS_setup amd junk n m p l q e (data_of G0) (option_map data_of A0) c h b = Some (Some w) ->
  (forall C, In C Cs -> fits (w_C w) C /\ ConeP.scaled C) ->
  let P := kk_PKPt (w_KKT w) in let N := n + p + m + 2 * length q in
  exists pf pr', is_perm N pf /\ vec (kk_Pinv (w_KKT w)) N pf /\
    kkt_updates (sp_pr P) (kk_PK (w_KKT w)) Cs = Some pr' /\
    forall i j col k, i < N -> j < N -> in_col P col k -> gd 0 (sp_ir P) k = Nat.min (pf i) (pf j) -> col = Nat.max (pf i) (pf j) ->
      Nat.min i j < n + p -> get pr' k = get (sp_pr P) k.
Proof.
  intros O amd junk n m p l q e G0 A0 c h b w Cs V AM E HC P N.
  destruct (setup_inv _ _ _ _ _ _ _ _ _ _ _ _ _ _ V AM E) as (L & En & Ep & El & Eq & Ee & Em & (WS & _) & SG & SA).
  pose proof (ws_K _ _ _ _ _ WS) as KW. pose proof (ws_dat _ _ _ _ _ WS) as D.
  assert (H1 : forall d, In d (ly_q L) -> 1 <= d) by (rewrite Eq; apply (vd_q _ _ _ _ _ _ _ _ _ V)).
  destruct (dws_facts _ _ _ _ _ _ D) as (WGt & Gtn & Gtm & Gtz & WAt & ZAt).
  pose proof (ly_okc L (fun _ => (- f1)%fl) _ _ (kw_q _ _ _ _ _ KW) (kw_e _ _ _ _ _ KW) H1 WGt Gtn Gtm WAt) as OK.
  assert (EN : ly_nK L = N) by (unfold ly_nK, ly_mt, N; rewrite En, Ep, Em, Eq; lia).
  pose proof (ly_cols_length L (fun _ => (- f1)%fl) _ _ (kw_q _ _ _ _ _ KW) (kw_e _ _ _ _ _ KW)) as LC. rewrite EN in LC.
  pose proof (pd_pat _ _ _ _ (kw_perm _ _ _ _ _ KW)) as PT.
  destruct (updates_kws L Cs _ _ _ _ _ KW (ws_C _ _ _ _ _ WS) (ws_ix _ _ _ _ _ WS) HC) as (pr' & E' & M').
  exists (ly_pf L), pr'. csplit; auto.
  - rewrite <- LC. exact (pt_perm _ _ _ _ PT).
  - rewrite <- EN. apply (kw_Pinv _ _ _ _ _ KW).
  - intros i j col k Hi Hj Hk Hr Hc Hm. rewrite <- EN in Hi, Hj. destruct (rev Cs) as [|C t].
    + rewrite M'. auto.
    + apply (kept_entries L _ _ _ _ _ _ _ pr' KW OK M' i j col k); auto. rewrite En, Ep. auto.
Qed.
Print Assumptions C10_untouched.

(* In exact arithmetic the matrix after the last refresh is again the KKT matrix
   of the workspace, with a conic block V that acts on every vector as minus
   the squared scaling of the last cone (what scale2add adds, see
   C17_expansion) minus the static regularisation. *)
Theorem C10_scaling : forall amd junk n m p l q e G0 A0 c h b w Cs C,
  valid_data n m p q G0 A0 c h b -> amd_ok amd ->
  @ECOS_setup ROps amd junk n m p l q e (data_of G0) (option_map data_of A0) c h b = Some (Some w) ->
  (forall C', In C' (Cs ++ [C]) -> @fits ROps (w_C w) C' /\ @ConeP.scaled ROps C') ->
  let P := kk_PKPt (w_KKT w) in let mt := l + list_sum q + 3 * e + 2 * length q in
  exists pf pr' V, is_perm (n + p + mt) pf /\ vec (kk_Pinv (w_KKT w)) (n + p + mt) pf /\
    @kkt_updates ROps (sp_pr P) (kk_PK (w_KKT w)) (Cs ++ [C]) = Some pr' /\
    (forall i j, i <= j -> j < n + p + mt ->
      symdense (with_pr P pr') (pf i) (pf j) =
      kkt_entry n p (denseA (w_A w)) (dense (w_G w)) (@DELTASTAT ROps) (- @DELTASTAT ROps)%R l q V i j) /\
    (forall x y xf yf, vec x mt xf -> vec y mt yf -> mt <= length y ->
      exists y', @scale2add ROps x y C = Some y' /\
        vec y' mt (fun r => yf r - Rsum mt (fun s => V (Nat.min r s) (Nat.max r s) * xf s)
                                 - @DELTASTAT ROps * vreg l q r * xf r)%R).
Proof.
  intros amd junk n m p l q e G0 A0 c h b w Cs C V AM E HC P mt.
  destruct (@setup_inv ROps _ _ _ _ _ _ _ _ _ _ _ _ _ _ V AM E) as (L & En & Ep & El & Eq & Ee & Em & (WS & _) & SG & SA).
  pose proof (ws_K _ _ _ _ _ WS) as KW. pose proof (ws_dat _ _ _ _ _ WS) as D.
  assert (H1 : forall d, In d (ly_q L) -> 1 <= d) by (rewrite Eq; apply (vd_q _ _ _ _ _ _ _ _ _ V)).
  assert (EN : @ly_nK ROps L = n + p + mt) by (unfold ly_nK, ly_mt, mt, ly_m; rewrite En, Ep, El, Eq, Ee; lia).
  pose proof (@ly_cols_length ROps L (fun _ => (- f1)%fl) _ _ (kw_q _ _ _ _ _ KW) (kw_e _ _ _ _ _ KW)) as LC. rewrite EN in LC.
  pose proof (pd_pat _ _ _ _ (kw_perm _ _ _ _ _ KW)) as PT.
  destruct (@updates_kws ROps L (Cs ++ [C]) _ _ _ _ _ KW (ws_C _ _ _ _ _ WS) (ws_ix _ _ _ _ _ WS) HC) as (pr' & E' & M').
  rewrite rev_unit in M'.
  destruct (HC C) as [FT SC]; [apply in_or_app; right; left; auto|].
  pose proof (fits_cone _ _ _ _ _ FT (ws_C _ _ _ _ _ WS)) as CO.
  assert (D' : @dws ROps L (@ly_cols ROps L (@lp_scaled ROps C) (@soc_vals ROps C) (@exp_vals ROps C)) (w_A w) (w_G w) (w_AtoK w) (w_GtoK w)).
  { eapply dws_same; [|exact D]. apply ly_same; try apply (kw_q _ _ _ _ _ KW) ; try apply (kw_e _ _ _ _ _ KW);
      try apply (kw_q _ _ _ _ _ M'); try apply (kw_e _ _ _ _ _ M'). }
  exists (ly_pf L), pr', (vmat_of C). csplit; auto.
  - rewrite <- LC. exact (pt_perm _ _ _ _ PT).
  - rewrite <- EN. apply (kw_Pinv _ _ _ _ _ KW).
  - intros i j Hij Hj. rewrite <- EN in Hj.
    refine (eq_trans (kws_entries L _ _ _ _ (w_A w) (w_G w) _ _ M' H1 D' i j Hij Hj) _). rewrite En, Ep, El, Eq.
    unfold vmat_of. rewrite (co_l _ _ _ _ CO), El. reflexivity.
  - intros x y xf yf Hx Hy Hl. rewrite El, Eq, Ee in CO.
    exact (conic_scale2add C l q e x y xf yf CO SC Hx Hy Hl).
Qed.
Print Assumptions C10_scaling.

(* The first refresh of a run (kkt_init) writes the identity scaling into the
   linear and second-order blocks, and leaves the blocks of the exponential cones as
   the last refresh of an earlier run left them. *)
Theorem C10_init : forall amd junk n m p l q e G0 A0 c h b w Cs C C1,
  valid_data n m p q G0 A0 c h b -> amd_ok amd ->
  @ECOS_setup ROps amd junk n m p l q e (data_of G0) (option_map data_of A0) c h b = Some (Some w) ->
  (forall C', In C' (Cs ++ [C]) -> @fits ROps (w_C w) C' /\ @ConeP.scaled ROps C') -> @fits ROps (w_C w) C1 ->
  let P := kk_PKPt (w_KKT w) in let mt := l + list_sum q + 3 * e + 2 * length q in let e0 := l + list_sum q + 2 * length q in
  exists pf pr' pr'' V, is_perm (n + p + mt) pf /\ vec (kk_Pinv (w_KKT w)) (n + p + mt) pf /\
    @kkt_updates ROps (sp_pr P) (kk_PK (w_KKT w)) (Cs ++ [C]) = Some pr' /\
    @kkt_init ROps pr' (kk_PK (w_KKT w)) C1 = Some pr'' /\
    (forall i j, i <= j -> j < n + p + mt ->
      symdense (with_pr P pr'') (pf i) (pf j) =
      kkt_entry n p (denseA (w_A w)) (dense (w_G w)) (@DELTASTAT ROps) (- @DELTASTAT ROps)%R l q V i j) /\
    (forall r s, r <= s -> s < e0 -> V r s = unitV l q r s) /\
    (forall r s, r < e0 -> e0 <= s -> V r s = 0%R) /\
    (forall i j, e0 <= i -> i <= j -> j < mt ->
      V i j = symdense (with_pr P pr') (pf (n + p + i)) (pf (n + p + j))).
Proof.
  intros amd junk n m p l q e G0 A0 c h b w Cs C C1 V AM E HC F1 P mt e0.
  destruct (@setup_inv ROps _ _ _ _ _ _ _ _ _ _ _ _ _ _ V AM E) as (L & En & Ep & El & Eq & Ee & Em & (WS & _) & SG & SA).
  pose proof (ws_K _ _ _ _ _ WS) as KW. pose proof (ws_dat _ _ _ _ _ WS) as D.
  assert (H1 : forall d, In d (ly_q L) -> 1 <= d) by (rewrite Eq; apply (vd_q _ _ _ _ _ _ _ _ _ V)).
  assert (EN : @ly_nK ROps L = n + p + mt) by (unfold ly_nK, ly_mt, mt, ly_m; rewrite En, Ep, El, Eq, Ee; lia).
  pose proof (@ly_cols_length ROps L (fun _ => (- f1)%fl) _ _ (kw_q _ _ _ _ _ KW) (kw_e _ _ _ _ _ KW)) as LC. rewrite EN in LC.
  pose proof (pd_pat _ _ _ _ (kw_perm _ _ _ _ _ KW)) as PT.
  destruct (@updates_kws ROps L (Cs ++ [C]) _ _ _ _ _ KW (ws_C _ _ _ _ _ WS) (ws_ix _ _ _ _ _ WS) HC) as (pr' & E' & M').
  rewrite rev_unit in M'.
  pose proof (fits_cone _ _ _ _ _ F1 (ws_C _ _ _ _ _ WS)) as CO1.
  destruct (HC C) as [FT SC]; [apply in_or_app; right; left; auto|].
  pose proof (fits_cone _ _ _ _ _ FT (ws_C _ _ _ _ _ WS)) as CO.
  assert (D' : @dws ROps L (@ly_cols ROps L (@lp_scaled ROps C) (@soc_vals ROps C) (@exp_vals ROps C)) (w_A w) (w_G w) (w_AtoK w) (w_GtoK w)).
  { eapply dws_same; [|exact D]. apply ly_same; try apply (kw_q _ _ _ _ _ KW) ; try apply (kw_e _ _ _ _ _ KW);
      try apply (kw_q _ _ _ _ _ M'); try apply (kw_e _ _ _ _ _ M'). }
  assert (IX1 : @indexed ROps (@ly_cols ROps L (@lp_scaled ROps C) (@soc_vals ROps C) (@exp_vals ROps C)) (@ly_len ROps L) (ly_n L) (ly_p L) C1).
  { eapply indexed_same; [|exact (fits_indexed _ _ _ _ _ _ F1 (ws_ix _ _ _ _ _ WS))]. apply ly_same; try apply (kw_q _ _ _ _ _ KW) ; try apply (kw_e _ _ _ _ _ KW);
      try apply (kw_q _ _ _ _ _ M'); try apply (kw_e _ _ _ _ _ M'). }
  pose proof (@kws_init_wp ROps L _ _ _ _ C1 M' CO1 IX1) as W. apply wp_elim in W. destruct W as (pr'' & E'' & _ & M'').
  cbn [set_kk_PKPt kk_PKPt kk_PK with_pr sp_pr] in E''.
  assert (D'' : @dws ROps L (@ly_cols ROps L (@lp_unit ROps) (@soc_units ROps C1) (@exp_vals ROps C)) (w_A w) (w_G w) (w_AtoK w) (w_GtoK w)).
  { eapply dws_same; [|exact D']. apply ly_same; try apply (kw_q _ _ _ _ _ M'') ; try apply (kw_e _ _ _ _ _ M'');
      try apply (kw_q _ _ _ _ _ M'); try apply (kw_e _ _ _ _ _ M'). }
  assert (US : @soc_units ROps C1 = map (fun d => (d, socid)) q).
  { unfold soc_units. rewrite <- Eq, <- (co_q _ _ _ _ CO1), map_map. apply map_ext. intros k. f_equal.
    unfold soc_unit, soc_written, socid. unR. f_equal; [apply FunctionalExtensionality.functional_extensionality; intros j; destruct (Nat.eqb j 0); auto|
      apply FunctionalExtensionality.functional_extensionality; intros j; destruct (Nat.eqb j 0); auto]. }
  set (Vm := vmat l (@lp_unit ROps) (map (fun d => (d, socid)) q) (@exp_vals ROps C)).
  exists (ly_pf L), pr', pr'', Vm. csplit; auto.
  - rewrite <- LC. exact (pt_perm _ _ _ _ PT).
  - rewrite <- EN. apply (kw_Pinv _ _ _ _ _ KW).
  - intros i j Hij Hj. rewrite <- EN in Hj.
    refine (eq_trans (kws_entries L _ _ _ _ (w_A w) (w_G w) _ _ M'' H1 D'' i j Hij Hj) _). rewrite En, Ep, El, Eq, US. reflexivity.
  - intros r s Hrs Hs. rewrite <- (vmat_id l q e) by (auto; try lia; rewrite <- Eq; auto).
    unfold Vm, vmat. rewrite map_map, map_id, map_length. destruct (Nat.ltb_spec s l); [unfold lp_unit; unR; reflexivity|].
    destruct (Nat.ltb_spec s (l + (list_sum q + 2 * length q))); [reflexivity|]. unfold e0 in Hs. lia.
  - intros r s Hr Hs. unfold Vm, vmat, e0 in *. rewrite map_map, map_id, map_length.
    rewrite (proj2 (Nat.ltb_ge s l)) by lia. rewrite (proj2 (Nat.ltb_ge s _)) by lia. rewrite (proj2 (Nat.ltb_lt r _)) by lia. auto.
  - intros i j Hi Hij Hj.
    refine (eq_trans _ (eq_sym (kws_entries L _ _ _ _ (w_A w) (w_G w) _ _ M' H1 D' (n + p + i) (n + p + j) ltac:(lia) ltac:(rewrite EN; lia)))).
    rewrite En, Ep, El, Eq. unfold kkt_entry.
    rewrite (proj2 (Nat.ltb_ge (n + p + j) n)), (proj2 (Nat.ltb_ge (n + p + j) (n + p))), (proj2 (Nat.ltb_ge (n + p + i) n)), (proj2 (Nat.ltb_ge (n + p + i) (n + p))) by lia.
    replace (n + p + i - (n + p)) with i by lia. replace (n + p + j - (n + p)) with j by lia.
    assert (MQ : map fst (@soc_vals ROps C) = q) by exact (eq_trans (kw_q _ _ _ _ _ M') Eq).
    assert (LQ : length (@soc_vals ROps C) = length q) by exact (eq_trans (eq_sym (map_length _ _)) (f_equal (@length nat) MQ)).
    unfold Vm, vmat, e0 in *. change (@F ROps) with R in *. rewrite map_map, map_id, map_length. unfold F in *. cbn [ROps] in MQ, LQ |- *. rewrite MQ, LQ.
    rewrite (proj2 (Nat.ltb_ge j l)) by lia. rewrite (proj2 (Nat.ltb_ge j _)) by lia. rewrite (proj2 (Nat.ltb_ge i _)) by lia. reflexivity.
Qed.
Print Assumptions C10_init.

(* The cones the solver passes meet these conditions: updating the scalings of
   a cone from any slack vectors gives such a cone, or reports a point outside. *)
Theorem C10_supplied : forall `{O : Ops} C l q e s z lambda mu sf zf, cone_of C l q e ->
  vec s (l + list_sum q + 3 * e) sf -> vec z (l + list_sum q + 3 * e) zf -> l + list_sum q <= length lambda ->
  exists out C' lambda', updateScalings C s z lambda mu = Some (out, C', lambda') /\ fits C C' /\
    (out = false -> ConeP.scaled C').
Proof.
  intros O C l q e s z lambda mu sf zf [SH EL EQ EE] Hs Hz Hl.
  assert (HS : hsize C = l + list_sum q) by (unfold hsize; rewrite EL, EQ; auto).
  assert (MS : msize C = l + list_sum q + 3 * e) by (unfold msize; rewrite HS, EE; auto).
  rewrite <- MS in *. rewrite <- HS in *.
  destruct (updateScalings_eq C s z sf zf lambda mu SH Hs Hz Hl) as (C' & lambda' & E & SIM & _ & _ & U).
  eexists _, C', lambda'. split; [exact E|]. split.
  - constructor.
    + eapply csim_shape; eauto.
    + apply csim_lpp; auto.
    + apply (cs_idx _ _ SIM).
    + apply csim_socs; auto.
    + destruct SIM as [_ _ _ _ S _ _]. clear -S. induction S as [|c c' t t' (_ & D & _) ? IH]; cbn; congruence.
    + destruct SIM as [_ _ _ _ _ S _]. clear -S. induction S as [|c c' t t' (D & _) ? IH]; cbn; congruence.
  - intros H. eapply updated_scaled. apply U. exact H.
Qed.
Print Assumptions C10_supplied.

(* A problem with an equality, a linear constraint, a second-order cone of
   dimension 3 and an exponential cone, the natural ordering: all hypotheses of
   C05, C06 and C10 hold. *)
Definition exG : spmat R := mkSp (arr_of [0; 4; 8]) (arr_of [0; 2; 4; 6; 1; 3; 5; 6]) (arr_of [-1; 2; 3; -4; -1; 5; 6; 7]%R) 2 7 8.
Definition exA : spmat R := mkSp (arr_of [0; 1; 2]) (arr_of [0; 0]) (arr_of [1; 1]%R) 2 1 2.
Definition natural (n : nat) (jc ir : arr nat) : option (arr nat) := Some (arr_fun n (fun i => i)).

Lemma exG_wf : wf_sp exG.
Proof.
  constructor; cbn [exG sp_n sp_m sp_nnz sp_jc sp_ir sp_pr].
  - intros i Hi. do 3 (destruct i as [|i]; [reflexivity|]). lia.
  - reflexivity.
  - intros j Hj. do 2 (destruct j as [|j]; [vm_compute; lia|]). lia.
  - reflexivity.
  - intros i Hi. do 8 (destruct i as [|i]; [reflexivity|]). lia.
  - intros i Hi. do 8 (destruct i as [|i]; [vm_compute; lia|]). lia.
  - intros i Hi. do 8 (destruct i as [|i]; [eexists; reflexivity|]). lia.
Qed.
Lemma exA_wf : wf_sp exA.
Proof.
  constructor; cbn [exA sp_n sp_m sp_nnz sp_jc sp_ir sp_pr].
  - intros i Hi. do 3 (destruct i as [|i]; [reflexivity|]). lia.
  - reflexivity.
  - intros j Hj. do 2 (destruct j as [|j]; [vm_compute; lia|]). lia.
  - reflexivity.
  - intros i Hi. do 2 (destruct i as [|i]; [reflexivity|]). lia.
  - intros i Hi. do 2 (destruct i as [|i]; [vm_compute; lia|]). lia.
  - intros i Hi. do 2 (destruct i as [|i]; [eexists; reflexivity|]). lia.
Qed.
Example exG_valid : valid_data 2 7 1 [3] exG (Some exA) (arr_of [1; 1]%R) (arr_of [1; 1; 1; 1; 1; 1; 1]%R) (arr_of [1%R]).
Proof.
  constructor; try reflexivity.
  - exact exG_wf.
  - left; discriminate.
  - split; [exact exA_wf|]. split; [reflexivity|]. split; [reflexivity|]. left; discriminate.
  - intros d [<-|[]]. lia.
  - intros i Hi. do 2 (destruct i as [|i]; [eexists; reflexivity|]). lia.
  - intros i Hi. do 7 (destruct i as [|i]; [eexists; reflexivity|]). lia.
  - intros i Hi. do 1 (destruct i as [|i]; [eexists; reflexivity|]). lia.
Qed.
Example natural_ok : amd_ok natural.
Proof.
  intros n jc ir P E. injection E as <-. exists (fun i => i). split.
  - split; auto.
  - intros i Hi. apply get_arr_fun; auto.
Qed.
Example exG_setup : forall junk, exists w,
  @ECOS_setup ROps natural junk 2 7 1 1 [3] 1 (data_of exG) (Some (data_of exA)) (arr_of [1; 1]%R) (arr_of [1; 1; 1; 1; 1; 1; 1]%R) (arr_of [1%R]) = Some (Some w).
Proof.
  intros junk. destruct (@C05_accepts ROps natural junk 2 7 1 1 [3] 1 exG (Some exA) _ _ _ exG_valid natural_ok eq_refl) as ([w|] & E & H).
  - exists w. exact E.
  - destruct H as (jc & ir & H). discriminate.
Qed.
