(* Refreshing the scaling block of a workspace's KKT matrix keeps its layout. *)
From Coq Require Import List Arith Bool ZArith Lia.
From Verif Require Import Base Num.
From Verif.Model Require Import Spla Splamm Types Consts Expcone Cone Ldl Kkt Equil Preproc.
From Verif.Spec Require Import Matrix Fill KktSpec Shape SetupSpec.
From Verif.Proofs Require Import SplaP SplammP LdlSym KktAsm KktMat ConeP KktUpd Layout EquilP Work.
Import ListNotations.
Open Scope nat_scope.

Section WorkUpd.
Context `{O : Ops}.

Lemma scaled_ready C : ConeP.scaled C -> kready C.
Proof.
  intros [W V S EV EG]. constructor.
  - intros i Hi. eexists. apply V; auto.
  - intros c Hc. destruct (S c Hc). eexists _, _, _, _, _. csplit; eauto.
  - intros c Hc i Hi. destruct (S c Hc). eexists. apply ss_q; auto.
  - intros e He i Hi. eexists. apply EV; auto.
Qed.

Lemma ly_same L lpv soc ex lpv' soc' ex' : map fst soc = ly_q L -> map fst soc' = ly_q L -> length ex = ly_e L -> length ex' = ly_e L ->
  same_pat (ly_cols L lpv soc ex) (ly_cols L lpv' soc' ex').
Proof. intros. apply kkt_cols_pat; auto; congruence. Qed.

Lemma indexed_same (a b : list (col F)) len n p C : same_pat a b -> indexed a len n p C -> indexed b len n p C.
Proof.
  intros H [[L1 L2] S E]. constructor.
  - split; auto. intros j Hj. rewrite <- (same_pat_start _ _ _ H). auto.
  - revert S. generalize (n + p + lpp C) as base. generalize (lpp C) as cs. induction (co_soc C) as [|c t IH]; cbn; auto.
    intros cs base (A & B & D). csplit; auto. intros j Hj. rewrite <- (same_pat_start _ _ _ H). auto.
  - revert E. generalize (n + p + hsize C + 2 * nsoc C) as base. generalize (hsize C) as cs. induction (co_expc C) as [|c t IH]; cbn [colstart_ok]; auto.
    intros cs base (A & B & D). csplit; auto. intros j Hj. rewrite <- (same_pat_start _ _ _ H). auto.
Qed.

Lemma dws_same L (a b : list (col F)) A G AtoK GtoK : same_pat a b -> dws L a A G AtoK GtoK -> dws L b A G AtoK GtoK.
Proof.
  intros H [D1 D2 D3 D4 D5 D6 [D7 D8]]. constructor; auto.
  - destruct A as [A|]; auto. destruct D6 as [X Y]. split; auto. intros k Hk. rewrite <- (same_pat_start _ _ _ H). auto.
  - split; auto. intros k Hk. rewrite <- (same_pat_start _ _ _ H). auto.
Qed.

Lemma kws_pr L lpv soc ex lpv' soc' ex' K pr' : kws L lpv soc ex K -> map fst soc' = ly_q L -> length ex' = ly_e L ->
  kv (concat (ly_cols L lpv' soc' ex')) (kk_PK K) pr' ->
  kws L lpv' soc' ex' (set_kk_PKPt K (with_pr (kk_PKPt K) pr')).
Proof.
  intros KW Hq He KV. pose proof (ly_same L lpv soc ex lpv' soc' ex' (kw_q _ _ _ _ _ KW) Hq (kw_e _ _ _ _ _ KW) He) as SP.
  pose proof (permuted_pr _ _ _ _ _ pr' SP (pd_pat _ _ _ _ (kw_perm _ _ _ _ _ KW)) KV) as P.
  destruct KW. constructor; cbn [set_kk_PKPt kk_PKPt kk_PK kk_Pinv kk_Sign kk_Parent kk_L kk_D kk_work1 kk_work2 kk_work3 kk_work4 kk_work5 kk_work6
     kk_RHS1 kk_RHS2 kk_dx1 kk_dx2 kk_dy1 kk_dy2 kk_dz1 kk_dz2 kk_Pattern kk_Flag kk_Lnz]; auto.
  destruct kw_et as [E1 E2 E3 E4 E5]. constructor; assumption.
Qed.

Definition soc_vals (C : cone F) : list (nat * socv F) := map (fun c => (so_p c, soc_scaled c)) (co_soc C).
Definition exp_vals (C : cone F) : list (expv F) := map exp_scaled (co_expc C).
Definition soc_units (C : cone F) : list (nat * socv F) := map (fun c => (so_p c, soc_unit)) (co_soc C).

Lemma kws_update_wp L lpv soc ex K C : kws L lpv soc ex K -> cone_of C (ly_l L) (ly_q L) (ly_e L) ->
  indexed (ly_cols L lpv soc ex) (ly_len L) (ly_n L) (ly_p L) C -> kready C ->
  wp (kkt_update (sp_pr (kk_PKPt K)) (kk_PK K) C) (fun pr' => length pr' = length (sp_pr (kk_PKPt K)) /\
    kws L (lp_scaled C) (soc_vals C) (exp_vals C) (set_kk_PKPt K (with_pr (kk_PKPt K) pr'))).
Proof.
  intros KW [SH EL EQ EE] IX KR. pose proof (kw_q _ _ _ _ _ KW) as Kq. pose proof (kw_e _ _ _ _ _ KW) as Ke.
  pose proof (pd_val _ _ _ _ (kw_perm _ _ _ _ _ KW)) as KV. unfold ly_cols in KV. rewrite <- EL in KV.
  eapply (kkt_update_wp _ _ _ _ _ _ lpv soc ex C _ _ (ly_cols L lpv soc ex)); eauto; try congruence.
  - apply (sh_pos _ SH).
  - unfold ly_cols. rewrite EL. auto.
  - intros pr' LP KV'. split; auto. eapply kws_pr; eauto.
    + unfold soc_vals. rewrite map_map. cbn. auto.
    + unfold exp_vals. rewrite map_length. auto.
    + unfold ly_cols. rewrite <- EL. exact KV'.
Qed.

Lemma kws_init_wp L lpv soc ex K C : kws L lpv soc ex K -> cone_of C (ly_l L) (ly_q L) (ly_e L) ->
  indexed (ly_cols L lpv soc ex) (ly_len L) (ly_n L) (ly_p L) C ->
  wp (kkt_init (sp_pr (kk_PKPt K)) (kk_PK K) C) (fun pr' => length pr' = length (sp_pr (kk_PKPt K)) /\
    kws L lp_unit (soc_units C) ex (set_kk_PKPt K (with_pr (kk_PKPt K) pr'))).
Proof.
  intros KW [SH EL EQ EE] IX. pose proof (kw_q _ _ _ _ _ KW) as Kq. pose proof (kw_e _ _ _ _ _ KW) as Ke.
  pose proof (pd_val _ _ _ _ (kw_perm _ _ _ _ _ KW)) as KV. unfold ly_cols in KV. rewrite <- EL in KV.
  eapply (kkt_init_wp _ _ _ _ _ _ lpv soc ex C _ _ (ly_cols L lpv soc ex)); eauto; try congruence.
  - apply (sh_pos _ SH).
  - unfold ly_cols. rewrite EL. auto.
  - intros pr' LP KV'. split; auto. eapply kws_pr; eauto.
    + unfold soc_units. rewrite map_map. cbn. auto.
    + unfold ly_cols. rewrite <- EL. exact KV'.
Qed.

(* ---- what an update leaves alone ---- *)
Definition keeps (N : nat) (e e' : nat * F) : Prop := fst e = fst e' /\ (fst e < N -> snd e = snd e').
Definition keepc (N : nat) : list (col F) -> list (col F) -> Prop := Forall2 (Forall2 (keeps N)).

Lemma keeps_refl N x : Forall2 (keeps N) x x.
Proof. induction x; constructor; auto. split; auto. Qed.
Lemma keepc_refl N x : keepc N x x.
Proof. induction x; constructor; auto. apply keeps_refl. Qed.
Lemma keeps_map {A} N (f g : A -> nat * F) l : (forall x, In x l -> keeps N (f x) (g x)) -> Forall2 (keeps N) (map f l) (map g l).
Proof. induction l; intros H; constructor; [apply H; left; auto|apply IHl; intros; apply H; right; auto]. Qed.
Lemma keepc_map {A} N (f g : A -> col F) l : (forall x, In x l -> Forall2 (keeps N) (f x) (g x)) -> keepc N (map f l) (map g l).
Proof. induction l; intros H; constructor; [apply H; left; auto|apply IHl; intros; apply H; right; auto]. Qed.
Lemma keeps_out N r (v v' : F) : N <= r -> keeps N (r, v) (r, v').
Proof. intros H. split; cbn; [auto|lia]. Qed.
Lemma keeps_out1 N r (v v' : F) : N <= r -> Forall2 (keeps N) [(r, v)] [(r, v')].
Proof. intros H. constructor; [apply keeps_out; auto|constructor]. Qed.

Lemma keepc_soc N (Gc : nat -> col F) soc : forall soc' base cs, map fst soc = map fst soc' -> N <= base ->
  keepc N (soc_cols Gc base cs soc) (soc_cols Gc base cs soc').
Proof.
  induction soc as [|[q v] t IH]; intros [|[q' v'] t'] base cs E H; try discriminate; [constructor|].
  injection E as -> E. cbn [soc_cols]. apply Forall2_app; [|apply IH; [auto|lia]].
  unfold soc_block. apply Forall2_app; [|constructor; [|constructor; [|constructor]]].
  - apply keepc_map. intros j _. apply Forall2_app; [apply keeps_refl|apply keeps_out1; lia].
  - apply Forall2_app; [apply keeps_map; intros; apply keeps_out; lia|apply keeps_out1; lia].
  - apply Forall2_app; [apply keeps_map; intros; apply keeps_out; lia|apply keeps_out1; lia].
Qed.

Lemma keepc_exp N (Gc : nat -> col F) ex : forall ex' base cs, length ex = length ex' -> N <= base ->
  keepc N (exp_cols Gc base cs ex) (exp_cols Gc base cs ex').
Proof.
  induction ex as [|v t IH]; intros [|v' t'] base cs E H; try discriminate; [constructor|].
  injection E as E. cbn [exp_cols]. apply Forall2_app; [|apply IH; [auto|lia]].
  unfold exp_block. apply keepc_map. intros j _. apply Forall2_app; [apply keeps_refl|].
  apply Forall2_app; [apply keeps_map; intros; apply keeps_out; lia|apply keeps_out1; lia].
Qed.

Lemma keepc_cols L lpv soc ex lpv' soc' ex' : map fst soc = ly_q L -> map fst soc' = ly_q L -> length ex = ly_e L -> length ex' = ly_e L ->
  keepc (ly_n L + ly_p L) (ly_cols L lpv soc ex) (ly_cols L lpv' soc' ex').
Proof.
  intros Q Q' E E'. unfold ly_cols, kkt_cols. rewrite Q, Q'.
  assert (EL : length soc = length soc') by (rewrite <- (map_length fst soc), <- (map_length fst soc'); congruence). rewrite EL.
  apply Forall2_app; [apply keepc_refl|]. apply Forall2_app; [apply keepc_refl|]. apply Forall2_app; [|apply Forall2_app].
  - unfold lp_cols. apply keepc_map. intros j _. apply Forall2_app; [apply keeps_refl|apply keeps_out1; lia].
  - apply keepc_soc; [congruence|lia].
  - apply keepc_exp; [congruence|lia].
Qed.

Lemma keepc_nth N a b t e : keepc N a b -> nth_error (concat a) t = Some e -> fst e < N -> nth_error (concat b) t = Some e.
Proof.
  intros H. assert (H' : Forall2 (keeps N) (concat a) (concat b)).
  { induction H; cbn; [constructor|]. apply Forall2_app; auto. }
  clear H. revert t. induction H' as [|x y a' b' H1 H2 IH]; intros [|t] E Hf; cbn in *; try discriminate.
  - injection E as ->. destruct H1 as [H1 H3]. rewrite <- (surjective_pairing y) at 1 || idtac. destruct e, y; cbn in *. subst. rewrite H3; auto.
  - auto.
Qed.

Lemma kept_entries L lpv soc ex lpv' soc' ex' K pr' : kws L lpv soc ex K -> allc (okc False) 0 (ly_cols L lpv soc ex) ->
  kws L lpv' soc' ex' (set_kk_PKPt K (with_pr (kk_PKPt K) pr')) ->
  forall i j b k, i < ly_nK L -> j < ly_nK L -> in_col (kk_PKPt K) b k ->
    gd 0 (sp_ir (kk_PKPt K)) k = Nat.min (ly_pf L i) (ly_pf L j) -> b = Nat.max (ly_pf L i) (ly_pf L j) ->
    Nat.min i j < ly_n L + ly_p L -> get pr' k = get (sp_pr (kk_PKPt K)) k.
Proof.
  intros KW OK KW' i j b k Hi Hj Hb Er Ec Hm.
  pose proof (kw_perm _ _ _ _ _ KW) as P. pose proof (kw_perm _ _ _ _ _ KW') as P'.
  pose proof (pm_wf _ _ _ _ P _ OK) as WP.
  destruct (pm_surj _ _ _ _ P _ OK k (in_col_nnz _ _ _ WP Hb)) as (c & t & Ht & Et).
  destruct (pm_ent _ _ _ _ P _ OK c t Ht) as (E1 & E2 & _). rewrite Et in E1, E2.
  pose proof (pm_in _ _ _ _ P _ OK c t Ht) as Hin. rewrite Et in Hin.
  pose proof (in_col_unique _ _ _ _ WP Hb Hin) as Eb.
  rewrite (gd_get _ _ _ _ E2) in Er.
  pose proof (pm_wfM _ _ OK) as WM. pose proof (pm_upM _ _ OK c t Ht) as UP.
  pose proof (in_col_nnz _ _ _ WM Ht) as Hn. pose proof (ly_cols_length L lpv soc ex (kw_q _ _ _ _ _ KW) (kw_e _ _ _ _ _ KW)) as LC.
  set (r := gd 0 (sp_ir (mat_of (ly_cols L lpv soc ex))) t) in *.
  destruct Ht as [Hc Ht]. cbn [mat_of sp_n] in Hc. rewrite LC in Hc.
  destruct (pt_perm _ _ _ _ (pd_pat _ _ _ _ P)) as [_ PI]. rewrite LC in PI.
  assert (Hr : r < ly_n L + ly_p L).
  { assert (X : (ly_pf L r = ly_pf L i /\ ly_pf L c = ly_pf L j) \/ (ly_pf L r = ly_pf L j /\ ly_pf L c = ly_pf L i)) by lia.
    destruct X as [[X Y]|[X Y]]; apply PI in X; apply PI in Y; lia. }
  cbn [mat_of sp_nnz] in Hn. destruct (nth_error (concat (ly_cols L lpv soc ex)) t) as [e|] eqn:En; [|apply nth_error_None in En; lia].
  assert (Fe : fst e = r).
  { unfold r. cbn [mat_of sp_ir]. unfold gd. rewrite get_arr_of, nth_error_map, En. auto. }
  pose proof (keepc_nth _ _ _ _ _ (keepc_cols L lpv soc ex lpv' soc' ex' (kw_q _ _ _ _ _ KW) (kw_q _ _ _ _ _ KW') (kw_e _ _ _ _ _ KW) (kw_e _ _ _ _ _ KW')) En ltac:(lia)) as En'.
  destruct (kv_val _ _ _ (pd_val _ _ _ _ P) t e En) as (k1 & A1 & A2). destruct (kv_val _ _ _ (pd_val _ _ _ _ P') t e En') as (k2 & B1 & B2).
  cbn [set_kk_PKPt kk_PK kk_PKPt with_pr sp_pr] in B1, B2. congruence.
Qed.
End WorkUpd.
