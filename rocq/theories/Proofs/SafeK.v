(* Factorisation, solve, residual and iterative refinement of kkt.c on a
   workspace: they return, and what they write.  Arithmetic is arbitrary. *)
From Coq Require Import List Arith Bool ZArith Lia.
From Verif Require Import Base Num.
From Verif.Model Require Import Spla Splamm Types Consts Expcone Cone Ldl Kkt Equil Preproc.
From Verif.Spec Require Import Matrix Fill KktSpec KktMatrix Shape SetupSpec.
From Verif.Proofs Require Import SplaP LoopLib SplammP LdlSym LdlNum KktAsm KktMat ConeP Scal2P KktUpd Layout EquilP Work WorkUpd SafeLib Stretch.
Import ListNotations.
Open Scope nat_scope.

Section SafeK.
Context `{O : Ops}.

(* ---------------------------------------------------------------- LDL *)
Section Tri.
Context (Lm : spmat F) (W : wf_sp Lm) (SQ : sp_m Lm = sp_n Lm).
Notation n := (sp_n Lm).

Lemma LDL_lsolve_safe X : length X = n -> full X n ->
  exists X', LDL_lsolve n X (sp_jc Lm) (sp_ir Lm) (sp_pr Lm) = Some X' /\ length X' = n /\ full X' n.
Proof.
  intros LX FX. apply wp_elim. unfold LDL_lsolve.
  apply (wp_for (fun _ X' => length X' = n /\ full X' n)); [lia|auto| |auto].
  intros j X1 Hj [L1 F1]. rewrite (wf_jc Lm W) by lia. cbn [bind]. rewrite (wf_jc Lm W) by lia. cbn [bind].
  apply (wp_for (fun _ X' => length X' = n /\ full X' n)); [apply (wf_mono Lm W); lia|auto| |auto].
  intros p X2 Hp [L2 F2]. assert (Ic : in_col Lm j p) by (split; [lia|auto]).
  pose proof (in_col_nnz Lm j p W Ic) as Hn. pose proof (wf_row Lm W p Hn) as Hr. rewrite SQ in Hr.
  rewrite (wf_ir Lm W) by auto. cbn [bind]. destruct (F2 _ Hr) as [xi Ei]. rewrite Ei. cbn [bind].
  destruct (wf_pr Lm W p Hn) as [l El]. rewrite El. cbn [bind]. destruct (F2 j) as [xj Ej]; [lia|]. rewrite Ej. cbn [bind].
  apply wp_set; [lia|]. intros X3 L3 G3. split; [lia|]. eapply full_set; eauto.
Qed.

Lemma LDL_ltsolve_safe X : length X = n -> full X n ->
  exists X', LDL_ltsolve n X (sp_jc Lm) (sp_ir Lm) (sp_pr Lm) = Some X' /\ length X' = n /\ full X' n.
Proof.
  intros LX FX. apply wp_elim. unfold LDL_ltsolve.
  apply (wp_for_down (fun _ X' => length X' = n /\ full X' n)); [auto| |auto].
  intros j X1 Hj [L1 F1]. rewrite (wf_jc Lm W) by lia. cbn [bind]. rewrite (wf_jc Lm W) by lia. cbn [bind].
  apply (wp_for (fun _ X' => length X' = n /\ full X' n)); [apply (wf_mono Lm W); lia|auto| |auto].
  intros p X2 Hp [L2 F2]. assert (Ic : in_col Lm j p) by (split; [lia|auto]).
  pose proof (in_col_nnz Lm j p W Ic) as Hn. pose proof (wf_row Lm W p Hn) as Hr. rewrite SQ in Hr.
  destruct (F2 j) as [xj Ej]; [lia|]. rewrite Ej. cbn [bind]. destruct (wf_pr Lm W p Hn) as [l El]. rewrite El. cbn [bind].
  rewrite (wf_ir Lm W) by auto. cbn [bind]. destruct (F2 _ Hr) as [xi Ei]. rewrite Ei. cbn [bind].
  apply wp_set; [lia|]. intros X3 L3 G3. split; [lia|]. eapply full_set; eauto.
Qed.
End Tri.

(* the factors are there *)
Record factored (N : nat) (K : kkt F) : Prop := {
  fa_L : wf_sp (kk_L K);
  fa_n : sp_n (kk_L K) = N;
  fa_m : sp_m (kk_L K) = N;
  fa_D : full (kk_D K) N
}.

Lemma ldl_solve_safe N K b x (Q : arr F -> Prop) : sp_n (kk_PKPt K) = N -> factored N K -> full b N -> length x = N ->
  (forall x', ldl_solve K b x = Some x' -> length x' = N -> full x' N -> Q x') -> wp (ldl_solve K b x) Q.
Proof.
  intros HN [W En Em FD] Fb Lx HQ.
  assert (H : wp (ldl_solve K b x) (fun x' => length x' = N /\ full x' N)).
  { unfold ldl_solve, LDL_lsolve2. cbv zeta. rewrite HN. rewrite <- En in *.
    wb. wb. apply for_full; [lia| |].
    { intros i a Hi _ _ _. destruct (Fb i Hi) as [v E]. exists v. rewrite E. auto. }
    intros x1 L1 F1 _. destruct (LDL_lsolve_safe (kk_L K) W ltac:(congruence) x1 ltac:(congruence) F1) as (x2 & E2 & L2 & F2).
    apply (wp_intro _ _ _ E2).
    wb. unfold LDL_dsolve. apply for_full; [lia| |].
    { intros i a Hi La _ Ga. destruct (F2 i Hi) as [v E]. rewrite Ga by lia. rewrite E. cbn [bind]. destruct (FD i Hi) as [d Ed]. rewrite Ed. cbn [bind]. eauto. }
    intros x3 L3 F3 _. destruct (LDL_ltsolve_safe (kk_L K) W ltac:(congruence) x3 ltac:(congruence) F3) as (x4 & E4 & L4 & F4).
    apply (wp_intro _ _ _ E4). auto. }
  apply wp_elim in H. destruct H as (x' & E & L1 & F1). apply (wp_intro _ _ _ E). auto.
Qed.

Lemma kws_okc L lpv soc ex K A G AtoK GtoK cols : kws L lpv soc ex K -> (forall d, In d (ly_q L) -> 1 <= d) -> dws L cols A G AtoK GtoK ->
  allc (okc False) 0 (ly_cols L lpv soc ex).
Proof.
  intros KW H1 D. destruct (dws_facts _ _ _ _ _ _ D) as (W & E1 & E2 & E3 & HA & HZ). destruct KW. apply ly_okc; auto.
Qed.

Lemma kws_dim L lpv soc ex K : kws L lpv soc ex K ->
  is_perm (ly_nK L) (ly_pf L) /\ sp_n (kk_PKPt K) = ly_nK L /\ sp_m (kk_PKPt K) = ly_nK L.
Proof.
  intros KW. destruct KW. destruct (pd_pat _ _ _ _ kw_perm) as [P1 P2 P3 _ _ _].
  rewrite (ly_cols_length L lpv soc ex kw_q kw_e) in *. auto.
Qed.

(* pf has an inverse below N *)
Lemma perm_inv N pf : is_perm N pf -> exists g, (forall a, a < N -> g a < N /\ pf (g a) = a) /\ (forall i, i < N -> g (pf i) = i).
Proof.
  intros [P1 P2].
  assert (S : forall a, a < N -> exists i, i < N /\ pf i = a).
  { intros a Ha.
    assert (ND : NoDup (map pf (seq 0 N))).
    { assert (H : forall l, NoDup l -> (forall x, In x l -> x < N) -> NoDup (map pf l)).
      { induction l as [|x t IH]; intros Hd Hl; cbn; [constructor|]. inversion Hd; subst. constructor.
        - intros Hin. apply in_map_iff in Hin. destruct Hin as (y & E & Hy). apply P2 in E; [subst; auto|apply Hl; simpl; auto|apply Hl; simpl; auto].
        - apply IH; auto. intros; apply Hl; simpl; auto. }
      apply H; [apply seq_NoDup|]. intros x Hx. apply in_seq in Hx. lia. }
    assert (IN : incl (map pf (seq 0 N)) (seq 0 N)).
    { intros y Hy. apply in_map_iff in Hy. destruct Hy as (x & <- & Hx). apply in_seq in Hx. apply in_seq. specialize (P1 x). lia. }
    assert (I2 : incl (seq 0 N) (map pf (seq 0 N))).
    { apply NoDup_length_incl; auto. rewrite map_length. lia. }
    specialize (I2 a). rewrite in_map_iff in I2. destruct I2 as (x & E & Hx); [apply in_seq; lia|]. apply in_seq in Hx. exists x. split; [lia|auto]. }
  exists (fun a => match find (fun i => Nat.eqb (pf i) a) (seq 0 N) with Some i => i | None => 0 end).
  assert (G : forall a, a < N -> (match find (fun i => Nat.eqb (pf i) a) (seq 0 N) with Some i => i | None => 0 end) < N /\
     pf (match find (fun i => Nat.eqb (pf i) a) (seq 0 N) with Some i => i | None => 0 end) = a).
  { intros a Ha. destruct (find _ (seq 0 N)) as [i|] eqn:E.
    - apply find_some in E. destruct E as [E1 E2]. apply in_seq in E1. apply Nat.eqb_eq in E2. split; [lia|auto].
    - exfalso. destruct (S a Ha) as (i & Hi & E1). pose proof (find_none _ _ E i ltac:(apply in_seq; lia)) as E2. apply Nat.eqb_neq in E2. auto. }
  split; auto. intros i Hi. destruct (G (pf i) (P1 i Hi)) as [H1 H2]. apply P2; auto.
Qed.

(* factorisation keeps the layout and leaves usable factors *)
Lemma kkt_factor_wp L lpv soc ex K eps delta cols A G AtoK GtoK (Q : bool * kkt F -> Prop) :
  kws L lpv soc ex K -> (forall d, In d (ly_q L) -> 1 <= d) -> dws L cols A G AtoK GtoK ->
  (forall K', kws L lpv soc ex K' -> factored (ly_nK L) K' -> kk_RHS1 K' = kk_RHS1 K -> kk_RHS2 K' = kk_RHS2 K ->
     kk_PKPt K' = kk_PKPt K -> kk_PK K' = kk_PK K -> kk_Pinv K' = kk_Pinv K -> Q (true, K')) ->
  wp (kkt_factor K eps delta) Q.
Proof.
  intros KW H1 D HQ. pose proof (kws_okc _ _ _ _ _ _ _ _ _ _ KW H1 D) as OK.
  destruct (kws_dim _ _ _ _ _ KW) as (PP & En & Em). pose proof KW as KW'. destruct KW'.
  pose proof (pm_wf _ _ _ _ kw_perm _ OK) as Wm. pose proof (pm_upper _ _ _ _ kw_perm _ OK) as Um.
  destruct (perm_inv _ _ PP) as (g & Hg & _).
  unfold kkt_factor. cbv zeta. wb. rewrite En.
  assert (E : etree (kk_PKPt K) (sp_n (kk_PKPt K)) (ly_par L) (ly_R L)) by (rewrite En; auto).
  pose proof (LDL_numeric2_wp (kk_PKPt K) Wm Um ltac:(congruence) (ly_par L) (ly_R L) E
    (fun a => ksign (ly_n L) (ly_p L) (ly_l L) (ly_q L) (g a)) eps delta (sp_jc (kk_L K)) (kk_Parent K) (kk_Sign K)
    (kk_Lnz K) (sp_ir (kk_L K)) (sp_pr (kk_L K)) (kk_D K) (kk_work1 K) (kk_Pattern K) (kk_Flag K)) as H.
  rewrite En in H. apply H; auto.
  { intros a Ha. destruct (Hg a Ha) as [Ga Gb]. rewrite <- Gb at 1. auto. }
  clear H. intros Lv Dv N' I' X' D' Y' P' F' NS. destruct NS. rewrite En in *.
  apply (wp_intro _ _ _ eq_refl). rewrite Nat.eqb_refl. rewrite <- En in E.
  assert (VLp : vec (sp_jc (kk_L K)) (sp_n (kk_PKPt K) + 1) (starts (cnt (ly_R L) (sp_n (kk_PKPt K))))) by (rewrite En; auto).
  destruct (lmat_wf (kk_PKPt K) ltac:(congruence) (ly_par L) (ly_R L) E Lv (sp_jc (kk_L K)) I' X' VLp ltac:(rewrite En; auto)) as [WL _].
  unfold lmat in WL. rewrite En in WL. apply HQ; try reflexivity.
  - constructor; cbn; auto.
  - constructor; cbn; auto.
    + rewrite kw_Ln, kw_Lm, kw_Lnnz. exact WL.
    + intros i Hi. rewrite ns_D by auto. eauto.
Qed.
End SafeK.
