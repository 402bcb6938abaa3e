(* The layout of a workspace: what setup establishes and every later call
   keeps.  Arithmetic is arbitrary. *)
From Coq Require Import List Arith Bool ZArith Lia.
From Verif Require Import Base Num.
From Verif.Model Require Import Spla Splamm Types Consts Expcone Cone Ldl Kkt Equil Preproc.
From Verif.Spec Require Import Matrix Fill KktSpec Shape SetupSpec.
From Verif.Proofs Require Import SplaP SplammP LdlSym KktAsm KktMat KktUpd Layout EquilP.
Import ListNotations.
Open Scope nat_scope.

Definition transposed {T} (M Mt : spmat T) : Prop := exists mp, transposeSparseMatrix M (alloc (sp_nnz M)) = Some (Mt, mp).

Lemma transpose_ok {T} (M : spmat T) : wf_sp M -> transposable M ->
  exists Mt mp, transposeSparseMatrix M (alloc (sp_nnz M)) = Some (Mt, mp) /\
    wf_sp Mt /\ sp_n Mt = sp_m M /\ sp_m Mt = sp_n M /\ sp_nnz Mt = sp_nnz M /\ length mp = sp_nnz M /\
    (forall r, r <= sp_m M -> get (sp_jc Mt) r = Some (tstart M r)) /\
    (forall j k, in_col M j k -> get mp k = Some (tpos M k) /\
        get (sp_ir Mt) (tpos M k) = Some j /\ get (sp_pr Mt) (tpos M k) = get (sp_pr M) k) /\
    (forall r q q', in_col Mt r q -> in_col Mt r q' -> q < q' -> gd 0 (sp_ir Mt) q <= gd 0 (sp_ir Mt) q').
Proof.
  intros W H. destruct (Nat.eq_dec (sp_nnz M) 0) as [Z|Z].
  - destruct H as [H|H]; [lia|].
    unfold transposeSparseMatrix. rewrite newSparseMatrix_ok. cbn [bind]. rewrite Z, H. cbn.
    eexists _, _. split; [reflexivity|]. cbn.
    assert (NoCol : forall j k, ~ in_col M j k). { intros j k Hk. apply (in_col_nnz M j k W) in Hk. lia. }
    split; [|csplit; auto].
    + constructor; cbn; try (intros; lia); auto.
      * intros i Hi. destruct i; [reflexivity|lia].
      * intros i Hi. lia.
    + intros r Hr. destruct r; [|lia]. reflexivity.
    + intros j k Hk. destruct (NoCol j k Hk).
    + intros r q q' [Hr _]. cbn in Hr. lia.
  - destruct (transpose_spec M (alloc (sp_nnz M)) W Z) as (Mt & mp & E & H1 & H2 & H3 & H4 & H5 & H6 & _).
    { rewrite alloc_length; auto. }
    exists Mt, mp. split; auto. split.
    + eapply transpose_wf; eauto. rewrite alloc_length; auto.
    + rewrite alloc_length in H4. csplit; auto; try apply H6; auto.
      eapply transpose_sorted; eauto. rewrite alloc_length; auto.
Qed.

Lemma transposed_facts {T} (M Mt : spmat T) : wf_sp M -> transposable M -> transposed M Mt ->
    wf_sp Mt /\ sp_n Mt = sp_m M /\ sp_m Mt = sp_n M /\ sp_nnz Mt = sp_nnz M /\
    (forall r, r <= sp_m M -> get (sp_jc Mt) r = Some (tstart M r)) /\
    (forall j k, in_col M j k ->
        get (sp_ir Mt) (tpos M k) = Some j /\ get (sp_pr Mt) (tpos M k) = get (sp_pr M) k).
Proof.
  intros W H [mp E]. destruct (transpose_ok M W H) as (Mt' & mp' & E' & F). rewrite E in E'. injection E' as <- <-.
  destruct F as (F1 & F2 & F3 & F4 & F5 & F6 & F7 & F8). csplit; auto; apply F7; auto.
Qed.

Section Work.
Context `{O : Ops}.

(* sizes, the transposed data, the ordering and the elimination tree *)
Record lay := mkLay {
  ly_n : nat; ly_p : nat; ly_l : nat; ly_q : list nat; ly_e : nat;
  ly_At : option (spmat F); ly_Gt : spmat F;
  ly_pf : nat -> nat; ly_par : nat -> option nat; ly_R : nat -> nat -> bool }.

Definition ly_m (L : lay) : nat := ly_l L + list_sum (ly_q L) + 3 * ly_e L.
Definition ly_mt (L : lay) : nat := ly_m L + 2 * length (ly_q L).
Definition ly_nK (L : lay) : nat := ly_n L + ly_p L + ly_mt L.
Definition ly_len (L : lay) (j : nat) : nat := length (colent f0 (ly_Gt L) j).
Definition ly_cols (L : lay) (lpv : nat -> F) (soc : list (nat * socv F)) (ex : list (expv F)) : list (col F) :=
  kkt_cols (colent f0 (ly_Gt L)) (ly_n L) (ly_p L) (acol f0 (ly_At L)) DELTASTAT (- DELTASTAT)%fl (ly_l L) lpv soc ex.

(* the KKT structure holds the matrix whose conic block is given by lpv, soc and ex *)
Record kws (L : lay) lpv soc ex (K : kkt F) : Prop := {
  kw_q : map fst soc = ly_q L;
  kw_e : length ex = ly_e L;
  kw_perm : permuted (ly_cols L lpv soc ex) (ly_pf L) (kk_PKPt K) (kk_PK K);
  kw_Pinv : vec (kk_Pinv K) (ly_nK L) (ly_pf L);
  kw_Sign : forall i, i < ly_nK L -> get (kk_Sign K) (ly_pf L i) = Some (ksign (ly_n L) (ly_p L) (ly_l L) (ly_q L) i);
  kw_et : etree (kk_PKPt K) (ly_nK L) (ly_par L) (ly_R L);
  kw_Parent : forall i, i < ly_nK L -> get (kk_Parent K) i = Some (pz (ly_par L i));
  kw_Ln : sp_n (kk_L K) = ly_nK L;
  kw_Lm : sp_m (kk_L K) = ly_nK L;
  kw_Lnnz : sp_nnz (kk_L K) = starts (cnt (ly_R L) (ly_nK L)) (ly_nK L);
  kw_Lp : vec (sp_jc (kk_L K)) (ly_nK L + 1) (starts (cnt (ly_R L) (ly_nK L)));
  kw_Li : length (sp_ir (kk_L K)) = starts (cnt (ly_R L) (ly_nK L)) (ly_nK L);
  kw_Lx : length (sp_pr (kk_L K)) = starts (cnt (ly_R L) (ly_nK L)) (ly_nK L);
  kw_D : length (kk_D K) = ly_nK L;
  kw_w1 : length (kk_work1 K) = ly_nK L;
  kw_w2 : length (kk_work2 K) = ly_nK L;
  kw_w3 : length (kk_work3 K) = ly_nK L;
  kw_w4 : length (kk_work4 K) = ly_nK L;
  kw_w5 : length (kk_work5 K) = ly_nK L;
  kw_w6 : length (kk_work6 K) = ly_nK L;
  kw_r1 : length (kk_RHS1 K) = ly_nK L;
  kw_r2 : length (kk_RHS2 K) = ly_nK L;
  kw_dx1 : length (kk_dx1 K) = ly_n L;
  kw_dx2 : length (kk_dx2 K) = ly_n L;
  kw_dy1 : length (kk_dy1 K) = ly_p L;
  kw_dy2 : length (kk_dy2 K) = ly_p L;
  kw_dz1 : length (kk_dz1 K) = ly_m L;
  kw_dz2 : length (kk_dz2 K) = ly_m L;
  kw_Pat : length (kk_Pattern K) = ly_nK L;
  kw_Fl : length (kk_Flag K) = ly_nK L;
  kw_Lnz : length (kk_Lnz K) = ly_nK L
}.

(* the data matrices and where their entries are in the KKT matrix *)
Record dws (L : lay) (cols : list (col F)) (A : option (spmat F)) (G : spmat F) (AtoK GtoK : arr nat) : Prop := {
  dw_G : wf_sp G; dw_Gn : sp_n G = ly_n L; dw_Gm : sp_m G = ly_m L;
  dw_Gt : transposable G /\ transposed G (ly_Gt L);
  dw_A : match A, ly_At L with
         | Some A, Some At => wf_sp A /\ sp_n A = ly_n L /\ sp_m A = ly_p L /\ transposable A /\ transposed A At
         | None, None => ly_p L = 0
         | _, _ => False
         end;
  dw_AtoK : match A with
            | Some A => length AtoK = sp_nnz A /\ forall k, k < sp_nnz A ->
                get AtoK k = Some (KktSpec.start cols (ly_n L + gd 0 (sp_ir A) k) + (tpos A k - tstart A (gd 0 (sp_ir A) k)))
            | None => True
            end;
  dw_GtoK : length GtoK = sp_nnz G /\ forall k, k < sp_nnz G ->
     get GtoK k = Some (KktSpec.start cols (ly_n L + ly_p L + zidx (ly_l L) (ly_q L) (gd 0 (sp_ir G) k))
                        + (tpos G k - tstart G (gd 0 (sp_ir G) k)))
}.

(* the whole workspace *)
Record ws (L : lay) lpv soc ex (w : pwork F) : Prop := {
  ws_n : w_n w = ly_n L; ws_m : w_m w = ly_m L; ws_p : w_p w = ly_p L;
  ws_D : w_D w = ly_l L + length (ly_q L) + 3 * ly_e L;
  ws_C : cone_of (w_C w) (ly_l L) (ly_q L) (ly_e L);
  ws_ix : indexed (ly_cols L lpv soc ex) (ly_len L) (ly_n L) (ly_p L) (w_C w);
  ws_dat : dws L (ly_cols L lpv soc ex) (w_A w) (w_G w) (w_AtoK w) (w_GtoK w);
  ws_K : kws L lpv soc ex (w_KKT w);
  ws_c : full (w_c w) (ly_n L); ws_b : full (w_b w) (ly_p L); ws_h : full (w_h w) (ly_m L);
  ws_xe : full (w_xequil w) (ly_n L); ws_Ae : full (w_Aequil w) (ly_p L); ws_Ge : full (w_Gequil w) (ly_m L);
  ws_lx : length (w_x w) = ly_n L; ws_ly : length (w_y w) = ly_p L;
  ws_lz : length (w_z w) = ly_m L; ws_ls : length (w_s w) = ly_m L;
  ws_ll : length (w_lambda w) = ly_m L;
  ws_lbx : length (w_best_x w) = ly_n L; ws_lby : length (w_best_y w) = ly_p L;
  ws_lbz : length (w_best_z w) = ly_m L; ws_lbs : length (w_best_s w) = ly_m L;
  ws_lda : length (w_dsaff w) = ly_m L; ws_lwd : length (w_W_times_dzaff w) = ly_m L;
  ws_ldw : length (w_dsaff_by_W w) = ly_m L;
  ws_lrx : length (w_rx w) = ly_n L; ws_lry : length (w_ry w) = ly_p L; ws_lrz : length (w_rz w) = ly_m L;
  ws_lxe : length (w_xequil w) = ly_n L; ws_lAe : length (w_Aequil w) = ly_p L; ws_lGe : length (w_Gequil w) = ly_m L
}.

(* --- facts --- *)
Lemma colent_rows (M : spmat F) j e : wf_sp M -> j < sp_n M -> In e (colent f0 M j) -> fst e < sp_m M.
Proof.
  intros W Hj H. unfold colent in H. apply in_map_iff in H. destruct H as (q & <- & Hq). apply in_seq in Hq. cbn.
  pose proof (wf_mono M W j Hj). pose proof (jc_le_nnz M W (j + 1) ltac:(lia)). apply (wf_row M W). lia.
Qed.

Lemma ly_okc (L : lay) lpv soc ex : map fst soc = ly_q L -> length ex = ly_e L ->
  (forall d, In d (ly_q L) -> 1 <= d) ->
  wf_sp (ly_Gt L) -> sp_n (ly_Gt L) = ly_m L -> sp_m (ly_Gt L) = ly_n L ->
  match ly_At L with Some At => wf_sp At /\ sp_n At = ly_p L /\ sp_m At = ly_n L | None => ly_p L = 0 end ->
  allc (okc False) 0 (ly_cols L lpv soc ex).
Proof.
  intros Hq He H1 WG Gn Gm HA. unfold ly_cols.
  apply (okc_kkt (ly_n L) (ly_p L) (ly_l L) _ _ False (sp_n (ly_Gt L))).
  - intros j Hj e0 H0. destruct (ly_At L) as [At|]; [|lia]. destruct HA as (WA & An & Am).
    apply colent_rows in H0; auto; lia.
  - intros j Hj e0 H0. apply colent_rows in H0; auto; lia.
  - tauto.
  - tauto.
  - rewrite Gn, Hq, He. reflexivity.
  - intros x Hx. apply H1. rewrite <- Hq. apply in_map. auto.
Qed.

Lemma ly_cols_length L lpv soc ex : map fst soc = ly_q L -> length ex = ly_e L ->
  length (ly_cols L lpv soc ex) = ly_nK L.
Proof.
  intros Hq He. unfold ly_cols. rewrite kkt_cols_length, Hq, He.
  assert (length soc = length (ly_q L)) by (rewrite <- Hq, map_length; auto). unfold ly_nK, ly_mt, ly_m. lia.
Qed.

Lemma dws_facts L cols A G AtoK GtoK : dws L cols A G AtoK GtoK ->
  wf_sp (ly_Gt L) /\ sp_n (ly_Gt L) = ly_m L /\ sp_m (ly_Gt L) = ly_n L /\ sp_nnz (ly_Gt L) = sp_nnz G /\
  match ly_At L with
  | Some At => wf_sp At /\ sp_n At = ly_p L /\ sp_m At = ly_n L
  | None => ly_p L = 0 end /\
  match A, ly_At L with Some A, Some At => sp_nnz At = sp_nnz A | None, None => True | _, _ => False end.
Proof.
  intros [D1 D2 D3 [D4 D4'] D5 D6 D7]. destruct (transposed_facts G (ly_Gt L) D1 D4 D4') as (W & E1 & E2 & E3 & _).
  destruct A as [A|], (ly_At L) as [At|]; try contradiction.
  - destruct D5 as (X1 & X2 & X3 & X4 & X5). destruct (transposed_facts A At X1 X4 X5) as (W' & E1' & E2' & E3' & _).
    csplit; auto; congruence.
  - csplit; auto; congruence.
Qed.

Lemma fold_sum3 {A} (l : list (nat * A)) : fold_right (fun x a => 3 * fst x + 1 + a) 0 l = list_sum (map (fun d => 3 * d + 1) (map fst l)).
Proof. induction l as [|[a b] t IH]; auto. cbn [fold_right map fst]. rewrite IH. reflexivity. Qed.

Lemma ly_cols_count L lpv soc ex cols A G AtoK GtoK : map fst soc = ly_q L -> length ex = ly_e L ->
  (forall d, In d (ly_q L) -> 1 <= d) -> dws L cols A G AtoK GtoK ->
  length (concat (ly_cols L lpv soc ex)) =
  kkt_nnz (match A with Some A => sp_nnz A | None => 0 end) (sp_nnz G) (ly_n L) (ly_p L) (ly_l L) (ly_q L) (ly_e L).
Proof.
  intros Hq He H1 D. destruct (dws_facts _ _ _ _ _ _ D) as (W & E1 & E2 & E3 & HA & HZ).
  unfold ly_cols, kkt_nnz. rewrite kkt_cols_count; auto.
  - rewrite fold_sum3, Hq, He, E3. destruct A as [A|], (ly_At L) as [At|]; try contradiction; auto. rewrite HZ. auto.
  - destruct (ly_At L) as [At|]; auto. intuition.
  - intros x Hx. apply H1. rewrite <- Hq. apply in_map; auto.
  - rewrite E1, Hq, He. reflexivity.
Qed.
End Work.
