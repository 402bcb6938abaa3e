(* Equilibration and its undoing on numbers (reals with NaN), and what the
   setup routine makes of a user's problem. *)
From Coq Require Import List Arith Bool ZArith QArith Qreals Reals Lia Lra.
From Verif Require Import Base Num NumX.
From Verif.Model Require Import Spla Splamm Types Consts Expcone Cone Equil Ecos Preproc.
From Verif.Spec Require Import Matrix Conic Jordan Shape Scaling User.
From Verif.Proofs Require Import SplaP LoopLib ConeP ExitP XEvalP CertP EquilP.
Import ListNotations.
Open Scope R_scope.

(* ------------------------------------------------------- setup, inverted *)
Section Inv.
Context {O : Ops}.
Definition mkA (n p : nat) (Ad : option (@userdata O)) : option (option (spmat F)) :=
  match Ad with
  | Some (Apr, Ajc, Air) => nnz <- get Ajc n ;; A <- ecoscreateSparseMatrix p n nnz Ajc Air Apr ;; Some (Some A)
  | None => Some None
  end.
Definition mkG (n m : nat) (Gd : @userdata O) : option (spmat F) :=
  let '(Gpr, Gjc, Gir) := Gd in nnz <- get Gjc n ;; ecoscreateSparseMatrix m n nnz Gjc Gir Gpr.

Lemma setup_inv amd junk n m p l q e Gd Ad c h b w :
  ECOS_setup amd junk n m p l q e Gd Ad c h b = Some (Some w) ->
  m = (l + list_sum q + 3 * e)%nat /\
  exists A G A' G' b' h' xe Ae Ge, mkA n p Ad = Some A /\ mkG n m Gd = Some G /\
    set_equilibration (new_cone l q e) A G b h (alloc n, alloc p, alloc m) = Some (A', G', b', h', (xe, Ae, Ge)) /\
    w_A w = A' /\ w_G w = G' /\ w_b w = b' /\ w_h w = h' /\ w_c w = c /\
    w_xequil w = xe /\ w_Aequil w = Ae /\ w_Gequil w = Ge /\ w_n w = n /\ w_m w = m /\ w_p w = p /\
    w_rx w = alloc n /\ w_ry w = alloc p /\ w_rz w = alloc m /\ w_stgs w = default_settings /\ w_best w = None.
Proof.
  unfold ECOS_setup. cbv zeta. intros H.
  destruct (Nat.eqb_spec (list_sum q + l + 3 * e) m) as [Em|]; cbn [negb] in H; [|discriminate].
  split; [lia|].
  fold (mkA n p Ad) in H. fold (mkG n m Gd) in H.
  destruct (mkA n p Ad) as [A|] eqn:EA; cbn [bind] in H; [|discriminate].
  destruct (mkG n m Gd) as [G|] eqn:EG; cbn [bind] in H; [|discriminate].
  destruct (set_equilibration _ A G b h _) as [[[[[A' G'] b'] h'] [[xe Ae] Ge]]|] eqn:ES; cbn [bind] in H; [|discriminate].
  exists A, G, A', G', b', h', xe, Ae, Ge.
  split; [auto|]. split; [auto|]. split; [auto|].
  repeat binv1 H. destruct (amd _ _ _); [|discriminate]. repeat binv1 H.
  injection H as <-. cbn. csplit; auto.
Qed.
End Inv.

Lemma upd_same {T} (a : arr T) i v : get a i = Some v -> set a i v = Some a.
Proof.
  intros H. pose proof (get_lt _ _ _ H) as L. rewrite set_ok by auto. f_equal. apply arr_ext; [apply upd_length|].
  intros j. rewrite get_upd by auto. destruct (Nat.eqb_spec j i) as [->|]; auto.
Qed.

(* ------------------------------------------------ matrices that hold numbers *)
Definition unx (a : arr (option R)) : arr R := map (fun o => match o with Some (Some r) => Some r | _ => None end) a.
Lemma unx_length a : length (unx a) = length a. Proof. apply map_length. Qed.
Lemma get_unx a i r : get a i = Some (Some r) -> get (unx a) i = Some r.
Proof.
  unfold get, unx. rewrite nth_error_map. destruct (nth_error a i) as [[[r'|]|]|]; cbn; congruence.
Qed.
Lemma xlift_unx a : (forall i, get a i <> Some None) -> xlift (unx a) = a.
Proof.
  intros H. apply arr_ext; [rewrite xlift_length; apply unx_length|]. intros i. specialize (H i).
  rewrite get_xlift. unfold get, unx in *. rewrite nth_error_map.
  destruct (nth_error a i) as [[[r'|]|]|]; cbn in *; congruence.
Qed.
Lemma xmat_wf M : wf_sp M -> wf_sp (xmat M).
Proof.
  intros W. destruct W. constructor; cbn; auto.
  intros k Hk. destruct (wf_pr k Hk) as [v Hv]. rewrite get_xlift, Hv. cbn. eauto.
Qed.
Lemma xmat_col M j k : in_col (xmat M) j k <-> in_col M j k. Proof. reflexivity. Qed.

Lemma rescaled_xmat g g' M M' : wf_sp M -> rescaled g (xmat M) M' ->
  (forall r c v, (r < sp_m M)%nat -> (c < sp_n M)%nat -> g r c (Some v) = Some (g' r c v)) ->
  exists M1, M' = xmat M1 /\ rescaled g' M M1.
Proof.
  intros W H E. destruct M' as [jc ir pr n m nnz]. destruct H as [H1 H2 H3 H4 H5 H6 H7 H8]. cbn in *. subst.
  assert (N: forall k, (k < sp_nnz M)%nat -> exists v j, get (sp_pr M) k = Some v /\ in_col M j k /\
     get pr k = Some (Some (g' (gd 0%nat (sp_ir M) k) j v))).
  { intros k Hk. destruct (wf_pr M W k Hk) as [v Hv]. destruct (in_col_exists M k W Hk) as [j Hj].
    exists v, j. split; [auto|]. split; [auto|]. rewrite <- E by (apply (wf_row M W k Hk) || apply Hj).
    apply (H7 j k (Some v)); auto. rewrite get_xlift, Hv. auto. }
  exists (mkSp (sp_jc M) (sp_ir M) (unx pr) (sp_n M) (sp_m M) (sp_nnz M)). split.
  - unfold xmat. cbn. f_equal. symmetry. apply xlift_unx. intros k.
    destruct (Nat.lt_ge_cases k (sp_nnz M)) as [Hk|Hk].
    + destruct (N k Hk) as (v & j & _ & _ & ->). congruence.
    + rewrite H8, get_xlift by auto. destruct (get (sp_pr M) k); cbn; congruence.
  - constructor; cbn; auto.
    + rewrite unx_length, H6. apply xlift_length.
    + intros j k v Hj Hv. apply get_unx. rewrite <- E; [|apply (wf_row M W); eapply in_col_nnz; eauto|apply Hj].
      apply H7; auto. rewrite get_xlift, Hv. auto.
    + intros k Hk. specialize (H8 k Hk). rewrite get_xlift in H8.
      unfold unx, get in *. rewrite nth_error_map. destruct (nth_error pr k) as [[[r|]|]|], (nth_error (sp_pr M) k) as [[?|]|]; cbn in *; congruence.
Qed.

Lemma rescaled_dense g M M1 i j : wf_sp M -> rescaled (fun r c v => v * g r c) M M1 -> (j < sp_n M)%nat ->
  dense M1 i j = dense M i j * g i j.
Proof.
  intros W H Hj. unfold dense. rewrite (rs_jc _ _ _ H), (rs_ir _ _ _ H).
  unfold Rsumr. rewrite <- Rsum_scal_r. apply Rsum_ext. intros k Hk.
  assert (Hin: in_col M j (gd 0%nat (sp_jc M) j + k)) by (split; [auto|lia]).
  destruct (Nat.eqb_spec (gd 0%nat (sp_ir M) (gd 0%nat (sp_jc M) j + k)) i) as [Ei|]; [|ring].
  destruct (wf_pr M W _ (in_col_nnz _ _ _ W Hin)) as [v Hv].
  rewrite (gd_get _ _ _ _ (rs_in _ _ _ H _ _ _ Hin Hv)), (gd_get _ _ _ _ Hv). rewrite Ei. auto.
Qed.

(* a matrix rescaled by the identity is the same matrix *)
Lemma rescaled_same {T} g (M M' : spmat T) : wf_sp M -> rescaled g M M' ->
  (forall r c v, (r < sp_m M)%nat -> (c < sp_n M)%nat -> g r c v = v) -> M' = M.
Proof.
  intros W H E. assert (P: sp_pr M' = sp_pr M).
  { apply arr_ext; [apply (rs_len _ _ _ H)|]. intros k. destruct (Nat.lt_ge_cases k (sp_nnz M)) as [Hk|Hk].
    - destruct (wf_pr M W k Hk) as [v Hv]. destruct (in_col_exists M k W Hk) as [j Hj].
      rewrite (rs_in _ _ _ H _ _ _ Hj Hv), Hv, E; auto. apply (wf_row M W k Hk). apply Hj.
    - apply (rs_out _ _ _ H); auto. }
  destruct H as [H1 H2 H3 H4 H5 _ _ _]. destruct M, M'. cbn in *. congruence.
Qed.

(* ------------------------------------------------------------ the factors *)
Definition rv (o : option R) : R := match o with Some r => r | None => 0 end.
Definition nn (v : option R) : Prop := exists r, 0 <= r /\ v = Some r.
Definition pos (v : option R) : Prop := exists r, 0 < r /\ v = Some r.

Definition num (v : option R) : Prop := exists r, v = Some r.
Lemma nn_max v e : num v -> nn e -> nn (@fmax XOps (@fabs XOps v) e).
Proof.
  intros [x ->] (r & Hr & ->). rename x into v. unfold nn, fmax. cbn.
  destruct (Rltb _ _); [exists r; auto|exists (Rabs v); split; [apply Rabs_pos|auto]].
Qed.
Lemma num_div v a : num v -> pos a -> num (@fdiv XOps v a).
Proof. intros [x ->] (r & Hr & ->). rewrite xdiv by lra. eexists; eauto. Qed.
Lemma num_entries M : @entries XOps num (xmat M).
Proof.
  intros k v _ H. cbn [sp_pr xmat] in H. change (@F XOps) with (option R) in *. rewrite get_xlift in H.
  destruct (get (sp_pr M) k); cbn in H; [injection H as <-; eexists; eauto|discriminate].
Qed.
Lemma num_entriesA A : @entriesA XOps num (option_map xmat A).
Proof. destruct A; cbn; auto. apply num_entries. Qed.
Lemma nn_sqv v : nn v -> pos (@sqv XOps v).
Proof.
  intros (r & Hr & ->). unfold sqv, pos.
  assert (E: @flt XOps (@fabs XOps (Some r)) (@fconst XOps (1 # 1000000)%Q) = Rltb (Rabs r) (Q2R (1 # 1000000))) by reflexivity.
  rewrite E. unfold Rltb. destruct (Rlt_dec _ _) as [L|L].
  - exists 1. split; [lra|apply f1_X].
  - exists (sqrt r). split; [|cbn; unfold Rltb; destruct (Rlt_dec r 0); [lra|auto]]. apply sqrt_lt_R0. rewrite Rabs_pos_eq in L by auto.
    unfold Q2R in L. cbn in L. lra.
Qed.
Lemma pos_rv v : pos v -> v = Some (rv v) /\ 0 < rv v.
Proof. intros (r & H & ->). auto. Qed.

Definition fac (x1 x2 x3 : nat -> option R) (i : nat) : R := rv (x1 i) * rv (x2 i) * rv (x3 i).
Lemma fac_pos x1 x2 x3 i : pos (x1 i) /\ pos (x2 i) /\ pos (x3 i) -> 0 < fac x1 x2 x3 i.
Proof.
  intros (A & B & C). apply pos_rv in A as [_ A], B as [_ B], C as [_ C].
  unfold fac. repeat apply Rmult_lt_0_compat; auto.
Qed.
Lemma prod_fac x1 x2 x3 i : pos (x1 i) /\ pos (x2 i) /\ pos (x3 i) -> @ruiz_prod XOps x1 x2 x3 i = Some (fac x1 x2 x3 i).
Proof.
  intros (A & B & C). apply pos_rv in A as [A _], B as [B _], C as [C _]. unfold ruiz_prod.
  rewrite A, B, C, f1_X, !xmul. f_equal. unfold fac. rewrite A, B, C. cbn. ring.
Qed.
Lemma scale_fac a1 a2 a3 x1 x2 x3 i j v : pos (a1 i) /\ pos (a2 i) /\ pos (a3 i) -> pos (x1 j) /\ pos (x2 j) /\ pos (x3 j) ->
  @ruiz_scale XOps a1 x1 a2 x2 a3 x3 i j (Some v) = Some (v / (fac a1 a2 a3 i * fac x1 x2 x3 j)).
Proof.
  intros (A & B & C) (A' & B' & C'). apply pos_rv in A as [A A0], B as [B B0], C as [C C0], A' as [A' A1], B' as [B' B1], C' as [C' C1].
  unfold ruiz_scale. rewrite A, A', B, B', C, C'. rewrite !xdiv by lra. f_equal. unfold fac.
  field. lra.
Qed.

(* the two matrix rescalings, on reals *)
Definition divR (g x : nat -> R) (r c : nat) (v : R) : R := v / (g r * x c).
Definition rescaledR (g : nat -> nat -> R -> R) (A A' : option (spmat R)) : Prop :=
  match A, A' with Some A, Some A' => rescaled g A A' | None, None => True | _, _ => False end.
Definition rowsR (A : option (spmat R)) : nat := match A with Some A => sp_m A | None => 0%nat end.
Definition wfR (A : option (spmat R)) (n : nat) : Prop := match A with Some A => wf_sp A /\ sp_n A = n | None => True end.

Lemma set_equilibration_X C A0 G0 b h xe Ae Ge bf hf : wf_sp G0 -> wfR A0 (sp_n G0) -> sp_m G0 = @msize XOps C ->
  (sp_n G0 <= length xe)%nat -> (rowsR A0 <= length Ae)%nat -> (sp_m G0 <= length Ge)%nat ->
  xvec b (rowsR A0) bf -> xvec h (sp_m G0) hf ->
  exists A1 G1 b' h' xe' Ae' Ge' xf af gf,
    @set_equilibration XOps C (option_map xmat A0) (xmat G0) b h (xe, Ae, Ge) =
      Some (option_map xmat A1, xmat G1, b', h', (xe', Ae', Ge')) /\
    rescaledR (divR af xf) A0 A1 /\ rescaled (divR gf xf) G0 G1 /\
    xvec xe' (sp_n G0) xf /\ xvec Ae' (rowsR A0) af /\ xvec Ge' (sp_m G0) gf /\
    (length b' = length b /\ xvec b' (rowsR A0) (fun i => bf i / af i) /\ forall i, (rowsR A0 <= i)%nat -> get b' i = get b i) /\
    (length h' = length h /\ xvec h' (sp_m G0) (fun i => hf i / gf i) /\ forall i, (sp_m G0 <= i)%nat -> get h' i = get h i) /\
    (forall i, (i < sp_n G0)%nat -> 0 < xf i) /\ (forall i, (i < rowsR A0)%nat -> 0 < af i) /\ (forall i, (i < sp_m G0)%nat -> 0 < gf i) /\
    (forall k c i, In (k, c) (@blocks XOps C) -> (i < so_p c)%nat -> gf (k + i)%nat = gf k) /\
    (forall k x i, In (k, x) (lay (fun _ => 3%nat) (@hsize XOps C) (co_expc C)) -> (i < 3)%nat -> gf (k + i)%nat = gf k).
Proof.
  intros WG WA EM L1 L2 L3 Hb Hh.
  assert (RA: @rowsA XOps (option_map xmat A0) = rowsR A0) by (destruct A0; reflexivity).
  assert (WA': @wfA XOps (option_map xmat A0) (sp_n (xmat G0))).
  { destruct A0 as [A0|]; [|exact I]. cbn in *. destruct WA. split; [apply xmat_wf; auto|auto]. }
  destruct (@set_equilibration_eq XOps nn pos num nn_max num_div (ex_intro _ 0 (conj (Rle_refl 0) f0_X))
    (fun a b Ha Hb => ltac:(destruct Ha as (x & Hx & ->), Hb as (y & Hy & ->); exists (x + y); split; [lra|reflexivity])) nn_sqv
    C (option_map xmat A0) (xmat G0) b h xe Ae Ge (fun i => Some (bf i)) (fun i => Some (hf i)) (xmat_wf _ WG) WA' (num_entries _) (num_entriesA _) EM L1)
    as (A' & G' & b' & h' & xe' & Ae' & Ge' & x1 & x2 & x3 & a1 & a2 & a3 & g1 & g2 & g3 & E & _ & _ & _ & RSA & RSG & VX & VA & VG & (B1 & B2 & B3) & (H1 & H2 & H3) & PX & PA & PG & C1 & C2 & C3);
    try (rewrite RA); auto.
  rewrite RA in *. cbn [sp_n sp_m xmat] in *. change (@F XOps) with (option R) in *.
  assert (XG: exists G1, G' = xmat G1 /\ rescaled (divR (fac g1 g2 g3) (fac x1 x2 x3)) G0 G1).
  { apply (rescaled_xmat _ _ _ _ WG RSG). intros r c v Hr Hc. apply scale_fac; auto. }
  destruct XG as (G1 & -> & RG).
  assert (XA: exists A1, A' = option_map xmat A1 /\ rescaledR (divR (fac a1 a2 a3) (fac x1 x2 x3)) A0 A1).
  { destruct A0 as [A0|]; cbn in RSA |- *; destruct A' as [A'|]; try contradiction.
    - cbn in WA. destruct WA as [WA En]. destruct (rescaled_xmat _ (divR (fac a1 a2 a3) (fac x1 x2 x3)) _ _ WA RSA) as (A1 & -> & RS1).
      { intros r c v Hr Hc. apply scale_fac; auto. apply PX. lia. }
      exists (Some A1). auto.
    - exists None. auto. }
  destruct XA as (A1 & -> & RA1).
  exists A1, G1, b', h', xe', Ae', Ge', (fac x1 x2 x3), (fac a1 a2 a3), (fac g1 g2 g3).
  split; [exact E|]. split; [auto|]. split; [auto|].
  split. { intros i Hi. specialize (VX i Hi). rewrite (prod_fac x1 x2 x3 i (PX i Hi)) in VX. exact VX. }
  split. { intros i Hi. specialize (VA i Hi). rewrite (prod_fac a1 a2 a3 i (PA i Hi)) in VA. exact VA. }
  split. { intros i Hi. specialize (VG i Hi). rewrite (prod_fac g1 g2 g3 i (PG i Hi)) in VG. exact VG. }
  split. { split; [auto|]. split; [|auto]. intros i Hi. specialize (B2 i Hi). cbv beta in B2. rewrite (prod_fac a1 a2 a3 i (PA i Hi)) in B2.
    rewrite xdiv in B2; [exact B2|]. apply Rgt_not_eq, fac_pos; auto. }
  split. { split; [auto|]. split; [|auto]. intros i Hi. specialize (H2 i Hi). cbv beta in H2. rewrite (prod_fac g1 g2 g3 i (PG i Hi)) in H2.
    rewrite xdiv in H2; [exact H2|]. apply Rgt_not_eq, fac_pos; auto. }
  split. { intros; apply fac_pos; auto. } split. { intros; apply fac_pos; auto. } split. { intros; apply fac_pos; auto. }
  destruct C1 as [S1 E1], C2 as [S2 E2], C3 as [S3 E3]. unfold fac. split.
  - intros k c i Hin Hi. rewrite (S1 k c i), (S2 k c i), (S3 k c i); auto.
  - intros k x i Hin Hi. rewrite (E1 k x i), (E2 k x i), (E3 k x i); auto.
Qed.

Lemma unset_equilibration_X A1 G1 b h xe Ae Ge xf af gf bf hf : wf_sp G1 -> wfR A1 (sp_n G1) ->
  xvec xe (sp_n G1) xf -> xvec Ae (rowsR A1) af -> xvec Ge (sp_m G1) gf -> xvec b (rowsR A1) bf -> xvec h (sp_m G1) hf ->
  exists A2 G2 b' h',
    @unset_equilibration XOps (option_map xmat A1) (xmat G1) b h (xe, Ae, Ge) = Some (option_map xmat A2, xmat G2, b', h') /\
    rescaledR (fun r c v => v * (af r * xf c)) A1 A2 /\ rescaled (fun r c v => v * (gf r * xf c)) G1 G2 /\
    (length b' = length b /\ xvec b' (rowsR A1) (fun i => bf i * af i) /\ forall i, (rowsR A1 <= i)%nat -> get b' i = get b i) /\
    (length h' = length h /\ xvec h' (sp_m G1) (fun i => hf i * gf i) /\ forall i, (sp_m G1 <= i)%nat -> get h' i = get h i).
Proof.
  intros WG WA Vx Va Vg Vb Vh.
  assert (RA: @rowsA XOps (option_map xmat A1) = rowsR A1) by (destruct A1; reflexivity).
  assert (WA': @wfA XOps (option_map xmat A1) (sp_n (xmat G1))).
  { destruct A1 as [A1|]; [|exact I]. cbn in *. destruct WA. split; [apply xmat_wf; auto|auto]. }
  destruct (@unset_equilibration_eq XOps (option_map xmat A1) (xmat G1) b h xe Ae Ge (fun i => Some (xf i)) (fun i => Some (af i))
    (fun i => Some (gf i)) (fun i => Some (bf i)) (fun i => Some (hf i)) (xmat_wf _ WG) WA')
    as (A' & G' & b' & h' & E & RSA & RSG & HB & HH); try (rewrite RA); auto.
  rewrite RA in *. cbn [sp_n sp_m xmat] in *. change (@F XOps) with (option R) in *.
  destruct (rescaled_xmat _ (fun r c v => v * (gf r * xf c)) _ _ WG RSG) as (G2 & -> & RG). { intros. reflexivity. }
  assert (XA: exists A2, A' = option_map xmat A2 /\ rescaledR (fun r c v => v * (af r * xf c)) A1 A2).
  { destruct A1 as [A1|]; cbn in RSA |- *; destruct A' as [A'|]; try contradiction.
    - cbn in WA. destruct WA as [WA En]. destruct (rescaled_xmat _ (fun r c v => v * (af r * xf c)) _ _ WA RSA) as (A2 & -> & RS1).
      { intros. reflexivity. }
      exists (Some A2). auto.
    - exists None. auto. }
  destruct XA as (A2 & -> & RA1). exists A2, G2, b', h'. split; [exact E|]. split; [auto|]. split; [auto|]. split; [exact HB|exact HH].
Qed.

(* ---------------------------------------------------------- the setup call *)
Lemma rescaled_div_dense g x M M1 i j : wf_sp M -> rescaled (divR g x) M M1 -> (j < sp_n M)%nat ->
  dense M1 i j = dense M i j / (g i * x j).
Proof.
  intros W H Hj. unfold Rdiv. apply (rescaled_dense (fun r c => / (g r * x c))); auto.
Qed.
Lemma mkG_X n m M : wf_sp M -> sp_n M = n -> sp_m M = m -> @mkG XOps n m (ccs M) = Some (xmat M).
Proof.
  intros W <- <-. unfold mkG, ccs. rewrite (wf_jc M W (sp_n M)) by lia. cbn [bind]. rewrite (wf_nnz M W).
  unfold ecoscreateSparseMatrix. rewrite upd_same; [reflexivity|]. rewrite (wf_jc M W (sp_n M)) by lia. f_equal. apply (wf_nnz M W).
Qed.
Lemma mkA_X U A0 G0 : user U A0 G0 -> @mkA XOps (pb_n U) (pb_p U) (option_map ccs A0) = Some (option_map xmat A0).
Proof.
  intros [_ HA]. destruct A0 as [A|]; [|reflexivity]. destruct HA as (W & En & Em & _).
  pose proof (mkG_X _ _ A W En Em) as H. unfold mkG, ccs in H. unfold mkA, ccs, option_map.
  destruct (get (sp_jc A) (pb_n U)) as [z|]; [|discriminate]. cbn [bind] in *. rewrite H. reflexivity.
Qed.
Lemma user_rows U A0 G0 : user U A0 G0 -> rowsR A0 = pb_p U.
Proof. intros [_ HA]. destruct A0; cbn; intuition. Qed.

Lemma lay_new_soc {O : Ops} q : forall k k' p, In (k', p) (layout k q) -> In (k', new_soc p) (lay so_p k (map new_soc q)).
Proof.
  induction q as [|a t IH]; intros k k' p; cbn [layout map lay]; [auto|].
  intros [H|H]; [injection H as <- <-; left; auto|right]. apply IH. auto.
Qed.
Lemma lay_repeat {T} (x : T) e : forall k i, (i < e)%nat -> In ((k + 3 * i)%nat, x) (lay (fun _ => 3%nat) k (repeat x e)).
Proof.
  induction e as [|e IH]; intros k i Hi; [lia|]. cbn [repeat lay]. destruct i as [|i]; [left; f_equal; lia|right].
  replace (k + 3 * Datatypes.S i)%nat with (k + 3 + 3 * i)%nat by lia. apply IH. lia.
Qed.
Lemma new_hsize {O : Ops} l q e : hsize (new_cone l q e) = (l + list_sum q)%nat.
Proof.
  unfold hsize, lpp, new_cone. cbn. f_equal. f_equal. rewrite map_map. cbn. induction q; cbn; f_equal; auto.
Qed.
Lemma new_msize {O : Ops} l q e : msize (new_cone l q e) = (l + list_sum q + 3 * e)%nat.
Proof. unfold msize. rewrite new_hsize. unfold nexc, new_cone. cbn [co_expc]. rewrite repeat_length. auto. Qed.

(* the workspace holds a scaled copy of the user's problem, and how to get back *)
Record scaled_copy (U : problem) (A0 : option (spmat R)) (G0 : spmat R) (b h : arr (option R)) (w : XW)
  (P : problem) (A1 : option (spmat R)) (G1 : spmat R) (xe Ae Ge : nat -> R) : Prop := {
  sc_by : scaled_by U P xe Ae Ge;
  sc_num : numeric w P (match A1 with Some A => A | None => G1 end) G1 xe Ae Ge;
  sc_A : w_A w = option_map xmat A1;
  sc_rA : rescaledR (divR Ae xe) A0 A1; sc_rG : rescaled (divR Ge xe) G0 G1;
  sc_b : length (w_b w) = length b /\ forall i, (pb_p U <= i)%nat -> get (w_b w) i = get b i;
  sc_h : length (w_h w) = length h /\ forall i, (pb_m U <= i)%nat -> get (w_h w) i = get h i }.

Lemma setup_scaled amd junk U A0 G0 c h b w : user U A0 G0 ->
  xvec c (pb_n U) (pb_c U) -> xvec h (pb_m U) (pb_h U) -> xvec b (pb_p U) (pb_b U) ->
  @ECOS_setup XOps amd junk (pb_n U) (pb_m U) (pb_p U) (pb_l U) (pb_q U) (pb_e U) (ccs G0) (option_map ccs A0) c h b = Some (Some w) ->
  exists P A1 G1 xe Ae Ge, scaled_copy U A0 G0 b h w P A1 G1 xe Ae Ge.
Proof.
  intros HU Hc Hh Hb H.
  apply (@setup_inv XOps) in H as (Em & A & G & A' & G' & b' & h' & xe & Ae & Ge & EA & EG & ES & W1 & W2 & W3 & W4 & W5 & W6 & W7 & W8 & W9 & W10 & W11 & W12 & W13 & W14 & _).
  rewrite (mkA_X U A0 G0 HU) in EA. injection EA as <-.
  pose proof (user_rows _ _ _ HU) as ER.
  pose proof (us_G _ _ _ HU) as (WG & EGn & EGm & EGd).
  rewrite (mkG_X _ _ G0 WG EGn EGm) in EG. injection EG as <-.
  assert (WA: wfR A0 (sp_n G0)). { pose proof (us_A _ _ _ HU) as HA. destruct A0; cbn; auto. destruct HA as (HA & E1 & _). split; [auto|lia]. }
  destruct (set_equilibration_X (@new_cone XOps (pb_l U) (pb_q U) (pb_e U)) A0 G0 b h (alloc (pb_n U)) (alloc (pb_p U)) (alloc (pb_m U)) (pb_b U) (pb_h U) WG WA)
    as (A1 & G1 & b1 & h1 & xe1 & Ae1 & Ge1 & xf & af & gf & ES1 & RA & RG & VX & VA & VG & (B1 & B2 & B3) & (H1 & H2 & H3) & PX & PA & PG & CS & CE);
    rewrite ?alloc_length, ?ER, ?EGn, ?EGm; auto.
  { rewrite (@new_msize XOps). auto. }
  rewrite ?ER, ?EGn, ?EGm in *.
  change (@F XOps) with (option R) in *. rewrite ES1 in ES. injection ES as <- <- <- <- <- <- <-.
  set (P := mkProb (pb_n U) (pb_p U) (pb_l U) (pb_q U) (pb_e U) (match A1 with Some A => dense A | None => pb_A U end) (dense G1)
    (fun i => pb_b U i / af i) (fun i => pb_h U i / gf i) (fun j => pb_c U j / xf j)).
  exists P, A1, G1, xf, af, gf.
  pose proof (rescaled_wf _ _ _ RG WG) as WG1.
  constructor; auto; try (split; congruence).
  - constructor; cbn; auto.
    + intros k p i Hin Hi. pose proof (lay_new_soc (O := XOps) _ _ _ _ Hin) as Hin'.
      exact (CS k (@new_soc XOps p) i Hin' Hi).
    + intros k i Hk Hi. assert (In ((pb_l U + list_sum (pb_q U) + 3 * k)%nat, @new_exp XOps) (lay (fun _ => 3%nat) (@hsize XOps (@new_cone XOps (pb_l U) (pb_q U) (pb_e U))) (co_expc (@new_cone XOps (pb_l U) (pb_q U) (pb_e U))))).
      { rewrite (@new_hsize XOps). apply lay_repeat. auto. }
      eapply CE; eauto.
    + intros i j Hi Hj. pose proof (us_A _ _ _ HU) as HA. destruct A0 as [A0|]; [|lia]. destruct HA as (HA1 & HA2 & HA3 & ->).
      destruct A1 as [A1|]; [|contradiction]. apply rescaled_div_dense; auto. lia.
    + intros i j Hi Hj. rewrite EGd. apply rescaled_div_dense; auto. lia.
  - constructor; cbn; rewrite ?W2, ?W3, ?W4, ?W5, ?W6, ?W7, ?W8, ?W12, ?W13, ?W14, ?alloc_length; auto.
    + rewrite (rs_n _ _ _ RG). auto.
    + rewrite (rs_m _ _ _ RG). auto.
    + intros Hp. destruct A0 as [A0|]; [|cbn in ER; lia]. destruct A1 as [A1|]; [|contradiction].
      destruct (us_A _ _ _ HU) as (HA1 & HA2 & HA3 & _). rewrite W1. split; [auto|].
      split; [eapply rescaled_wf; eauto|]. split; [rewrite (rs_n _ _ _ RA); auto|]. split; [rewrite (rs_m _ _ _ RA); auto|auto].
    + intros i Hi. rewrite (Hc i Hi). do 2 f_equal. field. apply Rgt_not_eq, PX. auto.
  - rewrite W3. split; [auto|]. intros i Hi. apply B3. auto.
  - rewrite W4. split; [auto|]. intros i Hi. apply H3. auto.
Qed.

Lemma scaled_copy_back U A0 G0 b h w P A1 G1 xe Ae Ge : user U A0 G0 ->
  xvec h (pb_m U) (pb_h U) -> xvec b (pb_p U) (pb_b U) ->
  scaled_copy U A0 G0 b h w P A1 G1 xe Ae Ge ->
  @ECOS_cleanup_data XOps w = Some (option_map xmat A0, xmat G0, b, h).
Proof.
  intros HU Hh Hb SC. pose proof (user_rows _ _ _ HU) as ER.
  pose proof (us_G _ _ _ HU) as (WG & EGn & EGm & EGd).
  destruct SC as [SB NM SA RA RG SB1 SH1]. pose proof (sb_m _ _ _ _ _ SB) as EmP.
  assert (E0: pb_n P = pb_n U) by apply (sb_n _ _ _ _ _ SB). assert (E1: pb_p P = pb_p U) by apply (sb_p _ _ _ _ _ SB).
  assert (WA: wfR A0 (sp_n G0)). { pose proof (us_A _ _ _ HU) as HA. destruct A0; cbn; auto. destruct HA as (HA & E2 & _). split; [auto|lia]. }
  assert (ER1: rowsR A1 = pb_p U). { rewrite <- ER. destruct A0, A1; cbn in *; try contradiction; auto. apply (rs_m _ _ _ RA). }
  assert (WG1: wf_sp G1) by (eapply rescaled_wf; eauto).
  assert (G1n: sp_n G1 = pb_n U) by (rewrite (rs_n _ _ _ RG); auto).
  assert (G1m: sp_m G1 = pb_m U) by (rewrite (rs_m _ _ _ RG); auto).
  assert (WA1: wfR A1 (sp_n G1)).
  { destruct A0, A1; cbn in *; try contradiction; auto. destruct WA. split; [eapply rescaled_wf; eauto|]. rewrite (rs_n _ _ _ RA). lia. }
  unfold ECOS_cleanup_data. change (@F XOps) with (option R) in *. rewrite SA, (nm_G _ _ _ _ _ _ _ NM).
  destruct (unset_equilibration_X A1 G1 (w_b w) (w_h w) (w_xequil w) (w_Aequil w) (w_Gequil w) xe Ae Ge (pb_b P) (pb_h P) WG1 WA1)
    as (A2 & G2 & b2 & h2 & E & RA2 & RG2 & (B1 & B2 & B3) & (H1 & H2 & H3)).
  { rewrite G1n, <- E0. apply (nm_xe _ _ _ _ _ _ _ NM). }
  { rewrite ER1, <- E1. apply (nm_Ae _ _ _ _ _ _ _ NM). }
  { rewrite G1m, <- EmP. apply (nm_Ge _ _ _ _ _ _ _ NM). }
  { rewrite ER1, <- E1. apply (nm_b _ _ _ _ _ _ _ NM). }
  { rewrite G1m, <- EmP. apply (nm_h _ _ _ _ _ _ _ NM). }
  rewrite E. rewrite ER1, G1m in *. f_equal. f_equal; [f_equal; [f_equal|]|].
  - destruct A0 as [A0|], A1 as [A1|], A2 as [A2|]; cbn in *; try contradiction; auto. do 2 f_equal.
    eapply rescaled_same; [apply WA|eapply rescaled_trans; eassumption|].
    intros r c v Hr Hc. cbn. unfold divR. pose proof (sb_Ae _ _ _ _ _ SB r ltac:(lia)). pose proof (sb_xe _ _ _ _ _ SB c ltac:(lia)). field. lra.
  - f_equal. eapply rescaled_same; [apply WG|eapply rescaled_trans; eassumption|].
    intros r c v Hr Hc. cbn. unfold divR. pose proof (sb_Ge _ _ _ _ _ SB r ltac:(lia)). pose proof (sb_xe _ _ _ _ _ SB c ltac:(lia)). field. lra.
  - apply arr_ext; [rewrite B1; apply SB1|]. intros i. destruct (Nat.lt_ge_cases i (pb_p U)) as [Hi|Hi].
    + refine (eq_trans (B2 i Hi) (eq_trans _ (eq_sym (Hb i Hi)))). do 2 f_equal. rewrite (sb_b _ _ _ _ _ SB i Hi). pose proof (sb_Ae _ _ _ _ _ SB i Hi). field. lra.
    + refine (eq_trans (B3 i Hi) (proj2 SB1 i Hi)).
  - apply arr_ext; [rewrite H1; apply SH1|]. intros i. destruct (Nat.lt_ge_cases i (pb_m U)) as [Hi|Hi].
    + refine (eq_trans (H2 i Hi) (eq_trans _ (eq_sym (Hh i Hi)))). do 2 f_equal. rewrite (sb_h _ _ _ _ _ SB i Hi). pose proof (sb_Ge _ _ _ _ _ SB i Hi). field. lra.
    + refine (eq_trans (H3 i Hi) (proj2 SH1 i Hi)).
Qed.
