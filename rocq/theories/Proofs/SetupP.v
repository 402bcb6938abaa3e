(* ECOS_setup builds the workspace layout of Work.v.  Arithmetic is arbitrary. *)
From Coq Require Import List Arith Bool ZArith Lia.
From Verif Require Import Base Num.
From Verif.Model Require Import Spla Splamm Types Consts Expcone Cone Ldl Kkt Equil Preproc.
From Verif.Spec Require Import Matrix Fill KktSpec Shape SetupSpec.
From Verif.Proofs Require Import CountSort SplaP SplammP LoopLib LdlSym KktAsm KktMat KktUpd Layout EquilP EquilX Work.
Import ListNotations.
Open Scope nat_scope.

Lemma wp_perm {T} (cols : list (col T)) ND pf (C : spmat T) pi PK (Q : spmat T * arr nat -> Prop) :
  allc (okc ND) 0 cols -> is_perm (length cols) pf -> vec pi (length cols) pf ->
  sp_n C = length cols -> sp_m C = length cols -> sp_nnz C = length (concat cols) ->
  length (sp_jc C) = length cols + 1 -> get (sp_jc C) (length cols) = Some (length (concat cols)) ->
  length (concat cols) <= length (sp_ir C) -> length (concat cols) <= length (sp_pr C) -> length (concat cols) <= length PK ->
  (forall C' PK', permuted cols pf C' PK' -> length (sp_jc C') = length cols + 1 ->
     length (sp_ir C') = length (sp_ir C) -> length (sp_pr C') = length (sp_pr C) -> length PK' = length PK -> Q (C', PK')) ->
  wp (permuteSparseSymmetricMatrix (mat_of cols) pi C PK) Q.
Proof.
  intros A P V N1 N2 N3 L1 G1 L2 L3 L4 H.
  pose proof (pm_wfM cols ND A) as W. pose proof (pm_upM cols ND A) as U.
  destruct (permute_spec (mat_of cols) W eq_refl U pf P (colof (mat_of cols)) (colof_spec (mat_of cols) W) C pi PK)
    as (C' & PK' & E & H1 & H2 & H3 & H4 & H5 & H6 & H7 & H8 & H9); auto.
  apply (wp_intro _ _ _ E). apply H; auto.
  assert (IN : forall t, t < length (concat cols) -> exists j, in_col (mat_of cols) j t).
  { intros t Ht. apply (in_col_exists (mat_of cols) t W). exact Ht. }
  constructor.
  - constructor; auto. intros j k Hk. destruct (H9 j k Hk) as (X1 & X2 & _). auto.
  - constructor.
    + intros t e0 He. assert (Ht : t < length (concat cols)) by (apply nth_error_Some; congruence).
      destruct (IN t Ht) as [j Hj]. destruct (H9 j t Hj) as (X1 & X2 & X3). eexists. split; [exact X1|]. rewrite X3.
      cbn. rewrite get_arr_of, nth_error_map, He. auto.
    + intros t t' k Ht Ht' E1 E2. destruct (IN t Ht) as [j Hj]. destruct (IN t' Ht') as [j' Hj'].
      destruct (H9 j t Hj) as (X1 & _). destruct (H9 j' t' Hj') as (X2 & _).
      rewrite X1 in E1. rewrite X2 in E2. rewrite <- E2 in E1. injection E1 as E1. apply pos_inj in E1; auto.
Qed.

Lemma permuted_det {T} (cols : list (col T)) ND pf P1 K1 P2 K2 : allc (okc ND) 0 cols ->
  permuted cols pf P1 K1 -> permuted cols pf P2 K2 ->
  length (sp_jc P1) = length cols + 1 -> length (sp_jc P2) = length cols + 1 ->
  length (sp_ir P1) = length (concat cols) -> length (sp_ir P2) = length (concat cols) ->
  length (sp_pr P1) = length (concat cols) -> length (sp_pr P2) = length (concat cols) ->
  P1 = P2.
Proof.
  intros A H1 H2 J1 J2 I1 I2 R1 R2.
  pose proof (pd_pat _ _ _ _ H1) as T1. pose proof (pd_pat _ _ _ _ H2) as T2.
  assert (X : forall U (a b : arr U) N, length a = N -> length b = N -> (forall i, i < N -> get a i = get b i) -> a = b).
  { intros U a b N La Lb Hx. apply arr_ext; [congruence|]. intros i. destruct (Nat.lt_ge_cases i N); auto.
    destruct (get a i) eqn:Ga; [apply get_lt in Ga; lia|]. destruct (get b i) eqn:Gb; auto. apply get_lt in Gb. lia. }
  pose proof (pt_nnz _ _ _ _ T1) as Z1. pose proof (pt_nnz _ _ _ _ T2) as Z2.
  assert (S : forall i, i < length (concat cols) -> exists j k, in_col (mat_of cols) j k /\ ppos (mat_of cols) pf (colof (mat_of cols)) k = i).
  { intros i Hi. apply (pm_surj cols pf P1 K1 H1 ND A). lia. }
  destruct P1 as [jc1 ir1 pr1 n1 m1 z1] eqn:EP1, P2 as [jc2 ir2 pr2 n2 m2 z2] eqn:EP2. rewrite <- EP1, <- EP2 in *.
  assert (F1 : sp_n P1 = sp_n P2) by (rewrite (pt_n _ _ _ _ T1), (pt_n _ _ _ _ T2); auto).
  assert (F2 : sp_m P1 = sp_m P2) by (rewrite (pt_m _ _ _ _ T1), (pt_m _ _ _ _ T2); auto).
  assert (F3 : sp_nnz P1 = sp_nnz P2) by congruence.
  assert (F4 : sp_jc P1 = sp_jc P2).
  { apply (X _ _ _ _ J1 J2). intros i Hi. rewrite (pt_jc _ _ _ _ T1), (pt_jc _ _ _ _ T2) by lia. auto. }
  assert (F5 : sp_ir P1 = sp_ir P2).
  { apply (X _ _ _ _ I1 I2). intros i Hi. destruct (S i Hi) as (j & k & Hk & <-).
    destruct (pm_ent cols pf P1 K1 H1 ND A j k Hk) as (_ & -> & _). destruct (pm_ent cols pf P2 K2 H2 ND A j k Hk) as (_ & -> & _). auto. }
  assert (F6 : sp_pr P1 = sp_pr P2).
  { apply (X _ _ _ _ R1 R2). intros i Hi. destruct (S i Hi) as (j & k & Hk & <-).
    destruct (pm_ent cols pf P1 K1 H1 ND A j k Hk) as (_ & _ & ->). destruct (pm_ent cols pf P2 K2 H2 ND A j k Hk) as (_ & _ & ->). auto. }
  rewrite EP1, EP2 in *. cbn in *. congruence.
Qed.

Lemma wp_compmap (mp toK : arr nat) nnz (f : nat -> nat) (Q : arr nat -> Prop) :
  (forall i, i < nnz -> exists t, get mp i = Some t /\ get toK t = Some (f i)) ->
  (forall a, length a = nnz -> vec a nnz f -> Q a) ->
  wp (for_ 0 nnz (fun i a => t <- get mp i ;; v <- get toK t ;; set a i v) (alloc nnz)) Q.
Proof.
  intros H K.
  destruct (for_fill f 0 0 nnz (fun i a => t <- get mp i ;; v <- get toK t ;; set a i v) (alloc nnz)) as (a' & E & L & W).
  - intros i a' Hi _. destruct (H i) as (t & E1 & E2); [lia|]. rewrite E1. cbn [bind]. rewrite E2. auto.
  - rewrite alloc_length. auto.
  - lia.
  - apply (wp_intro _ _ _ E). rewrite alloc_length in L. apply K; auto. intros i Hi. rewrite W. beq; try lia. cbn. f_equal. f_equal. lia.
Qed.

Lemma in_col_t {T} (M Mt : spmat T) k : wf_sp M -> sp_n Mt = sp_m M ->
  (forall r, r <= sp_m M -> get (sp_jc Mt) r = Some (tstart M r)) -> k < sp_nnz M ->
  in_col Mt (gd 0 (sp_ir M) k) (tpos M k) /\ gd 0 (sp_jc Mt) (gd 0 (sp_ir M) k) = tstart M (gd 0 (sp_ir M) k).
Proof.
  intros W N J Hk. pose proof (wf_row M W k Hk) as Hr.
  pose proof (pos_bounds allsel (fun k => gd 0 (sp_ir M) k) (sp_nnz M) k Hk eq_refl) as B.
  assert (E0 : gd 0 (sp_jc Mt) (gd 0 (sp_ir M) k) = tstart M (gd 0 (sp_ir M) k)) by (apply gd_get, J; lia).
  split; auto. split; [lia|]. rewrite E0. rewrite (gd_get _ _ _ _ (J (gd 0 (sp_ir M) k + 1) ltac:(lia))).
  rewrite Nat.add_1_r. exact B.
Qed.

Lemma full_vec {T} (d : T) a n : full a n -> vec a n (gd d a).
Proof. intros H i Hi. destruct (H i Hi) as [v E]. rewrite E. f_equal. symmetry. apply gd_get. auto. Qed.
Lemma vec_full {T} (a : arr T) n f : vec a n f -> full a n.
Proof. intros H i Hi. exists (f i). auto. Qed.

Section Setup.
Context `{O : Ops}.

Lemma mkG_ok n m (M : spmat F) : wf_sp M -> sp_n M = n -> sp_m M = m -> @mkG O n m (data_of M) = Some M.
Proof.
  intros W <- <-. unfold mkG, data_of. rewrite (wf_jc M W (sp_n M)) by lia. cbn [bind].
  unfold ecoscreateSparseMatrix. rewrite (wf_nnz M W). rewrite upd_same; [destruct M; reflexivity|].
  rewrite (wf_jc M W (sp_n M)) by lia. f_equal. apply (wf_nnz M W).
Qed.

Lemma mkA_ok n p (A : option (spmat F)) : okA n p A -> @mkA O n p (option_map data_of A) = Some A.
Proof.
  destruct A as [A|]; cbn [okA option_map]; auto. intros (W & En & Em & _).
  pose proof (mkG_ok n p A W En Em) as H. unfold mkG, data_of in H. unfold mkA, data_of.
  destruct (get (sp_jc A) n) as [z|]; [|discriminate]. cbn [bind] in *. rewrite H. reflexivity.
Qed.

Lemma new_cone_of l q e : (forall d, In d q -> 1 <= d) -> cone_of (new_cone l q e) l q e.
Proof.
  intros H. constructor; auto.
  - constructor; try (cbn; rewrite alloc_length; auto; fail).
    + cbn [co_fexv new_cone]. rewrite new_hsize. lia.
    + cbn. intros c Hc. apply in_map_iff in Hc. destruct Hc as (d & <- & Hd). apply H, Hd.
    + cbn. intros c Hc. apply in_map_iff in Hc. destruct Hc as (d & <- & Hd). cbn. apply alloc_length.
    + cbn. intros c Hc. apply in_map_iff in Hc. destruct Hc as (d & <- & Hd). cbn. apply alloc_length.
    + cbn. intros c Hc. apply in_map_iff in Hc. destruct Hc as (d & <- & Hd). cbn. apply alloc_length.
    + cbn. intros c Hc. apply repeat_spec in Hc. subst c. reflexivity.
    + cbn. intros c Hc. apply repeat_spec in Hc. subst c. reflexivity.
  - cbn. rewrite map_map. cbn. apply map_id.
  - unfold nexc. cbn. apply repeat_length.
Qed.

Lemma cone_of_idx C l q e idx soc' expc' : cone_of C l q e ->
  same_but_didx (co_soc C) soc' -> same_but_colstart (co_expc C) expc' ->
  cone_of (mkCone (set_lp_kkt_idx (co_lpc C) idx) soc' expc' (co_fexv C)) l q e.
Proof.
  intros [Sh HL Hq He] S1 S2. pose proof (same_didx_p _ _ S1) as P1.
  assert (L2 : length expc' = length (co_expc C)) by (clear - S2; induction S2; cbn; auto).
  assert (X1 : forall c, In c soc' -> exists c0, In c0 (co_soc C) /\ c = set_so_Didx c0 (so_Didx c)).
  { clear - S1. induction S1 as [|a b u v H S1 IH]; intros c Hc; [destruct Hc|]. destruct Hc as [<-|Hc].
    - exists a. split; [left; auto|auto].
    - destruct (IH c Hc) as (c0 & I0 & E0). exists c0. split; [right; auto|auto]. }
  assert (X2 : forall c, In c expc' -> exists c0, In c0 (co_expc C) /\ c = set_ex_colstart c0 (ex_colstart c)).
  { clear - S2. induction S2 as [|a b u v H S2 IH]; intros c Hc; [destruct Hc|]. destruct Hc as [<-|Hc].
    - exists a. split; [left; auto|auto].
    - destruct (IH c Hc) as (c0 & I0 & E0). exists c0. split; [right; auto|auto]. }
  destruct Sh as [h1 h2 h3 h4 h5 h6 h7 h8 h9].
  constructor.
  - constructor; cbn [co_lpc co_soc co_expc co_fexv].
    + exact h1.
    + exact h2.
    + rewrite h3. unfold hsize, lpp. cbn. rewrite P1. auto.
    + intros c Hc. destruct (X1 c Hc) as (c0 & I0 & E0). rewrite E0. cbn. auto.
    + intros c Hc. destruct (X1 c Hc) as (c0 & I0 & E0). rewrite E0. cbn. auto.
    + intros c Hc. destruct (X1 c Hc) as (c0 & I0 & E0). rewrite E0. cbn. auto.
    + intros c Hc. destruct (X1 c Hc) as (c0 & I0 & E0). rewrite E0. cbn. auto.
    + intros c Hc. destruct (X2 c Hc) as (c0 & I0 & E0). rewrite E0. cbn. auto.
    + intros c Hc. destruct (X2 c Hc) as (c0 & I0 & E0). rewrite E0. cbn. auto.
  - exact HL.
  - cbn. congruence.
  - unfold nexc in *. cbn. congruence.
Qed.

(* the values setup writes in the conic block *)
Definition id_soc (q : list nat) : list (nat * socv F) := map (fun d => (d, socv_id)) q.
Definition id_exp (e : nat) : list (expv F) := repeat expv_id e.

Definition set_up_as (L : lay) (amd : amd_oracle) (w : pwork F) : Prop :=
  ws L (fun _ => (- f1)%fl) (id_soc (ly_q L)) (id_exp (ly_e L)) w /\
  w_best w = None /\ w_stgs w = default_settings.

Variables (amd : amd_oracle) (junk : pwork F) (n m p l : nat) (q : list nat) (e : nat)
  (G0 : spmat F) (A0 : option (spmat F)) (c h b : arr F).

Definition setup_call := ECOS_setup amd junk n m p l q e (data_of G0) (option_map data_of A0) c h b.

Lemma setup_refuses : l + list_sum q + 3 * e <> m -> setup_call = Some None.
Proof.
  intros H. unfold setup_call, ECOS_setup.
  destruct (Nat.eqb_spec (list_sum q + l + 3 * e) m) as [E|Ne]; [lia|]. reflexivity.
Qed.

Hypothesis WG : wf_sp G0.
Hypothesis Gn : sp_n G0 = n.
Hypothesis Gm : sp_m G0 = m.
Hypothesis TG : transposable G0.
Hypothesis HA : okA n p A0.
Hypothesis Hq : forall d, In d q -> 1 <= d.
Hypothesis Hc : full c n.
Hypothesis Hh : full h m.
Hypothesis Hb : full b p.
Hypothesis AM : amd_ok amd.

(* the layout holds the transposes of A and G *)
Definition transp (L : lay) (A : option (spmat F)) (G : spmat F) : Prop :=
  wf_sp G /\ sp_n G = ly_n L /\ sp_m G = ly_m L /\ transposable G /\ transposed G (ly_Gt L) /\
  match A, ly_At L with
  | Some A, Some At => wf_sp A /\ sp_n A = ly_n L /\ sp_m A = ly_p L /\ transposable A /\ transposed A At
  | None, None => ly_p L = 0
  | _, _ => False
  end.

Lemma setup_wp_call (Q : option (pwork F) -> Prop) :
  l + list_sum q + 3 * e = m ->
  (forall L A G, ly_n L = n -> ly_p L = p -> ly_l L = l -> ly_q L = q -> ly_e L = e ->
     transp L A G -> same_pattern G0 G -> same_patternA A0 A ->
     let cols := ly_cols L (fun _ => (- f1)%fl) (id_soc q) (id_exp e) in
     amd (ly_nK L) (sp_jc (mat_of cols)) (sp_ir (mat_of cols)) = None -> Q None) ->
  (forall L w, ly_n L = n -> ly_p L = p -> ly_l L = l -> ly_q L = q -> ly_e L = e ->
     set_up_as L amd w -> w_c w = c -> same_pattern G0 (w_G w) -> same_patternA A0 (w_A w) ->
     let cols := ly_cols L (fun _ => (- f1)%fl) (id_soc q) (id_exp e) in
     amd (ly_nK L) (sp_jc (mat_of cols)) (sp_ir (mat_of cols)) <> None -> Q (Some w)) ->
  wp setup_call Q.
Proof.
  intros Em QN QS. unfold setup_call, ECOS_setup.
  destruct (Nat.eqb_spec (list_sum q + l + 3 * e) m) as [E|Ne]; [clear E|lia]. cbn [negb].
  pose proof (mkA_ok n p A0 HA) as EA. unfold mkA in EA. wb. apply (wp_intro _ _ _ EA). clear EA. cbv beta.
  pose proof (mkG_ok n m G0 WG Gn Gm) as EG. unfold mkG in EG. wb. apply (wp_intro _ _ _ EG). clear EG. cbv beta.
  assert (RA : rowsA A0 = p). { destruct A0 as [A|]; cbn in HA |- *; intuition. }
  destruct (set_equilibration_eq (fun _ => True) (fun _ => True) (fun _ => True)
      ltac:(auto) ltac:(auto) I ltac:(auto) ltac:(auto)
      (new_cone l q e) A0 G0 b h (alloc n) (alloc p) (alloc m) (gd f0 b) (gd f0 h))
    as (A & G & b' & h' & xe & Ae & Ge & x1 & x2 & x3 & a1 & a2 & a3 & g1 & g2 & g3 & ES & Lx & La & Lg & SA & SG & Vx & Va & Vg & (Lb & Vb & _) & (Lh & Vh & _) & _).
  { exact WG. }
  { destruct A0 as [A|]; cbn in HA |- *; intuition congruence. }
  { intros ? ? ? ?; exact I. }
  { destruct A0; cbn; auto. intros ? ? ? ?; exact I. }
  { rewrite new_msize. lia. }
  { rewrite alloc_length; lia. }
  { rewrite alloc_length; lia. }
  { rewrite alloc_length; lia. }
  { rewrite RA. apply full_vec; auto. }
  { rewrite Gm. apply full_vec; auto. }
  rewrite RA, Gm, Gn in *. rewrite alloc_length in Lx, La, Lg.
  wb. apply (wp_intro _ _ _ ES). cbv beta iota. clear ES.
  (* transposes *)
  pose proof (rescaled_wf _ _ _ SG WG) as WG'.
  assert (Gn' : sp_n G = n) by (rewrite (rs_n _ _ _ SG); auto).
  assert (Gm' : sp_m G = m) by (rewrite (rs_m _ _ _ SG); auto).
  assert (TG' : transposable G). { unfold transposable in *. rewrite (rs_m _ _ _ SG), (rs_nnz _ _ _ SG). auto. }
  assert (HA' : okA n p A).
  { destruct A0 as [A1|], A as [A|]; cbn in SA; try contradiction; auto.
    destruct HA as (W & E1 & E2 & E3). unfold okA, transposable in *.
    rewrite (rs_n _ _ _ SA), (rs_m _ _ _ SA), (rs_nnz _ _ _ SA). csplit; auto. eapply rescaled_wf; eauto. }
  assert (SPG : same_pattern G0 G) by (destruct SG; repeat split; auto).
  assert (SPA : same_patternA A0 A) by (destruct A0, A; cbn in SA |- *; auto; destruct SA; repeat split; auto).
  clear SA SG.
  assert (TA : exists At mpA, (match A with
        | Some A => '(At, mp) <- transposeSparseMatrix A (alloc (sp_nnz A)) ;; Some (Some At, mp)
        | None => Some (None, [])
        end) = Some (At, mpA) /\
      match A, At with
      | Some A, Some At => transposeSparseMatrix A (alloc (sp_nnz A)) = Some (At, mpA) /\ wf_sp At /\ sp_n At = p /\ sp_m At = n /\ sp_nnz At = sp_nnz A /\
          (forall r, r <= sp_m A -> get (sp_jc At) r = Some (tstart A r)) /\ (forall k, k < sp_nnz A -> get mpA k = Some (tpos A k))
      | None, None => p = 0
      | _, _ => False end).
  { destruct A as [A|]; [|eexists _, _; split; [reflexivity|exact HA']].
    destruct HA' as (W & E1 & E2 & E3).
    destruct (transpose_ok A W E3) as (At & mp & ET & W' & F1 & F2 & F3 & F4 & F5 & F6 & F7).
    exists (Some At), mp. rewrite ET. split; [reflexivity|]. csplit; auto; try congruence.
    intros k Hk. destruct (in_col_exists A k W Hk) as [j Hj]. apply (F6 j k Hj). }
  destruct TA as (At & mpA & ET & TA). wb. apply (wp_intro _ _ _ ET). clear ET. cbv beta iota.
  destruct (transpose_ok G WG' TG') as (Gt & mpG & EG & WGt & Gtn & Gtm & Gtz & LmG & JG & IG & _).
  wb. apply (wp_intro _ _ _ EG). cbv beta iota.
  set (nnzA := match A with Some A1 => sp_nnz A1 | None => 0 end).
  pose proof (new_cone_of l q e Hq) as CO.
  set (L0 := mkLay n p l q e At Gt).
  set (cols := kkt_cols (colent f0 Gt) n p (acol f0 At) DELTASTAT (- DELTASTAT)%fl l (fun _ => (- f1)%fl) (id_soc q) (id_exp e)).
  assert (Pp : match At with Some At => sp_n At | None => 0 end = p).
  { destruct A as [A|], At as [At|]; try contradiction; intuition. }
  assert (EC : id_cols f0 (sp_m Gt) (match At with Some At => sp_n At | None => 0 end) At Gt (new_cone l q e) = cols).
  { unfold id_cols, cols. rewrite Pp, Gtm, Gn'. unfold id_soc, id_exp, lpp, new_cone. cbn. rewrite map_map. f_equal.
    clear. induction e; cbn; f_equal; auto. }
  wb. apply (createKKT_U_wp f0 Gt At (new_cone l q e)); rewrite ?EC, ?Pp, ?Gtm, ?Gn'; auto.
  { rewrite new_msize. lia. }
  { destruct A as [A|], At as [At|]; try contradiction; auto. destruct TA as (_ & W & _ & _ & Z & _). split; [right; auto|].
    unfold nnzA. rewrite alloc_length. auto. }
  { rewrite alloc_length. auto. }
  { intros c0 Hc0. cbn in Hc0. apply in_map_iff in Hc0. destruct Hc0 as (d & <- & Hd). apply Hq, Hd. }
  { intros c0 Hc0. cbn in Hc0. apply in_map_iff in Hc0. destruct Hc0 as (d & <- & Hd). cbn. apply alloc_length. }
  { intros c0 Hc0. apply repeat_spec in Hc0. subst c0. reflexivity. }
  { cbn. apply alloc_length. }
  intros Sign K AttoK GttoK idx soc' expc' LS VS SK LK1 LK2 LK3 TOKA TOKG C' IXl S1 IXs S2 IXe. cbv beta iota.
  assert (CO' : cone_of C' l q e) by (apply cone_of_idx; auto).
  change (lpp (new_cone l q e)) with l in *.
  assert (Eq1 : map so_p (co_soc (new_cone l q e)) = q) by (apply (co_q _ _ _ _ CO)).
  rewrite Eq1 in *.
  apply stores_mat_of in SK; auto. subst K. clear LK1 LK2 LK3.
  (* the two position maps *)
  wb. apply (wp_compmap mpA AttoK nnzA (fun k => KktSpec.start cols (n + gd 0 (match A with Some A => sp_ir A | None => [] end) k)
         + match A with Some A => tpos A k - tstart A (gd 0 (sp_ir A) k) | None => 0 end)).
  { intros k Hk. unfold nnzA in Hk. destruct A as [A|]; [|lia]. destruct At as [At|]; [|contradiction].
    destruct TA as (_ & W & N1 & N2 & Z & J & Mp). destruct HA' as (WA & An & Am & _).
    exists (tpos A k). split; auto. destruct TOKA as [_ TOKA].
    destruct (in_col_t A At k WA ltac:(congruence) J Hk) as [I1 I2]. pose proof (wf_row A WA k Hk).
    destruct (TOKA (gd 0 (sp_ir A) k) (tpos A k)) as [_ R]; [lia|exact I1|]. rewrite R, I2. auto. }
  intros AtoK LA VA. cbv beta.
  wb. apply (wp_compmap mpG GttoK (sp_nnz G) (fun k => KktSpec.start cols (n + p + zidx l q (gd 0 (sp_ir G) k))
         + (tpos G k - tstart G (gd 0 (sp_ir G) k)))).
  { intros k Hk. destruct (in_col_exists G k WG' Hk) as [j Hj]. exists (tpos G k). split; [apply (IG j k Hj)|].
    destruct TOKG as [_ TOKG]. pose proof (wf_row G WG' k Hk).
    destruct (in_col_t G Gt k WG' Gtn JG Hk) as [I1 I2].
    destruct (TOKG (gd 0 (sp_ir G) k) (tpos G k)) as [_ R]; [lia|exact I1|]. rewrite R, I2. auto. }
  intros GtoK LG VG. cbv beta.
  cbn [sp_n sp_nnz mat_of].
  assert (OKC : allc (okc False) 0 cols).
  { apply (ly_okc (L0 (fun i => i) (fun _ => None) (fun _ _ => false))); cbn; auto.
    - unfold id_soc. rewrite map_map. cbn. apply map_id.
    - unfold id_exp. apply repeat_length.
    - change (sp_n Gt = l + list_sum q + 3 * e). lia.
    - congruence.
    - destruct A as [A|], At as [At|]; try contradiction; intuition. }
  assert (LC : length cols = n + p + m + 2 * length q).
  { unfold cols. rewrite kkt_cols_length. unfold id_soc, id_exp. rewrite map_map, map_length, repeat_length. cbn. rewrite map_id. lia. }
  wb. rewrite newSparseMatrix_ok. apply (wp_intro _ _ _ eq_refl). cbv beta.
  set (nK := length cols) in *. set (nz := length (concat cols)) in *.
  destruct (amd nK (sp_jc (mat_of cols)) (sp_ir (mat_of cols))) as [P|] eqn:EP.
  2:{ apply (wp_intro _ _ _ eq_refl). apply (QN (L0 (fun i => i) (fun _ => None) (fun _ _ => false)) A G); auto.
      { unfold transp. csplit; auto.
        - unfold ly_m. cbn [ly_l ly_q ly_e L0]. lia.
        - exists mpG. exact EG.
        - destruct A as [A|], At as [At|]; try contradiction; cbn; auto. destruct HA' as (X1 & X2 & X3 & X4). csplit; auto. exists mpA. apply TA. }
      unfold ly_nK, ly_mt, ly_m; cbn [ly_n ly_p ly_l ly_q ly_e L0]. 
      replace (n + p + (l + list_sum q + 3 * e + 2 * length q)) with nK by (rewrite LC; lia). exact EP. }
  destruct (AM _ _ _ _ EP) as (pf0 & PP0 & VP0).
  destruct (pinv_spec nK pf0 P (alloc nK) VP0 PP0) as (Pinv & EPi & LPi & GPi & HPi & _).
  { rewrite alloc_length; auto. }
  wb. apply (wp_intro _ _ _ EPi). cbv beta. clear EPi. rewrite alloc_length in LPi.
  set (pf := gd 0 Pinv).
  assert (VPi : vec Pinv nK pf).
  { intros j Hj. destruct (HPi j Hj) as (i & E1 & _). rewrite E1. f_equal. symmetry. apply gd_get. auto. }
  assert (PP : is_perm nK pf).
  { split.
    - intros i Hi. destruct (HPi i Hi) as (i' & E1 & E2 & _). unfold pf. rewrite (gd_get _ _ _ _ E1). auto.
    - intros i j Hi Hj E1. destruct (HPi i Hi) as (i1 & F1 & _ & F2). destruct (HPi j Hj) as (j1 & F3 & _ & F4).
      unfold pf in E1. rewrite (gd_get _ _ _ _ F1), (gd_get _ _ _ _ F3) in E1. congruence. }
  wb. apply (wp_perm cols False pf); auto; cbn [sp_n sp_m sp_nnz sp_jc sp_ir sp_pr]; rewrite ?upd_length, ?alloc_length; auto.
  { rewrite get_upd by (rewrite upd_length, alloc_length; fold nK; lia). rewrite Nat.eqb_refl. auto. }
  intros Pm PK PM LJ LI LP LPK. cbv beta iota.
  (* signs *)
  wb. eapply wp_conseq.
  { instantiate (1 := fun a => length a = nK /\ forall i, i < nK -> get a (pf i) = Some (ksign n p l q i)).
    apply (wp_for (fun i a => length a = nK /\ forall k, k < i -> get a (pf k) = Some (ksign n p l q k))).
    - lia.
    - rewrite alloc_length. split; auto. intros k Hk; lia.
    - intros i a Hi [La2 Ga]. wget VPi. wget VS. pose proof (proj1 PP i ltac:(lia)).
      wset a' L' G'; [lia|]. split; [lia|]. intros k Hk. rewrite G'.
      destruct (Nat.eqb_spec (pf k) (pf i)) as [E1|N1].
      + apply (proj2 PP) in E1; [subst; auto|lia|lia].
      + apply Ga. assert (k <> i) by congruence. lia.
    - auto. }
  intros SignP [LSP GSP].
  (* symbolic factorisation *)
  pose proof (pm_wf cols pf Pm PK PM False OKC) as WPm. pose proof (pm_upper cols pf Pm PK PM False OKC) as UPm.
  pose proof (pd_pat _ _ _ _ PM) as PT. 
  assert (Pn : sp_n Pm = nK) by apply (pt_n _ _ _ _ PT). assert (Pmm : sp_m Pm = nK) by apply (pt_m _ _ _ _ PT).
  assert (Pz : sp_nnz Pm = nz) by apply (pt_nnz _ _ _ _ PT).
  wb. rewrite <- Pn at 1. apply (LDL_symbolic2_wp Pm WPm UPm ltac:(congruence)); rewrite ?Pn, ?alloc_length; auto.
  intros par R Ljc Parent Lnz Flag SS LLj VLj. cbv beta iota.
  wb. eapply wp_get; [apply VLj; lia|]. cbv beta.
  set (lnz := starts (Fill.cnt R nK) nK) in *.
  wb. unfold ecoscreateSparseMatrix. rewrite upd_same by (apply VLj; lia). apply (wp_intro _ _ _ eq_refl). cbv beta.
  wb. apply (wp_perm cols False pf); auto; rewrite ?LI, ?LP; cbn [sp_ir sp_pr]; rewrite ?alloc_length; auto.
  { change (get (sp_jc Pm) nK = Some nz). rewrite <- Pn, (wf_jc Pm WPm (sp_n Pm)) by lia. f_equal. rewrite (wf_nnz Pm WPm). auto. }
  intros Pm2 PK2 PM2 LJ2 LI2 LP2 LPK2. cbv beta iota.
  assert (EPm : Pm2 = Pm) by (apply (permuted_det cols False pf Pm2 PK2 Pm PK); auto). subst Pm2.
  apply (wp_intro _ _ _ eq_refl).
  set (L := L0 pf par R).
  pose proof (ss_et _ _ _ _ _ _ _ SS) as S_et.
  pose proof (ss_P _ _ _ _ _ _ _ SS) as S_P.
  pose proof (ss_lF _ _ _ _ _ _ _ SS) as S_F. rewrite Pn in S_F.
  pose proof (ss_lL _ _ _ _ _ _ _ SS) as S_L. rewrite Pn in S_L.
  assert (Em' : ly_m L = m) by (change (l + list_sum q + 3 * e = m); lia).
  assert (EnK : ly_nK L = nK) by (unfold ly_nK, ly_mt; rewrite Em'; change (n + p + (m + 2 * length q) = nK); lia).
  apply (QS L); auto; [|rewrite EnK; fold cols; change (ly_cols L (fun _ => (- f1)%fl) (id_soc q) (id_exp e)) with cols; rewrite EP; discriminate].
  split; [|split; reflexivity].
  constructor; cbn [w_n w_m w_p w_D w_C w_A w_G w_AtoK w_GtoK w_KKT w_c w_b w_h w_xequil w_Aequil w_Gequil w_x w_y w_z w_s w_lambda w_best_x w_best_y w_best_z w_best_s w_dsaff w_W_times_dzaff w_dsaff_by_W w_rx w_ry w_rz];
    rewrite ?Em', ?alloc_length; auto.
  - constructor.
    + exact IXl.
    + rewrite (co_l _ _ _ _ CO'). exact IXs.
    + assert (HS : hsize C' = hsize (new_cone l q e)) by (unfold hsize; rewrite (co_l _ _ _ _ CO'), (co_q _ _ _ _ CO'), (co_l _ _ _ _ CO), (co_q _ _ _ _ CO); auto).
      assert (NS : nsoc C' = nsoc (new_cone l q e)) by (unfold nsoc; rewrite <- !(map_length so_p), (co_q _ _ _ _ CO'), (co_q _ _ _ _ CO); auto).
      rewrite HS, NS. exact IXe.
  - constructor; rewrite ?Em'; auto.
    + split; auto. exists mpG. exact EG.
    + destruct A as [A|], At as [At|]; try contradiction; cbn; auto. destruct HA' as (X1 & X2 & X3 & X4).
      csplit; auto. exists mpA. apply TA.
    + destruct A as [A|]; auto.
  - constructor; cbn [kk_PKPt kk_PK kk_Pinv kk_Sign kk_Parent kk_L kk_D kk_work1 kk_work2 kk_work3 kk_work4 kk_work5 kk_work6 kk_RHS1 kk_RHS2 kk_dx1 kk_dx2 kk_dy1 kk_dy2 kk_dz1 kk_dz2 kk_Pattern kk_Flag kk_Lnz sp_n sp_m sp_nnz sp_jc sp_ir sp_pr];
      rewrite ?EnK, ?Em', ?alloc_length; auto.
    + unfold id_soc. rewrite map_map. cbn. apply map_id.
    + unfold id_exp. apply repeat_length.
  - eapply vec_full; eauto.
  - eapply vec_full; eauto.
  - eapply vec_full; eauto.
  - eapply vec_full; eauto.
  - eapply vec_full; eauto.
Qed.

Lemma setup_wp (Q : option (pwork F) -> Prop) :
  l + list_sum q + 3 * e = m ->
  (forall L, ly_n L = n -> ly_p L = p -> ly_l L = l -> ly_q L = q -> ly_e L = e ->
     let cols := ly_cols L (fun _ => (- f1)%fl) (id_soc q) (id_exp e) in
     amd (ly_nK L) (sp_jc (mat_of cols)) (sp_ir (mat_of cols)) = None -> Q None) ->
  (forall L w, ly_n L = n -> ly_p L = p -> ly_l L = l -> ly_q L = q -> ly_e L = e ->
     set_up_as L amd w -> w_c w = c -> same_pattern G0 (w_G w) -> same_patternA A0 (w_A w) -> Q (Some w)) ->
  wp setup_call Q.
Proof.
  intros Em QN QS. apply setup_wp_call; [exact Em| |].
  - intros L A G E1 E2 E3 E4 E5 _ _ _. apply QN; assumption.
  - intros L w E1 E2 E3 E4 E5 S1 S2 S3 S4 cols _. apply (QS L); assumption.
Qed.
End Setup.
