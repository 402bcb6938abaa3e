(* Transfer of the exit logic along a reading of the numbers.

   [reads O phi]: every operation of O computes exactly what phi says, where
   phi maps a number of O to a real or to NaN.  XOps itself is such an O; HOps
   below is another one, which keeps rationals as rationals and so can be run. *)
From Coq Require Import List Arith Bool ZArith QArith Qreals Reals Lia Lra.
From Verif Require Import Base Num NumX.
From Verif.Model Require Import Spla Types Consts Ecos.
From Verif.Proofs Require Import ExitP XEvalP.
Import ListNotations.

Record reads (O : Ops) (phi : @F O -> option R) : Prop := {
  ph_const : forall q, phi (@fconst O q) = @fconst XOps q;
  ph_add : forall a b, phi (@fadd O a b) = @fadd XOps (phi a) (phi b);
  ph_sub : forall a b, phi (@fsub O a b) = @fsub XOps (phi a) (phi b);
  ph_mul : forall a b, phi (@fmul O a b) = @fmul XOps (phi a) (phi b);
  ph_div : forall a b, phi (@fdiv O a b) = @fdiv XOps (phi a) (phi b);
  ph_neg : forall a, phi (@fneg O a) = @fneg XOps (phi a);
  ph_sqrt : forall a, phi (@fsqrt O a) = @fsqrt XOps (phi a);
  ph_abs : forall a, phi (@fabs O a) = @fabs XOps (phi a);
  ph_exp : forall a, phi (@fexp O a) = @fexp XOps (phi a);
  ph_log : forall a, phi (@flog O a) = @flog XOps (phi a);
  ph_lt : forall a b, @flt O a b = @flt XOps (phi a) (phi b);
  ph_le : forall a b, @fle O a b = @fle XOps (phi a) (phi b);
  ph_eq : forall a b, @feq O a b = @feq XOps (phi a) (phi b);
  ph_isnan : forall a, @fisnan O a = @fisnan XOps (phi a);
  ph_inf : phi (@finf O) = @finf XOps;
  ph_nan : phi (@fnan O) = @fnan XOps }.

Lemma reads_X : reads XOps (fun a => a).
Proof. constructor; reflexivity. Qed.

(* ------------------------------------------------ mapping the data structures *)
Section Map.
Context {T U : Type} (f : T -> U).
Definition amapf (a : arr T) : arr U := map (option_map f) a.
Definition mmapf (M : spmat T) : spmat U :=
  mkSp (sp_jc M) (sp_ir M) (amapf (sp_pr M)) (sp_n M) (sp_m M) (sp_nnz M).
Lemma amapf_length a : length (amapf a) = length a.
Proof. apply map_length. Qed.
Lemma get_amapf a i : get (amapf a) i = option_map f (get a i).
Proof. unfold get, amapf. rewrite nth_error_map. destruct (nth_error a i); auto. Qed.
Lemma upd_amapf a i v : upd (amapf a) i (Some (f v)) = amapf (upd a i (Some v)).
Proof. revert i; induction a as [|x a IH]; intros [|i]; simpl; auto. f_equal; auto. Qed.
Lemma set_amapf a i v : set (amapf a) i (f v) = option_map amapf (set a i v).
Proof.
  unfold set. rewrite amapf_length. destruct (i <? length a)%nat; auto.
  cbn [option_map]. rewrite upd_amapf. reflexivity.
Qed.
End Map.

Section MapW.
Context {T U : Type} (f : T -> U) (d : U).
(* The work data of the linear algebra are not mapped: residuals, statistics
   and exit tests do not read them. *)
Definition junk_cone : cone U := mkCone (mkLp 0%nat [] [] []) [] [] 0%nat.
Definition junk_sp : spmat U := mkSp [] [] [] 0%nat 0%nat 0%nat.
Definition junk_kkt : kkt U :=
  mkKkt junk_sp junk_sp [] [] [] [] [] [] [] [] [] [] [] [] [] [] [] [] [] [] [] [] [] [] [] d.
Definition stats_mapf (r : stats T) : stats U :=
  mkStats (f (st_pcost r)) (f (st_dcost r)) (f (st_pres r)) (f (st_dres r)) (f (st_pinf r)) (f (st_dinf r)) (f (st_pinfres r)) (f (st_dinfres r)) (f (st_gap r)) (f (st_relgap r)) (f (st_sigma r)) (f (st_mu r)) (f (st_step r)) (f (st_step_aff r)) (f (st_kapovert r)) (st_iter r) (st_nitref1 r) (st_nitref2 r) (st_nitref3 r) (st_pob r) (st_cb r) (st_cob r) (st_pb r) (st_db r) (st_affBack r) (st_cmbBack r) (f (st_centrality r)).
Definition settings_mapf (r : settings T) : settings U :=
  mkStgs (f (sg_gamma r)) (f (sg_delta r)) (f (sg_eps r)) (f (sg_feastol r)) (f (sg_abstol r)) (f (sg_reltol r)) (f (sg_feastol_inacc r)) (f (sg_abstol_inacc r)) (f (sg_reltol_inacc r)) (sg_nitref r) (sg_maxit r) (sg_max_bk_iter r) (f (sg_bk_scale r)) (f (sg_centrality r)).
Definition pwork_mapf (r : pwork T) : pwork U :=
  mkW (w_n r) (w_m r) (w_p r) (w_D r) (amapf f (w_x r)) (amapf f (w_y r)) (amapf f (w_z r)) (amapf f (w_s r)) (amapf f (w_lambda r)) (f (w_kap r)) (f (w_tau r)) (amapf f (w_best_x r)) (amapf f (w_best_y r)) (amapf f (w_best_z r)) (amapf f (w_best_s r)) None (amapf f (w_dsaff r)) (amapf f (w_W_times_dzaff r)) (amapf f (w_dsaff_by_W r)) junk_cone (option_map (mmapf f) (w_A r)) (mmapf f (w_G r)) (amapf f (w_c r)) (amapf f (w_b r)) (amapf f (w_h r)) (w_AtoK r) (w_GtoK r) (amapf f (w_xequil r)) (amapf f (w_Aequil r)) (amapf f (w_Gequil r)) (f (w_resx0 r)) (f (w_resy0 r)) (f (w_resz0 r)) (amapf f (w_rx r)) (amapf f (w_ry r)) (amapf f (w_rz r)) (f (w_rt r)) (f (w_hresx r)) (f (w_hresy r)) (f (w_hresz r)) (f (w_nx r)) (f (w_ny r)) (f (w_nz r)) (f (w_ns r)) (f (w_cx r)) (f (w_by r)) (f (w_hz r)) junk_kkt (stats_mapf (w_info r)) (settings_mapf (w_stgs r)).
End MapW.

(* ------------------------------------------------------- commuting functions *)
Section Phi.
Context {O : Ops} (phi : F -> option R) (H : reads O phi).
Notation am := (amapf phi).
Notation mm := (mmapf phi).
Notation wm := (pwork_mapf phi None).

Ltac ph := rewrite ?(ph_add _ _ H), ?(ph_sub _ _ H), ?(ph_mul _ _ H), ?(ph_div _ _ H), ?(ph_neg _ _ H), ?(ph_sqrt _ _ H).

Lemma ph_if (b : bool) x y : phi (if b then x else y) = if b then phi x else phi y.
Proof. destruct b; auto. Qed.
Lemma ph_f0 : phi f0 = @f0 XOps. Proof. apply (ph_const _ _ H). Qed.
Lemma ph_f1 : phi f1 = @f1 XOps. Proof. apply (ph_const _ _ H). Qed.
Lemma ph_fofn k : phi (fofn k) = @fofn XOps k. Proof. apply (ph_const _ _ H). Qed.
Lemma ph_max a b : phi (fmax a b) = @fmax XOps (phi a) (phi b).
Proof. unfold fmax. rewrite (ph_lt _ _ H). destruct (flt _ _); auto. Qed.

Ltac homget := rewrite ?(get_amapf phi); match goal with
  | |- bind (option_map _ (get ?a ?i)) _ = option_map _ (bind (get ?a ?i) _) => destruct (get a i); cbn [option_map bind]; [|reflexivity]
  | |- bind (get ?a ?i) _ = option_map _ (bind (get ?a ?i) _) => destruct (get a i); cbn [option_map bind]; [|reflexivity]
  end.

Lemma clear_m n y : for_ 0 n (fun i y => set y i (@f0 XOps)) (am y) = option_map am (for_ 0 n (fun i y => set y i f0) y).
Proof. apply for_map. intros i s _. rewrite <- ph_f0. apply set_amapf. Qed.

Lemma col_loop_m (M : spmat F) j (b1 : nat -> arr (option R) -> option (arr (option R)))
  (b2 : nat -> arr F -> option (arr F)) s :
  (forall k s, b1 k (am s) = option_map am (b2 k s)) ->
  col_loop (mm M) j b1 (am s) = option_map am (col_loop M j b2 s).
Proof.
  intros Hb. unfold col_loop. cbn [mmapf sp_jc].
  destruct (get (sp_jc M) j); cbn [bind option_map]; auto.
  destruct (get (sp_jc M) (j + 1)); cbn [bind option_map]; auto.
  apply for_map. intros; apply Hb.
Qed.

Lemma sparseMV_m M x y a nv :
  @sparseMV XOps (mm M) (am x) (am y) a nv = option_map am (sparseMV M x y a nv).
Proof.
  unfold sparseMV. cbn [mmapf sp_m sp_n sp_nnz sp_ir sp_pr].
  assert (E: (if (nv >? 0)%Z then for_ 0 (sp_m M) (fun i y => set y i (@f0 XOps)) (am y) else Some (am y))
           = option_map am (if (nv >? 0)%Z then for_ 0 (sp_m M) (fun i y => set y i f0) y else Some y)).
  { destruct (nv >? 0)%Z; [apply clear_m|reflexivity]. }
  change (@F XOps) with (option R) in *. rewrite E. apply bind_map. intros y'.
  destruct (Nat.eqb (sp_nnz M) 0); [reflexivity|].
  destruct (a >? 0)%Z; apply for_map; intros j s _; apply col_loop_m; intros k s';
    repeat homget; rewrite <- ?(ph_mul _ _ H), <- ?(ph_add _ _ H), <- ?(ph_sub _ _ H); apply set_amapf.
Qed.

Lemma sparseMtVm_m M x y nv :
  @sparseMtVm XOps (mm M) (am x) (am y) nv false = option_map am (sparseMtVm M x y nv false).
Proof.
  unfold sparseMtVm. cbn [mmapf sp_m sp_n sp_nnz sp_ir sp_pr].
  assert (E: (if (nv >? 0)%Z then for_ 0 (sp_n M) (fun i y => set y i (@f0 XOps)) (am y) else Some (am y))
           = option_map am (if (nv >? 0)%Z then for_ 0 (sp_n M) (fun i y => set y i f0) y else Some y)).
  { destruct (nv >? 0)%Z; [apply clear_m|reflexivity]. }
  change (@F XOps) with (option R) in *. rewrite E. apply bind_map. intros y'.
  destruct (Nat.eqb (sp_nnz M) 0); [reflexivity|].
  apply for_map; intros j s _; apply col_loop_m; intros k s';
    repeat homget; rewrite <- ?(ph_mul _ _ H), <- ?(ph_add _ _ H), <- ?(ph_sub _ _ H); apply set_amapf.
Qed.

Lemma vadd_m n x y : @vadd XOps n (am x) (am y) = option_map am (vadd n x y).
Proof.
  unfold vadd. apply for_map; intros j s _. repeat homget. rewrite <- (ph_add _ _ H). apply set_amapf.
Qed.
Lemma vsubscale_m n a x y : @vsubscale XOps n (phi a) (am x) (am y) = option_map am (vsubscale n a x y).
Proof.
  unfold vsubscale. apply for_map; intros j s _. repeat homget.
  rewrite <- (ph_mul _ _ H), <- (ph_sub _ _ H). apply set_amapf.
Qed.
Lemma norm2_m n x : @norm2 XOps (am x) n = option_map phi (norm2 x n).
Proof.
  unfold norm2. rewrite <- ph_f0.
  rewrite (for_map phi) with (b2 := fun i s => vi <- get x i ;; Some (fadd s (fmul vi vi))).
  - apply bind_map. intros a. cbn [option_map]. rewrite (ph_sqrt _ _ H). reflexivity.
  - intros j s _. repeat homget. rewrite (ph_add _ _ H), (ph_mul _ _ H). reflexivity.
Qed.
Lemma eddot_m n x y : @eddot XOps n (am x) (am y) = option_map phi (eddot n x y).
Proof.
  unfold eddot. rewrite <- ph_f0. apply for_map.
  intros j s _. repeat homget. rewrite (ph_add _ _ H), (ph_mul _ _ H). reflexivity.
Qed.

Lemma zip_m (g : F -> F -> F) (g' : option R -> option R -> option R) n e a :
  (forall u v, phi (g u v) = g' (phi u) (phi v)) ->
  for_ 0 n (fun i a => v <- get a i ;; u <- get (am e) i ;; set a i (g' v u)) (am a)
  = option_map am (for_ 0 n (fun i a => v <- get a i ;; u <- get e i ;; set a i (g v u)) a).
Proof. intros Hg. apply for_map; intros j s _. repeat homget. rewrite <- Hg. apply set_amapf. Qed.

Ltac stp C := binv1 C; match goal with
  | E : norm2 ?a ?b = Some _ |- _ => rewrite (norm2_m b a), E; clear E
  | E : eddot ?n ?a ?b = Some _ |- _ => rewrite (eddot_m n a b), E; clear E
  | E : vadd ?n ?a ?b = Some _ |- _ => rewrite (vadd_m n a b), E; clear E
  | E : vsubscale ?n ?c ?a ?b = Some _ |- _ => rewrite (vsubscale_m n c a b), E; clear E
  | E : sparseMV ?M ?x ?y ?a ?b = Some _ |- _ => rewrite (sparseMV_m M x y a b), E; clear E
  end; cbn [option_map bind].

Lemma computeResiduals_m w wr : computeResiduals w = Some wr ->
  @computeResiduals XOps (wm w) = Some (wm wr).
Proof.
  intros C. unfold computeResiduals in *. change (@F XOps) with (option R) in *.
  cbn [pwork_mapf w_n w_m w_p w_A w_G w_x w_y w_z w_s w_kap w_tau w_c w_b w_h w_rx w_ry w_rz].
  binv1 C.
  match type of E with ?X = _ => assert (E1: (if (0 <? w_p w)%nat then A <- option_map mm (w_A w) ;;
      rx <- @sparseMtVm XOps A (am (w_y w)) (am (w_rx w)) 1 false ;; @sparseMtVm XOps (mm (w_G w)) (am (w_z w)) rx 0 false
      else @sparseMtVm XOps (mm (w_G w)) (am (w_z w)) (am (w_rx w)) 1 false) = option_map am X) end.
  { destruct (0 <? w_p w)%nat; [|apply sparseMtVm_m]. destruct (w_A w); [|reflexivity]. cbn [option_map bind].
    rewrite sparseMtVm_m. apply bind_map. intros. apply sparseMtVm_m. }
  change (@F XOps) with (option R) in *. rewrite E1, E. cbn [option_map bind]. clear E1 E.
  stp C.
  stp C.
  binv1 C.
  match type of E with ?X = _ => assert (E1: (if (0 <? w_p w)%nat then A <- option_map mm (w_A w) ;;
      ry <- @sparseMV XOps A (am (w_x w)) (am (w_ry w)) 1 1 ;; hresy <- @norm2 XOps ry (w_p w) ;;
      ry <- @vsubscale XOps (w_p w) (phi (w_tau w)) (am (w_b w)) ry ;; Some (ry, hresy)
      else Some (am (w_ry w), @f0 XOps)) = option_map (fun p => (am (fst p), phi (snd p))) X) end.
  { destruct (0 <? w_p w)%nat; [|cbn [option_map fst snd]; rewrite ph_f0; reflexivity].
    destruct (w_A w); [|reflexivity]. cbn [option_map bind].
    rewrite sparseMV_m. apply bind_map. intros ry. rewrite norm2_m. apply bind_map. intros hy.
    rewrite vsubscale_m. apply bind_map. intros; reflexivity. }
  change (@F XOps) with (option R) in *. rewrite E1, E. cbn [option_map bind fst snd]. clear E1 E.
  stp C.
  stp C.
  stp C.
  stp C.
  stp C.
  binv1 C.
  match type of E with ?X = _ => assert (E1: (if (0 <? w_p w)%nat then @eddot XOps (w_p w) (am (w_b w)) (am (w_y w))
      else Some (@f0 XOps)) = option_map phi X) end.
  { destruct (0 <? w_p w)%nat; [apply eddot_m|cbn [option_map]; rewrite ph_f0; reflexivity]. }
  change (@F XOps) with (option R) in *. rewrite E1, E. cbn [option_map bind]. clear E1 E.
  stp C.
  do 4 stp C.
  cbv zeta in C. injection C as <-. unfold pwork_mapf; wcbn.
  rewrite !(ph_add _ _ H). reflexivity.
Qed.

Lemma updateStatistics_m w w1 : updateStatistics w = Some w1 ->
  @updateStatistics XOps (wm w) = Some (wm w1).
Proof.
  intros C. unfold updateStatistics in *. change (@F XOps) with (option R) in *.
  cbn [pwork_mapf settings_mapf stats_mapf sg_reltol st_sigma st_pinf st_dinf st_step st_step_aff st_iter st_nitref1 st_nitref2 st_nitref3 st_pob st_cb st_cob st_pb st_db st_affBack st_cmbBack st_centrality w_n w_m w_p w_D w_z w_s w_kap w_tau w_rx w_ry w_rz w_cx w_by w_hz w_nx w_ny w_nz w_ns w_hresx w_hresy w_hresz w_resx0 w_resy0 w_resz0 w_info w_stgs].
  stp C. 
  binv1 C.
  match type of E with ?X = _ => assert (E1: (if (0 <? w_p w)%nat then nr <- @norm2 XOps (am (w_ry w)) (w_p w) ;;
      Some (@fdiv XOps nr (@fmax XOps (@fadd XOps (phi (w_resy0 w)) (phi (w_nx w))) f1))
      else Some (@f0 XOps)) = option_map phi X) end.
  { destruct (0 <? w_p w)%nat; [|cbn [option_map]; rewrite ph_f0; reflexivity].
    rewrite norm2_m. apply bind_map. intros a. cbn [option_map]. rewrite (ph_div _ _ H), ph_max, (ph_add _ _ H), ph_f1. reflexivity. }
  change (@F XOps) with (option R) in *. rewrite E1, E. cbn [option_map bind]. clear E1 E.
  do 2 stp C.
  cbv zeta in C. injection C as <-. unfold pwork_mapf, stats_mapf; wcbn.
  repeat (rewrite ?(ph_add _ _ H), ?(ph_sub _ _ H), ?(ph_mul _ _ H), ?(ph_div _ _ H), ?(ph_neg _ _ H), ?ph_max, ?ph_f1, ?ph_fofn, ?ph_f0).
  rewrite !ph_if, !(ph_lt _ _ H), !(ph_nan _ _ H).
  repeat (rewrite ?(ph_add _ _ H), ?(ph_sub _ _ H), ?(ph_mul _ _ H), ?(ph_div _ _ H), ?(ph_neg _ _ H), ?ph_max, ?ph_f1, ?ph_fofn, ?ph_f0).
  reflexivity.
Qed.

Lemma tols_m w mode : @tols XOps (w_stgs (wm w)) mode =
  let '(a, b, c) := tols (w_stgs w) mode in (phi a, phi b, phi c).
Proof. unfold tols. destruct (mode =? 0)%Z; reflexivity. Qed.

Lemma tests_m w mode : @test_optimal XOps (wm w) mode = test_optimal w mode /\
  @test_dinf XOps (wm w) mode = test_dinf w mode /\ @test_pinf XOps (wm w) mode = test_pinf w mode.
Proof.
  unfold test_optimal, test_dinf, test_pinf. change (@F XOps) with (option R).
  pose proof (tols_m w mode) as T. change (@F XOps) with (option R) in T. rewrite T.
  destruct (tols (w_stgs w) mode) as [[a b] c].
  cbn [pwork_mapf settings_mapf stats_mapf w_info w_cx w_by w_hz w_tau w_kap w_stgs st_pres st_dres st_gap st_relgap st_dinfres st_pinfres sg_feastol].
  rewrite !(ph_lt _ _ H), !(ph_le _ _ H), !(ph_eq _ _ H), !(ph_nan _ _ H), !(ph_sub _ _ H), !(ph_neg _ _ H), !ph_f0. auto.
Qed.

Lemma prob_m w w' : prob_of w' = prob_of w -> @prob_of XOps (wm w') = @prob_of XOps (wm w).
Proof.
  unfold prob_of. intros E. injection E as.
  cbn [pwork_mapf w_n w_m w_p w_D w_A w_G w_c w_b w_h w_xequil w_Aequil w_Gequil w_stgs w_resx0 w_resy0 w_resz0 w_rx w_ry w_rz].
  rewrite !amapf_length. congruence.
Qed.
Lemma prob0_m w w' : prob0_of w' = prob0_of w -> @prob0_of XOps (wm w') = @prob0_of XOps (wm w).
Proof.
  unfold prob0_of. intros E. injection E as.
  cbn [pwork_mapf w_n w_m w_p w_D w_A w_G w_c w_b w_h w_xequil w_Aequil w_Gequil w_stgs w_rx w_ry w_rz].
  rewrite !amapf_length. congruence.
Qed.

Lemma agree_m n a b : agree n a b -> @agree XOps n (am a) (am b).
Proof. intros A i Hi. change (@F XOps) with (option R). rewrite !get_amapf, A; auto. Qed.

Lemma Cur_m w : Cur w -> @Cur XOps (wm w).
Proof.
  intros (w1 & (w0 & wr & C & U) & Pr & Ax & Ay & Az & As & Ek & Et & Sm).
  exists (wm w1). split; [|csplit].
  - exists (wm w0), (wm wr). split; [apply computeResiduals_m; auto|apply updateStatistics_m; auto].
  - apply prob_m; auto.
  - apply agree_m; exact Ax.
  - apply agree_m; exact Ay.
  - apply agree_m; exact Az.
  - apply agree_m; exact As.
  - cbn [pwork_mapf w_kap]. congruence.
  - cbn [pwork_mapf w_tau]. congruence.
  - unfold summ, st_core in *. injection Sm as.
    cbn [pwork_mapf stats_mapf w_info w_cx w_by w_hz st_pcost st_dcost st_pres st_dres st_pinfres st_dinfres st_gap st_relgap st_mu st_kapovert].
    congruence.
Qed.

Lemma norms_m w : norms_ok w -> @norms_ok XOps (wm w).
Proof.
  intros (a & b & c & N1 & N2 & N3 & N4 & N5 & N6). exists (phi a), (phi b), (phi c).
  change (@F XOps) with (option R).
  cbn [pwork_mapf w_n w_m w_p w_c w_b w_h w_resx0 w_resy0 w_resz0].
  rewrite !norm2_m, N1, N2, N3, N4, N5, N6, !ph_max, !ph_f1. csplit; reflexivity.
Qed.

Lemma tested_m w mode code : tested w mode code -> @tested XOps (wm w) mode code.
Proof. destruct (tests_m w mode) as (T1 & T2 & T3). unfold tested. rewrite T1, T2, T3. auto. Qed.

Lemma ended_m w code : ended w code -> @ended XOps (wm w) code.
Proof.
  intros [E|[E|E]]; [left; apply tested_m; auto|right; left; apply tested_m; auto|right; right].
  destruct (tests_m w ECOS_INACC_OFFSET) as (T1 & T2 & T3). rewrite T1, T2, T3. auto.
Qed.

Lemma scaled_c_m w c : scaled_c w c -> @scaled_c XOps (wm w) (am c) /\ wm (set_w_c w c) = set_w_c (wm w) (am c).
Proof.
  intros E. split; [|reflexivity]. unfold scaled_c in *. change (@F XOps) with (option R).
  cbn [pwork_mapf w_n w_xequil w_c].
  rewrite (zip_m fdiv (@fdiv XOps)) by apply (ph_div _ _ H). rewrite E. reflexivity.
Qed.

Lemma backscale_m w w' : backscale w = Some w' -> @backscale XOps (wm w) = Some (wm w').
Proof.
  intros C. assert (K: @backscale XOps (wm w) = option_map wm (backscale w)); [|rewrite K, C; reflexivity].
  clear w' C. unfold backscale. change (@F XOps) with (option R).
  cbn [pwork_mapf w_n w_m w_p w_x w_y w_z w_s w_c w_xequil w_Aequil w_Gequil w_tau].
  assert (D: forall u v, phi (fdiv u (fmul v (w_tau w))) = @fdiv XOps (phi u) (@fmul XOps (phi v) (phi (w_tau w)))).
  { intros. rewrite (ph_div _ _ H), (ph_mul _ _ H). reflexivity. }
  assert (D2: forall u v, phi (fmul u (fdiv v (w_tau w))) = @fmul XOps (phi u) (@fdiv XOps (phi v) (phi (w_tau w)))).
  { intros. rewrite (ph_mul _ _ H), (ph_div _ _ H). reflexivity. }
  rewrite (zip_m _ (fun v e => @fdiv XOps v (@fmul XOps e (phi (w_tau w)))) _ _ _ D). apply bind_map; intros x.
  rewrite (zip_m _ (fun v e => @fdiv XOps v (@fmul XOps e (phi (w_tau w)))) _ _ _ D). apply bind_map; intros y.
  rewrite (zip_m _ (fun v e => @fdiv XOps v (@fmul XOps e (phi (w_tau w)))) _ _ _ D). apply bind_map; intros z.
  rewrite (zip_m _ (fun v e => @fmul XOps v (@fdiv XOps e (phi (w_tau w)))) _ _ _ D2). apply bind_map; intros s.
  rewrite (zip_m _ (fun v e => @fmul XOps v e) _ _ _ (ph_mul _ _ H)). apply bind_map; intros c.
  reflexivity.
Qed.
End Phi.
