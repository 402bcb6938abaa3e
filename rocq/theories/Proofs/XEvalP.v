(* computeResiduals and updateStatistics in exact arithmetic with NaN, on
   data and points that hold numbers: what the statistics are. *)
From Coq Require Import List Arith Bool ZArith Reals Lia Lra.
From Verif Require Import Base Num NumX.
From Verif.Model Require Import Spla Types Consts Ecos.
From Verif.Spec Require Import Matrix Conic.
From Verif.Proofs Require Import SplaP ExitP.
Import ListNotations.
Open Scope R_scope.

(* the array holds numbers f 0 .. f (n-1) *)
Definition xvec (a : arr (option R)) (n : nat) (f : nat -> R) : Prop :=
  forall i, (i < n)%nat -> get a i = Some (Some (f i)).
(* the matrix with the same numbers *)
Definition xmat (M : spmat R) : spmat (option R) :=
  mkSp (sp_jc M) (sp_ir M) (xlift (sp_pr M)) (sp_n M) (sp_m M) (sp_nnz M).

(* array of numbers given by a function *)
Definition xarr (n : nat) (f : nat -> R) : arr (option R) := xlift (arr_fun n f).

Lemma xarr_length n f : length (xarr n f) = n.
Proof. unfold xarr. rewrite xlift_length. apply arr_fun_length. Qed.
Lemma get_xarr n f i : (i < n)%nat -> get (xarr n f) i = Some (Some (f i)).
Proof. intros H. unfold xarr. rewrite get_xlift, get_arr_fun by auto. reflexivity. Qed.
Lemma xarr_xvec n f : xvec (xarr n f) n f.
Proof. intros i Hi. apply get_xarr; auto. Qed.
Lemma get_none {T} (a : arr T) i : (length a <= i)%nat -> get a i = None.
Proof. intros H. unfold get. apply nth_error_None in H. rewrite H. auto. Qed.

Lemma arr_fun_eq (a : arr R) n f : length a = n -> vec a n f -> a = arr_fun n f.
Proof.
  intros L V. apply arr_ext; [rewrite arr_fun_length; auto|].
  intros i. destruct (Nat.lt_ge_cases i n) as [H|H].
  - rewrite V, get_arr_fun; auto.
  - rewrite !get_none; auto; rewrite ?arr_fun_length; lia.
Qed.
Lemma arr_fun_ext n (f g : nat -> R) : (forall i, (i < n)%nat -> f i = g i) -> arr_fun n f = arr_fun n g.
Proof.
  intros H. apply arr_fun_eq; [apply arr_fun_length|].
  intros i Hi. rewrite get_arr_fun, H; auto.
Qed.
Lemma xarr_ext n (f g : nat -> R) : (forall i, (i < n)%nat -> f i = g i) -> xarr n f = xarr n g.
Proof. intros H. unfold xarr. rewrite (arr_fun_ext n f g H). auto. Qed.

Lemma clear_X (y : arr (option R)) n : length y = n ->
  for_ 0 n (fun i y => set y i (@f0 XOps)) y = Some (xarr n (fun _ => 0)).
Proof.
  intros L.
  assert (W: wp (for_ 0 n (fun i y => set y i (@f0 XOps)) y) (fun y' => y' = xarr n (fun _ => 0))).
  { cbn [F XOps] in *. apply wp_clear; [lia|]. intros y' L' G'.
    apply arr_ext; [rewrite xarr_length; slen|]. intros i. rewrite G'.
    destruct (Nat.ltb_spec i n) as [H|H].
    - rewrite get_xarr by auto. unX. reflexivity.
    - rewrite !get_none; auto; rewrite ?xarr_length; lia. }
  apply wp_elim in W as (y' & -> & ->). auto.
Qed.

Lemma col_loop_map (M : spmat R) j (b1 : nat -> arr (option R) -> option (arr (option R)))
  (b2 : nat -> arr R -> option (arr R)) s :
  (forall k s, b1 k (xlift s) = option_map xlift (b2 k s)) ->
  col_loop (xmat M) j b1 (xlift s) = option_map xlift (col_loop M j b2 s).
Proof.
  intros H. unfold col_loop. cbn [xmat sp_jc].
  destruct (get (sp_jc M) j); cbn [bind option_map]; auto.
  destruct (get (sp_jc M) (j + 1)); cbn [bind option_map]; auto.
  apply for_map. intros; apply H.
Qed.

Lemma col_loop_map' (M : spmat R) j (W : wf_sp M) (b1 : nat -> arr (option R) -> option (arr (option R)))
  (b2 : nat -> arr R -> option (arr R)) s : (j < sp_n M)%nat ->
  (forall k s, (k < sp_nnz M)%nat -> b1 k (xlift s) = option_map xlift (b2 k s)) ->
  col_loop (xmat M) j b1 (xlift s) = option_map xlift (col_loop M j b2 s).
Proof.
  intros Hj H. unfold col_loop. cbn [xmat sp_jc].
  rewrite (wf_jc M W j), (wf_jc M W (j + 1)%nat) by lia. cbn [bind].
  apply for_map. intros k s' Hk. apply H. eapply in_col_nnz; eauto. split; eauto.
Qed.

Theorem sparseMV_X M (W : wf_sp M) xf x y :
  xvec x (sp_n M) xf -> length y = sp_m M ->
  @sparseMV XOps (xmat M) x y 1 1 = Some (xarr (sp_m M) (mulv (sp_n M) (dense M) xf)).
Proof.
  intros X L.
  destruct (sparseMV_spec M xf (arr_fun (sp_n M) xf) (arr_fun (sp_m M) (fun _ => 0)) 1 0 W) as (y' & E & L' & V & _).
  { intros i Hi. apply get_arr_fun; auto. }
  { apply Nat.eq_le_incl. symmetry. apply arr_fun_length. }
  { intros _ i Hi. eapply get_gd. apply get_arr_fun; auto. }
  assert (Ey: y' = arr_fun (sp_m M) (mulv (sp_n M) (dense M) xf)).
  { cbn [F ROps] in L'. apply arr_fun_eq; [rewrite L', arr_fun_length; auto|].
    intros i Hi. rewrite V by auto. unfold mode_base, mode_sign; cbn.
    rewrite (gd_get _ _ _ _ (get_arr_fun (sp_m M) (fun _ => 0) i Hi)). f_equal. ring. }
  unfold sparseMV in *. cbn [Z.gtb Z.compare bind xmat sp_m sp_n sp_nnz sp_ir sp_pr] in *.
  rewrite clear_X by auto. cbn [bind].
  unfold xarr.
  change (@sp_nnz (@F ROps) M) with (@sp_nnz R M) in E.
  revert E. destruct (Nat.eqb (sp_nnz M) 0); intros E.
  - cbn [bind] in E. injection E as E. unfold xarr. rewrite <- Ey, <- E. reflexivity.
  - cbn [bind] in E.
    rewrite (for_map xlift) with (b2 := fun j (y : arr R) => col_loop M j (fun i y =>
        r <- get (sp_ir M) i ;; v <- get (sp_pr M) i ;;
        xj <- get (arr_fun (sp_n M) xf) j ;; yr <- get y r ;; set y r (yr + v * xj)) y).
    + transitivity (option_map xlift (Some y')); [f_equal; exact E|]. cbn [option_map]. rewrite Ey. reflexivity.
    + intros j s Hj. apply col_loop_map. intros k s'.
      destruct (get (sp_ir M) k) as [r|]; cbn [bind option_map]; auto.
      rewrite get_xlift. destruct (get (sp_pr M) k) as [v|]; cbn [bind option_map]; auto.
      rewrite X, get_arr_fun by lia. cbn [bind].
      rewrite get_xlift. destruct (get s' r) as [yr|]; cbn [bind option_map]; auto.
      apply set_xlift.
Qed.

(* the accumulating form: y := y - M' x *)
Theorem sparseMtVm_acc_X M (W : wf_sp M) xf yf x :
  xvec x (sp_m M) xf ->
  @sparseMtVm XOps (xmat M) x (xarr (sp_n M) yf) 0 false
  = Some (xarr (sp_n M) (fun j => yf j - mulvT (sp_m M) (dense M) xf j)).
Proof.
  intros X.
  destruct (sparseMtVm_spec M xf (arr_fun (sp_m M) xf) (arr_fun (sp_n M) yf) 0 false W) as (y' & E & L' & V & _).
  { intros i Hi. apply get_arr_fun; auto. }
  { apply Nat.eq_le_incl. symmetry. apply arr_fun_length. }
  { intros _ i Hi. eapply get_gd. apply get_arr_fun; auto. }
  assert (Ey: y' = arr_fun (sp_n M) (fun j => yf j - mulvT (sp_m M) (dense M) xf j)).
  { cbn [F ROps] in L'. apply arr_fun_eq; [rewrite L', arr_fun_length; auto|].
    intros i Hi. rewrite V by auto. unfold mode_base; cbn.
    rewrite (gd_get _ _ _ _ (get_arr_fun (sp_n M) yf i Hi)). reflexivity. }
  unfold sparseMtVm in *. cbn [Z.gtb Z.compare bind xmat sp_m sp_n sp_nnz sp_ir sp_pr] in *.
  unfold xarr.
  change (@sp_nnz (@F ROps) M) with (@sp_nnz R M) in E.
  revert E. destruct (Nat.eqb (sp_nnz M) 0); intros E.
  - injection E as E. unfold xarr. rewrite <- Ey, <- E. reflexivity.
  - rewrite (for_map xlift) with (b2 := fun j (y : arr R) => col_loop M j (fun k y =>
        v <- get (sp_pr M) k ;; i <- get (sp_ir M) k ;;
        xi <- get (arr_fun (sp_m M) xf) i ;; yj <- get y j ;; set y j (yj - v * xi)) y).
    + transitivity (option_map xlift (Some y')); [f_equal; exact E|]. cbn [option_map]. rewrite Ey. reflexivity.
    + intros j s Hj. apply (col_loop_map' M j W); [lia|]. intros k s' Hk.
      rewrite get_xlift. destruct (get (sp_pr M) k) as [v|]; cbn [bind option_map]; auto.
      rewrite (wf_ir M W k Hk). cbn [bind]. pose proof (wf_row M W k Hk).
      rewrite X, get_arr_fun by auto. cbn [bind].
      rewrite get_xlift. destruct (get s' j) as [yr|]; cbn [bind option_map]; auto.
      apply set_xlift.
Qed.

Theorem sparseMtVm_X M (W : wf_sp M) xf x y :
  xvec x (sp_m M) xf -> length y = sp_n M ->
  @sparseMtVm XOps (xmat M) x y 1 false
  = Some (xarr (sp_n M) (fun j => - mulvT (sp_m M) (dense M) xf j)).
Proof.
  intros X L.
  pose proof (sparseMtVm_acc_X M W xf (fun _ => 0) x X) as H.
  unfold sparseMtVm in *. cbn [Z.gtb Z.compare] in *. cbn [bind] in H.
  cbn [xmat sp_n] in *. rewrite clear_X by auto. cbn [bind]. rewrite H.
  f_equal. apply xarr_ext; intros; ring.
Qed.

Lemma eddot_X n xf yf x y : xvec x n xf -> xvec y n yf ->
  @eddot XOps n x y = Some (Some (dotp n xf yf)).
Proof.
  intros X Y. unfold eddot. rewrite f0_X.
  rewrite (for_map Some) with (b2 := fun i (s : R) => Some (s + xf i * yf i)).
  - rewrite (for_acc_spec n (fun i => xf i * yf i)); auto.
  - intros i s Hi. rewrite X, Y by lia. reflexivity.
Qed.

Lemma norm2_X n xf x : xvec x n xf -> @norm2 XOps x n = Some (Some (nrm n xf)).
Proof.
  intros X. unfold norm2. rewrite f0_X.
  rewrite (for_map Some) with (b2 := fun i (s : R) => Some (s + xf i * xf i)).
  - rewrite (for_acc_spec n (fun i => xf i * xf i)); auto. cbn [option_map bind]. unX.
    destruct (Rlt_dec _ 0) as [H|H]; auto.
    pose proof (Rsum_sq_nonneg n xf). lra.
  - intros i s Hi. rewrite X by lia. reflexivity.
Qed.

Lemma vadd_X n xf yf x : xvec x n xf ->
  @vadd XOps n x (xarr n yf) = Some (xarr n (fun i => yf i + xf i)).
Proof.
  intros X.
  destruct (vadd_spec n xf yf (arr_fun n xf) (arr_fun n yf)) as (y' & E & L' & V & _).
  { intros i Hi; apply get_arr_fun; auto. } { intros i Hi; apply get_arr_fun; auto. }
  assert (Ey: y' = arr_fun n (fun i => yf i + xf i)) by (cbn [F ROps] in L'; apply arr_fun_eq; auto; rewrite L', arr_fun_length; auto).
  unfold vadd in *. unfold xarr.
  rewrite (for_map xlift) with (b2 := fun i (y : arr R) =>
     yi <- get y i ;; xi <- get (arr_fun n xf) i ;; set y i (yi + xi)).
  - transitivity (option_map xlift (Some y')); [f_equal; exact E|]. cbn [option_map]. rewrite Ey. reflexivity.
  - intros i s Hi. rewrite get_xlift. destruct (get s i); cbn [bind option_map]; auto.
    rewrite X, get_arr_fun by lia. cbn [bind]. apply set_xlift.
Qed.

Lemma vsubscale_X n a xf yf x : xvec x n xf ->
  @vsubscale XOps n (Some a) x (xarr n yf) = Some (xarr n (fun i => yf i - a * xf i)).
Proof.
  intros X.
  destruct (vsubscale_spec n a xf yf (arr_fun n xf) (arr_fun n yf)) as (y' & E & L' & V & _).
  { intros i Hi; apply get_arr_fun; auto. } { intros i Hi; apply get_arr_fun; auto. }
  assert (Ey: y' = arr_fun n (fun i => yf i - a * xf i)) by (cbn [F ROps] in L'; apply arr_fun_eq; auto; rewrite L', arr_fun_length; auto).
  unfold vsubscale in *. unfold xarr.
  rewrite (for_map xlift) with (b2 := fun i (y : arr R) =>
     yi <- get y i ;; xi <- get (arr_fun n xf) i ;; set y i (yi - a * xi)).
  - transitivity (option_map xlift (Some y')); [f_equal; exact E|]. cbn [option_map]. rewrite Ey. reflexivity.
  - intros i s Hi. rewrite get_xlift. destruct (get s i); cbn [bind option_map]; auto.
    rewrite X, get_arr_fun by lia. cbn [bind]. apply set_xlift.
Qed.

(* ------------------------------------------------- residuals and statistics *)

(* the data of the workspace are numbers, namely those of problem P *)
Record xprob (w : pwork (option R)) (P : problem) (A G : spmat R) : Prop := {
  xp_n : w_n w = pb_n P; xp_p : w_p w = pb_p P; xp_m : w_m w = pb_m P;
  xp_G : w_G w = xmat G; xp_wfG : wf_sp G; xp_Gn : sp_n G = pb_n P; xp_Gm : sp_m G = pb_m P;
  xp_dG : pb_G P = dense G;
  xp_A : (0 < pb_p P)%nat -> w_A w = Some (xmat A) /\ wf_sp A /\ sp_n A = pb_n P /\ sp_m A = pb_p P /\ pb_A P = dense A;
  xp_c : xvec (w_c w) (pb_n P) (pb_c P);
  xp_b : xvec (w_b w) (pb_p P) (pb_b P);
  xp_h : xvec (w_h w) (pb_m P) (pb_h P);
  xp_rx : length (w_rx w) = pb_n P; xp_ry : length (w_ry w) = pb_p P; xp_rz : length (w_rz w) = pb_m P
}.

(* the current iterate holds numbers *)
Record xpoint (w : pwork (option R)) (P : problem) (x y z s : nat -> R) (kap : option R) (tau : R) : Prop := {
  xq_x : xvec (w_x w) (pb_n P) x; xq_y : xvec (w_y w) (pb_p P) y;
  xq_z : xvec (w_z w) (pb_m P) z; xq_s : xvec (w_s w) (pb_m P) s;
  xq_kap : w_kap w = kap; xq_tau : w_tau w = Some tau }.

Lemma fmax_X a b : @fmax XOps (Some a) (Some b) = Some (Rmax a b).
Proof.
  unfold fmax. unX. unfold Rmax. destruct (Rltb_spec a b), (Rle_dec a b); auto; f_equal; lra.
Qed.

Section Eval.
Variables (P : problem) (A G : spmat R) (x y z s : nat -> R) (kap : option R) (tau : R).
Let n := pb_n P. Let p := pb_p P. Let m := pb_m P.

(* residuals of the homogeneous model, src/ecos.c:455-495, in dense form *)
Definition h_rx (j : nat) : R := mulvT p (pb_A P) y j + mulvT m (pb_G P) z j.
Definition h_ry (i : nat) : R := mulv n (pb_A P) x i.
Definition h_rz (i : nat) : R := mulv n (pb_G P) x i + s i.
Definition t_rx (j : nat) : R := h_rx j + tau * pb_c P j.
Definition t_ry (i : nat) : R := h_ry i - tau * pb_b P i.
Definition t_rz (i : nat) : R := h_rz i - tau * pb_h P i.

Record xresid (w : pwork (option R)) : Prop := {
  xr_hx : w_hresx w = Some (nrm n h_rx); xr_hy : w_hresy w = Some (nrm p h_ry); xr_hz : w_hresz w = Some (nrm m h_rz);
  xr_rx : xvec (w_rx w) n (fun j => - t_rx j); xr_ry : xvec (w_ry w) p t_ry; xr_rz : xvec (w_rz w) m t_rz;
  xr_cx : w_cx w = Some (dotp n (pb_c P) x); xr_by : w_by w = Some (dotp p (pb_b P) y);
  xr_hzz : w_hz w = Some (dotp m (pb_h P) z);
  xr_nx : w_nx w = Some (nrm n x); xr_ny : w_ny w = Some (nrm p y);
  xr_nz : w_nz w = Some (nrm m z); xr_ns : w_ns w = Some (nrm m s) }.

Lemma nrm_opp k f : nrm k (fun i => - f i) = nrm k f.
Proof. unfold nrm. f_equal. apply Rsum_ext; intros; ring. Qed.
Lemma nrm_0 f : nrm 0 f = 0.
Proof. unfold nrm. cbn [Rsum]. apply sqrt_0. Qed.

Lemma computeResiduals_X w wr : xprob w P A G -> xpoint w P x y z s kap tau ->
  @computeResiduals XOps w = Some wr -> xresid wr.
Proof.
  intros [En Ep Em EG WG Gn Gm DG HA Hc Hb Hh Lx Ly Lz] [Qx Qy Qz Qs Qk Qt] H.
  unfold computeResiduals in H. change (@F XOps) with (option R) in H. rewrite En, Ep, Em, EG, Qt, Qk in H. fold n p m in H, HA, Hc, Hb, Hh, Qx, Qy, Qz, Qs, Lx, Ly, Lz, Gn, Gm.
  assert (EH: exists rx, (if Nat.ltb 0 p then A0 <- w_A w ;; rx <- @sparseMtVm XOps A0 (w_y w) (w_rx w) 1 false ;;
           @sparseMtVm XOps (xmat G) (w_z w) rx 0 false
         else @sparseMtVm XOps (xmat G) (w_z w) (w_rx w) 1 false) = Some (xarr n rx) /\
       forall j, (j < n)%nat -> rx j = - h_rx j).
  { destruct (Nat.ltb_spec 0 p) as [Hp|Hp].
    - destruct (HA Hp) as (EA & WA & An & Am & DA). rewrite EA. cbn [bind].
      rewrite (sparseMtVm_X A WA y); [|rewrite Am; exact Qy|cbn [F XOps]; rewrite An; exact Lx].
      cbn [bind]. rewrite An. rewrite <- Gn.
      rewrite (sparseMtVm_acc_X G WG z); [|rewrite Gm; exact Qz].
      rewrite Gn. fold n. eexists; split; [reflexivity|]. intros j Hj. unfold h_rx. cbv beta.
      rewrite DA, DG, Am, Gm. fold p m. ring.
    - rewrite (sparseMtVm_X G WG z); [|rewrite Gm; exact Qz|cbn [F XOps]; rewrite Gn; exact Lx].
      rewrite Gn. eexists; split; [reflexivity|]. intros j Hj. unfold h_rx. cbv beta.
      rewrite DG, Gm. replace (mulvT p (pb_A P) y j) with 0; [ring|].
      unfold mulvT. replace p with 0%nat by lia. reflexivity. }
  destruct EH as (rx & Erx & Hrx). change (@F XOps) with (option R) in Erx. rewrite Erx in H. cbn [bind] in H.
  rewrite (norm2_X n rx) in H by apply xarr_xvec. cbn [bind] in H.
  rewrite (vsubscale_X n tau (pb_c P) rx (w_c w) Hc) in H. cbn [bind] in H.
  assert (EH: (if Nat.ltb 0 p then A0 <- w_A w ;; ry <- @sparseMV XOps A0 (w_x w) (w_ry w) 1 1 ;;
           hresy <- @norm2 XOps ry p ;; ry <- @vsubscale XOps p (Some tau) (w_b w) ry ;; Some (ry, hresy)
         else Some (w_ry w, @f0 XOps)) = Some (if Nat.ltb 0 p then xarr p t_ry else w_ry w, Some (nrm p h_ry))).
  { destruct (Nat.ltb_spec 0 p) as [Hp|Hp].
    - destruct (HA Hp) as (EA & WA & An & Am & DA). rewrite EA. cbn [bind].
      rewrite (sparseMV_X A WA x); [|rewrite An; exact Qx|cbn [F XOps]; rewrite Am; exact Ly].
      cbn [bind]. rewrite Am. fold p. rewrite (norm2_X p _ _ (xarr_xvec _ _)). cbn [bind].
      rewrite (vsubscale_X p tau (pb_b P) _ (w_b w) Hb). cbn [bind]. unfold t_ry, h_ry. rewrite DA, An.
      reflexivity.
    - replace p with 0%nat by lia. rewrite nrm_0. unX. reflexivity. }
  change (@F XOps) with (option R) in EH. rewrite EH in H. cbn [bind] in H.
  rewrite (sparseMV_X G WG x) in H; [|rewrite Gn; exact Qx|cbn [F XOps]; rewrite Gm; exact Lz].
  cbn [bind] in H. rewrite Gm in H. fold m in H. rewrite (vadd_X m s _ (w_s w) Qs) in H. cbn [bind] in H.
  rewrite (norm2_X m _ _ (xarr_xvec _ _)) in H. cbn [bind] in H.
  rewrite (vsubscale_X m tau (pb_h P) _ (w_h w) Hh) in H. cbn [bind] in H.
  rewrite (eddot_X n (pb_c P) x) in H by auto. cbn [bind] in H.
  assert (Eb: (if Nat.ltb 0 p then @eddot XOps p (w_b w) (w_y w) else Some (@f0 XOps)) = Some (Some (dotp p (pb_b P) y))).
  { destruct (Nat.ltb_spec 0 p) as [Hp|Hp].
    - apply eddot_X; auto.
    - replace p with 0%nat by lia. unX. reflexivity. }
  change (@F XOps) with (option R) in Eb. rewrite Eb in H. cbn [bind] in H.
  rewrite (eddot_X m (pb_h P) z) in H by auto. cbn [bind] in H.
  rewrite (norm2_X n x), (norm2_X p y), (norm2_X m s), (norm2_X m z) in H by auto. cbn [bind] in H.
  cbv zeta in H. injection H as <-.
  constructor; wcbn; auto.
  - f_equal. rewrite <- nrm_opp. apply nrm_ext. intros j Hj. rewrite Hrx by auto. ring.
  - f_equal. apply nrm_ext. intros i Hi. unfold h_rz. rewrite DG, Gn. auto.
  - intros j Hj. rewrite get_xarr by auto. do 2 f_equal. rewrite Hrx by auto. unfold t_rx. ring.
  - destruct (Nat.ltb_spec 0 p) as [Hp|Hp]; [apply xarr_xvec|]. intros i Hi. lia.
  - intros i Hi. rewrite get_xarr by auto. do 2 f_equal. unfold t_rz, h_rz. rewrite DG, Gn. auto.
Qed.

Variables rx0 ry0 rz0 reltol : R.

Lemma xdiv a b : b <> 0 -> @fdiv XOps (Some a) (Some b) = Some (a / b).
Proof. intros H. cbn. destruct (Req_EM_T b 0); [contradiction|reflexivity]. Qed.
Lemma xadd a b : @fadd XOps (Some a) (Some b) = Some (a + b). Proof. reflexivity. Qed.
Lemma xmul a b : @fmul XOps (Some a) (Some b) = Some (a * b). Proof. reflexivity. Qed.
Lemma xneg a : @fneg XOps (Some a) = Some (- a). Proof. reflexivity. Qed.
Lemma xlt a b : @flt XOps (Some a) (Some b) = Rltb a b. Proof. reflexivity. Qed.
Lemma xle a b : @fle XOps (Some a) (Some b) = Rleb a b. Proof. reflexivity. Qed.
Lemma max1 a : 1 <= Rmax a 1. Proof. apply Rmax_r. Qed.
Lemma max1_nz a : Rmax a 1 <> 0. Proof. pose proof (max1 a). lra. Qed.

Record xstats (i : stats (option R)) : Prop := {
  xs_pcost : st_pcost i = Some (dotp n (pb_c P) x / tau);
  xs_dcost : st_dcost i = Some (- (dotp m (pb_h P) z + dotp p (pb_b P) y) / tau);
  xs_gap : st_gap i = Some (dotp m s z);
  xs_relgap : st_relgap i =
     (if Rltb (dotp n (pb_c P) x / tau) 0 then @fdiv XOps (Some (dotp m s z)) (Some (- (dotp n (pb_c P) x / tau)))
      else if Rltb 0 (- (dotp m (pb_h P) z + dotp p (pb_b P) y) / tau)
           then @fdiv XOps (Some (dotp m s z)) (Some (- (dotp m (pb_h P) z + dotp p (pb_b P) y) / tau)) else None);
  xs_pres : st_pres i = Some (Rmax (nrm p t_ry / Rmax (ry0 + nrm n x) 1) (nrm m t_rz / Rmax (rz0 + nrm n x + nrm m s) 1) / tau);
  xs_dres : st_dres i = Some (nrm n t_rx / Rmax (rx0 + nrm p y + nrm m z) 1 / tau);
  xs_pinfres : st_pinfres i =
     (if Rltb ((dotp m (pb_h P) z + dotp p (pb_b P) y) / Rmax (nrm p y + nrm m z) 1) (- reltol)
      then Some (nrm n h_rx / Rmax (nrm p y + nrm m z) 1) else None);
  xs_dinfres : st_dinfres i =
     (if Rltb (dotp n (pb_c P) x / Rmax (nrm n x) 1) (- reltol)
      then Some (Rmax (nrm p h_ry / Rmax (nrm n x) 1) (nrm m h_rz / Rmax (nrm n x + nrm m s) 1)) else None) }.

Lemma updateStatistics_X w w' : xresid w -> xpoint w P x y z s kap tau ->
  w_n w = n -> w_p w = p -> w_m w = m -> tau <> 0 ->
  w_resx0 w = Some rx0 -> w_resy0 w = Some ry0 -> w_resz0 w = Some rz0 -> sg_reltol (w_stgs w) = Some reltol ->
  @updateStatistics XOps w = Some w' -> xstats (w_info w').
Proof.
  intros [Hx Hy Hz Rx Ry Rz Cx By Hzz Nx Ny Nz Ns] [Qx Qy Qz Qs Qk Qt] En Ep Em Ht Ex Ey Ez Er H.
  unfold updateStatistics in H. change (@F XOps) with (option R) in H.
  rewrite En, Ep, Em, Hx, Hy, Hz, Cx, By, Hzz, Nx, Ny, Nz, Ns, Qk, Qt, Ex, Ey, Ez, Er in H.
  rewrite (eddot_X m s z) in H by auto. cbn [bind] in H.
  assert (EH: (if Nat.ltb 0 p then nr <- @norm2 XOps (w_ry w) p ;; Some (@fdiv XOps nr (@fmax XOps (@fadd XOps (Some ry0) (Some (nrm n x))) f1))
     else Some (@f0 XOps)) = Some (Some (nrm p t_ry / Rmax (ry0 + nrm n x) 1))).
  { destruct (Nat.ltb_spec 0 p) as [Hp|Hp].
    - rewrite (norm2_X p t_ry) by auto. cbn [bind]. rewrite xadd, f1_X, fmax_X, xdiv by apply max1_nz. reflexivity.
    - replace p with 0%nat by lia. rewrite nrm_0, f0_X. unfold Rdiv. rewrite Rmult_0_l. reflexivity. }
  change (@F XOps) with (option R) in EH. rewrite EH in H. cbn [bind] in H.
  rewrite (norm2_X m t_rz), (norm2_X n (fun j => - t_rx j)) in H by auto. cbn [bind] in H. rewrite nrm_opp in H.
  cbv zeta in H. injection H as <-. cbn [w_info set_w_info].
  repeat (rewrite ?f1_X, ?f0_X, ?xadd, ?xmul, ?xneg, ?fmax_X, ?xlt; rewrite ?xdiv by (auto using max1_nz)).
  constructor; wcbn; auto;
    repeat match goal with |- context [Req_EM_T ?a 0] =>
      destruct (Req_EM_T a 0) as [E|_]; [exfalso; first [exact (Ht E)|exact (max1_nz _ E)]|] end;
    rewrite ?fmax_X; cbn [xcmp]; auto.
  assert (E0: Q2R (QArith_base.Qmake 0 1) = 0) by (unfold Q2R; cbn; lra).
  rewrite E0. reflexivity.
Qed.
End Eval.
