(* C15 - C19: starting points, Nesterov-Todd scaling, its sparse expansion,
   conic product and division, line search.  Exact arithmetic (ROps).

   [cone_of C l q e]: the program's cone structure C describes l linear
   inequalities, second-order cones of dimensions q and e exponential cones
   (Spec/Shape.v).  Interior, product, scaling: Spec/Jordan.v. *)
From Coq Require Import List Arith Bool ZArith Reals QArith Qreals Lia Lra FunctionalExtensionality.
From Verif Require Import Base Num NumX NumH.
From Verif.Spec Require Import Matrix Conic Jordan Shape.
From Verif.Model Require Import Spla Types Consts Expcone Cone Ecos Preproc.
From Verif.Proofs Require Import LoopLib ConeP ScalP Scal2P RotP ConeR NtR LineP LineR KernR.
Import ListNotations.
Open Scope R_scope.

(* the guard of the program's divisions, 1e-13 *)
Definition eps : R := / 10000000000000.

(* what setup allocates describes the cone it was given *)
Lemma new_cone_of {O : Ops} l q e : (forall p, In p q -> (1 <= p)%nat) -> cone_of (new_cone l q e) l q e.
Proof.
  intros Hq. assert (M: map so_p (map new_soc q) = q).
  { clear. induction q; cbn; f_equal; auto. }
  constructor; auto; [|apply repeat_length]. unfold new_cone. constructor; cbn -[list_sum].
  - apply alloc_length.
  - apply alloc_length.
  - unfold hsize, lpp. cbn -[list_sum]. rewrite M. apply Nat.add_comm.
  - intros c Hc. apply in_map_iff in Hc as (p & <- & Hp). apply Hq; auto.
  - intros c Hc. apply in_map_iff in Hc as (p & <- & Hp). apply alloc_length.
  - intros c Hc. apply in_map_iff in Hc as (p & <- & Hp). apply alloc_length.
  - intros c Hc. apply in_map_iff in Hc as (p & <- & Hp). apply alloc_length.
  - intros x Hx. apply repeat_spec in Hx as ->. apply alloc_length.
  - intros x Hx. apply repeat_spec in Hx as ->. apply alloc_length.
Qed.

Lemma hsize_of C l q e : @cone_of ROps C l q e -> @hsize ROps C = (l + list_sum q)%nat.
Proof. intros [_ EL EQ _]. unfold hsize. rewrite <- EL, <- EQ. reflexivity. Qed.
Lemma msize_of C l q e : @cone_of ROps C l q e -> @msize ROps C = (l + list_sum q + 3 * e)%nat.
Proof. intros H. unfold msize. rewrite (hsize_of C l q e H). rewrite (co_e _ _ _ _ H). reflexivity. Qed.
Lemma cone_of_sim C C' l q e : @csim ROps C C' -> @cone_of ROps C l q e -> @cone_of ROps C' l q e.
Proof.
  intros CS [SH EL EQ EE]. constructor.
  - eapply csim_shape; eauto.
  - rewrite <- EL. apply (@csim_lpp ROps); auto.
  - rewrite <- EQ. apply (@csim_socs ROps); auto.
  - rewrite <- EE. apply (@csim_nexc ROps); auto.
Qed.

(* ------------------------------------------------------------------- C15 *)
(* bring2cone turns every vector into a point strictly inside the cone *)
Theorem C15_bring2cone : forall C l q e r rf s, @cone_of ROps C l q e ->
  vec r (l + list_sum q) rf -> (l + list_sum q <= length s)%nat ->
  exists s' sf, @bring2cone ROps C r s = Some s' /\ length s' = length s /\
    vec s' (l + list_sum q) sf /\ int_K l q sf.
Proof. intros C l q e r rf s H Hr Hl. rewrite <- (hsize_of C l q e H) in *. eapply bring2cone_R; eauto. Qed.
Print Assumptions C15_bring2cone.

(* the unit starting point used with exponential cones: both vectors strictly
   inside the cone and its dual *)
Theorem C15_unit : forall C l q e s z, @cone_of ROps C l q e ->
  (l + list_sum q + 3 * e <= length s)%nat -> (l + list_sum q + 3 * e <= length z)%nat ->
  exists s' z' sf zf, @unitInitialization ROps C s z 1 = Some (s', z') /\
    vec s' (l + list_sum q + 3 * e) sf /\ vec z' (l + list_sum q + 3 * e) zf /\
    int_K l q sf /\ int_K l q zf /\
    forall i, (i < e)%nat -> int_exp (from (l + list_sum q + 3 * i) sf) /\ int_expd (from (l + list_sum q + 3 * i) zf).
Proof.
  intros C l q e s z H Ls Lz. pose proof H as [SH EL EQ EE].
  pose proof (msize_of C l q e H) as MS. pose proof (hsize_of C l q e H) as HS.
  assert (G: forall s, (l + list_sum q + 3 * e <= length s)%nat -> exists s' sf, @unitInit1 ROps C s 1 = Some s' /\
    vec s' (l + list_sum q + 3 * e) sf /\ int_K l q sf /\
    forall i, (i < e)%nat -> int_exp (from (l + list_sum q + 3 * i) sf) /\ int_expd (from (l + list_sum q + 3 * i) sf)).
  { clear s z Ls Lz. intros s Ls. rewrite <- MS in Ls.
    destruct (@unitInit1_eq ROps C s 1 (@sh_pos ROps C SH) (@sh_fexv ROps C SH) Ls) as (s' & E & L & A & B & D & _).
    assert (EB: forall i, (i < e)%nat -> exists x, In ((l + list_sum q + 3 * i)%nat, x) (@eblocks ROps C)).
    { intros i Hi. unfold eblocks. rewrite (@sh_fexv ROps C SH), HS. unfold nexc in EE. revert i Hi. rewrite <- EE. generalize (l + list_sum q)%nat as k.
      clear. induction (co_expc C) as [|x t IH]; intros k i Hi; cbn [length lay] in *; [lia|]. destruct i.
      - exists x. left. f_equal. lia.
      - destruct (IH (k + 3)%nat i ltac:(lia)) as (y & Hy). exists y. right.
        replace (k + 3 * Datatypes.S i)%nat with (k + 3 + 3 * i)%nat by lia. auto. }
    exists s', (gd 0 s'). split; [exact E|].
    assert (EXPV: forall i j, (i < e)%nat -> (j < 3)%nat -> get s' (l + list_sum q + 3 * i + j)%nat = Some (@list_fun ROps (@expray ROps) j)).
    { intros i j Hi Hj. destruct (EB i Hi) as (x & Hx). rewrite (D _ _ j Hx Hj). f_equal. apply Rmult_1_l. }
    assert (KV: forall i, (i < @hsize ROps C)%nat -> get s' i <> None).
    { apply by_blocks.
      - intros i Hi. rewrite A by auto. discriminate.
      - intros k c i Hin Hi. pose proof (B k c i Hin Hi) as G. intros N. unR. rewrite N in G. discriminate. }
    split.
    - intros i Hi. unR. unfold gd. destruct (Nat.lt_ge_cases i (l + list_sum q)) as [Hlt|Hge].
      + pose proof (KV i ltac:(lia)) as N. destruct (get s' i); [reflexivity|contradiction].
      + assert (EI: (i = l + list_sum q + 3 * ((i - (l + list_sum q)) / 3) + (i - (l + list_sum q)) mod 3)%nat).
        { pose proof (Nat.div_mod (i - (l + list_sum q)) 3 ltac:(lia)). lia. }
        rewrite EI, EXPV; auto; [apply Nat.div_lt_upper_bound; lia|apply Nat.mod_upper_bound; lia].
    - split; [constructor|].
      + intros i Hi. unfold gd. unR. rewrite A by lia. lra.
      + intros k p Hin. rewrite <- EL, <- EQ in Hin. apply layout_blocks in Hin as (c & Hc & <-).
        pose proof (@sh_pos ROps C SH c ltac:(apply (@blocks_in ROps C k c Hc))) as P.
        unfold int_soc. rewrite (nrm_ext _ _ (fun _ => 0)).
        * unfold from, gd. pose proof (B k c 0%nat Hc ltac:(lia)) as G. cbn [Nat.eqb] in G. unR. rewrite G.
          unfold nrm. rewrite Rsum_0 by (intros; ring). rewrite sqrt_0. lra.
        * intros i Hi. unfold from, gd. pose proof (B k c (1 + i)%nat Hc ltac:(lia)) as G. cbn [Nat.eqb Nat.add] in G. unR.
          cbn [Nat.add]. rewrite G. reflexivity.
      + intros i Hi. assert (X: forall j, (j < 3)%nat -> from (l + list_sum q + 3 * i) (gd 0 s') j = @list_fun ROps (@expray ROps) j).
        { intros j Hj. unfold from, gd. unR. rewrite EXPV by auto. reflexivity. }
        destruct expray_int as [I1 I2]. unfold int_exp, int_expd in *. rewrite !X by lia. auto. }
  destruct (G s Ls) as (s' & sf & E1 & V1 & I1 & X1). destruct (G z Lz) as (z' & zf & E2 & V2 & I2 & X2).
  exists s', z', sf, zf. unfold unitInitialization. rewrite E1. cbn [bind]. rewrite E2. cbn [bind].
  split; [reflexivity|]. split; [auto|]. split; [auto|]. split; [auto|]. split; [auto|].
  intros i Hi. split; [apply X1; auto|apply X2; auto].
Qed.
Print Assumptions C15_unit.

(* ------------------------------------------------------------------- C16 *)
(* The scaling update accepts every pair with the margin, and what it stores is
   a scaling W with inverse Wi: [scale] computes W, [unscale] computes Wi, and
   lambda = W z = Wi s. *)
Theorem C16_scaling : forall C l q e s z lambda mu sf zf, @cone_of ROps C l q e -> margin eps l q sf zf ->
  vec s (l + list_sum q + 3 * e) sf -> vec z (l + list_sum q + 3 * e) zf -> (l + list_sum q <= length lambda)%nat ->
  exists C' lambda' W Wi, @updateScalings ROps C s z lambda mu = Some (false, C', lambda') /\
    @cone_of ROps C' l q e /\ scaling (l + list_sum q) l q W Wi /\
    vec lambda' (l + list_sum q) (W zf) /\
    (forall i, (i < l + list_sum q)%nat -> W zf i = Wi sf i) /\
    (forall x xf buf, vec x (l + list_sum q) xf -> (l + list_sum q <= length buf)%nat ->
       exists r, @scale ROps x C' buf = Some r /\ vec r (l + list_sum q) (W xf)) /\
    (forall x xf buf, vec x (l + list_sum q) xf -> (l + list_sum q <= length buf)%nat ->
       exists r, @unscale ROps x C' buf = Some r /\ vec r (l + list_sum q) (Wi xf)).
Proof.
  intros C l q e s z lambda mu sf zf H M Hs Hz Hl. unfold eps in M. rewrite <- EPS_R in M.
  pose proof (hsize_of C l q e H) as HS. rewrite <- (msize_of C l q e H) in *. rewrite <- HS in *.
  destruct (updateScalings_good C l q e s z lambda mu sf zf H M Hs Hz Hl) as (C' & lam & E & G & CS & UP & LL & V & EQ & _).
  pose proof (cone_of_sim _ _ _ _ _ CS H) as H'.
  pose proof (@csim_hsize ROps _ _ CS) as HS'.
  exists C', lam, (Wop C'), (Wiop C'). split; [auto|]. split; [auto|].
  split. { rewrite <- HS', <- (co_l _ _ _ _ H'), <- (co_q _ _ _ _ H'). apply Wop_scaling; auto. }
  split; [auto|]. split; [auto|]. rewrite <- HS'. split; intros x xf buf Hx Hb.
  - destruct (scale_op C' G x xf buf Hx Hb) as (r & E' & _ & V' & _). exists r. auto.
  - destruct (unscale_op C' G x xf buf Hx Hb) as (r & E' & _ & V' & _). exists r. auto.
Qed.
Print Assumptions C16_scaling.

(* it reports failure when a second-order block of s or z has left the cone and
   its negative *)
Theorem C16_rejects : forall C l q e s z lambda mu sf zf k p, @cone_of ROps C l q e ->
  vec s (l + list_sum q + 3 * e) sf -> vec z (l + list_sum q + 3 * e) zf -> (l + list_sum q <= length lambda)%nat ->
  In (k, p) (layout l q) -> det p (from k sf) <= 0 \/ det p (from k zf) <= 0 ->
  exists C', @updateScalings ROps C s z lambda mu = Some (true, C', lambda).
Proof.
  intros C l q e s z lambda mu sf zf k p H Hs Hz Hl Hin D.
  rewrite <- (msize_of C l q e H) in *. rewrite <- (hsize_of C l q e H) in *. destruct H as [SH EL EQ EE].
  destruct (@updateScalings_eq ROps C s z sf zf lambda mu SH Hs Hz Hl) as (C' & lambda' & E & _ & _ & K & _).
  assert (T: @socs_out ROps (co_soc C) sf zf (@lpp ROps C) = true).
  { rewrite <- EL, <- EQ in Hin. apply layout_blocks in Hin as (c & Hc & <-). pose proof (@sh_pos ROps C SH) as PP.
    unfold blocks in Hc. revert Hc PP. generalize (@lpp ROps C) as k0. clear -D.
    change (co_soc C) with (@co_soc R C). change (@F ROps) with R. induction (@co_soc R C) as [|x t IH]; intros k0 Hc PP; [destruct Hc|].
    cbn [socs_out]. apply orb_true_iff. destruct Hc as [Hc|Hc].
    - left. inversion Hc; subst. unfold nt_out. pose proof (PP c (or_introl eq_refl)) as P.
      rewrite !socres_R by auto. change (@sh ROps k sf) with (from k sf). change (@sh ROps k zf) with (from k zf). rewrite f0_R.
      change (@fle ROps) with Rleb.
      destruct (Rleb_spec (det (so_p c) (from k sf)) 0); [reflexivity|].
      destruct (Rleb_spec (det (so_p c) (from k zf)) 0); [reflexivity|]. lra.
    - right. apply IH; auto. intros c' Hc'. apply PP. right; auto. }
  rewrite T in *. rewrite (K eq_refl) in E. exists C'. auto.
Qed.
Print Assumptions C16_rejects.

(* hypotheses of C16_scaling and C17_expansion *)
Example margin_example : let s := fun i => nth i [2; 3; 1] 0 in let z := fun i => nth i [1; 2; 0] 0 in
  @cone_of ROps (@new_cone ROps 1 [2%nat] 0) 1 [2%nat] 0 /\ margin eps 1 [2%nat] s z.
Proof.
  intros s z. split; [apply new_cone_of; cbn; intros p [<-|[]]; lia|].
  assert (N: forall a b, nrm 1 (fun i => nth i [a] b) = Rabs a).
  { intros. unfold nrm. cbn [Rsum nth]. rewrite Rplus_0_l. apply sqrt_Rsqr_abs. }
  assert (NS: nrm 1 (from 1 (from 1 s)) = 1). { rewrite (nrm_ext _ _ (fun i => nth i [1] 0)); [rewrite N; apply Rabs_R1|intros i Hi; replace i with 0%nat by lia; reflexivity]. }
  assert (NZ: nrm 1 (from 1 (from 1 z)) = 0). { rewrite (nrm_ext _ _ (fun i => nth i [0] 0)); [rewrite N; apply Rabs_R0|intros i Hi; replace i with 0%nat by lia; reflexivity]. }
  assert (DS: det 2 (from 1 s) = 8). { unfold det. cbn [Nat.sub]. unfold dotp. cbn [Rsum]. unfold from, s. cbn [nth Nat.add]. lra. }
  assert (DZ: det 2 (from 1 z) = 4). { unfold det. cbn [Nat.sub]. unfold dotp. cbn [Rsum]. unfold from, z. cbn [nth Nat.add]. lra. }
  unfold eps. constructor.
  - constructor.
    + intros i Hi. replace i with 0%nat by lia. cbn. lra.
    + intros k p [E|[]]. inversion E; subst. unfold int_soc. cbn [Nat.sub]. rewrite NS. unfold from, s. cbn. lra.
  - constructor.
    + intros i Hi. replace i with 0%nat by lia. cbn. lra.
    + intros k p [E|[]]. inversion E; subst. unfold int_soc. cbn [Nat.sub]. rewrite NZ. unfold from, z. cbn. lra.
  - intros i Hi. replace i with 0%nat by lia. cbn. lra.
  - intros k p [E|[]]. inversion E; subst. rewrite DS, DZ. lra.
Qed.

(* "reports failure whenever s or z leaves the cone" is false, in binary64:
   s = (-1, -2, 1) and z = (1, -2, -1) are accepted although both
   second-order parts lie in the negative cone and s_0 < 0 *)
Definition fq (l : list Q) : arr (@F FOps) := arr_of (map (@fconst FOps) l).
Theorem C16_refuted_negative : exists C' lambda',
  @updateScalings FOps (@new_cone FOps 1 [2%nat] 0) (fq [-1; -2; 1]%Q) (fq [1; -2; -1]%Q) (alloc 3) (@f1 FOps)
    = Some (false, C', lambda').
Proof. eexists. eexists. vm_compute. reflexivity. Qed.
Print Assumptions C16_refuted_negative.

(* and without the margin W z = W^-1 s fails, already in exact arithmetic:
   s = 10, z = 1e-14 gives W z = 1e-7 but W^-1 s = 1e-6 *)
Definition hq (l : list Q) : arr (@F HOps) := arr_of (map (@fconst HOps) l).
Theorem C16_refuted_near_boundary : exists C' lambda',
  @updateScalings HOps (@new_cone HOps 1 [] 0) (hq [10%Q]) (hq [1 # 100000000000000]) (alloc 1) (HQ 1)
    = Some (false, C', lambda') /\
  @scale HOps (hq [1 # 100000000000000]) C' (alloc 1) = Some (hq [1 # 10000000]) /\
  @unscale HOps (hq [10%Q]) C' (alloc 1) = Some (hq [1 # 1000000]).
Proof. eexists. eexists. split; [vm_compute; reflexivity|]. split; vm_compute; reflexivity. Qed.
Print Assumptions C16_refuted_near_boundary.

(* ------------------------------------------------------------------- C17 *)
Lemma layout2_in (C : list (socone R)) : forall k k' a b p, In (a, b, p) (layout2 k k' (map so_p C)) ->
  exists c, so_p c = p /\ In (a, c) (lay so_p k C) /\ In (b, c) (lay (@esz ROps) k' C) /\
    In (b, (a, c)) (lay (fun kc => @esz ROps (snd kc)) k' (lay so_p k C)).
Proof.
  induction C as [|c t IH]; intros k k' a b p H; cbn [map layout2 lay] in *; [destruct H|]. destruct H as [E|H].
  - inversion E; subst. exists c. split; [auto|]. split; [left; auto|]. split; [left; auto|]. left; auto.
  - destruct (IH (k + so_p c)%nat (k' + so_p c + 2)%nat a b p H) as (c' & E & H1 & H2 & H3).
    exists c'. split; [auto|]. unfold esz in *. cbn [snd]. rewrite <- Nat.add_assoc in H2, H3.
    split; [right; auto|]. split; right; auto.
Qed.

(* size of the expanded vector *)
Definition xdim (l : nat) (q : list nat) (e : nat) : nat := l + list_sum (map (fun p => p + 2)%nat q) + 3 * e.

(* After an accepted update, scale2add adds V x for one matrix V; for every u
   there is an expanded x carrying u for which the extra rows of V x vanish,
   and then V x carries W (W u): eliminating the extra coordinates from V
   gives the squared scaling exactly. *)
Theorem C17_expansion : forall C l q e s z lambda mu sf zf, @cone_of ROps C l q e -> margin eps l q sf zf ->
  vec s (l + list_sum q + 3 * e) sf -> vec z (l + list_sum q + 3 * e) zf -> (l + list_sum q <= length lambda)%nat ->
  exists C' lambda' (W V : (nat -> R) -> nat -> R), @updateScalings ROps C s z lambda mu = Some (false, C', lambda') /\
    (* W is what scale computes *)
    (forall x xf buf, vec x (l + list_sum q) xf -> (l + list_sum q <= length buf)%nat ->
       exists r, @scale ROps x C' buf = Some r /\ vec r (l + list_sum q) (W xf)) /\
    (* V is what scale2add adds, up to the exponential cones *)
    (forall x y xf yf, vec x (xdim l q e) xf -> vec y (xdim l q e) yf -> (xdim l q e <= length y)%nat ->
       exists r, @scale2add ROps x y C' = Some r /\ vec r (xdim l q 0) (fun i => yf i + V xf i)) /\
    (forall u, exists x, carries l q u x /\ extra_zero l q (V x)) /\
    (forall u x, carries l q u x -> extra_zero l q (V x) -> carries l q (W (W u)) (V x)).
Proof.
  intros C l q e s z lambda mu sf zf H M Hs Hz Hl. unfold eps in M. rewrite <- EPS_R in M.
  pose proof (hsize_of C l q e H) as HS. rewrite <- (msize_of C l q e H) in *. rewrite <- HS in *.
  destruct (updateScalings_good C l q e s z lambda mu sf zf H M Hs Hz Hl) as (C' & lam & E & G & CS & UP & LL & V & EQ & _).
  pose proof (cone_of_sim _ _ _ _ _ CS H) as H'.
  pose proof (@csim_hsize ROps _ _ CS) as HS'.
  destruct H' as [SH EL EQQ EE]. destruct M as [Is Iz ML MS].
  assert (BI: forall k c, In (k, c) (@blocks ROps C') -> (1 <= so_p c)%nat /\ good_exp c).
  { intros k c Hin. assert (Hl' : In (k, so_p c) (layout l q)).
    { rewrite <- EL, <- EQQ. apply layout_blocks. exists c. auto. }
    pose proof (@sh_pos ROps C' SH c ltac:(apply (@blocks_in ROps C' k c Hin))) as P. split; auto.
    destruct (MS k _ Hl') as (M1 & M2 & M3).
    apply (upd_expansion c (from k sf) (from k zf)); auto.
    - exact (@up_soc ROps _ _ _ _ UP k c Hin).
    - apply (int_socs _ _ _ Is); auto.
    - apply (int_socs _ _ _ Iz); auto. }
  set (Vop := fun (x : nat -> R) i => if Nat.ltb i l then gd 0 (lp_v (co_lpc C')) i * x i
     else piece (@esz ROps) (fun k c i => @s2_f ROps c (from k x) i) l (co_soc C') i).
  assert (VS: forall x k' c i, In (k', c) (@xblocks ROps C') -> (i < @esz ROps c)%nat -> Vop x (k' + i)%nat = @s2_f ROps c (from k' x) i).
  { intros x k' c i Hin Hi. pose proof (lay_bounds _ _ _ _ _ Hin) as B. unfold Vop. rewrite EL in B.
    destruct (Nat.ltb_spec (k' + i) l); [lia|]. unfold xblocks in Hin. rewrite EL in Hin.
    exact (piece_in (@esz ROps) (fun k c i => @s2_f ROps c (from k x) i) _ _ _ _ _ Hin Hi). }
  assert (XD: @xsize ROps C' = xdim l q e /\ xdim l q 0 = @xsoc ROps C').
  { unfold xsize, xsoc, xdim. rewrite EL, EE, <- EQQ, tot_sum, map_map. split; [reflexivity|apply Nat.add_0_r]. }
  destruct XD as [XD1 XD2].
  exists C', lam, (Wop C'), Vop. split; [auto|]. split; [|split; [|split]].
  - rewrite <- HS'. intros x xf buf Hx Hb. destruct (scale_op C' G x xf buf Hx Hb) as (r & E' & _ & V' & _). exists r. auto.
  - intros x y xf yf Hx Hy Hly. rewrite <- XD1 in *.
    destruct (@scale2add_eq ROps C' x xf y yf (@sh_pos ROps C' SH) (@updated_scaled ROps _ _ _ _ UP) Hx Hy Hly) as (r & E' & L' & [A B D] & _).
    exists r. split; [auto|]. rewrite XD2. intros i Hi. destruct (Nat.lt_ge_cases i l) as [Hlt|Hge].
    + rewrite A by lia. unfold Vop. destruct (Nat.ltb_spec i l); [|lia]. unR. reflexivity.
    + unfold xsoc in Hi. rewrite EL in Hi. destruct (lay_cover (@esz ROps) l (co_soc C') i) as (k & c & Hin & Hb); [lia|].
      assert (Hin' : In (k, c) (@xblocks ROps C')). { unfold xblocks. rewrite EL. exact Hin. }
      replace i with (k + (i - k))%nat by lia. rewrite (B k c (i - k)%nat Hin' ltac:(lia)).
      rewrite (VS xf k c (i - k)%nat Hin' ltac:(lia)). reflexivity.
  - intros u.
    set (f := fun (k' : nat) (kc : nat * socone R) (i : nat) => let '(k, c) := kc in
       let qu := dotp (so_p c - 1) (qv c) (from 1 (from k u)) in
       if Nat.ltb i (so_p c) then u (k + i)%nat
       else if Nat.eqb i (so_p c) then - oscR (so_v1 c) * qu
       else oscR (so_u0 c) * u k + oscR (so_u1 c) * qu).
    set (x := fun i => if Nat.ltb i l then u i else piece (fun kc => @esz ROps (snd kc)) f l (lay so_p l (co_soc C')) i).
    assert (XB: forall k k' p, In (k, k', p) (layout2 l l q) -> exists c : socone R, so_p c = p /\ In (k, c) (@blocks ROps C') /\ In (k', c) (@xblocks ROps C') /\
       forall i, (i < p + 2)%nat -> x (k' + i)%nat = f k' (k, c) i).
    { intros k k' p Hin. rewrite <- EQQ in Hin. destruct (layout2_in _ _ _ _ _ _ Hin) as (c & EP & H1 & H2 & H3).
      exists c. split; [auto|]. unfold blocks, xblocks. rewrite EL. split; [exact H1|]. split; [exact H2|].
      intros i Hi. pose proof (lay_bounds _ _ _ _ _ H2) as B. unfold x. destruct (Nat.ltb_spec (k' + i) l); [lia|].
      apply (piece_in (fun kc => @esz ROps (snd kc)) f _ _ _ _ _ H3). unfold esz. cbn [snd]. unR; lia. }
    exists x. split; [constructor|].
    { intros i Hi. unfold x. destruct (Nat.ltb_spec i l); [auto|lia]. }
    { intros k k' p i Hin Hi. destruct (XB _ _ _ Hin) as (c & <- & _ & _ & X). rewrite X by lia. unfold f.
      unR; destruct (Nat.ltb_spec i (so_p c)); [reflexivity|lia]. }
    { intros k k' p Hin. destruct (XB _ _ _ Hin) as (c & <- & HB & HX & X).
      destruct (BI k c HB) as [P GE].
      rewrite <- Nat.add_assoc. rewrite !(VS x k' c) by (auto; unfold esz; unR; lia).
      assert (DQ: dotp (so_p c - 1) (qv c) (from 1 (from k' x)) = dotp (so_p c - 1) (qv c) (from 1 (from k u))).
      { apply dotp_ext; auto. intros i Hi. unfold from. rewrite X by lia. unfold f.
        unR; destruct (Nat.ltb_spec (1 + i) (so_p c)); [auto|lia]. }
      apply expansion_solvable; auto; rewrite DQ; unfold from at 1; rewrite X by lia; unfold f.
      * unR; rewrite Nat.ltb_irrefl, Nat.eqb_refl. reflexivity.
      * unR; destruct (Nat.ltb_spec (so_p c + 1) (so_p c)); [lia|]. destruct (Nat.eqb_spec (so_p c + 1) (so_p c)); [lia|].
        f_equal. f_equal. unfold from. rewrite X by lia. unfold f. unR. destruct (Nat.ltb_spec 0 (so_p c)); [|lia]. f_equal. lia. }
  - intros u x [CL CSO] EZ. constructor.
    + intros i Hi. unfold Vop. destruct (Nat.ltb_spec i l); [|lia]. rewrite !Wop_lp by (rewrite EL; lia). rewrite CL by auto.
      rewrite <- Rmult_assoc. f_equal.
      pose proof (@up_w ROps _ _ _ _ UP i ltac:(lia)) as EW. pose proof (@up_v ROps _ _ _ _ UP i ltac:(lia)) as EV.
      unfold gd. unR. rewrite EW, EV. destruct (ML i Hi) as [M1 M2]. rewrite safediv_R by auto. rewrite sqrt_sqrt; auto.
      pose proof EPS_pos. pose proof (int_lp _ _ _ Is i Hi). left. apply Rdiv_lt_0_compat; lra.
    + intros k k' p i Hin Hi. pose proof (EZ _ _ _ Hin) as [Z1 Z2]. pose proof Hin as Hin'.
      rewrite <- EQQ in Hin'. destruct (layout2_in _ _ _ _ _ _ Hin') as (c & EP & H1 & H2 & _). subst p.
      assert (HB: In (k, c) (@blocks ROps C')) by (unfold blocks; rewrite EL; exact H1).
      assert (HX: In (k', c) (@xblocks ROps C')) by (unfold xblocks; rewrite EL; exact H2).
      destruct (BI k c HB) as [P GE].
      rewrite (VS x k' c) in Z1 by (auto; unfold esz; unR; lia).
      rewrite <- Nat.add_assoc in Z2. rewrite (VS x k' c) in Z2 by (auto; unfold esz; unR; lia).
      rewrite (VS x k' c) by (auto; unfold esz; unR; lia).
      rewrite (expansion_block c (from k' x) GE Z1 Z2 i Hi).
      rewrite (Wop_soc C' _ k c) by auto. f_equal. apply rot_ext; auto.
      intros j Hj. unfold from at 2. rewrite (Wop_soc C' u k c) by auto. f_equal. apply rot_ext; auto.
      intros j' Hj'. unfold from. apply (CSO _ _ _ _ Hin Hj').
Qed.
Print Assumptions C17_expansion.

(* ------------------------------------------------------------------- C18 *)
(* sum of the absolute values of the linear entries and of the first entries of
   the second-order blocks of a product *)
Definition jmu (l : nat) (q : list nat) (w : nat -> R) : R :=
  Rsum l (fun i => Rabs (w i)) + fold_right Rplus 0 (map (fun kp => Rabs (w (fst kp))) (layout l q)).

Lemma fold_left_plus {A} (g : A -> R) l : forall a, fold_left (fun m x => m + g x) l a = a + fold_right Rplus 0 (map g l).
Proof. induction l as [|x t IH]; intros a; cbn; [ring|]. rewrite IH. ring. Qed.

Theorem C18_product : forall C l q e u v w uf vf, @cone_of ROps C l q e ->
  vec u (l + list_sum q) uf -> vec v (l + list_sum q) vf -> (l + list_sum q <= length w)%nat ->
  exists w' wf, @conicProduct ROps u v C w = Some (jmu l q wf, w') /\
    vec w' (l + list_sum q) wf /\ is_jprod l q uf vf wf.
Proof.
  intros C l q e u v w uf vf H Hu Hv Hl. rewrite <- (hsize_of C l q e H) in *. destruct H as [SH EL EQ EE].
  destruct (@conicProduct_eq ROps C u v uf vf w (@sh_pos ROps C SH) Hu Hv Hl) as (w' & E & FI).
  assert (V: vec w' (@hsize ROps C) (gd 0 w')) by (rewrite <- f0_R; eapply (@filled_vec ROps C); exact FI).
  destruct FI as (L & A & B & D).
  assert (J: is_jprod l q uf vf (gd 0 w')).
  { constructor.
    - intros i Hi. unfold gd. pose proof (A i ltac:(lia)) as G. unR. rewrite G. reflexivity.
    - intros k p i Hin Hi. rewrite <- EL, <- EQ in Hin. apply layout_blocks in Hin as (c & Hc & <-).
      unfold gd. pose proof (B k c i Hc Hi) as G. unR. rewrite G. rewrite cprod_R. reflexivity. }
  exists w', (gd 0 w'). split; [|auto]. rewrite E. f_equal. f_equal. unfold cprod_mu, jmu.
  assert (N: @nfold R 0 (@lpp ROps C) (fun i mu => mu + @cabs ROps (uf i * vf i)) 0 = Rsum l (fun i => Rabs (gd 0 w' i))).
  { rewrite (nfold_plus 0 (@lpp ROps C) (fun i => @cabs ROps (uf i * vf i))). rewrite Rplus_0_l, EL. apply Rsum_ext.
    intros i Hi. rewrite (jp_lp _ _ _ _ _ J) by auto. apply cabs_R. }
  change (@f0 ROps) with (Q2R 0). replace (Q2R 0) with 0 by (unfold Q2R; cbn; lra). unR. rewrite N.
  assert (X: forall (g : nat * socone R -> R) a, (forall k c, In (k, c) (@blocks ROps C) -> @cabs ROps (@dot_f ROps (so_p c) (@sh ROps k uf) (@sh ROps k vf)) = g (k, c)) ->
    fold_left (fun mu '(k, c) => mu + @cabs ROps (@dot_f ROps (so_p c) (@sh ROps k uf) (@sh ROps k vf))) (@blocks ROps C) a
    = fold_left (fun mu x => mu + g x) (@blocks ROps C) a).
  { intros g a. revert a. generalize (@blocks ROps C) as bl. clear. induction bl as [|[k c] t IH]; intros a G; [reflexivity|]. cbn [fold_left].
    rewrite (G k c) by (left; auto). apply IH. intros. apply G. right; auto. }
  rewrite (X (fun kc => Rabs (gd 0 w' (fst kc)))).
  - rewrite fold_left_plus. f_equal. rewrite <- EL, <- EQ. unfold blocks. clear. generalize (@lpp ROps C) as k.
    change (@F ROps) with R. induction (@co_soc R C) as [|c t IH]; intros k; cbn [lay map layout fold_right]; [reflexivity|]. f_equal. apply IH.
  - intros k c Hc. cbn [fst]. pose proof (@sh_pos ROps C SH c ltac:(apply (@blocks_in ROps C k c Hc))) as P.
    assert (Hin: In (k, so_p c) (layout l q)) by (rewrite <- EL, <- EQ; apply layout_blocks; exists c; auto).
    pose proof (jp_soc _ _ _ _ _ J k (so_p c) 0%nat Hin ltac:(lia)) as G. rewrite Nat.add_0_r in G. rewrite G. cbn [jprod].
    rewrite cabs_R, dot_R. reflexivity.
Qed.
Print Assumptions C18_product.

(* u interior and away from the boundary *)
Record inner (l : nat) (q : list nat) (u : nat -> R) : Prop := {
  in_lp : forall i, (i < l)%nat -> eps <= u i;
  in_sc : forall k p, In (k, p) (layout l q) -> eps <= u k /\ eps <= det p (from k u)
}.

(* u o (u \ w) = w, and u \ w is the only solution *)
Theorem C18_division : forall C l q e u w v uf wf, @cone_of ROps C l q e -> inner l q uf ->
  vec u (l + list_sum q) uf -> vec w (l + list_sum q) wf -> (l + list_sum q <= length v)%nat ->
  exists v' vf, @conicDivision ROps u w C v = Some v' /\ vec v' (l + list_sum q) vf /\ is_jprod l q uf vf wf /\
    forall xf, is_jprod l q uf xf wf -> forall i, (i < l + list_sum q)%nat -> xf i = vf i.
Proof.
  intros C l q e u w v uf wf H [IL IS] Hu Hw Hl. unfold eps in *. rewrite <- EPS_R in *.
  rewrite <- (hsize_of C l q e H) in *. destruct H as [SH EL EQ EE].
  destruct (@conicDivision_eq ROps C u w uf wf v (@sh_pos ROps C SH) Hu Hw Hl) as (v' & E & FI).
  assert (V: vec v' (@hsize ROps C) (gd 0 v')) by (rewrite <- f0_R; eapply (@filled_vec ROps C); exact FI).
  destruct FI as (L & A & B & D). pose proof EPS_pos as EP.
  exists v', (gd 0 v'). split; [auto|]. split; [auto|]. unR.
  assert (VL: forall i, (i < l)%nat -> gd 0 v' i = wf i / uf i).
  { intros i Hi. unfold gd. pose proof (A i ltac:(lia)) as G. unR. rewrite G. apply safediv_R. apply IL; auto. }
  assert (VB: forall k c i, In (k, c) (@blocks ROps C) -> (i < so_p c)%nat -> (1 <= so_p c)%nat /\ EPSR <= uf k /\ EPSR <= det (so_p c) (from k uf) /\
     gd 0 v' (k + i)%nat = quo (so_p c) (from k uf) (from k wf) i).
  { intros k c i Hc Hi. pose proof (@sh_pos ROps C SH c ltac:(apply (@blocks_in ROps C k c Hc))) as P.
    assert (Hin: In (k, so_p c) (layout l q)) by (rewrite <- EL, <- EQ; apply layout_blocks; exists c; auto).
    destruct (IS _ _ Hin) as [I1 I2]. split; [auto|]. split; [auto|]. split; [auto|].
    unfold gd. pose proof (B k c i Hc Hi) as G. unR. rewrite G. refine (cdiv_R _ _ _ _ P _ I2). unfold from. rewrite Nat.add_0_r. exact I1. }
  split; [constructor|].
  - intros i Hi. rewrite VL by auto. pose proof (IL i Hi). unR. field. lra.
  - intros k p i Hin Hi. rewrite <- EL, <- EQ in Hin. apply layout_blocks in Hin as (c & Hc & <-).
    destruct (VB k c i Hc Hi) as (P & I1 & I2 & _).
    transitivity (jprod (so_p c) (from k uf) (quo (so_p c) (from k uf) (from k wf)) i).
    + symmetry. change (wf (k + i)%nat) with (from k wf i). apply quo_prod; auto; try lra. unfold from. rewrite Nat.add_0_r. lra.
    + assert (JE: forall a b, (forall j, (j < so_p c)%nat -> a j = b j) -> jprod (so_p c) (from k uf) a i = jprod (so_p c) (from k uf) b i).
      { intros a b AB. unfold jprod. destruct i; [apply dotp_ext; auto|]. rewrite AB, (AB 0%nat) by lia. reflexivity. }
      apply JE. intros j Hj. symmetry. apply (VB k c j Hc Hj).
  - intros xf [XL XS]. rewrite (hsize_of C l q e) by (constructor; auto). intros i Hi. destruct (Nat.lt_ge_cases i l) as [Hlt|Hge].
    + rewrite VL by auto. rewrite XL by auto. pose proof (IL i Hlt). unR. field. lra.
    + destruct (layout_cover l q i ltac:(lia)) as (k & p & Hin & Hb). pose proof Hin as Hin'.
      rewrite <- EL, <- EQ in Hin'. apply layout_blocks in Hin' as (c & Hc & <-).
      replace i with (k + (i - k))%nat by lia. destruct (VB k c (i - k)%nat Hc ltac:(lia)) as (P & I1 & I2 & ->).
      symmetry. change (xf (k + (i - k))%nat) with (from k xf (i - k)). apply jprod_quo; auto; try lia; try lra.
      * unfold from. rewrite Nat.add_0_r. lra.
      * intros j Hj. unfold from at 1. apply (XS _ _ _ Hin Hj).
Qed.
Print Assumptions C18_division.

Example inner_example : inner 1 [1%nat] (fun i => nth i [1; 2] 0).
Proof.
  constructor; unfold eps.
  - intros i Hi. replace i with 0%nat by lia. cbn. lra.
  - intros k p [E|[]]. inversion E; subst. unfold det, dotp, from. cbn. lra.
Qed.

(* without the distance to the boundary the division does not invert the
   product: 1 / 5e-14 is returned as 1e13 *)
Theorem C18_refuted_near_boundary :
  @conicDivision HOps (hq [5 # 100000000000000]) (hq [1%Q]) (@new_cone HOps 1 [] 0) (alloc 1)
    = Some (hq [10000000000000%Q]).
Proof. vm_compute. reflexivity. Qed.
Print Assumptions C18_refuted_near_boundary.

(* ------------------------------------------------------------------- C19 *)
Theorem C19_lineSearch : forall C l q e lambda ds dz lf df zf tau dtau kap dkap w1 w2, @cone_of ROps C l q e ->
  int_K l q lf -> 0 < tau -> 0 < kap ->
  vec lambda (l + list_sum q) lf -> vec ds (l + list_sum q) df -> vec dz (l + list_sum q) zf ->
  (l + list_sum q <= length w1)%nat -> (l + list_sum q <= length w2)%nat ->
  exists alpha w1' w2', @lineSearch ROps lambda ds dz tau dtau kap dkap C w1 w2 = Some (alpha, w1', w2') /\
    / 1000000 <= alpha <= 999 / 1000 /\
    (/ 1000000 < alpha ->
       (forall t, 0 <= t < alpha ->
          int_K l q (fun i => lf i + t * df i) /\ int_K l q (fun i => lf i + t * zf i) /\
          0 < tau + t * dtau /\ 0 < kap + t * dkap) /\
       inK l q 0 (fun i => lf i + alpha * df i) /\ inK l q 0 (fun i => lf i + alpha * zf i) /\
       0 <= tau + alpha * dtau /\ 0 <= kap + alpha * dkap).
Proof.
  intros C l q e lambda ds dz lf df zf tau dtau kap dkap w1 w2 H IK Ht Hk Hl Hd Hz L1 L2.
  rewrite <- (hsize_of C l q e H) in *. destruct H as [SH EL EQ EE].
  destruct (@lineSearch_eq ROps C lambda ds dz lf df zf tau dtau kap dkap w1 w2 Hl Hd Hz (@sh_pos ROps C SH) L1 L2) as (w1' & w2' & E & _).
  exists (@ls_alpha ROps C lf df zf tau dtau kap dkap), w1', w2'. split; [auto|]. clear E.
  pose proof IK as IK'. rewrite <- EL, <- EQ in IK'.
  destruct (alpha_R C lf df zf tau dtau kap dkap IK' (@sh_pos ROps C SH) Ht Hk) as [AB AK].
  set (al := @ls_alpha ROps C lf df zf tau dtau kap dkap) in *. split; [auto|]. intros HA.
  destruct (AK HA) as (A1 & A2 & A3 & A4). clear AK. unfold ok in A1, A2.
  assert (PQ: forall p, In p q -> (1 <= p)%nat).
  { intros p Hp. rewrite <- EQ in Hp. apply in_map_iff in Hp as (c & <- & Hc). apply (@sh_pos ROps C SH); auto. }
  assert (MV: forall d, (forall i, (i < l)%nat -> ok al (- (d i / lf i))) ->
      (forall k c, In (k, c) (@blocks ROps C) -> ok al (@ls_nr ROps (so_p c) (from k lf) (from k d))) ->
      (forall t, 0 <= t < al -> int_K l q (fun i => lf i + t * d i)) /\ inK l q 0 (fun i => lf i + al * d i)).
  { intros d D1 D2. apply move_K; auto; [|lra]. intros k p Hin. rewrite <- EL, <- EQ in Hin. apply layout_blocks in Hin as (c & Hc & <-). auto. }
  destruct (MV df) as [M1 M2]; [intros; apply A3; lia|intros; apply (A4 k c); auto|].
  destruct (MV zf) as [M3 M4]; [intros; apply A3; lia|intros; apply (A4 k c); auto|].
  assert (LT: forall t r, 0 <= t < al -> al * r <= 1 -> t * r < 1).
  { intros t r Ht' Hr. destruct (Rle_dec r 0); nra. }
  split; [|split; [auto|split; [auto|split; apply ok_nonneg; lra]]].
  intros t HT. split; [auto|]. split; [auto|]. split; apply ok_pos; auto; try lra; apply LT; auto.
Qed.
Print Assumptions C19_lineSearch.

Lemma int_K_ext l q u v : (forall i, (i < l + list_sum q)%nat -> u i = v i) -> (forall p, In p q -> (1 <= p)%nat) -> int_K l q u -> int_K l q v.
Proof.
  intros E P [A B]. constructor.
  - intros i Hi. rewrite <- E by lia. auto.
  - intros k p Hin. pose proof (layout_bounds _ _ _ _ Hin) as LB.
    assert (HP: (1 <= p)%nat). { apply P. clear -Hin. revert Hin. generalize l. induction q as [|x t IH]; intros k0 H; [destruct H|].
      destruct H as [H|H]; [injection H as <- <-; left; auto|right; eapply IH; eauto]. }
    pose proof (B k p Hin) as I. unfold int_soc in *.
    replace (from k v 0%nat) with (from k u 0%nat) by (unfold from; apply E; lia).
    rewrite (nrm_ext _ _ (from 1 (from k u))); auto. intros i Hi. unfold from. symmetry. apply E. lia.
Qed.

(* a scaling looks at the first N coordinates only *)
Lemma lin_ext N l q W Wi : scaling N l q W Wi -> forall x y i, (forall j, (j < N)%nat -> x j = y j) -> (i < N)%nat -> W x i = W y i.
Proof.
  intros SC x y i E Hi.
  assert (D: forall v, dotp N (fun j => if Nat.eqb j i then 1 else 0) v = v i).
  { intros v. unfold dotp. rewrite (Rsum_ext _ _ (fun j => if Nat.eqb j i then v j else 0)) by (intros j Hj; destruct (Nat.eqb j i); ring).
    rewrite Rsum_delta. destruct (Nat.ltb_spec i N); [auto|lia]. }
  rewrite <- (D (W x)), <- (D (W y)), !(sc_sym _ _ _ _ _ SC). apply dotp_ext; auto.
Qed.
Lemma lini_ext N l q W Wi : scaling N l q W Wi -> forall x y i, (forall j, (j < N)%nat -> x j = y j) -> (i < N)%nat -> Wi x i = Wi y i.
Proof.
  intros SC x y i E Hi.
  set (d := fun j => if Nat.eqb j i then 1 else 0).
  assert (D: forall v, dotp N d v = v i).
  { intros v. unfold dotp, d. rewrite (Rsum_ext _ _ (fun j => if Nat.eqb j i then v j else 0)) by (intros j Hj; destruct (Nat.eqb j i); ring).
    rewrite Rsum_delta. destruct (Nat.ltb_spec i N); [auto|lia]. }
  assert (S1: forall v, dotp N d (Wi v) = dotp N (Wi d) v).
  { intros v. rewrite (dotp_ext N d (W (Wi d)) (Wi v) (Wi v)); [|intros; symmetry; apply (sc_inv2 _ _ _ _ _ SC); auto|auto].
    rewrite <- (sc_sym _ _ _ _ _ SC). apply dotp_ext; auto. intros; apply (sc_inv2 _ _ _ _ _ SC); auto. }
  rewrite <- (D (Wi x)), <- (D (Wi y)), !S1. apply dotp_ext; auto.
Qed.

(* The same for the iterates themselves: with a scaling W such that
   lambda = W z = Wi s, directions ds = W dsw and dz = Wi wdz, the step keeps
   s + t ds and z + t dz strictly inside the cone. *)
Theorem C19_iterates : forall C l q e lambda ds dz tau dtau kap dkap w1 w2 W Wi sf zf dsw wdz,
  @cone_of ROps C l q e -> scaling (l + list_sum q) l q W Wi ->
  int_K l q sf -> int_K l q zf -> (forall i, (i < l + list_sum q)%nat -> W zf i = Wi sf i) ->
  0 < tau -> 0 < kap ->
  vec lambda (l + list_sum q) (W zf) -> vec ds (l + list_sum q) dsw -> vec dz (l + list_sum q) wdz ->
  (l + list_sum q <= length w1)%nat -> (l + list_sum q <= length w2)%nat ->
  exists alpha w1' w2', @lineSearch ROps lambda ds dz tau dtau kap dkap C w1 w2 = Some (alpha, w1', w2') /\
    / 1000000 <= alpha <= 999 / 1000 /\
    (/ 1000000 < alpha -> forall t, 0 <= t < alpha ->
       int_K l q (fun i => sf i + t * W dsw i) /\ int_K l q (fun i => zf i + t * Wi wdz i) /\
       0 < tau + t * dtau /\ 0 < kap + t * dkap).
Proof.
  intros C l q e lambda ds dz tau dtau kap dkap w1 w2 W Wi sf zf dsw wdz H SC Is Iz EQ Ht Hk Hl Hd Hz L1 L2.
  assert (PQ: forall p, In p q -> (1 <= p)%nat).
  { destruct H as [SH EL E2 EE]. intros p Hp. rewrite <- E2 in Hp. apply in_map_iff in Hp as (c & <- & Hc). apply (@sh_pos ROps C SH); auto. }
  destruct (C19_lineSearch C l q e lambda ds dz (W zf) dsw wdz tau dtau kap dkap w1 w2) as (al & w1' & w2' & E & AB & K); auto.
  { apply (sc_int _ _ _ _ _ SC); auto. }
  exists al, w1', w2'. split; [auto|]. split; [auto|]. intros HA t HT. destruct (K HA) as [K1 _]. destruct (K1 t HT) as (I1 & I2 & T1 & T2).
  split; [|split; [|auto]].
  - apply (sc_int _ _ _ _ _ SC) in I1. eapply int_K_ext; [|exact PQ|exact I1]. intros i Hi. cbn beta.
    assert (X: W (fun j => t * dsw j + W zf j) i = t * W dsw i + W (W zf) i) by apply (sc_lin _ _ _ _ _ SC).
    assert (Y: W (fun j => W zf j + t * dsw j) i = W (fun j => t * dsw j + W zf j) i).
    { f_equal. apply functional_extensionality. intros j. ring. }
    rewrite Y, X. assert (Z: W (W zf) i = sf i); [|rewrite Z; ring].
    rewrite <- (sc_inv2 _ _ _ _ _ SC sf i Hi). apply (lin_ext (l + list_sum q) l q W Wi SC); auto.
  - apply (sc_inti _ _ _ _ _ SC) in I2. eapply int_K_ext; [|exact PQ|exact I2]. intros i Hi. cbn beta.
    assert (X: Wi (fun j => W zf j + t * wdz j) i = Wi (W (fun j => t * Wi wdz j + zf j)) i).
    { apply (lini_ext (l + list_sum q) l q W Wi SC); auto. intros j Hj. rewrite (sc_lin _ _ _ _ _ SC), (sc_inv2 _ _ _ _ _ SC) by auto. ring. }
    rewrite X, (sc_inv1 _ _ _ _ _ SC) by auto. ring.
Qed.
Print Assumptions C19_iterates.
