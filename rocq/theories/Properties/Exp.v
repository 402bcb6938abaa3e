(* C27 and C28: the exponential cone, in exact arithmetic with NaN. *)
From Coq Require Import List Arith Bool ZArith QArith Qreals Reals Lia Lra.
From Verif Require Import Base Num NumX.
From Verif.Model Require Import Spla Types Consts Expcone.
From Verif.Spec Require Import Matrix Conic Exp.
From Verif.Proofs Require Import SplaP LoopLib ConeP Scal2P ExpP.
Import ListNotations.
Open Scope R_scope.

(* ------------------------------------------------------------------- C27 *)

(* At every interior point of the dual cone, the gradient routine writes the
   three partial derivatives of the barrier, and nothing else. *)
Theorem C27_gradient : forall (a g : arr (option R)) k u v w,
  get a k = Some (Some u) -> get a (k + 1) = Some (Some v) -> get a (k + 2) = Some (Some w) ->
  exp_dual_int u v w -> (3 <= length g)%nat ->
  exists d1 d2 d3 g', @evalExpGradient XOps a k g = Some g' /\
    get g' 0 = Some (Some d1) /\ get g' 1 = Some (Some d2) /\ get g' 2 = Some (Some d3) /\
    (forall i, (3 <= i)%nat -> get g' i = get g i) /\ length g' = length g /\
    partials exp_barrier u v w d1 d2 d3.
Proof.
  intros a g k u v w A B C I Lg. exists (gr1 u v w), (gr2 u v w), (gr3 u v w).
  unfold evalExpGradient. change (@F XOps) with (option R). rewrite A, B, C. cbn [bind]. rewrite (expGrad_X _ _ _ I).
  unfold for_. cbn [for_loop Nat.sub nth_error bind].
  unfold set. repeat (match goal with |- context [Nat.ltb ?i ?n] => destruct (Nat.ltb_spec i n) as [?|?]; [cbn [bind]|rewrite ?upd_length in *; lia] end).
  eexists. split; [reflexivity|]. rewrite ?upd_length in *. split; [|split; [|split; [|split; [|split]]]]; try (rewrite !get_upd by (rewrite ?upd_length; lia); reflexivity); try reflexivity.
  - intros i Hi. rewrite !get_upd by (rewrite ?upd_length; lia). destruct i as [|[|[|i]]]; try lia. reflexivity.
  - apply barrier_grad. exact I.
Qed.
Print Assumptions C27_gradient.

(* The Hessian routine writes mu times the second derivatives: the six values
   v0..v5 are the upper triangle, column by column, of the matrix of partial
   derivatives of the functions f1, f2, f3, which are the partial derivatives of
   the barrier on the whole interior.  That matrix is positive definite. *)
Theorem C27_hessian : forall (a h : arr (option R)) k u v w mu,
  get a k = Some (Some u) -> get a (k + 1) = Some (Some v) -> get a (k + 2) = Some (Some w) ->
  exp_dual_int u v w -> (6 <= length h)%nat ->
  exists h11 h12 h22 h13 h23 h33 h', @evalExpHessian XOps a k h (Some mu) = Some h' /\
    get h' 0 = Some (Some (mu * h11)) /\ get h' 1 = Some (Some (mu * h12)) /\ get h' 2 = Some (Some (mu * h22)) /\
    get h' 3 = Some (Some (mu * h13)) /\ get h' 4 = Some (Some (mu * h23)) /\ get h' 5 = Some (Some (mu * h33)) /\
    (forall i, (6 <= i)%nat -> get h' i = get h i) /\ length h' = length h /\
    (exists f1 f2 f3, (forall u v w, exp_dual_int u v w -> partials exp_barrier u v w (f1 u v w) (f2 u v w) (f3 u v w)) /\
       partials f1 u v w h11 h12 h13 /\ partials f2 u v w h12 h22 h23 /\ partials f3 u v w h13 h23 h33) /\
    forall x y z, (x, y, z) <> (0, 0, 0) ->
      0 < h11 * x * x + h22 * y * y + h33 * z * z + 2 * h12 * x * y + 2 * h13 * x * z + 2 * h23 * y * z.
Proof.
  intros a g k u v w mu A B C I Lg. do 6 eexists.
  unfold evalExpHessian. change (@F XOps) with (option R). rewrite A, B, C. cbn [bind]. rewrite (expHess_X _ _ _ _ I). cbn [map].
  unfold for_. cbn [for_loop Nat.sub nth_error bind].
  unfold set. repeat (match goal with |- context [Nat.ltb ?i ?n] => destruct (Nat.ltb_spec i n) as [?|?]; [cbn [bind]|rewrite ?upd_length in *; lia] end).
  eexists. split; [reflexivity|]. rewrite ?upd_length in *. do 6 (split; [rewrite !get_upd by (rewrite ?upd_length; lia); reflexivity|]). split; [|split; [reflexivity|split]].
  - intros i Hi. rewrite !get_upd by (rewrite ?upd_length; lia). do 6 (destruct i as [|i]; [lia|]). reflexivity.
  - exists gr1, gr2, gr3. split; [intros; apply barrier_grad; auto|].
    split; [apply grad1_partials; auto|split; [apply grad2_partials; auto|apply grad3_partials; auto]].
  - intros x y z N. pose proof (hess_form _ _ _ I x y z) as E. pose proof (hess_pos _ _ _ I x y z N) as P. rewrite <- E in P. exact P.
Qed.
Print Assumptions C27_hessian.

(* scaleToAddExpcone adds, cone by cone, the product of the symmetric 3x3 matrix
   stored in that order with the vector, and changes nothing else. *)
Definition sym3 (h : nat -> R) (i j : nat) : R :=
  match i, j with 0, 0 => h 0 | 0, 1 | 1, 0 => h 1 | 1, 1 => h 2 | 0, 2 | 2, 0 => h 3 | 1, 2 | 2, 1 => h 4 | _, _ => h 5 end%nat.

Lemma lay3_nth {A} (l : list A) : forall k t e, nth_error l t = Some e -> In ((k + 3 * t)%nat, e) (lay (fun _ => 3%nat) k l).
Proof.
  induction l as [|a l IH]; intros k t e H; [destruct t; discriminate|]. cbn [lay]. destruct t as [|t]; cbn in H.
  - left. injection H as ->. f_equal. lia.
  - right. replace (k + 3 * S t)%nat with (k + 3 + 3 * t)%nat by lia. apply IH. exact H.
Qed.

Theorem C27_times : forall (y x : arr R) l k n xf yf (hf : nat -> nat -> R), (k + 3 * length l <= n)%nat -> vec x n xf -> vec y n yf ->
  (forall t e, nth_error l t = Some e -> vec (ex_v e) 6 (hf t)) ->
  exists y', @scaleToAddExpcone ROps y x l k = Some y' /\ length y' = length y /\
    (forall t i, (t < length l)%nat -> (i < 3)%nat -> get y' (k + 3 * t + i) = Some (yf (k + 3 * t + i)%nat + Rsum 3 (fun j => sym3 (hf t) i j * xf (k + 3 * t + j)%nat))) /\
    (forall j, (j < k)%nat \/ (k + 3 * length l <= j)%nat -> get y' j = get y j).
Proof.
  intros y x l k n xf yf hf Hk Hx Hy Hh.
  assert (LY : (n <= length y)%nat). { destruct n as [|n]; [lia|]. specialize (Hy n ltac:(lia)). apply get_lt in Hy. lia. }
  destruct (@sadd_exp ROps x xf yf n Hx l k y Hk LY) as (y' & E & L & W & O).
  - intros e He. apply In_nth_error in He as [t Ht]. intros i Hi. specialize (Hh t e Ht i Hi). pose proof (gd_get (@f0 ROps) _ _ _ Hh) as G. change (@F ROps) with R in *. rewrite Hh, G. reflexivity.
  - intros j Hj. apply Hy. change (@F ROps) with R in *. lia.
  - assert (T : forall l' : list (expcone R), tot (fun _ => 3%nat) l' = (3 * length l')%nat) by (induction l' as [|a t IH]; cbn [tot length]; lia).
    exists y'. split; [exact E|]. split; [exact L|]. split.
    2:{ intros j Hj. apply O. change (@F ROps) with R. rewrite T. exact Hj. }
    intros t i Ht Hi. destruct (nth_error l t) as [e|] eqn:Ee; [|apply nth_error_None in Ee; lia].
    rewrite (W (k + 3 * t)%nat e i (lay3_nth l k t e Ee) Hi). f_equal. unfold s2e_f, sh.
    assert (G : forall i, (i < 6)%nat -> @gd R (@f0 ROps) (ex_v e) i = hf t i). { intros i0 Hi0. apply gd_get. apply (Hh t e Ee i0 Hi0). }
    cbn [Rsum]. unR. destruct i as [|[|[|i]]]; [| | |lia]; cbn [sym3]; rewrite !G by lia; ring.
Qed.
Print Assumptions C27_times.

(* the point from which ECOS starts is an interior one *)
Example C27_example : exp_dual_int (-1.051383945322714) 1.258967884768947 0.556409619469370.
Proof.
  unfold exp_dual_int. split; [lra|split; [lra|]].
  assert (L : 0 <= ln (- (1.258967884768947) / - 1.051383945322714)).
  { rewrite <- ln_1. destruct (Rle_lt_dec (- (1.258967884768947) / - 1.051383945322714) 1) as [H|H]; [lra|]. apply Rlt_le, ln_increasing; lra. }
  nra.
Qed.

(* ------------------------------------------------------------------- C28 *)

(* The cones of Spec/Conic.v, used for the certificates, are these. *)
Theorem C28_cones : forall u v w, let t := fun i => match i with 0 => u | 1 => v | _ => w end%nat in
  (exp_primal u v w <-> in_exp t) /\ (exp_dual u v w <-> in_expd t).
Proof.
  intros u v w t. split; [unfold exp_primal, in_exp, t; tauto|]. unfold in_expd, t. split.
  - intros D. destruct (exp_dual_signs _ _ _ D) as [Hu Hv]. destruct (Req_dec u 0) as [->|Nu].
    + right. split; [auto|split; auto]. destruct (Rle_lt_dec 0 w) as [?|N]; auto. exfalso.
      set (y := - w / (2 * (v + 1))). assert (Py : 0 < y) by (apply Rdiv_lt_0_compat; lra).
      assert (P : exp_primal (ln y) y 1). { left. split; [lra|]. replace (ln y / 1) with (ln y) by field. rewrite exp_ln by auto. lra. }
      specialize (D _ _ _ P). assert (Y : y * (2 * (v + 1)) = - w) by (unfold y; field; lra). nra.
    + left. split; [lra|]. destruct (Req_dec v 0) as [->|Nv].
      * exfalso. assert (P : exp_primal ((w + 1) / - u) (exp ((w + 1) / - u)) 1). { left. split; [lra|]. replace ((w + 1) / - u / 1) with ((w + 1) / - u) by (field; lra). lra. }
        specialize (D _ _ _ P). replace ((w + 1) / - u * u) with (- (w + 1)) in D by (field; lra). lra.
      * apply exp_dual_neg in D; try lra. assert (Q : 0 < v / - u) by (apply Rdiv_lt_0_compat; lra).
        replace (- v / u) with (v / - u) in D by (field; lra).
        assert (D2 : w / u - 1 <= ln (v / - u)). { apply (Rmult_le_reg_l (- u)); [lra|]. replace (- u * (w / u - 1)) with (- w + u) by (field; lra). lra. }
        apply ln_le_exp in D2; auto. assert (E1 : exp (w / u) = exp (w / u - 1) * exp 1) by (rewrite <- exp_plus; f_equal; ring).
        rewrite E1. pose proof (exp_pos 1). apply (Rmult_le_compat_l (- u)) in D2; [|lra]. replace (- u * (v / - u)) with v in D2 by (field; lra). nra.
  - intros [[Hu H]|(-> & Hv & Hw)].
    2:{ intros x y z [[Hz Hy]|(-> & Hx & Hy)]; [|nra]. pose proof (exp_pos (x / z)). assert (0 < y) by nra. nra. }
    pose proof (exp_pos (w / u)) as P0. pose proof (exp_pos 1) as P1. assert (Pv : 0 < v). { assert (0 < - u * exp (w / u)) by nra. nra. }
    apply exp_dual_neg; auto. assert (Q : 0 < v / - u) by (apply Rdiv_lt_0_compat; lra). replace (- v / u) with (v / - u) by (field; lra).
    assert (D2 : w / u - 1 <= ln (v / - u)).
    { apply ln_le_exp; auto. assert (E1 : exp (w / u) = exp (w / u - 1) * exp 1) by (rewrite <- exp_plus; f_equal; ring).
      rewrite E1 in H. apply (Rmult_le_reg_l (- u)); [lra|]. replace (- u * (v / - u)) with v by (field; lra). pose proof (exp_pos (w / u - 1)). nra. }
    apply (Rmult_le_compat_l (- u)) in D2; [|lra]. replace (- u * (w / u - 1)) with (- w + u) in D2 by (field; lra). lra.
Qed.
Print Assumptions C28_cones.

(* The primal test never rejects a vector all of whose triples are in the cone;
   what it accepts has no negative second or third component, and every triple
   in which both are positive is in the cone. *)
Theorem C28_primal : forall (s : arr (option R)) k nexc fx fy fz,
  (forall j, (j < nexc)%nat -> get s (k + 3*j) = Some (Some (fx j)) /\ get s (k + 3*j + 1) = Some (Some (fy j)) /\ get s (k + 3*j + 2) = Some (Some (fz j))) ->
  exists b, @evalExpPrimalFeas XOps s k nexc = Some b /\
    (b = false -> exists j, (j < nexc)%nat /\ ~ exp_primal (fx j) (fy j) (fz j)) /\
    (b = true -> forall j, (j < nexc)%nat -> 0 <= fy j /\ 0 <= fz j /\ (0 < fy j -> 0 < fz j -> exp_primal (fx j) (fy j) (fz j))) /\
    ((forall j, (j < nexc)%nat -> 0 < fy j /\ 0 < fz j) -> (b = true <-> forall j, (j < nexc)%nat -> exp_primal (fx j) (fy j) (fz j))).
Proof.
  intros s k nexc fx fy fz H. eexists. split; [apply (@primalFeas_eq XOps s (fun j => Some (fx j)) (fun j => Some (fy j)) (fun j => Some (fz j)) nexc k H)|].
  split; [|split].
  - intros E. destruct (existsb (fun j => negb (@expPrimalOk XOps (Some (fx j)) (Some (fy j)) (Some (fz j)))) (seq 0 nexc)) eqn:EX.
    + apply existsb_exists in EX as (j & Hj & N). apply in_seq in Hj. exists j. split; [lia|]. apply expPrimalOk_rejects. apply negb_true_iff in N. exact N.
    + exfalso. assert (A : forallb (fun j => @expPrimalOk XOps (Some (fx j)) (Some (fy j)) (Some (fz j))) (seq 0 nexc) = true); [|congruence].
      apply forallb_forall. intros j Hj. destruct (expPrimalOk _ _ _) eqn:EO; auto.
      assert (X : existsb (fun j => negb (@expPrimalOk XOps (Some (fx j)) (Some (fy j)) (Some (fz j)))) (seq 0 nexc) = true); [|congruence].
      apply existsb_exists. exists j. split; auto. rewrite EO. reflexivity.
  - intros E j Hj. rewrite forallb_forall in E. specialize (E j ltac:(apply in_seq; lia)). destruct (expPrimalOk_signs _ _ _ E). csplit; auto.
    intros Hy Hz. apply expPrimalOk_pos; auto.
  - intros P. rewrite forallb_forall. split; intros E j Hj.
    + destruct (P j Hj). apply expPrimalOk_pos; auto. apply E. apply in_seq. lia.
    + apply in_seq in Hj. destruct (P j) as [P1 P2]; [lia|]. apply expPrimalOk_pos; auto. apply E. lia.
Qed.
Print Assumptions C28_primal.

Theorem C28_dual : forall (z : arr (option R)) k nexc fx fy fz,
  (forall j, (j < nexc)%nat -> get z (k + 3*j) = Some (Some (fx j)) /\ get z (k + 3*j + 1) = Some (Some (fy j)) /\ get z (k + 3*j + 2) = Some (Some (fz j))) ->
  exists b, @evalExpDualFeas XOps z k nexc = Some b /\
    (b = false -> exists j, (j < nexc)%nat /\ ~ exp_dual (fx j) (fy j) (fz j)) /\
    (b = true -> forall j, (j < nexc)%nat -> fx j <= 0 /\ 0 <= fy j /\ (fx j < 0 -> 0 < fy j -> exp_dual (fx j) (fy j) (fz j))) /\
    ((forall j, (j < nexc)%nat -> fx j < 0 /\ 0 < fy j) -> (b = true <-> forall j, (j < nexc)%nat -> exp_dual (fx j) (fy j) (fz j))).
Proof.
  intros s k nexc fx fy fz H. eexists. split; [apply (@dualFeas_eq XOps s (fun j => Some (fx j)) (fun j => Some (fy j)) (fun j => Some (fz j)) nexc k H)|].
  split; [|split].
  - intros E. destruct (existsb (fun j => negb (@expDualOk XOps (Some (fx j)) (Some (fy j)) (Some (fz j)))) (seq 0 nexc)) eqn:EX.
    + apply existsb_exists in EX as (j & Hj & N). apply in_seq in Hj. exists j. split; [lia|]. apply expDualOk_rejects. apply negb_true_iff in N. exact N.
    + exfalso. assert (A : forallb (fun j => @expDualOk XOps (Some (fx j)) (Some (fy j)) (Some (fz j))) (seq 0 nexc) = true); [|congruence].
      apply forallb_forall. intros j Hj. destruct (expDualOk _ _ _) eqn:EO; auto.
      assert (X : existsb (fun j => negb (@expDualOk XOps (Some (fx j)) (Some (fy j)) (Some (fz j)))) (seq 0 nexc) = true); [|congruence].
      apply existsb_exists. exists j. split; auto. rewrite EO. reflexivity.
  - intros E j Hj. rewrite forallb_forall in E. specialize (E j ltac:(apply in_seq; lia)). destruct (expDualOk_signs _ _ _ E). csplit; auto.
    intros Hy Hz. apply expDualOk_neg; auto.
  - intros P. rewrite forallb_forall. split; intros E j Hj.
    + destruct (P j Hj). apply expDualOk_neg; auto. apply E. apply in_seq. lia.
    + apply in_seq in Hj. destruct (P j) as [P1 P2]; [lia|]. apply expDualOk_neg; auto. apply E. lia.
Qed.
Print Assumptions C28_dual.

(* A zero third component makes the tested quantity NaN, and the triple is
   accepted although it is outside the (closed) cone, whatever its first
   component. *)
Theorem C28_refuted_boundary : forall x, 0 < x ->
  @evalExpPrimalFeas XOps (arr_of [Some x; Some 1; Some 0]) 0 1 = Some true /\ ~ exp_primal x 1 0.
Proof.
  intros x Hx. split.
  - cbn [evalExpPrimalFeas get arr_of map nth_error bind Nat.add]. unfold expPrimalOk. rewrite f0_X. cbn. destruct (Req_EM_T 0 0); [|lra]. cbn.
    assert (E1 : Rltb 1 0 = false) by (apply Rltb_false; lra). assert (E2 : Rltb 0 0 = false) by (apply Rltb_false; lra). rewrite E1, E2. reflexivity.
  - intros [[H _]|(_ & H & _)]; lra.
Qed.
Print Assumptions C28_refuted_boundary.

(* two cones, the second triple outside *)
Example C28_example : exp_primal 0 1 1 /\ ~ exp_primal 2 1 1.
Proof.
  split; [left; split; [lra|replace (0/1) with 0 by field; rewrite exp_0; lra]|].
  intros [[_ H]|[H _]]; [|lra]. replace (2/1) with 2 in H by field. pose proof (exp_ineq1_le 2). lra.
Qed.
