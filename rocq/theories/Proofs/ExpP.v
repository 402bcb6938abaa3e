(* Calculus for the exponential cone, and evaluation of src/expcone.c. *)
From Coq Require Import List Arith Bool ZArith QArith Qreals Reals Lia Lra.
From Verif Require Import Base Num NumX.
From Verif.Model Require Import Spla Types Consts Expcone.
From Verif.Spec Require Import Exp.
Import ListNotations.
Open Scope R_scope.

(* ------------------------------------------------------------ derivatives *)
Lemma D_eq f x a b : derivable_pt_lim f x a -> a = b -> derivable_pt_lim f x b.
Proof. intros H <-. auto. Qed.
Lemma D_const c x : derivable_pt_lim (fun _ => c) x 0.
Proof. apply derivable_pt_lim_const. Qed.
Lemma D_id x : derivable_pt_lim (fun t => t) x 1.
Proof. apply derivable_pt_lim_id. Qed.
Lemma D_opp f x a : derivable_pt_lim f x a -> derivable_pt_lim (fun t => - f t) x (- a).
Proof. apply derivable_pt_lim_opp. Qed.
Lemma D_plus f g x a b : derivable_pt_lim f x a -> derivable_pt_lim g x b -> derivable_pt_lim (fun t => f t + g t) x (a + b).
Proof. apply derivable_pt_lim_plus. Qed.
Lemma D_minus f g x a b : derivable_pt_lim f x a -> derivable_pt_lim g x b -> derivable_pt_lim (fun t => f t - g t) x (a - b).
Proof. apply derivable_pt_lim_minus. Qed.
Lemma D_mult f g x a b : derivable_pt_lim f x a -> derivable_pt_lim g x b -> derivable_pt_lim (fun t => f t * g t) x (a * g x + f x * b).
Proof. apply derivable_pt_lim_mult. Qed.
Lemma D_div f g x a b : g x <> 0 -> derivable_pt_lim f x a -> derivable_pt_lim g x b ->
  derivable_pt_lim (fun t => f t / g t) x ((a * g x - b * f x) / (g x * g x)).
Proof. intros Hg Hf Hh. apply (derivable_pt_lim_div f g x a b Hf Hh Hg). Qed.
Lemma D_ln f x a : 0 < f x -> derivable_pt_lim f x a -> derivable_pt_lim (fun t => ln (f t)) x (/ f x * a).
Proof. intros Hf H. apply (derivable_pt_lim_comp f ln x a (/ f x)); auto. apply derivable_pt_lim_ln. auto. Qed.

Ltac deriv := repeat first [apply D_const | apply D_id | apply D_ln | apply D_minus | apply D_div | apply D_opp | apply D_plus | apply D_mult].

Section Interior.
Variables u v w : R.
Hypothesis I : exp_dual_int u v w.

Lemma int_quot : 0 < - v / u.
Proof. destruct I as (A & B & _). replace (- v / u) with (v / - u) by (field; lra). apply Rdiv_lt_0_compat; lra. Qed.
Lemma int_r : 0 < w - u - u * ln (- v / u).
Proof. apply I. Qed.

Ltac fin := try (pose proof int_quot; pose proof int_r; destruct I; lra);
  cbv beta; pose proof int_r; destruct I as (? & ? & ?); field; repeat split; lra.
Ltac der := eapply D_eq; [deriv; fin|fin].

Lemma barrier_u : derivable_pt_lim (fun t => exp_barrier t v w) u (ln (- v / u) / (w - u - u * ln (- v / u)) - 1 / u).
Proof. unfold exp_barrier. der. Qed.
Lemma barrier_v : derivable_pt_lim (fun t => exp_barrier u t w) v (u / (v * (w - u - u * ln (- v / u))) - 1 / v).
Proof. unfold exp_barrier. der. Qed.
Lemma barrier_w : derivable_pt_lim (fun t => exp_barrier u v t) w (- 1 / (w - u - u * ln (- v / u))).
Proof. unfold exp_barrier. der. Qed.
End Interior.

(* gradient as a function of the point *)
Definition gr1 u v w := ln (- v / u) / (w - u - u * ln (- v / u)) - 1 / u.
Definition gr2 u v w := u / (v * (w - u - u * ln (- v / u))) - 1 / v.
Definition gr3 u v w := - 1 / (w - u - u * ln (- v / u)).

Lemma barrier_grad u v w : exp_dual_int u v w -> partials exp_barrier u v w (gr1 u v w) (gr2 u v w) (gr3 u v w).
Proof. intros I. split; [|split]; [apply barrier_u|apply barrier_v|apply barrier_w]; auto. Qed.

Section Second.
Variables u v w : R.
Hypothesis I : exp_dual_int u v w.
Let l := ln (- v / u).
Let r := w - u - u * l.

Ltac fin := try (pose proof (int_quot _ _ _ I); pose proof (int_r _ _ _ I); destruct I; repeat apply Rmult_integral_contrapositive_currified; lra);
  unfold r, l; cbv beta; pose proof (int_r _ _ _ I); destruct I as (? & ? & ?); field; repeat split; lra.
Ltac der := eapply D_eq; [deriv; fin|fin].

Lemma grad1_partials : partials gr1 u v w (1 / (u * u) - 1 / (r * u) + l * l / (r * r)) (1 / (r * v) + l * u / (r * r * v)) (- l / (r * r)).
Proof. unfold gr1. split; [|split]; der. Qed.
Lemma grad2_partials : partials gr2 u v w (1 / (r * v) + l * u / (r * r * v)) (1 / (v * v) - u / (r * v * v) + u * u / (r * r * v * v)) (- u / (r * r * v)).
Proof. unfold gr2. split; [|split]; der. Qed.
Lemma grad3_partials : partials gr3 u v w (- l / (r * r)) (- u / (r * r * v)) (1 / (r * r)).
Proof. unfold gr3. split; [|split]; der. Qed.

(* the quadratic form of the second derivative *)
Lemma hess_form a b c :
  (1 / (u * u) - 1 / (r * u) + l * l / (r * r)) * a * a + (1 / (v * v) - u / (r * v * v) + u * u / (r * r * v * v)) * b * b + 1 / (r * r) * c * c
  + 2 * (1 / (r * v) + l * u / (r * r * v)) * a * b + 2 * (- l / (r * r)) * a * c + 2 * (- u / (r * r * v)) * b * c
  = ((- l * a - u / v * b + c) / r)² + (a - u * b / v)² / (- u * r) + (a / u)² + (b / v)².
Proof. unfold Rsqr. pose proof (int_r _ _ _ I) as X. fold l in X. fold r in X. destruct I as (A & B & _). field. repeat split; lra. Qed.

Lemma hess_pos a b c : (a, b, c) <> (0, 0, 0) ->
  0 < ((- l * a - u / v * b + c) / r)² + (a - u * b / v)² / (- u * r) + (a / u)² + (b / v)².
Proof.
  intros N. pose proof (int_r _ _ _ I) as X. fold l in X. fold r in X. destruct I as (A & B & _).
  assert (P1 : 0 <= (a - u * b / v)² / (- u * r)). { apply Rmult_le_pos; [apply Rle_0_sqr|]. apply Rlt_le, Rinv_0_lt_compat, Rmult_lt_0_compat; lra. }
  pose proof (Rle_0_sqr ((- l * a - u / v * b + c) / r)) as P2. pose proof (Rle_0_sqr (a / u)) as P3. pose proof (Rle_0_sqr (b / v)) as P4.
  destruct (Req_dec a 0) as [->|Na]; [destruct (Req_dec b 0) as [->|Nb]; [destruct (Req_dec c 0) as [->|Nc]; [congruence|]|]|].
  - assert (0 < ((- l * 0 - u / v * 0 + c) / r)²); [|lra]. apply Rlt_0_sqr. unfold Rdiv. replace (- l * 0 - u * / v * 0 + c) with c by ring.
    apply Rmult_integral_contrapositive_currified; auto. apply Rinv_neq_0_compat. lra.
  - assert (0 < (b / v)²); [|lra]. apply Rlt_0_sqr. apply Rmult_integral_contrapositive_currified; auto. apply Rinv_neq_0_compat. lra.
  - assert (0 < (a / u)²); [|lra]. apply Rlt_0_sqr. apply Rmult_integral_contrapositive_currified; auto. apply Rinv_neq_0_compat. lra.
Qed.
End Second.

(* --------------------------------------------- what expcone.c computes *)
Lemma xdiv a b : b <> 0 -> @fdiv XOps (Some a) (Some b) = Some (a / b).
Proof. intros H. cbn. destruct (Req_EM_T b 0); [contradiction|auto]. Qed.
Lemma xlog a : 0 < a -> @flog XOps (Some a) = Some (ln a).
Proof. intros H. cbn. destruct (Rle_dec a 0); [lra|auto]. Qed.

Lemma expGrad_X u v w : exp_dual_int u v w ->
  @expGrad XOps (Some u) (Some v) (Some w) = [Some (gr1 u v w); Some (gr2 u v w); Some (gr3 u v w)].
Proof.
  intros I. pose proof (int_quot _ _ _ I) as Q. pose proof (int_r _ _ _ I) as X. destruct I as (A & B & _).
  unfold expGrad, gr1, gr2, gr3. rewrite f1_X. cbn [fneg XOps x1]. rewrite (xdiv (- v) u) by lra. rewrite xlog by auto.
  set (l := ln (- v / u)) in *. cbn [fneg fmul fadd fsub XOps x1 x2].
  assert (E : - u * l - u + w = w - u - u * l) by ring. rewrite E. clear E. set (r := w - u - u * l) in *. 
  repeat f_equal; rewrite xdiv; try (f_equal; field; repeat split; lra); repeat apply Rmult_integral_contrapositive_currified; lra.
Qed.

Lemma expHess_X u v w mu : exp_dual_int u v w ->
  let l := ln (- v / u) in let r := w - u - u * l in
  @expHess XOps (Some u) (Some v) (Some w) (Some mu) =
  map (fun t => Some (mu * t)) [1 / (u * u) - 1 / (r * u) + l * l / (r * r); 1 / (r * v) + l * u / (r * r * v);
    1 / (v * v) - u / (r * v * v) + u * u / (r * r * v * v); - l / (r * r); - u / (r * r * v); 1 / (r * r)].
Proof.
  intros I l r. pose proof (int_quot _ _ _ I) as Q. pose proof (int_r _ _ _ I) as X. destruct I as (A & B & _).
  fold l in X. fold r in X. unfold expHess. rewrite f1_X. cbn [fneg XOps x1]. rewrite (xdiv (- v) u) by lra. rewrite xlog by auto. fold l.
  cbn [fneg fmul fadd fsub XOps x1 x2 map]. replace (- u * l - u + w) with r by (unfold r; ring).
  assert (Ew : w - u = r + u * l) by (unfold r; ring).
  repeat f_equal; rewrite xdiv; cbn [x2]; try (f_equal; f_equal; rewrite ?Ew; field; repeat split; lra); repeat apply Rmult_integral_contrapositive_currified; lra.
Qed.

(* ------------------------------------------------------------ membership *)
Lemma ln_le_exp a b : 0 < a -> (b <= ln a <-> exp b <= a).
Proof.
  intros Ha. split; intros H.
  - rewrite <- (exp_ln a) by auto. destruct H as [H|H]; [apply Rlt_le, exp_increasing; auto|rewrite H; lra].
  - destruct (Rle_lt_dec b (ln a)) as [?|C]; auto. apply exp_increasing in C. rewrite exp_ln in C by auto. lra.
Qed.

Lemma exp_primal_pos x y z : 0 < y -> 0 < z -> (exp_primal x y z <-> 0 <= z * ln (y / z) - x).
Proof.
  intros Hy Hz. assert (Q : 0 < y / z) by (apply Rdiv_lt_0_compat; lra).
  assert (E1 : 0 <= z * ln (y / z) - x <-> x / z <= ln (y / z)).
  { split; intros H.
    - apply (Rmult_le_reg_l z); auto. replace (z * (x / z)) with x by (field; lra). lra.
    - apply (Rmult_le_compat_l z) in H; [|lra]. replace (z * (x / z)) with x in H by (field; lra). lra. }
  rewrite E1, ln_le_exp by auto. unfold exp_primal. split.
  - intros [[_ H]|[H _]]; [|lra]. apply (Rmult_le_reg_l z); auto. replace (z * (y / z)) with y by (field; lra). lra.
  - intros H. left. split; auto. apply (Rmult_le_compat_l z) in H; [|lra]. replace (z * (y / z)) with y in H by (field; lra). lra.
Qed.

Lemma exp_dual_neg u v w : u < 0 -> 0 < v -> (exp_dual u v w <-> 0 <= - u - u * ln (- v / u) + w).
Proof.
  intros Hu Hv. assert (Q : 0 < - u / v) by (apply Rdiv_lt_0_compat; lra).
  assert (EL : ln (- v / u) = - ln (- u / v)). { rewrite <- ln_Rinv by auto. f_equal. field. lra. }
  assert (EE : exp (ln (- u / v)) * v = - u). { rewrite exp_ln by auto. field. lra. }
  rewrite EL. set (t0 := ln (- u / v)) in *. split.
  - intros D. specialize (D t0 (exp t0) 1). assert (P : exp_primal t0 (exp t0) 1). { left. split; [lra|]. replace (t0 / 1) with t0 by field. lra. }
    specialize (D P). lra.
  - intros H x y z [[Hz Hy]|(-> & Hx & Hy)].
    2:{ assert (0 <= x * u) by nra. assert (0 <= y * v) by nra. lra. }
    set (t := x / z) in *. assert (Ex : x = z * t) by (unfold t; field; lra).
    pose proof (exp_ineq1_le (t - t0)) as EI. assert (ES : exp t * v = - u * exp (t - t0)).
    { rewrite <- EE. replace t with (t0 + (t - t0)) at 1 by ring. rewrite exp_plus. ring. }
    assert (Y : z * (exp t * v) <= y * v) by nra. rewrite ES in Y.
    assert (B : - u * (1 + (t - t0)) <= - u * exp (t - t0)) by nra.
    assert (B2 : z * (- u * (1 + (t - t0))) <= z * (- u * exp (t - t0))) by nra.
    assert (G : 0 <= z * (- u - u * - t0 + w)) by nra. rewrite Ex. nra.
Qed.

(* the boolean tests *)
Lemma xlt a b : @flt XOps (Some a) (Some b) = Rltb a b.
Proof. reflexivity. Qed.
Lemma Rltb_true a b : Rltb a b = true <-> a < b.
Proof. destruct (Rltb_spec a b); split; auto; try discriminate; lra. Qed.
Lemma Rltb_false a b : Rltb a b = false <-> b <= a.
Proof. destruct (Rltb_spec a b); split; auto; try discriminate; lra. Qed.

Lemma expPrimalOk_pos x y z : 0 < y -> 0 < z -> (@expPrimalOk XOps (Some x) (Some y) (Some z) = true <-> exp_primal x y z).
Proof.
  intros Hy Hz. rewrite exp_primal_pos by auto. unfold expPrimalOk. rewrite xdiv by lra. rewrite xlog by (apply Rdiv_lt_0_compat; lra).
  rewrite f0_X. cbn [fmul fsub XOps x2]. rewrite !xlt. rewrite negb_true_iff, !orb_false_iff, !Rltb_false. lra.
Qed.
Lemma expDualOk_neg u v w : u < 0 -> 0 < v -> (@expDualOk XOps (Some u) (Some v) (Some w) = true <-> exp_dual u v w).
Proof.
  intros Hu Hv. rewrite exp_dual_neg by auto. unfold expDualOk. rewrite f0_X. cbn [fneg XOps x1]. rewrite xdiv by lra.
  rewrite xlog by (replace (- v / u) with (v / - u) by (field; lra); apply Rdiv_lt_0_compat; lra).
  cbn [fmul fsub fadd XOps x2]. rewrite !xlt. rewrite negb_true_iff, !orb_false_iff, !Rltb_false. lra.
Qed.

(* whatever the components, a rejected triple is outside, and an accepted one
   has the right signs *)
Lemma expPrimalOk_rejects x y z : @expPrimalOk XOps (Some x) (Some y) (Some z) = false -> ~ exp_primal x y z.
Proof.
  intros H. destruct (Rlt_le_dec 0 y) as [Hy|Hy]; [destruct (Rlt_le_dec 0 z) as [Hz|Hz]|].
  - rewrite <- expPrimalOk_pos by auto. congruence.
  - destruct (Req_dec z 0) as [->|Nz].
    + exfalso. revert H. unfold expPrimalOk. rewrite f0_X. cbn. destruct (Req_EM_T 0 0); [|lra]. cbn.
      assert (E1 : Rltb y 0 = false) by (apply Rltb_false; lra). assert (E2 : Rltb 0 0 = false) by (apply Rltb_false; lra). rewrite E1, E2. discriminate.
    + intros [[Z _]|[Z _]]; lra.
  - intros [[Z P]|[Z [P P']]].
    + pose proof (exp_pos (x / z)). nra.
    + subst z. assert (y = 0) as -> by lra. revert H. unfold expPrimalOk. rewrite f0_X. cbn. destruct (Req_EM_T 0 0); [|lra]. cbn.
      assert (E2 : Rltb 0 0 = false) by (apply Rltb_false; lra). rewrite E2. discriminate.
Qed.
Lemma expPrimalOk_signs x y z : @expPrimalOk XOps (Some x) (Some y) (Some z) = true -> 0 <= y /\ 0 <= z.
Proof.
  unfold expPrimalOk. rewrite f0_X, !xlt. rewrite negb_true_iff, !orb_false_iff, !Rltb_false. tauto.
Qed.
Lemma exp_dual_signs u v w : exp_dual u v w -> u <= 0 /\ 0 <= v.
Proof.
  intros D. split.
  - assert (P : exp_primal (-1) 0 0) by (right; lra). specialize (D _ _ _ P). lra.
  - assert (P : exp_primal 0 1 0) by (right; lra). specialize (D _ _ _ P). lra.
Qed.
Lemma expDualOk_signs u v w : @expDualOk XOps (Some u) (Some v) (Some w) = true -> u <= 0 /\ 0 <= v.
Proof.
  unfold expDualOk. rewrite f0_X, !xlt. rewrite negb_true_iff, !orb_false_iff, !Rltb_false. tauto.
Qed.
Lemma expDualOk_rejects u v w : @expDualOk XOps (Some u) (Some v) (Some w) = false -> ~ exp_dual u v w.
Proof.
  intros H D. destruct (exp_dual_signs _ _ _ D) as [Hu Hv].
  destruct (Req_dec u 0) as [->|Nu]; [|destruct (Req_dec v 0) as [->|Nv]].
  - revert H. unfold expDualOk. rewrite f0_X. cbn. destruct (Req_EM_T 0 0); [|lra]. cbn.
    assert (E1 : Rltb v 0 = false) by (apply Rltb_false; lra). assert (E2 : Rltb 0 0 = false) by (apply Rltb_false; lra). rewrite E1, E2. discriminate.
  - revert H. unfold expDualOk. rewrite f0_X. cbn. destruct (Req_EM_T u 0); [lra|]. cbn. destruct (Rle_dec (- 0 / u) 0) as [?|N].
    + cbn. assert (E1 : Rltb 0 u = false) by (apply Rltb_false; lra). assert (E2 : Rltb 0 0 = false) by (apply Rltb_false; lra). rewrite E1, E2. discriminate.
    + exfalso. apply N. unfold Rdiv. rewrite Ropp_0, Rmult_0_l. lra.
  - assert (Y : @expDualOk XOps (Some u) (Some v) (Some w) = true) by (apply expDualOk_neg; auto; lra). congruence.
Qed.

Lemma forallb_seq_S (g : nat -> bool) n : forallb g (seq 0 (S n)) = (g 0%nat && forallb (fun j => g (S j)) (seq 0 n))%bool.
Proof. cbn [seq forallb]. f_equal. rewrite <- seq_shift. induction (seq 0 n); cbn; f_equal; auto. Qed.

Lemma primalFeas_eq `{O : Ops} s fx fy fz nexc : forall k,
  (forall j, (j < nexc)%nat -> get s (k + 3*j) = Some (fx j) /\ get s (k + 3*j + 1) = Some (fy j) /\ get s (k + 3*j + 2) = Some (fz j)) ->
  evalExpPrimalFeas s k nexc = Some (forallb (fun j => expPrimalOk (fx j) (fy j) (fz j)) (seq 0 nexc)).
Proof.
  revert fx fy fz. induction nexc as [|n IH]; intros fx fy fz k H; [reflexivity|]. rewrite forallb_seq_S. cbn [evalExpPrimalFeas].
  destruct (H 0%nat) as (A & B & C); [lia|]. replace (k + 3 * 0)%nat with k in * by lia. rewrite A, B, C. cbn [bind].
  destruct (expPrimalOk _ _ _); cbn [andb]; [|reflexivity]. rewrite (IH (fun j => fx (S j)) (fun j => fy (S j)) (fun j => fz (S j))); [reflexivity|].
  intros j Hj. destruct (H (S j)) as (A' & B' & C'); [lia|]. replace (k + 3 * S j)%nat with (k + 3 + 3 * j)%nat in * by lia. auto.
Qed.
Lemma dualFeas_eq `{O : Ops} s fx fy fz nexc : forall k,
  (forall j, (j < nexc)%nat -> get s (k + 3*j) = Some (fx j) /\ get s (k + 3*j + 1) = Some (fy j) /\ get s (k + 3*j + 2) = Some (fz j)) ->
  evalExpDualFeas s k nexc = Some (forallb (fun j => expDualOk (fx j) (fy j) (fz j)) (seq 0 nexc)).
Proof.
  revert fx fy fz. induction nexc as [|n IH]; intros fx fy fz k H; [reflexivity|]. rewrite forallb_seq_S. cbn [evalExpDualFeas].
  destruct (H 0%nat) as (A & B & C); [lia|]. replace (k + 3 * 0)%nat with k in * by lia. rewrite A, B, C. cbn [bind].
  destruct (expDualOk _ _ _); cbn [andb]; [|reflexivity]. rewrite (IH (fun j => fx (S j)) (fun j => fy (S j)) (fun j => fz (S j))); [reflexivity|].
  intros j Hj. destruct (H (S j)) as (A' & B' & C'); [lia|]. replace (k + 3 * S j)%nat with (k + 3 + 3 * j)%nat in * by lia. auto.
Qed.
