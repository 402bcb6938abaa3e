(* The cones of a problem and what it means to be a point of them.  Independent
   of the solver: this is the mathematics of the problem statement
     minimise c'x  subject to  A x = b,  G x + s = h,  s in K. *)
From Coq Require Import List Arith Reals Lia Lra.
From Verif Require Import Base Num.
From Verif.Spec Require Import Matrix.
Import ListNotations.
Open Scope R_scope.

(* entries k, k+1, ... of a vector *)
Definition from (k : nat) (u : nat -> R) : nat -> R := fun i => u (k + i)%nat.

(* nonnegative orthant *)
Definition in_orthant (l : nat) (u : nat -> R) : Prop := forall i, (i < l)%nat -> 0 <= u i.

(* second-order cone of dimension p: u0 >= || (u1 .. u_{p-1}) || *)
Definition in_soc (p : nat) (u : nat -> R) : Prop :=
  (0 < p)%nat -> nrm (p - 1) (from 1 u) <= u 0%nat.
Fixpoint in_socs (q : list nat) (u : nat -> R) : Prop :=
  match q with [] => True | p :: t => in_soc p u /\ in_socs t (from p u) end.

(* exponential cone cl{ (u0,u1,u2) : u2 > 0, u2 exp(u0/u2) <= u1 } and its dual *)
Definition in_exp (u : nat -> R) : Prop :=
  (0 < u 2%nat /\ u 2%nat * exp (u 0%nat / u 2%nat) <= u 1%nat) \/
  (u 2%nat = 0 /\ u 0%nat <= 0 /\ 0 <= u 1%nat).
Definition in_expd (u : nat -> R) : Prop :=
  (u 0%nat < 0 /\ - u 0%nat * exp (u 2%nat / u 0%nat) <= exp 1 * u 1%nat) \/
  (u 0%nat = 0 /\ 0 <= u 1%nat /\ 0 <= u 2%nat).
Fixpoint in_exps (P : (nat -> R) -> Prop) (e : nat) (u : nat -> R) : Prop :=
  match e with O => True | S e => P u /\ in_exps P e (from 3 u) end.

(* the cone of a problem with l linear constraints, second-order cones of
   dimensions q and e exponential cones, and its dual cone *)
Definition cdim (l : nat) (q : list nat) (e : nat) : nat := (l + list_sum q + 3 * e)%nat.
Definition inK (l : nat) (q : list nat) (e : nat) (u : nat -> R) : Prop :=
  in_orthant l u /\ in_socs q (from l u) /\ in_exps in_exp e (from (l + list_sum q) u).
Definition inKd (l : nat) (q : list nat) (e : nat) (u : nat -> R) : Prop :=
  in_orthant l u /\ in_socs q (from l u) /\ in_exps in_expd e (from (l + list_sum q) u).

(* ------------------------------------------- K and K* are in duality *)

Lemma dotp_split n k u v : dotp (n + k) u v = dotp n u v + dotp k (from n u) (from n v).
Proof. unfold dotp. rewrite Rsum_split. reflexivity. Qed.

Lemma soc_dual p u v : in_soc p u -> in_soc p v -> 0 <= dotp p u v.
Proof.
  destruct p as [|p]; [intros; unfold dotp; simpl; lra|].
  intros Hu Hv. specialize (Hu ltac:(lia)). specialize (Hv ltac:(lia)).
  replace (S p - 1)%nat with p in * by lia.
  replace (S p) with (1 + p)%nat by lia. rewrite dotp_split.
  pose proof (CS_ge p (from 1 u) (from 1 v)).
  pose proof (nrm_nonneg p (from 1 u)). pose proof (nrm_nonneg p (from 1 v)).
  unfold dotp at 1. simpl.
  assert (nrm p (from 1 u) * nrm p (from 1 v) <= u 0%nat * v 0%nat)
    by (apply Rmult_le_compat; auto). lra.
Qed.

Lemma exp_dual u v : in_exp u -> in_expd v -> 0 <= dotp 3 u v.
Proof.
  unfold dotp; simpl. intros [[U2 U]|(U2 & U0 & U1)] [[V0 V]|(V0 & V1 & V2)].
  - (* interior of both *)
    set (a := u 0%nat / u 2%nat) in *. set (b := v 2%nat / v 0%nat) in *.
    assert (E0: u 0%nat = u 2%nat * a) by (unfold a; field; lra).
    assert (E2: v 2%nat = v 0%nat * b) by (unfold b; field; lra).
    assert (P1: 0 < exp a) by apply exp_pos. assert (P2: 0 < exp b) by apply exp_pos.
    assert (P3: 0 < exp 1) by apply exp_pos.
    assert (V1: - v 0%nat * exp (b - 1) <= v 1%nat).
    { unfold Rminus. rewrite exp_plus, exp_Ropp.
      apply Rmult_le_reg_l with (exp 1); auto.
      replace (exp 1 * (- v 0%nat * (exp b * / exp 1))) with (- v 0%nat * exp b) by (field; lra). auto. }
    assert (V1': 0 < v 1%nat).
    { eapply Rlt_le_trans; [|exact V1]. apply Rmult_lt_0_compat; [lra|apply exp_pos]. }
    assert (K: 0 <= u 2%nat * (v 0%nat * a + v 1%nat * exp a + v 0%nat * b)).
    { apply Rmult_le_pos; [lra|].
      assert (H: - v 0%nat * (exp (b - 1) * exp a) <= v 1%nat * exp a).
      { replace (- v 0%nat * (exp (b - 1) * exp a)) with ((- v 0%nat * exp (b - 1)) * exp a) by ring.
        apply Rmult_le_compat_r; lra. }
      rewrite <- exp_plus in H.
      pose proof (exp_ineq1_le (b - 1 + a)) as H1.
      assert (H2: - v 0%nat * (1 + (b - 1 + a)) <= - v 0%nat * exp (b - 1 + a))
        by (apply Rmult_le_compat_l; lra).
      nra. }
    assert (K2: u 2%nat * exp a * v 1%nat <= u 1%nat * v 1%nat)
      by (apply Rmult_le_compat_r; lra).
    rewrite E0, E2. nra.
  - assert (0 < exp (u 0%nat / u 2%nat)) by apply exp_pos.
    assert (0 <= u 1%nat) by nra. rewrite V0. nra.
  - assert (0 < exp (v 2%nat / v 0%nat)) by apply exp_pos.
    assert (0 < exp 1) by apply exp_pos.
    assert (0 < v 1%nat) by (apply Rmult_lt_reg_l with (exp 1); auto; nra).
    rewrite U2. nra.
  - rewrite U2, V0. nra.
Qed.

Lemma socs_dual q : forall u v, in_socs q u -> in_socs q v -> 0 <= dotp (list_sum q) u v.
Proof.
  induction q as [|p q IH]; intros u v; cbn [in_socs list_sum fold_right].
  - intros. unfold dotp; simpl; lra.
  - intros [A B] [A' B']. change (fold_right Nat.add 0%nat q) with (list_sum q).
    rewrite dotp_split. pose proof (soc_dual p u v A A'). pose proof (IH _ _ B B'). lra.
Qed.

Lemma exps_dual e : forall u v, in_exps in_exp e u -> in_exps in_expd e v -> 0 <= dotp (3 * e) u v.
Proof.
  induction e as [|e IH]; intros u v; cbn [in_exps].
  - intros. unfold dotp; simpl; lra.
  - intros [A B] [A' B']. replace (3 * S e)%nat with (3 + 3 * e)%nat by lia.
    rewrite dotp_split. pose proof (exp_dual u v A A'). pose proof (IH _ _ B B'). lra.
Qed.

Theorem K_dual l q e u v : inK l q e u -> inKd l q e v -> 0 <= dotp (cdim l q e) u v.
Proof.
  intros (A & B & C) (A' & B' & C'). unfold cdim. rewrite !dotp_split.
  assert (0 <= dotp l u v).
  { unfold dotp. apply Rsum_nonneg. intros. apply Rmult_le_pos; auto. }
  pose proof (socs_dual q _ _ B B').
  pose proof (exps_dual e _ _ C C'). lra.
Qed.

(* both cones are closed under multiplication by positive numbers *)
Definition vscal (t : R) (u : nat -> R) : nat -> R := fun i => t * u i.

Lemma nrm_scal n t u : 0 <= t -> nrm n (vscal t u) = t * nrm n u.
Proof.
  intros Ht. unfold nrm, vscal.
  replace (Rsum n (fun i => t * u i * (t * u i))) with ((t * t) * Rsum n (fun i => u i * u i)).
  - rewrite sqrt_mult; [|nra|apply Rsum_sq_nonneg]. rewrite sqrt_square; auto.
  - rewrite <- Rsum_scal. apply Rsum_ext; intros; ring.
Qed.

Lemma nrm_ext n u v : (forall i, (i < n)%nat -> u i = v i) -> nrm n u = nrm n v.
Proof. intros H. unfold nrm. f_equal. apply Rsum_ext; intros. rewrite H; auto. Qed.

Lemma dotp_ext n u v u' v' : (forall i, (i < n)%nat -> u i = u' i) -> (forall i, (i < n)%nat -> v i = v' i) ->
  dotp n u v = dotp n u' v'.
Proof. intros H H'. unfold dotp. apply Rsum_ext; intros. rewrite H, H'; auto. Qed.

Lemma dotp_scal n t u v : dotp n (vscal t u) v = t * dotp n u v.
Proof. unfold dotp, vscal. rewrite <- Rsum_scal. apply Rsum_ext; intros; ring. Qed.
Lemma dotp_scal_r n t u v : dotp n u (vscal t v) = t * dotp n u v.
Proof. unfold dotp, vscal. rewrite <- Rsum_scal. apply Rsum_ext; intros; ring. Qed.
Lemma dotp_sym n u v : dotp n u v = dotp n v u.
Proof. unfold dotp. apply Rsum_ext; intros; ring. Qed.

(* --------------------------------------------------- problems and points *)

(* data of a problem in dense form *)
Record problem := mkProb {
  pb_n : nat; pb_p : nat; pb_l : nat; pb_q : list nat; pb_e : nat;
  pb_A : nat -> nat -> R; pb_G : nat -> nat -> R;
  pb_b : nat -> R; pb_h : nat -> R; pb_c : nat -> R }.
Definition pb_m (P : problem) : nat := cdim (pb_l P) (pb_q P) (pb_e P).

Section Problem.
Variable P : problem.
Let n := pb_n P. Let p := pb_p P. Let m := pb_m P.

(* residuals of a point *)
Definition res_eq (x : nat -> R) (i : nat) : R := mulv n (pb_A P) x i - pb_b P i.
Definition res_ineq (x s : nat -> R) (i : nat) : R := mulv n (pb_G P) x i + s i - pb_h P i.
Definition res_dual (y z : nat -> R) (j : nat) : R :=
  mulvT p (pb_A P) y j + mulvT m (pb_G P) z j + pb_c P j.

Definition primal_feasible (x s : nat -> R) : Prop :=
  (forall i, (i < p)%nat -> res_eq x i = 0) /\ (forall i, (i < m)%nat -> res_ineq x s i = 0) /\
  inK (pb_l P) (pb_q P) (pb_e P) s.
Definition dual_feasible (y z : nat -> R) : Prop :=
  (forall j, (j < n)%nat -> res_dual y z j = 0) /\ inKd (pb_l P) (pb_q P) (pb_e P) z.
Definition pobj (x : nat -> R) : R := dotp n (pb_c P) x.
Definition dobj (y z : nat -> R) : R := - dotp p (pb_b P) y - dotp m (pb_h P) z.

Lemma mulv_dot k (M : nat -> nat -> R) x y :
  dotp k (mulv n M x) y = dotp n x (mulvT k M y).
Proof.
  unfold dotp, mulv, mulvT.
  transitivity (Rsum k (fun i => Rsum n (fun j => M i j * x j * y i))).
  - apply Rsum_ext; intros. rewrite <- Rsum_scal_r. auto.
  - rewrite Rsum_swap. apply Rsum_ext; intros j Hj. rewrite <- Rsum_scal.
    apply Rsum_ext; intros; ring.
Qed.

(* c'x - dobj = s'z + x'(dual residual) - y'(Ax-b) - z'(Gx+s-h) *)
Lemma gap_identity x y z s :
  pobj x - dobj y z =
  dotp m s z + dotp n x (res_dual y z) - dotp p (res_eq x) y - dotp m (res_ineq x s) z.
Proof.
  unfold pobj, dobj.
  assert (E1: dotp p (res_eq x) y = dotp n x (mulvT p (pb_A P) y) - dotp p (pb_b P) y).
  { rewrite <- mulv_dot. unfold dotp, res_eq. rewrite <- Rsum_minus. apply Rsum_ext; intros; ring. }
  assert (E2: dotp m (res_ineq x s) z = dotp n x (mulvT m (pb_G P) z) + dotp m s z - dotp m (pb_h P) z).
  { rewrite <- mulv_dot. unfold dotp, res_ineq. rewrite <- Rsum_plus, <- Rsum_minus. apply Rsum_ext; intros; ring. }
  assert (E3: dotp n x (res_dual y z) =
    dotp n x (mulvT p (pb_A P) y) + dotp n x (mulvT m (pb_G P) z) + dotp n (pb_c P) x).
  { unfold dotp, res_dual. rewrite <- !Rsum_plus. apply Rsum_ext; intros; ring. }
  rewrite E1, E2, E3. ring.
Qed.

(* weak duality with residuals *)
Lemma weak_duality x s y z :
  primal_feasible x s -> inKd (pb_l P) (pb_q P) (pb_e P) z ->
  dobj y z - nrm n (res_dual y z) * nrm n x <= pobj x.
Proof.
  intros (E1 & E2 & HK) HZ. pose proof (gap_identity x y z s) as G.
  assert (Z1: dotp p (res_eq x) y = 0).
  { unfold dotp. apply Rsum_0. intros i Hi. rewrite E1 by auto. ring. }
  assert (Z2: dotp m (res_ineq x s) z = 0).
  { unfold dotp. apply Rsum_0. intros i Hi. rewrite E2 by auto. ring. }
  pose proof (K_dual _ _ _ _ _ HK HZ) as D. fold (pb_m P) in D. fold m in D.
  pose proof (CS_ge n x (res_dual y z)). nra.
Qed.

(* how far a point may be from optimal *)
Lemma suboptimality x s y z xf sf :
  primal_feasible xf sf -> inKd (pb_l P) (pb_q P) (pb_e P) z ->
  pobj x <= pobj xf + dotp m s z + nrm n (res_dual y z) * (nrm n x + nrm n xf)
            + nrm p (res_eq x) * nrm p y + nrm m (res_ineq x s) * nrm m z.
Proof.
  intros HF HZ. pose proof (weak_duality xf sf y z HF HZ).
  pose proof (gap_identity x y z s) as G.
  pose proof (CS_le n x (res_dual y z)).
  pose proof (CS_ge p (res_eq x) y). pose proof (CS_ge m (res_ineq x s) z). nra.
Qed.

(* an approximate certificate of primal infeasibility bounds feasible points from below *)
Lemma pinf_bound x s y z :
  primal_feasible x s -> inKd (pb_l P) (pb_q P) (pb_e P) z ->
  - dobj y z >= - (nrm n (fun j => mulvT p (pb_A P) y j + mulvT m (pb_G P) z j) * nrm n x).
Proof.
  intros (E1 & E2 & HK) HZ.
  pose proof (K_dual _ _ _ _ _ HK HZ) as D. fold (pb_m P) in D. fold m in D.
  pose proof (CS_ge n x (fun j => mulvT p (pb_A P) y j + mulvT m (pb_G P) z j)) as C.
  assert (E: dotp n x (fun j => mulvT p (pb_A P) y j + mulvT m (pb_G P) z j) =
             dotp p (pb_b P) y + (dotp m (pb_h P) z - dotp m s z)).
  { transitivity (dotp n x (mulvT p (pb_A P) y) + dotp n x (mulvT m (pb_G P) z)).
    - unfold dotp. rewrite <- Rsum_plus. apply Rsum_ext; intros; ring.
    - rewrite <- !mulv_dot. unfold dotp. rewrite <- Rsum_minus.
      f_equal; apply Rsum_ext; intros i Hi.
      + specialize (E1 i Hi). unfold res_eq in E1. replace (mulv n (pb_A P) x i) with (pb_b P i) by lra. ring.
      + specialize (E2 i Hi). unfold res_ineq in E2. replace (mulv n (pb_G P) x i) with (pb_h P i - s i) by lra. ring. }
  unfold dobj. rewrite E in C. nra.
Qed.

(* an approximate certificate of dual infeasibility bounds dual feasible points *)
Lemma dinf_bound x s y z :
  dual_feasible y z -> inK (pb_l P) (pb_q P) (pb_e P) s ->
  pobj x >= - (nrm p (mulv n (pb_A P) x) * nrm p y + nrm m (fun i => mulv n (pb_G P) x i + s i) * nrm m z).
Proof.
  intros (E1 & HZ) HK.
  pose proof (K_dual _ _ _ _ _ HK HZ) as D. fold (pb_m P) in D. fold m in D.
  pose proof (CS_le p (mulv n (pb_A P) x) y). pose proof (CS_le m (fun i => mulv n (pb_G P) x i + s i) z) as C.
  assert (E: pobj x = - dotp p (mulv n (pb_A P) x) y - dotp m (mulv n (pb_G P) x) z).
  { rewrite !mulv_dot. unfold pobj, dotp. rewrite <- Rsum_opp, <- Rsum_minus. apply Rsum_ext; intros j Hj.
    specialize (E1 j Hj). unfold res_dual in E1.
    replace (pb_c P j) with (- mulvT p (pb_A P) y j - mulvT m (pb_G P) z j) by lra. ring. }
  assert (E2: dotp m (fun i => mulv n (pb_G P) x i + s i) z = dotp m (mulv n (pb_G P) x) z + dotp m s z).
  { unfold dotp. rewrite <- Rsum_plus. apply Rsum_ext; intros; ring. }
  nra.
Qed.
End Problem.
