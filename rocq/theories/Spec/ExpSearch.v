(* The backtracking line search on the exponential cones: what is tried, and on
   which tests a trial point passes or fails. *)
From Coq Require Import List Arith Bool ZArith QArith.
From Verif Require Import Base Num.
From Verif.Model Require Import Types Consts Expcone Cone.
Import ListNotations.
Open Scope nat_scope.

Section ExpSearch.
Context `{O : Ops}.
Local Open Scope fl_scope.

(* a point (s, z, tau, kappa), and the point reached by a step from it *)
Record point := mkPoint { p_s : nat -> F; p_z : nat -> F; p_tau : F; p_kap : F }.
Definition moved (p d : point) (alpha : F) : point :=
  mkPoint (fun i => p_s p i + alpha * p_s d i) (fun i => p_z p i + alpha * p_z d i)
          (p_tau p + alpha * p_tau d) (p_kap p + alpha * p_kap d).

(* the point a workspace holds *)
Definition here (w : pwork F) : point := mkPoint (gd f0 (w_s w)) (gd f0 (w_z w)) (w_tau w) (w_kap w).

Fixpoint fsum (n : nat) (f : nat -> F) : F :=
  match n with 0%nat => f0 | S n => fsum n f + f n end.

(* complementarity of the whole point and of the cone whose triple starts at k *)
Definition mu_all (m D : nat) (p : point) : F :=
  (fsum m (fun i => p_s p i * p_z p i) + p_tau p * p_kap p) / fofn (D + 1).
Definition mu_at (p : point) (k : nat) : F :=
  (p_s p k * p_z p k + p_s p (k+1)%nat * p_z p (k+1)%nat + p_s p (k+2)%nat * p_z p (k+2)%nat) / fconst 3.

(* the exponential cones are numbered 0, ..., e-1; cone j holds the coordinates
   f + 3j, f + 3j + 1, f + 3j + 2 *)
Definition dual_ok (f e : nat) (p : point) : Prop :=
  forall j, (j < e)%nat -> expDualOk (p_z p (f+3*j)%nat) (p_z p (f+3*j+1)%nat) (p_z p (f+3*j+2)%nat) = true.
Definition primal_ok (f e : nat) (p : point) : Prop :=
  forall j, (j < e)%nat -> expPrimalOk (p_s p (f+3*j)%nat) (p_s p (f+3*j+1)%nat) (p_s p (f+3*j+2)%nat) = true.
Definition balanced (f e m D : nat) (p : point) : Prop :=
  forall j, (j < e)%nat -> flt (MIN_DISTANCE * mu_all m D p) (mu_at p (f+3*j)%nat) = true.

(* barrier plus (D+1) (log mu + 1), with the routines for the two barriers *)
Definition centrality (C : cone F) (m D : nat) (p : point) (c : F) : Prop :=
  exists sv zv b1 b2,
    (forall i, (i < m)%nat -> get sv i = Some (p_s p i)) /\ (forall i, (i < m)%nat -> get zv i = Some (p_z p i)) /\
    evalBarrierValue sv zv (co_fexv C) (nexc C) = Some b1 /\
    evalSymmetricBarrierValue sv zv (p_tau p) (p_kap p) C (fofn D) = Some b2 /\
    c = b1 + b2 + fofn (D + 1) * flog (mu_all m D p) + fofn (D + 1).

Inductive outcome := Passed | FailDual | FailPrimal | FailBalance | FailCentral.
Definition outcome_eq_dec (a b : outcome) : {a = b} + {a <> b}.
Proof. decide equality. Defined.

Definition judged (C : cone F) (m D : nat) (lim : F) (p : point) (o : outcome) : Prop :=
  let f := co_fexv C in let e := nexc C in
  match o with
  | FailDual => ~ dual_ok f e p
  | FailPrimal => dual_ok f e p /\ ~ primal_ok f e p
  | FailBalance => dual_ok f e p /\ primal_ok f e p /\ ~ balanced f e m D p
  | FailCentral => dual_ok f e p /\ primal_ok f e p /\ balanced f e m D p /\ exists c, centrality C m D p c /\ flt c lim = false
  | Passed => dual_ok f e p /\ primal_ok f e p /\ balanced f e m D p /\ exists c, centrality C m D p c /\ flt c lim = true
  end.

(* the i-th step length tried *)
Fixpoint shrunk (alpha s : F) (i : nat) : F := match i with 0%nat => alpha | S i => shrunk (alpha * s) s i end.

Definition count (o : outcome) (os : list outcome) : Z := Z.of_nat (count_occ outcome_eq_dec os o).
End ExpSearch.
Arguments point {O}.
