(* The barrier of a cone and the measure of centrality made from it.  Mathematics over
   the reals. *)
From Coq Require Import List Arith Reals Lia Lra.
From Verif Require Import Base Num.
From Verif.Spec Require Import Matrix Conic Exp Jordan.
Import ListNotations.
Open Scope R_scope.

Fixpoint lsum {A} (f : A -> R) (t : list A) : R := match t with [] => 0 | a :: t => f a + lsum f t end.

(* barrier of the orthant and the second-order cones, for s and z together, with tau
   and kappa *)
Definition sym_barrier (l : nat) (q : list nat) (s z : nat -> R) (tau kap : R) : R :=
  - Rsum l (fun i => ln (s i) + ln (z i)) - (ln tau + ln kap)
  - lsum (fun kp => let '(k, p) := kp in / 2 * (ln (det p (from k s)) + ln (det p (from k z)))) (layout l q).

(* the solution of o + ln o = t *)
Definition wright (t o : R) : Prop := 0 < o /\ o + ln o = t.

(* barrier of the exponential cone: the conjugate of the barrier of its dual, up to the
   sign of its argument; o is the solution of o + ln o = omega_arg x y z *)
Definition omega_arg (x y z : R) : R := 1 - x / z - ln z + ln y.
Definition exp_conj (o y z : R) : R := - ln ((o - 1) * (o - 1) / o) - 2 * ln z - ln y - 3.

(* the mean of the products of s and z *)
Definition mu_of (m D : nat) (s z : nat -> R) (tau kap : R) : R := (dotp m s z + tau * kap) / INR (D + 1).

(* how far (s, z, tau, kappa) is from the central path: barrier plus (D + 1) ln mu;
   om gives the o of the exponential cones *)
Definition measure (l : nat) (q : list nat) (e D : nat) (om : R -> R) (s z : nat -> R) (tau kap : R) : R :=
  let f := (l + list_sum q)%nat in
  sym_barrier l q s z tau kap
  + Rsum e (fun j => exp_conj (om (omega_arg (s (f + 3 * j)%nat) (s (f + 3 * j + 1)%nat) (s (f + 3 * j + 2)%nat))) (s (f + 3 * j + 1)%nat) (s (f + 3 * j + 2)%nat)
                     + exp_barrier (z (f + 3 * j)%nat) (z (f + 3 * j + 1)%nat) (z (f + 3 * j + 2)%nat))
  + INR (D + 1) * ln (mu_of (f + 3 * e) D s z tau kap).

(* val is the value at (x, y, z) of the conjugate of the barrier of the dual cone: the
   least upper bound, attained, of - <(x, y, z), (u, v, w)> - barrier (u, v, w) over the
   interior of the dual cone *)
Definition conjugate (x y z val : R) : Prop :=
  (forall u v w, exp_dual_int u v w -> - (x * u + y * v + z * w) - exp_barrier u v w <= val) /\
  (exists u v w, exp_dual_int u v w /\ - (x * u + y * v + z * w) - exp_barrier u v w = val).
