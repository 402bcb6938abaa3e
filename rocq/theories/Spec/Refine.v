(* What iterative refinement of the KKT system measures. *)
From Coq Require Import List Arith Bool Reals.
From Verif Require Import Base Num.
From Verif.Spec Require Import KktSpec KktMatrix.
Import ListNotations.
Open Scope nat_scope.

(* t is the row of the last coordinate of a second-order cone *)
Fixpoint lastsoc (q : list nat) (t : nat) : bool :=
  match q with
  | [] => false
  | d :: q => if t <? d then Nat.eqb (t + 1) d else if t <? d + 2 then false else lastsoc q (t - (d + 2))
  end.
Definition lastrow (l : nat) (q : list nat) (t : nat) : bool := if t <? l then false else lastsoc q (t - l).

(* r is the largest absolute value among the first N (0 if there is none) *)
Definition maxabs (N : nat) (f : nat -> R) (r : R) : Prop :=
  (0 <= r)%R /\ (forall i, i < N -> (Rabs (f i) <= r)%R) /\ (r = 0%R \/ exists i, i < N /\ r = Rabs (f i)).

(* The matrix of order N with upper triangle K, times x *)
Definition symmul (N : nat) (K : nat -> nat -> R) (x : nat -> R) (i : nat) : R :=
  Rsum N (fun j => (K (Nat.min i j) (Nat.max i j) * x j)%R).

(* Where the measured residual is not b - K x: conic row t, right-hand side b and
   entry x of that row.  After a refresh with a scaling: *)
Definition drift (l : nat) (q : list nat) (d : R) (t : nat) (b x : R) : R :=
  match unz l q t with
  | Some _ => if lastrow l q t then (- (2 * d * x))%R else 0%R
  | None => (- b - d * vreg l q t * x)%R
  end.
(* With the identity scaling of the initialisation (u is true on the second extra
   row of a second-order cone): *)
Definition drift0 (l : nat) (q : list nat) (d : R) (t : nat) (b x : R) : R :=
  match unz l q t with
  | Some _ => if lastrow l q t then (- (d * x))%R else (d * x)%R
  | None => if Nat.leb l t && usoc q (t - l) then (- b + 2 * x)%R else (- b)%R
  end.

(* The residual of x: b - K x, plus the drift on the rows after the first np. *)
Definition resid (N np : nat) (K : nat -> nat -> R) (dr : nat -> R -> R -> R) (b x : nat -> R) (i : nat) : R :=
  (b i - symmul N K x i + (if i <? np then 0 else dr (i - np)%nat (b i) (x i)))%R.

(* M is the symmetric matrix with upper triangle K, except that pivots of the
   factorisation (not larger than eps in the direction of their sign) were
   replaced, which changes diagonal entries. *)
Record pivoted (N : nat) (K : nat -> nat -> R) (sgn : nat -> R) (eps delta : R) (M : nat -> nat -> R) : Prop := {
  pv_sym : forall i j, M i j = M j i;
  pv_off : forall i j, i < j -> j < N -> M i j = K i j;
  pv_diag : forall i, i < N -> exists d, M i i = (K i i + ((if Rleb (sgn i * d) eps then sgn i * delta else d) - d))%R
}.

(* xs 0, ..., xs k are the iterates of a refinement with k kept corrections: each
   correction solves the system M for the residual, and none of them increased
   the largest residual. *)
Record refinement (N k : nat) (M : nat -> nat -> R) (b : nat -> R) (res : (nat -> R) -> nat -> R) (xs : nat -> nat -> R) : Prop := {
  rf_base : forall i, i < N -> Rsum N (fun j => M i j * xs 0%nat j)%R = b i;
  rf_step : forall s i, s < k -> i < N -> Rsum N (fun j => M i j * (xs (S s) j - xs s j))%R = res (xs s) i;
  rf_norm : forall s r r', s < k -> maxabs N (res (xs s)) r -> maxabs N (res (xs (S s))) r' -> (r' <= r)%R
}.
