(* What branch and bound needs of the solver for the relaxations to run without
   undefined behaviour; nothing is said about the solutions being right. *)
From Coq Require Import List Arith ZArith.
From Verif Require Import Base Num NumI.
From Verif.Model Require Import Types Ecos BbTypes Bb.
Import ListNotations.
Open Scope nat_scope.

Section Solver.
Context {O : Ops} {TI : ToInt O}.
(* n variables, pe equalities and m inequalities, the first 2 (nb + ni) of which are
   the bounds; col j is the column of the j-th integer variable, booleans first *)
Variables (n pe m nb ni : nat) (col : nat -> nat) (tol : F).

(* y can be rounded down, up and to nearest without overflowing an int *)
Definition convertible (y : F) : Prop :=
  pfloat_floor y tol <> None /\ pfloat_ceil y tol <> None /\ pfloat_round y <> None.
(* ... and, rounded, is a char *)
Definition char_sized (y : F) : Prop := exists r k, pfloat_round y = Some r /\ ftochar r = Some k.

Record total_solver (good : pwork F -> Prop) (solver : nat -> ctrlc -> pwork F -> option (Z * ctrlc * pwork F)) : Prop := {
  ts_dims : forall p, good p ->
    w_n p = n /\ w_p p = pe /\ w_m p = m /\
    2 * (nb + ni) <= length (w_h p) /\ (forall i, i < 2 * (nb + ni) -> exists e, get (w_Gequil p) i = Some e) /\
    (forall i, i < n -> exists e, get (w_c p) i = Some e) /\
    n <= length (w_x p) /\ pe <= length (w_y p) /\ m <= length (w_z p) /\ m <= length (w_s p);
  ts_h : forall p h, good p -> length h = length (w_h p) -> good (set_w_h p h);
  ts_solve : forall k t p, good p -> exists code t' p',
    solver k t p = Some (code, t', p') /\ good p' /\
    (forall i, i < n -> exists v, get (w_x p') i = Some v) /\
    (forall j y, j < nb + ni -> get (w_x p') (col j) = Some y -> convertible y /\ (j < nb -> char_sized y))
}.
End Solver.
