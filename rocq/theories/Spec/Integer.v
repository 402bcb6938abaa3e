(* Vocabulary for integer variables, independent of the model. *)
From Coq Require Import Reals ZArith.
Open Scope R_scope.

(* z is the floor, the ceiling, a nearest integer of x *)
Definition is_floor (z : Z) (x : R) : Prop := IZR z <= x < IZR z + 1.
Definition is_ceil (z : Z) (x : R) : Prop := IZR z - 1 < x <= IZR z.
Definition is_nearest (z : Z) (x : R) : Prop := Rabs (x - IZR z) <= / 2.

(* x is at distance tol or more from every integer *)
Definition fractional (tol x : R) : Prop := forall z : Z, tol <= Rabs (x - IZR z).
(* x is closer than tol to some integer *)
Definition integral (tol x : R) : Prop := exists z : Z, Rabs (x - IZR z) < tol.
