(* The exponential cone of ECOS, its dual, and the dual's barrier. *)
From Coq Require Import Reals.
Open Scope R_scope.

(* closure of { (x,y,z) : z > 0, z exp(x/z) <= y } *)
Definition exp_primal (x y z : R) : Prop :=
  0 < z /\ z * exp (x / z) <= y \/ z = 0 /\ x <= 0 /\ 0 <= y.

(* the vectors with a non-negative product with every vector of the cone *)
Definition exp_dual (u v w : R) : Prop :=
  forall x y z, exp_primal x y z -> 0 <= x * u + y * v + z * w.

(* the interior of the dual cone, where its barrier is defined *)
Definition exp_dual_int (u v w : R) : Prop :=
  u < 0 /\ 0 < v /\ 0 < w - u - u * ln (- v / u).

Definition exp_barrier (u v w : R) : R :=
  - ln (w - u - u * ln (- v / u)) - ln (- u) - ln v.

(* f has partial derivatives d1 d2 d3 at (u,v,w) *)
Definition partials (f : R -> R -> R -> R) (u v w d1 d2 d3 : R) : Prop :=
  derivable_pt_lim (fun t => f t v w) u d1 /\
  derivable_pt_lim (fun t => f u t w) v d2 /\
  derivable_pt_lim (fun t => f u v t) w d3.

(* the interior of the cone itself *)
Definition exp_primal_int (x y z : R) : Prop := 0 < z /\ z * exp (x / z) < y.
