(* What the exit codes of the solver claim about a point, in the words of the
   problem alone: no reference to the model of the code. *)
From Coq Require Import Arith Reals.
From Verif Require Import Num.
From Verif.Spec Require Import Matrix Conic.
Open Scope R_scope.

Section Cert.
Variable P : problem.
Let n := pb_n P. Let p := pb_p P. Let m := pb_m P.

(* primal and dual residuals of (x,y,z,s) small relative to the data and to
   tau times the point, and small complementarity gap, absolute or relative *)
Definition approx_optimal (ft at_ rt tau : R) (x y z s : nat -> R) : Prop :=
  nrm p (res_eq P x) < ft * Rmax (Rmax 1 (nrm p (pb_b P)) + tau * nrm n x) 1 /\
  nrm m (res_ineq P x s) < ft * Rmax (Rmax 1 (nrm m (pb_h P)) + tau * nrm n x + tau * nrm m s) 1 /\
  nrm n (res_dual P y z) < ft * Rmax (Rmax 1 (nrm n (pb_c P)) + tau * nrm p y + tau * nrm m z) 1 /\
  (tau * tau * dotp m s z < at_ \/
   pobj P x < 0 /\ tau * tau * dotp m s z < rt * - pobj P x \/
   0 <= pobj P x /\ 0 < dobj P y z /\ tau * tau * dotp m s z < rt * dobj P y z) /\
  (pobj P x < 0 \/ - at_ <= tau * dobj P y z).

(* (y,z) is an approximate proof that no primal feasible point exists:
   b'y + h'z is clearly negative, A'y + G'z nearly zero *)
Definition approx_pinf (t reltol tau : R) (y z : nat -> R) : Prop :=
  let M := Rmax (tau * nrm p y + tau * nrm m z) 1 in
  reltol * M < tau * dobj P y z /\
  tau * nrm n (fun j => mulvT p (pb_A P) y j + mulvT m (pb_G P) z j) < t * M.

(* (x,s) is an approximate proof that no dual feasible point exists *)
Definition approx_dinf (t reltol tau : R) (x s : nat -> R) : Prop :=
  let M := Rmax (tau * nrm n x) 1 in
  tau * pobj P x < - reltol * M /\
  tau * nrm p (mulv n (pb_A P) x) < t * M /\
  tau * nrm m (fun i => mulv n (pb_G P) x i + s i) < t * Rmax (tau * nrm n x + tau * nrm m s) 1.
End Cert.
