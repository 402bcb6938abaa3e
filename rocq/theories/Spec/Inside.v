(* Points inside the exponential cones, in exact arithmetic with infinities. *)
From Coq Require Import Reals.
From Verif Require Import Base Num NumE.
From Verif.Spec Require Import Exp ExpSearch.
Open Scope R_scope.

(* the triples of s (of z) in the e exponential cones, which start at f, are
   numbers inside the exponential cone (its dual) *)
Definition inside (f e : nat) (p : @point EOps) : Prop :=
  forall j, (j < e)%nat -> exists x y z u v w : R,
    p_s p (f+3*j)%nat = Fin x /\ p_s p (f+3*j+1)%nat = Fin y /\ p_s p (f+3*j+2)%nat = Fin z /\
    p_z p (f+3*j)%nat = Fin u /\ p_z p (f+3*j+1)%nat = Fin v /\ p_z p (f+3*j+2)%nat = Fin w /\
    exp_primal_int x y z /\ exp_dual_int u v w.
