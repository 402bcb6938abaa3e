(* When one iterate counts as better than another. *)
From Coq Require Import Bool.
From Verif Require Import Base Num.
From Verif.Model Require Import Types.

Section Best.
Context `{O : Ops}.

(* positive and smaller *)
Definition below (a b : F) : Prop := flt f0 a = true /\ flt a b = true.

(* statistics A against the kept ones B: gap and complementarity have decreased
   and, unless kappa/tau > 1 suggests infeasibility, so have both residuals and
   kappa/tau; when it does, the infeasibility residual of A is below the primal
   residual of B *)
Definition improves (A : stats F) (B : best F) : Prop :=
  flt f0 (be_gap B) = true /\ below (st_gap A) (be_gap B) /\ below (st_mu A) (be_mu B) /\
  (flt f1 (st_kapovert A) = true /\ below (st_pinfres A) (be_pres B) \/
   flt f1 (st_kapovert A) = false /\ below (st_pres A) (be_pres B) /\ below (st_dres A) (be_dres B) /\
     below (st_kapovert A) (be_kapovert B)).
End Best.
