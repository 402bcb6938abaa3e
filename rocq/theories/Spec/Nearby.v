(* Two sets of problem data that differ, number by number, by a small relative
   error.  Pure mathematics, no reference to the code. *)
From Coq Require Import List Arith QArith Reals.
From Verif Require Import Base Num.
From Verif.Model Require Import Spla.
From Verif.Spec Require Import Matrix Conic.
Open Scope R_scope.

(* the matrix M' has the pattern of M, and entry k of it (row i, column j) is that of M up to
   a relative error dl and an absolute error tiny * re i * ce j *)
Record near_mat (dl tiny : R) (re ce : nat -> R) (M M' : spmat R) : Prop := {
  nm_jc : sp_jc M' = sp_jc M; nm_ir : sp_ir M' = sp_ir M;
  nm_n : sp_n M' = sp_n M; nm_m : sp_m M' = sp_m M; nm_nnz : sp_nnz M' = sp_nnz M;
  nm_pr : forall j k, in_col M j k ->
    Rabs (gd 0 (sp_pr M') k - gd 0 (sp_pr M) k) <=
      dl * Rabs (gd 0 (sp_pr M) k) + tiny * (re (gd 0%nat (sp_ir M) k) * ce j) }.

Definition near_vec (dl tiny : R) (n : nat) (e v v' : nat -> R) : Prop :=
  forall i, (i < n)%nat -> Rabs (v' i - v i) <= dl * Rabs (v i) + tiny * e i.

(* the problem U', with matrices A', G', has the dimensions and cones of U, with
   matrices A, G, and all its numbers are those of U up to small errors *)
Record nearby (dl tiny : R) (xe Ae Ge : nat -> R) (U U' : problem) (A A' : option (spmat R)) (G G' : spmat R) : Prop := {
  nb_n : pb_n U' = pb_n U; nb_p : pb_p U' = pb_p U; nb_l : pb_l U' = pb_l U; nb_q : pb_q U' = pb_q U; nb_e : pb_e U' = pb_e U;
  nb_G : near_mat dl tiny Ge xe G G';
  nb_A : match A, A' with Some A, Some A' => near_mat dl tiny Ae xe A A' | None, None => True | _, _ => False end;
  nb_c : near_vec dl tiny (pb_n U) xe (pb_c U) (pb_c U');
  nb_b : near_vec dl tiny (pb_p U) Ae (pb_b U) (pb_b U');
  nb_h : near_vec dl tiny (pb_m U) Ge (pb_h U) (pb_h U') }.

(* What equilibration needs of the arithmetic besides the rounding laws of
   Spec/Rounding.v: absolute values are exact, the constant 1e-6 is not far too
   small, and rounding is not too coarse. *)
Record fine (O : Ops) (phi : F -> option R) (u eta : R) : Prop := {
  fi_abs : forall a x, phi a = Some x -> phi (fabs a) = Some (Rabs x);
  fi_thr : exists t, phi (fconst (1 # 1000000)) = Some t /\ / 2 ^ 20 <= t;
  fi_u : u <= / 2 ^ 10; fi_eta : 2 ^ 80 * eta <= / 2 ^ 10 }.
