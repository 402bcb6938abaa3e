(* New numerical values for the problem of a workspace, on the same pattern. *)
From Coq Require Import List Arith.
From Verif Require Import Base Num.
From Verif.Model Require Import Spla Types Cone Equil Ecos.
From Verif.Spec Require Import Matrix SetupSpec.
Open Scope nat_scope.

Section Update.
Context `{O : Ops}.

(* A and G with the new values *)
Definition new_A (A : option (spmat F)) (Apr : option (arr F)) : option (spmat F) :=
  match A, Apr with Some A, Some pr => Some (with_pr A pr) | Some A, None => Some (with_pr A nil) | None, _ => None end.
Definition new_G (w : pwork F) (Gpr : arr F) : spmat F := with_pr (w_G w) Gpr.
(* b is ignored when there are no equalities *)
Definition new_b (w : pwork F) (b : arr F) : arr F := match w_A w with Some _ => b | None => w_b w end.

(* what the caller of updateData must supply: every entry has a value *)
Definition new_values (w : pwork F) (Gpr : arr F) (Apr : option (arr F)) (c h b : arr F) : Prop :=
  full Gpr (sp_nnz (w_G w)) /\
  match w_A w with Some A => exists pr, Apr = Some pr /\ full pr (sp_nnz A) | None => True end /\
  full c (w_n w) /\ full h (w_m w) /\ full b (w_p w).
End Update.
