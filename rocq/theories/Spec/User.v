(* What a caller of ECOS_setup hands over, read as a conic problem. *)
From Coq Require Import List Arith Reals.
From Verif Require Import Base Num NumX.
From Verif.Model Require Import Spla.
From Verif.Spec Require Import Matrix Conic.

(* the column-compressed matrices A0 (optional) and G0 describe U's A and G *)
Record user (U : problem) (A0 : option (spmat R)) (G0 : spmat R) : Prop := {
  us_G : wf_sp G0 /\ sp_n G0 = pb_n U /\ sp_m G0 = pb_m U /\ pb_G U = dense G0;
  us_A : match A0 with
         | Some A => wf_sp A /\ sp_n A = pb_n U /\ sp_m A = pb_p U /\ pb_A U = dense A
         | None => pb_p U = 0%nat
         end
}.

(* the three arrays of a column-compressed matrix, as doubles that hold numbers *)
Definition ccs (M : spmat R) : arr (option R) * arr nat * arr nat := (xlift (sp_pr M), sp_jc M, sp_ir M).
