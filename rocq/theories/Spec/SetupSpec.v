(* What a caller of ECOS_setup must supply, for any arithmetic. *)
From Coq Require Import List Arith.
From Verif Require Import Base.
From Verif.Model Require Import Spla.
From Verif.Spec Require Import Matrix.
Open Scope nat_scope.

(* the first n cells have been written *)
Definition full {T} (a : arr T) (n : nat) : Prop := forall i, i < n -> exists v, get a i = Some v.

(* the code transposes these matrices correctly (a matrix with rows and no
   entries comes back with column pointers that were never written, see C03) *)
Definition transposable {T} (M : spmat T) : Prop := sp_nnz M <> 0 \/ sp_m M = 0.

(* the arrays pr, jc, ir of a column-compressed matrix *)
Definition data_of {T} (M : spmat T) : arr T * arr nat * arr nat := (sp_pr M, sp_jc M, sp_ir M).

(* the optional equality constraints: p rows, n columns *)
Definition okA {T} (n p : nat) (A : option (spmat T)) : Prop :=
  match A with Some A => wf_sp A /\ sp_n A = n /\ sp_m A = p /\ transposable A | None => p = 0 end.

(* a problem with n variables, m conic rows and p equality rows *)
Record valid_data {T} (n m p : nat) (q : list nat) (G0 : spmat T) (A0 : option (spmat T)) (c h b : arr T) : Prop := {
  vd_G : wf_sp G0; vd_Gn : sp_n G0 = n; vd_Gm : sp_m G0 = m; vd_Gt : transposable G0;
  vd_A : okA n p A0;
  vd_q : forall d, In d q -> 1 <= d;
  vd_c : full c n; vd_h : full h m; vd_b : full b p
}.

(* the fill-reducing ordering, when it answers, answers with a permutation *)
Definition amd_ok (amd : nat -> arr nat -> arr nat -> option (arr nat)) : Prop :=
  forall n jc ir P, amd n jc ir = Some P -> exists pf, is_perm n pf /\ vec P n pf.

(* number of entries of the KKT matrix *)
Definition kkt_nnz (nnzA nnzG n p l : nat) (q : list nat) (e : nat) : nat :=
  nnzA + nnzG + l + (n + p) + list_sum (map (fun d => 3 * d + 1) q) + 6 * e.

(* the same matrix up to the numerical values *)
Definition same_pattern {T} (M M' : spmat T) : Prop :=
  sp_jc M' = sp_jc M /\ sp_ir M' = sp_ir M /\ sp_n M' = sp_n M /\ sp_m M' = sp_m M /\ sp_nnz M' = sp_nnz M.
Definition same_patternA {T} (M M' : option (spmat T)) : Prop :=
  match M, M' with Some M, Some M' => same_pattern M M' | None, None => True | _, _ => False end.
