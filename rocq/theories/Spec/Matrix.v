(* What a column-compressed matrix means, independent of any routine. *)
From Coq Require Import List Arith Bool ZArith Reals Lia Lra.
From Verif Require Import Base Num.
From Verif.Model Require Import Spla.
Open Scope nat_scope.

(* An array holds the vector f of length n (it may be longer). *)
Definition vec {T} (a : arr T) (n : nat) (f : nat -> T) : Prop :=
  forall i, i < n -> get a i = Some (f i).

Section WF.
Context {T : Type}.

(* Well-formed CCS matrix: column pointers start at 0, never decrease, end at
   nnz; every stored entry is initialised and has a row index below m.  Rows
   within a column may be unsorted and may repeat. *)
Record wf_sp (M : spmat T) : Prop := {
  wf_jc : vec (sp_jc M) (sp_n M + 1) (gd 0 (sp_jc M));
  wf_jc0 : gd 0 (sp_jc M) 0 = 0;
  wf_mono : forall j, j < sp_n M -> gd 0 (sp_jc M) j <= gd 0 (sp_jc M) (j + 1);
  wf_nnz : gd 0 (sp_jc M) (sp_n M) = sp_nnz M;
  wf_ir : vec (sp_ir M) (sp_nnz M) (gd 0 (sp_ir M));
  wf_row : forall k, k < sp_nnz M -> gd 0 (sp_ir M) k < sp_m M;
  wf_pr : forall k, k < sp_nnz M -> exists v, get (sp_pr M) k = Some v
}.

(* k is an entry of column j *)
Definition in_col (M : spmat T) (j k : nat) : Prop :=
  j < sp_n M /\ gd 0 (sp_jc M) j <= k < gd 0 (sp_jc M) (j + 1).

End WF.

(* The real matrix a CCS structure stands for: entries with equal coordinates add up. *)
Definition dense (M : spmat R) (i j : nat) : R :=
  Rsumr (gd 0 (sp_jc M) j) (gd 0 (sp_jc M) (j + 1))
    (fun k => if Nat.eqb (gd 0 (sp_ir M) k) i then gd 0%R (sp_pr M) k else 0%R).

(* (A x)_i and (A' x)_j for a dense matrix given as a function *)
Definition mulv (n : nat) (A : nat -> nat -> R) (x : nat -> R) (i : nat) : R :=
  Rsum n (fun j => A i j * x j)%R.
Definition mulvT (m : nat) (A : nat -> nat -> R) (x : nat -> R) (j : nat) : R :=
  Rsum m (fun i => A i j * x i)%R.

(* the symmetric matrix given by its upper triangle *)
Definition symdense (M : spmat R) (i j : nat) : R := dense M (Nat.min i j) (Nat.max i j).

(* p is a permutation of 0..n-1 *)
Definition is_perm (n : nat) (p : nat -> nat) : Prop :=
  (forall i, i < n -> p i < n) /\ (forall i j, i < n -> j < n -> p i = p j -> i = j).
