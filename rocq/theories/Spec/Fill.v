(* What the factor of a sparse symmetric matrix looks like: its fill, its
   elimination tree and its column counts.  Nothing here mentions the code. *)
From Coq Require Import List Arith Bool ZArith Reals Lia.
From Verif Require Import Base Num.
From Verif.Model Require Import Spla.
From Verif.Spec Require Import Matrix.
Open Scope nat_scope.

(* only the upper triangle is stored *)
Definition upper {T} (M : spmat T) : Prop :=
  forall j k, in_col M j k -> gd 0 (sp_ir M) k <= j.

(* column r stores an entry above the diagonal in row i *)
Definition adj {T} (M : spmat T) (r i : nat) : Prop :=
  i < r /\ exists p, in_col M r p /\ gd 0 (sp_ir M) p = i.

(* Position (r,i) of the lower factor may become nonzero: either the matrix has
   an entry there, or eliminating column i fills it: column i has entries in
   rows j and r, i < j < r, so position (r,j) is filled. *)
Inductive fill {T} (M : spmat T) : nat -> nat -> Prop :=
| fill_adj r i : adj M r i -> fill M r i
| fill_elim r j i : fill M j i -> fill M r i -> i < j -> j < r -> fill M r j.

(* number of r < k with R r i *)
Fixpoint cnt (R : nat -> nat -> bool) (k i : nat) : nat :=
  match k with 0 => 0 | S k => cnt R k i + (if R k i then 1 else 0) end.

(* start of column i when the columns 0, 1, ... hold c 0, c 1, ... entries *)
Fixpoint starts (c : nat -> nat) (i : nat) : nat :=
  match i with 0 => 0 | S i => starts c i + c i end.

(* no column stores two entries for the same row *)
Definition nodup {T} (M : spmat T) : Prop :=
  forall j p q, in_col M j p -> in_col M j q -> gd 0 (sp_ir M) p = gd 0 (sp_ir M) q -> p = q.

(* only entries strictly below the diagonal are stored *)
Definition strictly_lower {T} (M : spmat T) : Prop :=
  forall j k, in_col M j k -> j < gd 0 (sp_ir M) k.

(* L has an entry in row r of column i *)
Definition has_entry {T} (M : spmat T) (r i : nat) : Prop :=
  exists p, in_col M i p /\ gd 0 (sp_ir M) p = r.

(* the unit lower triangular matrix I + Ld, and the product (I+Ld) D (I+Ld)' *)
Definition unitL (Ld : nat -> nat -> R) (i j : nat) : R := (Ld i j + if Nat.eqb i j then 1 else 0)%R.
Definition ldl_prod (n : nat) (Ld : nat -> nat -> R) (D : nat -> R) (i r : nat) : R :=
  Rsum n (fun j => unitL Ld i j * D j * unitL Ld r j)%R.
