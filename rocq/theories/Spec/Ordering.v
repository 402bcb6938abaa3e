(* What the ordering routines of external/amd are asked to do: column-compressed
   patterns, assembly forests, and orderings of their nodes. *)
From Coq Require Import List Arith ZArith.
From Verif Require Import Base.
Import ListNotations.
Open Scope Z_scope.

(* the array holds f 0 .. f (n-1) *)
Definition holds (a : arr Z) (n : nat) (f : nat -> Z) : Prop := forall i, (i < n)%nat -> get a i = Some (f i).

(* column pointers ap 0 .. ap n and row indices ai: entry p lies in column j
   when ap j <= p < ap (j+1) *)
Definition well_formed (n_row : Z) (n : nat) (ap ai : nat -> Z) : Prop :=
  ap 0%nat = 0 /\
  (forall j, (j < n)%nat -> ap j <= ap (S j)) /\
  (forall p, Z.of_nat p < ap n -> 0 <= ai p < n_row).

(* row indices strictly ascend in every column *)
Definition ascending (n : nat) (ap ai : nat -> Z) : Prop :=
  forall j p, (j < n)%nat -> ap j <= Z.of_nat p -> Z.of_nat (S p) < ap (S j) -> ai p < ai (S p).

(* there is an entry at row i of column j *)
Definition entry (n : nat) (ap ai : nat -> Z) (i j : nat) : Prop :=
  (j < n)%nat /\ exists p, ap j <= Z.of_nat p < ap (S j) /\ ai p = Z.of_nat i.

(* ------------------------------------------------------- assembly forests *)

(* i is e itself, or a variable absorbed, directly or not, into e *)
Inductive absorbed (par : nat -> option nat) (nv : nat -> nat) (e : nat) : nat -> Prop :=
| absorbed_self : (0 < nv e)%nat -> absorbed par nv e e
| absorbed_into i j : nv i = 0%nat -> par i = Some j -> absorbed par nv e j -> absorbed par nv e i.

(* n nodes.  Nodes with nv > 0 are elements, that is pivots that stand for nv
   rows of the matrix: themselves and the rows absorbed into them.  The parent
   of an element is an element, a row without a parent that is not an element is
   dense, and there are no cycles. *)
Record forest (n : nat) (par : nat -> option nat) (nv : nat -> nat) : Prop := {
  fo_range : forall i j, (i < n)%nat -> par i = Some j -> (j < n)%nat;
  fo_acyclic : exists rank : nat -> nat, forall i j, (i < n)%nat -> par i = Some j -> (rank i < rank j)%nat;
  fo_elem : forall i j, (i < n)%nat -> (0 < nv i)%nat -> par i = Some j -> (0 < nv j)%nat;
  fo_var : forall i j, (i < n)%nat -> nv i = 0%nat -> par i = Some j -> exists e, absorbed par nv e j;
  fo_size : forall e, (e < n)%nat -> (0 < nv e)%nat ->
    exists l, NoDup l /\ (forall i, In i l <-> (i < n)%nat /\ absorbed par nv e i) /\ length l = nv e
}.

(* j is an ancestor of i, or i itself *)
Inductive above (par : nat -> option nat) (j : nat) : nat -> Prop :=
| above_self : above par j j
| above_up i k : par i = Some k -> above par j k -> above par j i.

(* o numbers the elements 0, 1, .., K-1 so that the elements of every subtree
   are consecutive, its root last *)
Definition postorder (n : nat) (par : nat -> option nat) (nv o : nat -> nat) (K : nat) : Prop :=
  (forall i, (i < n)%nat -> (0 < nv i)%nat -> (o i < K)%nat) /\
  (forall k, (k < K)%nat -> exists i, (i < n)%nat /\ (0 < nv i)%nat /\ o i = k) /\
  (forall i j, (i < n)%nat -> (j < n)%nat -> (0 < nv i)%nat -> (0 < nv j)%nat -> o i = o j -> i = j) /\
  (forall r, (r < n)%nat -> (0 < nv r)%nat -> exists first, forall i, (i < n)%nat -> (0 < nv i)%nat ->
     (above par r i <-> (first <= o i <= o r)%nat)).

(* nx numbers all rows 0 .. n-1: the rows absorbed into an element come directly
   before it, elements come before their parents, dense rows come last *)
Record elimination_order (n : nat) (par : nat -> option nat) (nv nx : nat -> nat) : Prop := {
  eo_range : forall i, (i < n)%nat -> (nx i < n)%nat;
  eo_inj : forall i j, (i < n)%nat -> (j < n)%nat -> nx i = nx j -> i = j;
  eo_absorbed : forall e i, (e < n)%nat -> (i < n)%nat -> absorbed par nv e i -> (nx e < nx i + nv e /\ nx i <= nx e)%nat;
  eo_parent : forall e f, (e < n)%nat -> (0 < nv e)%nat -> par e = Some f -> (nx e < nx f)%nat;
  eo_dense : forall i j, (i < n)%nat -> (j < n)%nat -> nv i = 0%nat -> par i = None ->
    ~ (nv j = 0%nat /\ par j = None) -> (nx j < nx i)%nat
}.

(* the largest child of a node comes directly before the node *)
Definition largest_child_last (n : nat) (par : nat -> option nat) (nv : nat -> nat) (size : nat -> Z) (o : nat -> nat) : Prop :=
  forall c r, (c < n)%nat -> (r < n)%nat -> (0 < nv c)%nat -> par c = Some r ->
    exists b, (b < n)%nat /\ (0 < nv b)%nat /\ par b = Some r /\ size c <= size b /\ S (o b) = o r.
