(* What a node of the search tree allows, read off the node tables: entry j of a
   node's boolean part is 1 (fixed to one), 0 (fixed to zero) or -1 (free); entries
   2k and 2k+1 of its integer part are minus the lower bound and the upper bound. *)
From Coq Require Import Reals ZArith List.
From Verif Require Import Base NumE.
Open Scope R_scope.

Definition bool_ok (b : Z) (u : R) : Prop :=
  if (b =? 1)%Z then u = 1 else if (b =? 0)%Z then u = 0 else if (b =? -1)%Z then 0 <= u <= 1 else False.

(* u j is the value of the j-th integer variable, booleans first *)
Definition within (nb ni : nat) (bids : arr Z) (iids : arr ext) (idx : nat) (u : nat -> R) : Prop :=
  (forall j, (j < nb)%nat -> exists b, get bids (nb * idx + j) = Some b /\ bool_ok b (u j)) /\
  (forall k, (k < ni)%nat -> exists a b,
     get iids (ni * idx * 2 + 2 * k) = Some (Fin a) /\ get iids (ni * idx * 2 + (2 * k + 1)) = Some (Fin b) /\
     - a <= u (nb + k)%nat <= b).

(* an assignment of integers *)
Definition integer_valued (nv : nat) (u : nat -> R) : Prop := forall j, (j < nv)%nat -> exists z : Z, u j = IZR z.
