(* C's conversion of a double to int: truncation towards zero, defined when the
   result fits in 32 bits; None is undefined behaviour (also for NaN and the
   infinities).  Not part of [Ops] because only the mixed-integer module uses it. *)
From Coq Require Import Reals Lra ZArith Bool Lia.
From Coq Require Import Floats.SpecFloat.
From Verif Require Import Num NumE.

Class ToInt (O : Ops) := { ftoi : @F O -> option Z }.

Definition in_int (z : Z) : bool := ((-2147483648 <=? z) && (z <=? 2147483647))%Z.
Definition to_int (z : Z) : option Z := if in_int z then Some z else None.

(* truncation of a real number *)
Definition Rtrunc (x : R) : Z := if Rle_dec 0 x then Int_part x else (- Int_part (- x))%Z.

(* exact reals with infinities *)
#[export] Instance EInt : ToInt EOps :=
  { ftoi := fun a : ext => match a with Fin x => to_int (Rtrunc x) | _ => None end }.

(* IEEE binary64 *)
Definition SFtrunc (m : positive) (e : Z) : Z :=
  if (0 <=? e)%Z then (Zpos m * 2 ^ e)%Z else (Zpos m / 2 ^ (- e))%Z.
#[export] Instance FInt : ToInt FOps :=
  { ftoi := fun a : spec_float => match a with
      | S754_zero _ => Some 0%Z
      | S754_finite s m e => to_int (if s then - SFtrunc m e else SFtrunc m e)%Z
      | _ => None end }.

Open Scope R_scope.

Lemma Int_part_spec x : IZR (Int_part x) <= x < IZR (Int_part x) + 1.
Proof. destruct (base_Int_part x). lra. Qed.

Lemma Int_part_unique x z : IZR z <= x < IZR z + 1 -> Int_part x = z.
Proof.
  intros [A B]. pose proof (Int_part_spec x) as [C D].
  assert (IZR (Int_part x) < IZR (z + 1)) by (rewrite plus_IZR; lra).
  assert (IZR z < IZR (Int_part x + 1)) by (rewrite plus_IZR; lra).
  apply lt_IZR in H, H0. lia.
Qed.

Lemma Rtrunc_pos x : 0 <= x -> IZR (Rtrunc x) <= x < IZR (Rtrunc x) + 1.
Proof. intros H. unfold Rtrunc. destruct (Rle_dec 0 x); [apply Int_part_spec|lra]. Qed.

Lemma Rtrunc_neg x : x < 0 -> IZR (Rtrunc x) - 1 < x <= IZR (Rtrunc x).
Proof.
  intros H. unfold Rtrunc. destruct (Rle_dec 0 x); [lra|]. rewrite opp_IZR.
  pose proof (Int_part_spec (- x)). lra.
Qed.

Lemma to_int_ok z : (-2147483648 <= z <= 2147483647)%Z -> to_int z = Some z.
Proof.
  intros [A B]. unfold to_int, in_int. apply Z.leb_le in A, B. rewrite A, B. reflexivity.
Qed.
Lemma to_int_inv z y : to_int z = Some y -> y = z /\ (-2147483648 <= z <= 2147483647)%Z.
Proof.
  unfold to_int, in_int. destruct (Z.leb_spec (-2147483648) z), (Z.leb_spec z 2147483647); cbn; intros; try discriminate.
  split; [congruence|lia].
Qed.

Lemma IZR_lt_int a b : IZR a < IZR b + 1 -> (a <= b)%Z.
Proof. intros H. rewrite <- plus_IZR in H. apply lt_IZR in H. lia. Qed.

Lemma trunc_range x : - 2147483649 < x < 2147483648 -> (-2147483648 <= Rtrunc x <= 2147483647)%Z.
Proof.
  intros [A B]. destruct (Rle_or_lt 0 x) as [P|N].
  - pose proof (Rtrunc_pos x P). split; apply IZR_lt_int; lra.
  - pose proof (Rtrunc_neg x N). split; apply IZR_lt_int; lra.
Qed.
