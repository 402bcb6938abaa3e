(* Exact reals extended with NaN: a fourth reading of pfloat.  Division by
   zero, square roots of negative numbers and logarithms outside (0,oo) are
   NaN, NaN is contagious, and every comparison with NaN is false, as in C.
   Infinities are not distinguished from NaN. *)
From Coq Require Import Reals Lra ZArith QArith Qreals Bool List Lia Arith.
From Verif Require Import Base Num.
Import ListNotations.

Definition x1 (f : R -> R) (a : option R) : option R :=
  match a with Some x => Some (f x) | None => None end.
Definition x2 (f : R -> R -> R) (a b : option R) : option R :=
  match a, b with Some x, Some y => Some (f x y) | _, _ => None end.
Definition xcmp (f : R -> R -> bool) (a b : option R) : bool :=
  match a, b with Some x, Some y => f x y | _, _ => false end.

Definition XOps : Ops := {|
  F := option R;
  fconst := fun q => Some (Q2R q);
  fadd := x2 Rplus; fsub := x2 Rminus; fmul := x2 Rmult;
  fdiv := fun a b => match a, b with
          | Some x, Some y => if Req_EM_T y 0 then None else Some (x / y)%R
          | _, _ => None end;
  fneg := x1 Ropp;
  fsqrt := fun a => match a with Some x => if Rlt_dec x 0 then None else Some (sqrt x) | None => None end;
  fabs := x1 Rabs; fexp := x1 exp;
  flog := fun a => match a with Some x => if Rle_dec x 0 then None else Some (ln x) | None => None end;
  flt := xcmp Rltb; fle := xcmp Rleb; feq := xcmp Reqb;
  fisnan := fun a => match a with Some _ => false | None => true end;
  finf := None; fnan := None
|}.

Lemma f0_X : @f0 XOps = Some 0%R.
Proof. unfold f0; simpl. f_equal. unfold Q2R; simpl; lra. Qed.
Lemma f1_X : @f1 XOps = Some 1%R.
Proof. unfold f1; simpl. f_equal. unfold Q2R; simpl; lra. Qed.
Lemma fofn_X n : @fofn XOps n = Some (INR n).
Proof. unfold fofn, fofZ; simpl. f_equal. unfold Q2R; simpl. rewrite INR_IZR_INZ. lra. Qed.

Ltac unX :=
  cbn [F fconst fadd fsub fmul fdiv fneg fsqrt fabs fexp flog flt fle feq fisnan finf fnan XOps x1 x2 xcmp] in *;
  rewrite ?f0_X, ?f1_X, ?fofn_X in *;
  cbn [F fconst fadd fsub fmul fdiv fneg fsqrt fabs fexp flog flt fle feq fisnan finf fnan XOps x1 x2 xcmp] in *.

(* an array of numbers, none of them NaN *)
Definition xlift (a : arr R) : arr (option R) := map (option_map Some) a.

Lemma xlift_length a : length (xlift a) = length a.
Proof. apply map_length. Qed.

Lemma get_xlift a i : get (xlift a) i = option_map Some (get a i).
Proof. unfold get, xlift. rewrite nth_error_map. destruct (nth_error a i); auto. Qed.

Lemma upd_xlift a i v : upd (xlift a) i (Some (Some v)) = xlift (upd a i (Some v)).
Proof. revert i; induction a as [|x a IH]; intros [|i]; simpl; auto. f_equal; auto. Qed.

Lemma set_xlift a i v : set (xlift a) i (Some v) = option_map xlift (set a i v).
Proof.
  unfold set. rewrite xlift_length. destruct (i <? length a)%nat; auto.
  cbn [option_map]. rewrite upd_xlift. reflexivity.
Qed.

(* commuting a loop with a change of representation *)
Lemma for_loop_map {S1 S2 : Type} (g : S2 -> S1) n : forall lo (b1 : nat -> S1 -> option S1) (b2 : nat -> S2 -> option S2) s,
  (forall i s, (lo <= i < lo + n)%nat -> b1 i (g s) = option_map g (b2 i s)) ->
  for_loop lo n b1 (g s) = option_map g (for_loop lo n b2 s).
Proof.
  induction n as [|n IH]; intros lo b1 b2 s H; cbn [for_loop]; auto.
  rewrite (H lo s) by lia. destruct (b2 lo s) as [s'|]; cbn [option_map bind]; auto.
  apply IH. intros; apply H; lia.
Qed.

Lemma for_map {S1 S2 : Type} (g : S2 -> S1) lo hi (b1 : nat -> S1 -> option S1) (b2 : nat -> S2 -> option S2) s :
  (forall i s, (lo <= i < hi)%nat -> b1 i (g s) = option_map g (b2 i s)) ->
  for_ lo hi b1 (g s) = option_map g (for_ lo hi b2 s).
Proof. intros H. unfold for_. apply for_loop_map. intros; apply H; lia. Qed.

Lemma bind_map {A B C D} (g : A -> B) (h : C -> D) (m : option A) (k1 : B -> option D) (k2 : A -> option C) :
  (forall a, k1 (g a) = option_map h (k2 a)) ->
  bind (option_map g m) k1 = option_map h (bind m k2).
Proof. intros H. destruct m; cbn; auto. Qed.
