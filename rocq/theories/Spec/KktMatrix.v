(* The KKT matrix as a real matrix (its upper triangle, row <= column). *)
From Coq Require Import List Arith Bool Reals.
From Verif Require Import Base Num.
From Verif.Spec Require Import KktSpec.
Import ListNotations.
Open Scope nat_scope.

(* which row of G an expanded conic row is, if any *)
Fixpoint unzsoc (q : list nat) (t : nat) : option nat :=
  match q with
  | [] => Some t
  | d :: tl => if Nat.ltb t d then Some t
               else if Nat.ltb t (d + 2) then None
               else option_map (Nat.add d) (unzsoc tl (t - (d + 2)))
  end.
Definition unz (l : nat) (q : list nat) (t : nat) : option nat :=
  if Nat.ltb t l then Some t else option_map (Nat.add l) (unzsoc q (t - l)).

(* block of a second-order cone of dimension q:
     [ D   v   u  ]        v has a zero in its first row
     [     vd  0  ]
     [         ud ]                                              *)
Definition blockmat (q : nat) (v : socv R) (r c : nat) : R :=
  if Nat.ltb c q then (if Nat.eqb r c then sv_D v c else 0)
  else if Nat.eqb c q then (if Nat.eqb r q then sv_vd v else if Nat.eqb r 0 then 0 else sv_v v (r - 1))
  else (if Nat.eqb r (q + 1) then sv_ud v else if Nat.ltb r q then sv_u v r else 0).

Fixpoint socmat (l : list (nat * socv R)) (r c : nat) : R :=
  match l with
  | [] => 0
  | (q, v) :: t =>
      if Nat.ltb c (q + 2) then blockmat q v r c
      else if Nat.ltb r (q + 2) then 0 else socmat t (r - (q + 2)) (c - (q + 2))
  end.

Fixpoint expmat (l : list (expv R)) (r c : nat) : R :=
  match l with
  | [] => 0
  | v :: t => if Nat.ltb c 3 then v r c else if Nat.ltb r 3 then 0 else expmat t (r - 3) (c - 3)
  end.

(* block diagonal conic part *)
Definition vmat (l : nat) (lpv : nat -> R) (soc : list (nat * socv R)) (ex : list (expv R)) (r c : nat) : R :=
  let e0 := l + (list_sum (map fst soc) + 2 * length soc) in
  if Nat.ltb c l then (if Nat.eqb r c then lpv c else 0)
  else if Nat.ltb c e0 then (if Nat.ltb r l then 0 else socmat soc (r - l) (c - l))
  else (if Nat.ltb r e0 then 0 else expmat ex (r - e0) (c - e0)).

(* the whole matrix *)
Definition kkt_entry (n p : nat) (A G : nat -> nat -> R) (d e : R) (l : nat) (q : list nat)
    (V : nat -> nat -> R) (r c : nat) : R :=
  if Nat.ltb c n then (if Nat.eqb r c then d else 0)
  else if Nat.ltb c (n + p) then
    (if Nat.ltb r n then A (c - n) r else if Nat.eqb r c then e else 0)
  else
    (if Nat.ltb r n then match unz l q (c - (n + p)) with Some j => G j r | None => 0 end
     else if Nat.ltb r (n + p) then 0 else V (r - (n + p)) (c - (n + p))).

(* The conic part for the identity scaling: -1 on the diagonal, except +1 on the
   second extra row of every second-order cone. *)
Definition unitV (l : nat) (q : list nat) (r c : nat) : R :=
  if Nat.eqb r c then (if Nat.leb l r && usoc q (r - l) then 1 else -1) else 0.

(* Static regularisation of a row of the expanded conic part: that of an
   ordinary row has sign +1; the first extra row of a second-order cone has none
   and the second one has it with the opposite sign. *)
Fixpoint rsoc (q : list nat) (t : nat) : R :=
  match q with
  | [] => 1
  | d :: tl => if Nat.ltb t d then 1 else if Nat.eqb t d then 0 else if Nat.eqb t (d + 1) then -1
               else rsoc tl (t - (d + 2))
  end.
Definition vreg (l : nat) (q : list nat) (t : nat) : R := if Nat.ltb t l then 1 else rsoc q (t - l).
