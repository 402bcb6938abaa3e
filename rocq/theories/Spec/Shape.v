(* When a cone structure of the program describes the cone of a problem. *)
From Coq Require Import List Arith.
From Verif Require Import Base Num.
From Verif.Model Require Import Types Cone.
Open Scope nat_scope.

Section Shape.
Context `{O : Ops}.

(* size of the symmetric part *)
Definition hsize (C : cone F) : nat := (lpp C + list_sum (map so_p (co_soc C)))%nat.
(* size of a slack vector *)
Definition msize (C : cone F) : nat := (hsize C + 3 * nexc C)%nat.

(* the arrays of a cone have the sizes they are allocated with *)
Record shape (C : cone F) : Prop := {
  sh_w : length (lp_w (co_lpc C)) = lpp C;
  sh_v : length (lp_v (co_lpc C)) = lpp C;
  sh_fexv : co_fexv C = hsize C;
  sh_pos : forall c, In c (co_soc C) -> 1 <= so_p c;
  sh_q : forall c, In c (co_soc C) -> length (so_q c) = (so_p c - 1)%nat;
  sh_sk : forall c, In c (co_soc C) -> length (so_skbar c) = so_p c;
  sh_zk : forall c, In c (co_soc C) -> length (so_zkbar c) = so_p c;
  sh_ev : forall e, In e (co_expc C) -> length (ex_v e) = 6;
  sh_eg : forall e, In e (co_expc C) -> length (ex_g e) = 3
}.

(* C describes l linear constraints, second-order cones of dimensions q and e
   exponential cones *)
Record cone_of (C : cone F) (l : nat) (q : list nat) (e : nat) : Prop := {
  co_shape : shape C;
  co_l : lpp C = l;
  co_q : map so_p (co_soc C) = q;
  co_e : nexc C = e
}.

End Shape.
