(* Mixed-integer problems: what a point must satisfy, and what the search assumes
   of the solver it calls for relaxations. *)
From Coq Require Import Reals ZArith List.
From Verif Require Import Base Num NumE.
From Verif.Model Require Import Consts Types Ecos.

Open Scope R_scope.

Section MixedInteger.
(* nb boolean and ni integer variables; the j-th of them, booleans first, is
   entry col j of the n variables; c is the cost; feas holds of the points that
   meet the caller's constraints *)
Variables (n nb ni : nat) (col : nat -> nat) (c : nat -> R) (feas : (nat -> R) -> Prop).

Definition cost (x : nat -> R) : R := dotp n c x.

(* a feasible point with integer values (integer variables are limited to
   +-8388608 by the module) *)
Definition admissible (v : nat -> R) : Prop :=
  feas v /\
  (forall j, (j < nb)%nat -> v (col j) = 0 \/ v (col j) = 1) /\
  (forall j, (nb <= j < nb + ni)%nat -> exists z : Z, v (col j) = IZR z /\ (-8388608 <= z <= 8388608)%Z).

Definition in_box (lo hi : nat -> R) (v : nat -> R) : Prop :=
  forall j, (j < nb + ni)%nat -> lo j <= v (col j) <= hi j.

(* the workspace p poses the relaxation with bounds lo and hi: rows 2j and 2j+1 of
   the constraints, undoing the row scaling, say -x <= -lo and x <= hi *)
Definition posed (p : pwork ext) (lo hi : nat -> R) : Prop :=
  forall j, (j < nb + ni)%nat -> exists a b ea eb,
    get (w_h p) (2 * j) = Some (Fin a) /\ get (w_Gequil p) (2 * j) = Some (Fin ea) /\ a * ea = - lo j /\
    get (w_h p) (2 * j + 1) = Some (Fin b) /\ get (w_Gequil p) (2 * j + 1) = Some (Fin eb) /\ b * eb = hi j.

(* the exit codes after which the search uses the solution *)
Definition usable_code (r : Z) : Prop :=
  (r = ECOS_OPTIMAL \/ r = ECOS_OPTIMAL + ECOS_INACC_OFFSET \/ r = ECOS_MAXIT \/ r = ECOS_NUMERICS)%Z.

(* A solver for the relaxations, accurate to eps in the cost and delta in the
   bounds: from any workspace it is called with, either it returns a usable code
   and a point [accepted] by its feasibility test whose cost is at most eps above
   that of any feasible point within the bounds, or there is no such point.
   [good] is an invariant of the workspace between calls. *)
Record relaxation_solver (good : pwork ext -> Prop) (accepted : (nat -> R) -> Prop) (eps delta : R)
  (solver : nat -> ctrlc -> pwork ext -> option (Z * ctrlc * pwork ext)) : Prop := {
  rs_dims : forall p, good p -> w_n p = n /\ (forall i, (i < n)%nat -> get (w_c p) i = Some (Fin (c i))) /\
              (forall i, (i < 2 * (nb + ni))%nat -> exists e, get (w_Gequil p) i = Some (Fin e) /\ e <> 0);
  rs_h : forall p h, good p -> length h = length (w_h p) ->
              (forall i, (2 * (nb + ni) <= i)%nat -> get h i = get (w_h p) i) -> good (set_w_h p h);
  rs_solve : forall k t p lo hi code t' p', good p -> posed p lo hi -> solver k t p = Some (code, t', p') ->
    good p' /\
    (usable_code code -> exists x, (forall i, (i < n)%nat -> get (w_x p') i = Some (Fin (x i))) /\ accepted x /\
       (forall j, (j < nb + ni)%nat -> lo j - delta <= x (col j) <= hi j + delta) /\
       forall v, feas v -> in_box lo hi v -> cost x <= cost v + eps) /\
    (~ usable_code code -> forall v, feas v -> ~ in_box lo hi v)
}.

(* the same bounds give the same values of the integer variables *)
Definition repeatable (good : pwork ext -> Prop)
  (solver : nat -> ctrlc -> pwork ext -> option (Z * ctrlc * pwork ext)) : Prop :=
  forall k1 t1 p1 c1 t1' p1' k2 t2 p2 c2 t2' p2' lo hi,
    good p1 -> posed p1 lo hi -> solver k1 t1 p1 = Some (c1, t1', p1') -> usable_code c1 ->
    good p2 -> posed p2 lo hi -> solver k2 t2 p2 = Some (c2, t2', p2') ->
    usable_code c2 /\ forall j, (j < nb + ni)%nat -> get (w_x p2') (col j) = get (w_x p1') (col j).

End MixedInteger.
