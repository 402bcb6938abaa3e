(* The relaxation of a mixed-integer problem, independent of any routine: which rows
   are added for which variables. *)
From Coq Require Import List Arith Bool ZArith QArith.
From Verif Require Import Base Num.
From Verif.Model Require Import Spla.
From Verif.Spec Require Import Matrix.
Import ListNotations.
Open Scope nat_scope.

Section Relaxed.
(* col j is the column of the j-th integer variable: nb booleans, then ni integers *)
Variables (nb ni : nat) (col : nat -> nat).
Definition is_bool (c : nat) : bool := existsb (fun j => col j =? c) (seq 0 nb).
Definition is_int (c : nat) : bool := existsb (fun j => col (nb + j) =? c) (seq 0 ni).
Definition is_intvar (c : nat) : bool := is_bool c || is_int c.

(* how many integer variables have a smaller column *)
Definition rank (c : nat) : nat := length (filter is_intvar (seq 0 c)).

(* the variables are columns of an n-column matrix, each listed once *)
Definition proper_list (n : nat) : Prop :=
  (forall j, j < nb + ni -> col j < n) /\ (forall i j, i < nb + ni -> j < nb + ni -> col i = col j -> i = j).
(* they are listed in ascending order *)
Definition ascending : Prop := forall i j, i < j -> j < nb + ni -> col i < col j.
End Relaxed.

(* the entries of a column of a compressed matrix: row and value, in storage order *)
Definition column {T} (M : spmat T) (c : nat) : list (nat * option T) :=
  map (fun k => (gd 0 (sp_ir M) k, get (sp_pr M) k)) (seq (gd 0 (sp_jc M) c) (gd 0 (sp_jc M) (c + 1) - gd 0 (sp_jc M) c)).

(* G' x + s' = h' is the relaxation of G x + s = h with nb boolean and ni integer
   variables col 0, col 1, ...: below two rows per variable, -x <= . and x <= ., come
   the caller's rows.  The pair of rows of a variable is numbered by its rank.  The
   booleans start with the bounds 0 and 1, the integers with -2^23 and 2^23. *)
Record relaxation `{O : Ops} (nb ni : nat) (col : nat -> nat) (G : spmat F) (h : arr F) (G' : spmat F) (h' : arr F) : Prop := {
  rx_dims : sp_n G' = sp_n G /\ sp_m G' = sp_m G + 2 * (nb + ni) /\ sp_nnz G' = sp_nnz G + 2 * (nb + ni);
  rx_wf : wf_sp G';
  rx_cols : forall c, c < sp_n G -> column G' c =
    (if is_intvar nb ni col c then [(2 * rank nb ni col c, Some (fconst (-1)%Q)); (2 * rank nb ni col c + 1, Some f1)] else []) ++
    map (fun e => (fst e + 2 * (nb + ni), snd e)) (column G c);
  rx_bool : forall j, j < nb ->
    get h' (2 * rank nb ni col (col j)) = Some f0 /\ get h' (2 * rank nb ni col (col j) + 1) = Some f1;
  rx_int : forall j, nb <= j < nb + ni ->
    get h' (2 * rank nb ni col (col j)) = Some (fconst 8388608%Q) /\ get h' (2 * rank nb ni col (col j) + 1) = Some (fconst 8388608%Q);
  rx_h : forall r, r < sp_m G -> get h' (2 * (nb + ni) + r) = get h r
}.

(* the bounds that the entries bid, iid of a node stand for: -x <= lo, x <= hi *)
Definition node_bounds `{O : Ops} (nb ni : nat) (bid : nat -> option Z) (iid : nat -> option F) (lo hi : nat -> F) : Prop :=
  (forall j, j < nb -> (bid j = Some 1%Z /\ lo j = fconst (-1)%Q /\ hi j = f1) \/
     (bid j = Some 0%Z /\ lo j = f0 /\ hi j = f0) \/ (bid j = Some (-1)%Z /\ lo j = f0 /\ hi j = f1)) /\
  (forall j, j < ni -> iid (2 * j) = Some (lo (nb + j)) /\ iid (2 * j + 1) = Some (hi (nb + j))).

(* h2 is h with the bounds of the variables, taken in the order of the list, put in *)
Definition with_bounds {T} (nv : nat) (lo hi : nat -> T) (h h2 : arr T) : Prop :=
  length h2 = length h /\ (forall j, j < nv -> get h2 (2 * j) = Some (lo j) /\ get h2 (2 * j + 1) = Some (hi j)) /\
  (forall i, 2 * nv <= i -> get h2 i = get h i).
