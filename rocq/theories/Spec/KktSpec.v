(* The KKT matrix, column by column, as a list of (row, value) pairs per column:

       [ d I    A'      G~'  ]     n rows
       [       -d I     0    ]     p rows
       [                -V   ]     m + 2 * (number of second-order cones) rows

   (upper triangle only).  Every second-order cone of dimension q occupies q + 2
   rows: its own q and two more, for the sparse form of the squared scaling
   matrix.  G~ is G with zero rows inserted for the extra ones. *)
From Coq Require Import List Arith ZArith.
From Verif Require Import Base Num.
From Verif.Model Require Import Spla Types.
Import ListNotations.
Open Scope nat_scope.

(* a column: its entries in storage order *)
Notation col F := (list (nat * F)).

Section KktSpec.
Context {F : Type}.
Variable (zero : F).

(* column j of a stored matrix *)
Definition colent (M : spmat F) (j : nat) : col F :=
  map (fun q => (gd 0 (sp_ir M) q, gd zero (sp_pr M) q))
      (seq (gd 0 (sp_jc M) j) (gd 0 (sp_jc M) (j + 1) - gd 0 (sp_jc M) j)).

(* values of the block of one second-order cone: diagonal of D; column v and its
   diagonal; column u and its diagonal *)
Record socv := mkSocv { sv_D : nat -> F; sv_v : nat -> F; sv_vd : F; sv_u : nat -> F; sv_ud : F }.
(* entry (row, column) of the upper triangle of an exponential cone's block *)
Definition expv : Type := nat -> nat -> F.

Variable Gc : nat -> list (nat * F).

Definition lp_cols (base l : nat) (v : nat -> F) : list (col F) :=
  map (fun j => Gc j ++ [(base + j, v j)]) (seq 0 l).

Definition soc_block (base cs q : nat) (v : socv) : list (col F) :=
  map (fun j => Gc (cs + j) ++ [(base + j, sv_D v j)]) (seq 0 q)
  ++ [ map (fun r => (base + r, sv_v v (r - 1))) (seq 1 (q - 1)) ++ [(base + q, sv_vd v)];
       map (fun r => (base + r, sv_u v r)) (seq 0 q) ++ [(base + q + 1, sv_ud v)] ].

Fixpoint soc_cols (base cs : nat) (l : list (nat * socv)) : list (col F) :=
  match l with
  | [] => []
  | (q, v) :: t => soc_block base cs q v ++ soc_cols (base + q + 2) (cs + q) t
  end.

Definition exp_block (base cs : nat) (v : expv) : list (col F) :=
  map (fun j => Gc (cs + j) ++ map (fun r => (base + r, v r j)) (seq 0 j) ++ [(base + j, v j j)]) (seq 0 3).

Fixpoint exp_cols (base cs : nat) (l : list expv) : list (col F) :=
  match l with
  | [] => []
  | v :: t => exp_block base cs v ++ exp_cols (base + 3) (cs + 3) t
  end.

(* the whole matrix; d is the static regularisation of the x part and e of the y part *)
Definition kkt_cols (n p : nat) (Ac : nat -> list (nat * F)) (d e : F) (l : nat) (lpv : nat -> F)
    (soc : list (nat * socv)) (ex : list expv) : list (col F) :=
  map (fun j => [(j, d)]) (seq 0 n)
  ++ map (fun j => Ac j ++ [(n + j, e)]) (seq 0 p)
  ++ lp_cols (n + p) l lpv
  ++ soc_cols (n + p + l) l soc
  ++ exp_cols (n + p + l + list_sum (map fst soc) + 2 * length soc) (l + list_sum (map fst soc)) ex.

End KktSpec.
Arguments socv F : clear implicits.
Arguments expv F : clear implicits.

(* number of entries before column c *)
Definition start {F} (cols : list (col F)) (c : nat) : nat := length (concat (firstn c cols)).

(* K stores exactly these columns *)
Record stores {F} (K : spmat F) (cols : list (col F)) : Prop := {
  st_jc : forall c, c <= length cols -> get (sp_jc K) c = Some (start cols c);
  st_ent : forall t e, nth_error (concat cols) t = Some e ->
     get (sp_ir K) t = Some (fst e) /\ get (sp_pr K) t = Some (snd e);
  st_n : sp_n K = length cols;
  st_m : sp_m K = length cols;
  st_nnz : sp_nnz K = length (concat cols)
}.

(* Row j of the conic part sits at this position among the m + 2 nsoc expanded
   rows: after each second-order cone two rows are skipped. *)
Fixpoint zsoc (q : list nat) (j : nat) : nat :=
  match q with
  | [] => j
  | d :: t => if Nat.ltb j d then j else d + 2 + zsoc t (j - d)
  end.
Definition zidx (l : nat) (q : list nat) (j : nat) : nat :=
  if Nat.ltb j l then j else l + zsoc q (j - l).

(* The recorded positions: which entry of K is the diagonal entry of each column
   (second-order cone: so_Didx) or the first one after the column of G
   (exponential cone: ex_colstart).  len c is the number of entries column c of
   G' has. *)
Section Index.
Context {F : Type}.
Variables (cols : list (col F)) (len : nat -> nat).

Fixpoint didx_ok (base cs : nat) (l : list (socone F)) : Prop :=
  match l with
  | [] => True
  | c :: t =>
      length (so_Didx c) = so_p c /\ (forall j, j < so_p c -> get (so_Didx c) j = Some (start cols (base + j) + len (cs + j))) /\
      didx_ok (base + so_p c + 2) (cs + so_p c) t
  end.

Fixpoint colstart_ok (base cs : nat) (l : list (expcone F)) : Prop :=
  match l with
  | [] => True
  | e :: t =>
      length (ex_colstart e) = 3 /\ (forall j, j < 3 -> get (ex_colstart e) j = Some (start cols (base + j) + len (cs + j))) /\
      colstart_ok (base + 3) (cs + 3) t
  end.

Definition lpidx_ok (base : nat) (lp : lpcone F) : Prop :=
  length (lp_kkt_idx lp) = lp_p lp /\
  forall j, j < lp_p lp -> get (lp_kkt_idx lp) j = Some (start cols (base + j) + len j).

End Index.

(* Sign of the i-th pivot: +1 for the x part and for the second extra row of
   every second-order cone, -1 otherwise. *)
Fixpoint usoc (q : list nat) (j : nat) : bool :=
  match q with
  | [] => false
  | d :: t => if Nat.ltb j (d + 2) then Nat.eqb j (d + 1) else usoc t (j - (d + 2))
  end.
Definition ksign (n p l : nat) (q : list nat) (i : nat) : Z :=
  if Nat.ltb i n then 1%Z
  else if Nat.ltb i (n + p + l) then (-1)%Z
  else if usoc q (i - (n + p + l)) then 1%Z else (-1)%Z.
