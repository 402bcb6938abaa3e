(* Model of src/spla.c: sparse matrix-vector products and vector helpers.
   Pointer arguments that the code writes through are returned; arguments that
   must not alias in C (x and y) are distinct values here. *)
From Coq Require Import List Arith Bool ZArith QArith.
From Verif Require Import Base Num.
Import ListNotations.
Open Scope nat_scope.

(* include/spla.h:37-44  struct spmat, column-compressed storage *)
Record spmat (T : Type) := mkSp {
  sp_jc : arr nat;
  sp_ir : arr nat;
  sp_pr : arr T;
  sp_n : nat;
  sp_m : nat;
  sp_nnz : nat
}.
Arguments mkSp {T}. Arguments sp_jc {T}. Arguments sp_ir {T}. Arguments sp_pr {T}.
Arguments sp_n {T}. Arguments sp_m {T}. Arguments sp_nnz {T}.

Section Spla.
Context `{O : Ops}.
Local Open Scope fl_scope.

(* the loop  for( k=A->jc[j]; k < A->jc[j+1]; k++ )  shared by all routines;
   A->jc is not modified inside, so the bound is read once *)
Definition col_loop {T S : Type} (A : spmat T) (j : nat) (body : nat -> S -> option S) (s : S) : option S :=
  lo <- get (sp_jc A) j ;;
  hi <- get (sp_jc A) (j + 1) ;;
  for_ lo hi body s.

(* src/spla.c:41-65 sparseMV *)
Definition sparseMV (A : spmat F) (x y : arr F) (a newVector : Z) : option (arr F) :=
  y <- (if (newVector >? 0)%Z                                   (* line 45 *)
        then for_ 0 (sp_m A) (fun i y => set y i f0) y
        else Some y) ;;
  if Nat.eqb (sp_nnz A) 0 then Some y else                       (* line 48 *)
  if (a >? 0)%Z then                                             (* lines 50-56 *)
    for_ 0 (sp_n A) (fun j y =>
      col_loop A j (fun i y =>
        r <- get (sp_ir A) i ;;
        v <- get (sp_pr A) i ;;
        xj <- get x j ;;
        yr <- get y r ;;
        set y r (yr + v * xj)) y) y
  else                                                           (* lines 57-64 *)
    for_ 0 (sp_n A) (fun j y =>
      col_loop A j (fun i y =>
        r <- get (sp_ir A) i ;;
        v <- get (sp_pr A) i ;;
        xj <- get x j ;;
        yr <- get y r ;;
        set y r (yr - v * xj)) y) y.

(* src/spla.c:81-106 sparseMtVm *)
Definition sparseMtVm (A : spmat F) (x y : arr F) (newVector : Z) (skipDiagonal : bool) : option (arr F) :=
  y <- (if (newVector >? 0)%Z                                   (* line 85 *)
        then for_ 0 (sp_n A) (fun j y => set y j f0) y
        else Some y) ;;
  if Nat.eqb (sp_nnz A) 0 then Some y else                       (* line 88 *)
  if skipDiagonal then                                           (* lines 90-97 *)
    for_ 0 (sp_n A) (fun j y =>
      col_loop A j (fun k y =>
        i <- get (sp_ir A) k ;;
        yj <- get y j ;;
        t <- (if Nat.eqb i j then Some f0
              else (v <- get (sp_pr A) k ;; xi <- get x i ;; Some (v * xi))) ;;
        set y j (yj - t)) y) y
  else                                                           (* lines 98-105 *)
    for_ 0 (sp_n A) (fun j y =>
      col_loop A j (fun k y =>
        v <- get (sp_pr A) k ;;
        i <- get (sp_ir A) k ;;
        xi <- get x i ;;
        yj <- get y j ;;
        set y j (yj - v * xi)) y) y.

(* src/spla.c:112-116 vadd *)
Definition vadd (n : nat) (x y : arr F) : option (arr F) :=
  for_ 0 n (fun i y => yi <- get y i ;; xi <- get x i ;; set y i (yi + xi)) y.

(* src/spla.c:122-126 vsubscale *)
Definition vsubscale (n : nat) (a : F) (x y : arr F) : option (arr F) :=
  for_ 0 n (fun i y => yi <- get y i ;; xi <- get x i ;; set y i (yi - a * xi)) y.

(* src/spla.c:131-137 norm2 *)
Definition norm2 (v : arr F) (n : nat) : option F :=
  sq <- for_ 0 n (fun i s => vi <- get v i ;; Some (s + vi * vi)) f0 ;;
  Some (fsqrt sq).

(* src/spla.c:143-154 norminf *)
Definition norminf (v : arr F) (n : nat) : option F :=
  for_ 0 n (fun i norm =>
    vi <- get v i ;;
    let norm := if norm <? vi then vi else norm in
    let mv := - vi in
    Some (if norm <? mv then mv else norm)) f0.

(* src/spla.c:159-164 eddot *)
Definition eddot (n : nat) (x y : arr F) : option F :=
  for_ 0 n (fun i z => xi <- get x i ;; yi <- get y i ;; Some (z + xi * yi)) f0.

End Spla.
