(* Model of src/splamm.c: sparse matrix utilities that allocate memory.
   The routines only move matrix values, so they are polymorphic in the
   element type.  MALLOC is assumed to succeed (the code never checks it). *)
From Coq Require Import List Arith Bool ZArith.
From Verif Require Import Base.
From Verif.Model Require Import Spla.
Import ListNotations.
Open Scope nat_scope.

Section Splamm.
Context {T : Type}.

(* src/splamm.c:38-47 spla_cumsum; returns (p, w) *)
Definition spla_cumsum (p w : arr nat) (m : nat) : option (arr nat * arr nat) :=
  r <- for_ 0 m (fun i s =>
      let '(p, w, cumsum) := s in
      p <- set p i cumsum ;;
      wi <- get w i ;;
      pi <- get p i ;;
      w <- set w i pi ;;
      Some (p, w, cumsum + wi)) (p, w, 0) ;;
  let '(p, w, _) := r in Some (p, w).

(* src/splamm.c:53-57 pinv *)
Definition pinv (n : nat) (p pinv : arr nat) : option (arr nat) :=
  for_ 0 n (fun i pinv => pi <- get p i ;; set pinv pi i) pinv.

(* src/splamm.c:113-124 ecoscreateSparseMatrix (jc not NULL) *)
Definition ecoscreateSparseMatrix (m n nnz : nat) (jc ir : arr nat) (pr : arr T) : option (spmat T) :=
  jc <- set jc n nnz ;;
  Some (mkSp jc ir pr n m nnz).

(* src/splamm.c:100-107 newSparseMatrix *)
Definition newSparseMatrix (m n nnz : nat) : option (spmat T) :=
  jc <- set (alloc (n + 1)) n nnz ;;
  ecoscreateSparseMatrix m n nnz jc (alloc nnz) (alloc nnz).

(* src/splamm.c:65-94 transposeSparseMatrix; returns the new matrix and MtoMt *)
Definition transposeSparseMatrix (M : spmat T) (MtoMt : arr nat) : option (spmat T * arr nat) :=
  A <- newSparseMatrix (sp_n M) (sp_m M) (sp_nnz M) ;;              (* line 70 *)
  if Nat.eqb (sp_nnz M) 0 then Some (A, MtoMt) else                 (* line 71 *)
  w <- for_ 0 (sp_m M) (fun i w => set w i 0) (alloc (sp_m M)) ;;   (* lines 73-76 *)
  w <- for_ 0 (sp_nnz M) (fun k w =>                                (* line 77 *)
         r <- get (sp_ir M) k ;; wr <- get w r ;; set w r (wr + 1)) w ;;
  '(jc, w) <- spla_cumsum (sp_jc A) w (sp_m M) ;;                   (* line 80 *)
  r <- for_ 0 (sp_n M) (fun j s =>                                  (* lines 83-90 *)
         col_loop M j (fun k s =>
           let '(w, ir, pr, mp) := s in
           r <- get (sp_ir M) k ;;
           q <- get w r ;;
           w <- set w r (q + 1) ;;
           ir <- set ir q j ;;
           v <- get (sp_pr M) k ;;
           pr <- set pr q v ;;
           mp <- set mp k q ;;
           Some (w, ir, pr, mp)) s) (w, sp_ir A, sp_pr A, MtoMt) ;;
  let '(w, ir, pr, mp) := r in
  Some (mkSp jc ir pr (sp_n A) (sp_m A) (sp_nnz A), mp).

(* src/splamm.c:152-191 permuteSparseSymmetricMatrix, PK not NULL; returns C and PK *)
Definition permuteSparseSymmetricMatrix (A : spmat T) (pinv : arr nat) (C : spmat T) (PK : arr nat)
  : option (spmat T * arr nat) :=
  w <- for_ 0 (sp_n A) (fun j w => set w j 0) (alloc (sp_n A)) ;;    (* lines 158-161 *)
  w <- for_ 0 (sp_n A) (fun j w =>                                   (* lines 162-170 *)
         j2 <- get pinv j ;;
         col_loop A j (fun k w =>
           i <- get (sp_ir A) k ;;
           if j <? i then Some w else
           i2 <- get pinv i ;;
           let c := if j2 <? i2 then i2 else j2 in
           wc <- get w c ;;
           set w c (wc + 1)) w) w ;;
  '(jc, w) <- spla_cumsum (sp_jc C) w (sp_n A) ;;                    (* line 173 *)
  r <- for_ 0 (sp_n A) (fun j s =>                                   (* lines 176-187 *)
         j2 <- get pinv j ;;
         col_loop A j (fun k s =>
           let '(w, ir, pr, pk) := s in
           i <- get (sp_ir A) k ;;
           if j <? i then Some s else
           i2 <- get pinv i ;;
           let c := if j2 <? i2 then i2 else j2 in
           q <- get w c ;;
           w <- set w c (q + 1) ;;
           ir <- set ir q (if i2 <? j2 then i2 else j2) ;;
           v <- get (sp_pr A) k ;;
           pr <- set pr q v ;;
           pk <- set pk k q ;;
           Some (w, ir, pr, pk)) s) (w, sp_ir C, sp_pr C, PK) ;;
  let '(w, ir, pr, pk) := r in
  Some (mkSp jc ir pr (sp_n C) (sp_m C) (sp_nnz C), pk).

(* src/splamm.c:197-208 copySparseMatrix *)
Definition copySparseMatrix (A : spmat T) : option (spmat T) :=
  B <- newSparseMatrix (sp_m A) (sp_n A) (sp_nnz A) ;;
  jc <- for_ 0 (sp_n A + 1) (fun i a => v <- get (sp_jc A) i ;; set a i v) (sp_jc B) ;;
  ir <- for_ 0 (sp_nnz A) (fun i a => v <- get (sp_ir A) i ;; set a i v) (sp_ir B) ;;
  pr <- for_ 0 (sp_nnz A) (fun i a => v <- get (sp_pr A) i ;; set a i v) (sp_pr B) ;;
  Some (mkSp jc ir pr (sp_n B) (sp_m B) (sp_nnz B)).

End Splamm.
