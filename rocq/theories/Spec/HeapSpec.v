(* What C37 speaks of: a sane heap, arrays the caller owns, and arguments a caller may
   pass.  Uses nothing of the model but the types of the heap, the arguments and the
   sizes. *)
From Coq Require Import List Arith Bool.
From Verif.Model Require Import Heap.
Import ListNotations.

(* every block is live at most once, and new blocks are new *)
Definition wf_heap (h : heap) : Prop := NoDup (hp_live h) /\ forall b, In b (hp_live h) -> b < hp_next h.
(* p points to a live block *)
Definition owned (h : heap) (p : ptr) : Prop := exists b, p = Some b /\ In b (hp_live h).
(* an array of k elements: if there are any, it is a live block *)
Definition array (h : heap) (k : nat) (p : ptr) : Prop := k = 0 \/ owned h p.

(* A or G given as three arrays *)
Definition given (pr jc ir : ptr) : Prop := pr <> None /\ jc <> None /\ ir <> None.
Definition matrix (h : heap) (nnz : nat) (pr jc ir : ptr) : Prop := owned h jc /\ array h nnz ir /\ array h nnz pr.

(* the arguments of a setup: G and h, A and b if there are equalities, and sizes that a
   matrix can have *)
Record arguments (h : heap) (sh : shape) (u : muser) : Prop := mkArguments {
  ar_G : given (mu_Gpr u) (mu_Gjc u) (mu_Gir u) -> matrix h (sh_nnzG sh) (mu_Gpr u) (mu_Gjc u) (mu_Gir u);
  ar_noG : ~ given (mu_Gpr u) (mu_Gjc u) (mu_Gir u) -> sh_nnzG sh = 0 /\ (mu_Gjc u <> None -> owned h (mu_Gjc u)) /\ (mu_Gjc u = None -> sh_m sh = 0);
  ar_h : array h (sh_m sh) (mu_h u);
  ar_A : given (mu_Apr u) (mu_Ajc u) (mu_Air u) -> matrix h (sh_nnzA sh) (mu_Apr u) (mu_Ajc u) (mu_Air u) /\ array h (sh_p sh) (mu_b u);
  ar_sizeG : sh_nnzG sh <> 0 -> sh_n sh <> 0 /\ sh_m sh <> 0;
  ar_sizeA : sh_nnzA sh <> 0 -> sh_n sh <> 0 /\ sh_p sh <> 0 }.

(* the arguments of a mixed-integer setup with nb boolean and ni integer variables: sh is
   the shape of the relaxation, two rows and two entries larger per such variable *)
Record bb_arguments (h : heap) (sh : shape) (u : muser) (nb ni nnz_in : nat) (stgs : ptr) : Prop := mkBbArguments {
  ba_G : owned h (mu_Gjc u) /\ array h nnz_in (mu_Gir u) /\ array h nnz_in (mu_Gpr u);
  ba_nnz : sh_nnzG sh = nnz_in + 2 * nb + 2 * ni;
  ba_m : 2 * (nb + ni) <= sh_m sh;
  ba_h : array h (sh_m sh - 2 * (nb + ni)) (mu_h u);
  ba_A : given (mu_Apr u) (mu_Ajc u) (mu_Air u) -> matrix h (sh_nnzA sh) (mu_Apr u) (mu_Ajc u) (mu_Air u) /\ array h (sh_p sh) (mu_b u);
  ba_stgs : stgs <> None -> owned h stgs;
  ba_sizeG : sh_nnzG sh <> 0 -> sh_n sh <> 0 /\ sh_m sh <> 0;
  ba_sizeA : sh_nnzA sh <> 0 -> sh_n sh <> 0 /\ sh_p sh <> 0 }.

(* the cones and the rows of G agree *)
Definition consistent (sh : shape) : Prop := sh_l sh + list_sum (sh_q sh) + 3 * sh_nexc sh = sh_m sh.

(* blocks made between two moments *)
Definition made (h0 h1 : heap) (b : nat) : Prop := In b (hp_live h1) /\ ~ In b (hp_live h0).
