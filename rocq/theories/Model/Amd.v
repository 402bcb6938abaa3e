(* The fill-reducing ordering: external/amd.  Int is idxint (external/amd/
   include/amd_internal.h with DLONG), modelled by Z without overflow; NULL
   arguments and failing allocations are not modelled, nor are the Info and
   Control arrays and the debugging code (NDEBUG is defined).  A loop that does
   not end is [None], like undefined behaviour. *)
From Coq Require Import List Arith ZArith Bool.
From Verif Require Import Base.
Import ListNotations.
Open Scope Z_scope.

(* external/amd/include/amd.h:369-372 *)
Definition AMD_OK : Z := 0.
Definition AMD_INVALID : Z := -2.
Definition AMD_OK_BUT_JUMBLED : Z := 1.

(* external/amd/include/amd_internal.h:119-120 *)
Definition EMPTY : Z := -1.
Definition FLIP (i : Z) : Z := - i - 2.

(* ------------------------------------------------------ amd_valid.c:36-92 *)

(* lines 72-90: the entries p .. p+k-1 of one column; the inner None is
   return (AMD_INVALID) *)
Fixpoint valid_entries (n_row : Z) (Ai : arr Z) (k : nat) (p ilast result : Z) : option (option Z) :=
  match k with
  | O => Some (Some result)
  | S k =>
      i <- getz Ai p ;;
      if (i <? 0) || (n_row <=? i) then Some None
      else valid_entries n_row Ai k (p + 1) i (if i <=? ilast then AMD_OK_BUT_JUMBLED else result)
  end.

(* lines 60-91: the columns j .. j+k-1 *)
Fixpoint valid_columns (n_row : Z) (Ap Ai : arr Z) (k j : nat) (result : Z) : option Z :=
  match k with
  | O => Some result
  | S k =>
      p1 <- get Ap j ;;
      p2 <- get Ap (j + 1) ;;
      if p1 >? p2 then Some AMD_INVALID
      else r <- valid_entries n_row Ai (Z.to_nat (p2 - p1)) p1 EMPTY result ;;
           match r with
           | None => Some AMD_INVALID
           | Some result => valid_columns n_row Ap Ai k (S j) result
           end
  end.

Definition AMD_valid (n_row n_col : Z) (Ap Ai : arr Z) : option Z :=
  if (n_row <? 0) || (n_col <? 0) then Some AMD_INVALID else
  nz <- getz Ap n_col ;;
  a0 <- get Ap 0 ;;
  if negb (a0 =? 0) || (nz <? 0) then Some AMD_INVALID
  else valid_columns n_row Ap Ai (Z.to_nat n_col) 0 AMD_OK.

(* ------------------------------------------------- amd_preprocess.c:29-119 *)

(* lines 59-76: count the entries of each row, duplicates once *)
Definition pre_count (n : nat) (Ap Ai : arr Z) (st : arr Z * arr Z) : option (arr Z * arr Z) :=
  for_ 0 n (fun j st =>
    p2 <- get Ap (j + 1) ;;
    p1 <- get Ap j ;;
    for_loop (Z.to_nat p1) (Z.to_nat (p2 - p1)) (fun p '(W, Flag) =>
      i <- get Ai p ;;
      f <- getz Flag i ;;
      if negb (f =? Z.of_nat j) then
        w <- getz W i ;; W <- setz W i (w + 1) ;; Flag <- setz Flag i (Z.of_nat j) ;; Some (W, Flag)
      else Some (W, Flag)) st) st.

(* lines 95-111: fill in the rows *)
Definition pre_fill (n : nat) (Ap Ai : arr Z) (st : arr Z * arr Z * arr Z) : option (arr Z * arr Z * arr Z) :=
  for_ 0 n (fun j st =>
    p2 <- get Ap (j + 1) ;;
    p1 <- get Ap j ;;
    for_loop (Z.to_nat p1) (Z.to_nat (p2 - p1)) (fun p '(Ri, W, Flag) =>
      i <- get Ai p ;;
      f <- getz Flag i ;;
      if negb (f =? Z.of_nat j) then
        w <- getz W i ;; Ri <- setz Ri w (Z.of_nat j) ;; W <- setz W i (w + 1) ;;
        Flag <- setz Flag i (Z.of_nat j) ;; Some (Ri, W, Flag)
      else Some (Ri, W, Flag)) st) st.

(* returns Rp and Ri; the work arrays W and Flag are dropped *)
Definition AMD_preprocess (n : nat) (Ap Ai Rp Ri W Flag : arr Z) : option (arr Z * arr Z) :=
  '(W, Flag) <- for_ 0 n (fun i '(W, Flag) => W <- set W i 0 ;; Flag <- set Flag i EMPTY ;; Some (W, Flag)) (W, Flag) ;;
  '(W, Flag) <- pre_count n Ap Ai (W, Flag) ;;
  Rp <- set Rp 0 0 ;;
  Rp <- for_ 0 n (fun i Rp => r <- get Rp i ;; w <- get W i ;; set Rp (i + 1) (r + w)) Rp ;;
  '(W, Flag) <- for_ 0 n (fun i '(W, Flag) => r <- get Rp i ;; W <- set W i r ;; Flag <- set Flag i EMPTY ;; Some (W, Flag)) (W, Flag) ;;
  '(Ri, W, Flag) <- pre_fill n Ap Ai (Ri, W, Flag) ;;
  Some (Rp, Ri).

(* ------------------------------------------------- amd_post_tree.c:12-120 *)

(* lines 73-79: for (f = Child [i] ; f != EMPTY ; f = Sibling [f]) head++ *)
Definition count_children (fuel : nat) (Sibling : arr Z) (f head : Z) : option Z :=
  '(_, head) <- while_ fuel (fun '(f, _) => Some (negb (f =? EMPTY)))
                  (fun '(f, head) => f' <- getz Sibling f ;; Some (f', head + 1)) (f, head) ;;
  Some head.

(* lines 80-88: the same children are written downwards from Stack [h] *)
Definition push_children (fuel : nat) (Sibling : arr Z) (f h : Z) (Stack : arr Z) : option (arr Z) :=
  '(_, _, Stack) <- while_ fuel (fun '(f, _, _) => Some (negb (f =? EMPTY)))
                  (fun '(f, h, Stack) => Stack <- setz Stack h f ;; f' <- getz Sibling f ;; Some (f', h - 1, Stack))
                  (f, h, Stack) ;;
  Some Stack.

(* lines 53-119: the body of while (head >= 0); the state is head, k, Child,
   Order, Stack *)
Definition post_step (fuel : nat) (Sibling : arr Z) (st : Z * Z * arr Z * arr Z * arr Z)
  : option (Z * Z * arr Z * arr Z * arr Z) :=
  let '(head, k, Child, Order, Stack) := st in
  i <- getz Stack head ;;
  c <- getz Child i ;;
  if negb (c =? EMPTY) then
    head' <- count_children fuel Sibling c head ;;
    Stack <- push_children fuel Sibling c head' Stack ;;
    Child <- setz Child i EMPTY ;;
    Some (head', k, Child, Order, Stack)
  else
    Order <- setz Order i k ;;
    Some (head - 1, k + 1, Child, Order, Stack).

(* fuel bounds the loops; twice the number of nodes suffices for a tree *)
Definition AMD_post_tree (fuel : nat) (root k : Z) (Child Sibling Order Stack : arr Z)
  : option (Z * arr Z * arr Z * arr Z) :=
  Stack <- set Stack 0 root ;;
  '(_, k, Child, Order, Stack) <- while_ fuel (fun '(head, _, _, _, _) => Some (0 <=? head))
                                    (post_step fuel Sibling) (0, k, Child, Order, Stack) ;;
  Some (k, Child, Order, Stack).

(* ------------------------------------------------ amd_postorder.c:12-206 *)

(* lines 36-40 *)
Definition po_init (nn : nat) (cs : arr Z * arr Z) : option (arr Z * arr Z) :=
  for_ 0 nn (fun j '(Child, Sibling) =>
    Child <- set Child j EMPTY ;; Sibling <- set Sibling j EMPTY ;; Some (Child, Sibling)) cs.

(* lines 46-60 *)
Definition po_children (nn : nat) (Parent Nv : arr Z) (cs : arr Z * arr Z) : option (arr Z * arr Z) :=
  for_down nn (fun j '(Child, Sibling) =>
    nv <- get Nv j ;;
    if nv >? 0 then
      parent <- get Parent j ;;
      if negb (parent =? EMPTY) then
        c <- getz Child parent ;; Sibling <- set Sibling j c ;; Child <- setz Child parent (Z.of_nat j) ;;
        Some (Child, Sibling)
      else Some (Child, Sibling)
    else Some (Child, Sibling)) cs.

(* lines 120-136: find the biggest child; the state is f, fprev, maxfrsize,
   bigfprev, bigf *)
Definition po_biggest (fuel : nat) (Sibling Fsize : arr Z) (f : Z) : option (Z * Z * Z) :=
  '(_, fprev, _, bigfprev, bigf) <- while_ fuel (fun '(f, _, _, _, _) => Some (negb (f =? EMPTY)))
      (fun '(f, fprev, maxfrsize, bigfprev, bigf) =>
         frsize <- getz Fsize f ;;
         f' <- getz Sibling f ;;
         if frsize >=? maxfrsize then Some (f', f, frsize, fprev, f)
         else Some (f', f, maxfrsize, bigfprev, bigf))
      (f, EMPTY, EMPTY, EMPTY, EMPTY) ;;
  Some (fprev, bigfprev, bigf).

(* lines 102-169: move the biggest child of node i to the end of its list *)
Definition po_move (fuel : nat) (Fsize : arr Z) (i : nat) (cs : arr Z * arr Z) : option (arr Z * arr Z) :=
  let '(Child, Sibling) := cs in
  c <- get Child i ;;
  if negb (c =? EMPTY) then
    '(fprev, bigfprev, bigf) <- po_biggest fuel Sibling Fsize c ;;
    fnext <- getz Sibling bigf ;;
    if negb (fnext =? EMPTY) then
      '(Child, Sibling) <- (if bigfprev =? EMPTY then Child <- set Child i fnext ;; Some (Child, Sibling)
                            else Sibling <- setz Sibling bigfprev fnext ;; Some (Child, Sibling)) ;;
      Sibling <- setz Sibling bigf EMPTY ;;
      Sibling <- setz Sibling fprev bigf ;;
      Some (Child, Sibling)
    else Some (Child, Sibling)
  else Some (Child, Sibling).

(* lines 98-170 *)
Definition po_last (nn : nat) (Nv Fsize : arr Z) (cs : arr Z * arr Z) : option (arr Z * arr Z) :=
  for_ 0 nn (fun i cs =>
    nv <- get Nv i ;;
    if nv >? 0 then po_move (nn + 1) Fsize i cs else Some cs) cs.

(* lines 176-205; returns Order *)
Definition po_order (nn : nat) (Parent Nv Child Sibling Order Stack : arr Z) : option (arr Z) :=
  Order <- for_ 0 nn (fun i Order => set Order i EMPTY) Order ;;
  '(_, _, Order, _) <- for_ 0 nn (fun i '(k, Child, Order, Stack) =>
      pa <- get Parent i ;;
      if pa =? EMPTY then
        nv <- get Nv i ;;
        if nv >? 0 then AMD_post_tree (2 * nn + 1) (Z.of_nat i) k Child Sibling Order Stack
        else Some (k, Child, Order, Stack)
      else Some (k, Child, Order, Stack)) (0, Child, Order, Stack) ;;
  Some Order.

Definition AMD_postorder (nn : nat) (Parent Nv Fsize Order Child Sibling Stack : arr Z) : option (arr Z) :=
  cs <- po_init nn (Child, Sibling) ;;
  cs <- po_children nn Parent Nv cs ;;
  '(Child, Sibling) <- po_last nn Nv Fsize cs ;;
  po_order nn Parent Nv Child Sibling Order Stack.

(* ------------------------------------------------- amd_2.c:1603-1842, POST-ORDERING *)

(* lines 1630-1641 *)
Definition flip_all (n : nat) (a : arr Z) : option (arr Z) :=
  for_ 0 n (fun i a => v <- get a i ;; set a i (FLIP v)) a.

(* lines 1718-1724: while (Nv [j] == 0) j = Pe [j] *)
Definition find_element (fuel : nat) (Pe Nv : arr Z) (j : Z) : option Z :=
  while_ fuel (fun j => v <- getz Nv j ;; Some (v =? 0)) (fun j => getz Pe j) j.

(* lines 1737-1745: point every variable of the path at e *)
Definition compress_path (fuel : nat) (Nv : arr Z) (j e : Z) (Pe : arr Z) : option (arr Z) :=
  '(_, Pe) <- while_ fuel (fun '(j, _) => v <- getz Nv j ;; Some (v =? 0))
                (fun '(j, Pe) => jnext <- getz Pe j ;; Pe <- setz Pe j e ;; Some (jnext, Pe)) (j, Pe) ;;
  Some Pe.

(* lines 1690-1747 *)
Definition compress_paths (n : nat) (Nv Pe : arr Z) : option (arr Z) :=
  for_ 0 n (fun i Pe =>
    v <- get Nv i ;;
    if v =? 0 then
      j <- get Pe i ;;
      if j =? EMPTY then Some Pe
      else e <- find_element (n + 1) Pe Nv j ;; compress_path (n + 1) Nv (Z.of_nat i) e Pe
    else Some Pe) Pe.

(* lines 1765-1783: Head becomes the inverse of the element order W *)
Definition invert_order (n : nat) (W Head : arr Z) : option (arr Z) :=
  for_ 0 n (fun e Head =>
    k <- get W e ;;
    if negb (k =? EMPTY) then setz Head k (Z.of_nat e) else Some Head) Head.

(* lines 1787-1796: the first position of every element, in order; the loop
   stops at the first EMPTY *)
Fixpoint place_elements (k c : nat) (Head Nv Next : arr Z) (nel : Z) : option (arr Z * Z) :=
  match c with
  | O => Some (Next, nel)
  | S c =>
      e <- get Head k ;;
      if e =? EMPTY then Some (Next, nel)
      else Next <- setz Next e nel ;; v <- getz Nv e ;; place_elements (S k) c Head Nv Next (nel + v)
  end.

(* lines 1800-1825 *)
Definition place_variables (n : nat) (Nv Pe : arr Z) (st : arr Z * Z) : option (arr Z * Z) :=
  for_ 0 n (fun i '(Next, nel) =>
    v <- get Nv i ;;
    if v =? 0 then
      e <- get Pe i ;;
      if negb (e =? EMPTY) then
        x <- getz Next e ;; Next <- set Next i x ;; Next <- setz Next e (x + 1) ;; Some (Next, nel)
      else Next <- set Next i nel ;; Some (Next, nel + 1)
    else Some (Next, nel)) st.

(* the whole section: from the assembly forest Pe, Nv, Elen (as pivot selection
   leaves them) to the inverse permutation Next and the permutation Last; the
   remaining arrays are workspace of size n *)
Definition amd2_finish (n : nat) (Pe Nv Elen W Head Next Last : arr Z) : option (arr Z * arr Z) :=
  Pe <- flip_all n Pe ;;
  Elen <- flip_all n Elen ;;
  Pe <- compress_paths n Nv Pe ;;
  W <- AMD_postorder n Pe Nv Elen W Head Next Last ;;
  '(Head, Next) <- for_ 0 n (fun k '(Head, Next) => Head <- set Head k EMPTY ;; Next <- set Next k EMPTY ;; Some (Head, Next)) (Head, Next) ;;
  Head <- invert_order n W Head ;;
  '(Next, nel) <- place_elements 0 n Head Nv Next 0 ;;
  '(Next, nel) <- place_variables n Nv Pe (Next, nel) ;;
  Last <- for_ 0 n (fun i Last => k <- get Next i ;; setz Last k (Z.of_nat i)) Last ;;
  Some (Next, Last).

(* ---------------------------------------------------- amd_order.c:21-190 *)

(* AMD_aat, AMD_1 up to its call of AMD_2, and AMD_2 up to line 1602 (pivot
   selection on the quotient graph) are a parameter: from the columns Cp, Ci
   they produce Pe, Nv and Elen. *)
Definition elimination := nat -> arr Z -> arr Z -> option (arr Z * arr Z * arr Z).

(* the status and, unless it is AMD_INVALID, the permutation P.  The test for
   size_t overflow is left out. *)
Definition AMD_order (elim : elimination) (n : Z) (Ap Ai P : arr Z) : option (Z * arr Z) :=
  if n <? 0 then Some (AMD_INVALID, P) else
  if n =? 0 then Some (AMD_OK, P) else
  nz <- getz Ap n ;;
  if nz <? 0 then Some (AMD_INVALID, P) else
  status <- AMD_valid n n Ap Ai ;;
  if status =? AMD_INVALID then Some (AMD_INVALID, P) else
  let nn := Z.to_nat n in
  '(Cp, Ci) <- (if status =? AMD_OK_BUT_JUMBLED
                then AMD_preprocess nn Ap Ai (alloc (nn + 1)) (alloc (Z.to_nat (Z.max nz 1))) (alloc nn) (alloc nn)
                else Some (Ap, Ai)) ;;
  '(Pe, Nv, Elen) <- elim nn Cp Ci ;;
  '(_, P) <- amd2_finish nn Pe Nv Elen (alloc nn) (alloc nn) (alloc nn) P ;;
  Some (status, P).

(* src/preproc.c:923-942: the call of AMD_order in ECOS_setup, which goes on only
   when the status is AMD_OK; P has been allocated (line 880) but not written *)
Definition amd_of (elim : elimination) (n : nat) (jc ir : arr nat) : option (arr nat) :=
  match AMD_order elim (Z.of_nat n) (map (option_map Z.of_nat) jc) (map (option_map Z.of_nat) ir) (alloc n) with
  | Some (status, P) => if status =? AMD_OK then Some (map (option_map Z.to_nat) P) else None
  | None => None
  end.
