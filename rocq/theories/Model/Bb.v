(* The mixed-integer module: ecos_bb/ecos_bb.c, ecos_bb/ecos_bb_preproc.c and the
   inline helpers of include/ecos_bb.h.  Printing is left out.

   What the module takes from its environment are parameters:
   - [solver k t p] is the k-th call of ECOS_solve on the workspace p, when the
     process treats SIGINT as t says: exit code, new SIGINT state, new workspace.
     [ecos_solver] below is the instance that runs the modelled ECOS_solve;
   - [rnd k] is the value of the k-th call of rand();
   - [rfuel] bounds the retries of the one unbounded loop (random branching).
   As everywhere in the model, None is undefined behaviour (or, for that loop
   only, running out of [rfuel]). *)
From Coq Require Import List Arith Bool ZArith QArith Lia.
From Verif Require Import Base Num NumI.
From Verif.Model Require Import Consts Spla Types Ecos Preproc BbTypes.
Import ListNotations.

Definition RAND_MAX : Z := 2147483647.          (* glibc stdlib.h *)

(* include/ecos_bb.h:45-52 *)
Definition MI_SOLVED_NON_BRANCHABLE : Z := 3.
Definition MI_SOLVED_BRANCHABLE : Z := 2.
Definition MI_NOT_SOLVED : Z := 1.
Definition MI_FREE : Z := 0.
Definition MI_ONE : Z := 1.
Definition MI_ZERO : Z := 0.
Definition MI_STAR : Z := -1.

(* include/ecos_bb.h:54-66 *)
Definition MI_OPTIMAL_SOLN : Z := ECOS_OPTIMAL.
Definition MI_INFEASIBLE : Z := ECOS_PINF.
Definition MI_UNBOUNDED : Z := ECOS_DINF.
Definition MI_MAXITER_FEASIBLE_SOLN : Z := ECOS_OPTIMAL + ECOS_INACC_OFFSET.
Definition MI_MAXITER_NO_SOLN : Z := ECOS_PINF + ECOS_INACC_OFFSET.
Definition MI_MAXITER_UNBOUNDED : Z := ECOS_DINF + ECOS_INACC_OFFSET.

(* ecos_bb/ecos_bb.c:329-340 is_infeasible *)
Definition is_infeasible (r : Z) : bool :=
  ((r =? ECOS_DINF) || (r =? ECOS_PINF) || (r =? ECOS_DINF + ECOS_INACC_OFFSET)
   || (r =? ECOS_PINF + ECOS_INACC_OFFSET))%Z.

Section Bb.
Context `{O : Ops} {TI : ToInt O}.
Context (solver : nat -> ctrlc -> pwork F -> option (Z * ctrlc * pwork F)).
Context (rnd : nat -> Z) (rfuel : nat).
Local Open Scope fl_scope.
Local Notation W := (bbwork F).

Definition MAX_FLOAT_INT : F := fofZ 8388608.                  (* include/ecos_bb.h:69 *)

(* ------------------------------------------------------ inline helpers *)

(* include/ecos_bb.h:215-218 abs_2 *)
Definition abs_2 (x : F) : F := if x <? f0 then - x else x.

(* include/ecos_bb.h:220-223 pfloat_round *)
Definition pfloat_round (x : F) : option F :=
  z <- (if f0 <=? x then ftoi (x + half) else ftoi (x - half)) ;; Some (fofZ z).

(* include/ecos_bb.h:225-228 pfloat_ceil *)
Definition pfloat_ceil (x tol : F) : option F :=
  z <- (if x <? f0 then ftoi x else ftoi (x + (f1 - tol))) ;; Some (fofZ z).

(* include/ecos_bb.h:230-233 pfloat_floor *)
Definition pfloat_floor (x tol : F) : option F :=
  z <- (if x <? f0 then ftoi (x - (f1 - tol)) else ftoi x) ;; Some (fofZ z).

(* include/ecos_bb.h:235-238 float_eqls *)
Definition float_eqls (a b tol : F) : bool := abs_2 (a - b) <? tol.

(* the cast (char) of a double: defined for -128..127 (char is signed) *)
Definition ftochar (x : F) : option Z :=
  z <- ftoi x ;; if ((-128 <=? z) && (z <=? 127))%Z then Some z else None.

(* the C library's isinf *)
Definition isinf (x : F) : bool := (x ==? finf) || (x ==? - finf).

(* "within the tolerance of its floor or its ceiling": the test of
   ecos_bb/ecos_bb.c:270-271, 567-568, 701-702, 773-774 (the second comparison is
   not evaluated when the first holds) *)
Definition near_int (w : W) (y : F) : option bool :=
  let tol := bs_itol (bb_stgs w) in
  fl <- pfloat_floor y tol ;;
  if float_eqls y fl tol then Some true else
  ce <- pfloat_ceil y tol ;;
  Some (float_eqls y ce tol).

(* the column of the i-th candidate, booleans first:
   ecos_bb/ecos_bb.c:556-564 and the like *)
Definition var_col (w : W) (i : nat) : option nat :=
  if Nat.ltb i (bb_nb w) then get (bb_bidx w) i else get (bb_iidx w) (i - bb_nb w)%nat.

Definition nvars (w : W) : nat := bb_nb w + bb_ni w.

(* ------------------------------------------------------------- branching *)

Definition upd_node (w : W) (i : nat) (f : node F -> node F) : option W :=
  nd <- get (bb_nodes w) i ;;
  ns <- set (bb_nodes w) i (f nd) ;;
  Some (set_bb_nodes w ns).

(* ecos_bb/ecos_bb.c:121-182 branch.  A negative split index addresses the byte
   before the node's own slice, as in the code. *)
Definition branch (cur : nat) (w : W) : option W :=
  let nb := bb_nb w in let ni := bb_ni w in let it := bb_iter w in
  nc <- get (bb_nodes w) cur ;;
  let split := nd_split nc in
  w <- upd_node w it (fun nd =>
         mkNode MI_NOT_SOLVED (nd_L nc) (nd_U nc) (nd_relax nd) (nd_split nd) (nd_val nd)
                split (nd_val nc) (nd_relax nc) true) ;;
  w <- upd_node w cur (fun nd =>
         set_nd_up (set_nd_prelax (set_nd_pval (set_nd_psplit nd split) (nd_val nd)) (nd_relax nd)) false) ;;
  bids <- for_ 0 nb (fun i a => v <- get a (nb * cur + i) ;; set a (nb * it + i) v)%nat (bb_bids w) ;;
  iids <- for_ 0 (ni * 2) (fun i a => v <- get a (ni * cur * 2 + i) ;; set a (ni * it * 2 + i) v)%nat (bb_iids w) ;;
  '(bids, iids) <-
    (if (split <? Z.of_nat nb)%Z then
       bids <- setz bids (Z.of_nat (nb * cur) + split) MI_ZERO ;;
       bids <- setz bids (Z.of_nat (nb * it) + split) MI_ONE ;;
       Some (bids, iids)
     else
       let k := Z.to_nat (split - Z.of_nat nb) in
       fl <- pfloat_floor (nd_val nc) (bs_itol (bb_stgs w)) ;;
       iids <- set iids (ni * cur * 2 + (k * 2 + 1))%nat fl ;;
       ce <- pfloat_ceil (nd_val nc) (bs_itol (bb_stgs w)) ;;
       iids <- set iids (ni * it * 2 + k * 2)%nat (- ce) ;;
       Some (bids, iids)) ;;
  let w := set_bb_iids (set_bb_bids w bids) iids in
  upd_node w cur (fun nd => set_nd_status nd MI_NOT_SOLVED).

(* ecos_bb/ecos_bb.c:187-212 get_next_node *)
Definition get_next_node (w : W) : option (Z * W) :=
  dive <- (match bs_select (bb_stgs w) with
           | DiveLower => nd <- getz (bb_nodes w) (bb_dive w) ;;
                          Some (if (nd_status nd =? MI_SOLVED_BRANCHABLE)%Z then Some (bb_dive w) else None)
           | DiveUpper => nd <- get (bb_nodes w) (bb_iter w) ;;
                          Some (if (nd_status nd =? MI_SOLVED_BRANCHABLE)%Z then Some (Z.of_nat (bb_iter w)) else None)
           | BreadthFirst => Some None
           end) ;;
  match dive with
  | Some i => Some (i, w)
  | None =>
      '(next, _) <- for_ 0 (S (bb_iter w)) (fun i '(next, L) =>
          nd <- get (bb_nodes w) i ;;
          if ((nd_status nd =? MI_SOLVED_BRANCHABLE)%Z && (nd_L nd <? L) && (nd_L nd <? bb_U w))%bool
          then Some (Z.of_nat i, nd_L nd) else Some (next, L)) ((-1)%Z, finf) ;;
      Some (next, set_bb_dive w next)
  end.

(* ecos_bb/ecos_bb.c:214-221 get_global_L, with MIN of line 37 *)
Definition get_global_L (w : W) : option F :=
  for_ 0 (S (bb_iter w)) (fun i L =>
    nd <- get (bb_nodes w) i ;; Some (if L <? nd_L nd then L else nd_L nd)) finf.

(* ----------------------------------------------- setting up a relaxation *)

(* ecos_bb/ecos_bb.c:287-327 set_prob; an illegal boolean setting leaves h alone *)
Definition set_prob (nb ni : nat) (bid : nat -> option Z) (iid : nat -> option F) (p : pwork F) : option (pwork F) :=
  p <- for_ 0 nb (fun i p =>
    b <- bid i ;;
    if (b =? MI_ONE)%Z then
      p <- ecos_updateDataEntry_h p (2 * i)%nat (fconst (-1)) ;; ecos_updateDataEntry_h p (2 * i + 1)%nat f1
    else if (b =? MI_ZERO)%Z then
      p <- ecos_updateDataEntry_h p (2 * i)%nat f0 ;; ecos_updateDataEntry_h p (2 * i + 1)%nat f0
    else if (b =? MI_STAR)%Z then
      p <- ecos_updateDataEntry_h p (2 * i)%nat f0 ;; ecos_updateDataEntry_h p (2 * i + 1)%nat f1
    else Some p) p ;;
  for_ 0 ni (fun i p =>
    a <- iid (2 * i)%nat ;;
    p <- ecos_updateDataEntry_h p (2 * (i + nb))%nat a ;;
    b <- iid (2 * i + 1)%nat ;;
    ecos_updateDataEntry_h p (2 * (i + nb) + 1)%nat b) p.

(* set_prob followed by ECOS_solve, as in ecos_bb/ecos_bb.c:399-400, 894-895,
   1005-1006 *)
Definition run_relax (bid : nat -> option Z) (iid : nat -> option F) (w : W) : option (Z * W) :=
  p <- set_prob (bb_nb w) (bb_ni w) bid iid (bb_prob w) ;;
  '(code, t, p) <- solver (bb_solves w) (bb_ctrlc w) p ;;
  Some (code, set_bb_ctrlc (set_bb_solves (set_bb_prob w p) (S (bb_solves w))) t).

(* eddot(n, x, c) of the solver's workspace *)
Definition obj (w : W) : option F := eddot (w_n (bb_prob w)) (w_x (bb_prob w)) (w_c (bb_prob w)).

(* the entries of node idx: get_bool_node_id, get_int_node_id of
   include/ecos_bb.h:205-213 *)
Definition node_bid (w : W) (idx : nat) (i : nat) : option Z := get (bb_bids w) (bb_nb w * idx + i)%nat.
Definition node_iid (w : W) (idx : nat) (i : nat) : option F := get (bb_iids w) (bb_ni w * idx * 2 + i)%nat.

(* ------------------------------------------------------- branching rules *)

(* A rule delivers the split index and value of the node.  The code writes them
   to nodes[node_idx] as it goes; the model passes them along and stores them
   when the rule is done (no rule reads the node's other fields). *)
Definition split := (Z * F)%type.

(* ecos_bb/ecos_bb.c:227-255 get_branch_var_most_infeasible *)
Definition most_infeasible (w : W) (sp : split) : option (split * W) :=
  '(sp, _) <- for_ 0 (nvars w) (fun i '(sp, d) =>
    col <- var_col w i ;;
    y <- get (w_x (bb_prob w)) col ;;
    x <- (if Nat.ltb i (bb_nb w) then Some y
          else fl <- pfloat_floor y (bs_itol (bb_stgs w)) ;; Some (y - fl)) ;;
    let amb := abs_2 (x - half) in
    if amb <? d then Some ((Z.of_nat i, y), amb) else Some (sp, d)) (sp, f1) ;;
  Some (sp, w).

(* ecos_bb/ecos_bb.c:261-281 get_branch_var_random; [fuel] retries *)
Fixpoint random_branching (fuel : nat) (w : W) : option (split * W) :=
  match fuel with
  | 0%nat => None
  | Datatypes.S fuel =>
      _ <- guard (Nat.ltb 0 (nvars w)) ;;
      let i := Z.to_nat (rnd (bb_draws w) mod Z.of_nat (nvars w)) in
      let w := set_bb_draws w (Datatypes.S (bb_draws w)) in
      col <- var_col w i ;;
      y <- get (w_x (bb_prob w)) col ;;
      ni <- near_int w y ;;
      if ni : bool then random_branching fuel w else Some ((Z.of_nat i, y), w)
  end.

(* ecos_bb/ecos_bb.c:346-355 get_score *)
Definition get_score (down up : F) : F :=
  let eps := fconst (1 # 100000000) in
  (if down >? eps then down else eps) * (if up >? eps then up else eps).

(* ecos_bb/ecos_bb.c:360-377 get_shuffled_array *)
Definition get_shuffled_array (n : nat) (w : W) : option (arr nat * W) :=
  a <- for_ 0 n (fun i a => set a i i) (alloc n) ;;
  '(a, draws) <- for_ 0 (n - 1) (fun i '(a, k) =>
    let j := (i + Z.to_nat (rnd k / (RAND_MAX / Z.of_nat (n - i) + 1)))%nat in
    t <- get a j ;;
    v <- get a i ;;
    a <- set a j v ;;
    a <- set a i t ;;
    Some (a, S k)) (a, bb_draws w) ;;
  Some (a, set_bb_draws w draws).

(* memcpy of n elements from offset off of src to the start of dst: bytes are
   copied, whether or not they were written before *)
Definition memcpy {T} (n : nat) (src : arr T) (off : nat) (dst : arr T) : option (arr T) :=
  if (Nat.leb (off + n) (length src) && Nat.leb n (length dst))%bool
  then Some (firstn n (skipn off src) ++ skipn n dst) else None.

(* ecos_bb/ecos_bb.c:382-392 initialize_strong_branching *)
Definition initialize_strong_branching (w : W) (idx : nat) : option W :=
  tb <- memcpy (bb_nb w) (bb_bids w) (bb_nb w * idx) (bb_tbb w) ;;
  ti <- memcpy (2 * bb_ni w) (bb_iids w) (bb_ni w * idx * 2) (bb_tbi w) ;;
  Some (set_bb_tbi (set_bb_tbb w tb) ti).

(* ecos_bb/ecos_bb.c:397-402 calc_tmp_branching_problem: relaxation value and
   exit code *)
Definition calc_tmp (w : W) : option (F * Z * W) :=
  '(code, w) <- run_relax (get (bb_tbb w)) (get (bb_tbi w)) w ;;
  q <- obj w ;;
  Some (q, code, w).

(* ecos_bb/ecos_bb.c:407-428 check_infeasible_bool_var *)
Definition check_infeasible_bool (w : W) (code : Z) (relax : F) (idx : nat) (other : Z) (i : nat)
  (sp : split) (cur : F) : option (bool * split * W) :=
  if (is_infeasible code || (relax >? bb_U w))%bool then
    bids <- set (bb_bids w) (bb_nb w * idx + i)%nat other ;;
    tbb <- set (bb_tbb w) i other ;;
    Some (true, (if (fst sp =? -1)%Z then (Z.of_nat i, cur) else sp), set_bb_tbb (set_bb_bids w bids) tbb)
  else Some (false, sp, w).

(* ecos_bb/ecos_bb.c:433-457 check_infeasible_int_var *)
Definition check_infeasible_int (w : W) (code : Z) (relax : F) (idx : nat) (fix_lb : bool) (i : nat)
  (sp : split) (cur : F) : option (bool * split * W) :=
  if (is_infeasible code || (relax >? bb_U w))%bool then
    v <- (if fix_lb then ce <- pfloat_ceil cur (bs_itol (bb_stgs w)) ;; Some (- ce)
          else pfloat_floor cur (bs_itol (bb_stgs w))) ;;
    let k := (2 * i + (if fix_lb then 0 else 1))%nat in
    iids <- set (bb_iids w) (bb_ni w * idx * 2 + k)%nat v ;;
    tbi <- set (bb_tbi w) k v ;;
    Some (true, (if (fst sp =? -1)%Z then (Z.of_nat (i + bb_nb w), cur) else sp), set_bb_tbi (set_bb_iids w iids) tbi)
  else Some (false, sp, w).

(* ecos_bb/ecos_bb.c:463-486 strong_branch_bool_var: Some (q_down, q_up) when
   neither side is infeasible *)
Definition strong_branch_bool (w : W) (sp : split) (idx i : nat) (cur : F) : option (option (F * F) * split * W) :=
  orig <- get (bb_tbb w) i ;;
  t <- set (bb_tbb w) i MI_ZERO ;;
  '(qd, code, w) <- calc_tmp (set_bb_tbb w t) ;;
  '(inf, sp, w) <- check_infeasible_bool w code qd idx MI_ONE i sp cur ;;
  if inf : bool then Some (None, sp, w) else
  t <- set (bb_tbb w) i MI_ONE ;;
  '(qu, code, w) <- calc_tmp (set_bb_tbb w t) ;;
  '(inf, sp, w) <- check_infeasible_bool w code qu idx MI_ZERO i sp cur ;;
  if inf : bool then Some (None, sp, w) else
  t <- set (bb_tbb w) i orig ;;
  Some (Some (qd, qu), sp, set_bb_tbb w t).

(* ecos_bb/ecos_bb.c:492-517 strong_branch_int_var; [i] counts integer variables *)
Definition strong_branch_int (w : W) (sp : split) (idx i : nat) (cur : F) : option (option (F * F) * split * W) :=
  let tol := bs_itol (bb_stgs w) in
  orig <- get (bb_tbi w) (2 * i + 1)%nat ;;
  fl <- pfloat_floor cur tol ;;
  t <- set (bb_tbi w) (2 * i + 1)%nat fl ;;
  '(qd, code, w) <- calc_tmp (set_bb_tbi w t) ;;
  t <- set (bb_tbi w) (2 * i + 1)%nat orig ;;
  '(inf, sp, w) <- check_infeasible_int (set_bb_tbi w t) code qd idx true i sp cur ;;
  if inf : bool then Some (None, sp, w) else
  orig <- get (bb_tbi w) (2 * i)%nat ;;
  ce <- pfloat_ceil cur tol ;;
  t <- set (bb_tbi w) (2 * i)%nat (- ce) ;;
  '(qu, code, w) <- calc_tmp (set_bb_tbi w t) ;;
  t <- set (bb_tbi w) (2 * i)%nat orig ;;
  '(inf, sp, w) <- check_infeasible_int (set_bb_tbi w t) code qu idx false i sp cur ;;
  if inf : bool then Some (None, sp, w) else
  Some (Some (qd, qu), sp, w).

(* ecos_bb/ecos_bb.c:573-582 and 806-826: the candidate i of either kind *)
Definition strong_branch_var (w : W) (sp : split) (idx i : nat) (cur : F) : option (option (F * F) * split * W) :=
  if Nat.ltb i (bb_nb w) then strong_branch_bool w sp idx i cur
  else strong_branch_int w sp idx (i - bb_nb w)%nat cur.

(* ecos_bb/ecos_bb.c:522-603 get_branch_var_strong_branching.  The solver's maxit
   and max_bk_iter are saved and restored around the loop, which does not change
   them; that pair of assignments is left out. *)
Definition strong_branching (w : W) (sp : split) (idx : nat) : option (split * W) :=
  w <- initialize_strong_branching w idx ;;
  '(q, _, w) <- calc_tmp w ;;
  xs <- memcpy (w_n (bb_prob w)) (w_x (bb_prob w)) 0 (alloc (w_n (bb_prob w))) ;;
  '(ord, w) <- get_shuffled_array (nvars w) w ;;
  '(sp, _, w) <- for_ 0 (nvars w) (fun r '(sp, best, w) =>
    i <- get ord r ;;
    col <- var_col w i ;;
    cur <- get xs col ;;
    ni <- near_int w cur ;;
    if ni : bool then Some (sp, best, w) else
    '(res, sp, w) <- strong_branch_var w sp idx i cur ;;
    match res with
    | None => Some (sp, best, w)
    | Some (qd, qu) =>
        let score := get_score (qd - q) (qu - q) in
        if score >? best then Some ((Z.of_nat i, cur), score, w) else Some (sp, best, w)
    end) (((-1)%Z, snd sp), - finf, w) ;;
  Some (sp, w).

(* ecos_bb/ecos_bb.c:608-626 avg_pseudocost; [up] is 0 or 1 *)
Definition avg_pseudocost (sums : arr F) (cnts : arr Z) (n up : nat) : option F :=
  '(sum, cnt) <- for_ 0 n (fun i '(sum, cnt) =>
    c <- get cnts (2 * i + up)%nat ;;
    if (0 <? c)%Z then s <- get sums (2 * i + up)%nat ;; Some (sum + s, (cnt + c)%Z) else Some (sum, cnt))
    (f0, 0%Z) ;;
  Some (if (0 <? cnt)%Z then sum / fofZ cnt else f1).

(* ecos_bb/ecos_bb.c:631-675 set_pseudocost_psi *)
Definition psi1 (sums : arr F) (cnts : arr Z) (n i up : nat) : option F :=
  c <- get cnts (2 * i + up)%nat ;;
  if (c =? 0)%Z then avg_pseudocost sums cnts n up
  else s <- get sums (2 * i + up)%nat ;; Some (s / fofZ c).
Definition pseudocost_psi (w : W) (i : nat) : option (F * F) :=
  let '(sums, cnts, n, i) :=
    if Nat.ltb i (bb_nb w) then (bb_psb w, bb_pcb w, bb_nb w, i)
    else (bb_psi w, bb_pci w, bb_ni w, (i - bb_nb w)%nat) in
  d <- psi1 sums cnts n i 0 ;;
  u <- psi1 sums cnts n i 1 ;;
  Some (d, u).

(* ecos_bb/ecos_bb.c:707-711 and 781-786: the pseudocost score of candidate i *)
Definition pseudo_score (w : W) (i : nat) (y : F) : option F :=
  '(d, u) <- pseudocost_psi w i ;;
  fl <- pfloat_floor y (bs_itol (bb_stgs w)) ;;
  let dc := y - fl in
  let uc := f1 - dc in
  Some (get_score (dc * d) (uc * u)).

(* ecos_bb/ecos_bb.c:681-724 get_branch_var_pseudocost_branching *)
Definition pseudocost_branching (w : W) (sp : split) : option (split * W) :=
  '(ord, w) <- get_shuffled_array (nvars w) w ;;
  '(sp, _) <- for_ 0 (nvars w) (fun r '(sp, high) =>
    i <- get ord r ;;
    col <- var_col w i ;;
    y <- get (w_x (bb_prob w)) col ;;
    ni <- near_int w y ;;
    if ni : bool then Some (sp, high) else
    score <- pseudo_score w i y ;;
    if score >? high then Some ((Z.of_nat i, y), score) else Some (sp, high)) (sp, - finf) ;;
  Some (sp, w).

(* ecos_bb/ecos_bb.c:729-738 is_reliable *)
Definition is_reliable (w : W) (i : nat) : option bool :=
  let '(cnts, i) := if Nat.ltb i (bb_nb w) then (bb_pcb w, i) else (bb_pci w, (i - bb_nb w)%nat) in
  a <- get cnts (2 * i)%nat ;;
  if (bs_eta (bb_stgs w) <? a)%Z then b <- get cnts (2 * i + 1)%nat ;; Some (bs_eta (bb_stgs w) <? b)%Z
  else Some false.

(* one pseudocost observation: sums[k] += v, cnts[k] += 1 *)
Definition observe (w : W) (bool_var : bool) (k : nat) (v : F) : option W :=
  let '(sums, cnts) := if bool_var then (bb_psb w, bb_pcb w) else (bb_psi w, bb_pci w) in
  s <- get sums k ;;
  sums <- set sums k (s + v) ;;
  c <- get cnts k ;;
  cnts <- set cnts k (c + 1)%Z ;;
  Some (if bool_var then set_bb_pcb (set_bb_psb w sums) cnts else set_bb_pci (set_bb_psi w sums) cnts).

(* ecos_bb/ecos_bb.c:744-849 get_branch_var_reliability_branching.  [st] is None
   until strong branching was initialised, then the value q and the saved x.  The
   value y tested and stored is that of the solver's x at the time, as in the
   code (the strong branching solves overwrite it). *)
Definition reliability_branching (w : W) (sp : split) (idx : nat) : option (split * W) :=
  '(ord, w) <- get_shuffled_array (nvars w) w ;;
  '(sp, _, _, w) <- for_ 0 (nvars w) (fun r '(sp, high, st, w) =>
    i <- get ord r ;;
    col <- var_col w i ;;
    y <- get (w_x (bb_prob w)) col ;;
    ni <- near_int w y ;;
    if ni : bool then Some (sp, high, st, w) else
    rel <- is_reliable w i ;;
    '(score, sp, st, w) <-
      (if rel : bool then
         score <- pseudo_score w i y ;; Some (Some score, sp, st, w)
       else
         '(q, xs, w) <-
           (match st with
            | Some (q, xs) => Some (q, xs, w)
            | None =>
                w <- initialize_strong_branching w idx ;;
                '(q, _, w) <- calc_tmp w ;;
                xs <- memcpy (w_n (bb_prob w)) (w_x (bb_prob w)) 0 (alloc (w_n (bb_prob w))) ;;
                Some (q, xs, w)
            end) ;;
         cur <- get xs col ;;
         '(res, sp, w) <- strong_branch_var w sp idx i cur ;;
         match res with
         | None => Some (None, sp, Some (q, xs), w)
         | Some (qd, qu) =>
             let bv := Nat.ltb i (bb_nb w) in
             let k := if bv then i else (i - bb_nb w)%nat in
             ce <- pfloat_ceil cur (bs_itol (bb_stgs w)) ;;
             fl <- pfloat_floor cur (bs_itol (bb_stgs w)) ;;
             w <- observe w bv (2 * k)%nat ((qd - q) / (cur - fl)) ;;
             w <- observe w bv (2 * k + 1)%nat ((qu - q) / (ce - cur)) ;;
             Some (Some (get_score (qd - q) (qu - q)), sp, Some (q, xs), w)
         end) ;;
    match score with
    | Some score => if score >? high then Some ((Z.of_nat i, y), score, st, w) else Some (sp, high, st, w)
    | None => Some (sp, high, st, w)
    end) (sp, - finf, None, w) ;;
  Some (sp, w).

(* ecos_bb/ecos_bb.c:977-994 the choice of the rule *)
Definition choose_split (w : W) (sp : split) (idx : nat) : option (split * W) :=
  match bs_strategy (bb_stgs w) with
  | MostInfeasible => most_infeasible w sp
  | StrongBranching => strong_branching w sp idx
  | Pseudocost => pseudocost_branching w sp
  | Reliability => reliability_branching w sp idx
  | RandomBranching => random_branching rfuel w
  | OtherStrategy => Some (sp, w)
  end.

(* ------------------------------------------------------------ incumbents *)

(* copies of n elements by assignment; a copied cell may be indeterminate *)
Definition copyN {T} (n : nat) (src dst : arr T) : option (arr T) := memcpy n src 0 dst.

(* ecos_bb/ecos_bb.c:854-868 store_solution *)
Definition store_solution (w : W) : option W :=
  let p := bb_prob w in
  x <- copyN (w_n p) (w_x p) (bb_x w) ;;
  y <- copyN (w_p p) (w_y p) (bb_y w) ;;
  z <- copyN (w_m p) (w_z p) (bb_z w) ;;
  s <- copyN (w_m p) (w_s p) (bb_s w) ;;
  let w := set_bb_s (set_bb_z (set_bb_y (set_bb_x w x) y) z) s in
  Some (set_bb_info (set_bb_tau (set_bb_kap w (w_kap p)) (w_tau p)) (w_info p)).

(* ecos_bb/ecos_bb.c:873-887 load_solution *)
Definition load_solution (w : W) : option W :=
  let p := bb_prob w in
  x <- copyN (w_n p) (bb_x w) (w_x p) ;;
  y <- copyN (w_p p) (bb_y w) (w_y p) ;;
  z <- copyN (w_m p) (bb_z w) (w_z p) ;;
  s <- copyN (w_m p) (bb_s w) (w_s p) ;;
  let p := set_w_s (set_w_z (set_w_y (set_w_x p x) y) z) s in
  let p := set_w_info (set_w_tau (set_w_kap p (bb_kap w)) (bb_tau w)) (bb_info w) in
  Some (set_bb_prob w p).

(* ------------------------------------------------------------ one node *)

(* ecos_bb/ecos_bb.c:924-950 update of the pseudocosts *)
Definition update_pseudocost (idx : nat) (w : W) : option W :=
  nd <- get (bb_nodes w) idx ;;
  if (0 <=? nd_psplit nd)%Z then
    let tol := bs_itol (bb_stgs w) in
    let off := if nd_up nd then 1%nat else 0%nat in
    let dq := nd_relax nd - nd_prelax nd in
    dv <- (if nd_up nd then ce <- pfloat_ceil (nd_pval nd) tol ;; Some (ce - nd_pval nd)
           else fl <- pfloat_floor (nd_pval nd) tol ;; Some (nd_pval nd - fl)) ;;
    let k := Z.to_nat (nd_psplit nd) in
    if Nat.ltb k (bb_nb w) then observe w true (2 * k + off)%nat (dq / dv)
    else observe w false (2 * (k - bb_nb w) + off)%nat (dq / dv)
  else Some w.

(* ecos_bb/ecos_bb.c:952-966 rounding of x; true when all integer variables are
   integral up to the tolerance *)
Definition round_x (w : W) : option (bool * W) :=
  let p := bb_prob w in let tol := bs_itol (bb_stgs w) in
  '(ok, tb) <- for_ 0 (bb_nb w) (fun i '(ok, tb) =>
    col <- get (bb_bidx w) i ;;
    x <- get (w_x p) col ;;
    r <- pfloat_round x ;;
    c <- ftochar r ;;
    tb <- set tb i c ;;
    Some (ok && float_eqls x (fofZ c) tol, tb)%bool) (true, bb_tmpb w) ;;
  '(ok, ti) <- for_ 0 (bb_ni w) (fun i '(ok, ti) =>
    col <- get (bb_iidx w) i ;;
    x <- get (w_x p) col ;;
    r <- pfloat_round x ;;
    ti <- set ti (2 * i + 1)%nat r ;;
    ti <- set ti (2 * i)%nat (- r) ;;
    Some (ok && float_eqls x r tol, ti)%bool) (ok, bb_tmpi w) ;;
  Some (ok, set_bb_tmpi (set_bb_tmpb w tb) ti).

(* ecos_bb/ecos_bb.c:1031-1056 the end of a solved node: keep a better integer
   solution, restore the node's U, and discard the node when it cannot be better *)
Definition finish_node (idx : nat) (viable : bool) (w : W) : option W :=
  nd <- get (bb_nodes w) idx ;;
  w <- (if nd_U nd <? bb_U w then
          w <- store_solution w ;; Some (set_bb_U w (nd_U nd))
        else Some w) ;;
  w <- (if viable then upd_node w idx (fun nd => set_nd_U nd finf) else Some w) ;;
  nd <- get (bb_nodes w) idx ;;
  if bb_U w <? nd_L nd then upd_node w idx (fun nd => set_nd_status nd MI_SOLVED_NON_BRANCHABLE)
  else Some w.

(* ecos_bb/ecos_bb.c:975-1024 a node whose relaxation is fractional: choose the
   split, then try the rounded point *)
Definition branch_node (idx : nat) (w : W) : option W :=
  nd <- get (bb_nodes w) idx ;;
  '(sp, w) <- choose_split w (nd_split nd, nd_val nd) idx ;;
  w <- upd_node w idx (fun nd => set_nd_status (set_nd_val (set_nd_split nd (fst sp)) (snd sp)) MI_SOLVED_BRANCHABLE) ;;
  '(code, w) <- run_relax (get (bb_tmpb w)) (get (bb_tmpi w)) w ;;
  if (code =? ECOS_OPTIMAL)%Z then
    u <- obj w ;;
    w <- upd_node w idx (fun nd => set_nd_U nd u) ;;
    finish_node idx true w
  else finish_node idx false w.

(* ecos_bb/ecos_bb.c:889-1064 get_bounds *)
Definition get_bounds (idx : nat) (w : W) : option W :=
  '(code, w) <- run_relax (node_bid w idx) (node_iid w idx) w ;;
  if ((code =? ECOS_OPTIMAL) || (code =? ECOS_OPTIMAL + ECOS_INACC_OFFSET)
      || (code =? ECOS_MAXIT) || (code =? ECOS_NUMERICS))%Z then
    q <- obj w ;;
    w <- upd_node w idx (fun nd => set_nd_L nd q) ;;
    if bb_U w <? q then upd_node w idx (fun nd => set_nd_status nd MI_SOLVED_NON_BRANCHABLE) else
    w <- upd_node w idx (fun nd => set_nd_relax nd q) ;;
    w <- update_pseudocost idx w ;;
    '(integral, w) <- round_x w ;;
    if integral : bool then
      w <- upd_node w idx (fun nd => set_nd_U (set_nd_status nd MI_SOLVED_NON_BRANCHABLE) q) ;;
      finish_node idx false w
    else branch_node idx w
  else
    upd_node w idx (fun nd => set_nd_status (set_nd_U (set_nd_L nd finf) finf) MI_SOLVED_NON_BRANCHABLE).

(* -------------------------------------------------------------- the tree *)

(* ecos_bb/ecos_bb.c:1066-1069 should_continue *)
Definition should_continue (w : W) (cur : Z) : bool :=
  ((bb_U w - bb_L w >? bs_abs (bb_stgs w)) && (abs_2 (bb_U w / bb_L w - f1) >? bs_rel (bb_stgs w))
   && (0 <=? cur)%Z && (Z.of_nat (bb_iter w) <? bs_maxit (bb_stgs w) - 1)%Z)%bool.

(* ecos_bb/ecos_bb.c:1071-1105 get_ret_code *)
Definition get_ret_code (w : W) : Z :=
  if (Z.of_nat (bb_iter w) <? bs_maxit (bb_stgs w) - 1)%Z then
    if isinf (bb_U w) then if f0 <=? bb_U w then MI_INFEASIBLE else MI_UNBOUNDED
    else MI_OPTIMAL_SOLN
  else
    if isinf (bb_U w) then if f0 <=? bb_U w then MI_MAXITER_NO_SOLN else MI_MAXITER_UNBOUNDED
    else MI_MAXITER_FEASIBLE_SOLN.

(* ecos_bb/ecos_bb.c:1107-1123 initialize_root *)
Definition initialize_root (w : W) : option W :=
  w <- upd_node w 0 (fun nd =>
         set_nd_psplit (set_nd_U (set_nd_L (set_nd_status nd MI_NOT_SOLVED) (- finf)) finf) (-1)) ;;
  let w := set_bb_U (set_bb_L w (- finf)) finf in
  bids <- for_ 0 (bb_nb w) (fun i a => set a i MI_STAR) (bb_bids w) ;;
  iids <- for_ 0 (bb_ni w) (fun i a => a <- set a (2 * i)%nat MAX_FLOAT_INT ;; set a (2 * i + 1)%nat MAX_FLOAT_INT)
            (bb_iids w) ;;
  Some (set_bb_iids (set_bb_bids w bids) iids).

(* ecos_bb/ecos_bb.c:1137-1147 the root *)
Definition bb_root (w : W) : option W :=
  let w := set_bb_dive (set_bb_iter w 0) 0 in
  w <- initialize_root w ;;
  w <- get_bounds 0 w ;;
  nd <- get (bb_nodes w) 0 ;;
  Some (set_bb_U (set_bb_L w (nd_L nd)) (nd_U nd)).

(* ecos_bb/ecos_bb.c:1158-1174 one pass of the loop *)
Definition bb_step (cur : Z) (w : W) : option (Z * W) :=
  let w := set_bb_iter w (S (bb_iter w)) in
  w <- branch (Z.to_nat cur) w ;;
  w <- get_bounds (Z.to_nat cur) w ;;
  w <- get_bounds (bb_iter w) w ;;
  L <- get_global_L w ;;
  get_next_node (set_bb_L w L).

(* ecos_bb/ecos_bb.c:1148-1174 the loop, with [fuel] passes at most *)
Definition bb_loop (fuel : nat) (w : W) : option (Z * W) :=
  while_ fuel (fun '(cur, w) => Some (should_continue w cur)) (fun '(cur, w) => bb_step cur w) (0%Z, w).

(* ecos_bb/ecos_bb.c:1125-1183 ECOS_BB_solve.  Each pass increments the pass
   counter, so that the loop test fails after at most maxit-1 passes. *)
Definition ECOS_BB_solve (w : W) : option (Z * W) :=
  w <- bb_root w ;;
  '(_, w) <- bb_loop (S (Z.to_nat (bs_maxit (bb_stgs w)))) w ;;
  w <- load_solution w ;;
  Some (get_ret_code w, w).

(* ecos_bb/ecos_bb.c:1185-1188 updateDataEntry_h *)
Definition updateDataEntry_h (w : W) (idx : nat) (value : F) : option W :=
  p <- ecos_updateDataEntry_h (bb_prob w) (idx + 2 * bb_nb w)%nat value ;;
  Some (set_bb_prob w p).

(* ecos_bb/ecos_bb.c:1190-1193 updateDataEntry_c *)
Definition updateDataEntry_c (w : W) (idx : nat) (value : F) : option W :=
  p <- ecos_updateDataEntry_c (bb_prob w) idx value ;;
  Some (set_bb_prob w p).

(* ----------------------------------------------------------------- setup *)

(* ecos_bb/ecos_bb_preproc.c:46-55 contains *)
Definition contains (idx num : nat) (vars : arr nat) : option bool :=
  ans <- for_ 0 num (fun i ans => v <- get vars i ;; Some (ans + if Nat.eqb v idx then 1 else 0)%nat) 0%nat ;;
  Some (negb (Nat.eqb ans 0)).

(* ecos_bb/ecos_bb_preproc.c:140-144 (and, shifted by two, 101-105 and 130-134):
   the caller's entries of column i, written from offset off of the new column *)
Definition put_entries (nv2 off i : nat) (Gpr_in : arr F) (Gjc_in Gir_in : arr nat)
  (Gpr : arr F) (Gjc Gir : arr nat) : option (arr F * arr nat) :=
  e <- get Gjc_in (S i) ;;
  b <- get Gjc_in i ;;
  for_ 0 (e - b) (fun k '(Gpr, Gir) =>
    o <- get Gjc i ;;
    v <- get Gpr_in (b + k)%nat ;;
    Gpr <- set Gpr (o + off + k)%nat v ;;
    r <- get Gir_in (b + k)%nat ;;
    Gir <- set Gir (o + off + k)%nat (r + nv2)%nat ;;
    Some (Gpr, Gir)) (Gpr, Gir).

(* ecos_bb/ecos_bb_preproc.c:80-108 and 109-137: column i belongs to an integer
   variable; the two branches differ in the right-hand sides lo and hi only *)
Definition put_bounds (n nv2 i : nat) (lo hi : F) (Gpr_in : arr F) (Gjc_in Gir_in : arr nat)
  (st : arr F * arr nat * arr nat * arr F * nat) : option (arr F * arr nat * arr nat * arr F * nat) :=
  let '(Gpr, Gjc, Gir, h, j) := st in
  o <- get Gjc i ;;
  Gpr <- set Gpr o (fconst (-1)) ;;
  Gpr <- set Gpr (o + 1)%nat f1 ;;
  Gir <- set Gir o (2 * j)%nat ;;
  Gir <- set Gir (o + 1)%nat (2 * j + 1)%nat ;;
  h <- set h (2 * j)%nat lo ;;
  h <- set h (2 * j + 1)%nat hi ;;
  Gjc <- for_ (S i) (S n) (fun k a => v <- get a k ;; set a k (v + 2)%nat) Gjc ;;
  '(Gpr, Gir) <- put_entries nv2 2 i Gpr_in Gjc_in Gir_in Gpr Gjc Gir ;;
  Some (Gpr, Gjc, Gir, h, S j).

(* ecos_bb/ecos_bb_preproc.c:61-153 socp_to_ecos_bb *)
Definition socp_to_ecos_bb (nb : nat) (bidx : arr nat) (ni : nat) (iidx : arr nat) (n m : nat)
  (Gpr_in : arr F) (Gjc_in Gir_in : arr nat) (Gpr : arr F) (Gjc Gir : arr nat) (h_in h : arr F)
  : option (arr F * arr nat * arr nat * arr F) :=
  let nv2 := (2 * nb + 2 * ni)%nat in
  Gjc <- for_ 0 (S n) (fun i a => v <- get Gjc_in i ;; set a i v) Gjc ;;
  '(Gpr, Gjc, Gir, h, _) <- for_ 0 n (fun i st =>
    cb <- contains i nb bidx ;;
    if cb : bool then put_bounds n nv2 i f0 f1 Gpr_in Gjc_in Gir_in st else
    ci <- contains i ni iidx ;;
    if ci : bool then put_bounds n nv2 i MAX_FLOAT_INT MAX_FLOAT_INT Gpr_in Gjc_in Gir_in st else
    let '(Gpr, Gjc, Gir, h, j) := st in
    '(Gpr, Gir) <- put_entries nv2 0 i Gpr_in Gjc_in Gir_in Gpr Gjc Gir ;;
    Some (Gpr, Gjc, Gir, h, j)) (Gpr, Gjc, Gir, h, 0%nat) ;;
  h <- for_ 0 m (fun i a => v <- get h_in i ;; set a (2 * (nb + ni) + i)%nat v) h ;;
  Some (Gpr, Gjc, Gir, h).

(* ecos_bb/ecos_bb_preproc.c:358-370 get_default_ECOS_BB_settings *)
Definition default_bb_settings : bbset F :=
  mkBs 1000 (fconst (1 # 1000000)) (fconst (1 # 1000)) FTOL_INACC Reliability 6 DiveLower.

(* CALLOC zeroes the nodes *)
Definition zero_node : node F := mkNode 0 f0 f0 f0 0 f0 0 f0 f0 false.

(* ecos_bb/ecos_bb_preproc.c:155-324 ECOS_BB_setup.  A NULL stgs is None.  [junk]
   supplies what MALLOC leaves indeterminate in the solver's workspace and, with
   junkU, jk, jt, ji, the scalars of this one.  When ECOS_setup returns NULL the
   code dereferences it (line 292): undefined behaviour. *)
Definition ECOS_BB_setup (amd : amd_oracle) (junk : pwork F) (jL jk jt : F) (ji : stats F) (t : ctrlc)
  (n m p l : nat) (q : list nat) (nexc : nat) (Gd : arr F * arr nat * arr nat)
  (Ad : option (arr F * arr nat * arr nat)) (c h b : arr F)
  (nb : nat) (bidx : arr nat) (ni : nat) (iidx : arr nat) (stgs : option (bbset F)) : option W :=
  let stgs := match stgs with Some s => s | None => default_bb_settings end in
  let '(Gpr, Gjc, Gir) := Gd in
  nnz <- get Gjc n ;;
  let sz := (nnz + 2 * nb + 2 * ni)%nat in
  '(Gpr', Gjc', Gir', h') <- socp_to_ecos_bb nb bidx ni iidx n m Gpr Gjc Gir
      (alloc sz) (alloc (n + 1)) (alloc sz) h (alloc (m + 2 * nb + 2 * ni)) ;;
  let m := (m + 2 * (nb + ni))%nat in
  let l := (l + 2 * (nb + ni))%nat in
  let mx := Z.to_nat (bs_maxit stgs) in
  r <- ECOS_setup amd junk n m p l q nexc (Gpr', Gjc', Gir') Ad c h' b ;;
  match r with
  | None => None
  | Some w =>
      Some (mkBb nb ni (arr_of (repeat zero_node mx)) (alloc (mx * nb)) (alloc (2 * mx * ni)) bidx iidx w
              (alloc n) (alloc p) (alloc m) (alloc m) jk jt ji finf jL
              (alloc nb) (alloc (2 * ni)) 0 0 (alloc nb) (alloc (2 * ni))
              (arr_of (repeat f0 (2 * nb))) (arr_of (repeat f0 (2 * ni)))
              (arr_of (repeat 0%Z (2 * nb))) (arr_of (repeat 0%Z (2 * ni))) stgs 0 0 t)
  end.

End Bb.

(* The module's solver is the modelled ECOS_solve; [sig k] is what check_ctrlc
   reports during the k-th call. *)
Definition ecos_solver `{O : Ops} (sig : nat -> Z -> bool) (k : nat) (t : ctrlc) (p : pwork F) :=
  ECOS_solve (sig k) t p.
