(* Dynamic memory: which blocks setup allocates, which the cleanup functions free, and
   which pointers they read.  Blocks carry no contents here (contents are the subject of
   the other files of Model/); what matters is whether a block is live.

   Not modelled: allocation failure (MALLOC of a positive size succeeds, as the code
   assumes throughout), and the blocks AMD_order allocates and frees internally. *)
From Coq Require Import List Arith Bool.
Import ListNotations.
Open Scope nat_scope.

(* NULL or a block *)
Definition ptr := option nat.

(* live blocks, the next fresh block, and whether a request for zero bytes returns NULL
   (the C standard leaves that to the implementation; it may differ from call to call) *)
Record heap := mkHeap { hp_live : list nat; hp_next : nat; hp_zero : nat -> bool }.

Definition isNull (p : ptr) : bool := match p with None => true | Some _ => false end.
Definition is_live (h : heap) (b : nat) : bool := existsb (Nat.eqb b) (hp_live h).
Fixpoint drop1 (b : nat) (l : list nat) : list nat :=
  match l with [] => [] | x :: l => if Nat.eqb x b then l else x :: drop1 b l end.

(* computations on the heap; None is undefined behaviour *)
Definition M (A : Type) := heap -> option (A * heap).
Definition ret {A} (a : A) : M A := fun h => Some (a, h).
Definition mbind {A B} (m : M A) (k : A -> M B) : M B := fun h => match m h with Some (a, h) => k a h | None => None end.
Declare Scope heap_scope.
Notation "x <~ m ;; k" := (mbind m (fun x => k)) (at level 61, m at next level, right associativity) : heap_scope.
Notation "m ;;; k" := (mbind m (fun _ => k)) (at level 61, right associativity) : heap_scope.
Open Scope heap_scope.

(* MALLOC, CALLOC of sz elements *)
Definition malloc (sz : nat) : M ptr := fun h =>
  let h' := mkHeap (hp_live h) (S (hp_next h)) (hp_zero h) in
  if (Nat.eqb sz 0 && hp_zero h (hp_next h))%bool then Some (None, h')
  else Some (Some (hp_next h), mkHeap (hp_next h :: hp_live h) (S (hp_next h)) (hp_zero h)).
(* FREE: of NULL does nothing, of anything but a live block is undefined *)
Definition free (p : ptr) : M unit := fun h =>
  match p with
  | None => Some (tt, h)
  | Some b => if is_live h b then Some (tt, mkHeap (drop1 b (hp_live h)) (hp_next h) (hp_zero h)) else None
  end.
(* reading through a pointer *)
Definition use (p : ptr) : M unit := fun h =>
  match p with Some b => if is_live h b then Some (tt, h) else None | None => None end.
Definition through_null {A} : M A := fun _ => None.
(* reading k elements of an array *)
Definition touch (k : nat) (p : ptr) : M unit := if Nat.eqb k 0 then ret tt else use p.
Definition when (b : bool) (m : M unit) : M unit := if b then m else ret tt.
Fixpoint each {A} (l : list A) (f : A -> M unit) : M unit := match l with [] => ret tt | a :: l => f a ;;; each l f end.
Fixpoint collect {A B} (l : list A) (f : A -> M B) : M (list B) :=
  match l with [] => ret [] | a :: l => b <~ f a ;; bs <~ collect l f ;; ret (b :: bs) end.
(* FREE(a->b->...->p): the structures on the way are read first *)
Definition free_at (path : list ptr) (p : ptr) : M unit := each path use ;;; free p.

(* ---- sparse matrices (src/splamm.c) ---- *)
(* include/spla.h:32-40 spmat: the structure itself and its arrays *)
Record mspmat := mkMs { ms_self : ptr; ms_jc : ptr; ms_ir : ptr; ms_pr : ptr; ms_n : nat; ms_nnz : nat }.
(* src/splamm.c:113-124 *)
Definition ecoscreateSparseMatrix (n nnz : nat) (jc ir pr : ptr) : M mspmat :=
  M <~ malloc 1 ;; (if isNull jc then ret tt else use jc) ;;; ret (mkMs M jc ir pr n nnz).
(* src/splamm.c:100-108 *)
Definition newSparseMatrix (n nnz : nat) : M mspmat :=
  jc <~ malloc (n + 1) ;; ir <~ malloc nnz ;; pr <~ malloc nnz ;; use jc ;;;
  ecoscreateSparseMatrix n nnz jc ir pr.
(* src/splamm.c:130-136 *)
Definition freeSparseMatrix (A : mspmat) : M unit :=
  use (ms_self A) ;;; (if isNull (ms_ir A) then ret tt else free (ms_ir A)) ;;;
  use (ms_self A) ;;; (if isNull (ms_jc A) then ret tt else free (ms_jc A)) ;;;
  use (ms_self A) ;;; (if isNull (ms_pr A) then ret tt else free (ms_pr A)) ;;;
  free (ms_self A).
(* src/splamm.c:65-94; m is the number of rows of A *)
Definition transposeSparseMatrix (m : nat) (A : mspmat) : M mspmat :=
  At <~ newSparseMatrix m (ms_nnz A) ;;
  if Nat.eqb (ms_nnz A) 0 then ret At else
  w <~ malloc m ;; touch (ms_nnz A) (ms_ir A) ;;; touch (ms_nnz A) (ms_pr A) ;;; free w ;;; ret At.
(* src/splamm.c:152-191 *)
Definition permuteSparseSymmetricMatrix (A C : mspmat) : M unit :=
  use (ms_self A) ;;; use (ms_self C) ;;; w <~ malloc (ms_n A) ;; touch (ms_n A) (ms_jc A) ;;; touch (ms_nnz A) (ms_ir A) ;;; touch (ms_nnz A) (ms_pr A) ;;; free w.

(* ---- the workspace ---- *)
(* include/cone.h:68-89 socone, the arrays of one second-order cone (CONEMODE 0) *)
Record msoc := mkMsoc { mo_q : ptr; mo_skbar : ptr; mo_zkbar : ptr; mo_Didx : ptr }.
(* include/cone.h:51-58 and 98-115 *)
Record mcone := mkMcone { mc_self : ptr; mc_lpc : ptr; mc_l : nat; mc_w : ptr; mc_v : ptr; mc_kidx : ptr;
  mc_soc : ptr; mc_socs : list msoc; mc_nexc : nat; mc_expc : ptr }.
(* include/kkt.h:43-78 *)
Record mkkt := mkMkkt { mk_self : ptr; mk_D : ptr; mk_Parent : ptr; mk_Pinv : ptr; mk_w1 : ptr; mk_w2 : ptr; mk_w3 : ptr; mk_w4 : ptr; mk_w5 : ptr; mk_w6 : ptr;
  mk_Flag : ptr; mk_Pattern : ptr; mk_Lnz : ptr; mk_RHS1 : ptr; mk_RHS2 : ptr; mk_dx1 : ptr; mk_dx2 : ptr; mk_dy1 : ptr; mk_dy2 : ptr; mk_dz1 : ptr; mk_dz2 : ptr;
  mk_Sign : ptr; mk_PKPt : mspmat; mk_PK : ptr; mk_P : ptr; mk_L : mspmat }.
(* the arrays of the caller *)
Record muser := mkUser { mu_Gpr : ptr; mu_Gjc : ptr; mu_Gir : ptr; mu_Apr : ptr; mu_Ajc : ptr; mu_Air : ptr; mu_c : ptr; mu_h : ptr; mu_b : ptr }.
(* include/ecos.h:207-286 pwork *)
Record mwork := mkMw { mw_self : ptr; mw_x : ptr; mw_y : ptr; mw_z : ptr; mw_s : ptr; mw_lambda : ptr; mw_dsW : ptr; mw_ds : ptr; mw_dz : ptr; mw_saff : ptr; mw_zaff : ptr; mw_Wdz : ptr;
  mw_bx : ptr; mw_by : ptr; mw_bz : ptr; mw_bs : ptr; mw_binfo : ptr; mw_C : mcone; mw_info : ptr; mw_xe : ptr; mw_Ae : ptr; mw_Ge : ptr; mw_stgs : ptr;
  mw_A : option mspmat; mw_G : mspmat; mw_AtoK : ptr; mw_GtoK : ptr; mw_KKT : mkkt; mw_rx : ptr; mw_ry : ptr; mw_rz : ptr; mw_b : ptr; mw_h : ptr; mw_p : nat; mw_m : nat }.

(* What decides which blocks are requested: the arguments, and what the computations in
   between come out with (dimension, entries and fill of the KKT matrix, success of the
   ordering).  Ajc[n] and Gjc[n] are sh_nnzA and sh_nnzG. *)
Record shape := mkShape { sh_n : nat; sh_m : nat; sh_p : nat; sh_l : nat; sh_q : list nat; sh_nexc : nat; sh_nnzA : nat; sh_nnzG : nat;
  sh_nK : nat; sh_nnzK : nat; sh_lnz : nat; sh_amd : bool }.

(* src/equil.c:210-340: reads and writes the data; frees its temporaries *)
Definition use_ruiz_equilibration (sh : shape) (A : option mspmat) (G : mspmat) (b h : ptr) : M unit :=
  xt <~ malloc (sh_n sh) ;; At <~ malloc (match A with Some _ => sh_p sh | None => 0 end) ;; Gt <~ malloc (sh_m sh) ;;
  match A with Some A => touch (ms_n A) (ms_jc A) ;;; touch (ms_nnz A) (ms_ir A) ;;; touch (ms_nnz A) (ms_pr A) ;;; touch (sh_p sh) b | None => ret tt end ;;;
  when (negb (Nat.eqb (sh_m sh) 0)) (touch (ms_n G) (ms_jc G) ;;; touch (ms_nnz G) (ms_ir G) ;;; touch (ms_nnz G) (ms_pr G) ;;; touch (sh_m sh) h) ;;;
  free xt ;;; free At ;;; free Gt.

(* src/equil.c:369-397 *)
Definition unset_equilibration (w : mwork) : M unit :=
  use (mw_self w) ;;; use (ms_self (mw_G w)) ;;;
  match mw_A w with
  | Some A => use (ms_self A) ;;; touch (ms_n A) (ms_jc A) ;;; touch (ms_nnz A) (ms_ir A) ;;; touch (ms_nnz A) (ms_pr A) ;;; touch (ms_nnz A) (mw_Ae w) ;;; touch (ms_nnz A) (mw_xe w) ;;; touch (mw_p w) (mw_b w) ;;; touch (mw_p w) (mw_Ae w)
  | None => ret tt
  end ;;;
  let G := mw_G w in
  when (negb (Nat.eqb (mw_m w) 0)) (touch (ms_n G) (ms_jc G) ;;; touch (ms_nnz G) (ms_ir G) ;;; touch (ms_nnz G) (ms_pr G) ;;; touch (ms_nnz G) (mw_Ge w) ;;; touch (ms_nnz G) (mw_xe w)) ;;;
  touch (mw_m w) (mw_h w) ;;; touch (mw_m w) (mw_Ge w).

(* src/preproc.c:132-137 and 433-434 createKKT_U: the matrix and the sign vector *)
Definition createKKT_U (sh : shape) : M (ptr * mspmat) :=
  pr <~ malloc (sh_nnzK sh) ;; ir <~ malloc (sh_nnzK sh) ;; jc <~ malloc (sh_nK sh + 1) ;; Sign <~ malloc (sh_nK sh) ;;
  K <~ ecoscreateSparseMatrix (sh_nK sh) (sh_nnzK sh) jc ir pr ;; ret (Sign, K).

(* src/preproc.c:653-700: the cones *)
Definition new_cone (sh : shape) : M mcone :=
  C <~ malloc 1 ;; lpc <~ malloc 1 ;;
  w <~ (if Nat.eqb (sh_l sh) 0 then ret None else malloc (sh_l sh)) ;;
  v <~ (if Nat.eqb (sh_l sh) 0 then ret None else malloc (sh_l sh)) ;;
  kidx <~ (if Nat.eqb (sh_l sh) 0 then ret None else malloc (sh_l sh)) ;;
  soc <~ (if Nat.eqb (length (sh_q sh)) 0 then ret None else malloc (length (sh_q sh))) ;;
  socs <~ collect (sh_q sh) (fun k => q <~ malloc (k - 1) ;; sk <~ malloc k ;; zk <~ malloc k ;; Di <~ malloc k ;; ret (mkMsoc q sk zk Di)) ;;
  expc <~ (if Nat.eqb (sh_nexc sh) 0 then ret None else malloc (sh_nexc sh)) ;;
  ret (mkMcone C lpc (sh_l sh) w v kidx soc socs (sh_nexc sh) expc).

(* src/preproc.c:896-919: the KKT structure, without P and L *)
Definition new_kkt (sh : shape) : M mkkt :=
  let nK := sh_nK sh in
  K <~ malloc 1 ;; D <~ malloc nK ;; Parent <~ malloc nK ;; Pinv <~ malloc nK ;;
  w1 <~ malloc nK ;; w2 <~ malloc nK ;; w3 <~ malloc nK ;; w4 <~ malloc nK ;; w5 <~ malloc nK ;; w6 <~ malloc nK ;;
  Flag <~ malloc nK ;; Pattern <~ malloc nK ;; Lnz <~ malloc nK ;; R1 <~ malloc nK ;; R2 <~ malloc nK ;;
  dx1 <~ malloc (sh_n sh) ;; dx2 <~ malloc (sh_n sh) ;; dy1 <~ malloc (sh_p sh) ;; dy2 <~ malloc (sh_p sh) ;; dz1 <~ malloc (sh_m sh) ;; dz2 <~ malloc (sh_m sh) ;;
  Sign <~ malloc nK ;; PKPt <~ newSparseMatrix nK (sh_nnzK sh) ;; PK <~ malloc (sh_nnzK sh) ;;
  ret (mkMkkt K D Parent Pinv w1 w2 w3 w4 w5 w6 Flag Pattern Lnz R1 R2 dx1 dx2 dy1 dy2 dz1 dz2 Sign PKPt PK None (mkMs None None None None 0 0)).

Definition set_PL (K : mkkt) (P : ptr) (L : mspmat) : mkkt :=
  mkMkkt (mk_self K) (mk_D K) (mk_Parent K) (mk_Pinv K) (mk_w1 K) (mk_w2 K) (mk_w3 K) (mk_w4 K) (mk_w5 K) (mk_w6 K)
    (mk_Flag K) (mk_Pattern K) (mk_Lnz K) (mk_RHS1 K) (mk_RHS2 K) (mk_dx1 K) (mk_dx2 K) (mk_dy1 K) (mk_dy2 K) (mk_dz1 K) (mk_dz2 K)
    (mk_Sign K) (mk_PKPt K) (mk_PK K) P L.

(* src/preproc.c:554-1036 ECOS_setup.  The result None is the NULL return. *)
Definition ECOS_setup (sh : shape) (u : muser) : M (option mwork) :=
  let n := sh_n sh in let m := sh_m sh in let p := sh_p sh in let nK := sh_nK sh in
  self <~ malloc 1 ;;
  x <~ malloc n ;; y <~ malloc p ;; z <~ malloc m ;; s <~ malloc m ;; lam <~ malloc m ;; dsW <~ malloc m ;; ds <~ malloc m ;; dz <~ malloc m ;;
  saff <~ malloc m ;; zaff <~ malloc m ;; Wdz <~ malloc m ;;
  bx <~ malloc n ;; by_ <~ malloc p ;; bz <~ malloc m ;; bs <~ malloc m ;; binfo <~ malloc 1 ;;
  C <~ new_cone sh ;;
  if negb (Nat.eqb (list_sum (sh_q sh) + sh_l sh + 3 * sh_nexc sh) m) then ret None else             (* lines 720-726 *)
  info <~ malloc 1 ;; xe <~ malloc n ;; Ae <~ malloc p ;; Ge <~ malloc m ;; stgs <~ malloc 1 ;;
  A <~ (if (isNull (mu_Apr u) || isNull (mu_Ajc u) || isNull (mu_Air u))%bool then ret None
        else use (mu_Ajc u) ;;; A <~ ecoscreateSparseMatrix n (sh_nnzA sh) (mu_Ajc u) (mu_Air u) (mu_Apr u) ;; ret (Some A)) ;;
  G <~ (if (isNull (mu_Gpr u) || isNull (mu_Gjc u) || isNull (mu_Gir u))%bool then ecoscreateSparseMatrix n 0 (mu_Gjc u) (mu_Gir u) (mu_Gpr u)
        else use (mu_Gjc u) ;;; ecoscreateSparseMatrix n (sh_nnzG sh) (mu_Gjc u) (mu_Gir u) (mu_Gpr u)) ;;
  use_ruiz_equilibration sh A G (mu_b u) (mu_h u) ;;;
  AtoAt <~ (match A with Some A => malloc (ms_nnz A) | None => ret None end) ;;
  At <~ (match A with Some A => At <~ transposeSparseMatrix p A ;; ret (Some At) | None => ret None end) ;;
  GtoGt <~ malloc (ms_nnz G) ;; Gt <~ transposeSparseMatrix m G ;;
  AttoK <~ (match A with Some A => malloc (ms_nnz A) | None => ret None end) ;;
  GttoK <~ malloc (ms_nnz G) ;;
  SK <~ createKKT_U sh ;;
  AtoK <~ (match A with Some A => malloc (ms_nnz A) | None => ret None end) ;;
  GtoK <~ malloc (ms_nnz G) ;;
  K <~ new_kkt sh ;;
  P <~ malloc nK ;;
  if negb (sh_amd sh) then ret None else                                                              (* lines 931-942 *)
  permuteSparseSymmetricMatrix (snd SK) (mk_PKPt K) ;;;
  touch nK (fst SK) ;;;
  Ljc <~ malloc (nK + 1) ;; Lir <~ malloc (sh_lnz sh) ;; Lpr <~ malloc (sh_lnz sh) ;;
  L <~ ecoscreateSparseMatrix nK (sh_lnz sh) Ljc Lir Lpr ;;
  permuteSparseSymmetricMatrix (snd SK) (mk_PKPt K) ;;;
  rx <~ (if Nat.eqb n 0 then ret None else malloc n) ;; ry <~ (if Nat.eqb p 0 then ret None else malloc p) ;; rz <~ (if Nat.eqb m 0 then ret None else malloc m) ;;
  free (fst SK) ;;;
  match At with Some At => freeSparseMatrix At ;;; free AtoAt ;;; free AttoK | None => ret tt end ;;;
  freeSparseMatrix Gt ;;; freeSparseMatrix (snd SK) ;;; free GtoGt ;;; free GttoK ;;;
  ret (Some (mkMw self x y z s lam dsW ds dz saff zaff Wdz bx by_ bz bs binfo C info xe Ae Ge stgs A G AtoK GtoK (set_PL K P L) rx ry rz (mu_b u) (mu_h u) p m)).

(* src/preproc.c:446-547 ECOS_cleanup *)
Definition ECOS_cleanup (w : mwork) (keepvars : nat) : M unit :=
  unset_equilibration w ;;;
  let W := mw_self w in let K := mw_KKT w in let k := mk_self K in
  free_at [W; k] (mk_D K) ;;; free_at [W; k] (mk_dx1 K) ;;; free_at [W; k] (mk_dx2 K) ;;; free_at [W; k] (mk_dy1 K) ;;; free_at [W; k] (mk_dy2 K) ;;;
  free_at [W; k] (mk_dz1 K) ;;; free_at [W; k] (mk_dz2 K) ;;; free_at [W; k] (mk_Flag K) ;;;
  use W ;;; use k ;;; freeSparseMatrix (mk_L K) ;;;
  free_at [W; k] (mk_Lnz K) ;;; free_at [W; k] (mk_Parent K) ;;; free_at [W; k] (mk_Pattern K) ;;; free_at [W; k] (mk_Sign K) ;;; free_at [W; k] (mk_Pinv K) ;;;
  free_at [W; k] (mk_P K) ;;; free_at [W; k] (mk_PK K) ;;;
  use W ;;; use k ;;; freeSparseMatrix (mk_PKPt K) ;;;
  free_at [W; k] (mk_RHS1 K) ;;; free_at [W; k] (mk_RHS2 K) ;;; free_at [W; k] (mk_w1 K) ;;; free_at [W; k] (mk_w2 K) ;;; free_at [W; k] (mk_w3 K) ;;;
  free_at [W; k] (mk_w4 K) ;;; free_at [W; k] (mk_w5 K) ;;; free_at [W; k] (mk_w6 K) ;;; free_at [W] k ;;;
  use W ;;; match mw_A w with Some _ => free (mw_AtoK w) | None => ret tt end ;;;
  free_at [W] (mw_GtoK w) ;;;
  let C := mw_C w in let c := mc_self C in
  use W ;;; use c ;;; use (mc_lpc C) ;;;
  when (negb (Nat.eqb (mc_l C) 0)) (free_at [W; c; mc_lpc C] (mc_kidx C) ;;; free_at [W; c; mc_lpc C] (mc_v C) ;;; free_at [W; c; mc_lpc C] (mc_w C)) ;;;
  free_at [W; c] (mc_lpc C) ;;;
  each (mc_socs C) (fun o => free_at [W; c; mc_soc C] (mo_q o) ;;; free_at [W; c; mc_soc C] (mo_skbar o) ;;; free_at [W; c; mc_soc C] (mo_zkbar o) ;;; free_at [W; c; mc_soc C] (mo_Didx o)) ;;;
  use W ;;; use c ;;;
  when (negb (Nat.eqb (length (mc_socs C)) 0)) (free (mc_soc C)) ;;;
  when (negb (Nat.eqb (mc_nexc C) 0)) (free_at [W; c] (mc_expc C)) ;;;
  free_at [W] c ;;;
  free_at [W] (mw_Wdz w) ;;; free_at [W] (mw_dsW w) ;;; free_at [W] (mw_dz w) ;;; free_at [W] (mw_ds w) ;;; free_at [W] (mw_zaff w) ;;; free_at [W] (mw_saff w) ;;;
  free_at [W] (mw_info w) ;;; free_at [W] (mw_binfo w) ;;; free_at [W] (mw_lambda w) ;;; free_at [W] (mw_rx w) ;;; free_at [W] (mw_ry w) ;;; free_at [W] (mw_rz w) ;;;
  free_at [W] (mw_stgs w) ;;; free_at [W] (ms_self (mw_G w)) ;;;
  use W ;;; match mw_A w with Some A => free (ms_self A) | None => ret tt end ;;;
  free_at [W] (mw_bz w) ;;; free_at [W] (mw_bs w) ;;; free_at [W] (mw_by w) ;;; free_at [W] (mw_bx w) ;;;
  when (Nat.ltb keepvars 4) (free_at [W] (mw_z w)) ;;; when (Nat.ltb keepvars 3) (free_at [W] (mw_s w)) ;;;
  when (Nat.ltb keepvars 2) (free_at [W] (mw_y w)) ;;; when (Nat.ltb keepvars 1) (free_at [W] (mw_x w)) ;;;
  free_at [W] (mw_xe w) ;;; free_at [W] (mw_Ae w) ;;; free_at [W] (mw_Ge w) ;;;
  free W.

(* src/ecos.c:470-475, part of every pass of ECOS_solve: with no equalities the pointer
   ry is set to NULL.  ECOS_solve allocates and frees nothing. *)
Definition solve_ry (w : mwork) : mwork :=
  mkMw (mw_self w) (mw_x w) (mw_y w) (mw_z w) (mw_s w) (mw_lambda w) (mw_dsW w) (mw_ds w) (mw_dz w) (mw_saff w) (mw_zaff w) (mw_Wdz w)
    (mw_bx w) (mw_by w) (mw_bz w) (mw_bs w) (mw_binfo w) (mw_C w) (mw_info w) (mw_xe w) (mw_Ae w) (mw_Ge w) (mw_stgs w)
    (mw_A w) (mw_G w) (mw_AtoK w) (mw_GtoK w) (mw_KKT w) (mw_rx w) (if Nat.eqb (mw_p w) 0 then None else mw_ry w) (mw_rz w) (mw_b w) (mw_h w) (mw_p w) (mw_m w).

(* ---- mixed-integer problems ---- *)
(* include/ecos_bb.h:134-199 ecos_bb_pwork *)
Record mbb := mkMbb { mb_self : ptr; mb_default : bool; mb_stgs : ptr; mb_Gpr : ptr; mb_Gjc : ptr; mb_Gir : ptr; mb_h : ptr; mb_nodes : ptr; mb_bids : ptr; mb_iids : ptr;
  mb_tb : ptr; mb_ti : ptr; mb_tbb : ptr; mb_tbi : ptr; mb_pbc : ptr; mb_pbs : ptr; mb_pic : ptr; mb_pis : ptr;
  mb_x : ptr; mb_y : ptr; mb_z : ptr; mb_s : ptr; mb_info : ptr; mb_prob : mwork }.

(* ecos_bb/ecos_bb_preproc.c:151-324 ECOS_BB_setup; [sh] is the shape of the relaxation
   (rows and LP cone already enlarged), stgs the caller's settings or NULL, maxit the
   node limit found there.  Where ECOS_setup returns NULL, lines 293-309 read
   through it. *)
Definition ECOS_BB_setup (sh : shape) (u : muser) (nb ni maxit nnz_in : nat) (stgs : ptr) : M mbb :=
  let n := sh_n sh in let p := sh_p sh in let m := sh_m sh in
  self <~ malloc 1 ;;
  st <~ (if isNull stgs then malloc 1 else ret stgs) ;;
  touch 1 (mu_Gjc u) ;;;
  Gpr <~ malloc (nnz_in + 2 * nb + 2 * ni) ;; Gjc <~ malloc (n + 1) ;; Gir <~ malloc (nnz_in + 2 * nb + 2 * ni) ;; hn <~ malloc m ;;
  touch nnz_in (mu_Gpr u) ;;; touch nnz_in (mu_Gir u) ;;; touch (m - 2 * (nb + ni)) (mu_h u) ;;;
  use st ;;;
  nodes <~ malloc maxit ;; bids <~ malloc (maxit * nb) ;; iids <~ malloc (2 * maxit * ni) ;;
  tb <~ malloc nb ;; ti <~ malloc (2 * ni) ;; tbb <~ malloc nb ;; tbi <~ malloc (2 * ni) ;;
  pbc <~ malloc (2 * nb) ;; pbs <~ malloc (2 * nb) ;; pic <~ malloc (2 * ni) ;; pis <~ malloc (2 * ni) ;;
  x <~ malloc n ;; y <~ malloc p ;; z <~ malloc m ;; s <~ malloc m ;; info <~ malloc 1 ;;
  w <~ ECOS_setup sh (mkUser Gpr Gjc Gir (mu_Apr u) (mu_Ajc u) (mu_Air u) (mu_c u) hn (mu_b u)) ;;
  match w with
  | None => through_null
  | Some w => use (mw_stgs w) ;;;
      ret (mkMbb self (isNull stgs) st Gpr Gjc Gir hn nodes bids iids tb ti tbb tbi pbc pbs pic pis x y z s info w)
  end.

(* ecos_bb/ecos_bb_preproc.c:327-356 ECOS_BB_cleanup *)
Definition ECOS_BB_cleanup (b : mbb) (keep : nat) : M unit :=
  let B := mb_self b in
  use B ;;; ECOS_cleanup (mb_prob b) keep ;;;
  free_at [B] (mb_tb b) ;;; free_at [B] (mb_ti b) ;;; free_at [B] (mb_tbb b) ;;; free_at [B] (mb_tbi b) ;;;
  free_at [B] (mb_Gpr b) ;;; free_at [B] (mb_Gjc b) ;;; free_at [B] (mb_Gir b) ;;; free_at [B] (mb_h b) ;;;
  free_at [B] (mb_nodes b) ;;; free_at [B] (mb_bids b) ;;; free_at [B] (mb_iids b) ;;;
  free_at [B] (mb_x b) ;;; free_at [B] (mb_y b) ;;; free_at [B] (mb_z b) ;;; free_at [B] (mb_s b) ;;; free_at [B] (mb_info b) ;;;
  free_at [B] (mb_pbc b) ;;; free_at [B] (mb_pbs b) ;;; free_at [B] (mb_pic b) ;;; free_at [B] (mb_pis b) ;;;
  use B ;;; when (mb_default b) (free_at [B] (mb_stgs b)) ;;;
  free B.

(* The branching rules' temporaries.  ecos_bb/ecos_bb.c:517-604 strong branching,
   682-724 pseudocost branching, 748-849 reliability branching.  [rounds] says for each
   variable in turn whether reliability branching falls back to strong branching on it. *)
Definition strong_branching (n nv : nat) : M unit :=
  xv <~ malloc n ;; ri <~ malloc nv ;; free xv ;;; free ri.
Definition pseudocost_branching (nv : nat) : M unit := ri <~ malloc nv ;; free ri.
Fixpoint reliability_rounds (n : nat) (rounds : list bool) (st : bool * ptr) : M (bool * ptr) :=
  match rounds with
  | [] => ret st
  | strong :: rounds =>
      st <~ (if (strong && negb (fst st))%bool then xv <~ malloc n ;; ret (true, xv) else ret st) ;;
      reliability_rounds n rounds st
  end.
Definition reliability_branching (n nv : nat) (rounds : list bool) : M unit :=
  ri <~ malloc nv ;; st <~ reliability_rounds n rounds (false, None) ;; free ri ;;; free (snd st).
