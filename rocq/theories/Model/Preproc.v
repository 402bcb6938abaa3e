(* Model of src/preproc.c: KKT matrix assembly, setup and cleanup.
   MALLOC is assumed to succeed (the code never checks it). *)
From Coq Require Import List Arith Bool ZArith QArith.
From Verif Require Import Base Num.
From Verif.Model Require Import Spla Splamm Types Consts Cone Ldl Equil.
Import ListNotations.
Open Scope nat_scope.

Section Preproc.
Context `{O : Ops}.
Local Open Scope fl_scope.

(* the matrix under construction in createKKT_U: Kjc, Kir, Kpr and the counter k *)
Record kst := mkKst { ks_jc : arr nat; ks_ir : arr nat; ks_pr : arr F; ks_k : nat }.

(* Kir[k] = r; Kpr[k] = v; k++ *)
Definition kput (st : kst) (r : nat) (v : F) : option kst :=
  ir <- set (ks_ir st) (ks_k st) r ;;
  pr <- set (ks_pr st) (ks_k st) v ;;
  Some (mkKst (ks_jc st) ir pr (ks_k st + 1)).

(* Kjc[col] = k *)
Definition kopen (st : kst) (col : nat) : option kst :=
  jc <- set (ks_jc st) col (ks_k st) ;;
  Some (mkKst jc (ks_ir st) (ks_pr st) (ks_k st)).

(* Copy column j of Mt (A' or G') to column col of K, src/preproc.c:203-212,
   233-242, 277-286 and 396-405.  i is the running entry counter of Mt. *)
Definition kcol (Mt : spmat F) (j col : nat) (s : kst * nat * arr nat) : option (kst * nat * arr nat) :=
  let '(st, i, toK) := s in
  row <- get (sp_jc Mt) j ;;
  stop <- get (sp_jc Mt) (j + 1) ;;
  if (row <=? stop)%nat then
    st <- kopen st col ;;
    for_ row stop (fun _ s =>
      let '(st, i, toK) := s in
      r <- get (sp_ir Mt) i ;;
      v <- get (sp_pr Mt) i ;;
      toK <- set toK i (ks_k st) ;;
      st <- kput st r v ;;
      Some (st, (i + 1)%nat, toK)) (st, i, toK)
  else Some s.

(* src/preproc.c:142-172: the sign vector, nK = n+p+m+2*nsoc *)
Definition kkt_signs (n p m : nat) (C : cone F) : option (arr Z) :=
  let nK := (n + p + m + 2 * nsoc C)%nat in
  Sg <- for_ 0 n (fun k Sg => set Sg k 1%Z) (alloc nK) ;;
  Sg <- for_ n (n + p) (fun k Sg => set Sg k (-1)%Z) Sg ;;
  Sg <- for_ (n + p) (n + p + lpp C) (fun k Sg => set Sg k (-1)%Z) Sg ;;
  '(Sg, _) <- for_each (co_soc C) (fun c st =>
      let '(Sg, ks) := st in
      Sg <- for_ 0 (so_p c) (fun i Sg => set Sg (ks + i)%nat (-1)%Z) Sg ;;
      Sg <- set Sg (ks + so_p c)%nat (-1)%Z ;;
      Sg <- set Sg (ks + so_p c + 1)%nat 1%Z ;;
      Some (Sg, (ks + so_p c + 2)%nat)) (Sg, (n + p + lpp C)%nat) ;;
  for_ (nK - 3 * nexc C) nK (fun k Sg => set Sg k (-1)%Z) Sg.

(* src/preproc.c:271-320: one second-order cone; cs is cone_strt, base = n+p+cone_strt+2*l *)
Definition kkt_soc (Gt : spmat F) (c : socone F) (base cs : nat) (s : kst * nat * arr nat)
  : option (socone F * (kst * nat * arr nat)) :=
  let p := so_p c in
  '(s, Didx) <- for_ 0 p (fun j x =>
      let '(s, Didx) := x in
      '(st, i, toK) <- kcol Gt (cs + j) (base + j) s ;;
      Didx <- set Didx j (ks_k st) ;;
      st <- kput st (base + j)%nat (- f1) ;;
      Some ((st, i, toK), Didx)) (s, so_Didx c) ;;
  let '(st, i, toK) := s in
  st <- kopen st (base + p)%nat ;;                                   (* v *)
  st <- for_ 1 p (fun r st => kput st (base + r)%nat f0) st ;;
  st <- kput st (base + p)%nat (- f1) ;;
  st <- kopen st (base + p + 1)%nat ;;                               (* u *)
  st <- for_ 0 p (fun r st => kput st (base + r)%nat f0) st ;;
  st <- kput st (base + p + 1)%nat f1 ;;
  Some (set_so_Didx c Didx, (st, i, toK)).

Fixpoint kkt_socs (Gt : spmat F) (l : list (socone F)) (base cs : nat) (s : kst * nat * arr nat)
  : option (list (socone F) * (kst * nat * arr nat)) :=
  match l with
  | [] => Some ([], s)
  | c :: t =>
      '(c, s) <- kkt_soc Gt c base cs s ;;
      '(t, s) <- kkt_socs Gt t (base + so_p c + 2) (cs + so_p c) s ;;
      Some (c :: t, s)
  end.

(* src/preproc.c:394-422: one exponential cone; base = n+p+exp_cone_strt *)
Definition kkt_exp (Gt : spmat F) (e : expcone F) (base cs : nat) (s : kst * nat * arr nat)
  : option (expcone F * (kst * nat * arr nat)) :=
  '(s, cst) <- for_ 0 3 (fun j x =>
      let '(s, cst) := x in
      '(st, i, toK) <- kcol Gt (cs + j) (base + j) s ;;
      cst <- set cst j (ks_k st) ;;
      st <- for_ 0 j (fun r st => kput st (base + r)%nat f0) st ;;
      st <- kput st (base + j)%nat (- f1) ;;
      Some ((st, i, toK), cst)) (s, ex_colstart e) ;;
  Some (set_ex_colstart e cst, s).

Fixpoint kkt_exps (Gt : spmat F) (l : list (expcone F)) (base cs : nat) (s : kst * nat * arr nat)
  : option (list (expcone F) * (kst * nat * arr nat)) :=
  match l with
  | [] => Some ([], s)
  | e :: t =>
      '(e, s) <- kkt_exp Gt e base cs s ;;
      '(t, s) <- kkt_exps Gt t (base + 3) (cs + 3) s ;;
      Some (e :: t, s)
  end.

(* total size of the second-order cones *)
Definition soc_size (l : list (socone F)) : nat := fold_right (fun c a => (so_p c + a)%nat) 0%nat l.

(* src/preproc.c:77-436 createKKT_U; returns Sign, K, AttoK, GttoK and the cone
   with its index vectors kkt_idx, Didx and colstart filled in *)
Definition createKKT_U (Gt : spmat F) (At : option (spmat F)) (C : cone F) (AttoK GttoK : arr nat)
  : option (arr Z * spmat F * arr nat * arr nat * cone F) :=
  let n := sp_m Gt in
  let m := sp_n Gt in
  let p := match At with Some At => sp_n At | None => 0%nat end in
  let nnzA := match At with Some At => sp_nnz At | None => 0%nat end in
  let nK := (n + p + m + 2 * nsoc C)%nat in
  let nnzK := (nnzA + sp_nnz Gt + lpp C + (n + p)
               + fold_right (fun c a => 3 * so_p c + 1 + a) 0 (co_soc C) + 6 * nexc C)%nat in
  Sign <- kkt_signs n p m C ;;
  let st := mkKst (alloc (nK + 1)) (alloc nnzK) (alloc nnzK) 0 in
  st <- for_ 0 n (fun j st =>                                        (* lines 191-195 *)
      jc <- set (ks_jc st) j j ;;
      ir <- set (ks_ir st) j j ;;
      pr <- set (ks_pr st) (ks_k st) DELTASTAT ;;
      Some (mkKst jc ir pr (ks_k st + 1))) st ;;
  '(st, _, AttoK) <- for_ 0 p (fun j s =>                            (* lines 200-217 *)
      At <- At ;;
      '(st, i, toK) <- kcol At j (n + j) s ;;
      st <- kput st (n + j)%nat (- DELTASTAT) ;;
      Some (st, i, toK)) (st, 0%nat, AttoK) ;;
  '(s, idx) <- for_ 0 (lpp C) (fun j x =>                            (* lines 230-248 *)
      let '(s, idx) := x in
      '(st, i, toK) <- kcol Gt j (n + p + j) s ;;
      idx <- set idx j (ks_k st) ;;
      st <- kput st (n + p + j)%nat (- f1) ;;
      Some ((st, i, toK), idx)) ((st, 0%nat, GttoK), lp_kkt_idx (co_lpc C)) ;;
  '(soc, s) <- kkt_socs Gt (co_soc C) (n + p + lpp C) (lpp C) s ;;
  let cs := (lpp C + soc_size (co_soc C))%nat in
  '(expc, s) <- kkt_exps Gt (co_expc C) (n + p + cs + 2 * nsoc C) cs s ;;
  let '(st, _, GttoK) := s in
  K <- ecoscreateSparseMatrix nK nK nnzK (ks_jc st) (ks_ir st) (ks_pr st) ;;
  Some (Sign, K, AttoK, GttoK, mkCone (set_lp_kkt_idx (co_lpc C) idx) soc expc (co_fexv C)).

(* src/preproc.c:664-712: the cones as setup allocates them.  The code sets
   a and eta to 0 and leaves the other scalars of a second-order cone
   uninitialised. *)
Definition new_soc (p : nat) : socone F :=
  mkSo p (alloc p) (alloc p) (Some f0) None None (Some f0) None (alloc (p - 1)) (alloc p) None None None.
Definition new_exp : expcone F := mkEx (alloc 3) (alloc 6) (alloc 3).
Definition new_cone (l : nat) (q : list nat) (nexc : nat) : cone F :=
  mkCone (mkLp l (alloc l) (alloc l) (alloc l)) (map new_soc q) (repeat new_exp nexc)
    (list_sum q + l).

(* src/preproc.c:761-778 the default settings *)
Definition default_settings : settings F :=
  mkStgs GAMMA DELTA EPS FEASTOL ABSTOL RELTOL FTOL_INACC ATOL_INACC RTOL_INACC
    NITREF MAXIT MAX_BK BK_SCALE CENTRALITY.

(* user data of one sparse matrix: pr, jc, ir (all non-NULL) *)
Definition userdata : Type := (arr F * arr nat * arr nat)%type.

(* AMD_order: given n, jc, ir it returns a permutation or fails *)
Definition amd_oracle := nat -> arr nat -> arr nat -> option (arr nat).

(* src/preproc.c:554-1030 ECOS_setup.  The outer option is undefined behaviour,
   the inner one the NULL return.  A = None is Apr == NULL.  G is given by
   arrays (a missing G, Gpr == NULL, is not modelled).  junk supplies the
   contents of scalars that MALLOC leaves indeterminate.  The dead work arrays
   dzaff, saff, zaff are left out. *)
Definition ECOS_setup (amd : amd_oracle) (junk : pwork F) (n m p l : nat) (q : list nat) (nexc : nat)
  (Gd : userdata) (Ad : option userdata) (c h b : arr F) : option (option (pwork F)) :=
  let C := new_cone l q nexc in
  if negb (Nat.eqb (list_sum q + l + 3 * nexc) m) then Some None else        (* lines 720-726 *)
  A <- (match Ad with
        | Some (Apr, Ajc, Air) =>
            nnz <- get Ajc n ;; A <- ecoscreateSparseMatrix p n nnz Ajc Air Apr ;; Some (Some A)
        | None => Some None
        end) ;;
  G <- (let '(Gpr, Gjc, Gir) := Gd in
        nnz <- get Gjc n ;; ecoscreateSparseMatrix m n nnz Gjc Gir Gpr) ;;
  '(A, G, b, h, eq) <- set_equilibration C A G b h (alloc n, alloc p, alloc m) ;;
  let '(xe, Ae, Ge) := eq in
  '(At, AtoAt) <- (match A with
        | Some A => '(At, mp) <- transposeSparseMatrix A (alloc (sp_nnz A)) ;; Some (Some At, mp)
        | None => Some (None, [])
        end) ;;
  '(Gtr, GtoGt) <- transposeSparseMatrix G (alloc (sp_nnz G)) ;;
  let nnzA := match A with Some A => sp_nnz A | None => 0%nat end in
  '(Sign, KU, AttoK, GttoK, C) <- createKKT_U Gtr At C (alloc nnzA) (alloc (sp_nnz G)) ;;
  AtoK <- for_ 0 nnzA (fun i a => t <- get AtoAt i ;; v <- get AttoK t ;; set a i v) (alloc nnzA) ;;
  GtoK <- for_ 0 (sp_nnz G) (fun i a => t <- get GtoGt i ;; v <- get GttoK t ;; set a i v) (alloc (sp_nnz G)) ;;
  let nK := sp_n KU in
  PKPt <- newSparseMatrix nK nK (sp_nnz KU) ;;
  match amd nK (sp_jc KU) (sp_ir KU) with
  | None => Some None                                                        (* lines 931-942 *)
  | Some P =>
  Pinv <- pinv nK P (alloc nK) ;;
  '(PKPt, PK) <- permuteSparseSymmetricMatrix KU Pinv PKPt (alloc (sp_nnz KU)) ;;
  SignP <- for_ 0 nK (fun i a => pi <- get Pinv i ;; v <- get Sign i ;; set a pi v) (alloc nK) ;;
  '(Ljc, Parent, Lnz, Flag) <- LDL_symbolic2 nK (sp_jc PKPt) (sp_ir PKPt) (alloc (nK + 1)) (alloc nK) (alloc nK) (alloc nK) ;;
  lnz <- get Ljc nK ;;
  L <- ecoscreateSparseMatrix nK nK lnz Ljc (alloc lnz) (alloc lnz) ;;
  (* line 1002: PK is NULL here; an array of the right size is written and dropped *)
  '(PKPt, _) <- permuteSparseSymmetricMatrix KU Pinv PKPt (alloc (sp_nnz KU)) ;;
  let K := mkKkt PKPt L (alloc nK) (alloc nK) (alloc nK) (alloc nK) (alloc nK) (alloc nK) (alloc nK)
             (alloc nK) (alloc nK) (alloc n) (alloc n) (alloc p) (alloc p) (alloc m) (alloc m)
             P Pinv PK Parent SignP (alloc nK) Flag Lnz (kk_delta (w_KKT junk)) in
  Some (Some (mkW n m p (l + length q + 3 * nexc) (alloc n) (alloc p) (alloc m) (alloc m) (alloc m)
    (w_kap junk) (w_tau junk) (alloc n) (alloc p) (alloc m) (alloc m) None
    (alloc m) (alloc m) (alloc m) C A G c b h AtoK GtoK xe Ae Ge
    (w_resx0 junk) (w_resy0 junk) (w_resz0 junk) (alloc n) (alloc p) (alloc m) (w_rt junk)
    (w_hresx junk) (w_hresy junk) (w_hresz junk) (w_nx junk) (w_ny junk) (w_nz junk) (w_ns junk)
    (w_cx junk) (w_by junk) (w_hz junk) K (w_info junk) default_settings))
  end.

(* src/preproc.c:446-547 ECOS_cleanup: what the caller finds in G, A, h, b
   afterwards (the deallocation itself is modelled in Model/Heap.v) *)
Definition ECOS_cleanup_data (w : pwork F) : option (option (spmat F) * spmat F * arr F * arr F) :=
  unset_equilibration (w_A w) (w_G w) (w_b w) (w_h w) (w_xequil w, w_Aequil w, w_Gequil w).

End Preproc.
