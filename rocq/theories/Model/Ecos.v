(* Model of src/ecos.c: residuals, statistics, exit tests, line searches and
   the interior point loop.  Printing and timing are not modelled. *)
From Coq Require Import List Arith Bool ZArith QArith.
From Verif Require Import Base Num.
From Verif.Model Require Import Spla Types Consts Expcone Cone Ldl Kkt Equil.
Import ListNotations.
Open Scope nat_scope.

Section Ecos.
Context `{O : Ops}.
Local Open Scope fl_scope.

Notation W := (pwork F).

(* src/ecos.c:61-101 compareStatistics.  ECOS_NAN is a NaN, so "x != ECOS_NAN"
   is the negation of C's == against it. *)
Definition cmp_branch1 (A : stats F) (B : best F) : bool :=
  (st_gap A >? f0) && (be_gap B >? f0) && (st_gap A <? be_gap B) &&
  ((st_pinfres A >? f0) && (st_pinfres A <? be_pres B)) &&
  ((st_mu A >? f0) && (st_mu A <? be_mu B)).
Definition cmp_branch2 (A : stats F) (B : best F) : bool :=
  (st_gap A >? f0) && (be_gap B >? f0) && (st_gap A <? be_gap B) &&
  ((st_mu A >? f0) && (st_mu A <? be_mu B)).
Definition cmp_branch3 (A : stats F) (B : best F) : bool :=
  (st_gap A >? f0) && (be_gap B >? f0) && (st_gap A <? be_gap B) &&
  ((st_pres A >? f0) && (st_pres A <? be_pres B)) &&
  ((st_dres A >? f0) && (st_dres A <? be_dres B)) &&
  ((st_kapovert A >? f0) && (st_kapovert A <? be_kapovert B)) &&
  ((st_mu A >? f0) && (st_mu A <? be_mu B)).
Definition compareStatistics (A : stats F) (B : best F) : bool :=
  if negb (st_pinfres A ==? fnan) && (st_kapovert A >? f1) then
    if negb (be_pinfres B ==? fnan) then cmp_branch1 A B else cmp_branch2 A B
  else cmp_branch3 A B.

(* dst[i] = src[i] for i < n *)
Definition copy (n : nat) (src dst : arr F) : option (arr F) :=
  for_ 0 n (fun i d => v <- get src i ;; set d i v) dst.

(* src/ecos.c:105-128 saveIterateAsBest *)
Definition saveIterateAsBest (w : W) : option W :=
  bx <- copy (w_n w) (w_x w) (w_best_x w) ;;
  by_ <- copy (w_p w) (w_y w) (w_best_y w) ;;
  bz <- copy (w_m w) (w_z w) (w_best_z w) ;;
  bs <- copy (w_m w) (w_s w) (w_best_s w) ;;
  let i := w_info w in
  let b := mkBest (w_kap w) (w_tau w) (w_cx w) (w_by w) (w_hz w)
    (st_pcost i) (st_dcost i) (st_pres i) (st_dres i) (st_pinfres i) (st_dinfres i)
    (st_gap i) (st_relgap i) (st_mu i) (st_kapovert i) (st_iter i) in
  Some (set_w_best (set_w_best_s (set_w_best_z (set_w_best_y (set_w_best_x w bx) by_) bz) bs) (Some b)).

(* src/ecos.c:135-157 restoreBestIterate *)
Definition restoreBestIterate (w : W) : option W :=
  x <- copy (w_n w) (w_best_x w) (w_x w) ;;
  y <- copy (w_p w) (w_best_y w) (w_y w) ;;
  z <- copy (w_m w) (w_best_z w) (w_z w) ;;
  s <- copy (w_m w) (w_best_s w) (w_s w) ;;
  b <- w_best w ;;
  let i := w_info w in
  let i := mkStats (be_pcost b) (be_dcost b) (be_pres b) (be_dres b) (st_pinf i) (st_dinf i)
    (be_pinfres b) (be_dinfres b) (be_gap b) (be_relgap b) (st_sigma i) (be_mu b)
    (st_step i) (st_step_aff i) (be_kapovert b) (st_iter i) (st_nitref1 i) (st_nitref2 i) (st_nitref3 i)
    (st_pob i) (st_cb i) (st_cob i) (st_pb i) (st_db i) (st_affBack i) (st_cmbBack i) (st_centrality i) in
  let w := set_w_s (set_w_z (set_w_y (set_w_x w x) y) z) s in
  let w := set_w_tau (set_w_kap w (be_kap b)) (be_tau b) in
  let w := set_w_hz (set_w_by (set_w_cx w (be_cx b)) (be_by b)) (be_hz b) in
  Some (set_w_info w i).

(* the three tolerances used by checkExitConditions, src/ecos.c:186-196 *)
Definition tols (g : settings F) (mode : Z) : F * F * F :=
  if (mode =? 0)%Z then (sg_feastol g, sg_abstol g, sg_reltol g)
  else (sg_feastol_inacc g, sg_abstol_inacc g, sg_reltol_inacc g).

Definition test_optimal (w : W) (mode : Z) : bool :=              (* src/ecos.c:199-201 *)
  let '(feastol, abstol, reltol) := tols (w_stgs w) mode in
  let i := w_info w in
  ((- w_cx w >? f0) || (- w_by w - w_hz w >=? - abstol)) &&
  ((st_pres i <? feastol) && (st_dres i <? feastol)) &&
  ((st_gap i <? abstol) || (st_relgap i <? reltol)).
Definition test_dinf (w : W) (mode : Z) : bool :=                 (* src/ecos.c:217 *)
  let '(feastol, _, _) := tols (w_stgs w) mode in
  let i := w_info w in
  negb (st_dinfres i ==? fnan) && (st_dinfres i <? feastol) && (w_tau w <? w_kap w).
Definition test_pinf (w : W) (mode : Z) : bool :=                 (* src/ecos.c:233-234 *)
  let '(feastol, _, _) := tols (w_stgs w) mode in
  let i := w_info w in
  let ft := sg_feastol (w_stgs w) in
  (negb (st_pinfres i ==? fnan) && (st_pinfres i <? feastol) && (w_tau w <? w_kap w)) ||
  ((w_tau w <? ft) && (w_kap w <? ft) && (st_pinfres i <? ft)).

Definition set_flags (w : W) (pinf dinf : F) : W :=
  set_w_info w (set_st_dinf (set_st_pinf (w_info w) pinf) dinf).

(* src/ecos.c:179-254 checkExitConditions *)
Definition checkExitConditions (w : W) (mode : Z) : Z * W :=
  if test_optimal w mode then ((ECOS_OPTIMAL + mode)%Z, set_flags w f0 f0)
  else if test_dinf w mode then ((ECOS_DINF + mode)%Z, set_flags w f0 f1)
  else if test_pinf w mode then ((ECOS_PINF + mode)%Z, set_flags w f1 f0)
  else (ECOS_NOT_CONVERGED_YET, w).

(* dst[Pinv[k+i]] = f i for i < cnt *)
Definition scatter (Pinv : arr nat) (k cnt : nat) (f : nat -> option F) (dst : arr F) : option (arr F) :=
  for_ 0 cnt (fun i dst => pk <- get Pinv (k + i)%nat ;; v <- f i ;; set dst pk v) dst.

(* the part of init and RHS_affine/RHS_combined that fills the conic rows of a
   right-hand side: LP rows, then for every second-order cone its rows and two
   zeros, then the exponential cones; k indexes Pinv, j the conic vector *)
Definition rhs_conic (Pinv : arr nat) (C : cone F) (k : nat) (f : nat -> option F) (R : arr F)
  : option (arr F) :=
  R <- scatter Pinv k (lpp C) f R ;;
  '(R, k, j) <- for_each (co_soc C) (fun c st =>
      let '(R, k, j) := st in
      R <- scatter Pinv k (so_p c) (fun i => f (j + i)%nat) R ;;
      R <- scatter Pinv (k + so_p c) 2 (fun _ => Some f0) R ;;
      Some (R, (k + so_p c + 2)%nat, (j + so_p c)%nat)) (R, (k + lpp C)%nat, lpp C) ;;
  '(R, _, _) <- for_each (co_expc C) (fun _ st =>
      let '(R, k, j) := st in
      R <- scatter Pinv k 3 (fun i => f (j + i)%nat) R ;;
      Some (R, (k + 3)%nat, (j + 3)%nat)) (R, k, j) ;;
  Some R.

(* src/ecos.c:273-318: first part of init, up to the problem scalings *)
Definition init_rhs (w : W) : option W :=
  let K := w_KKT w in
  let K := set_kk_delta K (sg_delta (w_stgs w)) in
  pr <- kkt_init (sp_pr (kk_PKPt K)) (kk_PK K) (w_C w) ;;
  let K := set_kk_PKPt K (with_pr (kk_PKPt K) pr) in
  let Pinv := kk_Pinv K in
  let n := w_n w in let p := w_p w in
  R1 <- scatter Pinv 0 n (fun _ => Some f0) (kk_RHS1 K) ;;
  R1 <- scatter Pinv n p (fun i => get (w_b w) i) R1 ;;
  R1 <- rhs_conic Pinv (w_C w) (n + p) (fun j => get (w_h w) j) R1 ;;
  R2 <- scatter Pinv 0 n (fun i => c <- get (w_c w) i ;; Some (- c)) (kk_RHS2 K) ;;
  R2 <- scatter Pinv n (sp_n (kk_PKPt K) - n) (fun _ => Some f0) R2 ;;
  let w := set_w_KKT w (set_kk_RHS2 (set_kk_RHS1 K R1) R2) in
  rx <- norm2 (w_c w) n ;;
  ry <- norm2 (w_b w) p ;;
  rz <- norm2 (w_h w) (w_m w) ;;
  Some (set_w_resz0 (set_w_resy0 (set_w_resx0 w (fmax f1 rx)) (fmax f1 ry)) (fmax f1 rz)).

Definition set_info (w : W) (f : stats F -> stats F) : W := set_w_info w (f (w_info w)).

(* src/ecos.c:325-414: starting point when there are no exponential cones *)
Definition init_mehrotra (w : W) : option (bool * W) :=
  let g := w_stgs w in
  '(ok, K) <- kkt_factor (w_KKT w) (sg_eps g) (sg_delta g) ;;
  let w := set_w_KKT w K in
  if negb ok then Some (false, w) else
  '(it, K, dx, dy, dz) <- kkt_solve K (w_A w) (w_G w) (kk_RHS1 K) (kk_dx1 K) (kk_dy1 K) (kk_dz1 K)
     (w_n w) (w_p w) (w_m w) (w_C w) true (sg_nitref g) ;;
  let w := set_info w (fun i => set_st_nitref1 i it) in
  let K := set_kk_dz1 (set_kk_dy1 (set_kk_dx1 K dx) dy) dz in
  x <- copy (w_n w) dx (w_x w) ;;
  w1 <- for_ 0 (w_m w) (fun i a => d <- get dz i ;; set a i (- d)) (kk_work1 K) ;;
  let K := set_kk_work1 K w1 in
  s <- bring2cone (w_C w) w1 (w_s w) ;;
  '(it, K, dx, dy, dz) <- kkt_solve K (w_A w) (w_G w) (kk_RHS2 K) (kk_dx2 K) (kk_dy2 K) (kk_dz2 K)
     (w_n w) (w_p w) (w_m w) (w_C w) true (sg_nitref g) ;;
  let w := set_info w (fun i => set_st_nitref2 i it) in
  let K := set_kk_dz2 (set_kk_dy2 (set_kk_dx2 K dx) dy) dz in
  y <- copy (w_p w) dy (w_y w) ;;
  z <- bring2cone (w_C w) dz (w_z w) ;;
  Some (true, set_w_KKT (set_w_z (set_w_y (set_w_s (set_w_x w x) s) y) z) K).

(* src/ecos.c:417-425: starting point with exponential cones *)
Definition init_unit (w : W) : option W :=
  '(s, z) <- unitInitialization (w_C w) (w_s w) (w_z w) f1 ;;
  y <- fill (w_p w) f0 (w_y w) ;;
  x <- fill (w_n w) f0 (w_x w) ;;
  let w := set_w_x (set_w_y (set_w_z (set_w_s w s) z) y) x in
  Some (set_info w (fun i => set_st_nitref2 (set_st_nitref1 i 0%Z) 0%Z)).

(* src/ecos.c:260-443 init; the flag is false for ECOS_FATAL *)
Definition init (w : W) : option (bool * W) :=
  w <- init_rhs w ;;
  '(ok, w) <- (if Nat.eqb (nexc (w_C w)) 0 then init_mehrotra w
               else w <- init_unit w ;; Some (true, w)) ;;
  if negb ok then Some (false, w) else
  let K := w_KKT w in
  R1 <- scatter (kk_Pinv K) 0 (w_n w) (fun i => c <- get (w_c w) i ;; Some (- c)) (kk_RHS1 K) ;;
  let w := set_w_KKT w (set_kk_RHS1 K R1) in
  let w := set_w_tau (set_w_kap w f1) f1 in
  let w := set_info w (fun i => set_st_pinf (set_st_dinf (set_st_step_aff (set_st_step i f0) f0) f0) f0) in
  Some (true, w).

(* src/ecos.c:455-495 computeResiduals *)
Definition computeResiduals (w : W) : option W :=
  let n := w_n w in let m := w_m w in let p := w_p w in
  rx <- (if Nat.ltb 0 p then
           A <- w_A w ;;
           rx <- sparseMtVm A (w_y w) (w_rx w) 1 false ;;
           sparseMtVm (w_G w) (w_z w) rx 0 false
         else sparseMtVm (w_G w) (w_z w) (w_rx w) 1 false) ;;
  hresx <- norm2 rx n ;;
  rx <- vsubscale n (w_tau w) (w_c w) rx ;;
  '(ry, hresy) <- (if Nat.ltb 0 p then
           A <- w_A w ;;
           ry <- sparseMV A (w_x w) (w_ry w) 1 1 ;;
           hresy <- norm2 ry p ;;
           ry <- vsubscale p (w_tau w) (w_b w) ry ;;
           Some (ry, hresy)
         else Some (w_ry w, f0)) ;;
  rz <- sparseMV (w_G w) (w_x w) (w_rz w) 1 1 ;;
  rz <- vadd m (w_s w) rz ;;
  hresz <- norm2 rz m ;;
  rz <- vsubscale m (w_tau w) (w_h w) rz ;;
  cx <- eddot n (w_c w) (w_x w) ;;
  by_ <- (if Nat.ltb 0 p then eddot p (w_b w) (w_y w) else Some f0) ;;
  hz <- eddot m (w_h w) (w_z w) ;;
  let rt := w_kap w + cx + by_ + hz in
  nx <- norm2 (w_x w) n ;;
  ny <- norm2 (w_y w) p ;;
  ns <- norm2 (w_s w) m ;;
  nz <- norm2 (w_z w) m ;;
  let w := set_w_rz (set_w_ry (set_w_rx w rx) ry) rz in
  let w := set_w_hresz (set_w_hresy (set_w_hresx w hresx) hresy) hresz in
  let w := set_w_rt (set_w_hz (set_w_by (set_w_cx w cx) by_) hz) rt in
  Some (set_w_nz (set_w_ns (set_w_ny (set_w_nx w nx) ny) ns) nz).

(* src/ecos.c:502-542 updateStatistics *)
Definition updateStatistics (w : W) : option W :=
  let n := w_n w in let m := w_m w in let p := w_p w in
  gap <- eddot m (w_s w) (w_z w) ;;
  let mu := (gap + w_kap w * w_tau w) / fofn (w_D w + 1) in
  let kapovert := w_kap w / w_tau w in
  let pcost := w_cx w / w_tau w in
  let dcost := - (w_hz w + w_by w) / w_tau w in
  let relgap := if pcost <? f0 then gap / (- pcost)
                else if dcost >? f0 then gap / dcost else fnan in
  nry <- (if Nat.ltb 0 p then
            nr <- norm2 (w_ry w) p ;; Some (nr / fmax (w_resy0 w + w_nx w) f1)
          else Some f0) ;;
  nrz <- norm2 (w_rz w) m ;;
  let nrz := nrz / fmax (w_resz0 w + w_nx w + w_ns w) f1 in
  let pres := fmax nry nrz / w_tau w in
  nrx <- norm2 (w_rx w) n ;;
  let dres := nrx / fmax (w_resx0 w + w_ny w + w_nz w) f1 / w_tau w in
  let reltol := sg_reltol (w_stgs w) in
  let pinfres := if (w_hz w + w_by w) / fmax (w_ny w + w_nz w) f1 <? - reltol
                 then w_hresx w / fmax (w_ny w + w_nz w) f1 else fnan in
  let dinfres := if w_cx w / fmax (w_nx w) f1 <? - reltol
                 then fmax (w_hresy w / fmax (w_nx w) f1) (w_hresz w / fmax (w_nx w + w_ns w) f1)
                 else fnan in
  let i := w_info w in
  Some (set_w_info w (mkStats pcost dcost pres dres (st_pinf i) (st_dinf i) pinfres dinfres gap relgap
    (st_sigma i) mu (st_step i) (st_step_aff i) kapovert (st_iter i) (st_nitref1 i) (st_nitref2 i) (st_nitref3 i)
    (st_pob i) (st_cb i) (st_cob i) (st_pb i) (st_db i) (st_affBack i) (st_cmbBack i) (st_centrality i))).

(* src/ecos.c:648-681 RHS_affine; returns RHS2 *)
Definition RHS_affine (w : W) : option (arr F) :=
  let K := w_KKT w in
  let Pinv := kk_Pinv K in
  let n := w_n w in let p := w_p w in
  R <- scatter Pinv 0 n (fun i => get (w_rx w) i) (kk_RHS2 K) ;;
  R <- scatter Pinv n p (fun i => r <- get (w_ry w) i ;; Some (- r)) R ;;
  rhs_conic Pinv (w_C w) (n + p) (fun j => s <- get (w_s w) j ;; r <- get (w_rz w) j ;; Some (s - r)) R.

(* src/ecos.c:733-746: the exponential part of RHS_combined for one cone.
   Returns the updated cone (g) and RHS2. *)
Definition rhs_comb_exp (Pinv : arr nat) (s rz : arr F) (oms sigmamu : F) (e : expcone F) (k j : nat) (R : arr F)
  : option (expcone F * arr F) :=
  '(g, R) <- for_ 0 3 (fun i st =>
      let '(g, R) := st in
      si <- get s (j + i)%nat ;;
      gi <- get g i ;;
      g <- set g i (si + sigmamu * gi) ;;
      gi <- get g i ;;
      ri <- get rz (j + i)%nat ;;
      pk <- get Pinv (k + i)%nat ;;
      R <- set R pk (- oms * ri + gi) ;;
      Some (g, R)) (ex_g e, R) ;;
  Some (mkEx (ex_colstart e) (ex_v e) g, R).

Fixpoint rhs_comb_exps (Pinv : arr nat) (s rz : arr F) (oms sigmamu : F) (l : list (expcone F)) (k j : nat) (R : arr F)
  : option (list (expcone F) * arr F) :=
  match l with
  | [] => Some ([], R)
  | e :: t =>
      '(e, R) <- rhs_comb_exp Pinv s rz oms sigmamu e k j R ;;
      '(t, R) <- rhs_comb_exps Pinv s rz oms sigmamu t (k + 3) (j + 3) R ;;
      Some (e :: t, R)
  end.

(* src/ecos.c:688-752 RHS_combined *)
Definition RHS_combined (w : W) : option W :=
  let K := w_KKT w in
  let C := w_C w in
  let i := w_info w in
  let n := w_n w in let p := w_p w in
  let sigmamu := st_sigma i * st_mu i in
  let oms := f1 - st_sigma i in
  let Pinv := kk_Pinv K in
  '(_, ds1) <- conicProduct (w_lambda w) (w_lambda w) C (kk_work1 K) ;;
  '(_, ds2) <- conicProduct (w_dsaff_by_W w) (w_W_times_dzaff w) C (kk_work2 K) ;;
  ds1 <- for_ 0 (lpp C) (fun i ds1 =>
      a <- get ds1 i ;; b <- get ds2 i ;; set ds1 i (a + (b - sigmamu))) ds1 ;;
  '(ds1, _) <- for_each (co_soc C) (fun c st =>
      let '(ds1, k) := st in
      a <- get ds1 k ;; b <- get ds2 k ;;
      ds1 <- set ds1 k (a + (b - sigmamu)) ;;
      ds1 <- for_ 1 (so_p c) (fun j ds1 =>
          a <- get ds1 (k + j)%nat ;; b <- get ds2 (k + j)%nat ;; set ds1 (k + j)%nat (a + b)) ds1 ;;
      Some (ds1, (k + Nat.max 1 (so_p c))%nat)) (ds1, lpp C) ;;
  dsw <- conicDivision (w_lambda w) ds1 C (w_dsaff_by_W w) ;;
  ds1 <- scale dsw C ds1 ;;
  (* lines 712-727: copy in RHS *)
  R <- for_ 0 (n + p) (fun i R =>
      pk <- get Pinv i ;; r <- get R pk ;; set R pk (r * oms)) (kk_RHS2 K) ;;
  let val := fun j => r <- get (w_rz w) j ;; d <- get ds1 j ;; Some (- oms * r + d) in
  R <- scatter Pinv (n + p) (lpp C) val R ;;
  '(R, k, _) <- for_each (co_soc C) (fun c st =>
      let '(R, k, j) := st in
      R <- scatter Pinv k (so_p c) (fun i => val (j + i)%nat) R ;;
      R <- scatter Pinv (k + so_p c) 2 (fun _ => Some f0) R ;;
      Some (R, (k + so_p c + 2)%nat, (j + so_p c)%nat)) (R, (n + p + lpp C)%nat, lpp C) ;;
  '(expc, R) <- rhs_comb_exps Pinv (w_s w) (w_rz w) oms sigmamu (co_expc C) k (co_fexv C) R ;;
  let K := set_kk_RHS2 (set_kk_work2 (set_kk_work1 K ds1) ds2) R in
  Some (set_w_KKT (set_w_dsaff_by_W (set_w_C w (set_co_expc C expc)) dsw) K).

(* src/ecos.c:947-1043 lineSearch; the second-order part for one cone.
   [None] is the "continue" of line 1004, which also skips the update of cone_start. *)
Definition ls_soc (lambda ds dz : arr F) (k p : nat) (work1 work2 : arr F) (alpha : F)
  : option (option (F * arr F * arr F)) :=
  l0 <- get lambda k ;;
  d <- eddot_at (p - 1) (k + 1) lambda lambda ;;
  let lknorm2 := l0 * l0 - d in
  if lknorm2 <=? f0 then Some None else
  let lknorm := fsqrt lknorm2 in
  lkbar <- for_ 0 p (fun j b => l <- get lambda (k + j)%nat ;; set b j (l / lknorm)) work1 ;;
  let lknorminv := f1 / lknorm in
  lb0 <- get lkbar 0%nat ;;
  ds0 <- get ds k ;;
  lds <- for_ 1 p (fun j a => b <- get lkbar j ;; x <- get ds (k + j)%nat ;; Some (a - b * x)) (lb0 * ds0) ;;
  dz0 <- get dz k ;;
  ldz <- for_ 1 p (fun j a => b <- get lkbar j ;; x <- get dz (k + j)%nat ;; Some (a - b * x)) (lb0 * dz0) ;;
  rho <- set work2 0 (lknorminv * lds) ;;
  let factor := (lds + ds0) / (lb0 + f1) in
  rho <- for_ 1 p (fun j r => x <- get ds (k + j)%nat ;; b <- get lkbar j ;;
      set r j (lknorminv * (x - factor * b))) rho ;;
  nr <- for_ 0 (p - 1) (fun j s => r <- get rho (1 + j)%nat ;; Some (s + r * r)) f0 ;;   (* norm2(rho+1,..) *)
  r0 <- get rho 0%nat ;;
  let rhonorm := fsqrt nr - r0 in
  sigma <- set rho 0 (lknorminv * ldz) ;;
  let factor := (ldz + dz0) / (lb0 + f1) in
  sigma <- for_ 1 p (fun j r => x <- get dz (k + j)%nat ;; b <- get lkbar j ;;
      set r j (lknorminv * (x - factor * b))) sigma ;;
  nr <- for_ 0 (p - 1) (fun j s => r <- get sigma (1 + j)%nat ;; Some (s + r * r)) f0 ;;
  s0 <- get sigma 0%nat ;;
  let sigmanorm := fsqrt nr - s0 in
  let conic_step := f0 in
  let conic_step := if rhonorm >? conic_step then rhonorm else conic_step in
  let conic_step := if sigmanorm >? conic_step then sigmanorm else conic_step in
  let alpha :=
    if negb (conic_step ==? f0) then
      let temp := f1 / conic_step in
      if temp <? alpha then temp else alpha
    else alpha in
  Some (Some (alpha, lkbar, sigma)).

Fixpoint ls_socs (lambda ds dz : arr F) (l : list (socone F)) (k : nat) (work1 work2 : arr F) (alpha : F)
  : option (F * arr F * arr F) :=
  match l with
  | [] => Some (alpha, work1, work2)
  | c :: t =>
      r <- ls_soc lambda ds dz k (so_p c) work1 work2 alpha ;;
      match r with
      | None => ls_socs lambda ds dz t k work1 work2 alpha
      | Some (alpha, work1, work2) => ls_socs lambda ds dz t (k + so_p c) work1 work2 alpha
      end
  end.

(* src/ecos.c:947-1043 lineSearch; returns alpha, work1, work2 *)
Definition lineSearch (lambda ds dz : arr F) (tau dtau kap dkap : F) (C : cone F) (work1 work2 : arr F)
  : option (F * arr F * arr F) :=
  let minus_tau_by_dtau := - tau / dtau in
  let minus_kap_by_dkap := - kap / dkap in
  '(alpha, work2) <- (if Nat.ltb 0 (lpp C) then                      (* lines 962-975 *)
      d0 <- get ds 0 ;; l0 <- get lambda 0 ;; e0 <- get dz 0 ;;
      '(rhomin, sigmamin, work2) <- for_ 1 (lpp C) (fun i st =>
          let '(rhomin, sigmamin, work2) := st in
          di <- get ds i ;; li <- get lambda i ;; ei <- get dz i ;;
          let r := di / li in
          work2 <- set work2 0 r ;;
          let rhomin := if r <? rhomin then r else rhomin in
          let sg := ei / li in
          work2 <- set work2 0 sg ;;
          let sigmamin := if sg <? sigmamin then sg else sigmamin in
          Some (rhomin, sigmamin, work2)) (d0 / l0, e0 / l0, work2) ;;
      Some (if - sigmamin >? - rhomin then
              (if sigmamin <? f0 then f1 / (- sigmamin) else f1 / EPS)
            else
              (if rhomin <? f0 then f1 / (- rhomin) else f1 / EPS), work2)
    else Some (fconst 10, work2)) ;;
  let alpha := if (minus_tau_by_dtau >? f0) && (minus_tau_by_dtau <? alpha)
               then minus_tau_by_dtau else alpha in                  (* lines 981-984 *)
  let alpha := if (minus_kap_by_dkap >? f0) && (minus_kap_by_dkap <? alpha)
               then minus_kap_by_dkap else alpha in
  '(alpha, work1, work2) <- ls_socs lambda ds dz (co_soc C) (lpp C) work1 work2 alpha ;;
  let alpha := if alpha >? STEPMAX then STEPMAX else alpha in        (* lines 1038-1039 *)
  let alpha := if alpha <? STEPMIN then STEPMIN else alpha in
  Some (alpha, work1, work2).

(* the literal 1e300 *)
Definition big300 : F := fconst (inject_Z (Z.pow 10 300)).

(* sum of three products written out in the code as a*b+c*d+e*f, src/ecos.c:852 and 860 *)
Definition mui_at (ws wz : arr F) (j : nat) : option F :=
  a0 <- get ws j ;; b0 <- get wz j ;;
  a1 <- get ws (j+1)%nat ;; b1 <- get wz (j+1)%nat ;;
  a2 <- get ws (j+2)%nat ;; b2 <- get wz (j+2)%nat ;;
  Some ((a0*b0 + a1*b1 + a2*b2) / fconst 3).

(* src/ecos.c:854-864: the while loop over the mu_i; returns the final j *)
Fixpoint mui_while (fuel : nat) (ws wz : arr F) (m : nat) (lim mui : F) (j : nat) : option nat :=
  match fuel with
  | 0%nat => None
  | Datatypes.S fuel =>
      if (mui >? lim) && Nat.ltb (j + 2) m then
        let j := (j + 3)%nat in
        mui <- (if Nat.ltb j m then mui_at ws wz j else Some mui) ;;
        mui_while fuel ws wz m lim mui j
      else Some j
  end.

(* src/ecos.c:825-936, the backtracking loop; fuel = max_bk_iter - bk_iter.
   Counters cb, cob, pb, db and centrality live in info. *)
Fixpoint bk_loop (fuel : nat) (w : W) (dtau dkappa alpha : F) (ws wz : arr F) (i : stats F)
  : option (F * arr F * arr F * stats F) :=
  match fuel with
  | 0%nat => Some (fconst (-1), ws, wz, i)                          (* line 941 *)
  | Datatypes.S fuel =>
      let tau := w_tau w in let kap := w_kap w in let m := w_m w in
      let C := w_C w in let g := w_stgs w in
      '(ws, wz, mu) <- for_ 0 m (fun j st =>                         (* lines 827-834 *)
          let '(ws, wz, mu) := st in
          s <- get (w_s w) j ;; ds <- get (w_dsaff w) j ;;
          z <- get (w_z w) j ;; dz <- get (kk_dz2 (w_KKT w)) j ;;
          let a := s + alpha * ds in
          let b := z + alpha * dz in
          ws <- set ws j a ;;
          wz <- set wz j b ;;
          Some (ws, wz, mu + a * b)) (ws, wz, f0) ;;
      let mu := mu + (tau + alpha * dtau) * (kap + alpha * dkappa) in
      let mu := mu / fofn (w_D w + 1) in
      dual <- evalExpDualFeas wz (co_fexv C) (nexc C) ;;
      if dual then
        prim <- evalExpPrimalFeas ws (co_fexv C) (nexc C) ;;
        if prim then
          mui <- mui_at ws wz (co_fexv C) ;;
          j <- mui_while (Datatypes.S m) ws wz m (MIN_DISTANCE * mu) mui (co_fexv C) ;;
          if Nat.eqb j m then
            b1 <- evalBarrierValue ws wz (co_fexv C) (nexc C) ;;
            b2 <- evalSymmetricBarrierValue ws wz (tau + alpha * dtau) (kap + alpha * dkappa) C (fofn (w_D w)) ;;
            let barrier := b1 + b2 in
            let cent := barrier + fofn (w_D w + 1) * flog mu + fofn (w_D w + 1) in
            let i := set_st_centrality i cent in
            if cent <? sg_centrality g then Some (alpha * sg_gamma g, ws, wz, i)
            else bk_loop fuel w dtau dkappa (alpha * sg_bk_scale g) ws wz (set_st_cb i (st_cb i + 1)%Z)
          else bk_loop fuel w dtau dkappa (alpha * sg_bk_scale g) ws wz (set_st_cob i (st_cob i + 1)%Z)
        else bk_loop fuel w dtau dkappa (alpha * sg_bk_scale g) ws wz (set_st_pb i (st_pb i + 1)%Z)
      else bk_loop fuel w dtau dkappa (alpha * sg_bk_scale g) ws wz (set_st_db i (st_db i + 1)%Z)
  end.

(* src/ecos.c:761-942 expConeLineSearch *)
Definition expConeLineSearch (w : W) (dtau dkappa : F) (affine : bool) : option (F * W) :=
  let i := w_info w in
  let alpha := if affine then st_step_aff i else st_step i in
  let i := set_st_centrality i big300 in
  let i := set_st_db (set_st_pb (set_st_cob (set_st_cb (set_st_pob i 0%Z) 0%Z) 0%Z) 0%Z) 0%Z in
  let K := w_KKT w in
  '(a, ws, wz, i) <- bk_loop (Z.to_nat (sg_max_bk_iter (w_stgs w))) w dtau dkappa alpha (kk_work1 K) (kk_work2 K) i ;;
  Some (a, set_w_info (set_w_KKT w (set_kk_work2 (set_kk_work1 K ws) wz)) i).

(* src/ecos.c:1051-1068 backscale *)
Definition backscale (w : W) : option W :=
  let tau := w_tau w in
  x <- for_ 0 (w_n w) (fun i a => v <- get a i ;; e <- get (w_xequil w) i ;; set a i (v / (e * tau))) (w_x w) ;;
  y <- for_ 0 (w_p w) (fun i a => v <- get a i ;; e <- get (w_Aequil w) i ;; set a i (v / (e * tau))) (w_y w) ;;
  z <- for_ 0 (w_m w) (fun i a => v <- get a i ;; e <- get (w_Gequil w) i ;; set a i (v / (e * tau))) (w_z w) ;;
  s <- for_ 0 (w_m w) (fun i a => v <- get a i ;; e <- get (w_Gequil w) i ;; set a i (v * (e / tau))) (w_s w) ;;
  c <- for_ 0 (w_n w) (fun i a => v <- get a i ;; e <- get (w_xequil w) i ;; set a i (v * e)) (w_c w) ;;
  Some (set_w_c (set_w_s (set_w_z (set_w_y (set_w_x w x) y) z) s) c).

(* what happens at a point of the main loop: go on, break with an exit code, or return *)
Inductive verdict := VGo | VBreak (code : Z) | VReturn (code : Z).

(* restoreBestIterate, checkExitConditions(w, ECOS_INACC_OFFSET), and the code
   for "not even reduced precision" *)
Definition recover (w : W) (restore : bool) (fallback : Z) : option (Z * W) :=
  w <- (if restore then restoreBestIterate w else Some w) ;;
  let '(code, w) := checkExitConditions w ECOS_INACC_OFFSET in
  Some (if (code =? ECOS_NOT_CONVERGED_YET)%Z then fallback else code, w).

(* compareStatistics( w->info, w->best_info ): best_info is read, so it must be initialised *)
Definition better (w : W) : option bool :=
  b <- w_best w ;; Some (compareStatistics (w_info w) b).

(* src/ecos.c:1126-1271: residuals, statistics and exit tests of one iteration.
   Returns the verdict and the new pres_prev. *)
Definition iter_exit (interrupted : bool) (pres_prev : F) (w : W) : option (verdict * F * W) :=
  w <- computeResiduals w ;;
  w <- updateStatistics w ;;
  let i := w_info w in
  if ((0 <? st_iter i)%Z && ((st_pres i >? SAFEGUARD * pres_prev) || (st_gap i <? f0)))%bool then
    '(code, w) <- recover w true ECOS_NUMERICS ;;
    Some (VBreak code, pres_prev, w)
  else
  let pres_prev := st_pres i in
  let '(code, w) := checkExitConditions w 0 in
  if negb (code =? ECOS_NOT_CONVERGED_YET)%Z then Some (VBreak code, pres_prev, w) else
  if ((0 <? st_iter i)%Z && (st_step i ==? STEPMIN * GAMMA))%bool then
    '(code, w) <- recover w true ECOS_NUMERICS ;;
    Some (VBreak code, pres_prev, w)
  else if (interrupted || (st_iter i =? sg_maxit (w_stgs w))%Z)%bool then
    b <- better w ;;
    '(code, w) <- recover w (negb b) (if interrupted then ECOS_SIGINT else ECOS_MAXIT) ;;
    Some (VBreak code, pres_prev, w)
  else if fisnan (st_pcost i) then
    b <- better w ;;
    '(code, w) <- recover w (negb b) ECOS_NUMERICS ;;
    Some (VBreak code, pres_prev, w)
  else Some (VGo, pres_prev, w).

(* src/ecos.c:1275-1285: keep the iterate as best so far? *)
Definition iter_save (w : W) : option W :=
  if (st_iter (w_info w) =? 0)%Z then saveIterateAsBest w
  else b <- better w ;; if b then saveIterateAsBest w else Some w.

(* cells of an array, initialised or not: a computation on malloc'ed memory
   that was never written yields a cell that is still indeterminate *)
Definition cell2 (f : F -> F -> F) (m : nat) (a b d : arr F) : option (arr F) :=
  for_ 0 m (fun i d =>
    x <- nth_error a i ;; y <- nth_error b i ;;
    if Nat.ltb i (length d) then
      Some (upd d i (match x, y with Some x, Some y => Some (f x y) | _, _ => None end))
    else None) d.

(* y[i] += a * x[i] *)
Definition axpy (n : nat) (a : F) (x y : arr F) : option (arr F) :=
  for_ 0 n (fun i y => v <- get y i ;; u <- get x i ;; set y i (v + a * u)) y.

(* ds = W*ds_by_W on the symmetric cones and -(mu H dz) - base on the
   exponential ones; src/ecos.c:1408-1423 with base = s and 1504-1528 with
   base = g (where the code loops over the cones, with m = fc + 3*nexc) *)
Definition ds_unscale (w : W) (base : nat -> option F) : option (arr F) :=
  let C := w_C w in
  let fc := co_fexv C in
  ds <- scale (w_dsaff_by_W w) C (w_dsaff w) ;;
  ds <- for_ fc (w_m w) (fun i d => set d i f0) ds ;;
  ds <- scaleToAddExpcone ds (kk_dz2 (w_KKT w)) (co_expc C) fc ;;
  for_ fc (w_m w) (fun i d => v <- get d i ;; b <- base (i - fc)%nat ;; set d i (- v - b)) ds.

Definition dot3 (w : W) (dx dy dz : arr F) : option (F * F * F) :=
  a <- eddot (w_n w) (w_c w) dx ;;
  b <- eddot (w_p w) (w_b w) dy ;;
  c <- eddot (w_m w) (w_h w) dz ;;
  Some (a, b, c).

Definition solve1 (w : W) : option W :=
  let K := w_KKT w in
  '(it, K, dx, dy, dz) <- kkt_solve K (w_A w) (w_G w) (kk_RHS1 K) (kk_dx1 K) (kk_dy1 K) (kk_dz1 K)
     (w_n w) (w_p w) (w_m w) (w_C w) false (sg_nitref (w_stgs w)) ;;
  let w := set_info w (fun i => set_st_nitref1 i it) in
  Some (set_w_KKT w (set_kk_dz1 (set_kk_dy1 (set_kk_dx1 K dx) dy) dz)).

Definition solve2 (w : W) : option (Z * W) :=
  let K := w_KKT w in
  '(it, K, dx, dy, dz) <- kkt_solve K (w_A w) (w_G w) (kk_RHS2 K) (kk_dx2 K) (kk_dy2 K) (kk_dz2 K)
     (w_n w) (w_p w) (w_m w) (w_C w) false (sg_nitref (w_stgs w)) ;;
  Some (it, set_w_KKT w (set_kk_dz2 (set_kk_dy2 (set_kk_dx2 K dx) dy) dz)).

(* src/ecos.c:1361-1366: right-hand side and solve for the affine direction *)
Definition affine_solve (w : W) : option W :=
  R <- RHS_affine w ;;
  let w := set_w_KKT w (set_kk_RHS2 (w_KKT w) R) in
  '(it, w) <- solve2 w ;;
  Some (set_info w (fun i => set_st_nitref2 i it)).

(* src/ecos.c:1371-1391: the affine step in tau, kappa, z and s, and its line
   search on the symmetric cones *)
Definition affine_newton (w : W) : option (F * F * F * W) :=
  let K := w_KKT w in
  let kap := w_kap w in let tau := w_tau w in
  '(a, b, c) <- dot3 w (kk_dx1 K) (kk_dy1 K) (kk_dz1 K) ;;
  let dtau_denom := kap / tau - a - b - c in
  '(a, b, c) <- dot3 w (kk_dx2 K) (kk_dy2 K) (kk_dz2 K) ;;
  let dtauaff := (w_rt w - kap + a + b + c) / dtau_denom in
  dz2 <- axpy (w_m w) dtauaff (kk_dz1 K) (kk_dz2 K) ;;
  let K := set_kk_dz2 K dz2 in
  let w := set_w_KKT w K in
  wdz <- scale dz2 (w_C w) (w_W_times_dzaff w) ;;
  dsw <- cell2 (fun x y => - x - y) (w_m w) wdz (w_lambda w) (w_dsaff_by_W w) ;;
  let w := set_w_dsaff_by_W (set_w_W_times_dzaff w wdz) dsw in
  let dkapaff := - kap - kap / tau * dtauaff in
  '(step, k1, k2) <- lineSearch (w_lambda w) dsw wdz tau dtauaff kap dkapaff (w_C w) (kk_work1 K) (kk_work2 K) ;;
  let w := set_w_KKT w (set_kk_work2 (set_kk_work1 K k1) k2) in
  let w := set_info w (fun i => set_st_step_aff i step) in
  Some (dtau_denom, dtauaff, dkapaff, w).

(* src/ecos.c:1393-1462: unscaled ds and the line search on the exponential cones *)
Definition affine_exp (dtauaff dkapaff : F) (w : W) : option W :=
  ds <- ds_unscale w (fun i => get (w_s w) (co_fexv (w_C w) + i)) ;;
  let w := set_w_dsaff w ds in
  let w := set_info w (fun i => set_st_affBack i 0%Z) in
  if Nat.ltb 0 (nexc (w_C w)) then
    '(a, w) <- expConeLineSearch w dtauaff dkapaff true ;;
    let i := w_info w in
    let i := set_st_step_aff i a in
    let i := set_st_affBack i (st_affBack i + st_pob i + st_cb i + st_cob i + st_pb i + st_db i)%Z in
    let i := if st_step_aff i ==? fconst (-1) then set_st_step_aff i f0 else i in
    Some (set_w_info w i)
  else Some w.

(* src/ecos.c:1464-1469: the centering parameter *)
Definition affine_sigma (w : W) : W :=
  let sigma := f1 - st_step_aff (w_info w) in
  let sigma := sigma * sigma * sigma in
  let sigma := if sigma >? SIGMAMAX then SIGMAMAX else sigma in
  let sigma := if sigma <? SIGMAMIN then SIGMAMIN else sigma in
  set_info w (fun i => set_st_sigma i sigma).

(* src/ecos.c:1360-1469: affine direction, its line search and sigma.
   Returns dtau_denom, dtauaff, dkapaff and the workspace. *)
Definition affine_dir (w : W) : option (F * F * F * W) :=
  w <- affine_solve w ;;
  '(dtau_denom, dtauaff, dkapaff, w) <- affine_newton w ;;
  w <- affine_exp dtauaff dkapaff w ;;
  Some (dtau_denom, dtauaff, dkapaff, affine_sigma w).

(* the gradient entries g[0..2] of the exponential cones laid out one after the other *)
Definition expg (C : cone F) (i : nat) : option F :=
  e <- nth_error (co_expc C) (i / 3)%nat ;; get (ex_g e) (i mod 3)%nat.

(* src/ecos.c:1472-1477: right-hand side and solve for the combined direction *)
Definition combined_solve (w : W) : option W :=
  w <- RHS_combined w ;;
  '(it, w) <- solve2 w ;;
  Some (set_info w (fun i => set_st_nitref3 i it)).

(* src/ecos.c:1482-1502: the combined step in all variables and its line search
   on the symmetric cones.  Returns dtau, dkap. *)
Definition combined_newton (dtau_denom dtauaff dkapaff : F) (w : W) : option (F * F * W) :=
  let K := w_KKT w in
  let sigma := st_sigma (w_info w) in
  let kap := w_kap w in let tau := w_tau w in
  let bkap := kap * tau + dkapaff * dtauaff - sigma * st_mu (w_info w) in
  '(a, b, c) <- dot3 w (kk_dx2 K) (kk_dy2 K) (kk_dz2 K) ;;
  let dtau := ((f1 - sigma) * w_rt w - bkap / tau + a + b + c) / dtau_denom in
  dx2 <- axpy (w_n w) dtau (kk_dx1 K) (kk_dx2 K) ;;
  dy2 <- axpy (w_p w) dtau (kk_dy1 K) (kk_dy2 K) ;;
  dz2 <- axpy (w_m w) dtau (kk_dz1 K) (kk_dz2 K) ;;
  let K := set_kk_dz2 (set_kk_dy2 (set_kk_dx2 K dx2) dy2) dz2 in
  let w := set_w_KKT w K in
  wdz <- scale dz2 (w_C w) (w_W_times_dzaff w) ;;
  dsw <- cell2 (fun x y => - (x + y)) (w_m w) (w_dsaff_by_W w) wdz (w_dsaff_by_W w) ;;
  let w := set_w_dsaff_by_W (set_w_W_times_dzaff w wdz) dsw in
  let dkap := - (bkap + kap * dtau) / tau in
  '(step, k1, k2) <- lineSearch (w_lambda w) dsw wdz tau dtau kap dkap (w_C w) (kk_work1 K) (kk_work2 K) ;;
  let w := set_w_KKT w (set_kk_work2 (set_kk_work1 K k1) k2) in
  let w := set_info w (fun i => set_st_step i (step * sg_gamma (w_stgs w))) in
  Some (dtau, dkap, w).

(* src/ecos.c:1504-1583: unscaled ds and the line search on the exponential
   cones; the flag is false when that search failed *)
Definition combined_exp (dtau dkap : F) (w : W) : option (bool * W) :=
  ds <- ds_unscale w (expg (w_C w)) ;;
  let w := set_w_dsaff w ds in
  let w := set_info w (fun i => set_st_cmbBack i 0%Z) in
  if Nat.ltb 0 (nexc (w_C w)) then
    '(a, w) <- expConeLineSearch w dtau dkap false ;;
    let i := w_info w in
    let i := set_st_step i a in
    let i := set_st_cmbBack i (st_cmbBack i + st_cb i + st_cob i + st_pb i + st_db i)%Z in
    let w := set_w_info w i in
    Some (negb (st_step i ==? fconst (-1)), w)
  else Some (true, w).

(* src/ecos.c:1472-1583: combined direction and its line search; the flag is
   false when the exponential line search failed.  Returns dtau, dkap. *)
Definition combined_dir (dtau_denom dtauaff dkapaff : F) (w : W) : option (bool * F * F * W) :=
  w <- combined_solve w ;;
  '(dtau, dkap, w) <- combined_newton dtau_denom dtauaff dkapaff w ;;
  '(ok, w) <- combined_exp dtau dkap w ;;
  Some (ok, dtau, dkap, w).

(* src/ecos.c:1588-1594: update of the variables *)
Definition take_step (dtau dkap : F) (w : W) : option W :=
  let K := w_KKT w in
  let st := st_step (w_info w) in
  x <- axpy (w_n w) st (kk_dx2 K) (w_x w) ;;
  y <- axpy (w_p w) st (kk_dy2 K) (w_y w) ;;
  z <- axpy (w_m w) st (kk_dz2 K) (w_z w) ;;
  s <- axpy (w_m w) st (w_dsaff w) (w_s w) ;;
  let w := set_w_s (set_w_z (set_w_y (set_w_x w x) y) z) s in
  Some (set_w_tau (set_w_kap w (w_kap w + st * dkap)) (w_tau w + st * dtau)).

(* src/ecos.c:1288-1594: scalings, directions and step of one iteration *)
Definition iter_step (w : W) : option (verdict * W) :=
  '(out, C, lambda) <- updateScalings (w_C w) (w_s w) (w_z w) (w_lambda w) (st_mu (w_info w)) ;;
  let w := set_w_lambda (set_w_C w C) lambda in
  if out then
    w <- restoreBestIterate w ;;
    let '(code, w) := checkExitConditions w ECOS_INACC_OFFSET in
    Some (if (code =? ECOS_NOT_CONVERGED_YET)%Z then VReturn ECOS_OUTCONE else VBreak code, w)
  else
  let K := w_KKT w in
  pr <- kkt_update (sp_pr (kk_PKPt K)) (kk_PK K) (w_C w) ;;
  let K := set_kk_PKPt K (with_pr (kk_PKPt K) pr) in
  '(ok, K) <- kkt_factor K (sg_eps (w_stgs w)) (sg_delta (w_stgs w)) ;;
  let w := set_w_KKT w K in
  if negb ok then Some (VReturn ECOS_FATAL, w) else
  w <- solve1 w ;;
  '(dtau_denom, dtauaff, dkapaff, w) <- affine_dir w ;;
  '(ok, dtau, dkap, w) <- combined_dir dtau_denom dtauaff dkapaff w ;;
  if negb ok then
    '(code, w) <- recover w true ECOS_NUMERICS ;;
    Some (VBreak code, w)
  else
  w <- take_step dtau dkap w ;;
  Some (VGo, w).

(* src/ecos.c:1124-1595: the main loop from iteration [iter] on, with
   fuel = maxit + 1 - iter.  [sig k] is what check_ctrlc returns in iteration k.
   Returns: did the function return from inside the loop, the exit code, w. *)
Fixpoint ipm_loop (fuel : nat) (sig : Z -> bool) (iter : Z) (pres_prev : F) (exitcode : Z) (w : W)
  : option (bool * Z * W) :=
  match fuel with
  | 0%nat => Some (false, exitcode, set_info w (fun i => set_st_iter i iter))
  | Datatypes.S fuel =>
      let w := set_info w (fun i => set_st_iter i iter) in
      '(v, pres_prev, w) <- iter_exit (sig iter) pres_prev w ;;
      match v with
      | VBreak code => Some (false, code, w)
      | VReturn code => Some (true, code, w)
      | VGo =>
          w <- iter_save w ;;
          '(v, w) <- iter_step w ;;
          match v with
          | VBreak code => Some (false, code, w)
          | VReturn code => Some (true, code, w)
          | VGo => ipm_loop fuel sig (iter + 1)%Z pres_prev ECOS_NOT_CONVERGED_YET w
          end
      end
  end.

(* What the process does on SIGINT: the disposition installed, and the global
   "oact" of src/ctrlc.c:88 in which init_ctrlc saves the previous one.
   [Some h] is a user disposition h, [None] the library's handler. *)
Record ctrlc := mkCtrlc { cc_handler : option nat; cc_oact : option nat }.

(* src/ctrlc.c:93-101 and 102-106 *)
Definition init_ctrlc (t : ctrlc) : ctrlc := mkCtrlc None (cc_handler t).
Definition remove_ctrlc (t : ctrlc) : ctrlc := mkCtrlc (cc_oact t) (cc_oact t).

(* src/ecos.c:1075-1616 ECOS_solve *)
Definition ECOS_solve (sig : Z -> bool) (t : ctrlc) (w : W) : option (Z * ctrlc * W) :=
  c <- for_ 0 (w_n w) (fun i a => v <- get a i ;; e <- get (w_xequil w) i ;; set a i (v / e)) (w_c w) ;;
  let w := set_w_c w c in
  let t := init_ctrlc t in
  '(ok, w) <- init w ;;
  if negb ok then Some (ECOS_FATAL, t, w) else
  '(returned, code, w) <-
     ipm_loop (Z.to_nat (sg_maxit (w_stgs w) + 1)) sig 0 fnan ECOS_FATAL w ;;
  if returned : bool then Some (code, t, w) else
  w <- backscale w ;;
  Some (code, remove_ctrlc t, w).

(* src/ecos.c:1623-1630 ecos_updateDataEntry_h *)
Definition ecos_updateDataEntry_h (w : W) (idx : nat) (value : F) : option W :=
  e <- get (w_Gequil w) idx ;;
  h <- set (w_h w) idx (value / e) ;;
  Some (set_w_h w h).

(* src/ecos.c:1637-1640 ecos_updateDataEntry_c *)
Definition ecos_updateDataEntry_c (w : W) (idx : nat) (value : F) : option W :=
  c <- set (w_c w) idx value ;;
  Some (set_w_c w c).

(* Where the five new arrays lie relative to the current ones: true when the
   test of src/ecos.c:1657-1661 finds them in a different location.  The data
   of A can only be compared when A is not NULL. *)
Record apart := mkApart { ap_G : bool; ap_A : bool; ap_c : bool; ap_h : bool; ap_b : bool }.

(* src/ecos.c:1648-1695 ECOS_updateData.  The new arrays are passed by
   contents.  When they are the very arrays already in the workspace the caller
   passes their current contents.  Returns the workspace and, when the old data
   was unequilibrated, the old arrays (Gpr, Apr, h, b) as the caller finds them
   afterwards. *)
Definition ECOS_updateData (w : W) (ap : apart) (Gpr : arr F) (Apr : option (arr F)) (c h b : arr F)
  : option (W * option (arr F * option (arr F) * arr F * arr F)) :=
  far <- (if ap_G ap then
            _ <- (match w_A w with Some _ => Some tt | None => None end) ;;   (* w->A->nnz *)
            Some (ap_A ap && ap_c ap && ap_h ap && ap_b ap)%bool
          else Some false) ;;
  old <- (if far : bool then
            '(A, G, b, h) <- unset_equilibration (w_A w) (w_G w) (w_b w) (w_h w)
                              (w_xequil w, w_Aequil w, w_Gequil w) ;;
            Some (Some (sp_pr G, match A with Some A => Some (sp_pr A) | None => None end, h, b))
          else Some None) ;;
  let G := with_pr (w_G w) Gpr in
  let A := match w_A w, Apr with
           | Some A, Some pr => Some (with_pr A pr)
           | Some A, None => Some (with_pr A [])
           | None, _ => None
           end in
  let b := match w_A w with Some _ => b | None => w_b w end in
  '(A, G, b, h, eq) <- set_equilibration (w_C w) A G b h (w_xequil w, w_Aequil w, w_Gequil w) ;;
  let '(xe, Ae, Ge) := eq in
  let K := w_KKT w in
  pr <- (match A with
         | Some A => for_ 0 (sp_nnz A) (fun k pr =>
             ak <- get (w_AtoK w) k ;; pk <- get (kk_PK K) ak ;; v <- get (sp_pr A) k ;; set pr pk v)
             (sp_pr (kk_PKPt K))
         | None => Some (sp_pr (kk_PKPt K))
         end) ;;
  pr <- for_ 0 (sp_nnz G) (fun k pr =>
      gk <- get (w_GtoK w) k ;; pk <- get (kk_PK K) gk ;; v <- get (sp_pr G) k ;; set pr pk v) pr ;;
  let K := set_kk_PKPt K (with_pr (kk_PKPt K) pr) in
  let w := set_w_h (set_w_b (set_w_c (set_w_G (set_w_A w A) G) c) b) h in
  let w := set_w_Gequil (set_w_Aequil (set_w_xequil w xe) Ae) Ge in
  Some (set_w_KKT w K, old).

End Ecos.
