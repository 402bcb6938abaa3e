(* Model of src/equil.c with RUIZ_EQUIL and EQUIL_ITERS 3. *)
From Coq Require Import List Arith Bool ZArith QArith.
From Verif Require Import Base Num.
From Verif.Model Require Import Spla Types Consts Expcone Cone.
Import ListNotations.
Open Scope nat_scope.

Section Equil.
Context `{O : Ops}.
Local Open Scope fl_scope.

Definition with_pr (M : spmat F) (pr : arr F) : spmat F :=
  mkSp (sp_jc M) (sp_ir M) pr (sp_n M) (sp_m M) (sp_nnz M).

(* src/equil.c:31-41 max_rows *)
Definition max_rows (E : arr F) (M : spmat F) : option (arr F) :=
  for_ 0 (sp_n M) (fun i E => col_loop M i (fun j E =>
    row <- get (sp_ir M) j ;; v <- get (sp_pr M) j ;; e <- get E row ;;
    set E row (fmax (fabs v) e)) E) E.

(* src/equil.c:43-52 max_cols *)
Definition max_cols (E : arr F) (M : spmat F) : option (arr F) :=
  for_ 0 (sp_n M) (fun i E => col_loop M i (fun j E =>
    v <- get (sp_pr M) j ;; e <- get E i ;; set E i (fmax (fabs v) e)) E) E.

(* src/equil.c:77-88 equilibrate_rows *)
Definition equilibrate_rows (E : arr F) (M : spmat F) : option (spmat F) :=
  pr <- for_ 0 (sp_n M) (fun i pr => col_loop M i (fun j pr =>
    row <- get (sp_ir M) j ;; v <- get pr j ;; e <- get E row ;; set pr j (v / e)) pr) (sp_pr M) ;;
  Some (with_pr M pr).

(* src/equil.c:90-100 equilibrate_cols *)
Definition equilibrate_cols (E : arr F) (M : spmat F) : option (spmat F) :=
  pr <- for_ 0 (sp_n M) (fun i pr => col_loop M i (fun j pr =>
    v <- get pr j ;; e <- get E i ;; set pr j (v / e)) pr) (sp_pr M) ;;
  Some (with_pr M pr).

(* src/equil.c:102-113 restore *)
Definition restore (D E : arr F) (M : spmat F) : option (spmat F) :=
  pr <- for_ 0 (sp_n M) (fun i pr => col_loop M i (fun j pr =>
    row <- get (sp_ir M) j ;; v <- get pr j ;; d <- get D row ;; e <- get E i ;;
    set pr j (v * (d * e))) pr) (sp_pr M) ;;
  Some (with_pr M pr).

(* fill with a constant, src/equil.c:221-230 and 236-245 *)
Definition fill (n : nat) (v : F) (a : arr F) : option (arr F) := for_ 0 n (fun i a => set a i v) a.

(* src/equil.c:264-271 and 277-283: replace the entries k .. k+p-1 by their sum *)
Definition collapse (G : arr F) (k p : nat) : option (arr F) :=
  total <- for_ 0 p (fun j t => g <- get G (k + j)%nat ;; Some (t + g)) f0 ;;
  for_ 0 p (fun j G => set G (k + j)%nat total) G.

(* src/equil.c:261-286 *)
Definition collapse_cones (C : cone F) (G : arr F) : option (arr F) :=
  '(G, k) <- for_each (co_soc C) (fun c st =>
      let '(G, k) := st in
      G <- collapse G k (so_p c) ;; Some (G, (k + so_p c)%nat)) (G, lpp C) ;;
  '(G, _) <- for_each (co_expc C) (fun _ st =>
      let '(G, k) := st in
      G <- collapse G k 3 ;; Some (G, (k + 3)%nat)) (G, k) ;;
  Some G.

(* src/equil.c:289-298 *)
Definition sqrt_all (n : nat) (a : arr F) : option (arr F) :=
  for_ 0 n (fun i a => v <- get a i ;;
    set a i (if fabs v <? fconst (1 # 1000000) then f1 else fsqrt v)) a.

(* src/equil.c:311-320 *)
Definition mul_all (n : nat) (t a : arr F) : option (arr F) :=
  for_ 0 n (fun i a => v <- get a i ;; u <- get t i ;; set a i (v * u)) a.

(* src/equil.c:328-335 *)
Definition div_all (n : nat) (t a : arr F) : option (arr F) :=
  for_ 0 n (fun i a => v <- get a i ;; u <- get t i ;; set a i (v / u)) a.

(* apply f to A when A is not NULL *)
Definition onA {X : Type} (A : option (spmat F)) (f : spmat F -> X -> option X) (x : X) : option X :=
  match A with None => Some x | Some A => f A x end.
Definition mapA (A : option (spmat F)) (f : spmat F -> option (spmat F)) : option (option (spmat F)) :=
  match A with None => Some None | Some A => A <- f A ;; Some (Some A) end.

(* the equilibration vectors xequil, Aequil, Gequil *)
Definition eqvecs : Type := (arr F * arr F * arr F)%type.

(* src/equil.c:233-321: one iteration; returns A, G and the updated vectors *)
Definition ruiz_iter (C : cone F) (A : option (spmat F)) (G : spmat F) (eq : eqvecs)
  : option (option (spmat F) * spmat F * eqvecs) :=
  let '(xe, Ae, Ge) := eq in
  let nc := match A with Some A => sp_n A | None => sp_n G end in
  let na := match A with Some A => sp_m A | None => 0%nat end in
  let ng := sp_m G in
  xt <- fill nc f0 (alloc nc) ;;
  At <- fill na f0 (alloc na) ;;
  Gt <- fill ng f0 (alloc ng) ;;
  xt <- onA A (fun A x => max_cols x A) xt ;;
  xt <- (if Nat.ltb 0 ng then max_cols xt G else Some xt) ;;
  At <- onA A (fun A x => max_rows x A) At ;;
  Gt <- (if Nat.ltb 0 ng then max_rows Gt G else Some Gt) ;;
  Gt <- collapse_cones C Gt ;;
  xt <- sqrt_all nc xt ;;
  At <- sqrt_all na At ;;
  Gt <- sqrt_all ng Gt ;;
  A <- mapA A (equilibrate_rows At) ;;
  G <- (if Nat.ltb 0 ng then equilibrate_rows Gt G else Some G) ;;
  A <- mapA A (equilibrate_cols xt) ;;
  G <- (if Nat.ltb 0 ng then equilibrate_cols xt G else Some G) ;;
  xe <- mul_all nc xt xe ;;
  Ae <- mul_all na At Ae ;;
  Ge <- mul_all ng Gt Ge ;;
  Some (A, G, (xe, Ae, Ge)).

(* src/equil.c:210-340 use_ruiz_equilibration = set_equilibration.
   Returns A, G, b, h and the vectors xequil, Aequil, Gequil. *)
Definition set_equilibration (C : cone F) (A : option (spmat F)) (G : spmat F) (b h : arr F) (eq : eqvecs)
  : option (option (spmat F) * spmat F * arr F * arr F * eqvecs) :=
  let '(xe, Ae, Ge) := eq in
  let nc := match A with Some A => sp_n A | None => sp_n G end in
  let na := match A with Some A => sp_m A | None => 0%nat end in
  let ng := sp_m G in
  xe <- fill nc f1 xe ;;
  Ae <- fill na f1 Ae ;;
  Ge <- fill ng f1 Ge ;;
  '(A, G, eq) <- for_ 0 3 (fun _ st => let '(A, G, eq) := st in ruiz_iter C A G eq) (A, G, (xe, Ae, Ge)) ;;
  let '(xe, Ae, Ge) := eq in
  b <- div_all na Ae b ;;
  h <- div_all ng Ge h ;;
  Some (A, G, b, h, (xe, Ae, Ge)).

(* src/equil.c:369-394 unset_equilibration; returns A, G, b, h *)
Definition unset_equilibration (A : option (spmat F)) (G : spmat F) (b h : arr F) (eq : eqvecs)
  : option (option (spmat F) * spmat F * arr F * arr F) :=
  let '(xe, Ae, Ge) := eq in
  let na := match A with Some A => sp_m A | None => 0%nat end in
  let ng := sp_m G in
  A <- mapA A (restore Ae xe) ;;
  G <- (if Nat.ltb 0 ng then restore Ge xe G else Some G) ;;
  b <- mul_all na Ae b ;;
  h <- mul_all ng Ge h ;;
  Some (A, G, b, h).

End Equil.
