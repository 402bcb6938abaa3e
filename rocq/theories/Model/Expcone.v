(* Model of src/expcone.c and src/wright_omega.c.
   A pointer into the middle of an array is the array and an offset. *)
From Coq Require Import List Arith Bool ZArith QArith.
From Verif Require Import Base Num.
From Verif.Model Require Import Spla Types Consts.
Import ListNotations.
Open Scope nat_scope.

Section Expcone.
Context `{O : Ops}.
Local Open Scope fl_scope.

(* src/expcone.c:32-53 evalExpHessian: the six values written to v[0..5] *)
Definition expHess (x y z mu : F) : list F :=
  let l := flog (- y / x) in
  let r := - x * l - x + z in
  [ mu * ((r*r - x*r + l*l*x*x) / (r*x*x*r));
    mu * ((z - x) / (r*r*y));
    mu * ((r*r - x*r + x*x) / (r*r*y*y));
    mu * (- l / (r*r));
    mu * (- x / (r*r*y));
    mu * (f1 / (r*r)) ].

Definition evalExpHessian (w : arr F) (k : nat) (v : arr F) (mu : F) : option (arr F) :=
  x <- get w k ;;
  y <- get w (k + 1)%nat ;;
  z <- get w (k + 2)%nat ;;
  for_ 0 6 (fun i v => hi <- nth_error (expHess x y z mu) i ;; set v i hi) v.

(* src/expcone.c:58-69 evalExpGradient: the three values written to g[0..2] *)
Definition expGrad (x y z : F) : list F :=
  let l := flog (- y / x) in
  let r := - x * l - x + z in
  [ (l*x - r) / (r*x);
    (x - r) / (y*r);
    - f1 / r ].

Definition evalExpGradient (w : arr F) (k : nat) (g : arr F) : option (arr F) :=
  x <- get w k ;;
  y <- get w (k + 1)%nat ;;
  z <- get w (k + 2)%nat ;;
  for_ 0 3 (fun i g => gi <- nth_error (expGrad x y z) i ;; set g i gi) g.

(* the literal M_PI of math.h *)
Definition M_PI : F := fconst (314159265358979323846 # 100000000000000000000).

(* one "FSC" step of src/wright_omega.c:62-65 and 68-71; r, w on entry, (w, r) on exit *)
Definition fsc (w r : F) : F * F :=
  let z := f1 + w in
  let q := z + f2 / fconst 3 * r in
  let w := w * (f1 + r / z * (z * q - half * r) / (z * q - r)) in
  let r := (f2 * w * w - fconst 8 * w - f1) / (fconst 72 * (z*z*z*z*z*z)) * r * r * r * r in
  (w, r).

(* src/wright_omega.c:21-74 wrightOmega *)
Definition wrightOmega (z : F) : F :=
  if z <? f0 then fconst (-1) else                                 (* line 28 *)
  let w :=
    if z <? f1 + M_PI then                                         (* lines 30-44 *)
      let q := z - f1 in
      let r := q in
      let w := f1 + half * r in
      let r := r * q in
      let w := w + f1 / fconst 16 * r in
      let r := r * q in
      let w := w - f1 / fconst 192 * r in
      let r := r * q in
      let w := w - f1 / fconst 3072 * q in
      let r := r * q in
      w + fconst 13 / fconst 61440 * q
    else                                                           (* lines 46-58 *)
      let r := flog z in
      let zi := f1 / z in
      let w := z - r in
      let q := r * zi in
      let w := w + q in
      let q := q * zi in
      let w := w + q * (half * r - f1) in
      let q := q * zi in
      w + q * (f1 / fconst 3 * r * r - fconst 3 / f2 * r + f1) in
  let r := z - w - flog w in                                       (* line 61 *)
  let '(w, r) := fsc w r in
  let '(w, r) := fsc w r in
  w.

(* src/expcone.c:72-111 evalBarrierValue *)
Definition evalBarrierValue (siter ziter : arr F) (fc nexc : nat) : option F :=
  r <- for_ 0 nexc (fun j acc =>
    let '(pb, db) := acc in
    u <- get ziter (fc + 3*j)%nat ;;
    v <- get ziter (fc + 3*j + 1)%nat ;;
    w <- get ziter (fc + 3*j + 2)%nat ;;
    x <- get siter (fc + 3*j)%nat ;;
    y <- get siter (fc + 3*j + 1)%nat ;;
    z <- get siter (fc + 3*j + 2)%nat ;;
    let l := flog (- v / u) in
    let db := db + (- flog (w - u - u*l) - flog (- u) - flog v) in
    let o := wrightOmega (f1 - x/z - flog z + flog y) in
    let o := (o - f1) * (o - f1) / o in
    let pb := pb + (- flog o - f2 * flog z - flog y - fconst 3) in
    Some (pb, db)) (f0, f0) ;;
  let '(pb, db) := r in Some (pb + db).

(* src/expcone.c:121-138 scaleToAddExpcone *)
Definition scaleToAddExpcone (y x : arr F) (expc : list (expcone F)) (fc : nat) : option (arr F) :=
  r <- for_each expc (fun e s =>
    let '(k, y) := s in
    v0 <- get (ex_v e) 0 ;; v1 <- get (ex_v e) 1 ;; v2 <- get (ex_v e) 2 ;;
    v3 <- get (ex_v e) 3 ;; v4 <- get (ex_v e) 4 ;; v5 <- get (ex_v e) 5 ;;
    x0 <- get x k ;; x1 <- get x (k+1)%nat ;; x2 <- get x (k+2)%nat ;;
    y0 <- get y k ;;
    y <- set y k (y0 + (v0*x0 + v1*x1 + v3*x2)) ;;
    y1 <- get y (k+1)%nat ;;
    y <- set y (k+1)%nat (y1 + (v1*x0 + v2*x1 + v4*x2)) ;;
    y2 <- get y (k+2)%nat ;;
    y <- set y (k+2)%nat (y2 + (v3*x0 + v4*x1 + v5*x2)) ;;
    Some ((k+3)%nat, y)) (fc, y) ;;
  let '(_, y) := r in Some y.

(* the test of one cone in src/expcone.c:150-161 *)
Definition expPrimalOk (x1 x2 x3 : F) : bool :=
  let tmp1 := flog (x2 / x3) in
  let psi := x3 * tmp1 - x1 in
  negb ((psi <? f0) || (x2 <? f0) || (x3 <? f0)).

(* src/expcone.c:145-164 evalExpPrimalFeas; s is the array and the offset fexv *)
Fixpoint evalExpPrimalFeas (s : arr F) (k nexc : nat) : option bool :=
  match nexc with
  | 0%nat => Some true
  | Datatypes.S n =>
      x1 <- get s k ;; x2 <- get s (k+1)%nat ;; x3 <- get s (k+2)%nat ;;
      if expPrimalOk x1 x2 x3 then evalExpPrimalFeas s (k+3)%nat n else Some false
  end.

(* the test of one cone in src/expcone.c:176-187 *)
Definition expDualOk (x1 x2 x3 : F) : bool :=
  let tmp1 := flog (- x2 / x1) in
  let psi := - x1 - x1 * tmp1 + x3 in
  negb ((f0 <? x1) || (x2 <? f0) || (psi <? f0)).

(* src/expcone.c:171-190 evalExpDualFeas *)
Fixpoint evalExpDualFeas (z : arr F) (k nexc : nat) : option bool :=
  match nexc with
  | 0%nat => Some true
  | Datatypes.S n =>
      x1 <- get z k ;; x2 <- get z (k+1)%nat ;; x3 <- get z (k+2)%nat ;;
      if expDualOk x1 x2 x3 then evalExpDualFeas z (k+3)%nat n else Some false
  end.

End Expcone.
