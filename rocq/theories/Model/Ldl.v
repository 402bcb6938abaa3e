(* Model of external/ldl/src/ldl.c: the routines ECOS calls.
   Loops that walk the elimination tree are unbounded in the code; here they
   take fuel (the matrix dimension plus one) and running out of fuel is None. *)
From Coq Require Import List Arith Bool ZArith QArith.
From Verif Require Import Base Num.
Import ListNotations.
Open Scope nat_scope.

(* external/ldl/src/ldl.c:226-231, "for ( ; Flag [i] != k ; i = Parent [i])" *)
Fixpoint symb_path (fuel k i : nat) (st : arr Z * arr nat * arr nat) : option (arr Z * arr nat * arr nat) :=
  match fuel with
  | 0 => None
  | S fuel =>
      let '(Parent, Lnz, Flag) := st in
      fi <- get Flag i ;;
      if fi =? k then Some st else
      pi <- get Parent i ;;
      Parent <- (if (pi =? -1)%Z then set Parent i (Z.of_nat k) else Some Parent) ;;
      li <- get Lnz i ;;
      Lnz <- set Lnz i (li + 1) ;;
      Flag <- set Flag i k ;;
      pi <- get Parent i ;;
      _ <- guard (0 <=? pi)%Z ;;
      symb_path fuel k (Z.to_nat pi) (Parent, Lnz, Flag)
  end.

(* external/ldl/src/ldl.c:203-241 LDL_symbolic2; returns Lp, Parent, Lnz, Flag *)
Definition LDL_symbolic2 (n : nat) (Ap Ai Lp : arr nat) (Parent : arr Z) (Lnz Flag : arr nat)
  : option (arr nat * arr Z * arr nat * arr nat) :=
  '(Parent, Lnz, Flag) <- for_ 0 n (fun k st =>
      let '(Parent, Lnz, Flag) := st in
      Parent <- set Parent k (-1)%Z ;;
      Flag <- set Flag k k ;;
      Lnz <- set Lnz k 0 ;;
      p2 <- get Ap (k + 1) ;;
      p1 <- get Ap k ;;
      for_ p1 p2 (fun p st =>
        i <- get Ai p ;;
        symb_path (S n) k i st) (Parent, Lnz, Flag)) (Parent, Lnz, Flag) ;;
  Lp <- set Lp 0 0 ;;
  Lp <- for_ 0 n (fun k Lp =>
      a <- get Lp k ;; l <- get Lnz k ;; set Lp (k + 1) (a + l)) Lp ;;
  Some (Lp, Parent, Lnz, Flag).

(* external/ldl/src/ldl.c:313-316, "for (len = 0 ; Flag [i] != k ; i = Parent [i])" *)
Fixpoint num_path (fuel k i len : nat) (Parent : arr Z) (Pattern Flag : arr nat)
  : option (nat * arr nat * arr nat) :=
  match fuel with
  | 0 => None
  | S fuel =>
      fi <- get Flag i ;;
      if fi =? k then Some (len, Pattern, Flag) else
      Pattern <- set Pattern len i ;;
      Flag <- set Flag i k ;;
      pi <- get Parent i ;;
      _ <- guard (0 <=? pi)%Z ;;
      num_path fuel k (Z.to_nat pi) (len + 1) Parent Pattern Flag
  end.

(* external/ldl/src/ldl.c:317, "while (len > 0) Pattern [--top] = Pattern [--len]" *)
Fixpoint num_push (len top : nat) (Pattern : arr nat) : option (nat * arr nat) :=
  match len with
  | 0 => Some (top, Pattern)
  | S len =>
      _ <- guard (0 <? top) ;;
      v <- get Pattern len ;;
      Pattern <- set Pattern (top - 1) v ;;
      num_push len (top - 1) Pattern
  end.

Section Ldl.
Context `{O : Ops}.
Local Open Scope fl_scope.

(* external/ldl/src/ldl.c:302-318: pattern of row k of L and scatter of column k of A *)
Definition num_pattern (n k : nat) (Ap Ai : arr nat) (Ax : arr F) (Parent : arr Z)
  (Y : arr F) (Pattern Flag : arr nat) : option (nat * arr F * arr nat * arr nat) :=
  p2 <- get Ap (k + 1) ;;
  p1 <- get Ap k ;;
  for_ p1 p2 (fun p st =>
    let '(top, Y, Pattern, Flag) := st in
    i <- get Ai p ;;
    v <- get Ax p ;;
    Y <- set Y i v ;;
    '(len, Pattern, Flag) <- num_path (Datatypes.S n) k i 0 Parent Pattern Flag ;;
    '(top, Pattern) <- num_push len top Pattern ;;
    Some (top, Y, Pattern, Flag)) (n, Y, Pattern, Flag).

(* external/ldl/src/ldl.c:327-339: one step of the sparse triangular solve, i = Pattern[t] *)
Definition num_elim (k i : nat) (Lp : arr nat) (st : arr nat * arr nat * arr F * arr F * arr F)
  : option (arr nat * arr nat * arr F * arr F * arr F) :=
  let '(Lnz, Li, Lx, D, Y) := st in
  yi <- get Y i ;;
  Y <- set Y i f0 ;;
  lp <- get Lp i ;;
  ln <- get Lnz i ;;
  let p2 := (lp + ln)%nat in
  Y <- for_ lp p2 (fun p Y =>
      r <- get Li p ;; l <- get Lx p ;; y <- get Y r ;; set Y r (y - l * yi)) Y ;;
  Di <- get D i ;;
  let l_ki := yi / Di in
  Dk <- get D k ;;
  D <- set D k (Dk - l_ki * yi) ;;
  Li <- set Li p2 k ;;
  Lx <- set Lx p2 l_ki ;;
  Lnz <- set Lnz i (ln + 1)%nat ;;
  Some (Lnz, Li, Lx, D, Y).

(* external/ldl/src/ldl.c:266-355 LDL_numeric2.  It always returns n, so the
   result here is the tuple of written arrays Lnz, Li, Lx, D, Y, Pattern, Flag *)
Definition LDL_numeric2 (n : nat) (Ap Ai : arr nat) (Ax : arr F) (Lp : arr nat) (Parent : arr Z)
  (Sign : arr Z) (eps delta : F)
  (Lnz Li : arr nat) (Lx D Y : arr F) (Pattern Flag : arr nat)
  : option (arr nat * arr nat * arr F * arr F * arr F * arr nat * arr nat) :=
  for_ 0 n (fun k st =>
    let '(Lnz, Li, Lx, D, Y, Pattern, Flag) := st in
    Y <- set Y k f0 ;;                                              (* line 303 *)
    Flag <- set Flag k k ;;
    Lnz <- set Lnz k 0%nat ;;
    '(top, Y, Pattern, Flag) <- num_pattern n k Ap Ai Ax Parent Y Pattern Flag ;;
    yk <- get Y k ;;                                                (* lines 324-325 *)
    D <- set D k yk ;;
    Y <- set Y k f0 ;;
    '(Lnz, Li, Lx, D, Y) <- for_ top n (fun t st =>
        i <- get Pattern t ;; num_elim k i Lp st) (Lnz, Li, Lx, D, Y) ;;
    Dk <- get D k ;;                                                (* line 342 *)
    sg <- get Sign k ;;
    D <- set D k (if fofZ sg * Dk <=? eps then fofZ sg * delta else Dk) ;;
    Some (Lnz, Li, Lx, D, Y, Pattern, Flag)) (Lnz, Li, Lx, D, Y, Pattern, Flag).

(* external/ldl/src/ldl.c:362-378 LDL_lsolve *)
Definition LDL_lsolve (n : nat) (X : arr F) (Lp Li : arr nat) (Lx : arr F) : option (arr F) :=
  for_ 0 n (fun j X =>
    p2 <- get Lp (j + 1)%nat ;;
    p1 <- get Lp j ;;
    for_ p1 p2 (fun p X =>
      i <- get Li p ;; xi <- get X i ;; l <- get Lx p ;; xj <- get X j ;;
      set X i (xi - l * xj)) X) X.

(* external/ldl/src/ldl.c:384-402 LDL_lsolve2 *)
Definition LDL_lsolve2 (n : nat) (b : arr F) (Lp Li : arr nat) (Lx x : arr F) : option (arr F) :=
  x <- for_ 0 n (fun j x => bj <- get b j ;; set x j bj) x ;;
  LDL_lsolve n x Lp Li Lx.

(* external/ldl/src/ldl.c:409-418 LDL_dsolve *)
Definition LDL_dsolve (n : nat) (X D : arr F) : option (arr F) :=
  for_ 0 n (fun j X => xj <- get X j ;; dj <- get D j ;; set X j (xj / dj)) X.

(* external/ldl/src/ldl.c:425-441 LDL_ltsolve *)
Definition LDL_ltsolve (n : nat) (X : arr F) (Lp Li : arr nat) (Lx : arr F) : option (arr F) :=
  for_down n (fun j X =>
    p2 <- get Lp (j + 1)%nat ;;
    p1 <- get Lp j ;;
    for_ p1 p2 (fun p X =>
      xj <- get X j ;; l <- get Lx p ;; i <- get Li p ;; xi <- get X i ;;
      set X j (xj - l * xi)) X) X.

End Ldl.
