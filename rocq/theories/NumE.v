(* Exact reals with the infinities and NaN of IEEE arithmetic: a fifth reading of
   pfloat, used where the code computes with ECOS_INFINITY.  A division by zero
   takes the zero to be +0. *)
From Coq Require Import Reals Lra QArith Qreals Bool.
From Verif Require Import Num.
Open Scope R_scope.

Inductive ext := Fin (r : R) | PInf | NInf | NaN.

Definition eneg (a : ext) : ext := match a with Fin x => Fin (- x) | PInf => NInf | NInf => PInf | NaN => NaN end.
Definition eadd (a b : ext) : ext :=
  match a, b with
  | Fin x, Fin y => Fin (x + y)
  | NaN, _ | _, NaN | PInf, NInf | NInf, PInf => NaN
  | PInf, _ | _, PInf => PInf
  | NInf, _ | _, NInf => NInf
  end.
Definition esgn (x : R) (a : ext) : ext := if Rlt_dec 0 x then a else if Rlt_dec x 0 then eneg a else NaN.
Definition emul (a b : ext) : ext :=
  match a, b with
  | Fin x, Fin y => Fin (x * y)
  | NaN, _ | _, NaN => NaN
  | Fin x, i | i, Fin x => esgn x i
  | PInf, i => i
  | NInf, i => eneg i
  end.
Definition ediv (a b : ext) : ext :=
  match a, b with
  | Fin x, Fin y => if Req_EM_T y 0 then esgn x PInf else Fin (x / y)
  | NaN, _ | _, NaN => NaN
  | Fin _, _ => Fin 0
  | i, Fin y => if Rlt_dec y 0 then eneg i else i
  | _, _ => NaN
  end.
Definition elt (a b : ext) : bool :=
  match a, b with
  | Fin x, Fin y => Rltb x y
  | NaN, _ | _, NaN => false
  | NInf, NInf | PInf, _ | _, NInf => false
  | _, _ => true
  end.
Definition eeq (a b : ext) : bool :=
  match a, b with Fin x, Fin y => Reqb x y | PInf, PInf | NInf, NInf => true | _, _ => false end.

Definition EOps : Ops := {|
  F := ext;
  fconst := fun q => Fin (Q2R q);
  fadd := eadd; fsub := fun a b => eadd a (eneg b); fmul := emul; fdiv := ediv; fneg := eneg;
  fsqrt := fun a => match a with Fin x => if Rlt_dec x 0 then NaN else Fin (sqrt x) | PInf => PInf | _ => NaN end;
  fabs := fun a => match a with Fin x => Fin (Rabs x) | NInf => PInf | a => a end;
  fexp := fun a => match a with Fin x => Fin (exp x) | NInf => Fin 0 | a => a end;
  flog := fun a => match a with
          | Fin x => if Rlt_dec 0 x then Fin (ln x) else if Req_EM_T x 0 then NInf else NaN
          | PInf => PInf | _ => NaN end;
  flt := elt; fle := fun a b => (elt a b || eeq a b)%bool; feq := eeq;
  fisnan := fun a => match a with NaN => true | _ => false end;
  finf := PInf; fnan := NaN
|}.
