(* Running the model in IEEE binary64 (FOps). *)
From Coq Require Import List ZArith QArith Floats.
From Verif Require Import Base Num.
From Verif.Model Require Import Spla Splamm Types Consts Cone Kkt Ecos Preproc.
Import ListNotations.
Open Scope nat_scope.

(* what malloc returned for the fields setup does not write *)
Definition fz : spec_float := S754_zero false.
Definition stF : stats spec_float := mkStats fz fz fz fz fz fz fz fz fz fz fz fz fz fz fz
  0%Z 0%Z 0%Z 0%Z 0%Z 0%Z 0%Z 0%Z 0%Z 0%Z 0%Z fz.
Definition spF : spmat spec_float := mkSp [] [] [] 0 0 0.
Definition junkF : pwork spec_float := mkW 0 0 0 0 [] [] [] [] [] fz fz [] [] [] [] None [] [] []
  (@new_cone FOps 0 [] 0) None spF [] [] [] [] [] [] [] [] fz fz fz [] [] []
  fz fz fz fz fz fz fz fz fz fz fz (mkKkt spF spF [] [] [] [] [] [] [] [] [] [] [] [] [] [] [] [] [] [] [] [] [] [] [] fz) stF (@default_settings FOps).
Definition idamdF : amd_oracle := fun n _ _ => Some (arr_of (seq 0 n)).

Definition zF : Z -> spec_float := SF_ofZ.
Definition setupF n m p l q nexc G A c h b : option (pwork spec_float) :=
  match @ECOS_setup FOps idamdF junkF n m p l q nexc G A (arr_of c) (arr_of h) (arr_of b) with
  | Some (Some w) => Some w
  | _ => None
  end.

Definition set_gamma (q : Q) (w : pwork spec_float) := set_w_stgs w (set_sg_gamma (w_stgs w) (SF_ofQ q)).
Definition set_maxit (k : Z) (w : pwork spec_float) := set_w_stgs w (set_sg_maxit (w_stgs w) k).

Definition solveF (sig : Z -> bool) (t : ctrlc) (w : pwork spec_float) := @ECOS_solve FOps sig t w.
Definition quiet_ : Z -> bool := fun _ => false.
Definition user_ : ctrlc := mkCtrlc (Some 7) None.

(* min x  s.t.  |3 - x| <= 1 + 2x  (one second-order cone of dimension 2) *)
Definition ex_soc : option (pwork spec_float) :=
  setupF 1 2 0 0 [2] 0 (arr_of [zF (-2); zF 1], arr_of [0;2], arr_of [0;1]) None [zF 1] [zF 1; zF 3] [].
(* min x  s.t.  2401 x >= 2401 *)
Definition ex_49 : option (pwork spec_float) :=
  setupF 1 1 0 1 [] 0 (arr_of [zF (-2401)], arr_of [0;1], arr_of [0]) None [zF 1] [zF (-2401)] [].
