(* Runs of the model in IEEE binary64 that end with an infeasibility code, and
   meet the hypotheses of C48_binary64_infeasible. *)
From Coq Require Import List Arith Bool ZArith QArith Reals Lia Lra.
From Flocq Require Import Core BinarySingleNaN.
From Verif Require Import Base Num NumX.
From Verif.Model Require Import Spla Types Consts Cone Kkt Ecos Preproc.
From Verif.Spec Require Import Matrix Conic Certificate Rounding.
From Verif.Proofs Require Import SplaP PhiP RoundB.
From Verif.Properties Require Import Certificate Rounding RoundingInf.
From Verif.Examples Require Import RunB.
Import ListNotations.
Open Scope nat_scope.

(* x = 0 and x >= 1 *)
Definition exB_pinf : option (pwork b64) :=
  setupB 1 1 1 1 [] 0 (arr_of [zB (-1)], arr_of [0;1], arr_of [0]) (Some (arr_of [zB 1], arr_of [0;1], arr_of [0])) [zB 0] [zB (-1)] [zB 0].
(* min -x  s.t.  |3 - x| <= 1 + 2x *)
Definition exB_dinf : option (pwork b64) :=
  setupB 1 2 0 0 [2] 0 (arr_of [zB (-2); zB 1], arr_of [0;2], arr_of [0;1]) None [zB (-1)] [zB 1; zB 3] [].

Definition ok_infB (code : Z) (l : nat) (q : list nat) (r : option (pwork b64)) : bool :=
  match r with Some w => check_runB l q 0 8 code w | None => false end.
Lemma exB_pinf_ok : ok_infB 1 1 [] exB_pinf = true. Proof. vm_compute. reflexivity. Qed.
Lemma exB_dinf_ok : ok_infB 2 0 [2] exB_dinf = true. Proof. vm_compute. reflexivity. Qed.

Definition run_in_C48 (code : Z) (l : nat) (q : list nat) (w : pwork b64) : Prop :=
  exists w' t',
    @ECOS_solve B0 (fun _ => false) (mkCtrlc (Some 7%nat) None) w = Some (code, t', w') /\
    @rheld B0 bval w (probB l q 0 w) (AB w) (mmapf bnum (w_G w)) /\ (0 <= sg_maxit (w_stgs w))%Z /\ w_best w = None /\
    @moderate B0 bval w w' (probB l q 0 w) (AB w) (mmapf bnum (w_G w)) 8 (b2 60) (bfun (w_xequil w)) (bfun (w_Aequil w)) (bfun (w_Gequil w))
      (bfun (w_x w')) (bfun (w_y w')) (bfun (w_z w')) (bfun (w_s w')) (bnum (w_tau w')) /\
    exists X Y Z S,
      (forall i, i < w_n w -> near (b2 (-53)) (b2 (-1075)) (b2 60) (X i) (bfun (w_x w') i) (bfun (w_xequil w) i * bnum (w_tau w'))) /\
      rounded_infeasible code (probB l q 0 w) (AB w) (mmapf bnum (w_G w)) (b2 (-21)) (b2 (-500))
        (tolB sg_feastol w) (tolB sg_feastol_inacc w) (tolB sg_reltol w) X Y Z S.

Lemma run_in_C48_ok code l q w : In code [1; 2; 11; 12]%Z -> check_runB l q 0 8 code w = true -> run_in_C48 code l q w.
Proof.
  intros Hc H. apply check_runB_spec in H as (w' & t' & E & RH & Mi & Be & TL & (T1 & T2 & T3 & T4 & T5 & T6) & MD).
  exists w', t'. repeat (split; [assumption|]).
  destruct (C48_binary64_infeasible nanf nanf 8 w w' _ _ _ _ _ _ _ _ _ _ _ _ _ _ _ _ _ _ _ _ _ ltac:(cbn; lra) E RH Mi (or_introl Be) TL T1 T3 T4 MD Hc)
    as (X & Y & Z & S & N1 & _ & _ & _ & Op).
  exists X, Y, Z, S. split; [exact N1|exact Op].
Qed.

Lemma ok_in_C48 code l q r : In code [1; 2; 11; 12]%Z -> ok_infB code l q r = true -> exists w, r = Some w /\ run_in_C48 code l q w.
Proof. intros Hc. destruct r as [w|]; cbn [ok_infB]; intros H; [|discriminate]. exists w. split; [reflexivity|]. apply run_in_C48_ok; assumption. Qed.

Lemma in1 : In 1%Z [1; 2; 11; 12]%Z. Proof. left; reflexivity. Qed.
Lemma in2 : In 2%Z [1; 2; 11; 12]%Z. Proof. right; left; reflexivity. Qed.

(* the two runs meet the hypotheses of C48_binary64_infeasible, and so its conclusion *)
Theorem C48_examples :
  (exists w, exB_pinf = Some w /\ run_in_C48 1 1 [] w) /\ (exists w, exB_dinf = Some w /\ run_in_C48 2 0 [2] w).
Proof. exact (conj (ok_in_C48 1 1 [] exB_pinf in1 exB_pinf_ok) (ok_in_C48 2 0 [2] exB_dinf in2 exB_dinf_ok)). Qed.
Print Assumptions C48_examples.
