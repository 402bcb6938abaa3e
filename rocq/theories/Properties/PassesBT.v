(* C33 in IEEE double precision, with the relaxations' values bounded by numbers. *)
From Coq Require Import Reals Lra Lia ZArith QArith List Bool Arith.
From Flocq Require Import Core BinarySingleNaN.
From Verif Require Import Base Num NumI.
From Verif.Model Require Import Consts Types Ecos BbTypes Bb.
From Verif.Spec Require Import Solver.
From Verif.Proofs Require Import RoundB.
From Verif.Properties Require Import Passes PassesB.
Import ListNotations.
Open Scope nat_scope.

Section Pass.
Variables ex lg : b64 -> b64.
Notation B := (BOps ex lg).
#[local] Existing Instance BInt.

(* the arrays of the relaxation's workspace have the sizes of the problem *)
Definition sized (n pe m nv : nat) (p : pwork b64) : Prop :=
  w_n p = n /\ w_p p = pe /\ w_m p = m /\
  2 * nv <= length (w_h p) /\ (forall i, i < 2 * nv -> exists e, get (w_Gequil p) i = Some e) /\
  (forall i, i < n -> exists e, get (w_c p) i = Some e) /\
  n <= length (w_x p) /\ pe <= length (w_y p) /\ m <= length (w_z p) /\ m <= length (w_s p).

(* Every call of the solver returns - any code - and leaves finite values in the integer
   variables: of at most 2^30 - 1, and of at most 63 for booleans. *)
Record bounded_solver (n pe m nb ni : nat) (col : nat -> nat) (solver : nat -> ctrlc -> pwork b64 -> option (Z * ctrlc * pwork b64)) : Prop := {
  bs_solve : forall k t p, sized n pe m (nb + ni) p -> exists code t' p',
    solver k t p = Some (code, t', p') /\ sized n pe m (nb + ni) p' /\
    (forall i, i < n -> exists v, get (w_x p') i = Some v) /\
    (forall j y, j < nb + ni -> get (w_x p') (col j) = Some y ->
       is_finite y = true /\ (Rabs (B2R y) <= 1073741823)%R /\ (j < nb -> (Rabs (B2R y) <= 63)%R))
}.

(* Branch and bound in double precision returns a documented code after fewer than
   maxit passes, without undefined behaviour. *)
Theorem C33_binary64_terminates n pe m col (w : bbwork b64) solver rnd rfuel :
  bounded_solver n pe m (bb_nb w) (bb_ni w) col solver ->
  @allocated B (BInt ex lg) n pe m col (sized n pe m (bb_nb w + bb_ni w)) w ->
  is_finite (bs_itol (bb_stgs w)) = true -> (0 <= B2R (bs_itol (bb_stgs w)) <= 1)%R ->
  0 < bb_nb w + bb_ni w -> (forall j, j < bb_nb w + bb_ni w -> col j < n) ->
  (forall k, (0 <= rnd k <= RAND_MAX)%Z) -> (1 <= bs_maxit (bb_stgs w))%Z ->
  bs_strategy (bb_stgs w) <> StrongBranching -> bs_strategy (bb_stgs w) <> RandomBranching ->
  exists r w', @ECOS_BB_solve B (BInt ex lg) solver rnd rfuel w = Some (r, w') /\ documented r /\
    (Z.of_nat (bb_iter w') < bs_maxit (bb_stgs w))%Z.
Proof.
  intros [S] A T T1 Nv C R Mx S1 S2.
  refine (@C33_terminates B (BInt ex lg) solver rnd rfuel n pe m col (sized n pe m (bb_nb w + bb_ni w)) w _ A Nv C R Mx S1 S2).
  constructor.
  - intros p H. exact H.
  - intros p h (H1 & H2 & H3 & H4 & H5 & H6 & H7 & H8 & H9 & H10) Lh. 
    refine (conj H1 (conj H2 (conj H3 (conj _ (conj H5 (conj H6 (conj H7 (conj H8 (conj H9 H10))))))))).
    exact (eq_ind_r (fun v => 2 * (bb_nb w + bb_ni w) <= v) H4 Lh).
  - intros k t p H. destruct (S k t p H) as (code & t' & p' & E & G & X & Y). exists code, t', p'. split; [exact E|]. split; [exact G|]. split; [exact X|].
    intros j y Hj Hy. destruct (Y j y Hj Hy) as (F1 & F2 & F3). destruct (C33_binary64_convertible ex lg y _ T T1 F1 F2) as [V1 V2]. split; [exact V1|]. intros Hb. apply V2, F3, Hb.
Qed.
End Pass.
Print Assumptions C33_binary64_terminates.
