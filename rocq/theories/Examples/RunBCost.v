(* A binary64 run that meets the hypotheses of C49_binary64_cost, and whose
   caller finds another cost vector afterwards: the rounding is real. *)
From Coq Require Import List Arith Bool ZArith QArith Reals Lia Lra.
From Flocq Require Import Core BinarySingleNaN.
From Verif Require Import Base Num NumX.
From Verif.Model Require Import Spla Types Consts Cone Ecos Preproc.
From Verif.Spec Require Import Matrix Conic SetupSpec Rounding.
From Verif.Proofs Require Import SplaP PhiP RoundB.
From Verif.Properties Require Import Rounding RoundingCost.
From Verif.Examples Require Import RunB RunBData.
Import ListNotations.
Open Scope nat_scope.

(* min 3x  s.t.  7x >= 1 *)
Definition costG : spmat b64 := mkSp (arr_of [0;1]) (arr_of [0]) (arr_of [zB (-7)]) 1 1 1.
Definition cost_run : option (Z * ctrlc * pwork b64 * pwork b64) :=
  match setupM 1 [] 1 0 None costG (arr_of [zB 3]) (arr_of [zB (-1)]) [] with
  | Some (Some w) => match solveB w with Some (code, t, w') => Some (code, t, w, w') | None => None end
  | _ => None
  end.
Definition check_cost (r : option (Z * ctrlc * pwork b64 * pwork b64)) : bool :=
  match r with
  | Some (code, _, w, w') =>
      (code =? 0)%Z && (0 <=? sg_maxit (w_stgs w))%Z && (w_n w =? 1)%nat &&
      allb small (w_xequil w) 1 && allb small (w_c w') 1 && allb small (w_c w) 1 &&
      match get (w_c w') 0, get (w_c w) 0 with Some v, Some v0 => negb (Beqb v v0) | _, _ => false end
  | None => false
  end.
Lemma cost_run_ok : check_cost cost_run = true. Proof. vm_compute. reflexivity. Qed.

Definition cost_drift (r : option (Z * ctrlc * pwork b64 * pwork b64)) : Prop :=
  exists t w w', r = Some (0%Z, t, w, w') /\ @solves B0 w 1 w' /\
    @holds B0 bval (w_xequil w) (w_n w) (bfun (w_xequil w)) /\ @holds B0 bval (w_c w') (w_n w) (bfun (w_c w')) /\
    bfun (w_c w') 0 <> bfun (w_c w) 0.

Lemma solve_of_run code t w w' : cost_run = Some (code, t, w, w') -> solveB w = Some (code, t, w').
Proof.
  unfold cost_run. destruct (setupM _ _ _ _ _ _ _ _ _) as [[w0|]|]; try discriminate.
  destruct (solveB w0) as [[[c0 t0] w1]|] eqn:E; [|discriminate]. intros Q. injection Q as <- <- <- <-. exact E.
Qed.
Lemma check_cost_ok r : (forall code t w w', r = Some (code, t, w, w') -> solveB w = Some (code, t, w')) -> check_cost r = true -> cost_drift r.
Proof.
  intros SR H. destruct r as [[[[code t] w] w']|]; [|discriminate]. unfold check_cost in H.
  apply andb_prop in H as [H NE]. do 5 (apply andb_prop in H as [H ?]). apply Z.eqb_eq in H. subst code. specialize (SR _ _ _ _ eq_refl).
  repeat match goal with K : (_ <=? _)%Z = true |- _ => apply Z.leb_le in K | K : (_ =? _)%nat = true |- _ => apply Nat.eqb_eq in K
    | K : allb small _ _ = true |- _ => apply allb_small in K as [? _] end.
  exists t, w, w'. split; [reflexivity|]. split; [|split; [|split]].
  - apply (@so_solve B0 w 0 w (fun _ => false) (mkCtrlc (Some 7) None) 0%Z t w'); [apply so_refl|assumption|exact SR|discriminate|discriminate].
  - match goal with K : w_n w = 1 |- _ => rewrite K end. assumption.
  - match goal with K : w_n w = 1 |- _ => rewrite K end. assumption.
  - unfold bfun. match goal with K : @holds _ _ (w_c w') 1 _, K2 : @holds _ _ (w_c w) 1 _ |- _ =>
      destruct (K 0 ltac:(lia)) as (v & G1 & P1); destruct (K2 0 ltac:(lia)) as (v0 & G2 & P2) end.
    change (@get b64 (@w_c b64 w') 0 = Some v) in G1. change (@get b64 (@w_c b64 w) 0 = Some v0) in G2.
    rewrite G1, G2 in NE. rewrite G1, G2. unfold bnum. intros EQ.
    assert (F1 : is_finite v = true) by (unfold bval in P1; destruct (is_finite v); [reflexivity|discriminate]).
    assert (F2 : is_finite v0 = true) by (unfold bval in P2; destruct (is_finite v0); [reflexivity|discriminate]).
    rewrite (Beqb_correct _ _ v v0 F1 F2), EQ in NE. rewrite (Req_bool_true (B2R v0) (B2R v0) eq_refl) in NE. discriminate.
Qed.

Theorem C49_cost_example : cost_drift cost_run.
Proof. exact (check_cost_ok cost_run solve_of_run cost_run_ok). Qed.
Print Assumptions C49_cost_example.
