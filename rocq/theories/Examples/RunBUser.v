(* Four problems given in IEEE binary64 numbers meet the hypotheses of C50. *)
From Coq Require Import List Arith Bool ZArith QArith Reals Lia Lra.
From Flocq Require Import Core BinarySingleNaN.
From Verif Require Import Base Num NumX.
From Verif.Model Require Import Spla Types Consts Cone Kkt Equil Ecos Preproc.
From Verif.Spec Require Import Matrix Conic Certificate Scaling SetupSpec User Rounding Nearby.
From Verif.Proofs Require Import SplaP PhiP RoundB.
From Verif.Properties Require Import Certificate Rounding RoundingInf RoundingData RoundingUser.
From Verif.Examples Require Import RunB RunBInf RunBData.
Import ListNotations.
Open Scope nat_scope.

Definition check_userB (code : Z) (l : nat) (q : list nat) (n p : nat) (MA : option (spmat b64)) (MG : spmat b64) (c h b : arr b64) : bool :=
  check_givenB l q n p MA MG c h b &&
  match setupM l q n p MA MG c h b with
  | Some (Some w) => check_runB l q 0 8 code w
  | _ => false
  end.

(* the problem is set up and solved, with the default settings, with this code, and the run is as C50 supposes *)
Definition in_C50 (code : Z) (l : nat) (q : list nat) (n p : nat) (MA : option (spmat b64)) (MG : spmat b64) (c h b : arr b64) : Prop :=
  exists w w' t' P A G xe Ae Ge x y z s tau ft at_ rt ft' at' rt',
    run nanf nanf idamdB junkB (userB l q n p MA MG c h b) (option_map (mmapf bnum) MA) (mmapf bnum MG) MA MG c h b
      w w' (w_stgs w) (fun _ => false) (mkCtrlc (Some 7) None) t' code P A G 8 xe Ae Ge x y z s tau ft at_ rt ft' at' rt'.

Lemma check_userB_ok code l q n p MA MG c h b : check_userB code l q n p MA MG c h b = true -> in_C50 code l q n p MA MG c h b.
Proof.
  unfold check_userB. intros H. apply andb_prop in H as [G H]. apply given_ok in G as (GV & _).
  destruct (setupM l q n p MA MG c h b) as [[w|]|] eqn:E; try discriminate.
  apply check_runB_spec in H as (w' & t' & ES & RH & Mi & Be & TL & TP & MD).
  assert (W: set_w_stgs w (w_stgs w) = w) by (destruct w; reflexivity).
  exists w, w', t', (probB l q 0 w), (AB w), (mmapf bnum (w_G w)), (bfun (w_xequil w)), (bfun (w_Aequil w)), (bfun (w_Gequil w)),
    (bfun (w_x w')), (bfun (w_y w')), (bfun (w_z w')), (bfun (w_s w')), (bnum (w_tau w')),
    (tolB sg_feastol w), (tolB sg_abstol w), (tolB sg_reltol w), (tolB sg_feastol_inacc w), (tolB sg_abstol_inacc w), (tolB sg_reltol_inacc w).
  constructor.
  - exact GV.
  - exact E.
  - eapply eq_trans; [|exact ES]. f_equal. exact W.
  - exact Mi.
  - exact TL.
  - exact TP.
  - exact RH.
  - split; [reflexivity|split; reflexivity].
  - cbn. lra.
  - exact MD.
Qed.

(* x = 0 and x >= 1 *)
Definition pinfA : spmat b64 := mkSp (arr_of [0;1]) (arr_of [0]) (arr_of [zB 1]) 1 1 1.
Definition pinfG : spmat b64 := mkSp (arr_of [0;1]) (arr_of [0]) (arr_of [zB (-1)]) 1 1 1.

Lemma lp_userB : check_userB 0 3 [] 2 1 (Some lpA) lpG (arr_of [zB 1; zB 2]) (arr_of [zB 0; zB 0; zB 2]) (arr_of [zB 1]) = true.
Proof. vm_compute. reflexivity. Qed.
Lemma soc_userB : check_userB 0 0 [2] 1 0 None socG (arr_of [zB 1]) (arr_of [zB 1; zB 3]) [] = true.
Proof. vm_compute. reflexivity. Qed.
Lemma pinf_userB : check_userB 1 1 [] 1 1 (Some pinfA) pinfG (arr_of [zB 0]) (arr_of [zB (-1)]) (arr_of [zB 0]) = true.
Proof. vm_compute. reflexivity. Qed.
Lemma dinf_userB : check_userB 2 0 [2] 1 0 None socG (arr_of [zB (-1)]) (arr_of [zB 1; zB 3]) [] = true.
Proof. vm_compute. reflexivity. Qed.

Theorem C50_examples :
  in_C50 0 3 [] 2 1 (Some lpA) lpG (arr_of [zB 1; zB 2]) (arr_of [zB 0; zB 0; zB 2]) (arr_of [zB 1]) /\
  in_C50 0 0 [2] 1 0 None socG (arr_of [zB 1]) (arr_of [zB 1; zB 3]) [] /\
  in_C50 1 1 [] 1 1 (Some pinfA) pinfG (arr_of [zB 0]) (arr_of [zB (-1)]) (arr_of [zB 0]) /\
  in_C50 2 0 [2] 1 0 None socG (arr_of [zB (-1)]) (arr_of [zB 1; zB 3]) [].
Proof.
  exact (conj (check_userB_ok 0 3 [] 2 1 (Some lpA) lpG (arr_of [zB 1; zB 2]) (arr_of [zB 0; zB 0; zB 2]) (arr_of [zB 1]) lp_userB)
    (conj (check_userB_ok 0 0 [2] 1 0 None socG (arr_of [zB 1]) (arr_of [zB 1; zB 3]) [] soc_userB)
    (conj (check_userB_ok 1 1 [] 1 1 (Some pinfA) pinfG (arr_of [zB 0]) (arr_of [zB (-1)]) (arr_of [zB 0]) pinf_userB)
      (check_userB_ok 2 0 [2] 1 0 None socG (arr_of [zB (-1)]) (arr_of [zB 1; zB 3]) [] dinf_userB)))).
Qed.
Print Assumptions C50_examples.
