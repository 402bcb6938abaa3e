(* Four workspaces used for several problems in IEEE binary64: the last solve of
   each meets the hypotheses of C50 for any time. *)
From Coq Require Import List Arith Bool ZArith QArith Reals Lia Lra.
From Flocq Require Import Core BinarySingleNaN.
From Verif Require Import Base Num NumX.
From Verif.Model Require Import Spla Types Consts Cone Kkt Equil Ecos Preproc.
From Verif.Spec Require Import Matrix Conic Certificate Scaling SetupSpec UpdateSpec User Rounding Nearby.
From Verif.Proofs Require Import SplaP PhiP RoundB.
From Verif.Properties Require Import Certificate Rounding RoundingInf RoundingData RoundingUser RoundingSession.
From Verif Require Import Proofs.RoundF.
From Verif.Examples Require Import RunB RunBInf RunBData RunBUser RunBCost.
Import ListNotations.
Open Scope nat_scope.

(* what a caller does with a workspace between setup and the last solve *)
Inductive step :=
| Solve
| SetC (idx : nat) (v : b64)
| SetH (idx : nat) (v : b64)
| Update (Gpr : arr b64) (Apr : option (arr b64)) (c h b : arr b64).
(* the workspace and the arrays it was given last *)
Definition state : Type := pwork b64 * option (spmat b64) * spmat b64 * arr b64 * arr b64 * arr b64.

Definition fullb (a : arr b64) (n : nat) : bool := forallb (fun i => match get a i with Some _ => true | None => false end) (seq 0 n).
Lemma fullb_ok a n : fullb a n = true -> full a n.
Proof.
  unfold fullb. rewrite forallb_forall. intros H i Hi. specialize (H i ltac:(apply in_seq; lia)). destruct (get a i) as [v|]; [eauto|discriminate].
Qed.

Definition exec (n m : nat) (st : state) (x : step) : option state :=
  let '(w, MA, MG, c, h, b) := st in
  match x with
  | Solve => if (0 <=? sg_maxit (w_stgs w))%Z then '(_, _, w') <- solveB w ;; Some (w', MA, MG, w_c w', h, b) else None
  | SetC i v => if i <? n then w' <- @ecos_updateDataEntry_c B0 w i v ;; c2 <- set c i v ;; Some (w', MA, MG, c2, h, b) else None
  | SetH i v => if i <? m then w' <- @ecos_updateDataEntry_h B0 w i v ;; h2 <- set h i v ;; Some (w', MA, MG, c, h2, b) else None
  | Update Gpr Apr c2 h2 b2 =>
      if fullb Gpr (sp_nnz (w_G w)) && match w_A w with Some A => match Apr with Some pr => fullb pr (sp_nnz A) | None => false end | None => true end &&
         fullb c2 (w_n w) && fullb h2 (w_m w) && fullb b2 (w_p w)
      then '(w', _) <- @ECOS_updateData B0 w (mkApart true true true true true) Gpr Apr c2 h2 b2 ;;
           Some (w', @new_A B0 (w_A w) Apr, @new_G B0 w Gpr, c2, h2, @new_b B0 w b2)
      else None
  end.
Fixpoint execs (n m : nat) (st : state) (l : list step) : option state :=
  match l with [] => Some st | x :: l => st' <- exec n m st x ;; execs n m st' l end.

Definition loadedB (n m p l : nat) (q : list nat) (st : state) : Prop :=
  let '(w, MA, MG, c, h, b) := st in @loaded B0 n m p l q 0 w MA MG c h b.

Lemma exec_ok n m p l q st x st' : loadedB n m p l q st -> exec n m st x = Some st' -> loadedB n m p l q st'.
Proof.
  destruct st as [[[[[w MA] MG] c] h] b]. cbn [loadedB]. intros LD E. destruct x as [|i v|i v|Gpr Apr c2 h2 b2]; unfold exec in E.
  - destruct (Z.leb_spec 0 (sg_maxit (w_stgs w))) as [M|]; [|discriminate].
    destruct (solveB w) as [[[code t'] w']|] eqn:ES; [|discriminate]. cbn [bind] in E. injection E as <-. cbn [loadedB].
    exact (@ld_solve B0 n m p l q 0 w MA MG c h b _ _ code t' w' LD M ES).
  - destruct (Nat.ltb_spec i n) as [Hi|]; [|discriminate]. destruct (@ecos_updateDataEntry_c B0 w i v) as [w'|] eqn:EE; [|discriminate]. cbn [bind] in E.
    destruct (set c i v) as [c2|] eqn:ES; [|discriminate]. cbn [bind] in E. injection E as <-. cbn [loadedB].
    exact (@ld_c B0 n m p l q 0 w MA MG c h b i v c2 w' LD Hi EE ES).
  - destruct (Nat.ltb_spec i m) as [Hi|]; [|discriminate]. destruct (@ecos_updateDataEntry_h B0 w i v) as [w'|] eqn:EE; [|discriminate]. cbn [bind] in E.
    destruct (set h i v) as [h2|] eqn:ES; [|discriminate]. cbn [bind] in E. injection E as <-. cbn [loadedB].
    exact (@ld_h B0 n m p l q 0 w MA MG c h b i v h2 w' LD Hi EE ES).
  - destruct (fullb Gpr (sp_nnz (w_G w)) && _ && _ && _ && _) eqn:FB; [|discriminate].
    do 4 (apply andb_prop in FB as [FB ?]).
    destruct (@ECOS_updateData B0 w (mkApart true true true true true) Gpr Apr c2 h2 b2) as [[w' old]|] eqn:EE; [|discriminate]. cbn [bind] in E. injection E as <-. cbn [loadedB].
    assert (NV: @new_values B0 w Gpr Apr c2 h2 b2).
    { unfold new_values. split; [apply fullb_ok; assumption|]. split; [|split; [|split]; apply fullb_ok; assumption].
      match goal with K : match w_A w with _ => _ end = true |- _ => rename K into KA end. revert KA. change (@F B0) with b64. destruct (w_A w); auto. destruct Apr as [pr|]; [|discriminate].
      intros KA. exists pr. split; auto. apply fullb_ok. exact KA. }
    exact (@ld_update B0 n m p l q 0 w MA MG c h b _ Gpr Apr c2 h2 b2 w' old LD NV EE).
Qed.
Lemma execs_ok n m p l q xs : forall st st', loadedB n m p l q st -> execs n m st xs = Some st' -> loadedB n m p l q st'.
Proof.
  induction xs as [|x xs IH]; intros st st' LD E; cbn [execs] in E.
  - injection E as <-. exact LD.
  - destruct (exec n m st x) as [st1|] eqn:E1; [|discriminate]. cbn [bind] in E. eapply IH; [|exact E]. eapply exec_ok; eauto.
Qed.

Definition check_run2B (l : nat) (q : list nat) (K : nat) (code : Z) (w : pwork b64) : bool :=
  match solveB w with
  | Some (c, _, w') =>
      (c =? code)%Z && check_wsB l q 0 K w && check_retB w w' && (0 <=? sg_maxit (w_stgs w))%Z &&
      negb (st_iter (w_info w') =? 0)%Z &&
      nneg (sg_feastol (w_stgs w)) && nneg (sg_abstol (w_stgs w)) && nneg (sg_reltol (w_stgs w)) &&
      nneg (sg_feastol_inacc (w_stgs w)) && nneg (sg_abstol_inacc (w_stgs w)) && nneg (sg_reltol_inacc (w_stgs w))
  | None => false
  end.

Lemma check_run2B_spec l q K code w : check_run2B l q K code w = true ->
  exists w' t',
    @ECOS_solve B0 (fun _ => false) (mkCtrlc (Some 7%nat) None) w = Some (code, t', w') /\
    @rheld B0 bval w (probB l q 0 w) (AB w) (mmapf bnum (w_G w)) /\ (0 <= sg_maxit (w_stgs w))%Z /\ st_iter (w_info w') <> 0%Z /\
    tolerances (settings_mapf bval (w_stgs w)) (tolB sg_feastol w) (tolB sg_abstol w) (tolB sg_reltol w)
      (tolB sg_feastol_inacc w) (tolB sg_abstol_inacc w) (tolB sg_reltol_inacc w) /\
    (0 <= tolB sg_feastol w /\ 0 <= tolB sg_abstol w /\ 0 <= tolB sg_reltol w /\
     0 <= tolB sg_feastol_inacc w /\ 0 <= tolB sg_abstol_inacc w /\ 0 <= tolB sg_reltol_inacc w)%R /\
    @moderate B0 bval w w' (probB l q 0 w) (AB w) (mmapf bnum (w_G w)) K DB (bfun (w_xequil w)) (bfun (w_Aequil w)) (bfun (w_Gequil w))
      (bfun (w_x w')) (bfun (w_y w')) (bfun (w_z w')) (bfun (w_s w')) (bnum (w_tau w')).
Proof.
  unfold check_run2B, solveB. destruct (@ECOS_solve B0 _ _ w) as [[[c t'] w']|] eqn:E; [|discriminate].
  intros H. do 10 (apply andb_prop in H as [H ?]). apply Z.eqb_eq in H. subst c.
  repeat match goal with K : nneg _ = true |- _ => apply nneg_spec in K as [? ?] end.
  match goal with K1 : check_wsB _ _ _ _ _ = true, K2 : check_retB _ _ = true |- _ => destruct (check_wsB_spec _ _ _ _ _ _ K1 K2) as [Q1 Q2] end.
  exists w', t'. split; [reflexivity|]. split; [exact Q1|]. split; [apply Z.leb_le; assumption|].
  split. { match goal with K : negb (st_iter _ =? 0)%Z = true |- _ => apply negb_true_iff, Z.eqb_neq in K; exact K end. }
  split; [|split; [repeat split; assumption|exact Q2]].
  unfold tolB. clear E Q1 Q2. destruct (w_stgs w). constructor; assumption.
Qed.

Definition check_lifeB (code : Z) (l : nat) (q : list nat) (n p : nat) (MA : option (spmat b64)) (MG : spmat b64) (c h b : arr b64) (xs : list step) : bool :=
  check_givenB l q n p MA MG c h b && (1 <=? sp_nnz MG) && match MA with Some A => 1 <=? sp_nnz A | None => true end && forallb (Nat.leb 1) q &&
  match setupM l q n p MA MG c h b with
  | Some (Some w0) =>
    match execs n (cdim l q 0) (w0, MA, MG, c, h, b) xs with
    | Some (w, MA, MG, c, h, b) => check_givenB l q n p MA MG c h b && check_run2B l q 8 code w
    | None => false
    end
  | _ => false
  end.

(* after setup and the steps xs, the problem is solved with this code, and the run is as C50 supposes *)
Definition in_C50_session (code : Z) (l : nat) (q : list nat) (n p : nat) (MA : option (spmat b64)) (MG : spmat b64) (c h b : arr b64) (xs : list step) : Prop :=
  exists w0 w MA' MG' c' h' b', setupM l q n p MA MG c h b = Some (Some w0) /\
    execs n (cdim l q 0) (w0, MA, MG, c, h, b) xs = Some (w, MA', MG', c', h', b') /\
  exists w' t' P A G xe Ae Ge x y z s tau ft at_ rt ft' at' rt',
    any_run nanf nanf (userB l q n p MA' MG' c' h' b') (option_map (mmapf bnum) MA') (mmapf bnum MG') MA' MG' c' h' b'
      w w' (fun _ => false) (mkCtrlc (Some 7) None) t' code P A G 8 xe Ae Ge x y z s tau ft at_ rt ft' at' rt'.

Lemma holds_full a n f : @holds B0 bval a n f -> full a n.
Proof. intros H i Hi. destruct (H i Hi) as (v & E & _). exists v. exact E. Qed.

Lemma check_lifeB_ok code l q n p MA MG c h b xs : check_lifeB code l q n p MA MG c h b xs = true -> in_C50_session code l q n p MA MG c h b xs.
Proof.
  unfold check_lifeB. intros H. apply andb_prop in H as [H HX]. apply andb_prop in H as [H HQ]. apply andb_prop in H as [H HNA]. apply andb_prop in H as [H HNG]. apply given_ok in H as (GV & _).
  destruct (setupM l q n p MA MG c h b) as [[w0|]|] eqn:E; try discriminate.
  destruct (execs n (cdim l q 0) (w0, MA, MG, c, h, b) xs) as [[[[[[w MA'] MG'] c'] h'] b']|] eqn:EX; try discriminate.
  apply andb_prop in HX as [G2 K2]. apply given_ok in G2 as (GV2 & _).
  apply check_run2B_spec in K2 as (w' & t' & ES & RH & Mi & Be & TL & TP & MD).
  exists w0, w, MA', MG', c', h', b'. split; [exact E|]. split; [exact EX|].
  exists w', t', (probB l q 0 w), (AB w), (mmapf bnum (w_G w)), (bfun (w_xequil w)), (bfun (w_Aequil w)), (bfun (w_Gequil w)),
    (bfun (w_x w')), (bfun (w_y w')), (bfun (w_z w')), (bfun (w_s w')), (bnum (w_tau w')),
    (tolB sg_feastol w), (tolB sg_abstol w), (tolB sg_reltol w), (tolB sg_feastol_inacc w), (tolB sg_abstol_inacc w), (tolB sg_reltol_inacc w).
  constructor.
  - refine (execs_ok n (cdim l q 0) p l q xs (w0, MA, MG, c, h, b) (w, MA', MG', c', h', b') _ EX). cbn [loadedB].
    destruct GV as [[(WG & Gn & Gm & _) UA] HG HA Hc Hh Hb]. cbn [userB pb_n pb_p] in *.
    assert (Pm: pb_m (userB l q n p MA MG c h b) = cdim l q 0) by reflexivity. rewrite Pm in *.
    apply (@ld_setup B0 n (cdim l q 0) p l q 0 idamdB junkB MA MG c h b w0); [|exact id_amd_ok|exact E].
    constructor.
    + exact (@holds_mat_wf B0 bval _ _ HG WG).
    + exact Gn.
    + exact Gm.
    + left. apply Nat.leb_le in HNG. intros Z0. change (sp_nnz MG = 0) in Z0. lia.
    + destruct MA as [MA|]; cbn [option_map okA] in *; [|exact UA]. destruct UA as (WA & An & Am & _).
      split; [exact (@holds_mat_wf B0 bval _ _ HA WA)|]. split; [exact An|]. split; [exact Am|]. left.
      apply Nat.leb_le in HNA. intros Z0. change (sp_nnz MA = 0) in Z0. lia.
    + intros d Hd. rewrite forallb_forall in HQ. apply Nat.leb_le, HQ, Hd.
    + exact (holds_full _ _ _ Hc).
    + exact (holds_full _ _ _ Hh).
    + exact (holds_full _ _ _ Hb).
  - exact GV2.
  - exact ES.
  - exact Mi.
  - right. exact Be.
  - exact TL.
  - exact TP.
  - exact RH.
  - split; [reflexivity|split; reflexivity].
  - cbn. lra.
  - exact MD.
Qed.

Definition lpxs : list step := [Solve; Update (arr_of [zB (-2); zB 1; zB (-1)]) (Some (arr_of [zB 1; zB 3])) (arr_of [zB 2; zB 3]) (arr_of [zB 0; zB 0; zB 3]) (arr_of [zB 2]);
  Solve; SetH 2 (zB 5); SetC 0 (zB 3)].
Lemma cost_lifeB : check_lifeB 0 1 [] 1 0 None costG (arr_of [zB 3]) (arr_of [zB (-1)]) [] [Solve; Solve] = true.
Proof. vm_compute. reflexivity. Qed.
Lemma lp_lifeB : check_lifeB 0 3 [] 2 1 (Some lpA) lpG (arr_of [zB 1; zB 2]) (arr_of [zB 0; zB 0; zB 2]) (arr_of [zB 1]) lpxs = true.
Proof. vm_compute. reflexivity. Qed.
Lemma pinf_lifeB : check_lifeB 1 1 [] 1 1 (Some pinfA) pinfG (arr_of [zB 0]) (arr_of [zB 1]) (arr_of [zB 0]) [Solve; SetH 0 (zB (-1))] = true.
Proof. vm_compute. reflexivity. Qed.
Lemma dinf_lifeB : check_lifeB 2 0 [2] 1 0 None socG (arr_of [zB 1]) (arr_of [zB 1; zB 3]) [] [Solve; SetC 0 (zB (-1))] = true.
Proof. vm_compute. reflexivity. Qed.

Theorem C50_session_examples :
  in_C50_session 0 1 [] 1 0 None costG (arr_of [zB 3]) (arr_of [zB (-1)]) [] [Solve; Solve] /\
  in_C50_session 0 3 [] 2 1 (Some lpA) lpG (arr_of [zB 1; zB 2]) (arr_of [zB 0; zB 0; zB 2]) (arr_of [zB 1]) lpxs /\
  in_C50_session 1 1 [] 1 1 (Some pinfA) pinfG (arr_of [zB 0]) (arr_of [zB 1]) (arr_of [zB 0]) [Solve; SetH 0 (zB (-1))] /\
  in_C50_session 2 0 [2] 1 0 None socG (arr_of [zB 1]) (arr_of [zB 1; zB 3]) [] [Solve; SetC 0 (zB (-1))].
Proof.
  exact (conj (check_lifeB_ok 0 1 [] 1 0 None costG (arr_of [zB 3]) (arr_of [zB (-1)]) [] [Solve; Solve] cost_lifeB)
    (conj (check_lifeB_ok 0 3 [] 2 1 (Some lpA) lpG (arr_of [zB 1; zB 2]) (arr_of [zB 0; zB 0; zB 2]) (arr_of [zB 1]) lpxs lp_lifeB)
    (conj (check_lifeB_ok 1 1 [] 1 1 (Some pinfA) pinfG (arr_of [zB 0]) (arr_of [zB 1]) (arr_of [zB 0]) [Solve; SetH 0 (zB (-1))] pinf_lifeB)
      (check_lifeB_ok 2 0 [2] 1 0 None socG (arr_of [zB 1]) (arr_of [zB 1; zB 3]) [] [Solve; SetC 0 (zB (-1))] dinf_lifeB)))).
Qed.
Print Assumptions C50_session_examples.
