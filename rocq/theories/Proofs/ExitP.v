(* Partial correctness of the main loop of src/ecos.c for every arithmetic:
   what a returning call has done.  The invariant is that the statistics kept
   beside a point (the current one, the best one) were computed from it. *)
From Coq Require Import List Arith Bool ZArith Lia.
From Verif Require Import Base Num.
From Verif.Model Require Import Spla Types Consts Expcone Cone Ldl Kkt Equil Ecos.
Import ListNotations.
Open Scope nat_scope.

(* take apart  x <- m ;; k = Some r *)
Ltac dprod :=
  repeat match goal with v : (_ * _)%type |- _ => destruct v end.
Ltac binv1 H :=
  match type of H with
  | bind ?m _ = Some _ =>
      let E := fresh "E" in let v := fresh "v" in
      destruct m as [v|] eqn:E; [cbn [bind] in H; dprod | discriminate H]
  end.
Ltac binv H := repeat binv1 H.

Section Frame.
Context {O : Ops}.
Notation W := (pwork F).

(* the problem and the sizes of the residual vectors: nothing here changes
   while the main loop runs *)
Definition prob_of (w : W) :=
  (w_n w, w_m w, w_p w, w_D w, w_A w, w_G w, w_c w, w_b w, w_h w,
   (w_xequil w, w_Aequil w, w_Gequil w, w_stgs w, w_resx0 w, w_resy0 w, w_resz0 w,
    (length (w_rx w), length (w_ry w), length (w_rz w)))).
(* the saved iterate *)
Definition best_of (w : W) := (w_best_x w, w_best_y w, w_best_z w, w_best_s w, w_best w).
(* the current iterate *)
Definition point_of (w : W) := (w_x w, w_y w, w_z w, w_s w, w_kap w, w_tau w).
(* the statistics that travel with an iterate *)
Definition st_core (i : stats F) :=
  (st_pcost i, st_dcost i, st_pres i, st_dres i, st_pinfres i, st_dinfres i,
   st_gap i, st_relgap i, st_mu i, st_kapovert i).
Definition be_core (b : best F) :=
  (be_pcost b, be_dcost b, be_pres b, be_dres b, be_pinfres b, be_dinfres b,
   be_gap b, be_relgap b, be_mu b, be_kapovert b).
Definition summ (w : W) := (w_cx w, w_by w, w_hz w, st_core (w_info w)).
Definition be_summ (b : best F) := (be_cx b, be_by b, be_hz b, be_core b).

Lemma prob_dims w w' : prob_of w' = prob_of w ->
  w_n w' = w_n w /\ w_m w' = w_m w /\ w_p w' = w_p w /\ w_stgs w' = w_stgs w.
Proof. unfold prob_of. intros H. injection H as. auto. Qed.

(* w' differs from w only in work data *)
Record Quiet (w w' : W) : Prop := {
  q_prob : prob_of w' = prob_of w;
  q_best : best_of w' = best_of w;
  q_point : point_of w' = point_of w;
  q_summ : summ w' = summ w;
  q_iter : st_iter (w_info w') = st_iter (w_info w) }.

Lemma Quiet_refl w : Quiet w w.
Proof. constructor; reflexivity. Qed.
Lemma Quiet_trans a b c : Quiet a b -> Quiet b c -> Quiet a c.
Proof. intros [] []; constructor; congruence. Qed.

Ltac quiet := constructor; unfold prob_of, best_of, point_of, summ, st_core, set_info; wcbn; reflexivity.

Lemma solve1_quiet w w' : solve1 w = Some w' -> Quiet w w'.
Proof. unfold solve1. intros H. binv H. injection H as <-. quiet. Qed.

Lemma solve2_quiet w it w' : solve2 w = Some (it, w') -> Quiet w w'.
Proof. unfold solve2. intros H. binv H. injection H as _ <-. quiet. Qed.

Lemma bk_loop_core fuel : forall w dtau dkappa alpha ws wz i a ws' wz' i',
  bk_loop fuel w dtau dkappa alpha ws wz i = Some (a, ws', wz', i') ->
  st_core i' = st_core i /\ st_iter i' = st_iter i.
Proof.
  induction fuel as [|fuel IH]; intros w dtau dkappa alpha ws wz i a ws' wz' i' H; cbn [bk_loop] in H.
  - injection H as _ _ _ <-. auto.
  - binv H. destruct v.
    2:{ apply IH in H. unfold st_core in *; wcbn in H. exact H. }
    binv H. destruct v.
    2:{ apply IH in H. unfold st_core in *; wcbn in H. exact H. }
    binv H. destruct (Nat.eqb v0 (w_m w)).
    2:{ apply IH in H. unfold st_core in *; wcbn in H. exact H. }
    binv H. cbv zeta in H.
    match type of H with (if ?b then _ else _) = _ => destruct b end.
    + injection H as _ _ _ <-. auto.
    + apply IH in H. unfold st_core in *; wcbn in H. exact H.
Qed.

Lemma expls_quiet w dtau dkappa aff a w' :
  expConeLineSearch w dtau dkappa aff = Some (a, w') -> Quiet w w'.
Proof.
  unfold expConeLineSearch. intros H. binv H. injection H as _ <-.
  apply bk_loop_core in E. unfold st_core in E. wcbn in E. destruct E as [E E'].
  constructor; unfold prob_of, best_of, point_of, summ, st_core; wcbn; try reflexivity.
  - rewrite E. reflexivity.
  - exact E'.
Qed.

Lemma affine_solve_quiet w w' : affine_solve w = Some w' -> Quiet w w'.
Proof.
  unfold affine_solve. intros H. binv H. injection H as <-. apply solve2_quiet in E0.
  eapply Quiet_trans; [|quiet]. eapply Quiet_trans; [|exact E0]. quiet.
Qed.
Lemma affine_newton_quiet w a b c w' : affine_newton w = Some (a, b, c, w') -> Quiet w w'.
Proof. unfold affine_newton. intros H. binv H. cbv zeta in H. injection H as _ _ _ <-. quiet. Qed.
Lemma affine_exp_quiet a b w w' : affine_exp a b w = Some w' -> Quiet w w'.
Proof.
  unfold affine_exp. intros H. binv H. cbv zeta in H.
  match type of H with (if ?t then _ else _) = _ => destruct t end.
  - binv H. injection H as <-. apply expls_quiet in E0.
    match type of E0 with Quiet ?w0 _ => apply Quiet_trans with w0; [quiet|] end.
    eapply Quiet_trans; [exact E0|].
    match goal with |- context [if ?t then _ else _] => destruct t end; quiet.
  - injection H as <-. quiet.
Qed.
Lemma affine_dir_quiet w a b c w' : affine_dir w = Some (a, b, c, w') -> Quiet w w'.
Proof.
  unfold affine_dir. intros H. binv H. injection H as _ _ _ <-.
  eapply Quiet_trans; [|unfold affine_sigma; quiet].
  eapply Quiet_trans; [eapply affine_solve_quiet; eauto|]. eapply Quiet_trans; [eapply affine_newton_quiet; eauto|].
  eapply affine_exp_quiet; eauto.
Qed.

Lemma RHS_combined_quiet w w' : RHS_combined w = Some w' -> Quiet w w'.
Proof. unfold RHS_combined. intros H. binv H. injection H as <-. quiet. Qed.

Lemma combined_solve_quiet w w' : combined_solve w = Some w' -> Quiet w w'.
Proof.
  unfold combined_solve. intros H. binv H. injection H as <-. apply RHS_combined_quiet in E. apply solve2_quiet in E0.
  eapply Quiet_trans; [exact E|]. eapply Quiet_trans; [exact E0|]. quiet.
Qed.
Lemma combined_newton_quiet d1 d2 d3 w a b w' : combined_newton d1 d2 d3 w = Some (a, b, w') -> Quiet w w'.
Proof. unfold combined_newton. intros H. binv H. cbv zeta in H. injection H as _ _ <-. quiet. Qed.
Lemma combined_exp_quiet a b w ok w' : combined_exp a b w = Some (ok, w') -> Quiet w w'.
Proof.
  unfold combined_exp. intros H. binv H. cbv zeta in H.
  match type of H with (if ?t then _ else _) = _ => destruct t end.
  - binv H. injection H as _ <-. apply expls_quiet in E0.
    match type of E0 with Quiet ?w0 _ => apply Quiet_trans with w0; [quiet|] end.
    eapply Quiet_trans; [exact E0|]. quiet.
  - injection H as _ <-. quiet.
Qed.
Lemma combined_dir_quiet d1 d2 d3 w ok a b w' :
  combined_dir d1 d2 d3 w = Some (ok, a, b, w') -> Quiet w w'.
Proof.
  unfold combined_dir. intros H. binv H. injection H as <- _ _ <-.
  eapply Quiet_trans; [eapply combined_solve_quiet; eauto|]. eapply Quiet_trans; [eapply combined_newton_quiet; eauto|].
  eapply combined_exp_quiet; eauto.
Qed.

(* ------------------------------------------------------ what is evaluated *)

(* w1 carries residuals and statistics computed from its own point *)
Definition evaluated (w1 : W) : Prop :=
  exists w0 wr, computeResiduals w0 = Some wr /\ updateStatistics wr = Some w1.

(* first n cells equal *)
Definition agree (n : nat) (a b : arr F) : Prop := forall i, i < n -> get a i = get b i.

(* the point and statistics in w are those of an evaluated workspace w1 *)
Definition is_eval (w w1 : W) : Prop :=
  evaluated w1 /\ prob_of w1 = prob_of w /\
  agree (w_n w) (w_x w) (w_x w1) /\ agree (w_p w) (w_y w) (w_y w1) /\
  agree (w_m w) (w_z w) (w_z w1) /\ agree (w_m w) (w_s w) (w_s w1) /\
  w_kap w = w_kap w1 /\ w_tau w = w_tau w1 /\ summ w = summ w1.
Definition Cur (w : W) : Prop := exists w1, is_eval w w1.

Definition best_eval (w : W) (b : best F) (w1 : W) : Prop :=
  evaluated w1 /\ prob_of w1 = prob_of w /\
  agree (w_n w) (w_best_x w) (w_x w1) /\ agree (w_p w) (w_best_y w) (w_y w1) /\
  agree (w_m w) (w_best_z w) (w_z w1) /\ agree (w_m w) (w_best_s w) (w_s w1) /\
  be_kap b = w_kap w1 /\ be_tau b = w_tau w1 /\ be_summ b = summ w1.
Definition Bst (w : W) : Prop := forall b, w_best w = Some b -> exists w1, best_eval w b w1.

Lemma for_length {T} lo hi (body : nat -> arr T -> option (arr T)) a a' :
  for_ lo hi body a = Some a' ->
  (forall i a a', body i a = Some a' -> length a' = length a) ->
  length a' = length a.
Proof.
  unfold for_. intros H Hb.
  refine (for_loop_pres (fun _ d => length d = length a) _ _ _ _ _ H _ _); auto.
  intros i s s1 _ L E. apply Hb in E. congruence.
Qed.
Ltac lenb := let H := fresh in intros ? ? ? H; cbv beta in H; binv H; apply set_inv in H; tauto.

Lemma col_loop_length {T} (A : spmat F) j (body : nat -> arr T -> option (arr T)) a a' :
  col_loop A j body a = Some a' ->
  (forall i a a', body i a = Some a' -> length a' = length a) ->
  length a' = length a.
Proof. unfold col_loop. intros H Hb. binv H. eapply for_length; eauto. Qed.

Lemma sparseMV_length (A : spmat F) x y a nv y' : sparseMV A x y a nv = Some y' -> length y' = length y.
Proof.
  unfold sparseMV. intros H. binv1 H.
  assert (L: length v = length y).
  { destruct (nv >? 0)%Z; [|injection E as <-; auto]. eapply for_length; [exact E|]. lenb. }
  destruct (Nat.eqb (sp_nnz A) 0); [injection H as <-; auto|].
  destruct (a >? 0)%Z; (rewrite (for_length _ _ _ _ _ H); auto; intros i b b' Hb; cbv beta in Hb;
    eapply col_loop_length; [exact Hb|]; lenb).
Qed.

Lemma sparseMtVm_length (A : spmat F) x y nv sk y' : sparseMtVm A x y nv sk = Some y' -> length y' = length y.
Proof.
  unfold sparseMtVm. intros H. binv1 H.
  assert (L: length v = length y).
  { destruct (nv >? 0)%Z; [|injection E as <-; auto]. eapply for_length; [exact E|]. lenb. }
  destruct (Nat.eqb (sp_nnz A) 0); [injection H as <-; auto|].
  destruct sk; (rewrite (for_length _ _ _ _ _ H); auto; intros i b b' Hb; cbv beta in Hb;
    eapply col_loop_length; [exact Hb|]; lenb).
Qed.

Lemma vadd_length n (x y y' : arr F) : vadd n x y = Some y' -> length y' = length y.
Proof. unfold vadd. intros H. eapply for_length; [exact H|]. lenb. Qed.
Lemma vsubscale_length n a (x y y' : arr F) : vsubscale n a x y = Some y' -> length y' = length y.
Proof. unfold vsubscale. intros H. eapply for_length; [exact H|]. lenb. Qed.

Lemma computeResiduals_frame w w' : computeResiduals w = Some w' ->
  prob_of w' = prob_of w /\ best_of w' = best_of w /\ point_of w' = point_of w /\ w_info w' = w_info w.
Proof.
  unfold computeResiduals. intros H. binv H. cbv zeta in H. injection H as <-.
  csplit; try reflexivity.
  apply vsubscale_length in E1, E6. apply vadd_length in E4. apply sparseMV_length in E3.
  assert (L1: length v = length (w_rx w)).
  { destruct (Nat.ltb 0 (w_p w)).
    + binv E. match goal with Hx : sparseMtVm _ _ (w_rx w) _ _ = _ |- _ => apply sparseMtVm_length in Hx end.
      apply sparseMtVm_length in E. congruence.
    + apply sparseMtVm_length in E. auto. }
  assert (L2: length l = length (w_ry w)).
  { destruct (Nat.ltb 0 (w_p w)).
    + binv E2. injection E2 as <- _.
      match goal with Hx : sparseMV _ _ (w_ry w) _ _ = _ |- _ => apply sparseMV_length in Hx end.
      match goal with Hx : vsubscale _ _ _ _ = _ |- _ => apply vsubscale_length in Hx end. congruence.
    + injection E2 as <- _. auto. }
  unfold prob_of. wcbn. congruence.
Qed.

Lemma updateStatistics_frame w w' : updateStatistics w = Some w' ->
  prob_of w' = prob_of w /\ best_of w' = best_of w /\ point_of w' = point_of w /\
  st_iter (w_info w') = st_iter (w_info w) /\ st_step (w_info w') = st_step (w_info w).
Proof.
  unfold updateStatistics. intros H. binv H. cbv zeta in H. injection H as <-.
  csplit; reflexivity.
Qed.

Lemma copy_agree n src dst d : copy n src dst = Some d -> agree n d src.
Proof.
  unfold copy, for_. rewrite Nat.sub_0_r. intros H.
  refine (for_loop_pres (fun i d => forall j, j < i -> get d j = get src j) _ _ _ _ _ H _ _).
  - intros; lia.
  - intros i d0 d1 Hi Hd E. binv E. apply set_inv in E as (_ & _ & G).
    intros j Hj. rewrite G. destruct (Nat.eqb_spec j i); subst; auto. apply Hd; lia.
Qed.

Lemma agree_sym n a b : agree n a b -> agree n b a.
Proof. intros H i Hi. symmetry; auto. Qed.
Lemma agree_trans n a b c : agree n a b -> agree n b c -> agree n a c.
Proof. intros H1 H2 i Hi. rewrite H1; auto. Qed.
Lemma agree_refl n a : agree n a a.
Proof. intros i Hi; auto. Qed.

Lemma save_inv w w' : saveIterateAsBest w = Some w' ->
  prob_of w' = prob_of w /\ point_of w' = point_of w /\ w_info w' = w_info w /\ summ w' = summ w /\
  w_C w' = w_C w /\ w_KKT w' = w_KKT w /\ w_lambda w' = w_lambda w /\
  agree (w_n w) (w_best_x w') (w_x w) /\ agree (w_p w) (w_best_y w') (w_y w) /\
  agree (w_m w) (w_best_z w') (w_z w) /\ agree (w_m w) (w_best_s w') (w_s w) /\
  exists b, w_best w' = Some b /\ be_kap b = w_kap w /\ be_tau b = w_tau w /\ be_summ b = summ w /\
    be_iter b = st_iter (w_info w).
Proof.
  unfold saveIterateAsBest. intros H. binv H. cbv zeta in H. injection H as <-. wcbn.
  apply copy_agree in E, E0, E1, E2.
  csplit; try reflexivity; auto.
  eexists. csplit; reflexivity.
Qed.

Lemma save_Bst w w' : saveIterateAsBest w = Some w' -> Cur w -> Bst w' /\ Cur w'.
Proof.
  intros H (w1 & Ev & P & X & Y & Z & S & K & T & Q).
  apply save_inv in H as (P' & Pt & I & S' & _ & _ & _ & X' & Y' & Z' & S2 & b & B & Bk & Bt & Bs & Bi).
  assert (PP: prob_of w1 = prob_of w') by congruence.
  destruct (prob_dims _ _ P') as (En & Em & Ep & _).
  split.
  - intros b' Hb'. assert (b' = b) by congruence. subst b'.
    exists w1. unfold best_eval. rewrite En, Em, Ep.
    csplit; auto; try congruence; eapply agree_trans; eauto.
  - exists w1. unfold is_eval. unfold point_of in Pt. injection Pt as -> -> -> -> -> ->.
    rewrite En, Em, Ep. csplit; auto; congruence.
Qed.

Lemma Quiet_Cur w w' : Quiet w w' -> Cur w -> Cur w'.
Proof.
  intros [P _ Pt S _] (w1 & Ev & P1 & X & Y & Z & S1 & K & T & Q).
  destruct (prob_dims _ _ P) as (En & Em & Ep & _).
  exists w1. unfold is_eval. unfold point_of in Pt. injection Pt as -> -> -> -> -> ->.
  rewrite En, Em, Ep. csplit; auto; congruence.
Qed.

Lemma Quiet_Bst w w' : prob_of w' = prob_of w -> best_of w' = best_of w -> Bst w -> Bst w'.
Proof.
  intros P B H b Hb. unfold best_of in B. injection B as Bx By Bz Bs Bb.
  destruct (H b) as (w1 & Ev & P1 & X & Y & Z & S1 & K & T & Q); [congruence|].
  destruct (prob_dims _ _ P) as (En & Em & Ep & _).
  exists w1. unfold best_eval. rewrite Bx, By, Bz, Bs, En, Em, Ep. csplit; auto; congruence.
Qed.

Lemma restore_inv w w' : restoreBestIterate w = Some w' ->
  prob_of w' = prob_of w /\ best_of w' = best_of w /\ w_C w' = w_C w /\ w_KKT w' = w_KKT w /\
  st_iter (w_info w') = st_iter (w_info w) /\
  agree (w_n w) (w_x w') (w_best_x w) /\ agree (w_p w) (w_y w') (w_best_y w) /\
  agree (w_m w) (w_z w') (w_best_z w) /\ agree (w_m w) (w_s w') (w_best_s w) /\
  exists b, w_best w = Some b /\ be_kap b = w_kap w' /\ be_tau b = w_tau w' /\ be_summ b = summ w'.
Proof.
  unfold restoreBestIterate. intros H. binv H. cbv zeta in H. injection H as <-. wcbn.
  apply copy_agree in E, E0, E1, E2.
  csplit; try reflexivity; auto.
  eexists. csplit; reflexivity.
Qed.

Lemma restore_Cur w w' : restoreBestIterate w = Some w' -> Bst w -> Cur w' /\ Bst w'.
Proof.
  intros H B. pose proof (restore_inv _ _ H) as (P & Bo & _ & _ & _ & X & Y & Z & S & b & Bb & K & T & Q).
  split; [|eapply Quiet_Bst; eauto].
  destruct (B b Bb) as (w1 & Ev & P1 & X1 & Y1 & Z1 & S1 & K1 & T1 & Q1).
  destruct (prob_dims _ _ P) as (En & Em & Ep & _).
  exists w1. unfold is_eval. rewrite En, Em, Ep.
  csplit; auto; try congruence; eapply agree_trans; eauto.
Qed.

(* the tests only read these *)
Lemma set_flags_quiet w a b : Quiet w (set_flags w a b).
Proof. unfold set_flags. quiet. Qed.

Definition tested (w : W) (mode code : Z) : Prop :=
  (code = ECOS_OPTIMAL + mode /\ test_optimal w mode = true)%Z \/
  (code = ECOS_DINF + mode /\ test_optimal w mode = false /\ test_dinf w mode = true)%Z \/
  (code = ECOS_PINF + mode /\ test_optimal w mode = false /\ test_dinf w mode = false /\ test_pinf w mode = true)%Z.

Lemma tests_quiet w w' mode : Quiet w w' ->
  test_optimal w' mode = test_optimal w mode /\ test_dinf w' mode = test_dinf w mode /\
  test_pinf w' mode = test_pinf w mode.
Proof.
  intros [P _ Pt S _]. destruct (prob_dims _ _ P) as (_ & _ & _ & Sg).
  unfold point_of in Pt. injection Pt as _ _ _ _ K T.
  unfold summ, st_core in S. injection S as C1 C2 C3 D1 D2 D3 D4 D5 D6 D7 D8 D9 D10.
  unfold test_optimal, test_dinf, test_pinf. rewrite Sg.
  rewrite C1, C2, C3, D3, D4, D5, D6, D7, D8, K, T. auto.
Qed.

Lemma checkExit_inv w mode code w' : checkExitConditions w mode = (code, w') ->
  Quiet w w' /\
  (code = ECOS_NOT_CONVERGED_YET /\ w' = w /\
   test_optimal w mode = false /\ test_dinf w mode = false /\ test_pinf w mode = false \/
   tested w' mode code).
Proof.
  unfold checkExitConditions, tested.
  destruct (test_optimal w mode) eqn:T1; [|destruct (test_dinf w mode) eqn:T2; [|destruct (test_pinf w mode) eqn:T3]];
  intros [= <- <-].
  - pose proof (set_flags_quiet w f0 f0) as Q. split; [exact Q|]. right.
    destruct (tests_quiet _ _ mode Q) as (-> & -> & ->). auto.
  - pose proof (set_flags_quiet w f0 f1) as Q. split; [exact Q|]. right.
    destruct (tests_quiet _ _ mode Q) as (-> & -> & ->). auto.
  - pose proof (set_flags_quiet w f1 f0) as Q. split; [exact Q|]. right.
    destruct (tests_quiet _ _ mode Q) as (-> & -> & ->). auto 10.
  - split; [apply Quiet_refl|]. left; auto.
Qed.

(* how the loop may end: full precision, reduced precision, or a failure code
   although the point fails the reduced-precision tests *)
Definition ended (w : W) (code : Z) : Prop :=
  tested w 0 code \/ tested w ECOS_INACC_OFFSET code \/
  (In code [ECOS_MAXIT; ECOS_NUMERICS; ECOS_SIGINT; ECOS_OUTCONE] /\
   test_optimal w ECOS_INACC_OFFSET = false /\ test_dinf w ECOS_INACC_OFFSET = false /\
   test_pinf w ECOS_INACC_OFFSET = false).

Lemma tested_code w mode code : (0 <= mode)%Z -> tested w mode code -> (code <> ECOS_NOT_CONVERGED_YET)%Z.
Proof.
  intros Hm. unfold tested, ECOS_OPTIMAL, ECOS_DINF, ECOS_PINF, ECOS_NOT_CONVERGED_YET.
  intros [[-> _]|[[-> _]|[-> _]]]; lia.
Qed.

Lemma recover_inv w restore fallback code w' :
  In fallback [ECOS_MAXIT; ECOS_NUMERICS; ECOS_SIGINT; ECOS_OUTCONE] ->
  recover w restore fallback = Some (code, w') ->
  (restore = false -> Cur w) -> Bst w ->
  Cur w' /\ Bst w' /\ ended w' code /\ prob_of w' = prob_of w /\
  st_iter (w_info w') = st_iter (w_info w) /\ best_of w' = best_of w.
Proof.
  intros Hf H HC HB. unfold recover in H. binv H.
  destruct (checkExitConditions v ECOS_INACC_OFFSET) as [c0 v0] eqn:EC.
  injection H as Hc <-.
  assert (C: Cur v /\ Bst v /\ prob_of v = prob_of w /\ st_iter (w_info v) = st_iter (w_info w) /\ best_of v = best_of w).
  { destruct restore.
    - pose proof (restore_Cur _ _ E HB) as [C B].
      apply restore_inv in E as (P & Bo & _ & _ & I & _). auto.
    - injection E as <-. auto. }
  destruct C as (C & B & P & I & Bo).
  apply checkExit_inv in EC as [Q HT].
  split; [eapply Quiet_Cur; eauto|]. destruct Q as [QP QB QPt QS QI].
  split; [eapply Quiet_Bst; eauto|].
  split; [|csplit; congruence].
  destruct HT as [(Ec & Ev & T1 & T2 & T3)|HT].
  - subst c0. rewrite Z.eqb_refl in Hc. subst code v0. right; right. auto.
  - right; left. apply tested_code in HT as Hn; [|unfold ECOS_INACC_OFFSET; lia].
    apply Z.eqb_neq in Hn. rewrite Hn in Hc. subst code. exact HT.
Qed.

Lemma eval_Cur w wr w1 : computeResiduals w = Some wr -> updateStatistics wr = Some w1 -> Cur w1.
Proof.
  intros H1 H2. exists w1. unfold is_eval. csplit; auto using agree_refl.
  exists w, wr. auto.
Qed.

Lemma iter_exit_inv intr pp w v pp' w' :
  iter_exit intr pp w = Some (v, pp', w') -> Bst w ->
  Cur w' /\ Bst w' /\ prob_of w' = prob_of w /\ st_iter (w_info w') = st_iter (w_info w) /\
  best_of w' = best_of w /\
  match v with
  | VGo => (st_iter (w_info w) <> sg_maxit (w_stgs w) /\ intr = false)%Z
  | VBreak code => ended w' code
  | VReturn _ => False
  end.
Proof.
  unfold iter_exit. intros H HB. binv1 H. binv1 H. rename v0 into wr, v1 into w1.
  pose proof (eval_Cur _ _ _ E E0) as HC.
  apply computeResiduals_frame in E as (Pr & Br & Ptr & Ir).
  apply updateStatistics_frame in E0 as (Ps & Bs & Pts & Is & Ss).
  assert (P1: prob_of w1 = prob_of w) by congruence.
  assert (B1: best_of w1 = best_of w) by congruence.
  assert (I1: st_iter (w_info w1) = st_iter (w_info w)) by congruence.
  assert (HB1: Bst w1) by (eapply Quiet_Bst; eauto).
  assert (RC: forall w1, prob_of w1 = prob_of w -> best_of w1 = best_of w ->
     st_iter (w_info w1) = st_iter (w_info w) -> Cur w1 -> Bst w1 ->
     forall r fb code w'', In fb [ECOS_MAXIT; ECOS_NUMERICS; ECOS_SIGINT; ECOS_OUTCONE] ->
     recover w1 r fb = Some (code, w'') ->
     Cur w'' /\ Bst w'' /\ prob_of w'' = prob_of w /\ st_iter (w_info w'') = st_iter (w_info w) /\
     best_of w'' = best_of w /\ ended w'' code).
  { clear. intros w1 P1 B1 I1 HC HB r fb code w'' Hf H.
    destruct (recover_inv _ _ _ _ _ Hf H) as (A1 & A2 & A3 & A4 & A5 & A6); auto.
    csplit; auto; congruence. }
  match type of H with (if ?t then _ else _) = _ => destruct t end.
  { binv H. injection H as <- <- <-. eapply RC; eauto. simpl; auto. }
  destruct (checkExitConditions w1 0) as [code w2] eqn:EC.
  apply checkExit_inv in EC as [Q HT].
  pose proof (Quiet_Cur _ _ Q HC) as HC2. destruct Q as [QP QB QPt QS QI].
  assert (HB2: Bst w2) by (eapply Quiet_Bst; eauto).
  destruct (Z.eqb_spec code ECOS_NOT_CONVERGED_YET) as [Ec|Ec]; cbn [negb] in H.
  2:{ injection H as <- <- <-. csplit; auto; try congruence.
      destruct HT as [(Hc & _)|HT]; [congruence|]. left; exact HT. }
  assert (P2: prob_of w2 = prob_of w) by congruence.
  assert (B2: best_of w2 = best_of w) by congruence.
  assert (I2: st_iter (w_info w2) = st_iter (w_info w)) by congruence.
  match type of H with (if ?t then _ else _) = _ => destruct t end.
  { binv H. injection H as <- <- <-. eapply RC; eauto. simpl; auto. }
  match type of H with (if ?t then _ else _) = _ => destruct t eqn:ET end.
  { binv H. injection H as <- <- <-. eapply RC; [..|eauto]; auto. destruct intr; simpl; auto. }
  match type of H with (if ?t then _ else _) = _ => destruct t end.
  { binv H. injection H as <- <- <-. eapply RC; [..|eauto]; auto. simpl; auto. }
  injection H as <- <- <-. csplit; auto.
  - apply orb_false_elim in ET as [_ ET]. apply Z.eqb_neq in ET.
    destruct (prob_dims _ _ P2) as (_ & _ & _ & Sg). rewrite Sg in ET. congruence.
  - apply orb_false_elim in ET as [ET _]. auto.
Qed.

Lemma iter_save_inv w w' : iter_save w = Some w' -> Cur w -> Bst w ->
  Cur w' /\ Bst w' /\ prob_of w' = prob_of w /\ w_info w' = w_info w /\ point_of w' = point_of w /\
  exists b, w_best w' = Some b.
Proof.
  unfold iter_save. intros H HC HB.
  assert (SV: forall w', saveIterateAsBest w = Some w' ->
    Cur w' /\ Bst w' /\ prob_of w' = prob_of w /\ w_info w' = w_info w /\ point_of w' = point_of w /\
    exists b, w_best w' = Some b).
  { intros w2 H2. pose proof (save_Bst _ _ H2 HC) as [B C].
    apply save_inv in H2 as (P & Pt & I & _ & _ & _ & _ & _ & _ & _ & _ & b & Hb & _).
    csplit; auto. exists b; auto. }
  match type of H with (if ?t then _ else _) = _ => destruct t end; [auto|].
  binv H. destruct v; [auto|]. injection H as <-. csplit; auto.
  unfold better in E. binv E. eauto.
Qed.

Lemma iter_step_inv w v w' : iter_step w = Some (v, w') -> Cur w -> Bst w ->
  Bst w' /\ prob_of w' = prob_of w /\ best_of w' = best_of w /\
  match v with
  | VGo => st_iter (w_info w') = st_iter (w_info w)
  | VBreak code => Cur w' /\ ended w' code
  | VReturn code => Cur w' /\ (code = ECOS_FATAL \/ code = ECOS_OUTCONE /\ ended w' code)
  end.
Proof.
  unfold iter_step. intros H HC HB. binv1 H.
  set (w1 := set_w_lambda (set_w_C w c) l) in *.
  assert (Q1: Quiet w w1) by (subst w1; quiet).
  pose proof (Quiet_Cur _ _ Q1 HC) as HC1. destruct Q1 as [P1 B1 Pt1 S1 I1].
  assert (HB1: Bst w1) by (eapply Quiet_Bst; eauto).
  destruct b.
  { binv1 H. destruct (checkExitConditions v0 ECOS_INACC_OFFSET) as [code w2] eqn:EC.
    injection H as <- <-.
    pose proof (restore_Cur _ _ E0 HB1) as [C B].
    apply restore_inv in E0 as (P & Bo & _ & _ & I & _).
    apply checkExit_inv in EC as [Q HT].
    pose proof (Quiet_Cur _ _ Q C) as HC2. destruct Q as [QP QB QPt QS QI].
    split; [eapply Quiet_Bst; eauto|]. split; [congruence|]. split; [congruence|].
    destruct HT as [(Ec & Ev & T1 & T2 & T3)|HT].
    - subst code. rewrite Z.eqb_refl. split; auto. right. split; auto. right; right.
      subst w2. csplit; auto. simpl; auto 10.
    - apply tested_code in HT as Hn; [|unfold ECOS_INACC_OFFSET; lia].
      apply Z.eqb_neq in Hn. rewrite Hn. split; auto. right; left; auto. }
  binv1 H. binv1 H.
  match type of H with context [set_w_KKT w1 ?k] => set (w2 := set_w_KKT w1 k) in * end.
  assert (Q2: Quiet w1 w2) by (subst w2; quiet).
  destruct b; cbn [negb] in H.
  2:{ injection H as <- <-. pose proof (Quiet_Cur _ _ Q2 HC1) as HC2. destruct Q2.
      csplit; auto; try congruence; eapply Quiet_Bst; eauto. }
  binv1 H. apply solve1_quiet in E2.
  binv1 H. apply affine_dir_quiet in E3.
  binv1 H. apply combined_dir_quiet in E4.
  assert (Q: Quiet w1 p1) by (eauto using Quiet_trans).
  pose proof (Quiet_Cur _ _ Q HC1) as HC5. destruct Q as [P5 B5 Pt5 S5 I5].
  assert (HB5: Bst p1) by (eapply Quiet_Bst; eauto).
  destruct b; cbn [negb] in H.
  - binv H. injection H as <- <-. unfold take_step in E5. binv E5. injection E5 as <-.
    csplit.
    + eapply Quiet_Bst; [| |exact HB5]; reflexivity.
    + transitivity (prob_of p1); [reflexivity|congruence].
    + transitivity (best_of p1); [reflexivity|congruence].
    + wcbn. congruence.
  - binv H. injection H as <- <-.
    destruct (recover_inv p1 true ECOS_NUMERICS z p) as (A1 & A2 & A3 & A4 & A5 & A6);
      [simpl; auto|exact E5|discriminate|exact HB5|].
    csplit; auto; congruence.
Qed.

Lemma recover_frame w r fb code w' : recover w r fb = Some (code, w') ->
  prob_of w' = prob_of w /\ st_iter (w_info w') = st_iter (w_info w).
Proof.
  unfold recover. intros H. binv H.
  destruct (checkExitConditions v ECOS_INACC_OFFSET) as [c0 v0] eqn:EC.
  injection H as _ <-. apply checkExit_inv in EC as [[QP QB QPt QS QI] _].
  destruct r.
  - apply restore_inv in E as (P & _ & _ & _ & I & _). split; congruence.
  - injection E as <-. auto.
Qed.

(* without any assumption on the stored iterate *)
Lemma iter_exit_frame intr pp w v pp' w' :
  iter_exit intr pp w = Some (v, pp', w') ->
  prob_of w' = prob_of w /\ st_iter (w_info w') = st_iter (w_info w) /\
  match v with
  | VGo => Cur w' /\ best_of w' = best_of w /\ (st_iter (w_info w) <> sg_maxit (w_stgs w))%Z /\ intr = false
  | VBreak _ => True
  | VReturn _ => False
  end.
Proof.
  unfold iter_exit. intros H. binv1 H. binv1 H. rename v0 into wr, v1 into w1.
  pose proof (eval_Cur _ _ _ E E0) as HC.
  apply computeResiduals_frame in E as (Pr & Br & Ptr & Ir).
  apply updateStatistics_frame in E0 as (Ps & Bs & Pts & Is & Ss).
  assert (P1: prob_of w1 = prob_of w) by congruence.
  assert (B1: best_of w1 = best_of w) by congruence.
  assert (I1: st_iter (w_info w1) = st_iter (w_info w)) by congruence.
  match type of H with (if ?t then _ else _) = _ => destruct t end.
  { binv H. injection H as <- <- <-. apply recover_frame in E as []. csplit; auto; congruence. }
  destruct (checkExitConditions w1 0) as [code w2] eqn:EC.
  apply checkExit_inv in EC as [Q HT].
  pose proof (Quiet_Cur _ _ Q HC) as HC2. destruct Q as [QP QB QPt QS QI].
  destruct (Z.eqb_spec code ECOS_NOT_CONVERGED_YET) as [Ec|Ec]; cbn [negb] in H.
  2:{ injection H as <- <- <-. csplit; auto; try congruence. }
  assert (P2: prob_of w2 = prob_of w) by congruence.
  assert (B2: best_of w2 = best_of w) by congruence.
  assert (I2: st_iter (w_info w2) = st_iter (w_info w)) by congruence.
  match type of H with (if ?t then _ else _) = _ => destruct t end.
  { binv H. injection H as <- <- <-. apply recover_frame in E as []. csplit; auto; congruence. }
  match type of H with (if ?t then _ else _) = _ => destruct t eqn:ET end.
  { binv H. injection H as <- <- <-. apply recover_frame in E0 as []. csplit; auto; congruence. }
  match type of H with (if ?t then _ else _) = _ => destruct t end.
  { binv H. injection H as <- <- <-. apply recover_frame in E0 as []. csplit; auto; congruence. }
  injection H as <- <- <-. csplit; auto.
  - apply orb_false_elim in ET as [_ ET]. apply Z.eqb_neq in ET.
    destruct (prob_dims _ _ P2) as (_ & _ & _ & Sg). rewrite Sg in ET. congruence.
  - apply orb_false_elim in ET as [ET _]. auto.
Qed.

Lemma iter_save_first w w' : st_iter (w_info w) = 0%Z -> iter_save w = Some w' -> Cur w ->
  Cur w' /\ Bst w' /\ prob_of w' = prob_of w /\ w_info w' = w_info w /\ point_of w' = point_of w /\
  exists b, w_best w' = Some b.
Proof.
  intros I H HC. unfold iter_save in H. rewrite I in H. cbn [Z.eqb] in H.
  pose proof (save_Bst _ _ H HC) as [B C].
  apply save_inv in H as (P & Pt & I' & _ & _ & _ & _ & _ & _ & _ & _ & b & Hb & _).
  csplit; auto. exists b; auto.
Qed.

(* Either the run is accounted for, or it ended in iteration 0 and may have
   brought back an iterate stored by an earlier run. *)
Lemma ipm_loop_inv fuel : forall sig iter pp ec w ret code w',
  ipm_loop fuel sig iter pp ec w = Some (ret, code, w') ->
  (Z.of_nat fuel = Z.max 0 (sg_maxit (w_stgs w) + 1 - iter))%Z ->
  (0 < fuel)%nat -> (0 <= iter)%Z ->
  Bst w \/ iter = 0%Z ->
  prob_of w' = prob_of w /\
  (Cur w' /\
   (if ret : bool then code = ECOS_FATAL \/ code = ECOS_OUTCONE /\ ended w' code else ended w' code) \/
   (w_best w <> None /\ iter = 0%Z /\ st_iter (w_info w') = 0%Z /\ ret = false)).
Proof.
  induction fuel as [|fuel IH]; intros sig iter pp ec w ret code w' H Hf H0 Hi HB; [lia|].
  cbn [ipm_loop] in H. binv1 H.
  set (w0 := set_info w (fun i => set_st_iter i iter)) in *.
  assert (P0: prob_of w0 = prob_of w) by reflexivity.
  assert (I0: st_iter (w_info w0) = iter) by reflexivity.
  pose proof (iter_exit_frame _ _ _ _ _ _ E) as (P1 & I1 & V1).
  rename p0 into p.
  destruct v.
  3:{ destruct V1. }
  2:{ injection H as <- <- <-. split; [congruence|].
      assert (D: Bst w \/ w_best w <> None /\ iter = 0%Z).
      { destruct HB as [HB|HB]; auto. destruct (w_best w) eqn:Eb.
        - right. split; [discriminate|auto].
        - left. intros b Hb. congruence. }
      destruct D as [D|D].
      - left. assert (B0: Bst w0) by (eapply Quiet_Bst; [| |exact D]; reflexivity).
        apply iter_exit_inv in E as (C1 & B1 & P1' & I1' & Bo1 & V1'); auto.
      - right. destruct D. csplit; auto; congruence. }
  destruct V1 as (C1 & Bo1 & V1 & _).
  binv1 H.
  assert (S2: Cur v /\ Bst v /\ prob_of v = prob_of p /\ w_info v = w_info p /\ point_of v = point_of p /\
     exists b, w_best v = Some b).
  { destruct HB as [HB|HB].
    - apply iter_save_inv; auto.
      eapply Quiet_Bst; [| |exact HB]; [congruence|]. rewrite Bo1. reflexivity.
    - apply iter_save_first; auto. congruence. }
  destruct S2 as (C2 & B2 & P2 & I2 & Pt2 & _).
  binv1 H. apply iter_step_inv in E1 as (B3 & P3 & Bo3 & V3); auto.
  assert (P4: prob_of p0 = prob_of w) by congruence.
  destruct v0.
  2:{ injection H as <- <- <-. destruct V3. csplit; auto; congruence. }
  2:{ injection H as <- <- <-. destruct V3. csplit; auto; congruence. }
  destruct (prob_dims _ _ P4) as (_ & _ & _ & Sg).
  assert (iter <> sg_maxit (w_stgs w))%Z by exact V1.
  apply IH in H; auto; [|rewrite Sg; lia|lia|lia].
  destruct H as (Q1 & [Q2|(_ & Q2 & _)]); [|lia]. split; [congruence|]. left; exact Q2.
Qed.

(* the problem without the norms of c, b, h that init computes *)
Definition prob0_of (w : W) :=
  (w_n w, w_m w, w_p w, w_D w, w_A w, w_G w, w_c w, w_b w, w_h w,
   (w_xequil w, w_Aequil w, w_Gequil w, w_stgs w, (length (w_rx w), length (w_ry w), length (w_rz w)))).

(* the norms of the data that init stores, src/ecos.c:315-318 *)
Definition norms_ok (w : W) : Prop :=
  exists a b c, norm2 (w_c w) (w_n w) = Some a /\ norm2 (w_b w) (w_p w) = Some b /\
    norm2 (w_h w) (w_m w) = Some c /\
    w_resx0 w = fmax f1 a /\ w_resy0 w = fmax f1 b /\ w_resz0 w = fmax f1 c.

Lemma norms_ok_prob w w' : prob_of w' = prob_of w -> norms_ok w -> norms_ok w'.
Proof.
  unfold prob_of. intros H. injection H as. intros (a & b & c & H'). exists a, b, c.
  destruct H' as (A1 & A2 & A3 & A4 & A5 & A6). csplit; congruence.
Qed.

Definition norms_of (w : W) := (w_resx0 w, w_resy0 w, w_resz0 w).

Lemma init_inv w ok w' : init w = Some (ok, w') ->
  best_of w' = best_of w /\ prob0_of w' = prob0_of w /\ norms_ok w'.
Proof.
  unfold init. intros H. binv1 H.
  assert (A: best_of v = best_of w /\ prob0_of v = prob0_of w /\ norms_ok v).
  { unfold init_rhs in E. binv E. cbv zeta in E. injection E as <-. csplit; try reflexivity.
    exists v6, v7, v8. csplit; try reflexivity; assumption. }
  binv1 H.
  assert (B: best_of p = best_of v /\ prob0_of p = prob0_of v /\ norms_of p = norms_of v).
  { match type of E0 with (if ?t then _ else _) = _ => destruct t end.
    - unfold init_mehrotra in E0. binv E0. destruct b0; cbn [negb] in E0.
      + binv E0. injection E0 as <- <-. csplit; reflexivity.
      + injection E0 as <- <-. csplit; reflexivity.
    - binv E0. injection E0 as <- <-. unfold init_unit in E1. binv E1. injection E1 as <-.
      csplit; reflexivity. }
  destruct A as (A1 & A2 & A3), B as (B1 & B2 & B3).
  assert (N: forall w2, prob0_of w2 = prob0_of v -> norms_of w2 = norms_of v -> norms_ok w2).
  { clear - A3. intros w2 H1 H2. unfold prob0_of, norms_of in *. injection H1 as. injection H2 as.
    destruct A3 as (a & b & c & N1 & N2 & N3 & N4 & N5 & N6). exists a, b, c. csplit; congruence. }
  rewrite <- A1, <- A2, <- B1, <- B2.
  destruct b; cbn [negb] in H.
  - binv H. cbv zeta in H. injection H as <- <-. csplit; try reflexivity.
    apply N; [rewrite <- B2|rewrite <- B3]; reflexivity.
  - injection H as <- <-. auto.
Qed.

Lemma backscale_frame w w' : backscale w = Some w' ->
  w_info w' = w_info w /\ w_cx w' = w_cx w /\ w_by w' = w_by w /\ w_hz w' = w_hz w /\
  w_kap w' = w_kap w /\ w_tau w' = w_tau w /\
  (w_n w', w_m w', w_p w', w_D w', w_A w', w_G w', w_b w', w_h w',
   (w_xequil w', w_Aequil w', w_Gequil w', w_stgs w')) =
  (w_n w, w_m w, w_p w, w_D w, w_A w, w_G w, w_b w, w_h w,
   (w_xequil w, w_Aequil w, w_Gequil w, w_stgs w)) /\ best_of w' = best_of w.
Proof. unfold backscale. intros H. binv H. injection H as <-. csplit; reflexivity. Qed.

(* Division of c by the equilibration of the variables, done in place at the start *)
Definition scaled_c (w : W) (c : arr F) : Prop :=
  for_ 0 (w_n w) (fun i a => v <- get a i ;; e <- get (w_xequil w) i ;; set a i (fdiv v e)) (w_c w) = Some c.

(* wf is the workspace when the main loop is left *)
Theorem solve_inv sig t w code t' w' :
  ECOS_solve sig t w = Some (code, t', w') ->
  (0 <= sg_maxit (w_stgs w))%Z ->
  exists wf c, scaled_c w c /\ prob0_of wf = prob0_of (set_w_c w c) /\ norms_ok wf /\
    (code = ECOS_FATAL /\ wf = w' /\ t' = init_ctrlc t \/
     (wf = w' /\ code = ECOS_OUTCONE /\ t' = init_ctrlc t \/
      backscale wf = Some w' /\ t' = remove_ctrlc (init_ctrlc t)) /\
     (Cur wf /\ ended wf code \/ w_best w <> None /\ st_iter (w_info wf) = 0%Z)).
Proof.
  unfold ECOS_solve. intros H Hm.
  binv1 H. rename v into c, E into Ec. cbv zeta in H. binv1 H. rename p into w1.
  apply init_inv in E as (B1 & P1 & N1).
  destruct b; cbn [negb] in H.
  2:{ injection H as <- <- <-. exists w1, c. csplit; auto. }
  binv1 H. rename p0 into w2, b into ret, z into cd.
  assert (Sg1: w_stgs w1 = w_stgs w) by (unfold prob0_of in P1; injection P1 as; assumption).
  apply ipm_loop_inv in E as (P2 & V2); [|rewrite Sg1; lia|rewrite Sg1; lia|lia|auto].
  assert (P2': prob0_of w2 = prob0_of (set_w_c w c)).
  { rewrite <- P1. unfold prob_of in P2. injection P2 as. unfold prob0_of. congruence. }
  assert (N2: norms_ok w2) by (eapply norms_ok_prob; eauto).
  destruct V2 as [(C2 & V2)|(NB & _ & I2 & ->)].
  - destruct ret.
    + injection H as <- <- <-. exists w2, c. csplit; auto.
      destruct V2 as [->|[-> V2]]; auto 10.
    + binv H. injection H as <- <- <-. exists w2, c. csplit; auto.
  - binv H. injection H as <- <- <-. exists w2, c. csplit; auto.
    right. csplit; auto. right. split; auto.
    unfold best_of in B1. injection B1 as. cbn [set_w_c w_best] in *. congruence.
Qed.

Lemma ended_code w code : ended w code -> In code [0; 1; 2; 10; 11; 12; -1; -2; -3; -4]%Z.
Proof.
  unfold ended, tested, ECOS_OPTIMAL, ECOS_DINF, ECOS_PINF, ECOS_INACC_OFFSET,
    ECOS_MAXIT, ECOS_NUMERICS, ECOS_SIGINT, ECOS_OUTCONE.
  intros [H|[H|[H _]]]; [destruct H as [[-> _]|[[-> _]|[-> _]]]..|]; simpl in *; tauto.
Qed.

(* loops of the form  a[i] = f(a[i], e[i]) *)
Lemma zip_loop_inv (f : F -> F -> F) n (e : arr F) : forall a a',
  for_ 0 n (fun i a => v <- get a i ;; u <- get e i ;; set a i (f v u)) a = Some a' ->
  length a' = length a /\
  (forall i, i < n -> exists v u, get a i = Some v /\ get e i = Some u /\ get a' i = Some (f v u)) /\
  (forall i, n <= i -> get a' i = get a i).
Proof.
  intros a a' H. unfold for_ in H. rewrite Nat.sub_0_r in H.
  refine (for_loop_pres (fun k d => length d = length a /\
     (forall i, i < k -> exists v u, get a i = Some v /\ get e i = Some u /\ get d i = Some (f v u)) /\
     (forall i, k <= i -> get d i = get a i)) _ _ _ _ _ H _ _).
  - csplit; auto. intros; lia.
  - intros i d d' Hi (L & G1 & G2) E. binv E. apply set_inv in E as (Hl & L' & G).
    csplit.
    + congruence.
    + intros j Hj. rewrite G. destruct (Nat.eqb_spec j i).
      * subst. exists v, v0. rewrite <- (G2 i) by lia. auto.
      * apply G1; lia.
    + intros j Hj. rewrite G. destruct (Nat.eqb_spec j i); [lia|]. apply G2; lia.
Qed.

Lemma backscale_inv w w' : backscale w = Some w' ->
  w_info w' = w_info w /\ w_cx w' = w_cx w /\ w_by w' = w_by w /\ w_hz w' = w_hz w /\
  w_kap w' = w_kap w /\ w_tau w' = w_tau w /\ best_of w' = best_of w /\
  (forall i, i < w_n w -> exists v e, get (w_x w) i = Some v /\ get (w_xequil w) i = Some e /\
      get (w_x w') i = Some (fdiv v (fmul e (w_tau w)))) /\
  (forall i, i < w_p w -> exists v e, get (w_y w) i = Some v /\ get (w_Aequil w) i = Some e /\
      get (w_y w') i = Some (fdiv v (fmul e (w_tau w)))) /\
  (forall i, i < w_m w -> exists v e, get (w_z w) i = Some v /\ get (w_Gequil w) i = Some e /\
      get (w_z w') i = Some (fdiv v (fmul e (w_tau w)))) /\
  (forall i, i < w_m w -> exists v e, get (w_s w) i = Some v /\ get (w_Gequil w) i = Some e /\
      get (w_s w') i = Some (fmul v (fdiv e (w_tau w)))) /\
  (forall i, i < w_n w -> exists v e, get (w_c w) i = Some v /\ get (w_xequil w) i = Some e /\
      get (w_c w') i = Some (fmul v e)).
Proof.
  intros H. pose proof (backscale_frame _ _ H) as (F1 & F2 & F3 & F4 & F5 & F6 & F7 & F8).
  unfold backscale in H. binv H. injection H as <-. wcbn.
  apply (zip_loop_inv (fun v e => fdiv v (fmul e (w_tau w)))) in E as (_ & E & _).
  apply (zip_loop_inv (fun v e => fdiv v (fmul e (w_tau w)))) in E0 as (_ & E0 & _).
  apply (zip_loop_inv (fun v e => fdiv v (fmul e (w_tau w)))) in E1 as (_ & E1 & _).
  apply (zip_loop_inv (fun v e => fmul v (fdiv e (w_tau w)))) in E2 as (_ & E2 & _).
  apply (zip_loop_inv (fun v e => fmul v e)) in E3 as (_ & E3 & _).
  csplit; auto.
Qed.

Lemma scaled_c_inv w c : scaled_c w c -> length c = length (w_c w) /\
  (forall i, i < w_n w -> exists v e, get (w_c w) i = Some v /\ get (w_xequil w) i = Some e /\
      get c i = Some (fdiv v e)) /\
  (forall i, w_n w <= i -> get c i = get (w_c w) i).
Proof. intros H. apply (zip_loop_inv (fun v e => fdiv v e)) in H. exact H. Qed.
End Frame.
