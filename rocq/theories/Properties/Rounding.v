(* C47: what ECOS_OPTIMAL guarantees when the arithmetic rounds.

   The theorems hold for every arithmetic O whose operations satisfy the
   rounding laws [rounds] of Spec/Rounding.v; C47_binary64 shows that IEEE
   double precision is one.  phi is the real number a floating-point number
   stands for (none for infinities and NaN). *)
From Coq Require Import List Arith Bool ZArith QArith Reals Lia Lra Psatz.
From Flocq Require Core BinarySingleNaN.
From Verif Require Import Base Num NumX.
From Verif.Model Require Import Spla Types Consts Ecos Preproc.
From Verif.Spec Require Import Matrix Conic Certificate Rounding.
From Verif.Proofs Require Import SplaP ExitP XEvalP PhiP CertP RoundA RoundP RoundC RoundD RoundB.
From Verif.Properties Require Import Certificate.
Import ListNotations.
Open Scope R_scope.

Section Rounded.
Context {O : Ops} (phi : F -> option R).

(* Before the call the workspace holds the numbers of the problem P in the units
   the solver works in; c is still in the user's units and the solver's c is the
   rounded quotient of c and xequil. *)
Record rheld (w : pwork F) (P : problem) (A G : spmat R) : Prop := {
  rh_n : w_n w = pb_n P; rh_p : w_p w = pb_p P; rh_m : w_m w = pb_m P;
  rh_G : holds_mat phi (w_G w) G; rh_wfG : wf_sp G; rh_Gn : sp_n G = pb_n P; rh_Gm : sp_m G = pb_m P;
  rh_dG : pb_G P = dense G;
  rh_A : (0 < pb_p P)%nat -> exists A0, w_A w = Some A0 /\ holds_mat phi A0 A /\ wf_sp A /\ sp_n A = pb_n P /\ sp_m A = pb_p P /\ pb_A P = dense A;
  rh_c : forall i, (i < pb_n P)%nat -> exists c e, get (w_c w) i = Some c /\ get (w_xequil w) i = Some e /\ phi (fdiv c e) = Some (pb_c P i);
  rh_b : holds phi (w_b w) (pb_p P) (pb_b P);
  rh_h : holds phi (w_h w) (pb_m P) (pb_h P) }.

(* the vectors returned are those of the arrays xs ys zs ss, divided by tau and
   the scalings (with rounding) *)
Record returned_from (w w' : pwork F) (xs ys zs ss : arr F) : Prop := {
  rf_x : forall i, (i < w_n w)%nat -> exists v e, get xs i = Some v /\ get (w_xequil w) i = Some e /\ get (w_x w') i = Some (fdiv v (fmul e (w_tau w')));
  rf_y : forall i, (i < w_p w)%nat -> exists v e, get ys i = Some v /\ get (w_Aequil w) i = Some e /\ get (w_y w') i = Some (fdiv v (fmul e (w_tau w')));
  rf_z : forall i, (i < w_m w)%nat -> exists v e, get zs i = Some v /\ get (w_Gequil w) i = Some e /\ get (w_z w') i = Some (fdiv v (fmul e (w_tau w')));
  rf_s : forall i, (i < w_m w)%nat -> exists v e, get ss i = Some v /\ get (w_Gequil w) i = Some e /\ get (w_s w') i = Some (fmul v (fdiv e (w_tau w'))) }.

Variables (u eta Om : R) (H : rounds O phi u eta Om).

(* the common part: the workspace when the main loop is left *)
Lemma round_core w w' sig t t' code P A G :
  ECOS_solve sig t w = Some (code, t', w') -> rheld w P A G -> (0 <= sg_maxit (w_stgs w))%Z ->
  w_best w = None \/ st_iter (w_info w') <> 0%Z ->
  In code [0; 1; 2; 10; 11; 12]%Z ->
  exists wf, returned_from w w' (w_x wf) (w_y wf) (w_z wf) (w_s wf) /\ w_tau wf = w_tau w' /\ w_stgs wf = w_stgs w /\
    rprob phi wf P A G /\ norms_ok wf /\ Cur wf /\ ((code < 10)%Z -> tested wf 0 code) /\ ((10 <= code)%Z -> tested wf 10 code).
Proof.
  intros S1 D S3 S4 Hc.
  apply solve_inv in S1 as (wf & c & SC & P0 & NO & Q); [|exact S3].
  assert (NF: code <> ECOS_FATAL /\ code <> ECOS_OUTCONE).
  { unfold ECOS_FATAL, ECOS_OUTCONE. simpl in Hc. split; intros ->; decompose [or] Hc; lia. }
  destruct NF as [N1 N2].
  destruct Q as [(-> & _)|([(_ & -> & _)|(B & _)] & Q)]; try contradiction.
  apply backscale_inv in B as (I & _ & _ & _ & _ & Et & _ & Bx & By & Bz & Bs & _).
  destruct Q as [[Cu En]|[D1 D2]].
  2:{ exfalso. destruct S4 as [S4|S4]; [apply D1; exact S4|apply S4; rewrite I; exact D2]. }
  assert (RP : rprob phi wf P A G).
  { eapply rprob0; [exact P0|]. destruct D. apply scaled_c_inv in SC as (_ & SC & _).
    constructor; wcbn; auto.
    intros i Hi. rewrite rh_n0 in SC. destruct (SC i Hi) as (v & e & E1 & E2 & E3).
    destruct (rh_c0 i Hi) as (v' & e' & E4 & E5 & E6). exists (fdiv v e). split; [exact E3|congruence]. }
  unfold prob0_of in P0. injection P0 as.
  assert (Eqs : w_n wf = w_n w /\ w_p wf = w_p w /\ w_m wf = w_m w /\ w_xequil wf = w_xequil w /\ w_Aequil wf = w_Aequil w /\ w_Gequil wf = w_Gequil w /\ w_stgs wf = w_stgs w)
    by (repeat split; assumption).
  destruct Eqs as (Q1 & Q2 & Q3 & Q4 & Q5 & Q6 & Q7).
  exists wf. split.
  { rewrite Q1, Q4 in Bx. rewrite Q2, Q5 in By. rewrite Q3, Q6 in Bz, Bs. constructor; rewrite Et; assumption. }
   split; [auto|]. split; [auto|]. split; [auto|]. split; [auto|]. split; [auto|].
  assert (Ec: forall mode, tested wf mode code -> (code = mode \/ code = mode + 2 \/ code = mode + 1)%Z).
  { unfold tested, ECOS_OPTIMAL, ECOS_DINF, ECOS_PINF. intros mode [T|[T|T]]; lia. }
  assert (En2: tested wf 0 code \/ tested wf 10 code).
  { destruct En as [En|[En|[En _]]]; auto. exfalso.
    unfold ECOS_MAXIT, ECOS_NUMERICS, ECOS_SIGINT, ECOS_OUTCONE in En. simpl in En, Hc. lia. }
  split; intros L; destruct En2 as [T|T]; auto; apply Ec in T; lia.
Qed.

(* the statistics that were tested were computed from the point in the workspace *)
Lemma Cur_point w P A G x y z s tau : Cur w -> rprob phi w P A G -> rpoint phi w P x y z s tau -> norms_ok w ->
  exists w0 wr w1, rprob phi w0 P A G /\ rpoint phi w0 P x y z s tau /\ computeResiduals w0 = Some wr /\
    rprob phi wr P A G /\ rpoint phi wr P x y z s tau /\ norms_ok wr /\
    updateStatistics wr = Some w1 /\ w_stgs w1 = w_stgs w /\ w_tau w1 = w_tau w /\ w_kap w1 = w_kap w /\ summ w1 = summ w.
Proof.
  intros (w1 & (w0 & wr & C & U) & Pr & Ax & Ay & Az & As & Ek & Et & Sm) RP [Qx Qy Qz Qs Qt] NO.
  pose proof (computeResiduals_frame _ _ C) as (P1 & _ & Pt1 & _).
  pose proof (updateStatistics_frame _ _ U) as (P2 & _ & Pt2 & _).
  assert (RP1: rprob phi w1 P A G) by (exact (rprob_prob phi w w1 P A G Pr RP)).
  assert (RPr: rprob phi wr P A G) by (eapply rprob_prob; [|exact RP1]; congruence).
  assert (RP0: rprob phi w0 P A G) by (eapply rprob_prob; [|exact RP1]; congruence).
  assert (N1: norms_ok wr) by (eapply norms_ok_prob; [|exact NO]; congruence).
  assert (X1: rpoint phi w1 P x y z s tau).
  { pose proof (rp_n _ _ _ _ _ RP) as Dn. pose proof (rp_p _ _ _ _ _ RP) as Dp. pose proof (rp_m _ _ _ _ _ RP) as Dm.
    constructor; try congruence.
    - eapply holds_ext; [|exact Qx]. intros i Hi. symmetry. apply Ax. lia.
    - eapply holds_ext; [|exact Qy]. intros i Hi. symmetry. apply Ay. lia.
    - eapply holds_ext; [|exact Qz]. intros i Hi. symmetry. apply Az. lia.
    - eapply holds_ext; [|exact Qs]. intros i Hi. symmetry. apply As. lia. }
  assert (Xr: rpoint phi wr P x y z s tau).
  { unfold point_of in Pt2. injection Pt2 as. destruct X1. constructor; try congruence;
    (eapply holds_ext; [|eassumption]); intros; congruence. }
  assert (X0: rpoint phi w0 P x y z s tau).
  { unfold point_of in Pt1. injection Pt1 as. destruct Xr. constructor; try congruence;
    (eapply holds_ext; [|eassumption]); intros; congruence. }
  exists w0, wr, w1. csplit; auto.
  apply (prob_dims _ _ Pr).
Qed.

Lemma Cur_round w P A G x y z s tau : Cur w -> rprob phi w P A G -> rpoint phi w P x y z s tau -> norms_ok w ->
  exists wr w1, rprob phi wr P A G /\ rpoint phi wr P x y z s tau /\ norms_ok wr /\ rresid phi u eta Om P A G x y z s tau wr /\
    updateStatistics wr = Some w1 /\ w_stgs w1 = w_stgs w /\ w_tau w1 = w_tau w /\ w_kap w1 = w_kap w /\ summ w1 = summ w.
Proof.
  intros C RP X NO. destruct (Cur_point _ _ _ _ _ _ _ _ _ C RP X NO) as (w0 & wr & w1 & R0 & X0 & CR & Rr & Xr & Nr & U).
  exists wr, w1. split; [auto|]. split; [auto|]. split; [auto|]. split; [|exact U].
  exact (computeResiduals_round phi u eta Om H P A G x y z s tau w0 wr R0 X0 CR).
Qed.

Lemma test_optimal_ext w w1 mode : w_stgs w1 = w_stgs w -> summ w1 = summ w -> test_optimal w1 mode = test_optimal w mode.
Proof.
  intros E Sm. unfold summ, st_core in Sm. injection Sm as S1 S2 S3 D1 D2 D3 D4 D5 D6 D7 D8 D9 D10.
  unfold test_optimal. rewrite E, S1, S2, S3, D3, D4, D7, D8. reflexivity.
Qed.

(* C47.  If the solver reports optimality then the point its answer is computed
   from satisfies the optimality conditions up to the tolerances and up to the
   rounding errors of evaluating them, provided no intermediate result
   overflows. *)
Theorem C47_optimal N eps om B w w' sig t t' code P A G ft at_ rt ft' at' rt' :
  precision u eta Om N eps om B ->
  ECOS_solve sig t w = Some (code, t', w') -> rheld w P A G -> (0 <= sg_maxit (w_stgs w))%Z ->
  w_best w = None \/ st_iter (w_info w') <> 0%Z ->
  tolerances (settings_mapf phi (w_stgs w)) ft at_ rt ft' at' rt' ->
  0 <= ft -> 0 <= at_ -> 0 <= rt -> 0 <= ft' -> 0 <= at' -> 0 <= rt' ->
  code = 0%Z \/ code = 10%Z ->
  exists xs ys zs ss, returned_from w w' xs ys zs ss /\
    forall x y z s tau,
      holds phi xs (pb_n P) x -> holds phi ys (pb_p P) y -> holds phi zs (pb_m P) z -> holds phi ss (pb_m P) s ->
      phi (w_tau w') = Some tau -> 0 < tau -> tame P A G om N B tau x y z s ->
      (code = 0%Z -> rounded_optimal P A G eps om ft at_ rt tau x y z s) /\
      (code = 10%Z -> rounded_optimal P A G eps om ft' at' rt' tau x y z s).
Proof.
  intros PC S1 D S3 S4 TL f1' f2' f3' f4' f5' f6' Hc.
  destruct (round_core w w' sig t t' code P A G S1 D S3 S4) as (wf & RF & Et & Es & RP & NO & Cu & T0 & T10).
  { simpl. lia. }
  exists (w_x wf), (w_y wf), (w_z wf), (w_s wf). split; [exact RF|].
  intros x y z s tau Qx Qy Qz Qs Qt Ht Tm. rewrite <- Et in Qt.
  destruct (Cur_round wf P A G x y z s tau Cu RP (Build_rpoint _ _ _ _ _ _ _ _ Qx Qy Qz Qs Qt) NO)
    as (wr & w1 & RPr & Xr & Nr & Rr & U & Es1 & _ & _ & Sm).
  destruct TL as [t1 t2 t3 t4 t5 t6]. destruct (w_stgs w) as [] eqn:Sg in t1, t2, t3, t4, t5, t6. cbn in t1, t2, t3, t4, t5, t6.
  assert (Te : forall mode, code = mode -> tested wf mode code -> test_optimal w1 mode = true).
  { intros mode -> T. rewrite (test_optimal_ext wf w1 mode Es1 Sm).
    destruct T as [[_ T]|[[T _]|[T _]]]; auto; unfold ECOS_DINF, ECOS_PINF in T; lia. }
  split; intros Ec.
  - eapply (optimal_round phi u eta Om H N eps om B PC P A G x y z s tau Tm Ht wr w1 0 ft at_ rt); eauto.
    + unfold tols. cbn [Z.eqb]. rewrite Es1, Es, Sg. reflexivity.
    + apply Te; auto. apply T0. lia.
  - eapply (optimal_round phi u eta Om H N eps om B PC P A G x y z s tau Tm Ht wr w1 10 ft' at' rt'); eauto.
    + unfold tols. cbn [Z.eqb]. rewrite Es1, Es, Sg. reflexivity.
    + apply Te; auto. apply T10. lia.
Qed.
(* The numbers the caller sees are of moderate size: the data, the scalings and
   the vectors returned are at most D in absolute value, and neither tau nor a
   scaling is below 1/D.  x y z s are the values of the vectors returned. *)
Record moderate (w w' : pwork F) (P : problem) (A G : spmat R) (K : nat) (D : R) (xe Ae Ge x y z s : nat -> R) (tau : R) : Prop := {
  md_K : (1 <= K)%nat /\ (pb_n P <= K)%nat /\ (pb_p P <= K)%nat /\ (pb_m P <= K)%nat /\ (sp_nnz G <= K)%nat /\ ((0 < pb_p P)%nat -> (sp_nnz A <= K)%nat);
  md_G : forall k, (k < sp_nnz G)%nat -> Rabs (gd 0 (sp_pr G) k) <= D;
  md_A : (0 < pb_p P)%nat -> forall k, (k < sp_nnz A)%nat -> Rabs (gd 0 (sp_pr A) k) <= D;
  md_c : forall i, (i < pb_n P)%nat -> Rabs (pb_c P i) <= D;
  md_b : forall i, (i < pb_p P)%nat -> Rabs (pb_b P i) <= D;
  md_h : forall i, (i < pb_m P)%nat -> Rabs (pb_h P i) <= D;
  md_xe : holds phi (w_xequil w) (pb_n P) xe /\ forall i, (i < pb_n P)%nat -> / D <= xe i <= D;
  md_Ae : holds phi (w_Aequil w) (pb_p P) Ae /\ forall i, (i < pb_p P)%nat -> / D <= Ae i <= D;
  md_Ge : holds phi (w_Gequil w) (pb_m P) Ge /\ forall i, (i < pb_m P)%nat -> / D <= Ge i <= D;
  md_x : holds phi (w_x w') (pb_n P) x /\ forall i, (i < pb_n P)%nat -> Rabs (x i) <= D;
  md_y : holds phi (w_y w') (pb_p P) y /\ forall i, (i < pb_p P)%nat -> Rabs (y i) <= D;
  md_z : holds phi (w_z w') (pb_m P) z /\ forall i, (i < pb_m P)%nat -> Rabs (z i) <= D;
  md_s : holds phi (w_s w') (pb_m P) s /\ forall i, (i < pb_m P)%nat -> Rabs (s i) <= D;
  md_tau : phi (w_tau w') = Some tau /\ / D <= tau <= D }.

(* v is r, up to the rounding of returning r = v / g *)
Definition near (D v r g : R) : Prop := Rabs (v - r * g) <= 4 * u * Rabs (r * g) + 8 * eta * (D * D).
(* r is v * g, up to rounding *)
Definition near' (v r g : R) : Prop := Rabs (r - v * g) <= 4 * u * Rabs (v * g) + eta * (1 + 2 * Rabs v).

Lemma back_all (a ret equil : arr F) (tau : F) (D tv : R) (k : nat) (e r : nat -> R) :
  u <= / 64 -> eta <= / 64 -> 1 <= D -> D * D <= Om -> D * D * eta <= / 4 ->
  phi tau = Some tv -> / D <= tv <= D ->
  (forall i, (i < k)%nat -> exists v e, get a i = Some v /\ get equil i = Some e /\ get ret i = Some (fdiv v (fmul e tau))) ->
  holds phi equil k e /\ (forall i, (i < k)%nat -> / D <= e i <= D) -> holds phi ret k r /\ (forall i, (i < k)%nat -> Rabs (r i) <= D) ->
  exists v, holds phi a k v /\ (forall i, (i < k)%nat -> Rabs (v i) <= 16 * (D * D * D)) /\ forall i, (i < k)%nat -> near D (v i) (r i) (e i * tv).
Proof.
  intros Hu He HD HO Hd Et Ht X [E1 E2] [R1 R2].
  assert (PI : 0 < / D) by (apply Rinv_0_lt_compat; lra).
  assert (Y : forall i, (i < k)%nat -> exists v vv, get a i = Some v /\ phi v = Some vv /\ near D vv (r i) (e i * tv) /\ Rabs vv <= 16 * (D * D * D)).
  { intros i Hi. destruct (X i Hi) as (v & e0 & G1 & G2 & G3). destruct (E1 i Hi) as (e1 & G4 & G5). destruct (R1 i Hi) as (r1 & G6 & G7).
    rewrite G2 in G4. injection G4 as <-. rewrite G3 in G6. injection G6 as <-.
    destruct (back_div phi u eta Om H D Hu He HD HO Hd v e0 tau (r i) (e i) tv G7 G5 Et) as (vv & V1 & V2 & V3); auto.
    - pose proof (E2 i Hi). lra.
    - lra.
    - exists v, vv. auto. }
  exists (fun i => match get a i with Some v => match phi v with Some q => q | None => 0 end | None => 0 end).
  repeat split; intros i Hi; destruct (Y i Hi) as (v & vv & Y1 & Y2 & Y3 & Y4).
  - exists v. rewrite Y1, Y2. auto.
  - rewrite Y1, Y2. exact Y4.
  - rewrite Y1, Y2. exact Y3.
Qed.

Lemma back_all' (a ret equil : arr F) (tau : F) (D tv : R) (k : nat) (e r : nat -> R) :
  u <= / 64 -> eta <= / 64 -> 1 <= D -> D * D <= Om -> D * D * eta <= / 4 ->
  phi tau = Some tv -> / D <= tv <= D ->
  (forall i, (i < k)%nat -> exists v e, get a i = Some v /\ get equil i = Some e /\ get ret i = Some (fmul v (fdiv e tau))) ->
  holds phi equil k e /\ (forall i, (i < k)%nat -> / D <= e i <= D) -> holds phi ret k r /\ (forall i, (i < k)%nat -> Rabs (r i) <= D) ->
  exists v, holds phi a k v /\ (forall i, (i < k)%nat -> Rabs (v i) <= 16 * (D * D * D)) /\ forall i, (i < k)%nat -> near' (v i) (r i) (e i / tv).
Proof.
  intros Hu He HD HO Hd Et Ht X [E1 E2] [R1 R2].
  assert (Y : forall i, (i < k)%nat -> exists v vv, get a i = Some v /\ phi v = Some vv /\ near' vv (r i) (e i / tv) /\ Rabs vv <= 16 * (D * D * D)).
  { intros i Hi. destruct (X i Hi) as (v & e0 & G1 & G2 & G3). destruct (E1 i Hi) as (e1 & G4 & G5). destruct (R1 i Hi) as (r1 & G6 & G7).
    rewrite G2 in G4. injection G4 as <-. rewrite G3 in G6. injection G6 as <-.
    destruct (back_mul phi u eta Om H D Hu He HD HO Hd v e0 tau (r i) (e i) tv G7 G5 Et) as (vv & V1 & V2 & V3); auto.
    exists v, vv. auto. }
  exists (fun i => match get a i with Some v => match phi v with Some q => q | None => 0 end | None => 0 end).
  repeat split; intros i Hi; destruct (Y i Hi) as (v & vv & Y1 & Y2 & Y3 & Y4).
  - exists v. rewrite Y1, Y2. auto.
  - rewrite Y1, Y2. exact Y4.
  - rewrite Y1, Y2. exact Y3.
Qed.

(* the point behind the vectors returned *)
Lemma moderate_point K eps om B D w w' P A G xe Ae Ge x y z s tau xs ys zs ss :
  precision u eta Om (2 * K + 2) eps om B ->
  1 <= D -> D * D * om <= / 4 -> 64 * (INR K * INR K) * (D * D * D * D * D) <= B ->
  rheld w P A G -> moderate w w' P A G K D xe Ae Ge x y z s tau -> returned_from w w' xs ys zs ss ->
  exists X Y Z S,
    holds phi xs (pb_n P) X /\ holds phi ys (pb_p P) Y /\ holds phi zs (pb_m P) Z /\ holds phi ss (pb_m P) S /\
    phi (w_tau w') = Some tau /\ 0 < tau /\ tame P A G om (2 * K + 2) B tau X Y Z S /\
    (forall i, (i < pb_n P)%nat -> near D (X i) (x i) (xe i * tau)) /\
    (forall i, (i < pb_p P)%nat -> near D (Y i) (y i) (Ae i * tau)) /\
    (forall i, (i < pb_m P)%nat -> near D (Z i) (z i) (Ge i * tau)) /\
    (forall i, (i < pb_m P)%nat -> near' (S i) (s i) (Ge i / tau)).
Proof.
  intros PC HD Hd HB RH [(K1 & Kn & Kp & Km & KG & KA) MG MA Mc Mb Mh Mxe MAe MGe Mx My Mz Ms [Mt Ht]] [Rx Ry Rz Rs].
  pose proof (rn_u _ _ _ _ _ H) as U0. pose proof (rn_eta _ _ _ _ _ H) as E0.
  destruct PC as [pe po pu pt pt' pB pO].
  assert (Hu : u <= / 64).
  { assert (1 + u <= (1 + u) ^ (2 * K + 2 + 4)).
    { replace (2 * K + 2 + 4)%nat with (Datatypes.S (2 * K + 5)) by lia. cbn [pow].
      pose proof (pow_R1_Rle (1 + u) (2 * K + 5) ltac:(lra)) as L1.
      pose proof (Rmult_le_compat_l (1 + u) _ _ ltac:(lra) L1). lra. }
    lra. }
  assert (He : eta <= / 64) by lra.
  assert (PD2 : 1 <= D * D) by (pose proof (Rmult_le_compat 1 D 1 D ltac:(lra) ltac:(lra) HD HD); lra).
  assert (Hde : D * D * eta <= / 4).
  { assert (D * D * eta <= D * D * om) by (apply Rmult_le_compat_l; lra). lra. }
  assert (HO : D * D <= Om).
  { assert (Q1 : 1 <= INR K) by (change 1 with (INR 1); apply le_INR; exact K1).
    assert (Q2 : 1 <= INR K * INR K) by (pose proof (Rmult_le_compat 1 (INR K) 1 (INR K) ltac:(lra) ltac:(lra) Q1 Q1); lra).
    assert (Q3 : D * D <= D * D * D) by (pose proof (Rmult_le_compat_l (D * D) 1 D ltac:(lra) HD); lra).
    assert (Q4 : D * D * D <= D * D * D * D) by (pose proof (Rmult_le_compat_l (D * D * D) 1 D ltac:(lra) HD); lra).
    assert (Q5 : D * D * D * D <= D * D * D * D * D) by (pose proof (Rmult_le_compat_l (D * D * D * D) 1 D ltac:(lra) HD); lra).
    assert (Q6 : 1 * (D * D * D * D * D) <= (INR K * INR K) * (D * D * D * D * D)) by (apply Rmult_le_compat_r; lra).
    assert (Q7 : 1 <= INR (2 * K + 2 + 1)) by (change 1 with (INR 1); apply le_INR; lia).
    assert (Q8 : B <= B * B) by (pose proof (Rmult_le_compat_l B 1 B ltac:(lra) pB); lra).
    assert (Q9 : 1 * (B * B) <= INR (2 * K + 2 + 1) * (B * B)) by (apply Rmult_le_compat_r; lra).
    lra. }
  rewrite (rh_n _ _ _ _ RH) in Rx. rewrite (rh_p _ _ _ _ RH) in Ry. rewrite (rh_m _ _ _ _ RH) in Rz, Rs.
  destruct (back_all xs (w_x w') (w_xequil w) (w_tau w') D tau _ xe x Hu He HD HO Hde Mt Ht Rx Mxe Mx) as (X & X1 & X2 & X3).
  destruct (back_all ys (w_y w') (w_Aequil w) (w_tau w') D tau _ Ae y Hu He HD HO Hde Mt Ht Ry MAe My) as (Y & Y1 & Y2 & Y3).
  destruct (back_all zs (w_z w') (w_Gequil w) (w_tau w') D tau _ Ge z Hu He HD HO Hde Mt Ht Rz MGe Mz) as (Z & Z1 & Z2 & Z3).
  destruct (back_all' ss (w_s w') (w_Gequil w) (w_tau w') D tau _ Ge s Hu He HD HO Hde Mt Ht Rs MGe Ms) as (S & S1' & S2' & S3').
  assert (P0 : 0 < tau). { pose proof (Rinv_0_lt_compat D ltac:(lra)). lra. }
  exists X, Y, Z, S. do 6 (split; [assumption|]). split; [|repeat (split; [assumption|]); assumption].
  apply (tame_of P A G om D B tau K X Y Z S); auto.
  - exact (rh_wfG _ _ _ _ RH).
  - exact (rh_Gn _ _ _ _ RH).
  - intros L. destruct (rh_A _ _ _ _ RH L) as (A0 & _ & _ & W1 & W2 & _ & _). auto.
Qed.

(* C47.  If the solver reports optimality and the numbers the caller sees are of
   moderate size, then next to the vectors returned (in the solver's units) there
   is a point that satisfies the optimality conditions up to the tolerances and
   up to rounding.  Nothing is assumed about intermediate results. *)
Theorem C47_optimal_moderate K eps om B D w w' sig t t' code P A G xe Ae Ge x y z s tau ft at_ rt ft' at' rt' :
  precision u eta Om (2 * K + 2) eps om B ->
  1 <= D -> D * D * om <= / 4 -> 64 * (INR K * INR K) * (D * D * D * D * D) <= B ->
  ECOS_solve sig t w = Some (code, t', w') -> rheld w P A G -> (0 <= sg_maxit (w_stgs w))%Z ->
  w_best w = None \/ st_iter (w_info w') <> 0%Z ->
  tolerances (settings_mapf phi (w_stgs w)) ft at_ rt ft' at' rt' ->
  0 <= ft -> 0 <= at_ -> 0 <= rt -> 0 <= ft' -> 0 <= at' -> 0 <= rt' ->
  moderate w w' P A G K D xe Ae Ge x y z s tau ->
  code = 0%Z \/ code = 10%Z ->
  exists X Y Z S,
    (forall i, (i < pb_n P)%nat -> near D (X i) (x i) (xe i * tau)) /\
    (forall i, (i < pb_p P)%nat -> near D (Y i) (y i) (Ae i * tau)) /\
    (forall i, (i < pb_m P)%nat -> near D (Z i) (z i) (Ge i * tau)) /\
    (forall i, (i < pb_m P)%nat -> near' (S i) (s i) (Ge i / tau)) /\
    (code = 0%Z -> rounded_optimal P A G eps om ft at_ rt tau X Y Z S) /\
    (code = 10%Z -> rounded_optimal P A G eps om ft' at' rt' tau X Y Z S).
Proof.
  intros PC HD Hd HB S1 RH S3 S4 TL f1' f2' f3' f4' f5' f6' MD Hc.
  destruct (C47_optimal _ _ _ _ _ _ _ _ _ _ _ _ _ _ _ _ _ _ _ PC S1 RH S3 S4 TL f1' f2' f3' f4' f5' f6' Hc) as (xs & ys & zs & ss & RF & Q).
  destruct (moderate_point K eps om B D w w' P A G xe Ae Ge x y z s tau xs ys zs ss PC HD Hd HB RH MD RF)
    as (X & Y & Z & S & X1 & Y1 & Z1 & S1' & Mt & P0 & Tm & N1 & N2 & N3 & N4).
  exists X, Y, Z, S. repeat (split; [assumption|]). exact (Q X Y Z S tau X1 Y1 Z1 S1' Mt P0 Tm).
Qed.
End Rounded.

(* IEEE double precision, rounding to nearest even, with any exp and log,
   satisfies the laws: relative error 2^-53, underflow 2^-1075, and results up
   to 2^1023 = 4 * 2^1021 do not overflow. *)
Theorem C47_binary64 ex lg :
  rounds (BOps ex lg) bval (Core.Raux.bpow Core.Zaux.radix2 (-53)) (Core.Raux.bpow Core.Zaux.radix2 (-1075)) (Core.Raux.bpow Core.Zaux.radix2 1021).
Proof. exact (b64_rounds ex lg). Qed.

Lemma pow_lin u k : 0 <= u -> 2 * INR k * u <= 1 -> (1 + u) ^ k <= 1 + 2 * INR k * u.
Proof.
  intros U. induction k as [|k IH]; intros L; [cbn; lra|].
  rewrite S_INR in *. assert (L' : 2 * INR k * u <= 1) by lra. specialize (IH L').
  cbn [pow]. assert (E : 2 * INR k * u * u <= 1 * u) by (apply Rmult_le_compat_r; lra).
  pose proof (Rmult_le_compat_l (1 + u) _ _ ltac:(lra) IH). nra.
Qed.

(* Problems with up to 2^30 terms in a sum: relative error 2^-21, underflow
   2^-500, magnitudes up to 2^490. *)
Theorem C47_binary64_precision N : INR N <= 2 ^ 30 ->
  precision (Core.Raux.bpow Core.Zaux.radix2 (-53)) (Core.Raux.bpow Core.Zaux.radix2 (-1075)) (Core.Raux.bpow Core.Zaux.radix2 1021)
    N (Core.Raux.bpow Core.Zaux.radix2 (-21)) (Core.Raux.bpow Core.Zaux.radix2 (-500)) (Core.Raux.bpow Core.Zaux.radix2 490).
Proof.
  intros HN. set (bp := Core.Raux.bpow Core.Zaux.radix2).
  assert (PP : forall a b, bp a * bp b = bp (a + b)%Z) by (intros; symmetry; apply Core.Raux.bpow_plus).
  assert (PG : forall a, 0 < bp a) by (intros; apply Core.Raux.bpow_gt_0).
  assert (PL : forall a b, (a <= b)%Z -> bp a <= bp b) by (intros; apply Core.Raux.bpow_le; auto).
  assert (HN' : INR (N + 4) <= bp 31%Z).
  { rewrite plus_INR. assert (bp 31%Z = 2 * 2 ^ 30) by (unfold bp; cbn; lra). assert (INR 4 = 4) by (cbn; lra). lra. }
  assert (HN1 : INR (N + 1) <= bp 31%Z).
  { eapply Rle_trans; [|exact HN']. apply le_INR. lia. }
  pose proof (pos_INR (N + 4)) as P4. pose proof (pos_INR (N + 1)) as P1.
  assert (Z64 : / 64 = bp (-6)%Z) by (unfold bp; cbn; lra).
  assert (Z1 : 1 = bp 0%Z) by reflexivity. assert (Z2 : 2 = bp 1%Z) by (unfold bp; cbn; lra).
  assert (Z4 : 4 = bp 2%Z) by (unfold bp; cbn; lra).
  assert (Z64' : 64 = bp 6%Z) by (unfold bp; cbn; lra).
  assert (X : 2 * INR (N + 4) * bp (-53)%Z <= bp (-21)%Z).
  { apply Rle_trans with (2 * bp 31%Z * bp (-53)%Z).
    - apply Rmult_le_compat_r; [apply Rlt_le, PG|]. lra.
    - rewrite Z2, !PP. apply PL. lia. }
  constructor.
  - split; [apply Rlt_le, PG|]. rewrite Z64. apply PL. lia.
  - split; [apply Rlt_le, PG|]. rewrite Z64. apply PL. lia.
  - eapply Rle_trans; [apply pow_lin|].
    + apply Rlt_le, PG.
    + eapply Rle_trans; [exact X|]. rewrite Z1. apply PL. lia.
    + lra.
  - assert (E : bp (-21)%Z <= 1) by (rewrite Z1; apply PL; lia).
    pose proof (PG (-21)%Z). pose proof (PG (-1075)%Z).
    apply Rle_trans with (4 * bp 31%Z * 2 * bp (-1075)%Z).
    + apply Rmult_le_compat_r; [lra|]. apply Rmult_le_compat; try lra.
    + rewrite Z4, Z2, !PP. apply PL. lia.
  - apply PL. lia.
  - rewrite Z1. apply PL. lia.
  - apply Rle_trans with (64 * bp 31%Z * (bp 490%Z * bp 490%Z)).
    + apply Rmult_le_compat_r; [apply Rlt_le, Rmult_lt_0_compat; apply PG|]. lra.
    + rewrite Z64', !PP. apply PL. lia.
Qed.

Notation b2 := (Core.Raux.bpow Core.Zaux.radix2).

(* the sizes for which C47 and C48 are stated in double precision *)
Lemma b2_sizes K : INR K <= 2 ^ 20 ->
  precision (b2 (-53)) (b2 (-1075)) (b2 1021) (2 * K + 2) (b2 (-21)) (b2 (-500)) (b2 490) /\ 1 <= b2 60 /\ b2 60 * b2 60 * b2 (-500) <= / 4 /\
  64 * (INR K * INR K) * (b2 60 * b2 60 * b2 60 * b2 60 * b2 60) <= b2 490.
Proof.
  intros HK. pose proof (pos_INR K) as K0.
  assert (PP : forall a b, b2 a * b2 b = b2 (a + b)%Z) by (intros; symmetry; apply Core.Raux.bpow_plus).
  assert (PG : forall a, 0 < b2 a) by (intros; apply Core.Raux.bpow_gt_0).
  assert (PL : forall a b, (a <= b)%Z -> b2 a <= b2 b) by (intros; apply Core.Raux.bpow_le; auto).
  assert (E20 : 2 ^ 20 = b2 20%Z) by (cbn; lra).
  split; [|split; [|split]].
  - apply C47_binary64_precision. rewrite plus_INR, mult_INR.
    replace (INR 2) with 2 by (cbn; lra). lra.
  - change 1 with (b2 0%Z). apply PL. lia.
  - rewrite !PP. replace (/ 4) with (b2 (-2)%Z) by (cbn; lra). apply PL. lia.
  - rewrite !PP. apply Rle_trans with (b2 6%Z * (b2 20%Z * b2 20%Z) * b2 300%Z).
    + change (60 + 60 + 60 + 60 + 60)%Z with 300%Z. apply Rmult_le_compat_r; [apply Rlt_le, PG|].
      replace 64 with (b2 6%Z) by (cbn; lra). apply Rmult_le_compat_l; [apply Rlt_le, PG|]. rewrite E20 in HK. apply Rmult_le_compat; lra.
    + rewrite !PP. apply PL. lia.
Qed.

(* C47 for IEEE double precision: dimensions and numbers of nonzeros up to 2^20,
   numbers the caller sees between 2^-60 and 2^60.  The relative rounding error
   of the conditions is 2^-21 of the sum of the absolute values of their terms. *)
Theorem C47_binary64_optimal ex lg K w w' sig t t' code P A G xe Ae Ge x y z s tau ft at_ rt ft' at' rt' :
  INR K <= 2 ^ 20 ->
  @ECOS_solve (BOps ex lg) sig t w = Some (code, t', w') -> @rheld (BOps ex lg) bval w P A G -> (0 <= sg_maxit (w_stgs w))%Z ->
  w_best w = None \/ st_iter (w_info w') <> 0%Z ->
  tolerances (settings_mapf bval (w_stgs w)) ft at_ rt ft' at' rt' ->
  0 <= ft -> 0 <= at_ -> 0 <= rt -> 0 <= ft' -> 0 <= at' -> 0 <= rt' ->
  @moderate (BOps ex lg) bval w w' P A G K (b2 60) xe Ae Ge x y z s tau ->
  code = 0%Z \/ code = 10%Z ->
  exists X Y Z S,
    (forall i, (i < pb_n P)%nat -> near (b2 (-53)) (b2 (-1075)) (b2 60) (X i) (x i) (xe i * tau)) /\
    (forall i, (i < pb_p P)%nat -> near (b2 (-53)) (b2 (-1075)) (b2 60) (Y i) (y i) (Ae i * tau)) /\
    (forall i, (i < pb_m P)%nat -> near (b2 (-53)) (b2 (-1075)) (b2 60) (Z i) (z i) (Ge i * tau)) /\
    (forall i, (i < pb_m P)%nat -> near' (b2 (-53)) (b2 (-1075)) (S i) (s i) (Ge i / tau)) /\
    (code = 0%Z -> rounded_optimal P A G (b2 (-21)) (b2 (-500)) ft at_ rt tau X Y Z S) /\
    (code = 10%Z -> rounded_optimal P A G (b2 (-21)) (b2 (-500)) ft' at' rt' tau X Y Z S).
Proof.
  intros HK. destruct (b2_sizes K HK) as (Q1 & Q2 & Q3 & Q4).
  apply (@C47_optimal_moderate (BOps ex lg) bval (b2 (-53)) (b2 (-1075)) (b2 1021) (C47_binary64 ex lg) K (b2 (-21)) (b2 (-500)) (b2 490)); assumption.
Qed.

(* Examples/RunB.v runs the model in binary64 on a linear program with an
   equality constraint and on a second-order cone program; both runs end with
   ECOS_OPTIMAL and meet the hypotheses (check_runB_spec, C47_examples). *)
Print Assumptions C47_optimal.
Print Assumptions C47_optimal_moderate.
Print Assumptions C47_binary64.
Print Assumptions C47_binary64_precision.
Print Assumptions C47_binary64_optimal.
