(* C48: what ECOS_PINF and ECOS_DINF guarantee when the arithmetic rounds.

   As in C47 the arithmetic is any one that satisfies the rounding laws of
   Spec/Rounding.v, IEEE double precision in particular. *)
From Coq Require Import List Arith Bool ZArith QArith Reals Lia Lra Psatz.
From Flocq Require Core BinarySingleNaN.
From Verif Require Import Base Num NumX.
From Verif.Model Require Import Spla Types Consts Ecos Preproc.
From Verif.Spec Require Import Matrix Conic Certificate Rounding.
From Verif.Proofs Require Import SplaP ExitP XEvalP PhiP CertP RoundA RoundP RoundC RoundD RoundB RoundI.
From Verif.Properties Require Import Certificate Rounding.
Import ListNotations.
Open Scope R_scope.

Lemma tame_tame_ray P A G om N B tau x y z s : tame P A G om N B tau x y z s -> tame_ray P A G N B x y z s.
Proof.
  intros []. constructor; auto.
  - intros i Hi. specialize (ta_rows i Hi). lia.
  - intros i Hi. specialize (ta_rowsG i Hi). lia.
  - intros i Hi. specialize (ta_cols i Hi). lia.
  - intros i Hi. specialize (ta_eq i Hi). unfold mag_eq in *. rewrite abs0. pose proof (Rabs_pos (tau * pb_b P i)). lra.
  - intros i Hi. specialize (ta_ineq i Hi). unfold mag_ineq in *. rewrite abs0. pose proof (Rabs_pos (tau * pb_h P i)). lra.
  - intros i Hi. specialize (ta_dual i Hi). unfold mag_dual in *. rewrite abs0. pose proof (Rabs_pos (tau * pb_c P i)). lra.
Qed.

(* what the infeasibility codes say about the vectors X Y Z S *)
Definition rounded_infeasible (code : Z) (P : problem) (A G : spmat R) (eps om ft ft' rt : R) (X Y Z S : nat -> R) : Prop :=
  (code = 1%Z -> rounded_pinf P A G eps om ft rt Y Z) /\
  (code = 11%Z -> rounded_pinf P A G eps om ft' rt Y Z \/ rounded_pinf P A G eps om ft rt Y Z) /\
  (code = 2%Z -> rounded_dinf P A G eps om ft rt X S) /\
  (code = 12%Z -> rounded_dinf P A G eps om ft' rt X S).

Section Rounded.
Context {O : Ops} (phi : F -> option R).
Variables (u eta Om : R) (H : rounds O phi u eta Om).

(* C48.  If the solver reports infeasibility then the point its answer is
   computed from is a certificate of infeasibility up to the tolerances and up to
   the rounding errors of evaluating it, provided no intermediate result
   overflows. *)
Theorem C48_infeasible N eps om B w w' sig t t' code P A G ft at_ rt ft' at' rt' :
  precision u eta Om N eps om B ->
  ECOS_solve sig t w = Some (code, t', w') -> rheld phi w P A G -> (0 <= sg_maxit (w_stgs w))%Z ->
  w_best w = None \/ st_iter (w_info w') <> 0%Z ->
  tolerances (settings_mapf phi (w_stgs w)) ft at_ rt ft' at' rt' -> 0 <= ft -> 0 <= rt -> 0 <= ft' ->
  In code [1; 2; 11; 12]%Z ->
  exists xs ys zs ss, returned_from w w' xs ys zs ss /\
    forall x y z s tau,
      holds phi xs (pb_n P) x -> holds phi ys (pb_p P) y -> holds phi zs (pb_m P) z -> holds phi ss (pb_m P) s ->
      phi (w_tau w') = Some tau -> tame_ray P A G N B x y z s ->
      rounded_infeasible code P A G eps om ft ft' rt x y z s.
Proof.
  intros PC S1 D S3 S4 TL f1' f3' f4' Hc.
  destruct (round_core phi w w' sig t t' code P A G S1 D S3 S4) as (wf & RF & Et & Es & RP & NO & Cu & T0 & T10).
  { simpl in *. lia. }
  exists (w_x wf), (w_y wf), (w_z wf), (w_s wf). split; [exact RF|].
  intros x y z s tau Qx Qy Qz Qs Qt Tm. rewrite <- Et in Qt.
  destruct (Cur_point phi wf P A G x y z s tau Cu RP (Build_rpoint _ _ _ _ _ _ _ _ Qx Qy Qz Qs Qt) NO)
    as (w0 & wr & w1 & R0 & X0 & CR & RPr & Xr & Nr & U & Es1 & _ & _ & Sm).
  pose proof (computeResiduals_round phi u eta Om H P A G x y z s tau w0 wr R0 X0 CR) as Rr.
  pose proof (computeResiduals_hom phi u eta Om H P A G x y z s tau w0 wr R0 X0 CR) as Rh.
  pose proof (updateStatistics_frame _ _ U) as (P2 & _).
  assert (Er: w_stgs wr = w_stgs w). { pose proof (prob_dims _ _ P2) as (_ & _ & _ & Q). congruence. }
  unfold summ, st_core in Sm. injection Sm as M1 M2 M3 D1 D2 D3 D4 D5 D6 D7 D8 D9 D10.
  destruct TL as [t1 t2 t3 t4 t5 t6]. rewrite <- Es in Er.
  assert (Vft: phi (sg_feastol (w_stgs wf)) = Some ft) by (rewrite Es; destruct (w_stgs w); exact t1).
  assert (Vrt: phi (sg_reltol (w_stgs wr)) = Some rt) by (rewrite Er, Es; destruct (w_stgs w); exact t3).
  assert (Vft': phi (sg_feastol_inacc (w_stgs wf)) = Some ft') by (rewrite Es; destruct (w_stgs w); exact t4).
  assert (PI: forall f v, phi f = Some v -> 0 <= v -> flt (st_pinfres (w_info wf)) f = true -> rounded_pinf P A G eps om v rt y z).
  { intros f v Hf V0 L. rewrite <- D5 in L. exact (pinf_round phi u eta Om H N eps om B PC P A G x y z s tau Tm wr w1 v rt f RPr Xr Rr Rh U Hf Vrt V0 f3' L). }
  assert (DI: forall f v, phi f = Some v -> 0 <= v -> flt (st_dinfres (w_info wf)) f = true -> rounded_dinf P A G eps om v rt x s).
  { intros f v Hf V0 L. rewrite <- D6 in L. exact (dinf_round phi u eta Om H N eps om B PC P A G x y z s tau Tm wr w1 v rt f RPr Xr Rr Rh U Hf Vrt V0 f3' L). }
  clear - T0 T10 PI DI Vft Vft' f1' f4'.
  assert (TP: forall mode, tested wf mode (mode + 1) -> test_pinf wf mode = true).
  { intros mode [[T _]|[[T _]|(_ & _ & _ & T)]]; auto; unfold ECOS_DINF, ECOS_OPTIMAL in T; lia. }
  assert (TD: forall mode, tested wf mode (mode + 2) -> test_dinf wf mode = true).
  { intros mode [[T _]|[(_ & _ & T)|[T _]]]; auto; unfold ECOS_PINF, ECOS_OPTIMAL in T; lia. }
  unfold rounded_infeasible. split; [|split; [|split]]; intros ->.
  - specialize (TP 0%Z (T0 ltac:(lia))). unfold test_pinf, tols in TP. cbn [Z.eqb] in TP.
    apply orb_prop in TP as [TP|TP]; apply andb_prop in TP as [TP X1]; apply andb_prop in TP as [X2 X3]; eauto.
  - specialize (TP 10%Z (T10 ltac:(lia))). unfold test_pinf, tols in TP. cbn [Z.eqb] in TP.
    apply orb_prop in TP as [TP|TP]; apply andb_prop in TP as [TP X1]; apply andb_prop in TP as [X2 X3]; [left|right]; eauto.
  - specialize (TD 0%Z (T0 ltac:(lia))). unfold test_dinf, tols in TD. cbn [Z.eqb] in TD.
    apply andb_prop in TD as [TD X1]; apply andb_prop in TD as [X2 X3]; eauto.
  - specialize (TD 10%Z (T10 ltac:(lia))). unfold test_dinf, tols in TD. cbn [Z.eqb] in TD.
    apply andb_prop in TD as [TD X1]; apply andb_prop in TD as [X2 X3]; eauto.
Qed.

(* C48.  If the solver reports infeasibility and the numbers the caller sees are
   of moderate size, then next to the vectors returned (in the solver's units)
   there is a certificate of infeasibility up to the tolerances and up to
   rounding. *)
Theorem C48_infeasible_moderate K eps om B D w w' sig t t' code P A G xe Ae Ge x y z s tau ft at_ rt ft' at' rt' :
  precision u eta Om (2 * K + 2) eps om B ->
  1 <= D -> D * D * om <= / 4 -> 64 * (INR K * INR K) * (D * D * D * D * D) <= B ->
  ECOS_solve sig t w = Some (code, t', w') -> rheld phi w P A G -> (0 <= sg_maxit (w_stgs w))%Z ->
  w_best w = None \/ st_iter (w_info w') <> 0%Z ->
  tolerances (settings_mapf phi (w_stgs w)) ft at_ rt ft' at' rt' -> 0 <= ft -> 0 <= rt -> 0 <= ft' ->
  moderate phi w w' P A G K D xe Ae Ge x y z s tau ->
  In code [1; 2; 11; 12]%Z ->
  exists X Y Z S,
    (forall i, (i < pb_n P)%nat -> near u eta D (X i) (x i) (xe i * tau)) /\
    (forall i, (i < pb_p P)%nat -> near u eta D (Y i) (y i) (Ae i * tau)) /\
    (forall i, (i < pb_m P)%nat -> near u eta D (Z i) (z i) (Ge i * tau)) /\
    (forall i, (i < pb_m P)%nat -> near' u eta (S i) (s i) (Ge i / tau)) /\
    rounded_infeasible code P A G eps om ft ft' rt X Y Z S.
Proof.
  intros PC HD Hd HB S1 RH S3 S4 TL f1' f3' f4' MD Hc.
  destruct (C48_infeasible _ _ _ _ _ _ _ _ _ _ _ _ _ _ _ _ _ _ _ PC S1 RH S3 S4 TL f1' f3' f4' Hc) as (xs & ys & zs & ss & RF & Q).
  destruct (moderate_point phi u eta Om H K eps om B D w w' P A G xe Ae Ge x y z s tau xs ys zs ss PC HD Hd HB RH MD RF)
    as (X & Y & Z & S & X1 & Y1 & Z1 & S1' & Mt & P0 & Tm & N1 & N2 & N3 & N4).
  exists X, Y, Z, S. repeat (split; [assumption|]).
  exact (Q X Y Z S tau X1 Y1 Z1 S1' Mt (tame_tame_ray _ _ _ _ _ _ _ _ _ _ _ Tm)).
Qed.
End Rounded.

(* C48 for IEEE double precision, with the sizes of C47_binary64_optimal *)
Theorem C48_binary64_infeasible ex lg K w w' sig t t' code P A G xe Ae Ge x y z s tau ft at_ rt ft' at' rt' :
  INR K <= 2 ^ 20 ->
  @ECOS_solve (BOps ex lg) sig t w = Some (code, t', w') -> @rheld (BOps ex lg) bval w P A G -> (0 <= sg_maxit (w_stgs w))%Z ->
  w_best w = None \/ st_iter (w_info w') <> 0%Z ->
  tolerances (settings_mapf bval (w_stgs w)) ft at_ rt ft' at' rt' -> 0 <= ft -> 0 <= rt -> 0 <= ft' ->
  @moderate (BOps ex lg) bval w w' P A G K (b2 60) xe Ae Ge x y z s tau ->
  In code [1; 2; 11; 12]%Z ->
  exists X Y Z S,
    (forall i, (i < pb_n P)%nat -> near (b2 (-53)) (b2 (-1075)) (b2 60) (X i) (x i) (xe i * tau)) /\
    (forall i, (i < pb_p P)%nat -> near (b2 (-53)) (b2 (-1075)) (b2 60) (Y i) (y i) (Ae i * tau)) /\
    (forall i, (i < pb_m P)%nat -> near (b2 (-53)) (b2 (-1075)) (b2 60) (Z i) (z i) (Ge i * tau)) /\
    (forall i, (i < pb_m P)%nat -> near' (b2 (-53)) (b2 (-1075)) (S i) (s i) (Ge i / tau)) /\
    rounded_infeasible code P A G (b2 (-21)) (b2 (-500)) ft ft' rt X Y Z S.
Proof.
  intros HK. destruct (b2_sizes K HK) as (Q1 & Q2 & Q3 & Q4).
  apply (@C48_infeasible_moderate (BOps ex lg) bval (b2 (-53)) (b2 (-1075)) (b2 1021) (C47_binary64 ex lg) K (b2 (-21)) (b2 (-500)) (b2 490)); assumption.
Qed.

(* What a rounded certificate excludes.  A feasible point (xf, sf) must be far
   away: the margin is at most the residual times its norm, plus the rounding
   errors, provided z is in the dual cone. *)
Theorem C48_no_feasible_point_nearby P A G eps om ft rt y z xf sf :
  rounded_pinf P A G eps om ft rt y z -> inKd (pb_l P) (pb_q P) (pb_e P) z -> primal_feasible P xf sf ->
  let k := slack eps om in let D := Rmax (nrm (pb_p P) y + nrm (pb_m P) z) 1 in
  (2 - k) * rt * D <= (k * D * (ft + 2 * om) + 3 * om + err eps om (pb_n P) (mag_dual P A G 0 y z)) * nrm (pb_n P) xf
    + 16 * om * D + erd eps om (pb_p P) (pb_b P) y + erd eps om (pb_m P) (pb_h P) z.
Proof.
  intros (A1 & A2) HZ HF k D. pose proof (pinf_bound P xf sf y z HF HZ) as Bd. unfold dobj in Bd.
  pose proof (nrm_nonneg (pb_n P) xf) as N0.
  pose proof (Rmult_le_compat_r _ _ _ N0 A2) as A3. fold k D in A1, A3. lra.
Qed.

Theorem C48_no_dual_feasible_point_nearby P A G eps om ft rt x s yf zf :
  rounded_dinf P A G eps om ft rt x s -> inK (pb_l P) (pb_q P) (pb_e P) s -> dual_feasible P yf zf ->
  let k := slack eps om in let D := Rmax (nrm (pb_n P) x) 1 in
  (2 - k) * rt * D <=
    (k * D * (ft + 2 * om) + 3 * om + err eps om (pb_p P) (mag_eq P A 0 x)) * nrm (pb_p P) yf
    + (k * Rmax (nrm (pb_n P) x + nrm (pb_m P) s) 1 * (ft + 2 * om) + 3 * om + err eps om (pb_m P) (mag_ineq P G 0 x s)) * nrm (pb_m P) zf
    + 16 * om * D + erd eps om (pb_n P) (pb_c P) x.
Proof.
  intros (A1 & A2 & A3) HS HF k D. pose proof (dinf_bound P x s yf zf HF HS) as Bd. unfold pobj in Bd.
  change (nrm (pb_p P) (fun i => mulv (pb_n P) (pb_A P) x i)) with (nrm (pb_p P) (mulv (pb_n P) (pb_A P) x)) in A2.
  pose proof (Rmult_le_compat_r _ _ _ (nrm_nonneg (pb_p P) yf) A2) as A4.
  pose proof (Rmult_le_compat_r _ _ _ (nrm_nonneg (pb_m P) zf) A3) as A5. fold k D in A1, A4, A5. lra.
Qed.

Print Assumptions C48_infeasible.
Print Assumptions C48_infeasible_moderate.
Print Assumptions C48_binary64_infeasible.
Print Assumptions C48_no_feasible_point_nearby.
Print Assumptions C48_no_dual_feasible_point_nearby.
