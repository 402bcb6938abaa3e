(* C20, C21, C22: what ECOS_OPTIMAL, ECOS_PINF and ECOS_DINF (and their
   reduced-accuracy variants) guarantee about the vectors that are returned.

   Arithmetic is exact with NaN: the theorems hold for every instance O of the
   arithmetic interface whose operations compute exactly what [phi] says
   ([reads], Proofs/PhiP.v), XOps among them.  [pwork_mapf phi None w] is the
   workspace w with its numbers read as reals or NaN.

   [numeric] (Proofs/CertP.v): before the call the data in the workspace are
   numbers, those of a problem P in the units the solver works in, except that
   c is still in the user's units (ECOS_solve divides it by xequil).
   The vectors returned are in the user's units; multiplied by the scalings
   they are in the solver's. *)
From Coq Require Import List Arith Bool ZArith QArith Reals Lia Lra Psatz.
From Verif Require Import Base Num NumX NumH.
From Verif.Model Require Import Spla Types Consts Ecos Preproc.
From Verif.Spec Require Import Matrix Conic Certificate.
From Verif.Proofs Require Import SplaP ExitP XEvalP PhiP CertP.
Import ListNotations.
Open Scope R_scope.

(* the tolerances in the settings are numbers: normal and reduced accuracy *)
Record tolerances (g : settings (option R)) (ft at_ rt ft' at' rt' : R) : Prop := {
  tl_ft : sg_feastol g = Some ft; tl_at : sg_abstol g = Some at_; tl_rt : sg_reltol g = Some rt;
  tl_ft' : sg_feastol_inacc g = Some ft'; tl_at' : sg_abstol_inacc g = Some at'; tl_rt' : sg_reltol_inacc g = Some rt' }.

(* the vectors returned, in the solver's units *)
Definition prod_ (a b : nat -> R) : nat -> R := fun i => a i * b i.
Definition quot_ (a b : nat -> R) : nat -> R := fun i => a i / b i.

Section Cert.
Context {O : Ops} (phi : F -> option R) (H : reads O phi).
Notation wm := (pwork_mapf phi None).

(* the common situation of the three theorems *)
Record situation (w w' : pwork F) (sig : Z -> bool) (t t' : ctrlc) (code : Z)
  (P : problem) (A G : spmat R) (xe Ae Ge x y z s : nat -> R) (tau ft at_ rt ft' at' rt' : R) : Prop := {
  si_solve : ECOS_solve sig t w = Some (code, t', w');
  si_data : numeric (wm w) P A G xe Ae Ge;
  si_maxit : (0 <= sg_maxit (w_stgs w))%Z;
  (* no iterate saved by an earlier solve is returned *)
  si_fresh : w_best w = None \/ st_iter (w_info w') <> 0%Z;
  si_tol : tolerances (settings_mapf phi (w_stgs w)) ft at_ rt ft' at' rt';
  si_ret : returned (wm w') P x y z s tau;
  si_tau : 0 < tau }.

Lemma cert_core w w' sig t t' code P A G xe Ae Ge x y z s tau ft at_ rt ft' at' rt' :
  situation w w' sig t t' code P A G xe Ae Ge x y z s tau ft at_ rt ft' at' rt' ->
  In code [0; 1; 2; 10; 11; 12]%Z ->
  exists wf : pwork (option R),
    w_stgs wf = settings_mapf phi (w_stgs w) /\
    ((code < 10)%Z -> @tested XOps wf 0 code) /\ ((10 <= code)%Z -> @tested XOps wf 10 code) /\
    xstats P (vscal tau (prod_ xe x)) (vscal tau (prod_ Ae y)) (vscal tau (prod_ Ge z)) (vscal tau (quot_ s Ge)) tau
      (Rmax 1 (nrm (pb_n P) (pb_c P))) (Rmax 1 (nrm (pb_p P) (pb_b P))) (Rmax 1 (nrm (pb_m P) (pb_h P))) rt (w_info wf) /\
    w_cx wf = Some (dotp (pb_n P) (pb_c P) (vscal tau (prod_ xe x))) /\
    w_by wf = Some (dotp (pb_p P) (pb_b P) (vscal tau (prod_ Ae y))) /\
    w_hz wf = Some (dotp (pb_m P) (pb_h P) (vscal tau (prod_ Ge z))).
Proof.
  intros [S1 S2 S3 S4 S5 S6 S7] Hc.
  apply solve_inv in S1 as (wf & c & SC & P0 & NO & D); [|exact S3].
  assert (NF: code <> ECOS_FATAL /\ code <> ECOS_OUTCONE).
  { unfold ECOS_FATAL, ECOS_OUTCONE. simpl in Hc. split; intros ->; decompose [or] Hc; lia. }
  destruct NF as [N1 N2].
  destruct D as [(-> & _)|([(_ & -> & _)|(B & _)] & D)]; try contradiction.
  assert (I: st_iter (w_info w') = st_iter (w_info wf)).
  { apply backscale_inv in B as (E & _). rewrite E. auto. }
  destruct D as [[Cu En]|[D1 D2]].
  2:{ exfalso. destruct S4 as [S4|S4]; [apply D1; exact S4|apply S4; rewrite I; exact D2]. }
  exists (wm wf).
  destruct (scaled_c_m phi H _ _ SC) as [SC' ES].
  pose proof (numeric_xprob _ _ _ _ _ _ _ _ S2 SC') as XP.
  pose proof P0 as P0'. unfold prob0_of in P0'. injection P0' as.
  apply (prob0_m phi) in P0.
  assert (XF: xprob (wm wf) P A G).
  { eapply xprob0; [|exact XP]. rewrite <- ES. exact P0. }
  assert (Sg: w_stgs (wm wf) = settings_mapf phi (w_stgs w)).
  { cbn [pwork_mapf w_stgs]. f_equal. assumption. }
  assert (Eq: w_xequil (wm wf) = w_xequil (wm w) /\ w_Aequil (wm wf) = w_Aequil (wm w) /\ w_Gequil (wm wf) = w_Gequil (wm w)).
  { cbn [pwork_mapf w_xequil w_Aequil w_Gequil]. split; [|split]; f_equal; assumption. }
  destruct Eq as (Q1 & Q2 & Q3).
  pose proof (backscale_m phi H _ _ B) as B'.
  destruct S2.
  assert (XQ: xpoint (wm wf) P (vscal tau (prod_ xe x)) (vscal tau (prod_ Ae y)) (vscal tau (prod_ Ge z))
                (vscal tau (quot_ s Ge)) (w_kap (wm wf)) tau).
  { apply (returned_point (wm wf) (wm w') P A G xe Ae Ge x y z s tau B' XF); auto.
    - change (@F XOps) with (option R). rewrite Q1; auto.
    - change (@F XOps) with (option R). rewrite Q2; auto.
    - change (@F XOps) with (option R). rewrite Q3; auto. }
  apply (Cur_m phi H) in Cu. apply (norms_m phi H) in NO. apply (ended_m phi H) in En.
  destruct S5.
  destruct (Cur_stats (wm wf) P A G _ _ _ _ _ tau rt Cu XF XQ NO) as (X1 & X2 & X3 & X4).
  { change (@F XOps) with (option R). rewrite Sg. exact tl_rt0. } { lra. }
  split; [exact Sg|].
  assert (Ec: forall mode, @tested XOps (wm wf) mode code -> (code = mode \/ code = mode + 2 \/ code = mode + 1)%Z).
  { unfold tested, ECOS_OPTIMAL, ECOS_DINF, ECOS_PINF. intros mode [T|[T|T]]; lia. }
  assert (En2: @tested XOps (wm wf) 0 code \/ @tested XOps (wm wf) 10 code).
  { destruct En as [En|[En|[En _]]]; auto. exfalso.
    unfold ECOS_MAXIT, ECOS_NUMERICS, ECOS_SIGINT, ECOS_OUTCONE in En. simpl in En, Hc. lia. }
  split; [|split].
  - intros L. destruct En2 as [T|T]; auto. apply Ec in T. lia.
  - intros L. destruct En2 as [T|T]; auto. apply Ec in T. lia.
  - auto.
Qed.

(* C20.  ECOS_OPTIMAL: the vectors returned satisfy the optimality conditions
   within the tolerances, and their objective is within an explicit distance of
   that of every feasible point, provided z is in the dual cone. *)
Theorem C20_optimal_certificate w w' sig t t' code P A G xe Ae Ge x y z s tau ft at_ rt ft' at' rt' :
  situation w w' sig t t' code P A G xe Ae Ge x y z s tau ft at_ rt ft' at' rt' ->
  let X := prod_ xe x in let Y := prod_ Ae y in let Z := prod_ Ge z in let S := quot_ s Ge in
  (code = 0%Z -> approx_optimal P ft at_ rt tau X Y Z S) /\
  (code = 10%Z -> approx_optimal P ft' at' rt' tau X Y Z S).
Proof.
  intros Si X Y Z S. split; intros Hc;
  (destruct (cert_core _ _ _ _ _ _ _ _ _ _ _ _ _ _ _ _ _ _ _ _ _ _ _ Si) as (wf & Sg & T0 & T10 & St & C1 & C2 & C3);
    [subst; simpl; tauto|]); destruct Si as [_ _ _ _ [] _ Ht].
  - specialize (T0 ltac:(lia)).
    eapply (test_optimal_X P tau X Y Z S Ht rt wf St C1 C2 C3 0).
    + unfold tols. cbn [Z.eqb]. change (@F XOps) with (option R). rewrite Sg. repeat f_equal; eassumption.
    + destruct T0 as [[_ T]|[[T _]|[T _]]]; auto; unfold ECOS_DINF, ECOS_PINF in T; lia.
  - specialize (T10 ltac:(lia)).
    eapply (test_optimal_X P tau X Y Z S Ht rt wf St C1 C2 C3 10).
    + unfold tols. cbn [Z.eqb]. change (@F XOps) with (option R). rewrite Sg. repeat f_equal; eassumption.
    + destruct T10 as [[_ T]|[[T _]|[T _]]]; auto; unfold ECOS_DINF, ECOS_PINF in T; lia.
Qed.

(* the distance to optimality that approx_optimal implies *)
Theorem C20_suboptimality P ft at_ rt tau x y z s xf sf :
  0 < tau ->
  approx_optimal P ft at_ rt tau x y z s -> inKd (pb_l P) (pb_q P) (pb_e P) z ->
  primal_feasible P xf sf ->
  pobj P x <= pobj P xf + dotp (pb_m P) s z
   + ft * (Rmax (Rmax 1 (nrm (pb_n P) (pb_c P)) + tau * nrm (pb_p P) y + tau * nrm (pb_m P) z) 1 * (nrm (pb_n P) x + nrm (pb_n P) xf)
         + Rmax (Rmax 1 (nrm (pb_p P) (pb_b P)) + tau * nrm (pb_n P) x) 1 * nrm (pb_p P) y
         + Rmax (Rmax 1 (nrm (pb_m P) (pb_h P)) + tau * nrm (pb_n P) x + tau * nrm (pb_m P) s) 1 * nrm (pb_m P) z).
Proof.
  intros Ht (A1 & A2 & A3 & _ & _) HZ HF.
  pose proof (suboptimality P x s y z xf sf HF HZ) as B.
  pose proof (nrm_nonneg (pb_n P) x). pose proof (nrm_nonneg (pb_n P) xf).
  pose proof (nrm_nonneg (pb_p P) y). pose proof (nrm_nonneg (pb_m P) z).
  apply Rlt_le in A1, A2, A3.
  pose proof (Rmult_le_compat_r (nrm (pb_n P) x + nrm (pb_n P) xf) _ _ ltac:(lra) A3).
  pose proof (Rmult_le_compat_r (nrm (pb_p P) y) _ _ ltac:(lra) A1).
  pose proof (Rmult_le_compat_r (nrm (pb_m P) z) _ _ ltac:(lra) A2).
  lra.
Qed.

(* C21.  ECOS_PINF: (y,z) is an approximate certificate of primal
   infeasibility.  The reduced-accuracy code may also have been issued by the
   clause of src/ecos.c:234 that uses the normal tolerance. *)
Theorem C21_primal_infeasibility_certificate w w' sig t t' code P A G xe Ae Ge x y z s tau ft at_ rt ft' at' rt' :
  situation w w' sig t t' code P A G xe Ae Ge x y z s tau ft at_ rt ft' at' rt' ->
  let Y := prod_ Ae y in let Z := prod_ Ge z in
  (code = 1%Z -> approx_pinf P ft rt tau Y Z) /\
  (code = 11%Z -> approx_pinf P ft' rt tau Y Z \/ approx_pinf P ft rt tau Y Z).
Proof.
  intros Si Y Z. split; intros Hc;
  (destruct (cert_core _ _ _ _ _ _ _ _ _ _ _ _ _ _ _ _ _ _ _ _ _ _ _ Si) as (wf & Sg & T0 & T10 & St & C1 & C2 & C3);
    [subst; simpl; tauto|]); destruct Si as [_ _ _ _ [] _ Ht].
  - specialize (T0 ltac:(lia)).
    destruct (test_pinf_X P tau (prod_ xe x) Y Z (quot_ s Ge) Ht rt wf St 0 ft at_ rt ft) as [R|R]; auto.
    + unfold tols. cbn [Z.eqb]. change (@F XOps) with (option R). rewrite Sg. repeat f_equal; eassumption.
    + change (@F XOps) with (option R). rewrite Sg. auto.
    + destruct T0 as [[T _]|[[T _]|(_ & _ & _ & T)]]; auto; unfold ECOS_DINF, ECOS_OPTIMAL in T; lia.
  - specialize (T10 ltac:(lia)).
    eapply (test_pinf_X P tau (prod_ xe x) Y Z (quot_ s Ge) Ht rt wf St 10).
    + unfold tols. cbn [Z.eqb]. change (@F XOps) with (option R). rewrite Sg. repeat f_equal; eassumption.
    + change (@F XOps) with (option R). rewrite Sg. auto.
    + destruct T10 as [[T _]|[[T _]|(_ & _ & _ & T)]]; auto; unfold ECOS_DINF, ECOS_OPTIMAL in T; lia.
Qed.

(* what such a certificate excludes: feasible points that are not far away *)
Theorem C21_no_feasible_point_nearby P t reltol tau y z xf sf :
  0 < tau -> approx_pinf P t reltol tau y z -> inKd (pb_l P) (pb_q P) (pb_e P) z ->
  primal_feasible P xf sf -> reltol < t * nrm (pb_n P) xf.
Proof.
  intros Ht (A1 & A2) HZ HF.
  pose proof (pinf_bound P xf sf y z HF HZ) as B.
  set (M := Rmax (tau * nrm (pb_p P) y + tau * nrm (pb_m P) z) 1) in *.
  assert (HM: 1 <= M) by apply Rmax_r.
  pose proof (nrm_nonneg (pb_n P) xf) as N.
  set (r := nrm (pb_n P) (fun j => mulvT (pb_p P) (pb_A P) y j + mulvT (pb_m P) (pb_G P) z j)) in *.
  apply Rmult_lt_reg_r with M; [lra|].
  apply Rlt_le_trans with (tau * dobj P y z); [exact A1|].
  apply Rle_trans with (tau * r * nrm (pb_n P) xf).
  - replace (tau * r * nrm (pb_n P) xf) with (tau * (r * nrm (pb_n P) xf)) by ring.
    apply Rmult_le_compat_l; lra.
  - replace (t * nrm (pb_n P) xf * M) with (t * M * nrm (pb_n P) xf) by ring.
    apply Rmult_le_compat_r; lra.
Qed.

(* C22.  ECOS_DINF: (x,s) is an approximate certificate of dual infeasibility. *)
Theorem C22_dual_infeasibility_certificate w w' sig t t' code P A G xe Ae Ge x y z s tau ft at_ rt ft' at' rt' :
  situation w w' sig t t' code P A G xe Ae Ge x y z s tau ft at_ rt ft' at' rt' ->
  let X := prod_ xe x in let S := quot_ s Ge in
  (code = 2%Z -> approx_dinf P ft rt tau X S) /\
  (code = 12%Z -> approx_dinf P ft' rt tau X S).
Proof.
  intros Si X S. split; intros Hc;
  (destruct (cert_core _ _ _ _ _ _ _ _ _ _ _ _ _ _ _ _ _ _ _ _ _ _ _ Si) as (wf & Sg & T0 & T10 & St & C1 & C2 & C3);
    [subst; simpl; tauto|]); destruct Si as [_ _ _ _ [] _ Ht].
  - specialize (T0 ltac:(lia)).
    eapply (test_dinf_X P tau X (prod_ Ae y) (prod_ Ge z) S Ht rt wf St 0).
    + unfold tols. cbn [Z.eqb]. change (@F XOps) with (option R). rewrite Sg. repeat f_equal; eassumption.
    + destruct T0 as [[T _]|[(_ & _ & T)|[T _]]]; auto; unfold ECOS_PINF, ECOS_OPTIMAL in T; lia.
  - specialize (T10 ltac:(lia)).
    eapply (test_dinf_X P tau X (prod_ Ae y) (prod_ Ge z) S Ht rt wf St 10).
    + unfold tols. cbn [Z.eqb]. change (@F XOps) with (option R). rewrite Sg. repeat f_equal; eassumption.
    + destruct T10 as [[T _]|[(_ & _ & T)|[T _]]]; auto; unfold ECOS_PINF, ECOS_OPTIMAL in T; lia.
Qed.

Theorem C22_no_dual_feasible_point_nearby P t reltol tau x s yf zf :
  0 < tau -> approx_dinf P t reltol tau x s -> inK (pb_l P) (pb_q P) (pb_e P) s ->
  dual_feasible P yf zf ->
  reltol * Rmax (tau * nrm (pb_n P) x) 1 <
  t * (Rmax (tau * nrm (pb_n P) x) 1 * nrm (pb_p P) yf
     + Rmax (tau * nrm (pb_n P) x + tau * nrm (pb_m P) s) 1 * nrm (pb_m P) zf).
Proof.
  intros Ht (A1 & A2 & A3) HK HF.
  pose proof (dinf_bound P x s yf zf HF HK) as B.
  pose proof (nrm_nonneg (pb_p P) yf) as N1. pose proof (nrm_nonneg (pb_m P) zf) as N2.
  set (a := nrm (pb_p P) (mulv (pb_n P) (pb_A P) x)) in *.
  set (g := nrm (pb_m P) (fun i => mulv (pb_n P) (pb_G P) x i + s i)) in *.
  apply Rlt_le in A2, A3.
  pose proof (Rmult_le_compat_r _ _ _ N1 A2). pose proof (Rmult_le_compat_r _ _ _ N2 A3).
  nra.
Qed.
End Cert.

(* Examples/RunH.v runs the model on three problems and shows that they are in
   the [situation] with codes 0, 1 and 2 (check_run_spec, ex_opt_ok, ex_pinf_ok,
   ex_dinf_ok). *)
Print Assumptions C20_optimal_certificate.
Print Assumptions C20_suboptimality.
Print Assumptions C21_primal_infeasibility_certificate.
Print Assumptions C21_no_feasible_point_nearby.
Print Assumptions C22_dual_infeasibility_certificate.
Print Assumptions C22_no_dual_feasible_point_nearby.
