(* C45: the point a run starts from.

   The workspace comes out of ECOS_setup and any history of solves and updates; the
   run is the start of ECOS_solve, up to the first pass through the main loop. *)
From Coq Require Import List Arith Bool ZArith QArith Reals Lia Lra.
From Verif Require Import Base Num.
From Verif.Model Require Import Spla Splamm Types Consts Expcone Cone Ldl Kkt Equil Preproc Ecos.
From Verif.Spec Require Import Matrix Fill Conic Exp Jordan KktSpec KktMatrix Shape SetupSpec Refine Direction Start.
From Verif.Proofs Require Import SplaP LoopLib SplammP KktAsm KktMat ConeP ScalP Scal2P ConeR KernR EquilP Work WorkR WorkUpd
  SafeLib SafeK SafeE SafeW SafeV ExitP LoopP SafeU IterP Wlp DirP DirT DirI DirR StartP.
From Verif.Properties Require Import Kkt Sparse Cone Exp Refine Solve Direction.
Import ListNotations.
Open Scope R_scope.

(* no two entries at the same place *)
Definition nodups (w : pwork R) : Prop := nodup (w_G w) /\ match w_A w with Some A => nodup A | None => True end.

(* the KKT matrix of the run with the identity as scaling: the program with delta on
   the diagonal of its first block and -delta on that of its second one *)
Definition start_matrix (w : pwork R) : nat -> nat -> R :=
  kkt_entry (w_n w) (w_p w) (denseA (w_A w)) (dense (w_G w)) (@DELTASTAT ROps) (- @DELTASTAT ROps) (dim_l w) (dim_q w) (unitV (dim_l w) (dim_q w)).
Definition start_size (w : pwork R) : nat := (w_n w + w_p w + (w_m w + 2 * length (dim_q w)))%nat.

(* d is what the run gets for the right-hand side r, M being what it has factored *)
Definition start_solve (w : pwork R) (M : nat -> nat -> R) (r d : triple) : Prop :=
  refined (w_n w) (w_p w) (w_m w) (dim_l w) (dim_q w) (start_matrix w) M (drift0 (dim_l w) (dim_q w) (@DELTASTAT ROps)) (sg_nitref (w_stgs w)) r d.

Lemma scaled_c_ws (L : @lay ROps) lpv soc ex (w : pwork R) (c : arr R) : @ws ROps L lpv soc ex w -> @scaled_c ROps w c -> @ws ROps L lpv soc ex (set_w_c w c).
Proof.
  intros WS Ec.
  destruct (wp_elim _ _ (@scale_loop_full ROps (@ly_n ROps L) (fun v e => v / e) (w_c w) (w_xequil w) (fun d => full d (@ly_n ROps L)) (ws_c _ _ _ _ _ WS) (ws_xe _ _ _ _ _ WS) (fun d _ F => F)))
    as (c' & Ec' & Fc). unfold scaled_c in Ec. pose proof (ws_n _ _ _ _ _ WS) as En. unR. rewrite En in Ec. rewrite Ec in Ec'. injection Ec' as <-.
  clear - WS Fc. destruct WS. constructor; wcbn; assumption.
Qed.

(* Without exponential cones: two systems with one factored matrix give a primal and a
   dual guess; their conic parts are moved into the cone along its unit. *)
Theorem C45_start : forall sig w pp w1, @session ROps w -> nodups w -> 0 <= sg_eps (w_stgs w) -> 0 < sg_delta (w_stgs w) -> dim_e w = 0%nat ->
  @iterates ROps sig w 0 pp w1 ->
  exists M d1 d2 a1 a2,
    pivoted (start_size w) (start_matrix w) (fun i => IZR (ksign (w_n w) (w_p w) (dim_l w) (dim_q w) i)) (sg_eps (w_stgs w)) (sg_delta (w_stgs w)) M /\
    start_solve w M (rhs_primal (prog_of w1)) d1 /\ start_solve w M (rhs_dual (prog_of w1)) d2 /\
    started (prog_of w1) (dim_l w) (dim_q w) d1 d2 a1 a2 (spot_of w1).
Proof.
  intros sig w pp w1 SE (NG & NA) He Hd De IT. destruct (@session_layout ROps _ SE) as (L & H1 & US).
  pose proof US as [(lpv & soc & ex & WS) _]. pose proof (ws_C _ _ _ _ _ WS) as [_ Cl Cq Ce].
  assert (Dl : dim_l w = @ly_l ROps L) by exact Cl. assert (Dq : dim_q w = @ly_q ROps L) by exact Cq. assert (De' : dim_e w = @ly_e ROps L) by exact Ce.
  pose proof (ws_n _ _ _ _ _ WS) as En. pose proof (ws_p _ _ _ _ _ WS) as Ep. pose proof (ws_m _ _ _ _ _ WS) as Em. unR.
  inversion IT as [c w1' Ec Ei|k pp0 w2 pp' w3 w4 w5 HI]; subst; [|pose proof (@iterates_nonneg ROps _ _ _ _ _ HI); lia].
  pose proof (scaled_c_ws L lpv soc ex w c WS Ec) as WSc.
  destruct (init_start L H1 lpv soc ex (set_w_c w c) w1 WSc ltac:(congruence) NG NA He Hd Ei) as (FD & M & d1 & d2 & a1 & a2 & PV & R1 & R2 & ST).
  assert (EP : prog_of w1 = prog_of (set_w_c w c)).
  { unfold fdata in FD. injection FD as F1 F2 F3 F4 F5 F6 F7 F8. unfold prog_of. rewrite F1, F2, F3, F4, F5, F6, F7, F8. reflexivity. }
  exists M, d1, d2, a1, a2. unfold start_solve, start_matrix, start_size. rewrite EP, Dl, Dq, En, Ep, Em.
  split; [|split; [exact R1|split; [exact R2|exact ST]]].
  assert (EN : (@ly_n ROps L + @ly_p ROps L + (@ly_m ROps L + 2 * length (@ly_q ROps L)))%nat = @ly_nK ROps L) by (unfold ly_nK, ly_mt; lia).
  rewrite EN. exact PV.
Qed.
Print Assumptions C45_start.

(* What is left of the equations at the starting point: the misses of the two solves,
   and multiples of the unit of the cone.  With u = (x, y, z, s, 1, 1):
     A x - b             = miss in A x = b
     G x + s - h         = miss in G x - z1 = h, + a1 e
     A'y + G'z + c       = miss in A'y + G'z2 = -c, + a2 G'e
   and s and z are in the interior of the cone. *)
Theorem C45_residuals : forall sig w pp w1, @session ROps w -> nodups w -> 0 <= sg_eps (w_stgs w) -> 0 < sg_delta (w_stgs w) -> dim_e w = 0%nat ->
  @iterates ROps sig w 0 pp w1 ->
  let P := prog_of w1 in let u := spot_of w1 in let e i := if unit_at (dim_l w) (dim_q w) i then 1 else 0 in
  exists M d1 d2 a1 a2, start_solve w M (rhs_primal P) d1 /\ start_solve w M (rhs_dual P) d2 /\ 1 / 100 <= a1 /\ 1 / 100 <= a2 /\
    (forall i, mulv (g_n P) (g_A P) (t_x u) i - g_b P i = miss_y P d1 (rhs_primal P) i) /\
    (forall i, (i < g_m P)%nat -> mulv (g_n P) (g_G P) (t_x u) i + t_s u i - g_h P i = miss_z P (fun z => z) d1 (rhs_primal P) i + a1 * e i) /\
    (forall j, mulvT (g_p P) (g_A P) (t_y u) j + mulvT (g_m P) (g_G P) (t_z u) j + g_c P j = miss_x P d2 (rhs_dual P) j + a2 * mulvT (g_m P) (g_G P) e j) /\
    int_K (dim_l w) (dim_q w) (t_s u) /\ int_K (dim_l w) (dim_q w) (t_z u) /\ t_tau u = 1 /\ t_kap u = 1.
Proof.
  intros sig w pp w1 SE ND He Hd De IT P u e. destruct (C45_start sig w pp w1 SE ND He Hd De IT) as (M & d1 & d2 & a1 & a2 & _ & R1 & R2 & ST).
  destruct (@session_layout ROps _ SE) as (L & H1 & US). destruct (@iterates_ok ROps L H1 _ _ _ _ _ US IT) as (LO & _). destruct LO as [(lpv1 & soc1 & ex1 & WS1) _ _ _ _].
  pose proof US as [(lpv & soc & ex & WS) _]. pose proof (ws_C _ _ _ _ _ WS) as [_ Cl Cq Ce]. pose proof (ws_m _ _ _ _ _ WS1) as Em.
  assert (Dl : dim_l w = @ly_l ROps L) by exact Cl. assert (Dq : dim_q w = @ly_q ROps L) by exact Cq. assert (De' : dim_e w = @ly_e ROps L) by exact Ce.
  assert (EM : g_m P = (dim_l w + list_sum (dim_q w))%nat).
  { unfold P. cbn [prog_of g_m]. unR. rewrite Em, Dl, Dq. rewrite De in De'. unfold ly_m. rewrite <- De'. lia. }
  assert (Hq : forall d, In d (dim_q w) -> (1 <= d)%nat) by (rewrite Dq; exact H1).
  destruct (started_hom _ _ _ _ _ _ _ _ ST EM) as (HY & HZ & HX). destruct (pushed_inside _ _ _ _ _ Hq (sd_s _ _ _ _ _ _ _ _ ST)) as (A1 & I1). destruct (pushed_inside _ _ _ _ _ Hq (sd_z _ _ _ _ _ _ _ _ ST)) as (A2 & I2).
  pose proof (sd_tau _ _ _ _ _ _ _ _ ST) as T. pose proof (sd_kap _ _ _ _ _ _ _ _ ST) as K.
  exists M, d1, d2, a1, a2. csplit; auto; fold P u in HX, HY, HZ, T; unfold hom_x, hom_y, hom_z in HX, HY, HZ; rewrite T in HX, HY, HZ.
  - intros i. rewrite <- HY. ring.
  - intros i Hi. fold e. rewrite <- HZ by auto. ring.
  - intros j. specialize (HX j). fold e in HX |- *. lra.
Qed.
Print Assumptions C45_residuals.

(* The two systems without regularisation: h - G x is as short as A x = b allows, and
   z as short as A'y + G'z = -c allows. *)
Theorem C45_least : forall P d1 d2, solves_id P (rhs_primal P) d1 -> solves_id P (rhs_dual P) d2 ->
  (forall i, (i < g_m P)%nat -> - q_z d1 i = g_h P i - mulv (g_n P) (g_G P) (q_x d1) i) /\
  (forall x, (forall i, (i < g_p P)%nat -> mulv (g_n P) (g_A P) x i = g_b P i) ->
    nrm (g_m P) (fun i => g_h P i - mulv (g_n P) (g_G P) (q_x d1) i) <= nrm (g_m P) (fun i => g_h P i - mulv (g_n P) (g_G P) x i)) /\
  (forall y z, (forall j, (j < g_n P)%nat -> mulvT (g_p P) (g_A P) y j + mulvT (g_m P) (g_G P) z j = - g_c P j) -> nrm (g_m P) (q_z d2) <= nrm (g_m P) z).
Proof.
  intros P d1 d2 S1 S2. destruct (least_primal P d1 S1) as (A & _ & B). destruct (least_dual P d2 S2) as (_ & D). auto.
Qed.
Print Assumptions C45_least.

(* With exponential cones: x = 0, y = 0 and s = z, the unit of the orthant and of the
   second-order cones, and one ray of the exponential cone, which is also inside the
   dual of that cone. *)
Theorem C45_unit : forall sig w pp w1, @session ROps w -> dim_e w <> 0%nat -> @iterates ROps sig w 0 pp w1 ->
  unit_started (prog_of w1) (dim_l w) (dim_q w) (spot_of w1).
Proof.
  intros sig w pp w1 SE De IT. destruct (@session_layout ROps _ SE) as (L & H1 & US).
  pose proof US as [(lpv & soc & ex & WS) _]. pose proof (ws_C _ _ _ _ _ WS) as [_ Cl Cq Ce].
  assert (Dl : dim_l w = @ly_l ROps L) by exact Cl. assert (Dq : dim_q w = @ly_q ROps L) by exact Cq. assert (De' : dim_e w = @ly_e ROps L) by exact Ce.
  inversion IT as [c w1' Ec Ei|k pp0 w2 pp' w3 w4 w5 HI]; subst; [|pose proof (@iterates_nonneg ROps _ _ _ _ _ HI); lia].
  destruct (init_unit_start L lpv soc ex (set_w_c w c) w1 (scaled_c_ws L lpv soc ex w c WS Ec) ltac:(congruence) Ei) as (FD & ST).
  assert (EP : prog_of w1 = prog_of (set_w_c w c)).
  { unfold fdata in FD. injection FD as F1 F2 F3 F4 F5 F6 F7 F8. unfold prog_of. rewrite F1, F2, F3, F4, F5, F6, F7, F8. reflexivity. }
  rewrite EP, Dl, Dq. exact ST.
Qed.
Print Assumptions C45_unit.

Theorem C45_ray : int_exp ray /\ int_expd ray.
Proof.
  assert (X : forall j, (j < 3)%nat -> ray j = @list_fun ROps (@expray ROps) j).
  { intros j Hj. unfold list_fun, expray. destruct j as [|[|[|j]]]; [| | |lia]; cbn [nth ray fconst ROps]; unR; unfold Q2R; cbn [QArith_base.Qnum QArith_base.Qden]; lra. }
  destruct expray_int as [I1 I2]. unfold int_exp, int_expd in *. rewrite !X by lia. auto.
Qed.
Print Assumptions C45_ray.

(* both kinds of run exist *)
Theorem C45_example : forall junk : pwork R, exists w w1 : pwork R, @session ROps w /\ nodups w /\ 0 <= sg_eps (w_stgs w) /\ 0 < sg_delta (w_stgs w) /\
  dim_e w = 0%nat /\ dim_l w = 1%nat /\ dim_q w = [3%nat; 3%nat] /\ exists pp, @iterates ROps (fun _ => false) w 0 pp w1.
Proof.
  intros junk. destruct (exD_setup junk) as [w Ea].
  destruct (@setup_inv ROps _ _ _ _ _ _ _ _ _ _ _ _ _ _ exD_valid natural_ok Ea) as (L & En & Ep & El & Eq & Ee & Em & (WSa & NBa & SGa) & SG & SA).
  assert (SE : @session ROps w) by (eapply (@ss_setup ROps); [apply exD_valid|apply natural_ok|exact Ea]).
  assert (H1 : forall d, In d (@ly_q ROps L) -> (1 <= d)%nat) by (rewrite Eq; intros d [<-|[<-|[]]]; lia).
  assert (US : @usable ROps L w) by (split; [eexists _, _, _; exact WSa|intros HB; exfalso; apply HB; exact NBa]).
  destruct (@init_exists ROps L H1 w US) as (c & w1 & Ec & Ei). exists w, w1. split; [exact SE|].
  pose proof (ws_C _ _ _ _ _ WSa) as [_ Cl Cq Ce].
  split; [split; [exact (same_nodup _ _ SG exG_nodup)|exact (same_nodupA _ _ SA exA_nodup)]|].
  split. { unR. rewrite SGa. cbn. unfold Q2R. cbn. lra. }
  split. { unR. rewrite SGa. cbn. unfold Q2R. cbn. lra. }
  split; [rewrite <- Ee; exact Ce|]. split; [rewrite <- El; exact Cl|]. split; [rewrite <- Eq; exact Cq|].
  exists (@fnan ROps). exact (@it_start ROps _ w c w1 Ec Ei).
Qed.
Print Assumptions C45_example.

Theorem C45_example_exp : forall junk : pwork R, exists w w1 : pwork R, @session ROps w /\ dim_e w = 1%nat /\ dim_l w = 1%nat /\ dim_q w = [3%nat] /\
  exists pp, @iterates ROps (fun _ => false) w 0 pp w1.
Proof.
  intros junk. destruct (exG_setup junk) as [w Ea].
  destruct (@setup_inv ROps _ _ _ _ _ _ _ _ _ _ _ _ _ _ exG_valid natural_ok Ea) as (L & En & Ep & El & Eq & Ee & Em & (WSa & NBa & SGa) & _).
  assert (SE : @session ROps w) by (eapply (@ss_setup ROps); [apply exG_valid|apply natural_ok|exact Ea]).
  assert (H1 : forall d, In d (@ly_q ROps L) -> (1 <= d)%nat) by (rewrite Eq; intros d [<-|[]]; lia).
  assert (US : @usable ROps L w) by (split; [eexists _, _, _; exact WSa|intros HB; exfalso; apply HB; exact NBa]).
  destruct (@init_exists ROps L H1 w US) as (c & w1 & Ec & Ei). exists w, w1. split; [exact SE|].
  pose proof (ws_C _ _ _ _ _ WSa) as [_ Cl Cq Ce].
  split; [rewrite <- Ee; exact Ce|]. split; [rewrite <- El; exact Cl|]. split; [rewrite <- Eq; exact Cq|].
  exists (@fnan ROps). exact (@it_start ROps _ w c w1 Ec Ei).
Qed.
Print Assumptions C45_example_exp.

(* minimise x subject to x + s = 2, s >= 0 *)
Theorem C45_least_example : exists P d1 d2, solves_id P (rhs_primal P) d1 /\ solves_id P (rhs_dual P) d2 /\ g_m P = 1%nat /\ q_x d1 0%nat = 2 /\ q_z d2 0%nat = -1.
Proof.
  exists (mkProg 1 0 1 (fun _ _ => 0) (fun _ _ => 1) (fun _ => 1) (fun _ => 0) (fun _ => 2)), (mkTriple (fun _ => 2) (fun _ => 0) (fun _ => 0)), (mkTriple (fun _ => -1) (fun _ => 0) (fun _ => -1)).
  split; [|split; [|cbn; auto]]; constructor; intros i Hi; cbn in Hi; try lia; unfold miss_x, miss_z, mulv, mulvT; cbn; ring.
Qed.
