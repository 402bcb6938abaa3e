(* C38: the search direction, its step and what they do to the residuals.

   The workspace comes out of ECOS_setup and any history of solves and updates; the
   pass starts in any state of the main loop, at any point at which the scaling
   does not touch its guards. *)
From Coq Require Import List Arith Bool ZArith QArith Reals Lia Lra.
From Verif Require Import Base Num.
From Verif.Model Require Import Spla Splamm Types Consts Expcone Cone Ldl Kkt Equil Preproc Ecos.
From Verif.Spec Require Import Matrix Fill Conic Exp Jordan KktSpec KktMatrix Shape SetupSpec Direction.
From Verif.Proofs Require Import SplaP LoopLib SplammP LdlSym LdlNum KktAsm KktMat ConeP ScalP Scal2P RotP ConeR NtR LineP KktUpd Layout EquilP Work WorkUpd
  SafeLib Stretch SafeK KktErr SafeE SafeW SafeV ExitP LoopP SafeU IterP Wlp DirP DirT DirI ExpP DirR DirS DirG.
From Verif.Properties Require Import Kkt Sparse Cone Exp Solve.
Import ListNotations.
Open Scope R_scope.

(* w1 is w0 with its point replaced by any other one *)
Definition placed (w0 w1 : pwork R) : Prop :=
  exists x y z s kap tau, length x = w_n w0 /\ length y = w_p w0 /\ length z = w_m w0 /\ length s = w_m w0 /\
    w1 = set_w_tau (set_w_kap (set_w_s (set_w_z (set_w_y (set_w_x w0 (arr_of x)) (arr_of y)) (arr_of z)) (arr_of s)) kap) tau.

(* one pass through the main loop of a run on w, from the point of w1 to the point of
   w4; the point is any point, or the one the run itself has reached *)
Definition one_pass (w w1 w4 : pwork R) : Prop :=
  exists sig k pp w0 pp' w2 w3, @iterates ROps sig w k pp w0 /\ (w1 = w0 \/ placed w0 w1) /\
    @iter_exit ROps (sig k) pp (@set_info ROps w1 (fun i => set_st_iter i k)) = Some (VGo, pp', w2) /\
    @iter_save ROps w2 = Some w3 /\ @iter_step ROps w3 = Some (VGo, w4).

(* dimensions of the cone *)
Definition dim_l (w : pwork R) : nat := @lpp ROps (w_C w).
Definition dim_q (w : pwork R) : list nat := map so_p (co_soc (w_C w)).
Definition dim_e (w : pwork R) : nat := @nexc ROps (w_C w).

(* d is what the solver of KKT systems returns for the right-hand side r, with the
   factorization and the scaling that w holds.  r is laid out in the order of the
   factorization, with zeros in the two rows added for every second-order cone;
   C38_newton's misses compare d with the system without these rows. *)
Definition answers (w : pwork R) (r d : triple) : Prop :=
  exists (K0 : kkt R) (C0 : cone R) (R0 x0 y0 z0 x y z : arr R) K1 it,
    @kcore ROps K0 = @kcore ROps (w_KKT w) /\
    co_lpc C0 = co_lpc (w_C w) /\ co_soc C0 = co_soc (w_C w) /\ map ex_v (co_expc C0) = map ex_v (co_expc (w_C w)) /\
    (let at_row i := get R0 (gd O (kk_Pinv (w_KKT w)) i) in
     (forall i, (i < w_n w)%nat -> at_row i = Some (q_x r i)) /\
     (forall i, (i < w_p w)%nat -> at_row (w_n w + i)%nat = Some (q_y r i)) /\
     (forall t, (t < w_m w + 2 * length (dim_q w))%nat ->
        at_row (w_n w + w_p w + t)%nat = Some (match unz (dim_l w) (dim_q w) t with Some j => q_z r j | None => 0 end))) /\
    @kkt_solve ROps K0 (w_A w) (w_G w) R0 x0 y0 z0 (w_n w) (w_p w) (w_m w) C0 false (sg_nitref (w_stgs w)) = Some (it, K1, x, y, z) /\
    (forall i, q_x d i = gd 0 x i) /\ (forall i, q_y d i = gd 0 y i) /\ (forall i, q_z d i = gd 0 z i).

Lemma arr_full {T} (l : list T) n : length l = n -> full (arr_of l) n.
Proof.
  intros E i Hi. destruct (nth_error l i) as [v|] eqn:En; [|apply nth_error_None in En; lia]. exists v. unfold get, arr_of. rewrite nth_error_map, En. reflexivity.
Qed.

Lemma placed_looping (L : @lay ROps) (w w0 w1 : pwork R) : @looping ROps L w w0 -> w1 = w0 \/ placed w0 w1 ->
  @looping ROps L w w1 /\ w_best w1 = w_best w0 /\ w_KKT w1 = w_KKT w0 /\ @pdata ROps w1 = @pdata ROps w0.
Proof.
  intros LO [->|(x & y & z & s & kap & tau & Lx & Ly & Lz & Ls & ->)]; [auto|]. split; [|repeat split].
  destruct LO as [(lpv & soc & ex & WS) PT BO RH SG]. unR.
  assert (LA : forall l : list R, length (arr_of l) = length l) by (intros; unfold arr_of; apply map_length).
  constructor; auto.
  - exists lpv, soc, ex. destruct WS. constructor; wcbn; auto; rewrite LA; unR; lia.
  - destruct WS. constructor; wcbn; apply arr_full; unR; lia.
Qed.

Lemma sigma_range a : 1 / 10000 <= @sigma_of ROps a <= 1.
Proof.
  unfold sigma_of. cbv zeta. set (s := @fmul ROps _ _). clearbody s. unfold SIGMAMIN, SIGMAMAX. cbn [flt ROps fconst]. change (@F ROps) with R in *.
  unfold Q2R. cbn [QArith_base.Qnum QArith_base.Qden]. unfold Rltb.
  repeat match goal with |- context [if (if ?d then true else false) then _ else _] => destruct d end; lra.
Qed.

Lemma prob_prog (w w' : pwork R) : @prob_of ROps w' = @prob_of ROps w -> prog_of w' = prog_of w /\ w_D w' = w_D w.
Proof. unfold prob_of. intros E. injection E as A1 A2 A3 A4 A5 A6 A7 A8 A9 _ _ _ _ _ _ _ _ _ _. unfold prog_of. rewrite A1, A2, A3, A5, A6, A7, A8, A9. auto. Qed.
Lemma point_spot (w w' : pwork R) : @point_of ROps w' = @point_of ROps w -> spot_of w' = spot_of w.
Proof. unfold point_of. intros E. injection E as A1 A2 A3 A4 A5 A6. unfold spot_of. rewrite A1, A2, A3, A4, A5, A6. reflexivity. Qed.

Lemma rhs_rows (L : @lay ROps) (R0 : arr R) Pinv r : vec Pinv (@ly_nK ROps L) (@ly_pf ROps L) -> @rhs_is ROps L R0 (q_x r) (q_y r) (q_z r) ->
  let at_row i := get R0 (gd O Pinv i) in
  (forall i, (i < @ly_n ROps L)%nat -> at_row i = Some (q_x r i)) /\
  (forall i, (i < @ly_p ROps L)%nat -> at_row (@ly_n ROps L + i)%nat = Some (q_y r i)) /\
  (forall t, (t < @ly_m ROps L + 2 * length (@ly_q ROps L))%nat ->
     at_row (@ly_n ROps L + @ly_p ROps L + t)%nat = Some (match unz (@ly_l ROps L) (@ly_q ROps L) t with Some j => q_z r j | None => 0 end)).
Proof.
  intros VP (A & B & D) at_row. assert (P : forall i, (i < @ly_nK ROps L)%nat -> gd O Pinv i = @ly_pf ROps L i) by (intros i Hi; apply gd_get; auto).
  assert (EN : @ly_nK ROps L = (@ly_n ROps L + @ly_p ROps L + (@ly_m ROps L + 2 * length (@ly_q ROps L)))%nat) by (unfold ly_nK, ly_mt; lia).
  unfold at_row. split; [|split]; intros i Hi; rewrite P by lia.
  - apply A; auto.
  - apply B; auto.
  - etransitivity; [exact (D i Hi)|]. f_equal. unfold stretch. change (@F ROps) with R. destruct (unz _ _ i); [reflexivity|]. apply f0_R.
Qed.

Lemma is_jprod_res' l q u v r r' : (forall i, r i = r' i) -> is_jprod l q u v r -> is_jprod l q u v r'.
Proof. intros E [A B]. constructor; [intros i Hi; rewrite <- E; auto|]. intros k pp i HI Hi. rewrite <- (B k pp i HI Hi). unfold from. symmetry. apply E. Qed.

Lemma pass_newton (w w1 w4 : pwork R) : @session ROps w -> one_pass w w1 w4 ->
  margin EPSR (dim_l w) (dim_q w) (gd 0 (w_s w1)) (gd 0 (w_z w1)) -> apart EPSR (dim_l w) (dim_q w) (gd 0 (w_s w1)) (gd 0 (w_z w1)) -> w_tau w1 <> 0 ->
  exists V g d1 d2 d, 1 / 10000 <= st_sigma (w_info w4) <= 1 /\
    predictor_corrector (prog_of w1) (dim_l w) (dim_q w) (dim_e w) (w_D w1) (answers w4) (st_sigma (w_info w4)) (st_step (w_info w4)) V g d1 d2
      (spot_of w1) d (spot_of w4).
Proof.
  intros SE (sig & k & pp & w0 & pp' & w2 & w3 & IT & PL & E1 & E2 & E3) MG AP T0.
  destruct (@session_layout ROps _ SE) as (L & H1 & US).
  pose proof US as [(lpw & socw & exw & WSw) _]. destruct (ws_C _ _ _ _ _ WSw) as [_ Cl Cq Ce].
  assert (Dl : dim_l w = @ly_l ROps L) by exact Cl. assert (Dq : dim_q w = @ly_q ROps L) by exact Cq. assert (De : dim_e w = @ly_e ROps L) by exact Ce.
  rewrite Dl, Dq, De in *. clear Cl Cq Ce WSw.
  destruct (@iterates_ok ROps L H1 _ _ _ _ _ US IT) as (LO0 & Hk & NB0).
  pose proof (@iterates_const ROps L H1 _ _ _ _ _ US IT) as CR0.
  destruct (placed_looping L w w0 w1 LO0 PL) as (LO & EB & EK1 & PD).
  assert (CR : @const_rhs ROps L w1) by (apply (@const_kept ROps L w0 w1); [exact (f_equal kk_RHS1 EK1)|exact PD|exact CR0]).
  assert (NB : w_best w1 = None -> k = 0%Z) by (rewrite EB; exact NB0).
  destruct (@pass_ok ROps L sig w k pp w1 pp' w2 w3 LO NB E1 E2) as (lpv & soc & ex & WS & PT & RE & BO & WB & RH & SG & EC & EK & EP).
  destruct LO as [(lpv1 & soc1 & ex1 & WS1) PT1 _ _ _].
  destruct (pass_R L lpv1 soc1 ex1 (sig k) pp k w1 pp' w2 w3 WS1 PT1 E1 E2) as (RA & MU).
  destruct (@iter_step_trace ROps L H1 lpv soc ex w3 w4 WS PT RE RH E3) as (t & T).
  apply iter_exit_frame in E1 as (P1 & _). apply iter_save_frame in E2 as (P2 & _).
  assert (P31 : @prob_of ROps w3 = @prob_of ROps w1) by (rewrite P2, P1; reflexivity).
  destruct (prob_prog _ _ P31) as (EPr & ED). pose proof (point_spot _ _ EP) as ES.
  assert (ES' : gd 0 (w_s w3) = gd 0 (w_s w1)) by (exact (f_equal t_s ES)). assert (EZ' : gd 0 (w_z w3) = gd 0 (w_z w1)) by (exact (f_equal t_z ES)).
  assert (ET' : w_tau w3 = w_tau w1) by (exact (f_equal t_tau ES)). assert (EKp : w_kap w3 = w_kap w1) by (exact (f_equal t_kap ES)).
  assert (RA3 : resid_at L w3 (spot_of w3) w3).
  { rewrite ES. destruct RA as [A1 A2 A3 A4]. constructor; rewrite EPr; auto. }
  assert (MG3 : margin EPSR (@ly_l ROps L) (@ly_q ROps L) (gd 0 (w_s w3)) (gd 0 (w_z w3))) by (rewrite ES', EZ'; exact MG).
  assert (AP3 : apart EPSR (@ly_l ROps L) (@ly_q ROps L) (gd 0 (w_s w3)) (gd 0 (w_z w3))) by (rewrite ES', EZ'; exact AP).
  destruct (traced_R L lpv soc ex w3 w4 t WS PT RA3 ltac:(rewrite ET'; exact T0) MG3 T) as (da & d & u & p1 & p2 & DR).
  destruct (traced_scaled L lpv soc ex w3 _ _ _ WS PT MG3 (tr_scal _ _ _ _ T)) as (_ & SR).
  pose proof (inner_of L w3 (tc_C t) (tc_la t) SR MG3 AP3) as INR.
  destruct (tr_step _ _ _ _ T) as (Ea & Es & _ & ECc). pose proof (tr_prob _ _ _ _ T) as P43.
  assert (MU3 : st_mu (w_info w3) = mean (prog_of w1) (w_D w1) (spot_of w1)) by (rewrite MU; reflexivity).
  unR. rewrite <- Es, <- Ea.
  destruct (prob_prog _ _ P43) as (EPr4 & _). assert (EPr41 : prog_of w4 = prog_of w1) by congruence.
  assert (SV : forall R0 r (x y z : arr R) C0, co_lpc C0 = co_lpc (w_C w4) -> co_soc C0 = co_soc (w_C w4) -> map ex_v (co_expc C0) = map ex_v (co_expc (w_C w4)) ->
     @rhs_is ROps L R0 (q_x r) (q_y r) (q_z r) -> @solves ROps w3 (tc_K t) C0 R0 x y z -> answers w4 r (tri x y z)).
  { intros R0 r x y z C0 Q1 Q2 Q3 RI (K0 & it & K' & x0 & y0 & z0 & KC & KS).
    exists K0, C0, R0, x0, y0, z0, x, y, z, K', it. split; [rewrite KC; symmetry; exact (tr_core _ _ _ _ T)|]. split; [exact Q1|]. split; [exact Q2|]. split; [exact Q3|]. split.
    - assert (EPv : kk_Pinv (w_KKT w4) = kk_Pinv (w_KKT w3)).
      { pose proof (tr_core _ _ _ _ T) as Q. unfold kcore in Q. injection Q. intros _ _ X _ _ _ _. rewrite X. exact (tr_pinv _ _ _ _ T). }
      rewrite EPv.
      assert (En : w_n w4 = @ly_n ROps L) by (rewrite <- (ws_n _ _ _ _ _ WS); exact (f_equal g_n EPr4)).
      assert (Ep : w_p w4 = @ly_p ROps L) by (rewrite <- (ws_p _ _ _ _ _ WS); exact (f_equal g_p EPr4)).
      assert (Em : w_m w4 = @ly_m ROps L) by (rewrite <- (ws_m _ _ _ _ _ WS); exact (f_equal g_m EPr4)).
      assert (Dl4 : dim_l w4 = @ly_l ROps L).
      { unfold dim_l. rewrite <- ECc. destruct (tr_conic _ _ _ _ T) as (? & ? & ? & ? & ? & ? & ? & ? & ? & l' & _ & _ & _ & _ & _ & _ & -> & _). exact (co_l _ _ _ _ (dr_cone _ _ _ _ _ _ _ _ _ DR)). }
      assert (Dq4 : dim_q w4 = @ly_q ROps L).
      { unfold dim_q. rewrite <- ECc. destruct (tr_conic _ _ _ _ T) as (? & ? & ? & ? & ? & ? & ? & ? & ? & l' & _ & _ & _ & _ & _ & _ & -> & _). exact (co_q _ _ _ _ (dr_cone _ _ _ _ _ _ _ _ _ DR)). }
      rewrite En, Ep, Em, Dl4, Dq4. exact (rhs_rows L R0 _ r (kw_Pinv _ _ _ _ _ (ws_K _ _ _ _ _ WS)) RI).
    - unfold prob_of in P43. injection P43 as B1 B2 B3 B4 B5 B6 B7 B8 B9 B10 B11 B12 B13 _ _ _ _ _ _. rewrite B1, B2, B3, B5, B6, B13. split; [exact KS|]. repeat split. }
  destruct (tr_conic _ _ _ _ T) as (ca & cb & k1 & k2 & c1 & c2 & c4 & c5 & cg & l' & _ & _ & _ & _ & _ & _ & Q7 & Q8 & _).
  assert (SC1 : co_lpc (tc_C t) = co_lpc (w_C w4) /\ co_soc (tc_C t) = co_soc (w_C w4) /\ map ex_v (co_expc (tc_C t)) = map ex_v (co_expc (w_C w4))).
  { rewrite <- ECc, Q7. cbn [co_lpc co_soc co_expc set_co_expc]. split; [reflexivity|]. split; [reflexivity|]. symmetry. exact Q8. }
  destruct SC1 as (S1 & S2 & S3).
  destruct DR as [DG DH DC DU DM DRa DRc DDa (dsf & DD) DAF DNW DP1 DP2 DUU DX DY DZ DS DT DK]. unR.
  rewrite ES in *. rewrite EPr in *. rewrite ES', EZ' in *. rewrite MU3, ET', EKp in *.
  exists (Vop (tc_C t)), (Gop (tc_C t) u (gd 0 (w_s w1)) (tc_sigma t * mean (prog_of w1) (w_D w1) (spot_of w1))), (tri (tc_x1 t) (tc_y1 t) (tc_z1 t)), (tri (tc_xc t) (tc_yc t) (tc_zc t)), d.
  split. { destruct (tr_sigma _ _ _ _ T) as (a0 & EQ). rewrite EQ. apply sigma_range. }
  exists (Wop (tc_C t)), (Wiop (tc_C t)), (tri (tc_xa t) (tc_ya t) (tc_za t)), da, u, p1, p2.
  assert (En : g_n (prog_of w1) = @ly_n ROps L) by (exact (ws_n _ _ _ _ _ WS1)). assert (Ep : g_p (prog_of w1) = @ly_p ROps L) by (exact (ws_p _ _ _ _ _ WS1)).
  assert (Em : g_m (prog_of w1) = @ly_m ROps L) by (exact (ws_m _ _ _ _ _ WS1)).
  split. { pose proof (Wop_scaling (tc_C t) DG) as SCa. pose proof (co_l _ _ _ _ DC) as X1. pose proof (co_q _ _ _ _ DC) as X2. unR. rewrite DH, X1, X2 in SCa. exact SCa. }
  split. { intros i Hi. apply DM. rewrite DH. exact Hi. }
  split. { exact (Vop_metric (tc_C t) _ _ _ _ _ _ DC DH DU). }
  split.
  { apply (SV (kk_RHS1 (tc_K t)) _ _ _ _ (tc_C t)); auto; [|exact (tr_s1 _ _ _ _ T)].
    pose proof (tr_rhs1 _ _ _ _ T) as X. unR. rewrite X, EK. unfold const_rhs in CR. rewrite f0_R in CR. exact CR. }
  split. { apply (SV (tc_Ra t) _ _ _ _ (tc_C t)); auto. exact (tr_sa _ _ _ _ T). }
  split; [exact DAF|]. split; [exact DP1|]. split; [exact DP2|].
  split. { specialize (DUU INR). eapply is_jprod_res'; [|exact DUU]. intros i. cbv beta. destruct (unit_at _ _ i); ring. }
  split. { exact (Gop_force (tc_C t) _ _ _ _ _ _ DC DH DU _ u). }
  split. { apply (SV (tc_Rc t) _ _ _ _ (tc_Cc t)); auto; [rewrite ECc; reflexivity|rewrite ECc; reflexivity|rewrite ECc; reflexivity|exact (tr_sc _ _ _ _ T)]. }
  split; [exact DNW|]. split.
  { constructor; rewrite ?En, ?Ep, ?Em; auto. }
  intros EI MP x. rewrite Em. pose proof (Vop_psd (tc_C t) _ _ _ _ _ _ DG DC DH DU x EI MP) as VP.
  replace (@ly_m ROps L) with (@ly_l ROps L + list_sum (@ly_q ROps L) + 3 * @ly_e ROps L)%nat; [exact VP|]. unfold ly_m. lia.
Qed.

(* A pass of the main loop is a step of Mehrotra's predictor-corrector method: it
   moves along the direction assembled from two answers of the linear solver, with
   the Nesterov-Todd scaling of the point, a centering parameter in [1e-4, 1] and
   the step length it reports. *)
Theorem C38_newton : forall w w1 w4 : pwork R, @session ROps w -> one_pass w w1 w4 ->
  margin EPSR (dim_l w) (dim_q w) (gd 0 (w_s w1)) (gd 0 (w_z w1)) -> apart EPSR (dim_l w) (dim_q w) (gd 0 (w_s w1)) (gd 0 (w_z w1)) -> w_tau w1 <> 0 ->
  exists V g d1 d2 d, 1 / 10000 <= st_sigma (w_info w4) <= 1 /\
    predictor_corrector (prog_of w1) (dim_l w) (dim_q w) (dim_e w) (w_D w1) (answers w4) (st_sigma (w_info w4)) (st_step (w_info w4)) V g d1 d2
      (spot_of w1) d (spot_of w4).
Proof. exact pass_newton. Qed.
Print Assumptions C38_newton.

(* What the step does to the residuals of the embedding, in terms of how far the
   two answers of the linear solver miss their right-hand sides. *)
Theorem C38_residuals : forall w w1 w4 : pwork R, @session ROps w -> one_pass w w1 w4 ->
  margin EPSR (dim_l w) (dim_q w) (gd 0 (w_s w1)) (gd 0 (w_z w1)) -> apart EPSR (dim_l w) (dim_q w) (gd 0 (w_s w1)) (gd 0 (w_z w1)) -> w_tau w1 <> 0 ->
  let P := prog_of w1 in let u := spot_of w1 in let u' := spot_of w4 in
  let sigma := st_sigma (w_info w4) in let a := st_step (w_info w4) in
  exists V g d1 d2 d, predictor_corrector P (dim_l w) (dim_q w) (dim_e w) (w_D w1) (answers w4) sigma a V g d1 d2 u d u' /\
    (pivot P u d1 <> 0 ->
       let r := rhs_newton P sigma u g in let c := rhs_const P in let dt := t_tau d in
       (forall j, (j < w_n w1)%nat -> hom_x P u' j = (1 - a * (1 - sigma)) * hom_x P u j - a * (miss_x P d2 r j + dt * miss_x P d1 c j)) /\
       (forall i, (i < w_p w1)%nat -> hom_y P u' i = (1 - a * (1 - sigma)) * hom_y P u i + a * (miss_y P d2 r i + dt * miss_y P d1 c i)) /\
       (forall i, (i < w_m w1)%nat -> hom_z P u' i = (1 - a * (1 - sigma)) * hom_z P u i + a * (miss_z P V d2 r i + dt * miss_z P V d1 c i)) /\
       hom_t P u' = (1 - a * (1 - sigma)) * hom_t P u).
Proof.
  intros w w1 w4 SE OP MG AP T0 P u u' sigma a. destruct (pass_newton w w1 w4 SE OP MG AP T0) as (V & g & d1 & d2 & d & _ & PC).
  exists V, g, d1, d2, d. split; [exact PC|]. intros PV r c dt.
  destruct PC as (W & Wi & d2a & da & v & p1 & p2 & _ & _ & _ & _ & _ & _ & _ & _ & _ & _ & _ & NW & SS & _). specialize (NW PV).
  destruct (same_hom _ _ _ SS) as (HX & HY & HZ & HT). subst P u u' sigma a r c dt. split; [|split; [|split]].
  - intros j Hj. rewrite HX. exact (step_x _ V _ _ _ _ d g d1 d2 NW j Hj).
  - intros j Hj. rewrite HY. exact (step_y _ V _ _ _ _ d g d1 d2 NW j Hj).
  - intros j Hj. rewrite HZ by exact Hj. exact (step_z _ V _ _ _ _ d g d1 d2 NW j Hj).
  - rewrite HT. exact (step_t _ V _ _ _ _ d g d1 d2 NW).
Qed.
Print Assumptions C38_residuals.

(* So if the linear systems are solved exactly, a step of length a with centering
   sigma multiplies every residual by 1 - a (1 - sigma). *)
Theorem C38_exact : forall w w1 w4 : pwork R, @session ROps w -> one_pass w w1 w4 ->
  margin EPSR (dim_l w) (dim_q w) (gd 0 (w_s w1)) (gd 0 (w_z w1)) -> apart EPSR (dim_l w) (dim_q w) (gd 0 (w_s w1)) (gd 0 (w_z w1)) ->
  exp_inside (dim_l w) (dim_q w) (dim_e w) (gd 0 (w_z w1)) -> 0 < w_tau w1 -> 0 < w_kap w1 -> 0 <= mean (prog_of w1) (w_D w1) (spot_of w1) ->
  let P := prog_of w1 in let sigma := st_sigma (w_info w4) in let a := st_step (w_info w4) in
  exists V g d1 d2 d, predictor_corrector P (dim_l w) (dim_q w) (dim_e w) (w_D w1) (answers w4) sigma a V g d1 d2 (spot_of w1) d (spot_of w4) /\
    (exact P V d1 (rhs_const P) -> exact P V d2 (rhs_newton P sigma (spot_of w1) g) -> shrinks P (1 - a * (1 - sigma)) (spot_of w1) (spot_of w4)).
Proof.
  intros w w1 w4 SE OP MG AP EI TP KP MU P sigma a. destruct (pass_newton w w1 w4 SE OP MG AP ltac:(lra)) as (V & g & d1 & d2 & d & _ & PC).
  exists V, g, d1, d2, d. split; [exact PC|]. intros X1 X2. eapply shrunk; eauto.
Qed.
Print Assumptions C38_exact.

(* --------------------------------------------------------------- an example *)
(* a linear row, two second-order cones of size 3 and an equality *)
Lemma exD_valid : valid_data 2 7 1 [3%nat; 3%nat] exG (Some exA) (arr_of [1; 1]%R) (arr_of [1; 1; 1; 1; 1; 1; 1]%R) (arr_of [1%R]).
Proof.
  destruct exG_valid. constructor; auto. intros d [<-|[<-|[]]]; lia.
Qed.
Lemma exD_setup : forall junk, exists w,
  @ECOS_setup ROps natural junk 2 7 1 1 [3%nat; 3%nat] 0 (data_of exG) (Some (data_of exA)) (arr_of [1; 1]%R) (arr_of [1; 1; 1; 1; 1; 1; 1]%R) (arr_of [1%R]) = Some (Some w).
Proof.
  intros junk. destruct (@C05_accepts ROps natural junk 2 7 1 1 [3%nat; 3%nat] 0 exG (Some exA) _ _ _ exD_valid natural_ok eq_refl) as ([w|] & E & H).
  - exists w. exact E.
  - destruct H as (jc & ir & H). discriminate.
Qed.

Lemma norm2_nonneg (v : arr R) k r : @norm2 ROps v k = Some r -> 0 <= r.
Proof. unfold norm2. intros E. bd E as s Es. injection E as <-. apply sqrt_pos. Qed.

Lemma fmax_r (a b : R) : b <= @fmax ROps a b.
Proof. unfold fmax. cbn [flt ROps]. unfold Rltb. destruct (Rlt_dec a b); lra. Qed.

Lemma exit_go (L : @lay ROps) lpv soc ex pp (w : pwork R) : @ws ROps L lpv soc ex w -> @at_pt ROps L w -> @best_ok ROps L w ->
  st_iter (w_info w) = 0%Z -> sg_maxit (w_stgs w) <> 0%Z -> sg_feastol (w_stgs w) = -1 -> w_tau w = 1 -> w_kap w = 1 ->
  exists pp' w', @iter_exit ROps false pp w = Some (VGo, pp', w').
Proof.
  intros WS PT BO IT MX FT T1 K1.
  assert (ME : @may_exit ROps false w) by (intros _; split; [exact IT|intros; auto]).
  destruct (wp_elim _ _ (@iter_exit_safe ROps L lpv soc ex false pp w (fun _ => True) WS PT BO ME (fun _ _ _ _ _ _ => I))) as ([[v pp'] w'] & E & _).
    exists pp', w'. rewrite E. unfold iter_exit in E. unR. bd E as wa Ea. bd E as wb Eb. cbv zeta in E.
    apply computeResiduals_frame in Ea as (Pa & _ & Qa & Ia). pose proof Eb as Eb'. apply updateStatistics_frame in Eb as (Pb & _ & Qb & Ib & _).
    assert (PB : @prob_of ROps wb = @prob_of ROps w) by congruence. assert (QB : @point_of ROps wb = @point_of ROps w) by congruence.
    assert (SG : w_stgs wb = w_stgs w). { unfold prob_of in PB. injection PB as _ _ _ _ _ _ _ _ _ _ _ _ X _ _ _ _ _ _. exact X. }
    assert (KB : w_kap wb = 1 /\ w_tau wb = 1). { unfold point_of in QB. injection QB as _ _ _ _ X Y. split; etransitivity; eauto. }
    assert (TA : w_tau wa = 1). { unfold point_of in Qa. injection Qa as _ _ _ _ _ Y. etransitivity; eauto. }
    assert (IB : st_iter (w_info wb) = 0%Z) by (rewrite Ib, Ia; exact IT).
    unR. rewrite IB in E. cbn [Z.ltb Z.compare andb] in E.
    assert (PR : 0 <= st_pres (w_info wb)).
    { unfold updateStatistics in Eb'. unR. bd Eb' as gap G1. bd Eb' as ny G2. bd Eb' as nz G3. bd Eb' as nx G4. injection Eb' as <-. wcbn. apply norm2_nonneg in G3.
      cbn [fdiv ROps]. rewrite TA. unfold Rdiv at 1. rewrite Rinv_1, Rmult_1_r. eapply Rle_trans; [|apply fmax_r].
      apply Rmult_le_pos; [exact G3|]. apply Rlt_le, Rinv_0_lt_compat. eapply Rlt_le_trans; [|apply fmax_r]. lra. }
    assert (CX : @checkExitConditions ROps wb 0 = (ECOS_NOT_CONVERGED_YET, wb)).
    { unfold checkExitConditions, test_optimal, test_dinf, test_pinf, tols. cbn [Z.eqb]. unR. rewrite SG, FT. destruct KB as [-> ->]. cbn [flt ROps]. unfold Rltb.
      destruct (Rlt_dec (st_pres (w_info wb)) (-1)); [lra|]. destruct (Rlt_dec 1 1); [lra|]. destruct (Rlt_dec 1 (-1)); [lra|].
      rewrite !andb_false_r. cbn [andb orb]. reflexivity. }
    unR. rewrite CX in E. rewrite Z.eqb_refl in E. cbn [negb orb] in E. rewrite SG in E.
    destruct (Z.eqb_spec 0 (sg_maxit (w_stgs w))); [lia|]. cbn [fisnan ROps] in E. injection E as <- <- <-. reflexivity.
Qed.

(* a point well inside the cone *)
Definition pt7 : list R := [1; 2; 1; 1; 2; 0; 1].
Lemma pt7_margin : margin EPSR 1 [3%nat; 3%nat] (gd 0 (arr_of pt7)) (gd 0 (arr_of pt7)) /\ apart EPSR 1 [3%nat; 3%nat] (gd 0 (arr_of pt7)) (gd 0 (arr_of pt7)).
Proof.
  pose proof EPS_pos as E0. pose proof EPS_lt1 as E1. assert (EE : EPSR * EPSR <= 1) by nra. assert (EE0 : 0 <= EPSR * EPSR) by nra.
  assert (LP : forall i, (i < 1)%nat -> gd 0 (arr_of pt7) i = 1) by (intros i Hi; assert (i = 0)%nat as -> by lia; reflexivity).
  assert (B : forall k p, In (k, p) (layout 1 [3%nat; 3%nat]) -> p = 3%nat /\ 2 <= det 3 (from k (gd 0 (arr_of pt7))) <= 3 /\ gd 0 (arr_of pt7) k = 2).
  { intros k p HI. cbn in HI. destruct HI as [HI|[HI|[]]]; injection HI as <- <-; (split; [reflexivity|]); unfold det, from, gd, get, arr_of, pt7; cbn; split; lra. }
  assert (IK : int_K 1 [3%nat; 3%nat] (gd 0 (arr_of pt7))).
  { split.
    - intros i Hi. rewrite LP by auto. lra.
    - intros k p HI. destruct (B k p HI) as (-> & D & G). unfold int_soc. unfold det in D. change (from k (gd 0 (arr_of pt7)) 0) with (gd 0 (arr_of pt7) (k + 0)%nat) in *. rewrite Nat.add_0_r in *. rewrite G in *.
      unfold nrm. rewrite <- (sqrt_square 2) by lra. apply sqrt_lt_1; [apply Rsum_sq_nonneg|lra|].
      eapply Rle_lt_trans; [right; apply (Rsum_ext 2 _ (fun i => from k (gd 0 (arr_of pt7)) (1 + i)%nat * from k (gd 0 (arr_of pt7)) (1 + i)%nat)); intros; reflexivity|]. cbn [Nat.sub] in D. lra. }
  split; constructor; auto.
  - intros i Hi. rewrite LP by auto. lra.
  - intros k p HI. destruct (B k p HI) as (-> & D & _). split; [lra|]. split; [lra|].
    set (t := EPSR * EPSR) in *. set (dd := det 3 _) in *. clearbody t dd. assert (t * t <= 1) by nra. nra.
  - intros i Hi. rewrite LP by auto. lra.
  - intros k p HI. destruct (B k p HI) as (-> & D & _). set (t := EPSR * EPSR) in *. set (dd := det 3 _) in *. clearbody t dd. nra.
Qed.

(* the hypotheses of the theorems above are met: a pass through the main loop of a
   run on this problem, from the point s = z = pt7, x = 0, y = 0, tau = kap = 1 *)
Theorem C38_example : forall junk : pwork R, exists w w1 w4 : pwork R, @session ROps w /\ one_pass w w1 w4 /\
  dim_l w = 1%nat /\ dim_q w = [3%nat; 3%nat] /\
  margin EPSR (dim_l w) (dim_q w) (gd 0 (w_s w1)) (gd 0 (w_z w1)) /\ apart EPSR (dim_l w) (dim_q w) (gd 0 (w_s w1)) (gd 0 (w_z w1)) /\
  exp_inside (dim_l w) (dim_q w) (dim_e w) (gd 0 (w_z w1)) /\ 0 < w_tau w1 /\ 0 < w_kap w1 /\ 0 <= mean (prog_of w1) (w_D w1) (spot_of w1).
Proof.
  intros junk. destruct (exD_setup junk) as [wa Ea].
  destruct (@setup_inv ROps _ _ _ _ _ _ _ _ _ _ _ _ _ _ exD_valid natural_ok Ea) as (L & En & Ep & El & Eq & Ee & Em & (WSa & NBa & SGa) & _).
  set (w := set_w_stgs wa (set_sg_feastol (w_stgs wa) (-1))).
  assert (SE : @session ROps w) by (apply (@ss_settings ROps); eapply (@ss_setup ROps); [apply exD_valid|apply natural_ok|exact Ea]).
  assert (H1 : forall d, In d (@ly_q ROps L) -> (1 <= d)%nat) by (rewrite Eq; intros d [<-|[<-|[]]]; lia).
  assert (US : @usable ROps L w).
  { split; [eexists _, _, _; unfold w; destruct WSa; constructor; wcbn; eassumption|]. intros HB. exfalso. apply HB. exact NBa. }
  destruct (@init_exists ROps L H1 w US) as (c & w0 & Ec & Ei).
  set (sig := fun _ : Z => false). pose proof (@it_start ROps sig w c w0 Ec Ei) as IT.
  destruct (@iterates_ok ROps L H1 _ _ _ _ _ US IT) as (LO0 & _ & NB0).
  set (w1 := set_w_tau (set_w_kap (set_w_s (set_w_z (set_w_y (set_w_x w0 (arr_of [0; 0])) (arr_of [0])) (arr_of pt7)) (arr_of pt7)) 1) 1).
  assert (PL : placed w0 w1).
  { destruct LO0 as [(lpv & soc & ex & WS) _ _ _ _]. exists [0; 0], [0], pt7, pt7, 1, 1. pose proof (ws_n _ _ _ _ _ WS). pose proof (ws_p _ _ _ _ _ WS). pose proof (ws_m _ _ _ _ _ WS).
    unR. split; [cbn; lia|]. split; [cbn; lia|]. split; [cbn; lia|]. split; [cbn; lia|]. reflexivity. }
  destruct (placed_looping L w w0 w1 LO0 (or_intror PL)) as (LO & EB & _ & _).
  pose proof LO as [(lpv & soc & ex & WS) PT BO RH SG].
  destruct (@set_iter_ok ROps L 0%Z lpv soc ex w1 WS PT BO RH) as (WS' & PT' & BO' & RH').
  destruct (exit_go L lpv soc ex (@fnan ROps) (@set_info ROps w1 (fun i => set_st_iter i 0%Z)) WS' PT' BO') as (pp' & w2 & E2); try reflexivity.
  { change (sg_maxit (w_stgs w1) <> 0%Z). rewrite SG. unfold w. cbn [w_stgs set_w_stgs sg_maxit set_sg_feastol]. rewrite SGa. discriminate. }
  { change (sg_feastol (w_stgs w1) = -1). rewrite SG. reflexivity. }
  set (wi := @set_info ROps w1 (fun i => set_st_iter i 0%Z)) in *.
  assert (IT0 : st_iter (w_info wi) = 0%Z) by reflexivity.
  assert (ME : @may_exit ROps false wi).
  { intros _. split; [reflexivity|]. intros wx wy _ _ _. split; [reflexivity|]. split; [|reflexivity]. change (sg_maxit (w_stgs w1) <> 0%Z). rewrite SG. unfold w. cbn [w_stgs set_w_stgs sg_maxit set_sg_feastol]. rewrite SGa. discriminate. }
  destruct (wp_elim _ _ (@iter_exit_safe ROps L lpv soc ex false (@fnan ROps) wi (fun r => let '(v, pp', w') := r in @kept ROps L lpv soc ex wi w' /\ (v = VGo -> @residuals ROps L w'))
    WS' PT' BO' ME ltac:(intros; split; auto))) as ([[v p'] w'] & E & KP & RE). 
  rewrite E2 in E. injection E as <- <- <-. specialize (RE eq_refl). destruct KP as [WS2 PT2 KY2 EK2 EC2].
  assert (BO2 : @best_ok ROps L w2) by (eapply best_key; eauto).
  assert (IT2 : st_iter (w_info w2) = 0%Z) by (unfold key in KY2; injection KY2; intros I _ _ _ _ _ _; exact (eq_trans I IT0)).
  destruct (wp_elim _ _ (@iter_save_safe ROps L lpv soc ex w2 (fun _ => True) WS2 PT2 RE BO2 ltac:(intros _; exact IT2) ltac:(intros; exact I))) as (w3 & E3 & _).
  assert (NB : w_best w1 = None -> 0%Z = 0%Z) by reflexivity.
  destruct (@pass_ok ROps L sig w 0%Z (@fnan ROps) w1 pp' w2 w3 LO NB E2 E3) as (lpv3 & soc3 & ex3 & WS3 & PT3 & RE3 & BO3 & WB3 & RH3 & SG3 & EC3 & EK3 & EP3).
  pose proof (point_spot _ _ EP3) as ES.
  assert (ES' : gd 0 (w_s w3) = gd 0 (arr_of pt7)) by (exact (f_equal t_s ES)). assert (EZ' : gd 0 (w_z w3) = gd 0 (arr_of pt7)) by (exact (f_equal t_z ES)).
  destruct pt7_margin as [MG AP].
  assert (MG3 : margin EPSR (@ly_l ROps L) (@ly_q ROps L) (gd 0 (w_s w3)) (gd 0 (w_z w3))) by (rewrite ES', EZ', El, Eq; exact MG).
  destruct (wp_elim _ _ (@iter_step_go ROps L H1 ltac:(rewrite Ee; reflexivity) lpv3 soc3 ex3 w3 (fun r => fst r = VGo) WS3 PT3 RE3 RH3
    (fun o C la Eo => proj1 (traced_scaled L lpv3 soc3 ex3 w3 C la o WS3 PT3 MG3 Eo)) ltac:(reflexivity))) as ([v w4] & E4 & EV). cbn [fst] in EV. subst v.
  exists w, w1, w4. split; [exact SE|]. split.
  { exists sig, 0%Z, (@fnan ROps), w0, pp', w2, w3. split; [exact IT|]. split; [right; exact PL|]. split; [exact E2|]. split; [exact E3|exact E4]. }
  pose proof US as [(lpw & socw & exw & WSw) _]. destruct (ws_C _ _ _ _ _ WSw) as [_ Cl Cq Ce].
  assert (Dl : dim_l w = 1%nat) by (rewrite <- El; exact Cl). assert (Dq : dim_q w = [3%nat; 3%nat]) by (rewrite <- Eq; exact Cq). assert (De : dim_e w = 0%nat) by (rewrite <- Ee; exact Ce).
  split; [exact Dl|]. split; [exact Dq|]. rewrite Dl, Dq, De. split; [exact MG|]. split; [exact AP|].
  split; [intros j Hj; lia|]. split; [cbn; lra|]. split; [cbn; lra|].
  unfold mean. apply Rmult_le_pos.
  - apply Rplus_le_le_0_compat; [apply Rsum_nonneg|cbn; lra]. intros i _. cbn [t_s t_z spot_of w_s w_z w1 set_w_tau set_w_kap set_w_s set_w_z]. apply Rle_0_sqr.
  - apply Rlt_le, Rinv_0_lt_compat. apply lt_0_INR. lia.
Qed.
Print Assumptions C38_example.
