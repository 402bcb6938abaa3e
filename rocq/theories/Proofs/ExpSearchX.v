(* Exact arithmetic: a point that passed the tests of the exponential line search
   is inside the cones, and so is every point between it and an interior one. *)
From Coq Require Import List Arith Bool ZArith QArith Qreals Reals Lra Lia.
From Verif Require Import Base Num NumE.
From Verif.Model Require Import Spla Types Consts Expcone Cone Kkt Ecos.
From Verif.Spec Require Import Exp ExpSearch Inside.
From Verif.Proofs Require Import ExitP ExpP LoopLib.
Import ListNotations.
Open Scope R_scope.

(* --------------------------------------------------------------- convexity *)
Lemma exp_tangent t x : exp t * (1 + x - t) <= exp x.
Proof.
  replace x with (t + (x - t)) at 2 by ring. rewrite exp_plus.
  apply Rmult_le_compat_l; [left; apply exp_pos|]. destruct (Req_dec (x - t) 0) as [E|N].
  - rewrite E, exp_0. lra.
  - pose proof (exp_ineq1 (x - t) N). lra.
Qed.

Lemma persp_tangent t x z : 0 < z -> exp t * (z + x - t * z) <= z * exp (x / z).
Proof.
  intros Hz. pose proof (exp_tangent t (x / z)) as H. apply (Rmult_le_compat_l z) in H; [|lra].
  replace (exp t * (z + x - t * z)) with (z * (exp t * (1 + x / z - t))) by (field; lra). exact H.
Qed.

Lemma exp_primal_mix g x1 y1 z1 x2 y2 z2 : 0 < g < 1 -> exp_primal_int x1 y1 z1 -> 0 < z2 -> exp_primal x2 y2 z2 ->
  exp_primal_int ((1-g)*x1 + g*x2) ((1-g)*y1 + g*y2) ((1-g)*z1 + g*z2).
Proof.
  intros G [Hz1 H1] Hz2 [[_ H2]|[K _]]; [|lra]. set (x := (1-g)*x1 + g*x2). set (z := (1-g)*z1 + g*z2).
  assert (Hz : 0 < z). { unfold z. apply Rplus_lt_0_compat; apply Rmult_lt_0_compat; lra. }
  split; [exact Hz|]. set (t := x / z).
  assert (E : z * exp t = (1-g) * (exp t * (z1 + x1 - t * z1)) + g * (exp t * (z2 + x2 - t * z2))).
  { transitivity (exp t * (z + x - t * z)). { unfold t. field. lra. } unfold x, z. ring. }
  rewrite E. pose proof (persp_tangent t x1 z1 Hz1). pose proof (persp_tangent t x2 z2 Hz2).
  apply Rplus_lt_le_compat; [apply Rmult_lt_compat_l|apply Rmult_le_compat_l]; lra.
Qed.

Lemma ln_tangent t q : 0 < q -> ln q <= t + q * exp (- t) - 1.
Proof.
  intros Hq. pose proof (exp_tangent 0 (ln q - t)) as H. rewrite exp_0 in H.
  replace (exp (ln q - t)) with (q * exp (- t)) in H; [lra|]. unfold Rminus. rewrite exp_plus, exp_ln by lra. reflexivity.
Qed.

Lemma exp_dual_mix g u1 v1 w1 u2 v2 w2 : 0 < g < 1 -> exp_dual_int u1 v1 w1 -> exp_dual_int u2 v2 w2 ->
  exp_dual_int ((1-g)*u1 + g*u2) ((1-g)*v1 + g*v2) ((1-g)*w1 + g*w2).
Proof.
  intros G (A1 & B1 & C1) (A2 & B2 & C2). set (u := (1-g)*u1 + g*u2). set (v := (1-g)*v1 + g*v2). set (w := (1-g)*w1 + g*w2).
  assert (Hu : u < 0). { unfold u. assert (0 < (1-g) * (-u1)) by (apply Rmult_lt_0_compat; lra). assert (0 < g * (-u2)) by (apply Rmult_lt_0_compat; lra). lra. }
  assert (Hv : 0 < v). { unfold v. apply Rplus_lt_0_compat; apply Rmult_lt_0_compat; lra. }
  assert (Q : forall a b, a < 0 -> 0 < b -> 0 < - b / a).
  { intros a b Ha Hb. replace (- b / a) with (b / - a) by (field; lra). apply Rdiv_lt_0_compat; lra. }
  split; [exact Hu|]. split; [exact Hv|]. set (t := ln (- v / u)).
  assert (T : forall a b, a < 0 -> 0 < b -> - a * ln (- b / a) <= - a * t + b * exp (- t) + a).
  { intros a b Ha Hb. pose proof (ln_tangent t (- b / a) (Q a b Ha Hb)) as H. apply (Rmult_le_compat_l (- a)) in H; [|lra].
    replace (- a * (t + - b / a * exp (- t) - 1)) with (- a * t + b * exp (- t) + a) in H by (field; lra). exact H. }
  assert (E : w - u - u * t = (1-g) * (w1 - u1 + (- u1 * t + v1 * exp (- t) + u1)) + g * (w2 - u2 + (- u2 * t + v2 * exp (- t) + u2))).
  { transitivity (w - u + (- u * t + v * exp (- t) + u)).
    - assert (X : v * exp (- t) = - u). { unfold t. rewrite exp_Ropp, exp_ln by (apply Q; auto). field. split; lra. } rewrite X. ring.
    - unfold u, v, w. ring. }
  rewrite E. pose proof (T u1 v1 A1 B1). pose proof (T u2 v2 A2 B2).
  apply Rplus_lt_0_compat; apply Rmult_lt_0_compat; lra.
Qed.

(* -------------------------------------- values that no comparison can accept *)
Definition bad (a : ext) : Prop := a = NaN \/ a = PInf.
Definition fin (a : ext) : Prop := exists r, a = Fin r.

Lemma bad_addl a b : bad a -> bad (@fadd EOps a b).
Proof. intros [-> | ->]; destruct b; cbn; unfold bad; auto. Qed.
Lemma bad_addr a b : bad b -> bad (@fadd EOps a b).
Proof. intros [-> | ->]; destruct a; cbn; unfold bad; auto. Qed.
Lemma bad_subl a b : bad a -> bad (@fsub EOps a b).
Proof. apply bad_addl. Qed.
Lemma bad_subr a b : bad (@fneg EOps b) -> bad (@fsub EOps a b).
Proof. apply bad_addr. Qed.
Lemma bad_lt a l : bad a -> @flt EOps a l = false.
Proof. intros [-> | ->]; destruct l; reflexivity. Qed.

Lemma fin_add a b : fin (@fadd EOps a b) -> fin a /\ fin b.
Proof. unfold fin. intros [r H]. destruct a, b; cbn in H; try discriminate. eauto. Qed.
Lemma esgn_nfin x a : ~ fin a -> ~ fin (esgn x a).
Proof.
  unfold esgn, fin. intros N [r H]. destruct (Rlt_dec 0 x); [apply N; eauto|]. destruct (Rlt_dec x 0); [|discriminate].
  destruct a; cbn in H; try discriminate. apply N. eauto.
Qed.
Lemma fin_mul a b : fin (@fmul EOps a b) -> fin a /\ fin b.
Proof.
  assert (NP : ~ fin PInf) by (intros [r H]; discriminate). assert (NN : ~ fin NInf) by (intros [r H]; discriminate).
  intros H. destruct a as [x| | |], b as [y| | |]; cbn [fmul EOps emul eneg] in H;
    try (exfalso; revert H; (apply esgn_nfin; assumption)); try (destruct H as [? H]; discriminate); split; eexists; reflexivity.
Qed.
Lemma fin_div a y : 0 < y -> fin (@fdiv EOps a (Fin y)) -> fin a.
Proof. intros P [r H]. destruct a; cbn in H; [eexists; reflexivity| | |]; try destruct (Rlt_dec y 0); discriminate. Qed.
Lemma nlog a : ~ bad (@flog EOps a) -> fin a.
Proof. destruct a; cbn; intros H; [eexists; reflexivity| | |]; exfalso; apply H; unfold bad; auto. Qed.
Lemma nmul x a : 0 < x -> ~ bad (@fmul EOps (Fin x) a) -> ~ bad a.
Proof.
  intros P H [-> | ->]; apply H; cbn; unfold bad; auto. unfold esgn. destruct (Rlt_dec 0 x); [auto|lra].
Qed.
(* the argument of a negated logarithm *)
Lemma nneglog a x : a = Fin x -> ~ bad (@fneg EOps (@flog EOps a)) -> 0 < x.
Proof.
  intros ->. cbn. destruct (Rlt_dec 0 x); [auto|]. destruct (Req_EM_T x 0); cbn; intros H; exfalso; apply H; unfold bad; auto.
Qed.

Lemma omega_nan : @wrightOmega EOps NaN = NaN.
Proof. unfold wrightOmega. cbn. reflexivity. Qed.
Lemma fofn_E n : @fofn EOps n = Fin (INR n).
Proof. unfold fofn, fofZ. cbn. f_equal. unfold Q2R. cbn. rewrite Rinv_1, Rmult_1_r. symmetry. apply INR_IZR_INZ. Qed.

Lemma fsum_fin m f : fin (@fsum EOps m f) -> forall i, (i < m)%nat -> fin (f i).
Proof.
  induction m as [|m IH]; cbn [fsum]; intros H i Hi; [lia|]. apply fin_add in H as [H1 H2].
  destruct (Nat.eq_dec i m) as [->|N]; auto. apply IH; auto. lia.
Qed.

(* ----------------------------------------- what a finite barrier value requires *)
Definition dterm (u v w : ext) : ext := Eval cbv zeta in
  @fsub EOps (@fsub EOps (@fneg EOps (@flog EOps (@fsub EOps (@fsub EOps w u) (@fmul EOps u (@flog EOps (@fdiv EOps (@fneg EOps v) u)))))) (@flog EOps (@fneg EOps u))) (@flog EOps v).
Definition pterm (x y z : ext) : ext :=
  let o := @wrightOmega EOps (@fadd EOps (@fsub EOps (@fsub EOps (@f1 EOps) (@fdiv EOps x z)) (@flog EOps z)) (@flog EOps y)) in
  let o := @fdiv EOps (@fmul EOps (@fsub EOps o (@f1 EOps)) (@fsub EOps o (@f1 EOps))) o in
  @fsub EOps (@fsub EOps (@fsub EOps (@fneg EOps (@flog EOps o)) (@fmul EOps (@f2 EOps) (@flog EOps z))) (@flog EOps y)) (@fconst EOps 3).

Lemma barrier_terms (sv zv : arr ext) f e b : @evalBarrierValue EOps sv zv f e = Some b -> ~ bad b -> forall j, (j < e)%nat ->
  let k := (f + 3 * j)%nat in exists u v w x y z,
  get zv k = Some u /\ get zv (k+1)%nat = Some v /\ get zv (k+2)%nat = Some w /\ get sv k = Some x /\ get sv (k+1)%nat = Some y /\ get sv (k+2)%nat = Some z /\
  ~ bad (dterm u v w) /\ ~ bad (pterm x y z).
Proof.
  unfold evalBarrierValue. intros H Nb. binv1 H. injection H as <-.
  assert (N1 : ~ bad f0) by (intros K; apply Nb, bad_addl, K). assert (N2 : ~ bad f1) by (intros K; apply Nb, bad_addr, K).
  unfold for_ in E.
  pose proof (for_loop_pres (fun i (st : ext * ext) => ~ bad (fst st) -> ~ bad (snd st) -> forall j, (j < i)%nat ->
    let k := (f + 3 * j)%nat in exists u v w x y z,
    get zv k = Some u /\ get zv (k+1)%nat = Some v /\ get zv (k+2)%nat = Some w /\ get sv k = Some x /\ get sv (k+1)%nat = Some y /\ get sv (k+2)%nat = Some z /\
    ~ bad (dterm u v w) /\ ~ bad (pterm x y z)) _ _ _ _ _ E) as X.
  cbn [fst snd] in X. intros j Hj. apply X; auto; [intros; lia|clear|lia].
  intros i [pb db] [pb' db'] Hi IH H N1 N2 j Hj. cbn [fst snd] in *.
  binv H. cbv zeta in H. injection H as <- <-.
  destruct (Nat.eq_dec j i) as [->|Nj].
  - do 6 eexists. repeat (split; [eassumption|]). split; intros K; [apply N2|apply N1]; apply bad_addr; exact K.
  - apply IH; [intros K; apply N1, bad_addl, K|intros K; apply N2, bad_addl, K|lia].
Qed.

Lemma dual_E u v w : ~ bad (dterm (Fin u) (Fin v) (Fin w)) -> @expDualOk EOps (Fin u) (Fin v) (Fin w) = true -> exp_dual_int u v w.
Proof.
  unfold dterm. intros N _.
  assert (Pv : 0 < v) by (apply (nneglog (Fin v) v eq_refl); intros K; apply N, bad_subr, K).
  assert (Pu : 0 < - u) by (apply (nneglog (@fneg EOps (Fin u)) (- u) eq_refl); intros K; apply N, bad_subl, bad_subr, K).
  assert (Pq : 0 < - v / u). { replace (- v / u) with (v / - u) by (field; lra). apply Rdiv_lt_0_compat; lra. }
  split; [lra|]. split; [exact Pv|].
  match type of N with context [@fneg EOps (@flog EOps ?a)] => apply (nneglog a _) end.
  - cbn. destruct (Req_EM_T u 0); [lra|]. cbn. destruct (Rlt_dec 0 (- v / u)) as [_|K]; [|lra]. cbn. reflexivity.
  - intros K. apply N, bad_subl, bad_subl, K.
Qed.

Lemma primal_E x y z : ~ bad (pterm (Fin x) (Fin y) (Fin z)) -> @expPrimalOk EOps (Fin x) (Fin y) (Fin z) = true -> 0 < z /\ exp_primal x y z.
Proof.
  unfold pterm. cbv zeta. intros N T.
  assert (Py : 0 < y) by (apply (nneglog (Fin y) y eq_refl); intros K; apply N, bad_subl, bad_subr, K).
  assert (Pz : 0 < z).
  { apply (nneglog (Fin z) z eq_refl). intros K. apply N, bad_subl, bad_subl, bad_subr. destruct K as [K|K].
    - cbn in K |- *. destruct (Rlt_dec 0 z); [discriminate|]. destruct (Req_EM_T z 0); [discriminate|]. left. reflexivity.
    - cbn in K |- *. destruct (Rlt_dec 0 z); [discriminate|]. destruct (Req_EM_T z 0); [|discriminate]. right. unfold f2. cbn. unfold esgn.
      destruct (Rlt_dec 0 (Q2R 2)) as [|A]; [reflexivity|]. exfalso. apply A. unfold Q2R. cbn. lra. }
  split; [exact Pz|]. unfold expPrimalOk in T. cbn in T. destruct (Req_EM_T z 0); [lra|]. cbn in T.
  assert (Pq : 0 < y / z) by (apply Rdiv_lt_0_compat; lra). destruct (Rlt_dec 0 (y / z)); [|contradiction]. cbn in T.
  left. split; [exact Pz|].
  unfold f0 in T. cbn in T. destruct (Rltb_spec (z * ln (y / z) + - x) (Q2R 0)) as [|A]; [cbn in T; discriminate T|]. unfold Q2R in A. cbn in A.
  assert (B : x / z <= ln (y / z)). { apply Rmult_le_reg_l with z; [exact Pz|]. replace (z * (x / z)) with x by (field; lra). lra. }
  apply Rle_trans with (z * exp (ln (y / z))).
  - apply Rmult_le_compat_l; [lra|]. destruct B as [B|B]; [left; apply exp_increasing; exact B|right; rewrite B; reflexivity].
  - rewrite exp_ln by exact Pq. right. field. lra.
Qed.

Lemma passed_facts (C : cone ext) m D lim p : @judged EOps C m D lim p Passed -> m = (co_fexv C + 3 * @nexc EOps C)%nat ->
  forall j, (j < @nexc EOps C)%nat -> let f := co_fexv C in exists x y z u v w : R,
    p_s p (f+3*j)%nat = Fin x /\ p_s p (f+3*j+1)%nat = Fin y /\ p_s p (f+3*j+2)%nat = Fin z /\
    p_z p (f+3*j)%nat = Fin u /\ p_z p (f+3*j+1)%nat = Fin v /\ p_z p (f+3*j+2)%nat = Fin w /\
    0 < z /\ exp_primal x y z /\ exp_dual_int u v w.
Proof.
  intros (HD & HP & _ & c & (sv & zv & b1 & b2 & Gs & Gz & E1 & E2 & ->) & Hc) Hm j Hj f.
  match type of Hc with _ ?a _ = true => assert (Nc : ~ bad a) by (intros K; rewrite (bad_lt _ lim K) in Hc; discriminate) end. clear Hc.
  assert (N1 : ~ bad b1) by (intros K; apply Nc, bad_addl, bad_addl, bad_addl, K).
  assert (FM : fin (@mu_all EOps m D p)).
  { apply nlog. apply (nmul (INR (D + 1))); [apply lt_0_INR; lia|]. intros K. apply Nc, bad_addl, bad_addr. rewrite fofn_E. exact K. }
  unfold mu_all in FM. rewrite fofn_E in FM. apply fin_div in FM; [|apply lt_0_INR; lia]. apply fin_add in FM as [FM _].
  assert (FI : forall i, (i < m)%nat -> fin (p_s p i) /\ fin (p_z p i)) by (intros i Hi; apply fin_mul; apply (fsum_fin m (fun i => @fmul EOps (p_s p i) (p_z p i)) FM i Hi)).
  destruct (barrier_terms _ _ _ _ _ E1 N1 j Hj) as (u & v & w & x & y & z & A1 & A2 & A3 & A4 & A5 & A6 & ND & NP).
  change (@F EOps) with ext in *. rewrite Gz in A1, A2, A3 by lia. rewrite Gs in A4, A5, A6 by lia.
  injection A1 as <-. injection A2 as <-. injection A3 as <-. injection A4 as <-. injection A5 as <-. injection A6 as <-.
  pose proof (HD j Hj) as TD. pose proof (HP j Hj) as TP. fold f in ND, NP, TD, TP.
  destruct (FI (f + 3 * j)%nat ltac:(unfold f; lia)) as [(x & X) (u & U)]. destruct (FI (f + 3 * j + 1)%nat ltac:(unfold f; lia)) as [(y & Y) (v & V)].
  destruct (FI (f + 3 * j + 2)%nat ltac:(unfold f; lia)) as [(z & Z) (w & W)].
  change (j + (j + (j + 0)))%nat with (3 * j)%nat in *. rewrite U, V, W in ND, TD. rewrite X, Y, Z in NP, TP.
  exists x, y, z, u, v, w. repeat (split; [assumption|]). rewrite <- and_assoc. split; [apply primal_E|apply dual_E]; assumption.
Qed.

Lemma emix (p a d : ext) r g c : p = Fin r -> @fadd EOps p (@fmul EOps a d) = Fin c ->
  @fadd EOps p (@fmul EOps (@fmul EOps a (Fin g)) d) = Fin ((1 - g) * r + g * c).
Proof.
  intros -> H. assert (X : fin (@fmul EOps a d)). { apply (fin_add (Fin r)). exists c. exact H. }
  apply fin_mul in X as [[a' ->] [d' ->]]. cbn in *. injection H as <-. f_equal. ring.
Qed.

Lemma inside_step (C : cone ext) m D lim p d a g : 0 < g < 1 -> m = (co_fexv C + 3 * @nexc EOps C)%nat ->
  inside (co_fexv C) (@nexc EOps C) p -> @judged EOps C m D lim (@moved EOps p d a) Passed ->
  inside (co_fexv C) (@nexc EOps C) (@moved EOps p d (@fmul EOps a (Fin g))).
Proof.
  intros G Hm Ie J. pose proof (passed_facts _ _ _ _ _ J Hm) as Pe.
  unfold moved in *. cbn [p_s p_z p_tau p_kap] in *.
  intros j Hj. destruct (Ie j Hj) as (x1 & y1 & z1 & u1 & v1 & w1 & A1 & A2 & A3 & A4 & A5 & A6 & IP & ID).
  destruct (Pe j Hj) as (x2 & y2 & z2 & u2 & v2 & w2 & B1 & B2 & B3 & B4 & B5 & B6 & Pz & HP & HD).
  do 6 eexists. split; [apply (emix _ _ _ _ g _ A1 B1)|]. split; [apply (emix _ _ _ _ g _ A2 B2)|]. split; [apply (emix _ _ _ _ g _ A3 B3)|].
  split; [apply (emix _ _ _ _ g _ A4 B4)|]. split; [apply (emix _ _ _ _ g _ A5 B5)|]. split; [apply (emix _ _ _ _ g _ A6 B6)|].
  split; [apply exp_primal_mix|apply exp_dual_mix]; auto.
Qed.

(* the central ray where the method starts *)
Lemma ray_inside : let x := Q2R (-1051383945322714 # 1000000000000000) in let y := Q2R (1258967884768947 # 1000000000000000) in
  let z := Q2R (556409619469370 # 1000000000000000) in exp_primal_int x y z /\ exp_dual_int x y z.
Proof.
  intros x y z.
  assert (X : -106/100 < x < -105/100) by (unfold x, Q2R; cbn; lra). assert (Y : 125/100 < y < 126/100) by (unfold y, Q2R; cbn; lra).
  assert (Z : 55/100 < z < 56/100) by (unfold z, Q2R; cbn; lra). clearbody x y z. split.
  - split; [lra|]. apply Rle_lt_trans with (z * 1); [|lra]. apply Rmult_le_compat_l; [lra|]. rewrite <- exp_0. left. apply exp_increasing.
    apply Rmult_lt_reg_r with z; [lra|]. unfold Rdiv. rewrite Rmult_assoc, Rinv_l by lra. lra.
  - split; [lra|]. split; [lra|]. assert (0 < ln (- y / x)).
    { rewrite <- ln_1. apply ln_increasing; [lra|]. replace (- y / x) with (y / - x) by (field; lra). apply Rmult_lt_reg_r with (- x); [lra|]. unfold Rdiv. rewrite Rmult_assoc, Rinv_l by lra. lra. }
    assert (0 < - x * ln (- y / x)) by (apply Rmult_lt_0_compat; lra). lra.
Qed.
