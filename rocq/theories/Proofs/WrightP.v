(* How close src/wright_omega.c comes to the solution of w + ln w = z, in exact
   arithmetic. *)
From Coq Require Import List Arith Bool ZArith QArith Qreals Reals Lia Lra.
From Verif Require Import Base Num.
From Verif.Model Require Import Consts Expcone.
From Verif.Spec Require Import Exp Barrier.
From Verif.Proofs Require Import ExpP IvlQ.
Open Scope R_scope.

Lemma mono f f' a b : a <= b -> (forall c, a <= c <= b -> derivable_pt_lim f c (f' c)) -> (forall c, a <= c <= b -> 0 <= f' c) -> f a <= f b.
Proof.
  intros Hab D P. destruct (Req_dec a b) as [->|Hn]; [lra|].
  destruct (MVT_cor2 f f' a b ltac:(lra) D) as (c & E & Hc). pose proof (P c ltac:(lra)). nra.
Qed.

Lemma divpos a b : 0 <= a -> 0 < b -> 0 <= a / b.
Proof. intros. apply Rmult_le_pos; auto. left. apply Rinv_0_lt_compat. auto. Qed.
Lemma Rabs_le_inv a b : Rabs a <= b -> - b <= a <= b.
Proof. intros H. unfold Rabs in H. destruct (Rcase_abs a); split; lra. Qed.
Lemma pos4 c : 0 <= c * c * c * c.
Proof. replace (c * c * c * c) with (c * c * (c * c)) by ring. apply Rmult_le_pos; apply Rle_0_sqr. Qed.

(* ---------------- the logarithm ---------------- *)

Definition lt4 (t : R) : R := t - t * t / 2 + t * t * t / 3 - t * t * t * t / 4.
Lemma D_lt4 t : -1 < t -> derivable_pt_lim (fun t => ln (1 + t) - lt4 t) t (t * t * t * t / (1 + t)).
Proof.
  intros Ht. unfold lt4. eapply D_eq.
  - repeat first [apply D_minus|apply D_plus|apply D_ln|apply D_div|apply D_mult|apply D_const|apply D_id]; lra.
  - cbv beta. field. lra.
Qed.
Lemma ln_up t : 0 <= t -> lt4 t <= ln (1 + t) <= lt4 t + t * t * t * t * t / 5.
Proof.
  intros Ht. split.
  - pose proof (mono (fun t => ln (1 + t) - lt4 t) (fun t => t * t * t * t / (1 + t)) 0 t Ht ltac:(intros; apply D_lt4; lra)) as H.
    cbn beta in H. rewrite Rplus_0_r, ln_1 in H. unfold lt4 in *. assert (0 <= ln (1 + t) - (t - t * t / 2 + t * t * t / 3 - t * t * t * t / 4)); [|lra].
    eapply Rle_trans; [|apply H]; [lra|]. intros c Hc. apply divpos; [|lra]. apply pos4.
  - pose proof (mono (fun t => t * t * t * t * t / 5 - (ln (1 + t) - lt4 t)) (fun t => t * t * t * t - t * t * t * t / (1 + t)) 0 t Ht) as H.
    cbn beta in H. rewrite Rplus_0_r, ln_1 in H. unfold lt4 in *.
    assert (0 <= t * t * t * t * t / 5 - (ln (1 + t) - (t - t * t / 2 + t * t * t / 3 - t * t * t * t / 4))); [|lra].
    eapply Rle_trans; [|apply H]; [lra| |].
    + intros c Hc. apply D_minus; [|apply D_lt4; lra]. eapply D_eq; [repeat first [apply D_div|apply D_mult|apply D_const|apply D_id]; lra|cbv beta; field].
    + intros c Hc. assert (E : c * c * c * c - c * c * c * c / (1 + c) = c * c * c * c * (c / (1 + c))) by (field; lra). rewrite E.
      apply Rmult_le_pos; [apply pos4|]. apply divpos; lra.
Qed.
Lemma ln_dn t : -1 / 2 <= t <= 0 -> lt4 t + 2 * (t * t * t * t * t) / 5 <= ln (1 + t) <= lt4 t.
Proof.
  intros Ht. split.
  - pose proof (mono (fun t => 2 * (t * t * t * t * t) / 5 - (ln (1 + t) - lt4 t)) (fun t => 2 * (t * t * t * t) - t * t * t * t / (1 + t)) t 0 ltac:(lra)) as H.
    cbn beta in H. rewrite Rplus_0_r, ln_1 in H.
    assert (2 * (t * t * t * t * t) / 5 - (ln (1 + t) - lt4 t) <= 0); [|lra].
    eapply Rle_trans; [apply H|unfold lt4; lra].
    + intros c Hc. apply D_minus; [|apply D_lt4; lra]. eapply D_eq; [repeat first [apply D_div|apply D_mult|apply D_const|apply D_id]; lra|cbv beta; field].
    + intros c Hc. assert (E : 2 * (c * c * c * c) - c * c * c * c / (1 + c) = c * c * c * c * ((1 + 2 * c) / (1 + c))) by (field; lra). rewrite E.
      apply Rmult_le_pos; [apply pos4|]. apply divpos; lra.
  - pose proof (mono (fun t => ln (1 + t) - lt4 t) (fun t => t * t * t * t / (1 + t)) t 0 ltac:(lra) ltac:(intros; apply D_lt4; lra)) as H.
    cbn beta in H. rewrite Rplus_0_r, ln_1 in H. assert (ln (1 + t) - lt4 t <= 0); [|lra].
    eapply Rle_trans; [apply H|unfold lt4; lra]. intros c Hc. apply divpos; [|lra]. apply pos4.
Qed.
Definition p5 (t : R) : R := t * t * t * t * t.
Lemma ln_near t : Rabs t <= 1 / 100 -> Rabs (ln (1 + t) - lt4 t) <= 21 / 100 * p5 (Rabs t).
Proof.
  intros Ht. unfold p5. destruct (Rle_dec 0 t) as [H|H].
  - rewrite (Rabs_pos_eq t) in * by lra. pose proof (ln_up t H) as [A B]. rewrite Rabs_pos_eq by lra.
    assert (0 <= t * t * t * t * t) by (repeat apply Rmult_le_pos; lra). lra.
  - rewrite (Rabs_left t) in * by lra.
    (* 1 / (1 - 1/100) < 1.05 *)
    assert (L : ln (1 + t) <= lt4 t) by (apply ln_dn; lra). rewrite Rabs_left1 by lra.
    assert (G : 21 / 100 * (t * t * t * t * t) - (ln (1 + t) - lt4 t) <= 0); [|lra].
    pose proof (mono (fun t => 21 / 100 * (t * t * t * t * t) - (ln (1 + t) - lt4 t)) (fun t => 105 / 100 * (t * t * t * t) - t * t * t * t / (1 + t)) t 0 ltac:(lra)) as M.
    cbn beta in M. rewrite Rplus_0_r, ln_1 in M. eapply Rle_trans; [apply M|unfold lt4; lra].
    + intros c Hc. apply D_minus; [|apply D_lt4; lra]. eapply D_eq; [repeat first [apply D_div|apply D_mult|apply D_const|apply D_id]; lra|cbv beta; field].
    + intros c Hc. assert (E : 105 / 100 * (c * c * c * c) - c * c * c * c / (1 + c) = c * c * c * c * ((5 / 100 + 105 / 100 * c) / (1 + c))) by (field; lra). rewrite E.
      apply Rmult_le_pos; [apply pos4|]. apply divpos; lra.
Qed.

(* ---------------- one step ---------------- *)

(* reads a polynomial whose constants are fractions of literals *)
Ltac reif t x y :=
  match t with
  | x => constr:(EX)
  | y => constr:(EY)
  | ?a + ?b => let a := reif a x y in let b := reif b x y in constr:(EA a b)
  | ?a - ?b => let a := reif a x y in let b := reif b x y in constr:(EA a (EN b))
  | ?a * ?b => let a := reif a x y in let b := reif b x y in constr:(EM a b)
  | - ?a => let a := reif a x y in constr:(EN a)
  | IZR ?n / IZR (Zpos ?d) => constr:(EC (Qmake n d))
  | IZR ?n => constr:(EC (Qmake n 1))
  end.
Ltac polybound n t x y xl xh yl yh lo hi H :=
  let e := reif t x y in
  let E := fresh in
  assert (E : ev e x y = t) by (cbn [ev]; unfold Q2R; cbn [Qnum Qden]; field);
  assert (H : Q2R lo <= ev e x y <= Q2R hi);
  [apply (bounded n e xl xh yl yh lo hi x y); [vm_compute; reflexivity|unfold Q2R; cbn [Qnum Qden]; try lra|unfold Q2R; cbn [Qnum Qden]; try lra]|
   rewrite E in H; clear E; unfold Q2R in H; cbn [Qnum Qden] in H].

Definition stepP (x v : R) : R :=
  4/27 + v * (7/18 + v * (-7/12 + v * (1/4)))
  + x * (8/27 + v * (1/3 + v * (-125/72 + v * (43/24 + v * (-5/8)))))
  + x * x * (16/81 + v * (-2/27 + v * (-59/54 + v * (157/72 + v * (-41/24 + v * (1/2))))))
  + x * x * x * (32/729 + v * (-20/243 + v * (-7/54 + v * (7/12 + v * (-455/576 + v * (1/2 + v * (-1/8))))))).
Lemma stepP_bound x v : -4/1000 <= x <= 4/1000 -> 0 <= v <= 55/100 -> 14/100 <= stepP x v <= 24/100.
Proof.
  intros Hx Hv. unfold stepP.
  match goal with |- _ <= ?t <= _ => polybound 8%nat t x v (-4#1000)%Q (4#1000)%Q (0#1)%Q (55#100)%Q (14#100)%Q (24#100)%Q H end.
  lra.
Qed.
Definition stepD (x v : R) : R := 1 + 2/3 * x - x * v.
Definition stepN (x v : R) : R := x * (1 + x * v / (2 * stepD x v)).
Definition stepL (v : R) : R := 1/36 - v/6 + v * v/8.
Lemma stepE x v : stepD x v <> 0 -> let n := stepN x v in
  - (x * x) / (2 * stepD x v) + n - lt4 n - x * x * x * x * stepL v = p5 x * stepP x v / (stepD x v * stepD x v * stepD x v * stepD x v).
Proof.
  intros H n. unfold n, stepN, lt4, stepP, stepL, p5, stepD in *. field. lra.
Qed.
Lemma stepD_near x v : Rabs x <= 4/1000 -> 0 <= v <= 55/100 -> 995/1000 <= stepD x v <= 1005/1000.
Proof. intros Hx Hv. apply Rabs_le_inv in Hx. unfold stepD. nra. Qed.
Lemma stepN_near x v : Rabs x <= 4/1000 -> 0 <= v <= 55/100 -> exists t, stepN x v = x * (1 + t) /\ Rabs t <= 2/1000.
Proof.
  intros Hx Hv. pose proof (stepD_near x v Hx Hv) as HD. exists (x * v / (2 * stepD x v)). split; [reflexivity|].
  unfold Rdiv. rewrite !Rabs_mult. rewrite (Rabs_pos_eq v) by lra. rewrite Rabs_inv. rewrite (Rabs_pos_eq (2 * stepD x v)) by lra.
  apply Rmult_le_reg_r with (2 * stepD x v); [lra|]. rewrite Rmult_assoc, Rinv_l by lra. pose proof (Rabs_pos x). nra.
Qed.
Lemma p5_mono a b : 0 <= a <= b -> p5 a <= p5 b.
Proof. intros H. unfold p5. repeat (apply Rmult_le_compat; try lra; repeat apply Rmult_le_pos; try lra). Qed.
Lemma p5_abs a : Rabs (p5 a) = p5 (Rabs a).
Proof. unfold p5. rewrite !Rabs_mult. reflexivity. Qed.
Lemma p5_mult a b : p5 (a * b) = p5 a * p5 b.
Proof. unfold p5. ring. Qed.
Lemma p5_pos a : 0 <= a -> 0 <= p5 a.
Proof. intros. unfold p5. repeat apply Rmult_le_pos; auto. Qed.

(* the residual after a step is that of the fourth order formula, up to fifth order *)
Lemma step_res x v : Rabs x <= 4/1000 -> 0 <= v <= 55/100 -> let n := stepN x v in
  Rabs (- (x * x) / (2 * stepD x v) + n - ln (1 + n) - x * x * x * x * stepL v) <= 48/100 * p5 (Rabs x).
Proof.
  intros Hx Hv n. pose proof (stepD_near x v Hx Hv) as HD. destruct (stepN_near x v Hx Hv) as (t & En & Ht). fold n in En.
  pose proof (stepE x v ltac:(lra)) as E. cbv zeta in E. fold n in E.
  assert (Hn : Rabs n <= 1005/1000 * Rabs x).
  { rewrite En, Rabs_mult. apply Rabs_le_inv in Ht. rewrite (Rabs_pos_eq (1 + t)) by lra. pose proof (Rabs_pos x). nra. }
  pose proof (ln_near n ltac:(lra)) as L.
  replace (- (x * x) / (2 * stepD x v) + n - ln (1 + n) - x * x * x * x * stepL v) with
    ((- (x * x) / (2 * stepD x v) + n - lt4 n - x * x * x * x * stepL v) - (ln (1 + n) - lt4 n)) by ring.
  rewrite E. eapply Rle_trans; [apply Rabs_triang|]. rewrite Rabs_Ropp.
  assert (A : Rabs (p5 x * stepP x v / (stepD x v * stepD x v * stepD x v * stepD x v)) <= 25/100 * p5 (Rabs x)).
  { unfold Rdiv. rewrite !Rabs_mult, Rabs_inv, p5_abs. set (d4 := stepD x v * stepD x v * stepD x v * stepD x v).
    assert (H4 : 98/100 <= d4) by (unfold d4; assert (99/100 <= stepD x v * stepD x v) by nra; replace (stepD x v * stepD x v * stepD x v * stepD x v) with (stepD x v * stepD x v * (stepD x v * stepD x v)) by ring; nra).
    rewrite (Rabs_pos_eq d4) by lra. pose proof (stepP_bound x v ltac:(apply Rabs_le_inv in Hx; lra) Hv) as HP. rewrite (Rabs_pos_eq (stepP x v)) by lra.
    apply Rmult_le_reg_r with d4; [lra|]. rewrite Rmult_assoc, Rinv_l by lra. pose proof (p5_pos _ (Rabs_pos x)). nra. }
  assert (B : p5 (Rabs n) <= 104/100 * p5 (Rabs x)).
  { eapply Rle_trans; [apply (p5_mono _ (1005/1000 * Rabs x)); split; [apply Rabs_pos|exact Hn]|]. rewrite p5_mult. pose proof (p5_pos _ (Rabs_pos x)). apply Rmult_le_compat_r; auto. unfold p5. lra. }
  pose proof (p5_pos _ (Rabs_pos x)). lra.
Qed.

(* src/wright_omega.c:62-65 *)
Lemma fsc_R (w r : R) : 9/10 <= w -> Rabs (r / (1 + w)) <= 4/1000 -> let x := r / (1 + w) in
  exists w' r' n, @fsc ROps w r = (w', r') /\ w' = w * (1 + n) /\ Rabs n <= 1005/1000 * Rabs x /\
    Rabs (r - w * n - ln (1 + n) - r') <= 54/100 * p5 (Rabs x) /\ Rabs r' <= 6/100 * (x * x * x * x).
Proof.
  intros Hw Hx x. fold x in Hx. set (v := / (1 + w)).
  assert (Hv : 0 <= v <= 55/100).
  { unfold v. split; [left; apply Rinv_0_lt_compat; lra|]. apply Rmult_le_reg_r with (1 + w); [lra|]. rewrite Rinv_l by lra. lra. }
  assert (Ev : v * (1 + w) = 1) by (unfold v; apply Rinv_l; lra).
  assert (Er : r = x * (1 + w)) by (unfold x; field; lra).
  set (n := stepN x v). pose proof (stepD_near x v Hx Hv) as HD. destruct (stepN_near x v Hx Hv) as (t & En & Ht). fold n in En.
  assert (Hn : Rabs n <= 1005/1000 * Rabs x).
  { rewrite En, Rabs_mult. apply Rabs_le_inv in Ht. rewrite (Rabs_pos_eq (1 + t)) by lra. pose proof (Rabs_pos x). nra. }
  assert (Hn' : -(1/100) <= n <= 1/100) by (apply Rabs_le_inv; lra).
  set (w' := w * (1 + n)). set (r' := (2 * w' * w' - 8 * w' - 1) / (72 * ((1+w)*(1+w)*(1+w)*(1+w)*(1+w)*(1+w))) * r * r * r * r).
  exists w', r', n. split; [|split; [reflexivity|split; [exact Hn|]]].
  { assert (D0 : (1 + w) * (1 + w + 2/3 * r) - r = (1 + w) * (1 + w) * stepD x v).
    { unfold stepD. rewrite Er at 1 2. transitivity ((1 + w) * (1 + w) * (1 + 2/3 * x) - (1 + w) * x * (v * (1 + w))); [rewrite Ev|]; field. }
    assert (Q : n = r / (1 + w) * ((1 + w) * (1 + w + 2/3 * r) - 1/2 * r) / ((1 + w) * (1 + w + 2/3 * r) - r)).
    { rewrite D0. replace ((1 + w) * (1 + w + 2/3 * r) - 1/2 * r) with ((1 + w) * (1 + w) * stepD x v + r / 2) by (rewrite <- D0; field).
      change (r / (1 + w)) with x. rewrite Er. unfold n, stepN. revert HD. generalize (stepD x v). intros d HD. unfold v. field. repeat split; lra. }
    unfold fsc. cbv zeta. cbn [fadd fmul fsub fdiv ROps]. rewrite ?f1_R, ?f2_R. unfold half. cbn [fconst ROps]. unfold Q2R. cbn [Qnum Qden].
    replace (1 * / 2) with (1/2) by lra. replace (2 / (3 * / 1)) with (2/3) by lra. replace (8 * / 1) with 8 by lra. replace (72 * / 1) with 72 by lra.
    rewrite <- Q. fold w'. f_equal. }
  assert (R0 : r - w * n - ln (1 + n) = - (x * x) / (2 * stepD x v) + n - ln (1 + n)).
  { assert (w * n = (1 + w) * n - n) as -> by ring. assert ((1 + w) * n = r + x * x / (2 * stepD x v)) as ->; [|field; lra].
    rewrite Er. unfold n, stepN. transitivity (x * (1 + w) + x * x * (v * (1 + w)) / (2 * stepD x v)); [field; lra|rewrite Ev; field; lra]. }
  assert (R1 : r' = x * x * x * x * ((2 * w' * w' - 8 * w' - 1) / (72 * ((1 + w) * (1 + w))))) by (unfold r'; rewrite Er; field; lra).
  assert (R2 : stepL v = (2 * w * w - 8 * w - 1) / (72 * ((1 + w) * (1 + w)))) by (unfold stepL, v; field; lra).
  pose proof (pos4 x) as P4.
  split.
  - rewrite R0. pose proof (step_res x v Hx Hv) as SR. cbv zeta in SR. fold n in SR.
    replace (- (x * x) / (2 * stepD x v) + n - ln (1 + n) - r') with ((- (x * x) / (2 * stepD x v) + n - ln (1 + n) - x * x * x * x * stepL v) + x * x * x * x * (w * n * (8 - 2 * w * (2 + n)) / (72 * ((1 + w) * (1 + w))))).
    2:{ rewrite R1, R2. unfold w'. field. lra. }
    eapply Rle_trans; [apply Rabs_triang|].
    assert (A : Rabs (x * x * x * x * (w * n * (8 - 2 * w * (2 + n)) / (72 * ((1 + w) * (1 + w))))) <= 6/100 * p5 (Rabs x)); [|lra].
    unfold Rdiv. rewrite !(Rabs_mult (x * x * x * x)), (Rabs_pos_eq _ P4).
    assert (E4 : p5 (Rabs x) = x * x * x * x * Rabs x).
    { unfold p5. assert (S2 : Rabs x * Rabs x = x * x) by (rewrite <- Rabs_mult; apply Rabs_pos_eq; apply Rle_0_sqr).
      replace (Rabs x * Rabs x * Rabs x * Rabs x * Rabs x) with (Rabs x * Rabs x * (Rabs x * Rabs x) * Rabs x) by ring. rewrite S2. ring. }
    rewrite E4. assert (B : Rabs (w * n * (8 - 2 * w * (2 + n)) * / (72 * ((1 + w) * (1 + w)))) <= 6/100 * Rabs x); [|nra].
    rewrite !Rabs_mult, Rabs_inv. rewrite (Rabs_pos_eq w), (Rabs_pos_eq (72 * _)) by nra.
    apply Rmult_le_reg_r with (72 * ((1 + w) * (1 + w))); [nra|]. rewrite Rmult_assoc, Rinv_l by nra. rewrite Rmult_1_r.
    assert (C : Rabs (8 - 2 * w * (2 + n)) <= 8 + 402/100 * w) by (apply Rabs_le; nra).
    pose proof (Rabs_pos x). pose proof (Rabs_pos n). pose proof (Rabs_pos (8 - 2 * w * (2 + n))).
    apply Rle_trans with (w * (1005/1000 * Rabs x) * (8 + 402/100 * w)).
    + apply Rmult_le_compat; try nra. 
    + assert (w * (8 + 402/100 * w) <= 402/100 * ((1 + w) * (1 + w))) by nra. nra.
  - rewrite R1, Rabs_mult, (Rabs_pos_eq _ P4). rewrite (Rmult_comm (6/100)). apply Rmult_le_compat_l; auto.
    unfold Rdiv. rewrite Rabs_mult, Rabs_inv, (Rabs_pos_eq (72 * _)) by nra.
    apply Rmult_le_reg_r with (72 * ((1 + w) * (1 + w))); [nra|]. rewrite Rmult_assoc, Rinv_l by nra. rewrite Rmult_1_r.
    assert (W : 0 <= w' <= 101/100 * w) by (unfold w'; nra). apply Rabs_le. split; nra.
Qed.

(* ---------------- both steps ---------------- *)

Lemma ln_mul1 w n : 0 < w -> -1 < n -> ln (w * (1 + n)) = ln w + ln (1 + n).
Proof. intros. apply ln_mult; lra. Qed.
Lemma two_steps z w : 1 <= w -> Rabs ((z - w - ln w) / (1 + w)) <= 4/1000 ->
  let '(w1, r1) := @fsc ROps w (z - w - ln w) in let '(w2, r2) := @fsc ROps w1 r1 in
  0 < w2 /\ Rabs (w2 + ln w2 - z) <= 6 / 10^13.
Proof.
  intros Hw Hx. set (r := z - w - ln w) in *. destruct (fsc_R w r ltac:(lra) Hx) as (w1 & r1 & n & E & E1 & Hn & HR & Hr). cbv zeta in *. rewrite E.
  set (x := r / (1 + w)) in *. assert (Hn' : -(5/1000) <= n <= 5/1000) by (apply Rabs_le_inv; lra).
  assert (Hw1 : 9/10 <= w1) by (rewrite E1; nra).
  assert (X4 : 0 <= x * x * x * x <= 256 / 10^12).
  { split; [apply pos4|]. assert (S2 : 0 <= x * x <= 16 / 10^6). { apply Rabs_le_inv in Hx. split; nra. } replace (x * x * x * x) with (x * x * (x * x)) by ring. nra. }
  assert (Hr1 : Rabs r1 <= 16 / 10^12) by lra.
  assert (Hx1 : Rabs (r1 / (1 + w1)) <= 16 / 10^12).
  { unfold Rdiv. rewrite Rabs_mult, Rabs_inv, (Rabs_pos_eq (1 + w1)) by lra. apply Rmult_le_reg_r with (1 + w1); [lra|]. rewrite Rmult_assoc, Rinv_l by lra. nra. }
  destruct (fsc_R w1 r1 Hw1 ltac:(lra)) as (w2 & r2 & n1 & F & F1 & Gn & GR & Gr). cbv zeta in *. rewrite F.
  set (x1 := r1 / (1 + w1)) in *. assert (Gn' : -(5/1000) <= n1 <= 5/1000) by (apply Rabs_le_inv; lra).
  assert (Hw2 : 0 < w2) by (rewrite F1; nra). split; auto.
  assert (L1 : ln w1 = ln w + ln (1 + n)) by (rewrite E1; apply ln_mul1; lra).
  assert (L2 : ln w2 = ln w1 + ln (1 + n1)) by (rewrite F1; apply ln_mul1; lra).
  rewrite Rabs_minus_sym.
  replace (z - (w2 + ln w2)) with ((r - w * n - ln (1 + n) - r1) + ((r1 - w1 * n1 - ln (1 + n1) - r2) + r2)) by (rewrite L2, L1, F1; unfold r; rewrite E1; ring).
  assert (B1 : p5 (Rabs x) <= 1024 / 10^15). { eapply Rle_trans; [apply (p5_mono _ (4/1000)); split; [apply Rabs_pos|exact Hx]|]. unfold p5. lra. }
  assert (B2 : p5 (Rabs x1) <= 1 / 10^40). { eapply Rle_trans; [apply (p5_mono _ (16/10^12)); split; [apply Rabs_pos|exact Hx1]|]. unfold p5. lra. }
  assert (B3 : x1 * x1 * x1 * x1 <= 1 / 10^40).
  { assert (S2 : 0 <= x1 * x1 <= 256 / 10^24). { apply Rabs_le_inv in Hx1. split; nra. } replace (x1 * x1 * x1 * x1) with (x1 * x1 * (x1 * x1)) by ring. nra. }
  eapply Rle_trans; [apply Rabs_triang|]. eapply Rle_trans; [apply Rplus_le_compat; [apply HR|apply Rabs_triang]|]. lra.
Qed.

(* ---------------- the starting value, 1 <= z < 1 + pi ---------------- *)

Definition w0s (q : R) : R := 1 + 30713/61440 * q + 1/16 * (q * q) - 1/192 * (q * q * q).
Definition w0s' (q : R) : R := 30713/61440 + 1/8 * q - 1/64 * (q * q).
Definition r0s (q : R) : R := q - (w0s q - 1) - ln (w0s q).
Lemma D_w0s q : derivable_pt_lim w0s q (w0s' q).
Proof.
  unfold w0s, w0s'. eapply D_eq; [repeat first [apply D_minus|apply D_plus|apply D_mult|apply D_const|apply D_id]|cbv beta; field].
Qed.
Lemma w0s_ge q : 0 <= q <= 32/10 -> 1 <= w0s q.
Proof. intros H. unfold w0s. assert (0 <= q * q * (12 - q)) by (apply Rmult_le_pos; nra). nra. Qed.
Lemma D_r0s q : 0 <= q <= 32/10 -> derivable_pt_lim r0s q (1 - w0s' q - w0s' q / w0s q).
Proof.
  intros H. pose proof (w0s_ge q H). unfold r0s.
  eapply D_eq; [repeat first [apply D_w0s|apply D_minus|apply D_ln|apply D_const|apply D_id]; lra|cbv beta; field; lra].
Qed.
Lemma r0s_lo q : 0 <= q <= 32/10 -> - (2/1000 * q) <= r0s q.
Proof.
  intros H. pose proof (mono (fun q => r0s q + 2/1000 * q) (fun q => 1 - w0s' q - w0s' q / w0s q + 2/1000) 0 q ltac:(lra)) as M. cbv beta in M.
  assert (r0s 0 = 0) as Z. { unfold r0s, w0s. replace (1 + 30713 / 61440 * 0 + 1 / 16 * (0 * 0) - 1 / 192 * (0 * 0 * 0)) with 1 by field. rewrite ln_1. lra. }
  rewrite Z in M. assert (0 <= r0s q + 2/1000 * q); [|lra]. eapply Rle_trans; [|apply M]; [lra| |].
  - intros c Hc. eapply D_eq; [apply D_plus; [apply D_r0s; lra|apply D_mult; [apply D_const|apply D_id]]|cbv beta; field; pose proof (w0s_ge c); lra].
  - intros c Hc. pose proof (w0s_ge c ltac:(lra)) as W.
    replace (1 - w0s' c - w0s' c / w0s c + 2/1000) with (((1 - w0s' c + 2/1000) * w0s c - w0s' c) / w0s c) by (field; lra).
    apply divpos; [|lra].
    replace ((1 - w0s' c + 2/1000) * w0s c - w0s' c) with (1711/768000 + c * (94349111/94371840000 + c * (1199/8192000 + c * (-192943/73728000 + c * (5/3072 + c * (-1/12288)))))) by (unfold w0s, w0s'; field).
    match goal with |- _ <= ?t => polybound 8%nat t c 0 (0#1)%Q (32#10)%Q (0#1)%Q (0#1)%Q (0#1)%Q (1#1)%Q B end. lra.
Qed.
Lemma r0s_hi q : 0 <= q <= 32/10 -> r0s q <= 3/10000 * q + 4/100000 * (q * q * q * q * q).
Proof.
  intros H. pose proof (mono (fun q => 3/10000 * q + 4/100000 * (q * q * q * q * q) - r0s q) (fun q => 3/10000 + 2/10000 * (q * q * q * q) - (1 - w0s' q - w0s' q / w0s q)) 0 q ltac:(lra)) as M. cbv beta in M.
  assert (r0s 0 = 0) as Z. { unfold r0s, w0s. replace (1 + 30713 / 61440 * 0 + 1 / 16 * (0 * 0) - 1 / 192 * (0 * 0 * 0)) with 1 by field. rewrite ln_1. lra. }
  rewrite Z in M. assert (0 <= 3/10000 * q + 4/100000 * (q * q * q * q * q) - r0s q); [|lra]. eapply Rle_trans; [|apply M]; [lra| |].
  - intros c Hc. apply D_minus; [|apply D_r0s; lra]. eapply D_eq; [repeat first [apply D_plus|apply D_mult|apply D_const|apply D_id]|cbv beta; field].
  - intros c Hc. pose proof (w0s_ge c ltac:(lra)) as W.
    replace (3/10000 + 2/10000 * (c * c * c * c) - (1 - w0s' c - w0s' c / w0s c)) with (((3/10000 + 2/10000 * (c * c * c * c) - 1 + w0s' c) * w0s c + w0s' c) / w0s c) by (field; lra).
    apply divpos; [|lra].
    replace ((3/10000 + 2/10000 * (c * c * c * c) - 1 + w0s' c) * w0s c + w0s' c) with
      (277/3840000 + c * (70768877/471859200000 + c * (-107/40960000 + c * (960299/368640000 + c * (-2741/1920000 + c * (18571/102400000 + c * (1/80000 + c * (-1/960000)))))))) by (unfold w0s, w0s'; field).
    match goal with |- _ <= ?t => polybound 8%nat t c 0 (0#1)%Q (32#10)%Q (0#1)%Q (0#1)%Q (0#1)%Q (1#1)%Q B end. lra.
Qed.
Lemma small_start q : 0 <= q <= 3142/1000 -> Rabs (r0s q / (1 + w0s q)) <= 4/1000.
Proof.
  intros H. pose proof (w0s_ge q ltac:(lra)) as W. pose proof (r0s_lo q ltac:(lra)) as L. pose proof (r0s_hi q ltac:(lra)) as U.
  unfold Rdiv. rewrite Rabs_mult, Rabs_inv, (Rabs_pos_eq (1 + w0s q)) by lra. apply Rmult_le_reg_r with (1 + w0s q); [lra|]. rewrite Rmult_assoc, Rinv_l, Rmult_1_r by lra.
  apply Rabs_le. split; [lra|]. eapply Rle_trans; [apply U|]. unfold w0s.
  assert (B : 0 <= 4/1000 * (1 + (1 + 30713/61440 * q + 1/16 * (q * q) - 1/192 * (q * q * q))) - (3/10000 * q + 4/100000 * (q * q * q * q * q)) <= 1); [|lra].
  match goal with |- _ <= ?t <= _ => polybound 10%nat t q 0 (0#1)%Q (3142#1000)%Q (0#1)%Q (0#1)%Q (0#1)%Q (1#1)%Q B end. lra.
Qed.

(* ---------------- the starting value, 1 + pi <= z ---------------- *)

Definition T0 (a b : R) : R := a + a * (1/2 * a - b) + a * (1/3 * (a * a) - 3/2 * (a * b) + b * b).
Definition d0 (a b : R) : R := a - b * T0 a b.
Lemma T0_bound a b : 0 <= a <= 344/1000 -> 0 <= b <= 242/1000 -> 0 <= T0 a b <= 5/10 /\ 0 <= d0 a b <= 345/1000.
Proof.
  intros Ha Hb. assert (T : 0 <= T0 a b <= 5/10).
  { unfold T0. match goal with |- _ <= ?t <= _ => replace t with (a * (1 + 1/2 * a - b + 1/3 * (a * a) - 3/2 * (a * b) + b * b)) by field end. split; nra. }
  split; auto. unfold d0. split; [|nra].
  unfold T0. match goal with |- _ <= ?t => replace t with (a * (1 - b * (1 + 1/2 * a - b + 1/3 * (a * a) - 3/2 * (a * b) + b * b))) by field end.
  apply Rmult_le_pos; nra.
Qed.
Lemma poly0 a b : 0 <= a <= 344/1000 -> 0 <= b <= 242/1000 -> - (148/10000) <= d0 a b + 1/2 * (d0 a b * d0 a b) + 1/3 * (d0 a b * d0 a b * d0 a b) - T0 a b <= 8/1000.
Proof.
  intros Ha Hb.
  match goal with |- _ <= ?t <= _ => replace t with
    (a * (b * ((b * (b * (-1/1))) + (a * ((b * ((3/1) + (b * ((-2/1) + (b * ((3/2) + (b * ((-1/1) + (b * (1/2)))))))))) + (a * (((-11/6) + (b * ((4/1) + (b * ((-16/3) + (b * ((6/1) + (b * ((-11/2) + (b * ((10/3) + (b * ((-2/1) + (b * ((1/1) + (b * (-1/3))))))))))))))))) + (a * (((-5/6) + (b * ((71/24) + (b * ((-67/12) + (b * ((191/24) + (b * ((-15/2) + (b * ((11/2) + (b * ((-7/2) + (b * (3/2))))))))))))))) + (a * (((-1/3) + (b * ((13/12) + (b * ((-13/4) + (b * ((16/3) + (b * ((-5/1) + (b * ((53/12) + (b * (-31/12))))))))))))) + (a * ((b * ((7/18) + (b * ((-11/8) + (b * ((41/24) + (b * ((-59/24) + (b * (17/8)))))))))) + (a * ((b * ((1/9) + (b * ((-7/36) + (b * ((11/18) + (b * (-31/36)))))))) + (a * ((b * (b * ((-1/18) + (b * (1/6))))) + (a * (b * (b * (-1/81))))))))))))))))))))) by (unfold d0, T0; field) end.
  match goal with |- _ <= ?t <= _ => polybound 8%nat t a b (0#1)%Q (344#1000)%Q (0#1)%Q (242#1000)%Q (-148#10000)%Q (8#1000)%Q B end. lra.
Qed.
Lemma ln_two : ln 2 <= 6934/10000.
Proof.
  pose proof (ln_up (1/4) ltac:(lra)) as [_ A]. pose proof (ln_up (28/100) ltac:(lra)) as [_ B]. unfold lt4 in *.
  replace 2 with ((1 + 1/4) * ((1 + 1/4) * (1 + 28/100))) by field. rewrite !ln_mult by lra. lra.
Qed.
Lemma ln_tan z c : 0 < c -> 0 < z -> ln z <= ln c + (z - c) / c.
Proof.
  intros Hc Hz. replace z with (c * (1 + (z - c) / c)) at 1 by (field; lra).
  assert (P : 0 < 1 + (z - c) / c) by (replace (1 + (z - c) / c) with (z / c) by (field; lra); apply Rdiv_lt_0_compat; auto).
  rewrite ln_mult by auto. apply Rplus_le_compat_l. pose proof (exp_ineq1_le ((z - c) / c)) as H.
  rewrite <- (ln_exp ((z - c) / c)) at 2. destruct H as [H|H]; [left; apply ln_increasing; auto|right; f_equal; auto].
Qed.
Lemma ratio_le z : 4141/1000 <= z -> 0 <= ln z / z <= 344/1000.
Proof.
  intros Hz. split.
  - apply divpos; [|lra]. rewrite <- ln_1. left. apply ln_increasing; lra.
  - apply Rmult_le_reg_r with z; [lra|]. unfold Rdiv at 1. rewrite Rmult_assoc, Rinv_l, Rmult_1_r by lra.
    pose proof (ln_tan z (4141/1000) ltac:(lra) ltac:(lra)) as H.
    assert (L : ln (4141/1000) <= 14217/10000).
    { replace (4141/1000) with (2 * (2 * (1 + 141/4000))) by field. rewrite !ln_mult by lra. pose proof ln_two. pose proof (ln_up (141/4000) ltac:(lra)) as [_ B]. unfold lt4 in B. lra. }
    eapply Rle_trans; [apply H|]. lra.
Qed.
Definition w0b (z : R) : R := z - ln z + ln z * (1 / z) + ln z * (1 / z) * (1 / z) * (1/2 * ln z - 1)
  + ln z * (1 / z) * (1 / z) * (1 / z) * (1/3 * ln z * ln z - 3/2 * ln z + 1).
Lemma big_start z : 4141/1000 <= z -> 1 <= w0b z /\ Rabs ((z - w0b z - ln (w0b z)) / (1 + w0b z)) <= 4/1000.
Proof.
  intros Hz. pose proof (ratio_le z Hz) as Ha. set (a := ln z / z) in *. set (b := 1 / z).
  assert (Hb : 0 <= b <= 242/1000).
  { unfold b. split; [apply divpos; lra|]. apply Rmult_le_reg_r with z; [lra|]. unfold Rdiv at 1. rewrite Rmult_assoc, Rinv_l by lra. lra. }
  destruct (T0_bound a b Ha Hb) as [HT Hd]. pose proof (poly0 a b Ha Hb) as HP.
  assert (EL : ln z = a * z) by (unfold a; field; lra).
  assert (Ew : w0b z = z * (1 - d0 a b)).
  { unfold w0b. rewrite EL. unfold d0, T0, b. field. lra. }
  assert (ET : z * d0 a b = ln z - T0 a b) by (rewrite EL; unfold d0, b; field; lra).
  assert (W : 271/100 <= w0b z) by (rewrite Ew; nra).
  split; [lra|].
  assert (ER : z - w0b z - ln (w0b z) = - ln (1 - d0 a b) - T0 a b).
  { rewrite Ew, ln_mult by lra. lra. }
  rewrite ER. set (d := d0 a b) in *. pose proof (ln_dn (- d) ltac:(lra)) as [L U]. replace (1 + - d) with (1 - d) in * by ring. unfold lt4 in *.
  assert (D4 : 0 <= d * d * d * d <= 15/1000).
  { split; [apply pos4|]. assert (0 <= d * d <= 12/100) by (split; nra). replace (d * d * d * d) with (d * d * (d * d)) by ring. nra. }
  assert (D5 : d * d * d * d * d <= 6/1000) by nra.
  unfold Rdiv. rewrite Rabs_mult, Rabs_inv, (Rabs_pos_eq (1 + w0b z)) by lra. apply Rmult_le_reg_r with (1 + w0b z); [lra|]. rewrite Rmult_assoc, Rinv_l, Rmult_1_r by lra.
  apply Rabs_le. split; lra.
Qed.

(* ---------------- the function ---------------- *)

Theorem wrightOmega_R z : 1 <= z -> 0 < @wrightOmega ROps z /\ Rabs (@wrightOmega ROps z + ln (@wrightOmega ROps z) - z) <= 6 / 10^13.
Proof.
  intros Hz.
  assert (S2 : forall w, 1 <= w -> Rabs ((z - w - ln w) / (1 + w)) <= 4/1000 ->
    let o := (let '(w1, r1) := @fsc ROps w (z - w - ln w) in let '(w2, r2) := @fsc ROps w1 r1 in w2) in 0 < o /\ Rabs (o + ln o - z) <= 6 / 10^13).
  { intros w H1 H2. pose proof (two_steps z w H1 H2) as H. destruct (@fsc ROps w (z - w - ln w)) as [w1 r1]. destruct (@fsc ROps w1 r1) as [w2 r2]. exact H. }
  unfold wrightOmega. cbv zeta. cbn [flt ROps]. rewrite f0_R. unfold Rltb. destruct (Rlt_dec z 0); [lra|].
  cbn [fadd fmul fsub fdiv flog ROps]. rewrite ?f1_R, ?f2_R. unfold half, M_PI. cbn [fconst ROps].
  destruct (Rlt_dec z _) as [H|H].
  - match goal with |- context [fsc ?w _] => assert (E : w = w0s (z - 1)) by (unfold w0s, Q2R; cbn [Qnum Qden]; field) end.
    rewrite !E. unfold Q2R in H. cbn [Qnum Qden] in H.
    pose proof (small_start (z - 1) ltac:(lra)) as HS. pose proof (w0s_ge (z - 1) ltac:(lra)) as HW. apply (S2 _ HW). unfold r0s in HS. replace (z - w0s (z - 1) - ln (w0s (z - 1))) with (z - 1 - (w0s (z - 1) - 1) - ln (w0s (z - 1))) by ring. exact HS.
  - match goal with |- context [fsc ?w _] => assert (E : w = w0b z) by (unfold w0b, Q2R; cbn [Qnum Qden]; field; lra) end.
    rewrite !E. unfold Q2R in H. cbn [Qnum Qden] in H. destruct (big_start z ltac:(lra)) as [HW HS]. apply (S2 _ HW HS).
Qed.

Lemma ln_lin a b : 0 < a -> 0 < b -> ln a <= ln b + a / b - 1.
Proof. intros Ha Hb. pose proof (ln_tan a b Hb Ha) as H. replace ((a - b) / b) with (a / b - 1) in H by (field; lra). lra. Qed.

(* there is exactly one solution *)
Lemma wright_ex z : 1 <= z -> exists o, 1 <= o /\ wright z o.
Proof.
  intros Hz. destruct (Req_dec z 1) as [->|Hn].
  - exists 1. split; [lra|]. split; [lra|]. rewrite ln_1. lra.
  - assert (Hc : forall a, 1 <= a <= z -> continuity_pt (fun w => w + ln w - z) a).
    { intros a Ha. apply derivable_continuous_pt. exists (1 + / a * 1 - 0). apply D_minus; [apply D_plus; [apply D_id|apply D_ln; [lra|apply D_id]]|apply D_const]. }
    assert (L : 0 < ln z) by (rewrite <- ln_1; apply ln_increasing; lra).
    destruct (Ranalysis5.IVT_interv (fun w => w + ln w - z) 1 z Hc ltac:(lra) ltac:(cbv beta; rewrite ln_1; lra) ltac:(cbv beta; lra)) as (o & Ho & E).
    exists o. split; [lra|]. split; lra.
Qed.
Lemma wright_uniq a b z z' : wright z a -> wright z' b -> Rabs (a - b) <= Rabs (z - z').
Proof.
  assert (K : forall a b z z', wright z a -> wright z' b -> a <= b -> b - a <= z' - z).
  { intros p q t t' [P1 P2] [Q1 Q2] H. destruct H as [H| ->]; [pose proof (ln_increasing p q P1 H); lra|lra]. }
  intros HA HB. destruct (Rle_dec a b) as [H|H].
  - pose proof (K _ _ _ _ HA HB H). rewrite (Rabs_left1 (a - b)), (Rabs_left1 (z - z')) by lra. lra.
  - pose proof (K _ _ _ _ HB HA ltac:(lra)). rewrite (Rabs_pos_eq (a - b)), (Rabs_pos_eq (z - z')) by lra. lra.
Qed.
Lemma wright_gt z o : 1 < z -> wright z o -> 1 < o.
Proof.
  intros Hz [Ho E]. destruct (Rlt_dec 1 o); auto. exfalso. assert (ln o <= 0); [|lra]. rewrite <- ln_1. destruct (Req_dec o 1) as [->|]; [lra|]. left. apply ln_increasing; lra.
Qed.

(* the argument of a point inside the cone *)
Lemma omega_arg_gt x y z : exp_primal_int x y z -> 1 < omega_arg x y z.
Proof.
  intros [Hz Hy]. unfold omega_arg. assert (0 < z * exp (x / z)) by (apply Rmult_lt_0_compat; auto; apply exp_pos).
  assert (L : ln (z * exp (x / z)) < ln y) by (apply ln_increasing; auto). rewrite ln_mult, ln_exp in L by (auto; apply exp_pos). lra.
Qed.

Lemma conj_R x y z o : exp_primal_int x y z -> wright (omega_arg x y z) o -> conjugate x y z (exp_conj o y z).
Proof.
  intros HI Ho. pose proof (wright_gt _ _ (omega_arg_gt _ _ _ HI) Ho) as G. destruct HI as [Hz Hy]. destruct Ho as [Po Eo].
  assert (Py : 0 < y) by (assert (0 < z * exp (x / z)) by (apply Rmult_lt_0_compat; auto; apply exp_pos); lra).
  set (t0 := / (o - 1)). assert (Pt0 : 0 < t0) by (apply Rinv_0_lt_compat; lra).
  assert (E1 : (o - 1) * t0 = 1) by (unfold t0; field; lra).
  assert (EV : - ln ((o - 1) * (o - 1) / o) = ln t0 + ln (t0 + 1)).
  { rewrite <- ln_mult by lra. rewrite <- ln_Rinv by (apply Rdiv_lt_0_compat; nra). f_equal. unfold t0. field. lra. }
  assert (Lo : ln o = ln (t0 + 1) - ln t0).
  { unfold Rminus. rewrite <- ln_Rinv by auto. rewrite <- ln_mult by (try apply Rinv_0_lt_compat; lra). f_equal. unfold t0. field. lra. }
  unfold exp_conj. rewrite EV. unfold omega_arg in Eo.
  split.
  - intros u v w (Hu & Hv & Hr). set (r := w - u - u * ln (- v / u)) in *. set (p := - u). assert (Pp : 0 < p) by (unfold p; lra). set (t := z * p). assert (Pt : 0 < t) by (apply Rmult_lt_0_compat; auto).
    assert (Ew : w = r - p - p * ln (v / p)) by (unfold r, p; replace (v / - u) with (- v / u) by (field; lra); ring).
    assert (Lvp : ln (v / p) = ln v - ln p) by (unfold Rdiv; rewrite ln_mult, ln_Rinv by (auto; apply Rinv_0_lt_compat; auto); ring).
    unfold exp_barrier. fold r. fold p. replace u with (- p) by (unfold p; ring). rewrite Ew, Lvp.
    assert (Lp : ln t = ln z + ln p) by (unfold t; apply ln_mult; auto).
    (* the maximum over r, then v, then t *)
    pose proof (ln_lin r (/ z) Hr ltac:(apply Rinv_0_lt_compat; auto)) as A1. rewrite ln_Rinv in A1 by auto. replace (r / / z) with (z * r) in A1 by (field; lra).
    pose proof (ln_lin v ((t + 1) / y) Hv ltac:(apply Rdiv_lt_0_compat; lra)) as A2.
    assert (Lq : ln ((t + 1) / y) = ln (t + 1) - ln y) by (unfold Rdiv; rewrite ln_mult, ln_Rinv by (try apply Rinv_0_lt_compat; lra); ring). rewrite Lq in A2.
    assert (A2' : (t + 1) * ln v <= (t + 1) * (ln (t + 1) - ln y) + y * v - (t + 1)).
    { replace (y * v) with ((t + 1) * (v / ((t + 1) / y))) by (field; lra). nra. }
    pose proof (ln_lin t t0 Pt Pt0) as A3. assert (t / t0 = t * (o - 1)) as T1 by (unfold t0; field; lra). rewrite T1 in A3.
    pose proof (ln_lin ((t + 1) / t) o ltac:(apply Rdiv_lt_0_compat; lra) Po) as A4.
    assert (Ls : ln ((t + 1) / t) = ln (t + 1) - ln t) by (unfold Rdiv; rewrite ln_mult, ln_Rinv by (try apply Rinv_0_lt_compat; lra); ring). rewrite Ls in A4.
    pose proof (ln_lin (t + 1) (t0 + 1) ltac:(lra) ltac:(lra)) as A5.
    assert (Eo' : o = (t0 + 1) / t0) by (unfold t0; field; lra).
    assert (A4' : t * (ln (t + 1) - ln t) + ln (t + 1) <= t * ln o + ln (t0 + 1)).
    { assert (Q : t * ((t + 1) / t / o - 1) + ((t + 1) / (t0 + 1) - 1) = 0) by (rewrite Eo'; field; repeat split; lra).
      assert (t * (ln (t + 1) - ln t) <= t * (ln o + (t + 1) / t / o - 1)) by (apply Rmult_le_compat_l; lra). lra. }
    assert (X1 : x * p = t * (x / z)) by (unfold t; field; lra).
    assert (X2 : t * (x / z) = t * (1 - ln z + ln y - (o + ln o))) by (f_equal; lra).
    replace (- (x * - p + y * v + z * (r - p - p * (ln v - ln p))) - (- ln r - ln p - ln v)) with
      (x * p - y * v - z * r + t + t * (ln v - ln p) + ln r + ln p + ln v) by (unfold t; ring).
    rewrite X1, X2. replace (ln p) with (ln t - ln z) by lra. lra.
  - set (p := t0 / z). assert (Pp : 0 < p) by (apply Rdiv_lt_0_compat; auto). set (v := (t0 + 1) / y). assert (Pv : 0 < v) by (apply Rdiv_lt_0_compat; lra).
    exists (- p), v, (/ z - p - p * ln (v / p)).
    assert (Evp : - v / - p = v / p) by (field; lra).
    assert (Er : / z - p - p * ln (v / p) - - p - - p * ln (- v / - p) = / z) by (rewrite Evp; ring).
    split; [split; [lra|split; [auto|rewrite Er; apply Rinv_0_lt_compat; auto]]|].
    unfold exp_barrier. rewrite Er, Ropp_involutive, ln_Rinv by auto.
    assert (Lv : ln v = ln (t0 + 1) - ln y) by (unfold v, Rdiv; rewrite ln_mult, ln_Rinv by (try apply Rinv_0_lt_compat; lra); ring).
    assert (Lp : ln p = ln t0 - ln z) by (unfold p, Rdiv; rewrite ln_mult, ln_Rinv by (try apply Rinv_0_lt_compat; lra); ring).
    assert (Lvp : ln (v / p) = ln v - ln p) by (unfold Rdiv; rewrite ln_mult, ln_Rinv by (auto; apply Rinv_0_lt_compat; auto); ring).
    assert (Y1 : y * v = t0 + 1) by (unfold v; field; lra). assert (Z1 : z * p = t0) by (unfold p; field; lra). assert (Z2 : z * / z = 1) by (field; lra).
    assert (X1 : x * p = t0 * (x / z)) by (unfold p; field; lra).
    assert (X2 : x / z = 1 - ln z + ln y - (o + ln o)) by lra.
    replace (- (x * - p + y * v + z * (/ z - p - p * ln (v / p)))) with (x * p - y * v - z * / z + z * p + z * p * ln (v / p)) by ring.
    rewrite X1, X2, Y1, Z1, Z2, Lvp, Lv, Lp, Lo. assert (t0 * o = t0 + 1) by nra. lra.
Qed.

(* the error this makes in the barrier of the exponential cone *)
Lemma ln_near1 t : Rabs t <= 1/2 -> Rabs (ln (1 + t)) <= 2 * Rabs t.
Proof.
  intros H. apply Rabs_le_inv in H. pose proof (ln_lin (1 + t) 1 ltac:(lra) ltac:(lra)) as U. rewrite ln_1 in U.
  pose proof (ln_lin 1 (1 + t) ltac:(lra) ltac:(lra)) as L. rewrite ln_1 in L.
  assert (E : 1 / (1 + t) - 1 = - t / (1 + t)) by (field; lra).
  assert (B : - t / (1 + t) <= 2 * Rabs t).
  { apply Rmult_le_reg_r with (1 + t); [lra|]. replace (- t / (1 + t) * (1 + t)) with (- t) by (field; lra). unfold Rabs. destruct (Rcase_abs t); nra. }
  pose proof (Rle_abs t). pose proof (Rabs_pos t). apply Rabs_le. lra.
Qed.
Lemma conj_near o o' y z : 1 < o -> Rabs (o' - o) <= (o - 1) / 2 -> Rabs (exp_conj o' y z - exp_conj o y z) <= 6 * Rabs (o' - o) / (o - 1).
Proof.
  intros Ho Hd. set (d := o' - o) in *. set (g := o - 1) in *. assert (Hg : 0 < g) by (unfold g; lra). pose proof (Rabs_pos d) as Pd.
  assert (Hd' : - (g / 2) <= d <= g / 2) by (apply Rabs_le_inv; lra).
  assert (Dg : Rabs (d / g) = Rabs d / g) by (unfold Rdiv; rewrite Rabs_mult, Rabs_inv, (Rabs_pos_eq g) by lra; auto).
  assert (Do : Rabs (d / o) = Rabs d / o) by (unfold Rdiv; rewrite Rabs_mult, Rabs_inv, (Rabs_pos_eq o) by lra; auto).
  assert (K : Rabs d / o <= Rabs d / g) by (unfold Rdiv; apply Rmult_le_compat_l; auto; apply Rinv_le_contravar; unfold g; lra).
  assert (Kg : Rabs d / g <= 1/2) by (apply Rmult_le_reg_r with g; auto; unfold Rdiv at 1; rewrite Rmult_assoc, Rinv_l by lra; lra).
  assert (E1 : ln (o' - 1) = ln g + ln (1 + d / g)) by (rewrite <- ln_mult; [f_equal; unfold d, g; field; lra|auto|assert (H := Rle_abs (- (d / g))); rewrite Rabs_Ropp in H; lra]).
  assert (E2 : ln o' = ln o + ln (1 + d / o)) by (rewrite <- ln_mult; [f_equal; unfold d; field; lra|lra|assert (H := Rle_abs (- (d / o))); rewrite Rabs_Ropp in H; lra]).
  assert (L : forall p, 1 < p -> ln ((p - 1) * (p - 1) / p) = 2 * ln (p - 1) - ln p).
  { intros p Hp. unfold Rdiv. rewrite !ln_mult, ln_Rinv by (try apply Rmult_lt_0_compat; try apply Rinv_0_lt_compat; lra). ring. }
  unfold exp_conj. rewrite !L by (unfold d, g in *; lra). rewrite E1, E2. fold g.
  replace (- (2 * (ln g + ln (1 + d / g)) - (ln o + ln (1 + d / o))) - 2 * ln z - ln y - 3 - (- (2 * ln g - ln o) - 2 * ln z - ln y - 3)) with (ln (1 + d / o) - 2 * ln (1 + d / g)) by ring.
  pose proof (ln_near1 (d / g) ltac:(lra)) as N1. pose proof (ln_near1 (d / o) ltac:(lra)) as N2. rewrite Dg in N1. rewrite Do in N2.
  apply Rabs_le_inv in N1, N2. replace (6 * Rabs d / g) with (6 * (Rabs d / g)) by (unfold Rdiv; ring). apply Rabs_le. lra.
Qed.
Lemma conj_close x y z : exp_primal_int x y z -> let m := ln (y / z) - x / z in 1 / 10^11 <= m ->
  exists c, conjugate x y z c /\ Rabs (exp_conj (@wrightOmega ROps (omega_arg x y z)) y z - c) <= 8 / 10^12 / m.
Proof.
  intros HI m Hm. pose proof (omega_arg_gt _ _ _ HI) as HA. destruct (wright_ex _ (Rlt_le _ _ HA)) as (o & Ho & HW).
  exists (exp_conj o y z). split; [apply conj_R; auto|].
  destruct (wrightOmega_R _ (Rlt_le _ _ HA)) as [P R0]. set (w := @wrightOmega ROps (omega_arg x y z)) in *.
  assert (W2 : wright (w + ln w) w) by (split; auto).
  pose proof (wright_uniq _ _ _ _ W2 HW) as D. pose proof (wright_gt _ _ HA HW) as G.
  assert (EA : omega_arg x y z = 1 + m).
  { unfold omega_arg, m. destruct HI as [Hz Hy]. assert (0 < y) by (assert (0 < z * exp (x / z)) by (apply Rmult_lt_0_compat; auto; apply exp_pos); lra).
    assert (E : ln (y / z) = ln y - ln z) by (unfold Rdiv; rewrite ln_mult, ln_Rinv by (try apply Rinv_0_lt_compat; auto); ring). rewrite E. ring. }
  assert (Gm : m / 2 <= o - 1).
  { destruct HW as [_ E]. rewrite EA in E. pose proof (ln_lin o 1 ltac:(lra) ltac:(lra)) as U. rewrite ln_1 in U. lra. }
  eapply Rle_trans; [apply conj_near; auto; lra|].
  apply Rmult_le_reg_r with (o - 1); [lra|]. replace (6 * Rabs (w - o) / (o - 1) * (o - 1)) with (6 * Rabs (w - o)) by (field; lra).
  apply Rle_trans with (8 / 10^12 / m * (m / 2)); [replace (8 / 10^12 / m * (m / 2)) with (4 / 10^12) by (field; lra); lra|].
  apply Rmult_le_compat_l; auto. apply divpos; lra.
Qed.
