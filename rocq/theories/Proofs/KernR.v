(* Conic product and division, starting points and the expanded scaling, in
   exact arithmetic. *)
From Coq Require Import List Arith Bool ZArith Reals QArith Qreals Lia Lra.
From Verif Require Import Base Num.
From Verif.Spec Require Import Matrix Conic Jordan.
From Verif.Model Require Import Spla Types Consts Expcone Cone.
From Verif.Proofs Require Import LoopLib ConeP ScalP Scal2P RotP ConeR NtR LineR.
Import ListNotations.
Open Scope R_scope.

(* -------------------------------------------------------- product, division *)
Lemma cprod_R u v p i : @cprod_f ROps u v p i = jprod p u v i.
Proof. unfold cprod_f, jprod. rewrite dot_R. unR. destruct i; reflexivity. Qed.

Lemma cabs_R x : @cabs ROps x = Rabs x.
Proof.
  unfold cabs. unR. destruct (Rltb_spec x 0).
  - rewrite Rabs_left; auto.
  - rewrite Rabs_right; auto. lra.
Qed.

Lemma cdiv_R u w p i : (1 <= p)%nat -> EPSR <= u 0%nat -> EPSR <= det p u ->
  @cdiv_f ROps u w p i = if Nat.eqb i 0 then (u 0%nat * w 0%nat - dotp (p - 1) (from 1 u) (from 1 w)) / det p u
    else (dotp (p - 1) (from 1 u) (from 1 w) / u 0%nat - w 0%nat) / det p u * u i + w i / u 0%nat.
Proof.
  intros Hp H0 H1. unfold cdiv_f. rewrite socres_R by auto. unR.
  rewrite (nfold_plus 1 (p - 1) (fun j => u j * w j)). rewrite Rplus_0_l.
  rewrite !safediv_R by auto. unfold dotp, from. reflexivity.
Qed.

Section Div.
Variables (p : nat) (u w : nat -> R).
Hypothesis Hp : (1 <= p)%nat.
Hypothesis H0 : 0 < u 0%nat.
Hypothesis H1 : 0 < det p u.
Definition quo (i : nat) : R :=
  if Nat.eqb i 0 then (u 0%nat * w 0%nat - dotp (p - 1) (from 1 u) (from 1 w)) / det p u
  else (dotp (p - 1) (from 1 u) (from 1 w) / u 0%nat - w 0%nat) / det p u * u i + w i / u 0%nat.

Lemma quo_prod i : (i < p)%nat -> jprod p u quo i = w i.
Proof.
  intros Hi. unfold jprod. set (z := dotp (p - 1) (from 1 u) (from 1 w)).
  assert (Z: dotp (p - 1) (from 1 u) (from 1 quo) = (z / u 0%nat - w 0%nat) / det p u * (u 0%nat * u 0%nat - det p u) + z / u 0%nat).
  { rewrite (dotp_ext _ (from 1 u) (from 1 u) (from 1 quo) (fun j => (z / u 0%nat - w 0%nat) / det p u * from 1 u j + / u 0%nat * from 1 w j)); auto.
    - rewrite dotp_add_r, !dotp_scal_r. fold z. replace (dotp (p - 1) (from 1 u) (from 1 u)) with (u 0%nat * u 0%nat - det p u) by (rewrite det_dot; ring). unfold Rdiv. ring.
    - intros j Hj. unfold from, quo. cbn [Nat.eqb Nat.add]. fold z. unfold Rdiv. ring. }
  destruct i.
  - rewrite dotp_first by auto. rewrite Z. unfold quo at 1. cbn [Nat.eqb]. fold z. field. lra.
  - unfold quo. cbn [Nat.eqb]. fold z. field. lra.
Qed.
End Div.

Lemma jprod_quo p u v w i : (1 <= p)%nat -> 0 < u 0%nat -> 0 < det p u -> (i < p)%nat ->
  (forall j, (j < p)%nat -> w j = jprod p u v j) -> quo p u w i = v i.
Proof.
  intros Hp H0 H1 Hi E.
  assert (W0: w 0%nat = u 0%nat * v 0%nat + dotp (p - 1) (from 1 u) (from 1 v)).
  { rewrite E by lia. cbn [jprod]. apply dotp_first; auto. }
  assert (Z: dotp (p - 1) (from 1 u) (from 1 w) = u 0%nat * dotp (p - 1) (from 1 u) (from 1 v) + v 0%nat * (u 0%nat * u 0%nat - det p u)).
  { rewrite (dotp_ext _ (from 1 u) (from 1 u) (from 1 w) (fun j => u 0%nat * from 1 v j + v 0%nat * from 1 u j)); auto.
    - rewrite dotp_add_r, !dotp_scal_r. rewrite det_dot. ring.
    - intros j Hj. unfold from. rewrite E by lia. cbn [jprod Nat.add]. reflexivity. }
  unfold quo. rewrite Z, W0. set (x := dotp _ _ _).
  destruct (Nat.eqb_spec i 0) as [->|N].
  - field. lra.
  - rewrite (E i) by auto. destruct i; [lia|]. cbn [jprod]. field. lra.
Qed.

(* ----------------------------------------------------------------- bring2cone *)
Lemma b2c_lp_R C rf : - (99 / 100) <= @b2c_lp ROps C rf /\ forall i, (i < @lpp ROps C)%nat -> rf i <= 0 -> - rf i <= @b2c_lp ROps C rf.
Proof.
  unfold b2c_lp. rewrite GAMMA_R. unR.
  assert (G: forall n lo m, let f := nfold lo n (fun i alpha => if (Rleb (rf i) 0 && Rltb alpha (- rf i))%bool then - rf i else alpha) m in
     m <= f /\ forall i, (lo <= i < lo + n)%nat -> rf i <= 0 -> - rf i <= f).
  { induction n; intros lo m; cbn [nfold]; [split; [lra|intros; lia]|].
    match goal with |- context [nfold _ n _ ?x] => set (m' := x); destruct (IHn (Datatypes.S lo) m') as [A B] end.
    assert (M: m <= m' /\ (rf lo <= 0 -> - rf lo <= m')).
    { unfold m'. destruct (Rleb_spec (rf lo) 0); destruct (Rltb_spec m (- rf lo)); cbn [andb]; lra. }
    split; [lra|]. intros i Hi Hr. destruct (Nat.eq_dec i lo) as [->|]; [|apply B; auto; lia]. lra. }
  destruct (G (@lpp ROps C) 0%nat (- (99 / 100))) as [A B]. split; [exact A|]. intros i Hi. apply B. lia.
Qed.

Lemma b2c_res_R (c : socone R) r : @b2c_res ROps c r = r 0%nat - nrm (so_p c - 1) (from 1 r).
Proof.
  unfold b2c_res. unR. rewrite (nfold_plus 1 (so_p c - 1) (fun j => r j * r j)). rewrite Rplus_0_l. reflexivity.
Qed.

Lemma b2c_alpha_R C rf : - (99 / 100) <= @b2c_alpha ROps C rf /\
  (forall i, (i < @lpp ROps C)%nat -> rf i <= 0 -> - rf i <= @b2c_alpha ROps C rf) /\
  forall k c, In (k, c) (@blocks ROps C) -> rf k <= nrm (so_p c - 1) (from 1 (from k rf)) ->
     nrm (so_p c - 1) (from 1 (from k rf)) - rf k <= @b2c_alpha ROps C rf.
Proof.
  unfold b2c_alpha.
  assert (G: forall l m, let f := fold_left (fun alpha '(k, c) => @b2c_step ROps rf k c alpha) l m in m <= f /\
     forall k c, In (k, c) l -> rf k <= nrm (so_p c - 1) (from 1 (from k rf)) -> nrm (so_p c - 1) (from 1 (from k rf)) - rf k <= f).
  { induction l as [|[k c] t IH]; intros m; cbn [fold_left]; [split; [lra|intros ? ? []]|].
    match goal with |- context [fold_left _ t ?x] => set (m' := x); destruct (IH m') as [A B] end.
    assert (M: m <= m' /\ (rf k <= nrm (so_p c - 1) (from 1 (from k rf)) -> nrm (so_p c - 1) (from 1 (from k rf)) - rf k <= m')).
    { unfold m', b2c_step. change (@sh ROps k rf) with (from k rf). rewrite b2c_res_R. unR.
      replace (from k rf 0%nat) with (rf k) by (unfold from; f_equal; lia). set (n := nrm _ _).
      destruct (Rleb_spec (rf k - n) 0); destruct (Rltb_spec m (- (rf k - n))); cbn [andb]; lra. }
    split; [lra|]. intros k' c' [E|H] Hr; [|apply B; auto]. injection E as <- <-. lra. }
  destruct (b2c_lp_R C rf) as [A B]. destruct (G (@blocks ROps C) (@b2c_lp ROps C rf)) as [A' B'].
  split; [lra|]. split; [|exact B']. intros i Hi Hr. specialize (B i Hi Hr). lra.
Qed.

(* every coordinate of the result is at least this far inside *)
Lemma bring2cone_R C l q e r rf s : @cone_of ROps C l q e -> vec r (@hsize ROps C) rf -> (@hsize ROps C <= length s)%nat ->
  exists s' sf, @bring2cone ROps C r s = Some s' /\ length s' = length s /\ vec s' (@hsize ROps C) sf /\ int_K l q sf.
Proof.
  intros [SH EL EQ EE] Hr Hl. subst l q.
  destruct (@bring2cone_eq ROps C r rf s (@sh_pos ROps C SH) Hr Hl) as (s' & E & FI).
  exists s', (gd 0 s'). destruct FI as (L & A & B & D). split; [auto|]. split; [auto|].
  assert (V: vec s' (@hsize ROps C) (gd 0 s')).
  { rewrite <- f0_R. eapply (@filled_vec ROps C). split; [exact L|]. split; [exact A|]. split; [exact B|exact D]. }
  split; auto. destruct (b2c_alpha_R C rf) as (X & Y & Z). set (al := @b2c_alpha ROps C rf) in *.
  constructor.
  - intros i Hi. unfold gd. rewrite A by auto. unR. destruct (Rle_dec (rf i) 0); [specialize (Y i Hi r0)|]; lra.
  - intros k p Hin. apply layout_blocks in Hin as (c & Hc & <-).
    pose proof (@sh_pos ROps C SH c ltac:(apply (@blocks_in ROps C k c Hc))) as P.
    assert (G: forall i, (i < so_p c)%nat -> from k (gd 0 s') i = if Nat.eqb i 0 then rf k + (al + 1) else rf (k + i)%nat).
    { intros i Hi. unfold from, gd. pose proof (B k c i Hc Hi) as G. unR. rewrite G. reflexivity. }
    unfold int_soc. rewrite (G 0%nat) by lia. cbn [Nat.eqb].
    rewrite (nrm_ext _ _ (from 1 (from k rf))).
    2:{ intros i Hi. unfold from at 1. rewrite (G (1 + i)%nat) by lia. cbn [Nat.eqb Nat.add]. reflexivity. }
    set (n := nrm _ _). destruct (Rle_dec (rf k) n) as [r0|]; [specialize (Z k c Hc r0); fold n in Z|]; lra.
Qed.

Lemma expray_R : @list_fun ROps (@expray ROps) 0 = -1051383945322714 / 1000000000000000 /\
  @list_fun ROps (@expray ROps) 1 = 1258967884768947 / 1000000000000000 /\
  @list_fun ROps (@expray ROps) 2 = 556409619469370 / 1000000000000000.
Proof. unfold list_fun, expray. cbn [nth]. cbn. unfold Q2R. cbn. repeat split; lra. Qed.

Lemma exp_neg_lt1 x : x < 0 -> exp x < 1.
Proof. intros H. rewrite <- exp_0. apply exp_increasing; auto. Qed.

Lemma expray_int : int_exp (@list_fun ROps (@expray ROps)) /\ int_expd (@list_fun ROps (@expray ROps)).
Proof.
  destruct expray_R as (A & B & D). unfold int_exp, int_expd. rewrite A, B, D. split.
  - split; [lra|]. match goal with |- _ * exp ?x < _ => pose proof (exp_neg_lt1 x ltac:(lra)); pose proof (exp_pos x); set (y := exp x) in * end. lra.
  - split; [lra|]. match goal with |- _ * exp ?x < _ => pose proof (exp_neg_lt1 x ltac:(lra)); pose proof (exp_pos x); set (y := exp x) in * end.
    pose proof (exp_ineq1 1 ltac:(lra)). set (z := exp 1) in *. lra.
Qed.

(* ------------------------------------------------------ the expanded scaling *)
(* fields of a cone whose expansion is exact *)
Record good_exp (c : socone R) : Prop := {
  ge_good : good_soc c;
  ge_es : oscR (so_eta_square c) = oscR (so_eta c) * oscR (so_eta c);
  ge_00 : oscR (so_d1 c) + oscR (so_u0 c) * oscR (so_u0 c) = 2 * oscR (so_a c) * oscR (so_a c) - 1;
  ge_01 : oscR (so_u0 c) * oscR (so_u1 c) = 2 * oscR (so_a c);
  ge_11 : oscR (so_u1 c) * oscR (so_u1 c) - oscR (so_v1 c) * oscR (so_v1 c) = 2
}.

Lemma qtx_R (c : socone R) x : @qtx_f ROps c x = dotp (so_p c - 1) (qv c) (from 1 x).
Proof.
  unfold qtx_f. unR. rewrite (nfold_plus 0 (so_p c - 1) (fun i => qv c i * x (1 + i)%nat)). rewrite Rplus_0_l. reflexivity.
Qed.

(* eliminating the two extra coordinates of a block leaves the squared scaling *)
Lemma expansion_block (c : socone R) x : good_exp c ->
  @s2_f ROps c x (so_p c) = 0 -> @s2_f ROps c x (so_p c + 1) = 0 ->
  forall i, (i < so_p c)%nat -> @s2_f ROps c x i =
    oscR (so_eta c) * rot (so_p c) (oscR (so_a c)) (qv c) (fun j => oscR (so_eta c) * rot (so_p c) (oscR (so_a c)) (qv c) x j) i.
Proof.
  intros [[P A E H] ES E00 E01 E11] R3 R4 i Hi. rewrite rot_lin, rot_sq by auto.
  unfold s2_f in R3, R4 |- *. rewrite !qtx_R in *. pose proof EPS_pos as EP.
  set (q := dotp (so_p c - 1) (qv c) (from 1 x)) in *.
  unR. rewrite Nat.eqb_refl in R3. destruct (Nat.eqb_spec (so_p c) 0); [lia|]. rewrite Nat.ltb_irrefl in R3.
  destruct (Nat.eqb_spec (so_p c + 1) 0); [lia|]. destruct (Nat.ltb_spec (so_p c + 1) (so_p c)); [lia|].
  destruct (Nat.eqb_spec (so_p c + 1) (so_p c)); [lia|]. unR.
  rewrite ES in *. set (e := oscR (so_eta c)) in *. set (a := oscR (so_a c)) in *.
  set (u0 := oscR (so_u0 c)) in *. set (u1 := oscR (so_u1 c)) in *. set (v1 := oscR (so_v1 c)) in *. set (d1 := oscR (so_d1 c)) in *.
  assert (EE: e * e <> 0) by nra.
  assert (X3: x (so_p c) = - v1 * q). { apply Rmult_integral in R3 as [R3|R3]; [contradiction|]. lra. }
  assert (X4: x (so_p c + 1)%nat = u0 * x 0%nat + u1 * q). { apply Rmult_integral in R4 as [R4|R4]; [contradiction|]. lra. }
  rewrite X3, X4.
  destruct (Nat.eqb_spec i 0) as [->|N].
  - replace (2 * a * (a * x 0%nat + q) - x 0%nat) with ((2 * a * a - 1) * x 0%nat + (2 * a) * q) by ring.
    rewrite <- E00, <- E01. ring.
  - destruct (Nat.ltb_spec i (so_p c)); [|lia].
    replace (v1 * (- v1 * q) + u1 * (u0 * x 0%nat + u1 * q)) with ((u0 * u1) * x 0%nat + (u1 * u1 - v1 * v1) * q) by ring.
    rewrite E01, E11. ring.
Qed.

(* the extra rows vanish for exactly one choice of the extra coordinates *)
Lemma expansion_solvable (c : socone R) x : good_exp c ->
  x (so_p c) = - oscR (so_v1 c) * dotp (so_p c - 1) (qv c) (from 1 x) ->
  x (so_p c + 1)%nat = oscR (so_u0 c) * x 0%nat + oscR (so_u1 c) * dotp (so_p c - 1) (qv c) (from 1 x) ->
  @s2_f ROps c x (so_p c) = 0 /\ @s2_f ROps c x (so_p c + 1) = 0.
Proof.
  intros [[P A E H] ES E00 E01 E11] X3 X4.
  unfold s2_f. rewrite !qtx_R in *.
  set (q := dotp (so_p c - 1) (qv c) (from 1 x)) in *.
  unR. rewrite Nat.eqb_refl. destruct (Nat.eqb_spec (so_p c) 0); [lia|]. rewrite Nat.ltb_irrefl.
  destruct (Nat.eqb_spec (so_p c + 1) 0); [lia|]. destruct (Nat.ltb_spec (so_p c + 1) (so_p c)); [lia|].
  destruct (Nat.eqb_spec (so_p c + 1) (so_p c)); [lia|]. unR. rewrite X3, X4. split; ring.
Qed.

Lemma upd_expansion (c : socone R) s z : (1 <= so_p c)%nat -> @soc_upd ROps s z c ->
  int_soc (so_p c) s -> int_soc (so_p c) z -> EPSR * EPSR <= det (so_p c) s -> EPSR * EPSR <= det (so_p c) z ->
  EPSR * EPSR * (EPSR * EPSR) * det (so_p c) z <= det (so_p c) s -> good_exp c.
Proof.
  intros P U Is Iz Ms Mz Mr. destruct (upd_block c s z P U Is Iz Ms Mz Mr) as [G _].
  pose proof (blk_a1 _ _ _ P Is Iz Ms Mz) as A1. pose proof (blk_w _ _ _ P Is Iz Ms Mz) as BW.
  destruct U. unR. constructor; [exact G|..]; rewrite ?su_a, ?su_es, ?su_eta, ?su_d1, ?su_u0, ?su_u1, ?su_v1; cbn [osc]; rewrite ?BW.
  - rewrite eta_sq by auto. apply es_R; auto.
  - rewrite exp_00 by auto. reflexivity.
  - apply exp_01; auto.
  - apply exp_11; auto.
Qed.
