(* Numbers of moderate size: nothing overflows, and the vectors returned are
   close to the point they were computed from. *)
From Coq Require Import List Arith Bool ZArith Reals Lia Lra.
From Verif Require Import Base Num.
From Verif.Model Require Import Spla.
From Verif.Spec Require Import Matrix Conic Certificate Rounding.
From Verif.Proofs Require Import SplaP RoundA RoundP.
Open Scope R_scope.

Section Back.
Context {O : Ops} (phi : F -> option R).
Variables (u eta Om : R) (H : rounds O phi u eta Om).
Variable D : R.
Hypothesis (Du : u <= / 64) (De : eta <= / 64) (D1 : 1 <= D) (DO : D * D <= Om) (Dd : D * D * eta <= / 4).

(* x_i: returned r = v / (e * t) *)
Lemma back_div v e t r ev tv : phi (fdiv v (fmul e t)) = Some r -> phi e = Some ev -> phi t = Some tv ->
  0 < ev <= D -> 0 < tv <= D -> Rabs r <= D ->
  exists vv, phi v = Some vv /\ Rabs (vv - r * (ev * tv)) <= 4 * u * Rabs (r * (ev * tv)) + 8 * eta * (D * D) /\ Rabs vv <= 16 * (D * D * D).
Proof.
  intros E Ee Et He Ht Hr. pose proof (rn_u _ _ _ _ _ H) as U0. pose proof (rn_eta _ _ _ _ _ H) as E0.
  assert (P0 : 0 < ev * tv) by (apply Rmult_lt_0_compat; lra).
  assert (PD : ev * tv <= D * D) by (apply Rmult_le_compat; lra).
  assert (DD : D <= D * D) by (pose proof (Rmult_le_compat_r D 1 D ltac:(lra) D1); lra).
  destruct (rn_mul_fin _ _ _ _ _ H e t ev tv Ee Et) as (q & Eq). { rewrite Rabs_pos_eq by lra. lra. }
  destruct (rn_mul _ _ _ _ _ H e t q Eq) as (x1 & y1 & X1 & Y1 & Bq).
  rewrite Ee in X1. rewrite Et in Y1. injection X1 as <-. injection Y1 as <-.
  rewrite (Rabs_pos_eq (ev * tv)) in Bq by lra.
  destruct (rn_div _ _ _ _ _ H v (fmul e t) r q E Eq) as (vv & Ev & Nq & Bv).
  exists vv. split; [exact Ev|].
  set (g := ev * tv) in *. clearbody g.
  assert (Bv' : Rabs (r * q - vv) <= u * Rabs vv + eta * Rabs q).
  { replace (r * q - vv) with ((r - vv / q) * q) by (field; auto). rewrite Rabs_mult.
    apply Rle_trans with ((u * Rabs (vv / q) + eta) * Rabs q).
    - apply Rmult_le_compat_r; [apply Rabs_pos|exact Bv].
    - rewrite Rmult_plus_distr_r, Rmult_assoc, <- Rabs_mult. replace (vv / q * q) with vv by (field; auto). lra. }
  assert (Bq' : Rabs q <= 2 * (D * D)).
  { apply Rle_trans with (g + (u * g + eta)).
    - replace q with (g + (q - g)) by ring. eapply Rle_trans; [apply Rabs_triang|]. rewrite (Rabs_pos_eq g) by lra. lra.
    - assert (u * g <= / 64 * (D * D)) by (apply Rmult_le_compat; lra). lra. }
  assert (Bx : Rabs (r * q - r * g) <= u * Rabs (r * g) + D * eta).
  { replace (r * q - r * g) with (r * (q - g)) by ring. rewrite !Rabs_mult, (Rabs_pos_eq g) by lra.
    apply Rle_trans with (Rabs r * (u * g + eta)); [apply Rmult_le_compat_l; [apply Rabs_pos|exact Bq]|].
    assert (Rabs r * eta <= D * eta) by (apply Rmult_le_compat_r; lra). lra. }
  assert (Ba : Rabs (r * g) <= D * (D * D)).
  { rewrite Rabs_mult, (Rabs_pos_eq g) by lra. apply Rmult_le_compat; try lra. apply Rabs_pos. }
  set (a := r * g) in *. clearbody a.
  assert (Bd : Rabs (vv - a) <= u * Rabs vv + eta * Rabs q + (u * Rabs a + D * eta)).
  { replace (vv - a) with (- (r * q - vv) + (r * q - a)) by ring. eapply Rle_trans; [apply Rabs_triang|].
    rewrite Rabs_Ropp. lra. }
  assert (Bvv : Rabs vv <= Rabs a + Rabs (vv - a)).
  { replace vv with (a + (vv - a)) at 1 by ring. apply Rabs_triang. }
  pose proof (Rabs_pos a) as Pa. pose proof (Rabs_pos (vv - a)) as Pv.
  assert (F1 : u * Rabs vv <= u * Rabs a + / 64 * Rabs (vv - a)).
  { apply Rle_trans with (u * (Rabs a + Rabs (vv - a))); [apply Rmult_le_compat_l; lra|].
    assert (u * Rabs (vv - a) <= / 64 * Rabs (vv - a)) by (apply Rmult_le_compat_r; lra). lra. }
  assert (F2 : eta * Rabs q <= 2 * eta * (D * D)).
  { apply Rle_trans with (eta * (2 * (D * D))); [apply Rmult_le_compat_l; lra|lra]. }
  assert (F3 : D * eta <= eta * (D * D)).
  { rewrite Rmult_comm. apply Rmult_le_compat_l; lra. }
  assert (F0 : 0 <= u * Rabs a) by (apply Rmult_le_pos; lra).
  assert (F4 : 0 <= eta * (D * D)) by (apply Rmult_le_pos; [lra|]; lra).
  assert (M : Rabs (vv - a) <= 4 * u * Rabs a + 8 * eta * (D * D)) by lra.
  split; [exact M|].
  assert (F5 : u * Rabs a <= / 64 * (D * (D * D))) by (apply Rmult_le_compat; lra).
  assert (F6 : 1 <= D * (D * D)). { pose proof (Rmult_le_compat_r (D * D) 1 D ltac:(lra) D1). lra. }
  lra.
Qed.

(* s_i: returned r = v * (e / t) *)
Lemma back_mul v e t r ev tv : phi (fmul v (fdiv e t)) = Some r -> phi e = Some ev -> phi t = Some tv ->
  / D <= ev <= D -> / D <= tv <= D -> Rabs r <= D ->
  exists vv, phi v = Some vv /\ Rabs (r - vv * (ev / tv)) <= 4 * u * Rabs (vv * (ev / tv)) + eta * (1 + 2 * Rabs vv) /\ Rabs vv <= 16 * (D * D * D).
Proof.
  intros E Ee Et He Ht Hr. pose proof (rn_u _ _ _ _ _ H) as U0. pose proof (rn_eta _ _ _ _ _ H) as E0.
  assert (PI : 0 < / D) by (apply Rinv_0_lt_compat; lra).
  assert (DD : D <= D * D) by (pose proof (Rmult_le_compat_r D 1 D ltac:(lra) D1); lra).
  assert (PT : / D <= / tv <= D).
  { split; [apply Rinv_le_contravar; lra|]. rewrite <- (Rinv_inv D). apply Rinv_le_contravar; lra. }
  assert (P0 : 0 < ev / tv) by (apply Rmult_lt_0_compat; lra).
  assert (PD : ev / tv <= D * D) by (apply Rmult_le_compat; lra).
  assert (PL : / (D * D) <= ev / tv). { rewrite Rinv_mult. apply Rmult_le_compat; lra. }
  destruct (rn_div_fin _ _ _ _ _ H e t ev tv Ee Et ltac:(lra)) as (q & Eq). { rewrite Rabs_pos_eq by lra. lra. }
  destruct (rn_div _ _ _ _ _ H e t q tv Eq Et) as (x1 & X1 & _ & Bq).
  rewrite Ee in X1. injection X1 as <-. rewrite (Rabs_pos_eq (ev / tv)) in Bq by lra.
  destruct (rn_mul _ _ _ _ _ H v (fdiv e t) r E) as (vv & y1 & Ev & Y1 & Bv).
  rewrite Eq in Y1. injection Y1 as <-.
  exists vv. split; [exact Ev|].
  set (g := ev / tv) in *. clearbody g.
  pose proof (Rabs_pos vv) as Pv. pose proof (Rabs_pos (vv * g)) as Pg.
  assert (Bx : Rabs (vv * q - vv * g) <= u * Rabs (vv * g) + Rabs vv * eta).
  { replace (vv * q - vv * g) with (vv * (q - g)) by ring. rewrite !Rabs_mult, (Rabs_pos_eq g) by lra.
    apply Rle_trans with (Rabs vv * (u * g + eta)); [apply Rmult_le_compat_l; [lra|exact Bq]|]. lra. }
  assert (Bw : Rabs (vv * q) <= Rabs (vv * g) + Rabs (vv * q - vv * g)).
  { replace (vv * q) with (vv * g + (vv * q - vv * g)) at 1 by ring. apply Rabs_triang. }
  assert (Pe : 0 <= Rabs vv * eta) by (apply Rmult_le_pos; lra).
  assert (Pu : 0 <= u * Rabs (vv * g)) by (apply Rmult_le_pos; lra).
  split.
  - replace (r - vv * g) with ((r - vv * q) + (vv * q - vv * g)) by ring. eapply Rle_trans; [apply Rabs_triang|].
    assert (F1 : u * Rabs (vv * q) <= u * Rabs (vv * g) + / 64 * (u * Rabs (vv * g) + Rabs vv * eta)).
    { apply Rle_trans with (u * (Rabs (vv * g) + Rabs (vv * q - vv * g))); [apply Rmult_le_compat_l; lra|].
      assert (u * Rabs (vv * q - vv * g) <= / 64 * (u * Rabs (vv * g) + Rabs vv * eta)).
      { apply Rmult_le_compat; try lra. apply Rabs_pos. }
      lra. }
    lra.
  - assert (L : / 2 * / (D * D) <= q).
    { assert (PDD : 1 <= D * D) by lra.
      assert (G1 : q >= g - (u * g + eta)). { pose proof (Rle_abs (- (q - g))) as AA. rewrite Rabs_Ropp in AA. lra. }
      assert (G2 : u * g <= / 64 * g) by (apply Rmult_le_compat_r; lra).
      assert (G3 : eta <= / 4 * / (D * D)).
      { apply Rmult_le_reg_l with (D * D); [lra|]. replace (D * D * (/ 4 * / (D * D))) with (/ 4) by (field; lra). lra. }
      lra. }
    assert (PDI : 0 < / (D * D)) by (apply Rinv_0_lt_compat; lra).
    assert (W : Rabs (vv * q) <= 2 * D + 1).
    { assert (W1 : Rabs (vv * q) <= Rabs r + Rabs (r - vv * q)).
      { replace (vv * q) with (r + - (r - vv * q)) at 1 by ring. eapply Rle_trans; [apply Rabs_triang|]. rewrite Rabs_Ropp. lra. }
      assert (W2 : u * Rabs (vv * q) <= / 64 * Rabs (vv * q)) by (apply Rmult_le_compat_r; [apply Rabs_pos|lra]).
      lra. }
    rewrite Rabs_mult, (Rabs_pos_eq q) in W by lra.
    assert (W3 : Rabs vv * (/ 2 * / (D * D)) <= 2 * D + 1).
    { eapply Rle_trans; [apply Rmult_le_compat_l; [lra|exact L]|exact W]. }
    apply (Rmult_le_compat_r (2 * (D * D))) in W3; [|lra].
    replace (Rabs vv * (/ 2 * / (D * D)) * (2 * (D * D))) with (Rabs vv) in W3 by (field; lra).
    assert (D * D <= D * D * D) by (pose proof (Rmult_le_compat_l (D * D) 1 D ltac:(lra) D1); lra).
    lra.
Qed.
End Back.

(* ------------------------------------------------------------ no overflow *)
Lemma Rsum_bound k f C : (forall i, (i < k)%nat -> f i <= C) -> Rsum k f <= INR k * C.
Proof.
  intros L. induction k as [|k IH]; [cbn; lra|]. rewrite S_INR. cbn [Rsum].
  pose proof (L k ltac:(lia)). specialize (IH ltac:(intros; apply L; lia)). lra.
Qed.

Section Tame.
Variables (P : problem) (A G : spmat R).
Let n := pb_n P. Let p := pb_p P. Let m := pb_m P.
Variables (om D B tau : R) (K : nat) (x y z s : nat -> R).
Let V := 16 * (D * D * D).
Hypothesis (HK : (1 <= K)%nat) (Hom : 0 <= om <= / 64) (HD : 1 <= D) (HB : 64 * (INR K * INR K) * (D * D * D * D * D) <= B).
Hypothesis (Hn : (n <= K)%nat) (Hp : (p <= K)%nat) (Hm : (m <= K)%nat).
Hypothesis (WG : wf_sp G) (Gn : sp_n G = n) (Gk : (sp_nnz G <= K)%nat) (Ge : forall k, (k < sp_nnz G)%nat -> Rabs (gd 0 (sp_pr G) k) <= D).
Hypothesis (WA : (0 < p)%nat -> wf_sp A /\ sp_n A = n /\ (sp_nnz A <= K)%nat /\ forall k, (k < sp_nnz A)%nat -> Rabs (gd 0 (sp_pr A) k) <= D).
Hypothesis (Hc : forall i, (i < n)%nat -> Rabs (pb_c P i) <= D) (Hb : forall i, (i < p)%nat -> Rabs (pb_b P i) <= D) (Hh : forall i, (i < m)%nat -> Rabs (pb_h P i) <= D).
Hypothesis (Ht : / D <= tau <= D).
Hypothesis (Hx : forall i, (i < n)%nat -> Rabs (x i) <= V) (Hy : forall i, (i < p)%nat -> Rabs (y i) <= V)
  (Hz : forall i, (i < m)%nat -> Rabs (z i) <= V) (Hs : forall i, (i < m)%nat -> Rabs (s i) <= V).

Lemma jc_nnz (M : spmat R) j : wf_sp M -> (j <= sp_n M)%nat -> (gd 0%nat (sp_jc M) j <= sp_nnz M)%nat.
Proof.
  intros W Hj. rewrite <- (wf_nnz _ W). remember (sp_n M - j)%nat as d eqn:Ed. revert j Hj Ed.
  induction d as [|d IH]; intros j Hj Ed.
  - replace j with (sp_n M) by lia. lia.
  - pose proof (wf_mono _ W j ltac:(lia)). specialize (IH (j + 1)%nat ltac:(lia) ltac:(lia)). lia.
Qed.

Lemma collen_nnz (M : spmat R) j : wf_sp M -> (j < sp_n M)%nat -> (collen M j <= sp_nnz M)%nat.
Proof. intros W Hj. unfold collen. pose proof (jc_nnz M (j + 1) W ltac:(lia)). lia. Qed.

Lemma rowlen_nnz (M : spmat R) i : (rowlen M i <= sp_nnz M)%nat.
Proof.
  unfold rowlen, rowcnt. transitivity (length (seq 0 (sp_nnz M))); [|rewrite seq_length; lia].
  generalize (seq 0 (sp_nnz M)). intros l. induction l as [|a l IH]; cbn; [lia|]. destruct (_ =? i)%nat; cbn; lia.
Qed.

Lemma absdense_bound (M : spmat R) i j : wf_sp M -> (sp_nnz M <= K)%nat -> (forall k, (k < sp_nnz M)%nat -> Rabs (gd 0 (sp_pr M) k) <= D) ->
  (j < sp_n M)%nat -> 0 <= absdense M i j <= INR K * D.
Proof.
  intros W Hk He Hj. unfold absdense, Rsumr. split.
  - apply Rsum_nonneg. intros k Hk'. destruct (_ =? i)%nat; [apply Rabs_pos|lra].
  - eapply Rle_trans; [apply (Rsum_bound _ _ D)|].
    + intros k Hk'. destruct (_ =? i)%nat; [|lra]. apply He. pose proof (jc_nnz M (j + 1) W ltac:(lia)). lia.
    + apply Rmult_le_compat_r; [lra|]. apply le_INR. pose proof (collen_nnz M j W Hj). unfold collen in *. lia.
Qed.

Let k1 : 1 <= INR K. Proof. change 1 with (INR 1). apply le_INR. exact HK. Qed.

Lemma abs_term a v : 0 <= a <= INR K * D -> Rabs v <= V -> a * Rabs v <= INR K * D * V.
Proof. intros. apply Rmult_le_compat; try lra. apply Rabs_pos. Qed.

Lemma tame_of : tame P A G om (2 * K + 2) B tau x y z s.
Proof.
  pose proof k1 as K1.
  assert (D2 : 1 <= D * D) by (pose proof (Rmult_le_compat 1 D 1 D ltac:(lra) ltac:(lra) HD HD); lra).
  assert (D3 : D * D <= D * D * D) by (pose proof (Rmult_le_compat_l (D * D) 1 D ltac:(lra) HD); lra).
  assert (D4 : D * D * D <= D * D * D * D) by (pose proof (Rmult_le_compat_l (D * D * D) 1 D ltac:(lra) HD); lra).
  assert (D5 : D * D * D * D <= D * D * D * D * D) by (pose proof (Rmult_le_compat_l (D * D * D * D) 1 D ltac:(lra) HD); lra).
  assert (DD : D <= D * D) by (pose proof (Rmult_le_compat_l D 1 D ltac:(lra) HD); lra).
  assert (K2 : INR K <= INR K * INR K) by (pose proof (Rmult_le_compat_l (INR K) 1 (INR K) ltac:(lra) K1); lra).
  set (W := INR K * INR K * (D * D * D * D)).
  assert (LW : D * D * D * D <= W) by (unfold W; pose proof (Rmult_le_compat_r (D * D * D * D) 1 (INR K * INR K) ltac:(lra) ltac:(lra)); lra).
  assert (LKW : INR K * (D * D * D * D) <= W) by (unfold W; apply Rmult_le_compat_r; lra).
  assert (BW : 64 * (W * D) <= B). { unfold W. replace (64 * (INR K * INR K * (D * D * D * D) * D)) with (64 * (INR K * INR K) * (D * D * D * D * D)) by ring. exact HB. }
  assert (WD : W <= W * D) by (pose proof (Rmult_le_compat_l W 1 D ltac:(lra) HD); lra).
  assert (TB : 64 * W <= tau * B).
  { apply Rle_trans with (/ D * (64 * (W * D))).
    - right. field. lra.
    - apply Rmult_le_compat; try lra. apply Rlt_le, Rinv_0_lt_compat; lra. }
  assert (PT : 0 < / D) by (apply Rinv_0_lt_compat; lra).
  assert (T2 : forall v, Rabs v <= D -> Rabs (tau * v) <= D * D).
  { intros v L. rewrite Rabs_mult, (Rabs_pos_eq tau) by lra. apply Rmult_le_compat; try lra. apply Rabs_pos. }
  assert (VW : INR K * (INR K * D * V) = 16 * W) by (unfold V, W; ring).
  assert (VW1 : INR K * (D * V) <= 16 * W). { unfold V. replace (INR K * (D * (16 * (D * D * D)))) with (16 * (INR K * (D * D * D * D))) by ring. lra. }
  assert (PV : 0 <= V) by (unfold V; lra).
  assert (PKV : 0 <= INR K * D * V). { apply Rmult_le_pos; [apply Rmult_le_pos; lra|lra]. }
  assert (PDV : 0 <= D * V) by (apply Rmult_le_pos; lra).
  assert (Mx : forall (c : nat) f, (c <= K)%nat -> (forall i, (i < c)%nat -> f i <= INR K * D * V) -> Rsum c f <= 16 * W).
  { intros c f Lc Lf. eapply Rle_trans; [apply (Rsum_bound _ _ _ Lf)|]. rewrite <- VW. apply Rmult_le_compat_r; [exact PKV|]. apply le_INR; exact Lc. }
  assert (MA : forall i, (0 < p)%nat -> mulv n (absdense A) (vabs x) i <= 16 * W).
  { intros i L. destruct (WA L) as (W1 & W2 & W3 & W4). apply (Mx n _ Hn). intros j Hj. unfold vabs.
    apply abs_term; auto. apply absdense_bound; auto. lia. }
  assert (MG : forall i, mulv n (absdense G) (vabs x) i <= 16 * W).
  { intros i. apply (Mx n _ Hn). intros j Hj. unfold vabs.
    apply abs_term; auto. apply absdense_bound; auto. lia. }
  assert (MAt : forall j, (j < n)%nat -> mulvT p (absdense A) (vabs y) j <= 16 * W).
  { intros j Hj. apply (Mx p _ Hp). intros i Hi. unfold vabs. destruct (WA ltac:(lia)) as (W1 & W2 & W3 & W4).
    apply abs_term; auto. apply absdense_bound; auto. lia. }
  assert (MGt : forall j, (j < n)%nat -> mulvT m (absdense G) (vabs z) j <= 16 * W).
  { intros j Hj. apply (Mx m _ Hm). intros i Hi. unfold vabs.
    apply abs_term; auto. apply absdense_bound; auto. lia. }
  assert (MD : forall c f g, (c <= K)%nat -> (forall i, (i < c)%nat -> Rabs (f i) <= D) -> (forall i, (i < c)%nat -> Rabs (g i) <= V) -> mag_dot c f g <= 16 * W).
  { intros c f g Lc Lf Lg. unfold mag_dot. eapply Rle_trans; [apply (Rsum_bound _ _ (D * V))|].
    - intros i Hi. rewrite Rabs_mult. apply Rmult_le_compat; auto; apply Rabs_pos.
    - eapply Rle_trans; [|exact VW1]. apply Rmult_le_compat_r; [exact PDV|]. apply le_INR; exact Lc. }
  assert (V4 : V <= 16 * W) by (unfold V; lra).
  constructor; fold n p m.
  - lia.
  - intros i Hi. destruct (WA ltac:(lia)) as (W1 & W2 & W3 & W4). pose proof (rowlen_nnz A i). lia.
  - intros i Hi. pose proof (rowlen_nnz G i). lia.
  - intros j Hj. pose proof (collen_nnz G j WG ltac:(lia)). destruct (Nat.ltb_spec 0 p) as [L|L]; [|lia].
    destruct (WA L) as (W1 & W2 & W3 & W4). pose proof (collen_nnz A j W1 ltac:(lia)). lia.
  - intros i Hi. specialize (Hx i Hi). lra.
  - intros i Hi. specialize (Hy i Hi). lra.
  - intros i Hi. specialize (Hz i Hi). lra.
  - intros i Hi. specialize (Hs i Hi). lra.
  - intros i Hi. specialize (Hc i Hi). lra.
  - intros i Hi. specialize (Hb i Hi). lra.
  - intros i Hi. specialize (Hh i Hi). lra.
  - intros i Hi. unfold mag_eq. fold n. pose proof (MA i ltac:(lia)). pose proof (T2 _ (Hb i Hi)). lra.
  - intros i Hi. unfold mag_ineq. fold n. pose proof (MG i). pose proof (T2 _ (Hh i Hi)). pose proof (Hs i Hi). lra.
  - intros j Hj. unfold mag_dual. fold p m. pose proof (MAt j Hj). pose proof (MGt j Hj). pose proof (T2 _ (Hc j Hj)). lra.
  - pose proof (MD n (pb_c P) x Hn Hc Hx). lra.
  - pose proof (MD p (pb_b P) y Hp Hb Hy). pose proof (MD m (pb_h P) z Hm Hh Hz). lra.
Qed.
End Tame.
