(* Equilibration in rounding arithmetic: the scaled data, multiplied by the
   scalings, are the data of the caller up to rounding. *)
From Coq Require Import List Arith Bool ZArith QArith Reals Lia Lra Psatz.
From Verif Require Import Base Num.
From Verif.Model Require Import Spla Types Consts Cone Equil.
From Verif.Spec Require Import Matrix Rounding Nearby.
From Verif.Proofs Require Import SplaP EquilP.
Import ListNotations.
Open Scope R_scope.

Lemma pow_le1 a k : 1 <= a -> 1 <= a ^ k. Proof. intros. apply pow_R1_Rle. auto. Qed.

(* error of a chain of divisions: r * D is e up to k roundings *)
Definition chain (u eta : R) (k : nat) (t r D e : R) : Prop :=
  Rabs (r * D - e) <= ((1 + u) ^ k - 1) * Rabs e + t * eta * D.

Lemma chain_step u eta k t r D e d r' : 0 <= u <= 1 -> 0 <= eta -> 0 <= t -> 0 < D -> / 2 ^ 11 <= d -> chain u eta k t r D e ->
  Rabs (r' - r / d) <= u * Rabs (r / d) + eta -> chain u eta (S k) (2 ^ 12 * t + 1) r' (D * d) e.
Proof.
  unfold chain. intros Hu He Ht HD Hd C S. assert (P0: 0 < / 2 ^ 11) by (apply Rinv_0_lt_compat; lra).
  assert (Pd: 0 < d) by lra. assert (PD: 0 < D * d) by nra.
  assert (S': Rabs (r' * (D * d) - r * D) <= u * Rabs (r * D) + eta * (D * d)).
  { replace (r' * (D * d) - r * D) with ((r' - r / d) * (D * d)) by (field; lra).
    rewrite Rabs_mult, (Rabs_pos_eq (D * d)) by lra.
    apply Rle_trans with ((u * Rabs (r / d) + eta) * (D * d)); [apply Rmult_le_compat_r; lra|].
    replace (Rabs (r * D)) with (Rabs (r / d) * (D * d)); [right; ring|].
    rewrite <- (Rabs_pos_eq (D * d)) at 1 by lra. rewrite <- Rabs_mult. f_equal. field. lra. }
  assert (T: Rabs (r' * (D * d) - e) <= Rabs (r' * (D * d) - r * D) + Rabs (r * D - e)).
  { replace (r' * (D * d) - e) with ((r' * (D * d) - r * D) + (r * D - e)) by ring. apply Rabs_triang. }
  assert (T2: Rabs (r * D) <= Rabs e + Rabs (r * D - e)).
  { replace (r * D) with (e + (r * D - e)) at 1 by ring. apply Rabs_triang. }
  pose proof (Rabs_pos e) as Pe. cbn [pow]. set (q := (1 + u) ^ k) in *.
  assert (B: t * eta * D * (1 + u) <= 2 ^ 12 * t * eta * (D * d)).
  { assert (Q1: 0 <= t * eta * D) by (apply Rmult_le_pos; [apply Rmult_le_pos|]; lra).
    apply Rle_trans with (t * eta * D * 2); [apply Rmult_le_compat_l; lra|].
    replace (2 ^ 12 * t * eta * (D * d)) with (t * eta * D * (2 ^ 12 * d)) by ring. apply Rmult_le_compat_l; [auto|].
    assert (E11: 2 ^ 12 * / 2 ^ 11 = 2) by (field; lra).
    assert (2 ^ 12 * / 2 ^ 11 <= 2 ^ 12 * d) by (apply Rmult_le_compat_l; lra). lra. }
  assert (M: u * Rabs (r * D) <= u * (Rabs e + ((q - 1) * Rabs e + t * eta * D))) by (apply Rmult_le_compat_l; lra).
  nra.
Qed.

(* r is the positive number e up to k relative errors u *)
Definition rel (u : R) (k : nat) (r e : R) : Prop := Rabs (r - e) <= ((1 + u) ^ k - 1) * e.
Lemma rel_bounds u k r e : 0 < e -> (1 + u) ^ k <= 3 / 2 -> rel u k r e -> e / 2 <= r <= 3 / 2 * e.
Proof.
  unfold rel. intros He H A.
  assert (B: ((1 + u) ^ k - 1) * e <= / 2 * e) by (apply Rmult_le_compat_r; lra).
  assert (C: Rabs (r - e) <= / 2 * e) by lra. revert C. clear. intros C. split_Rabs; lra.
Qed.
Lemma rel_0 u e : rel u 0 e e. Proof. unfold rel. rewrite Rminus_diag_eq by auto. rewrite Rabs_R0. cbn. lra. Qed.
Lemma rel_mul u j k a b r s : 0 <= u -> 0 < a -> 0 < b -> rel u j r a -> rel u k s b -> rel u (j + k) (r * s) (a * b).
Proof.
  unfold rel. intros Hu Ha Hb H1 H2. rewrite pow_add.
  pose proof (pow_le1 (1 + u) j ltac:(lra)) as P1. pose proof (pow_le1 (1 + u) k ltac:(lra)) as P2.
  set (p := (1 + u) ^ j) in *. set (q := (1 + u) ^ k) in *.
  replace (r * s - a * b) with ((r - a) * (s - b) + (r - a) * b + a * (s - b)) by ring.
  eapply Rle_trans; [apply Rabs_triang|]. eapply Rle_trans; [apply Rplus_le_compat_r, Rabs_triang|].
  rewrite !Rabs_mult, (Rabs_pos_eq a), (Rabs_pos_eq b) by lra.
  assert (M: Rabs (r - a) * Rabs (s - b) <= ((p - 1) * a) * ((q - 1) * b)) by (apply Rmult_le_compat; auto using Rabs_pos).
  assert (M1: Rabs (r - a) * b <= (p - 1) * a * b) by (apply Rmult_le_compat_r; lra).
  assert (M2: a * Rabs (s - b) <= a * ((q - 1) * b)) by (apply Rmult_le_compat_l; lra).
  lra.
Qed.
Lemma rel_rnd u k r r' e : 0 <= u -> 0 < e -> 0 < r -> rel u k r e -> Rabs (r' - r) <= u * r -> rel u (S k) r' e.
Proof.
  unfold rel. intros Hu He Hr H1 H2. cbn [pow]. pose proof (pow_le1 (1 + u) k ltac:(lra)) as P1. set (p := (1 + u) ^ k) in *.
  assert (r <= p * e). { revert H1. clear. intros. split_Rabs; lra. }
  assert (u * r <= u * (p * e)) by (apply Rmult_le_compat_l; lra).
  replace (r' - e) with ((r' - r) + (r - e)) by ring. eapply Rle_trans; [apply Rabs_triang|]. lra.
Qed.

(* the last step: v * D is e, Q is D, so v * Q is e *)
Lemma chain_rel u u1 eta k j t v D Q e : 0 <= u <= u1 -> 0 <= eta -> 0 <= t -> 0 < D -> (1 + u1) ^ j <= 3 / 2 ->
  chain u eta k t v D e -> rel u1 j Q D -> Rabs (v * Q - e) <= ((1 + u1) ^ (k + j) - 1) * Rabs e + 3 * t * eta * Q.
Proof.
  intros Hu He Ht HD Hj C HQ. pose proof (rel_bounds _ _ _ _ HD Hj HQ) as [B1 B2]. unfold chain, rel in *.
  rewrite pow_add. pose proof (pow_le1 (1 + u1) j ltac:(lra)) as P1. pose proof (pow_le1 (1 + u) k ltac:(lra)) as P2.
  assert (P3: (1 + u) ^ k <= (1 + u1) ^ k) by (apply pow_incr; lra).
  set (p := (1 + u1) ^ j) in *. set (q := (1 + u) ^ k) in *. set (q1 := (1 + u1) ^ k) in *.
  assert (V: Rabs (v * D) <= q * Rabs e + t * eta * D).
  { replace (v * D) with (e + (v * D - e)) by ring. eapply Rle_trans; [apply Rabs_triang|]. lra. }
  assert (W: Rabs (v * (Q - D)) <= (p - 1) * Rabs (v * D)).
  { rewrite !Rabs_mult, (Rabs_pos_eq D) by lra. replace ((p - 1) * (Rabs v * D)) with (Rabs v * ((p - 1) * D)) by ring.
    apply Rmult_le_compat_l; [apply Rabs_pos|auto]. }
  assert (W': (p - 1) * Rabs (v * D) <= (p - 1) * (q * Rabs e + t * eta * D)) by (apply Rmult_le_compat_l; lra).
  replace (v * Q - e) with (v * (Q - D) + (v * D - e)) by ring. eapply Rle_trans; [apply Rabs_triang|].
  pose proof (Rabs_pos e) as Pe.
  assert (E1: (p * q - 1) * Rabs e <= (q1 * p - 1) * Rabs e) by (apply Rmult_le_compat_r; [auto|nra]).
  assert (T0: 0 <= t * eta) by (apply Rmult_le_pos; lra).
  assert (E2: p * (t * eta * D) <= 3 * t * eta * Q).
  { apply Rle_trans with (3 / 2 * (t * eta * D)); [apply Rmult_le_compat_r; [apply Rmult_le_pos; lra|lra]|].
    replace (3 / 2 * (t * eta * D)) with (t * eta * (3 * (D / 2))) by field. replace (3 * t * eta * Q) with (t * eta * (3 * Q)) by ring.
    apply Rmult_le_compat_l; lra. }
  lra.
Qed.

Section Rounded.
Context {O : Ops} (phi : F -> option R).
Variables (u eta Om : R) (H : rounds O phi u eta Om) (FI : fine O phi u eta).
Let u1 := u + 2 ^ 80 * eta.

Lemma u_pos : 0 <= u. Proof. apply (rn_u _ _ _ _ _ H). Qed.
Lemma eta_pos : 0 <= eta. Proof. apply (rn_eta _ _ _ _ _ H). Qed.
Lemma u1_bounds : 0 <= u <= u1 /\ u1 <= / 2 ^ 9.
Proof.
  pose proof u_pos. pose proof eta_pos. pose proof (fi_u _ _ _ _ FI). pose proof (fi_eta _ _ _ _ FI). unfold u1.
  assert (/ 2 ^ 10 + / 2 ^ 10 = / 2 ^ 9) by (field; lra). assert (0 <= 2 ^ 80 * eta) by (apply Rmult_le_pos; lra). lra.
Qed.
Lemma u1_pow k : (k <= 14)%nat -> (1 + u1) ^ k <= 3 / 2.
Proof.
  intros Hk. pose proof u1_bounds as [A B].
  apply Rle_trans with ((1 + / 2 ^ 9) ^ k). { apply pow_incr. lra. }
  apply Rle_trans with ((1 + / 2 ^ 9) ^ 14). { apply Rle_pow; [|auto]. assert (0 < / 2 ^ 9) by (apply Rinv_0_lt_compat; lra). lra. }
  replace (/ 2 ^ 9) with (1 / 512) by (field; lra). lra.
Qed.
(* underflow is a relative error for numbers that are not tiny *)
Lemma absorb q r : / 2 ^ 80 <= q -> Rabs (r - q) <= u * Rabs q + eta -> Rabs (r - q) <= u1 * q.
Proof.
  intros Hq A. assert (0 < / 2 ^ 80) by (apply Rinv_0_lt_compat; lra). rewrite (Rabs_pos_eq q) in A by lra.
  assert (eta <= 2 ^ 80 * eta * q).
  { assert (2 ^ 80 * / 2 ^ 80 = 1) by (field; lra). pose proof eta_pos.
    replace (2 ^ 80 * eta * q) with (eta * (2 ^ 80 * q)) by ring. rewrite <- (Rmult_1_r eta) at 1. apply Rmult_le_compat_l; [auto|].
    assert (2 ^ 80 * / 2 ^ 80 <= 2 ^ 80 * q) by (apply Rmult_le_compat_l; lra). lra. }
  unfold u1. lra.
Qed.

(* a factor of an iteration: 1, or a square root that is not tiny *)
Lemma sqv_low v d : phi (sqv v) = Some d -> / 2 ^ 11 <= d.
Proof.
  unfold sqv. destruct (flt (fabs v) (fconst (1 # 1000000))) eqn:E; intros E1.
  - rewrite (rn_1 _ _ _ _ _ H) in E1. injection E1 as <-. assert (/ 2 ^ 11 <= / 1) by (apply Rinv_le_contravar; lra). lra.
  - destruct (rn_sqrt _ _ _ _ _ H _ _ E1) as (x & Ex & Hx & Hd & A). destruct (fi_thr _ _ _ _ FI) as (t & Et & Ht).
    rewrite (rn_lt _ _ _ _ _ H _ _ _ _ (fi_abs _ _ _ _ FI _ _ Ex) Et) in E. rewrite Rabs_pos_eq in E by auto.
    unfold Rltb in E. destruct (Rlt_dec x t) as [|N]; [discriminate|]. apply Rnot_lt_le in N.
    assert (S: / 2 ^ 10 <= sqrt x).
    { replace (/ 2 ^ 10) with (sqrt ((/ 2 ^ 10) * (/ 2 ^ 10))). 2:{ apply sqrt_square. left. apply Rinv_0_lt_compat. lra. }
      apply sqrt_le_1_alt. replace (/ 2 ^ 10 * / 2 ^ 10) with (/ 2 ^ 20) by (field; lra). lra. }
    pose proof (fi_u _ _ _ _ FI) as B1. pose proof (fi_eta _ _ _ _ FI) as B2. pose proof eta_pos as P. pose proof u_pos as P'.
    assert (B3: u * sqrt x <= / 2 ^ 10 * sqrt x) by (apply Rmult_le_compat_r; [apply sqrt_pos|auto]).
    assert (B4: / 2 ^ 10 = 1 / 1024) by (field; lra). assert (B5: / 2 ^ 11 = 1 / 2048) by (field; lra). rewrite B4, B5 in *.
    assert (B6: eta <= 1 / 2 ^ 20). { lra. }
    revert A S B3 B6. clear. intros. split_Rabs; lra.
Qed.

Definition is_fac (a : F) : Prop := exists v, a = sqv v.
Lemma fac_low a d : is_fac a -> phi a = Some d -> / 2 ^ 11 <= d.
Proof. intros (v & ->). apply sqv_low. Qed.

Lemma mul_rel a b r x y e f : phi (fmul a b) = Some r -> phi a = Some x -> phi b = Some y -> / 2 ^ 80 <= x * y -> forall k, 0 < e -> 0 < f -> 0 < x ->
  rel u1 k x e -> y = f -> rel u1 (S k) r (e * f).
Proof.
  intros E Ex Ey L k He Hf Hx C ->. destruct (rn_mul _ _ _ _ _ H _ _ _ E) as (x' & y' & E1 & E2 & A). rewrite Ex in E1. rewrite Ey in E2. injection E1 as <-. injection E2 as <-.
  pose proof u1_bounds as [B1 B2].
  apply (rel_rnd u1 k (x * f)); [lra|nra|nra| |apply absorb; auto].
  rewrite <- (Nat.add_0_r k). apply rel_mul; auto; [lra|apply rel_0].
Qed.

(* xequil, Aequil, Gequil: products of three factors *)
Lemma prod_rel x1 x2 x3 i q : is_fac (x1 i) -> is_fac (x2 i) -> is_fac (x3 i) -> phi (ruiz_prod x1 x2 x3 i) = Some q ->
  exists d1 d2 d3, phi (x1 i) = Some d1 /\ phi (x2 i) = Some d2 /\ phi (x3 i) = Some d3 /\
    / 2 ^ 11 <= d1 /\ / 2 ^ 11 <= d2 /\ / 2 ^ 11 <= d3 /\ rel u1 3 q (d1 * d2 * d3).
Proof.
  unfold ruiz_prod. intros F1 F2 F3 E.
  destruct (rn_mul _ _ _ _ _ H _ _ _ E) as (q2 & d3 & E2 & D3 & _).
  destruct (rn_mul _ _ _ _ _ H _ _ _ E2) as (q1 & d2 & E1 & D2 & _).
  destruct (rn_mul _ _ _ _ _ H _ _ _ E1) as (one & d1 & E0 & D1 & _).
  rewrite (rn_1 _ _ _ _ _ H) in E0. injection E0 as <-.
  exists d1, d2, d3. pose proof (fac_low _ _ F1 D1) as L1. pose proof (fac_low _ _ F2 D2) as L2. pose proof (fac_low _ _ F3 D3) as L3.
  assert (N11: / 2 ^ 11 = 1 / 2048) by (field; lra). assert (N80: / 2 ^ 80 = 1 / 2 ^ 80) by (field; lra).
  assert (M2: / 2 ^ 11 * / 2 ^ 11 <= d1 * d2) by (apply Rmult_le_compat; lra). rewrite N11 in M2.
  assert (R1: rel u1 1 q1 (1 * d1)).
  { apply (mul_rel _ _ _ _ _ 1 d1 E1 (rn_1 _ _ _ _ _ H) D1); auto using rel_0; rewrite ?N80; lra. }
  rewrite Rmult_1_l in R1. pose proof (rel_bounds _ _ _ d1 ltac:(lra) (u1_pow 1 ltac:(lia)) R1) as [Q1 Q1'].
  assert (M1: 1 / 4096 * (1 / 2048) <= q1 * d2) by (apply Rmult_le_compat; lra).
  assert (R2: rel u1 2 q2 (d1 * d2)).
  { apply (mul_rel _ _ _ _ _ d1 d2 E2 E1 D2); auto; rewrite ?N80; lra. }
  pose proof (rel_bounds _ _ _ (d1 * d2) ltac:(lra) (u1_pow 2 ltac:(lia)) R2) as [Q2 Q2'].
  assert (M3: 1 / 2048 * (1 / 2048) / 2 * (1 / 2048) <= q2 * d3) by (apply Rmult_le_compat; lra).
  csplit; auto. apply (mul_rel _ _ _ _ _ (d1 * d2) d3 E E2 D3); auto; rewrite ?N80; lra.
Qed.

(* an entry of a matrix *)
Lemma scale_chain a1 x1 a2 x2 a3 x3 r c v w s1 s2 s3 t1 t2 t3 :
  phi (ruiz_scale a1 x1 a2 x2 a3 x3 r c v) = Some w ->
  phi (a1 r) = Some s1 -> phi (a2 r) = Some s2 -> phi (a3 r) = Some s3 ->
  phi (x1 c) = Some t1 -> phi (x2 c) = Some t2 -> phi (x3 c) = Some t3 ->
  / 2 ^ 11 <= s1 -> / 2 ^ 11 <= s2 -> / 2 ^ 11 <= s3 -> / 2 ^ 11 <= t1 -> / 2 ^ 11 <= t2 -> / 2 ^ 11 <= t3 ->
  exists e, phi v = Some e /\ chain u eta 6 (2 ^ 61) w ((s1 * s2 * s3) * (t1 * t2 * t3)) e.
Proof.
  unfold ruiz_scale. intros E S1 S2 S3 T1 T2 T3 L1 L2 L3 K1 K2 K3.
  destruct (rn_div _ _ _ _ _ H _ _ _ _ E T3) as (v5 & E5 & _ & A6).
  destruct (rn_div _ _ _ _ _ H _ _ _ _ E5 S3) as (v4 & E4 & _ & A5).
  destruct (rn_div _ _ _ _ _ H _ _ _ _ E4 T2) as (v3 & E3 & _ & A4).
  destruct (rn_div _ _ _ _ _ H _ _ _ _ E3 S2) as (v2 & E2 & _ & A3).
  destruct (rn_div _ _ _ _ _ H _ _ _ _ E2 T1) as (v1 & E1 & _ & A2).
  destruct (rn_div _ _ _ _ _ H _ _ _ _ E1 S1) as (e & E0 & _ & A1).
  exists e. split; [auto|].
  assert (P0: 0 < / 2 ^ 11) by (apply Rinv_0_lt_compat; lra).
  assert (U: 0 <= u <= 1). { pose proof u1_bounds as [B1 B2]. assert (/ 2 ^ 9 <= / 1) by (apply Rinv_le_contravar; lra). lra. }
  pose proof eta_pos as Pe.
  assert (C0: chain u eta 0 0 e 1 e). { unfold chain. replace (e * 1 - e) with 0 by ring. rewrite Rabs_R0. cbn. lra. }
  pose proof (chain_step _ _ _ 0 _ 1 _ _ _ U Pe ltac:(lra) ltac:(lra) L1 C0 A1) as C1.
  pose proof (chain_step _ _ _ (2 ^ 12 * 0 + 1) _ (1 * s1) _ _ _ U Pe ltac:(lra) ltac:(repeat apply Rmult_lt_0_compat; lra) K1 C1 A2) as C2.
  pose proof (chain_step _ _ _ (2 ^ 12 * (2 ^ 12 * 0 + 1) + 1) _ (1 * s1 * t1) _ _ _ U Pe ltac:(lra) ltac:(repeat apply Rmult_lt_0_compat; lra) L2 C2 A3) as C3.
  pose proof (chain_step _ _ _ (2 ^ 12 * (2 ^ 12 * (2 ^ 12 * 0 + 1) + 1) + 1) _ (1 * s1 * t1 * s2) _ _ _ U Pe ltac:(lra) ltac:(repeat apply Rmult_lt_0_compat; lra) K2 C3 A4) as C4.
  pose proof (chain_step _ _ _ (2 ^ 12 * (2 ^ 12 * (2 ^ 12 * (2 ^ 12 * 0 + 1) + 1) + 1) + 1) _ (1 * s1 * t1 * s2 * t2) _ _ _ U Pe ltac:(lra) ltac:(repeat apply Rmult_lt_0_compat; lra) L3 C4 A5) as C5.
  pose proof (chain_step _ _ _ (2 ^ 12 * (2 ^ 12 * (2 ^ 12 * (2 ^ 12 * (2 ^ 12 * 0 + 1) + 1) + 1) + 1) + 1) _ (1 * s1 * t1 * s2 * t2 * s3) _ _ _ U Pe ltac:(lra) ltac:(repeat apply Rmult_lt_0_compat; lra) K3 C5 A6) as C6.
  replace (1 * s1 * t1 * s2 * t2 * s3 * t3) with (s1 * s2 * s3 * (t1 * t2 * t3)) in C6 by ring.
  unfold chain in *. eapply Rle_trans; [exact C6|]. apply Rplus_le_compat_l.
  assert (PD: 0 < s1 * s2 * s3 * (t1 * t2 * t3)) by (repeat apply Rmult_lt_0_compat; lra).
  rewrite !Rmult_assoc. apply Rmult_le_compat_r; [apply Rmult_le_pos; lra|]. lra.
Qed.

(* a scaled entry w of the caller's entry v, multiplied by the scalings *)
Lemma entry_near a1 x1 a2 x2 a3 x3 r c v w ga xa :
  is_fac (a1 r) /\ is_fac (a2 r) /\ is_fac (a3 r) -> is_fac (x1 c) /\ is_fac (x2 c) /\ is_fac (x3 c) ->
  phi (ruiz_scale a1 x1 a2 x2 a3 x3 r c v) = Some w ->
  phi (ruiz_prod a1 a2 a3 r) = Some ga -> phi (ruiz_prod x1 x2 x3 c) = Some xa ->
  0 < ga /\ 0 < xa /\ / 2 ^ 70 <= ga * xa /\
  exists e, phi v = Some e /\ Rabs (w * (ga * xa) - e) <= ((1 + u1) ^ 12 - 1) * Rabs e + 2 ^ 63 * eta * (ga * xa).
Proof.
  intros (F1 & F2 & F3) (X1 & X2 & X3) E EG EX.
  destruct (prod_rel _ _ _ _ _ F1 F2 F3 EG) as (s1 & s2 & s3 & S1 & S2 & S3 & L1 & L2 & L3 & RG).
  destruct (prod_rel _ _ _ _ _ X1 X2 X3 EX) as (t1 & t2 & t3 & T1 & T2 & T3 & K1 & K2 & K3 & RX).
  assert (N11: / 2 ^ 11 = 1 / 2048) by (field; lra). rewrite N11 in *.
  destruct (scale_chain _ _ _ _ _ _ _ _ _ _ _ _ _ _ _ _ E S1 S2 S3 T1 T2 T3) as (e & Ee & C); rewrite ?N11; auto.
  assert (PS: 1 / 2048 * (1 / 2048) * (1 / 2048) <= s1 * s2 * s3) by (repeat apply Rmult_le_compat; lra).
  assert (PT: 1 / 2048 * (1 / 2048) * (1 / 2048) <= t1 * t2 * t3) by (repeat apply Rmult_le_compat; lra).
  pose proof u1_bounds as [B1 B2]. pose proof eta_pos as Pe.
  pose proof (rel_bounds _ _ _ (s1 * s2 * s3) ltac:(lra) (u1_pow 3 ltac:(lia)) RG) as [G1 _].
  pose proof (rel_bounds _ _ _ (t1 * t2 * t3) ltac:(lra) (u1_pow 3 ltac:(lia)) RX) as [Y1 _].
  pose proof (rel_mul u1 3 3 (s1 * s2 * s3) (t1 * t2 * t3) ga xa ltac:(lra) ltac:(lra) ltac:(lra) RG RX) as RQ.
  assert (PQ: (1 / 2048 * (1 / 2048) * (1 / 2048)) / 2 * ((1 / 2048 * (1 / 2048) * (1 / 2048)) / 2) <= ga * xa) by (apply Rmult_le_compat; lra).
  assert (N70: / 2 ^ 70 = 1 / 2 ^ 70) by (field; lra).
  split; [lra|]. split; [lra|]. split; [rewrite N70; lra|]. exists e. split; [auto|].
  eapply Rle_trans; [apply (chain_rel u u1 eta 6 6 (2 ^ 61) w (s1 * s2 * s3 * (t1 * t2 * t3)) (ga * xa) e B1 Pe); auto; try lra|].
  - apply Rmult_lt_0_compat; lra.
  - apply (u1_pow 6). lia.
  - apply Rplus_le_compat_l. apply Rmult_le_compat_r; [lra|]. apply Rmult_le_compat_r; lra.
Qed.
End Rounded.
