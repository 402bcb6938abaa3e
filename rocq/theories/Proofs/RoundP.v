(* Norms, quotients and tests in rounded arithmetic. *)
From Coq Require Import List Arith Bool ZArith Reals Lra Lia Psatz.
From Verif Require Import Base Num.
From Verif.Model Require Import Spla.
From Verif.Spec Require Import Matrix Conic Rounding.
From Verif.Proofs Require Import SplaP ExitP RoundA.
Import ListNotations.
Open Scope R_scope.

(* ------------------------------------------------------------ norms of vectors *)
Lemma sqrt_sub a b : 0 <= a -> 0 <= b -> sqrt (a + b * b) <= sqrt a + b.
Proof.
  intros A B. pose proof (sqrt_pos a). pose proof (sqrt_sqrt a A) as E.
  rewrite <- (sqrt_square (sqrt a + b)) by lra. apply sqrt_le_1_alt. nra.
Qed.

Lemma nrm_mono n f g : (forall i, (i < n)%nat -> Rabs (f i) <= g i) -> nrm n f <= nrm n g.
Proof.
  intros H. unfold nrm. apply sqrt_le_1_alt. apply Rsum_le. intros i Hi. specialize (H i Hi).
  pose proof (Rabs_pos (f i)). assert (f i * f i = Rabs (f i) * Rabs (f i)) as ->.
  { unfold Rabs. destruct (Rcase_abs (f i)); ring. }
  apply Rmult_le_compat; auto.
Qed.

Lemma nrm_tri n f g : nrm n (fun i => f i + g i) <= nrm n f + nrm n g.
Proof.
  pose proof (nrm_nonneg n f) as A. pose proof (nrm_nonneg n g) as B.
  unfold nrm at 1. rewrite <- (sqrt_square (nrm n f + nrm n g)) by lra. apply sqrt_le_1_alt.
  pose proof (nrm_sq n f) as Ef. pose proof (nrm_sq n g) as Eg.
  pose proof (Rsum_CS_sq n f g) as C. fold (dotp n f g) in C.
  assert (Rsum n (fun i => (f i + g i) * (f i + g i)) = dotp n f f + 2 * dotp n f g + dotp n g g) as ->.
  { unfold dotp. rewrite <- Rsum_scal, <- !Rsum_plus. apply Rsum_ext; intros; ring. }
  assert (dotp n f g <= nrm n f * nrm n g); [|nra].
  destruct (Rle_lt_dec (dotp n f g) 0); [nra|].
  apply Rsqr_incr_0_var; [|nra]. unfold Rsqr.
  change (Rsum n (fun i => f i * f i)) with (dotp n f f) in C. change (Rsum n (fun i => g i * g i)) with (dotp n g g) in C. nra.
Qed.

Lemma nrm_err n e f d : (forall i, (i < n)%nat -> Rabs (f i - e i) <= d i) -> nrm n e <= nrm n f + nrm n d.
Proof.
  intros H. eapply Rle_trans with (nrm n (fun i => f i + (e i - f i))).
  - right. apply nrm_ext. intros; ring.
  - eapply Rle_trans; [apply nrm_tri|]. apply Rplus_le_compat_l. apply nrm_mono.
    intros i Hi. rewrite Rabs_minus_sym. auto.
Qed.

(* ------------------------------------------------------------ rounded quotients *)
(* what a rounded quotient below a says about the exact one *)
Lemma quot_le u eta q qh a : 0 <= u <= 1 -> 0 <= eta -> Rabs (qh - q) <= u * Rabs q + eta -> qh <= a -> 0 <= a ->
  q * (1 - u) <= a + eta.
Proof.
  intros U E H A B.
  destruct (Rle_lt_dec 0 q).
  - rewrite (Rabs_pos_eq q) in H by lra. unfold Rabs in H. destruct (Rcase_abs (qh - q)); lra.
  - assert (0 <= (- q) * (1 - u)) by (apply Rmult_le_pos; lra). lra.
Qed.

Lemma quot_up u eta q qh : 0 <= u <= 1 -> 0 <= eta -> Rabs (qh - q) <= u * Rabs q + eta -> qh <= (1 + u) * Rmax 0 q + eta.
Proof.
  intros U E H. unfold Rmax. destruct (Rle_dec 0 q).
  - rewrite (Rabs_pos_eq q) in H by lra. unfold Rabs in H. destruct (Rcase_abs (qh - q)); lra.
  - rewrite (Rabs_left q) in H by lra. unfold Rabs in H. destruct (Rcase_abs (qh - q)); nra.
Qed.

Section Prec.
Variables (u eta Om : R) (N : nat) (eps om B : R).
Hypothesis U0 : 0 <= u.
Hypothesis E0 : 0 <= eta.
Hypothesis H : precision u eta Om N eps om B.

Lemma pe : 0 <= eps <= / 64. Proof. apply H. Qed.
Lemma po : 0 <= om <= / 64. Proof. apply H. Qed.
Lemma u_eps : u <= eps.
Proof.
  destruct H. pose proof (pow_mono u 1 (N + 4) U0 ltac:(lia)) as P. simpl (_ ^ 1) in P. lra.
Qed.
Lemma eta_om : eta <= om. Proof. apply H. Qed.
Lemma Om_64 : 64 * (INR (N + 1) * B) <= Om /\ 1 <= INR (N + 1) /\ 1 <= B.
Proof.
  destruct H. assert (1 <= INR (N + 1)). { rewrite plus_INR. simpl. pose proof (pos_INR N). lra. }
  split; auto. assert (INR (N + 1) * B * 1 <= INR (N + 1) * B * B). { apply Rmult_le_compat_l; [|lra]. apply Rmult_le_pos; lra. }
  lra.
Qed.

Lemma pow_N k : (k <= N + 4)%nat -> (1 + u) ^ k <= 1 + eps.
Proof. intros. destruct H. pose proof (pow_mono u k (N + 4) U0 ltac:(lia)). lra. Qed.

Lemma fits_N k : (k <= N + 2)%nat -> fits u eta Om k.
Proof.
  intros K. pose proof pe. pose proof po. split.
  - pose proof (pow_N (k + 1) ltac:(lia)). lra.
  - destruct H. destruct Om_64 as (A & A1 & A2).
    assert (INR k + 1 <= INR (N + 4)). { rewrite <- S_INR. apply le_INR. lia. }
    pose proof (pos_INR k).
    assert ((INR k + 1) * eta <= INR (N + 4) * (1 + eps) * eta).
    { apply Rmult_le_compat_r; auto. assert (INR (N + 4) * 1 <= INR (N + 4) * (1 + eps)) by (apply Rmult_le_compat_l; lra). lra. }
    assert (om * om <= 1 * 1) by (apply Rmult_le_compat; lra).
    assert (1 * 1 <= INR (N + 1) * B) by (apply Rmult_le_compat; lra). nra.
Qed.

Lemma within_N k r e M : (k <= N + 2)%nat -> 0 <= M -> within u eta k r e M -> Rabs (r - e) <= eps * M + om * om.
Proof.
  intros K HM W. unfold within in W. eapply Rle_trans; [exact W|]. apply Rplus_le_compat.
  - apply Rmult_le_compat_r; auto. pose proof (pow_N (k + 1) ltac:(lia)). lra.
  - destruct H. eapply Rle_trans; [|exact pc_eta]. apply Rmult_le_compat_r; auto.
    pose proof (pow_N k ltac:(lia)). pose proof (pow1 u k U0). pose proof (pos_INR k).
    assert (INR k <= INR (N + 4)) by (apply le_INR; lia).
    apply Rmult_le_compat; lra.
Qed.

(* the square root of a rounded sum of squares *)
Lemma root_N s sg r : 0 <= sg -> 0 <= s -> Rabs (sg - s) <= eps * s + om * om ->
  Rabs (r - sqrt sg) <= u * sqrt sg + eta ->
  (1 - 2 * eps) * sqrt s - 2 * om <= r <= (1 + 3 * eps) * sqrt s + 3 * om.
Proof.
  intros G0 S0 A R0. pose proof pe as Pe. pose proof po as Po. pose proof u_eps as Ue. pose proof eta_om as Eo.
  pose proof (sqrt_pos sg) as Q1. pose proof (sqrt_pos s) as Q2. pose proof (sqrt_sqrt s S0) as Q3.
  assert (UB: sqrt sg <= (1 + eps) * sqrt s + om).
  { eapply Rle_trans; [apply sqrt_le_1_alt with (y := ((1 + eps) * sqrt s) * ((1 + eps) * sqrt s) + om * om)|].
    - unfold Rabs in A. destruct (Rcase_abs (sg - s)); nra.
    - eapply Rle_trans; [apply sqrt_sub|]; try nra. rewrite sqrt_square by nra. lra. }
  assert (LB: (1 - eps) * sqrt s - om <= sqrt sg).
  { assert ((1 - eps) * sqrt s <= sqrt sg + om); [|lra].
    rewrite <- (sqrt_square ((1 - eps) * sqrt s)) by nra.
    eapply Rle_trans; [|apply sqrt_sub; lra]. apply sqrt_le_1_alt.
    unfold Rabs in A. destruct (Rcase_abs (sg - s)); nra. }
  assert (u * sqrt sg <= eps * sqrt sg) by (apply Rmult_le_compat_r; lra).
  assert (eps * sqrt sg <= eps * ((1 + eps) * sqrt s + om)) by (apply Rmult_le_compat_l; lra).
  assert (eps * om <= / 64 * om) by (apply Rmult_le_compat_r; lra).
  assert (eps * eps <= / 64 * eps) by (apply Rmult_le_compat_r; lra).
  assert (eps * eps * sqrt s <= / 64 * eps * sqrt s) by (apply Rmult_le_compat_r; lra).
  assert (0 <= eps * sqrt s) by (apply Rmult_le_pos; lra).
  assert (L2: (1 - eps) * ((1 - eps) * sqrt s - om) <= (1 - eps) * sqrt sg) by (apply Rmult_le_compat_l; lra).
  split; unfold Rabs in R0; destruct (Rcase_abs (r - sqrt sg)); try nra.
Qed.

(* from the quotient that is tested to the norm behind it *)
Lemma final_norm E D den rho a1 tau ft : 0 <= tau -> 0 <= ft -> 1 <= D -> 1 <= den <= (1 + 6 * eps + 12 * om) * D -> 0 <= rho ->
  rho / den * (1 - u) <= a1 + eta -> a1 * (1 - u) <= tau * (ft + eta) -> (1 - 2 * eps) * E - 2 * om <= rho ->
  E <= slack eps om * D * (tau * (ft + om) + om) + 3 * om.
Proof.
  intros T0 F0 D1 [N1 N2] R0 Q1 Q2 Q3. pose proof pe as Pe. pose proof po as Po. pose proof u_eps as Ue. pose proof eta_om as Eo.
  set (T := tau * (ft + om) + om).
  assert (T1: 0 <= tau * (ft + om)) by (apply Rmult_le_pos; lra).
  assert (HT: 0 <= T) by (unfold T; lra).
  assert (SL: 0 <= slack eps om * D) by (unfold slack; apply Rmult_le_pos; lra).
  destruct (Rle_lt_dec E 0) as [|Ep]. { assert (0 <= slack eps om * D * T) by (apply Rmult_le_pos; lra). lra. }
  assert (A: rho * (1 - u) * (1 - u) <= den * T).
  { assert (rho = den * (rho / den)) as -> by (field; lra).
    replace (den * (rho / den) * (1 - u) * (1 - u)) with (den * (rho / den * (1 - u) * (1 - u))) by ring.
    apply Rmult_le_compat_l; [lra|].
    apply Rle_trans with ((a1 + eta) * (1 - u)); [apply Rmult_le_compat_r; lra|].
    assert (tau * (ft + eta) <= tau * (ft + om)) by (apply Rmult_le_compat_l; lra).
    assert (eta * (1 - u) <= om * 1) by (apply Rmult_le_compat; lra). unfold T. lra. }
  assert (A2: den * T <= (1 + 6 * eps + 12 * om) * D * T) by (apply Rmult_le_compat_r; lra).
  assert (A3: rho * ((1 - eps) * (1 - eps)) <= rho * ((1 - u) * (1 - u))).
  { apply Rmult_le_compat_l; [lra|]. apply Rmult_le_compat; lra. }
  assert (A4: ((1 - 2 * eps) * E - 2 * om) * ((1 - eps) * (1 - eps)) <= rho * ((1 - eps) * (1 - eps))).
  { apply Rmult_le_compat_r; [|lra]. apply Rmult_le_pos; lra. }
  assert (A5: (1 - 4 * eps) * E <= (1 - 2 * eps) * E * ((1 - eps) * (1 - eps))).
  { replace ((1 - 2 * eps) * E * ((1 - eps) * (1 - eps))) with ((1 - 2 * eps) * ((1 - eps) * (1 - eps)) * E) by ring.
    apply Rmult_le_compat_r; [lra|]. assert (0 <= eps * eps * (5 - 2 * eps)) by (apply Rmult_le_pos; [apply Rmult_le_pos|]; lra). nra. }
  assert (A6: 2 * om * ((1 - eps) * (1 - eps)) <= 2 * om * (1 * 1)).
  { apply Rmult_le_compat_l; [lra|]. apply Rmult_le_compat; lra. }
  assert (A7: (1 - 4 * eps) * E <= (1 + 6 * eps + 12 * om) * D * T + 2 * om) by lra.
  assert (A8: (1 + 5 * eps) * ((1 - 4 * eps) * E) <= (1 + 5 * eps) * ((1 + 6 * eps + 12 * om) * D * T + 2 * om)) by (apply Rmult_le_compat_l; lra).
  assert (A9: 1 * E <= (1 + 5 * eps) * (1 - 4 * eps) * E).
  { apply Rmult_le_compat_r; [lra|]. assert (eps * eps <= / 64 * eps) by (apply Rmult_le_compat_r; lra). lra. }
  assert (A10: (1 + 5 * eps) * (1 + 6 * eps + 12 * om) * (D * T) <= slack eps om * (D * T)).
  { apply Rmult_le_compat_r; [apply Rmult_le_pos; lra|]. unfold slack.
    assert (eps * eps <= / 64 * eps) by (apply Rmult_le_compat_r; lra).
    assert (eps * om <= / 64 * om) by (apply Rmult_le_compat_r; lra). lra. }
  assert (eps * om <= / 64 * om) by (apply Rmult_le_compat_r; lra).
  lra.
Qed.
End Prec.

(* ------------------------------------------------------------ in the arithmetic *)
Section Arith.
Context {O : Ops} (phi : F -> option R) (u eta Om : R) (H : rounds O phi u eta Om).
Variables (N : nat) (eps om B : R).
Hypothesis PC : precision u eta Om N eps om B.
Let U0 := rn_u _ _ _ _ _ H.
Let E0 := rn_eta _ _ _ _ _ H.
Let Pe := pe _ _ _ _ _ _ _ PC.
Let Po := po _ _ _ _ _ _ _ PC.
Let Ue := u_eps _ _ _ _ _ _ _ U0 PC.
Let Eo := eta_om _ _ _ _ _ _ _ PC.
Let O64 := Om_64 _ _ _ _ _ _ _ PC.

Lemma Om64 : 64 <= Om.
Proof.
  destruct O64 as (A & A1 & A2). assert (1 * 1 <= INR (N + 1) * B) by (apply Rmult_le_compat; lra). lra.
Qed.

Lemma fmax_phi a b x y : phi a = Some x -> phi b = Some y -> phi (fmax a b) = Some (Rmax x y).
Proof.
  intros X Y. unfold fmax. rewrite (rn_lt _ _ _ _ _ H _ _ _ _ X Y). unfold Rmax.
  destruct (Rltb_spec x y), (Rle_dec x y); auto; rewrite ?X, ?Y; f_equal; lra.
Qed.

(* a rounded quotient below t *)
Lemma test_quot a b c x y t : phi a = Some x -> phi b = Some y -> 0 < y -> phi c = Some t -> 0 <= t ->
  flt (fdiv a b) c = true -> x * (1 - u) <= y * (t + eta).
Proof.
  intros X Y Yp Ct T0 L.
  assert (Q: x / y * (1 - u) <= t + eta).
  { destruct (phi (fdiv a b)) as [q|] eqn:Eq.
    - destruct (rn_div _ _ _ _ _ H _ _ _ _ Eq Y) as (x' & X' & _ & D). rewrite X in X'. injection X' as <-.
      rewrite (rn_lt _ _ _ _ _ H _ _ _ _ Eq Ct) in L. destruct (Rltb_spec q t); [|discriminate].
      eapply quot_le; eauto; lra.
    - assert (x / y <= 0) by (eapply (rn_div_over _ _ _ _ _ H); eauto; lra). nra. }
  replace x with (y * (x / y)) by (field; lra). rewrite Rmult_assoc. apply Rmult_le_compat_l; lra.
Qed.

Lemma holds_norm v n f r : holds phi v n f -> norm2 v n = Some r -> (n <= N)%nat -> (forall i, (i < n)%nat -> Rabs (f i) <= 4 * B) ->
  exists rho, phi r = Some rho /\ 0 <= rho <= Om / 8 /\ (1 - 2 * eps) * nrm n f - 2 * om <= rho <= (1 + 3 * eps) * nrm n f + 3 * om.
Proof.
  intros V E Hn Hb. unfold norm2 in E. bd E as sq Es. injection E as <-.
  assert (I: acc phi u eta Om sq n (dotp n f f) (dotp n f f) /\ (forall r, phi sq = Some r -> 0 <= r)).
  { apply (for_pres (fun q z => acc phi u eta Om z q (dotp q f f) (dotp q f f) /\ (forall r, phi z = Some r -> 0 <= r)) 0%nat n _ _ _ ltac:(lia) Es).
    - unfold dotp; simpl. split; [apply (acc_0 _ _ _ _ H)|]. intros r Er. rewrite (rn_0 _ _ _ _ _ H) in Er. injection Er as <-. lra.
    - intros i s s1 Hi [I J] Bd. binv Bd. injection Bd as <-.
      destruct (V i ltac:(lia)) as (a & Ga & Pa). rewrite E in Ga. injection Ga as <-.
      assert (A: Rabs (f i * f i) = f i * f i) by (apply Rabs_pos_eq; nra).
      split.
      + unfold dotp. simpl. rewrite <- A at 2. apply (acc_addmul _ _ _ _ H); auto.
      + intros r Er. destruct (rn_add _ _ _ _ _ H _ _ _ Er) as (x1 & y1 & X1 & Y1 & _).
        assert (0 <= y1) by (apply (rn_mul_pos _ _ _ _ _ H _ _ _ _ _ Pa Pa Y1); rewrite <- A; apply Rabs_pos).
        specialize (J x1 X1). apply (rn_add_pos _ _ _ _ _ H _ _ _ _ _ X1 Y1 Er). lra. }
  destruct I as [(A1 & A2 & A3) J].
  destruct O64 as (K & K1 & K2). pose proof Om64 as K3.
  assert (S0: 0 <= dotp n f f) by apply Rsum_sq_nonneg.
  assert (SB: dotp n f f <= INR n * (16 * (B * B))).
  { clear - Hb K2. unfold dotp. induction n; [simpl; lra|]. rewrite S_INR. simpl Rsum.
    assert (f n * f n <= 16 * (B * B)).
    { specialize (Hb n ltac:(lia)). assert (f n * f n = Rabs (f n) * Rabs (f n)) as -> by (unfold Rabs; destruct (Rcase_abs (f n)); ring).
      pose proof (Rabs_pos (f n)). assert (Rabs (f n) * Rabs (f n) <= 4 * B * (4 * B)) by (apply Rmult_le_compat; auto). lra. }
    specialize (IHn ltac:(intros; apply Hb; lia)). lra. }
  assert (NB: INR n <= INR (N + 1)) by (apply le_INR; lia). pose proof (pos_INR n) as N0.
  assert (B2: 1 * 1 <= B * B) by (apply Rmult_le_compat; lra).
  assert (SB2: dotp n f f <= Om / 4).
  { destruct PC. assert (INR n * (16 * (B * B)) <= INR (N + 1) * (16 * (B * B))) by (apply Rmult_le_compat_r; lra). lra. }
  destruct A3 as [sg Sg]; [apply (fits_N _ _ _ _ _ _ _ U0 E0 PC); lia|lra|].
  specialize (J _ Sg). specialize (A1 _ Sg).
  apply (within_N _ _ _ _ _ _ _ U0 E0 PC) in A1; [|lia|auto].
  destruct (rn_sqrt_fin _ _ _ _ _ H _ _ Sg J) as [rho Rh].
  destruct (rn_sqrt _ _ _ _ _ H _ _ Rh) as (sg' & Sg' & _ & R0 & D). rewrite Sg in Sg'. injection Sg' as <-.
  pose proof (root_N _ _ _ _ _ _ _ U0 PC (dotp n f f) sg rho J S0 A1 D) as RN. fold (nrm n f) in RN.
  exists rho. split; auto. split; [|exact RN]. split; [auto|].
  assert (nrm n f <= 4 * (INR (N + 1) * B)).
  { unfold nrm. change (Rsum n (fun i => f i * f i)) with (dotp n f f).
    rewrite <- (sqrt_square (4 * (INR (N + 1) * B))) by nra. apply sqrt_le_1_alt.
    assert (INR n * (16 * (B * B)) <= INR (N + 1) * (16 * (B * B))) by (apply Rmult_le_compat_r; lra).
    assert (INR (N + 1) * 1 * (16 * (B * B)) <= INR (N + 1) * INR (N + 1) * (16 * (B * B))).
    { apply Rmult_le_compat_r; [lra|]. apply Rmult_le_compat_l; lra. }
    nra. }
  pose proof (nrm_nonneg n f).
  assert ((1 + 3 * eps) * nrm n f <= (1 + 3 / 64) * nrm n f) by (apply Rmult_le_compat_r; lra). change (dotp n f f) with (Rsum n (fun i => f i * f i)) in RN. fold (nrm n f) in RN. lra.
Qed.

(* the numbers in an array *)
Definition rd (a : arr F) (i : nat) : R := match get a i with Some v => match phi v with Some r => r | None => 0 end | None => 0 end.

Lemma norm2_read v n r : norm2 v n = Some r -> forall i, (i < n)%nat -> exists a, get v i = Some a.
Proof.
  intros E. unfold norm2 in E. bd E as sq Es.
  apply (for_pres (fun q (_ : F) => forall i, (i < q)%nat -> exists a, get v i = Some a) 0%nat n _ _ _ ltac:(lia) Es); [intros; lia|].
  intros i s s1 Hi I Bd j Hj. binv Bd. destruct (Nat.eq_dec j i) as [->|]; [eauto|apply I; lia].
Qed.

(* the norm of a vector of sums *)
Lemma accs_norm a n k e M r : accs phi u eta Om a n k e M -> norm2 a n = Some r -> (n <= N)%nat ->
  (forall i, (i < n)%nat -> (k i <= N)%nat /\ M i <= B) ->
  exists rho, phi r = Some rho /\ 0 <= rho <= Om / 8 /\
    (1 - 2 * eps) * (nrm n e - nrm n (fun i => eps * M i + om * om)) - 2 * om <= rho.
Proof.
  intros A E Hn Hk. pose proof (norm2_read _ _ _ E) as Rd. destruct O64 as (K & K1 & K2). pose proof Om64 as K3.
  assert (BO: B <= Om). { assert (1 * B <= INR (N + 1) * B) by (apply Rmult_le_compat_r; lra). lra. }
  assert (X: forall i, (i < n)%nat -> exists v, get a i = Some v /\ phi v = Some (rd a i) /\ Rabs (rd a i - e i) <= eps * M i + om * om /\ Rabs (e i) <= M i).
  { intros i Hi. destruct (Rd i Hi) as [v V]. destruct (A i v Hi V) as (A1 & A2 & A3). destruct (Hk i Hi) as [H1 H2].
    destruct A3 as [x X]; [apply (fits_N _ _ _ _ _ _ _ U0 E0 PC); lia|lra|].
    assert (rd a i = x) as -> by (unfold rd; rewrite V, X; auto).
    exists v. csplit; auto. apply (within_N _ _ _ _ _ _ _ U0 E0 PC) with (k := k i); auto; [lia|]. pose proof (Rabs_pos (e i)). lra. }
  destruct (holds_norm a n (rd a) r) as (rho & R1 & R2 & R3); auto.
  - intros i Hi. destruct (X i Hi) as (v & V & P & _). eauto.
  - intros i Hi. destruct (X i Hi) as (v & V & P & D & D2). destruct (Hk i Hi) as [_ H2].
    replace (rd a i) with (e i + (rd a i - e i)) by lra. pose proof (Rabs_triang (e i) (rd a i - e i)). pose proof (Rabs_pos (e i)).
    assert (eps * M i <= / 64 * M i) by (apply Rmult_le_compat_r; lra).
    assert (om * om <= 1 * 1) by (apply Rmult_le_compat; lra). lra.
  - exists rho. split; [auto|]. split; [auto|].
    assert (nrm n e <= nrm n (rd a) + nrm n (fun i => eps * M i + om * om)).
    { apply nrm_err. intros i Hi. destruct (X i Hi) as (v & _ & _ & D & _). exact D. }
    assert ((1 - 2 * eps) * (nrm n e - nrm n (fun i => eps * M i + om * om)) <= (1 - 2 * eps) * nrm n (rd a)) by (apply Rmult_le_compat_l; lra).
    lra.
Qed.

(* upper bound of a sum of two, of three norms *)
Lemma sum2 a b x y Dx Dy : phi a = Some x -> phi b = Some y -> 0 <= x <= Om / 4 -> 0 <= y <= Om / 4 ->
  x <= (1 + 3 * eps) * Dx + 3 * om -> y <= (1 + 3 * eps) * Dy + 3 * om -> 0 <= Dx -> 0 <= Dy ->
  exists r, phi (fadd a b) = Some r /\ 0 <= r <= Om /\ r <= (1 + eps) * ((1 + 3 * eps) * (Dx + Dy) + 6 * om) + om.
Proof.
  intros X Y X0 Y0 X1 Y1 D1 D2. pose proof Om64.
  destruct (rn_add_fin _ _ _ _ _ H _ _ _ _ X Y) as [r R0]. { rewrite Rabs_pos_eq; lra. }
  destruct (rn_add _ _ _ _ _ H _ _ _ R0) as (x' & y' & X' & Y' & D). rewrite X in X'. injection X' as <-. rewrite Y in Y'. injection Y' as <-.
  assert (0 <= r) by (apply (rn_add_pos _ _ _ _ _ H _ _ _ _ _ X Y R0); lra).
  rewrite (Rabs_pos_eq (x + y)) in D by lra.
  assert (u * (x + y) <= eps * (x + y)) by (apply Rmult_le_compat_r; lra).
  assert (eps * (x + y) <= / 64 * (x + y)) by (apply Rmult_le_compat_r; lra).
  assert (r <= (1 + eps) * (x + y) + om). { unfold Rabs in D. destruct (Rcase_abs (r - (x + y))); lra. }
  exists r. csplit; auto; [lra|].
  assert ((1 + eps) * (x + y) <= (1 + eps) * ((1 + 3 * eps) * (Dx + Dy) + 6 * om)) by (apply Rmult_le_compat_l; lra). lra.
Qed.

Lemma den2 a b x y Dx Dy : phi a = Some x -> phi b = Some y -> 0 <= x <= Om / 4 -> 0 <= y <= Om / 4 ->
  x <= (1 + 3 * eps) * Dx + 3 * om -> y <= (1 + 3 * eps) * Dy + 3 * om -> 0 <= Dx -> 0 <= Dy -> 1 <= Dx + Dy ->
  exists d, phi (fmax (fadd a b) f1) = Some d /\ 1 <= d <= (1 + 6 * eps + 12 * om) * (Dx + Dy).
Proof.
  intros X Y X0 Y0 X1 Y1 D1 D2 DD. destruct (sum2 _ _ _ _ _ _ X Y X0 Y0 X1 Y1 D1 D2) as (r & R0 & R1 & R2).
  exists (Rmax r 1). split; [apply fmax_phi; auto; apply (rn_1 _ _ _ _ _ H)|]. split; [apply Rmax_r|].
  assert (eps * eps <= / 64 * eps) by (apply Rmult_le_compat_r; lra).
  assert (eps * om <= / 64 * om) by (apply Rmult_le_compat_r; lra).
  assert (0 <= eps * (Dx + Dy)) by (apply Rmult_le_pos; lra).
  assert (om * 1 <= om * (Dx + Dy)) by (apply Rmult_le_compat_l; lra).
  assert (eps * eps * (Dx + Dy) <= / 64 * eps * (Dx + Dy)) by (apply Rmult_le_compat_r; lra).
  replace ((1 + eps) * ((1 + 3 * eps) * (Dx + Dy) + 6 * om)) with ((Dx + Dy) + 4 * (eps * (Dx + Dy)) + 3 * (eps * eps * (Dx + Dy)) + 6 * om + 6 * (eps * om)) in R2 by ring.
  replace ((1 + 6 * eps + 12 * om) * (Dx + Dy)) with ((Dx + Dy) + 6 * (eps * (Dx + Dy)) + 12 * (om * (Dx + Dy))) by ring.
  apply Rmax_lub; lra.
Qed.

Lemma den3 a b c x y z Dx Dy Dz : phi a = Some x -> phi b = Some y -> phi c = Some z ->
  0 <= x <= Om / 4 -> 0 <= y <= Om / 4 -> 0 <= z <= Om / 4 ->
  x <= (1 + 3 * eps) * Dx + 3 * om -> y <= (1 + 3 * eps) * Dy + 3 * om -> z <= (1 + 3 * eps) * Dz + 3 * om ->
  0 <= Dx -> 0 <= Dy -> 0 <= Dz -> 1 <= Dx + Dy + Dz ->
  exists d, phi (fmax (fadd (fadd a b) c) f1) = Some d /\ 1 <= d <= (1 + 6 * eps + 12 * om) * (Dx + Dy + Dz).
Proof.
  intros X Y Z X0 Y0 Z0 X1 Y1 Z1 D1 D2 D3 DD. destruct (sum2 _ _ _ _ _ _ X Y X0 Y0 X1 Y1 D1 D2) as (r & R0 & R1 & R2).
  pose proof Om64.
  destruct (rn_add_fin _ _ _ _ _ H _ _ _ _ R0 Z) as [q Q]. { rewrite Rabs_pos_eq; lra. }
  destruct (rn_add _ _ _ _ _ H _ _ _ Q) as (x' & y' & X' & Y' & D). rewrite R0 in X'. injection X' as <-. rewrite Z in Y'. injection Y' as <-.
  exists (Rmax q 1). split; [apply fmax_phi; auto; apply (rn_1 _ _ _ _ _ H)|]. split; [apply Rmax_r|].
  rewrite (Rabs_pos_eq (r + z)) in D by lra.
  assert (u * (r + z) <= eps * (r + z)) by (apply Rmult_le_compat_r; lra).
  assert (QB: q <= (1 + eps) * (r + z) + om). { unfold Rabs in D. destruct (Rcase_abs (q - (r + z))); lra. }
  assert (QB2: (1 + eps) * (r + z) <= (1 + eps) * ((1 + eps) * ((1 + 3 * eps) * (Dx + Dy) + 6 * om) + om + ((1 + 3 * eps) * Dz + 3 * om))) by (apply Rmult_le_compat_l; lra).
  assert (Z3: (1 + eps) * ((1 + 3 * eps) * Dz) <= (1 + eps) * ((1 + eps) * ((1 + 3 * eps) * Dz))).
  { apply Rmult_le_compat_l; [lra|]. assert (0 <= (1 + 3 * eps) * Dz) by (apply Rmult_le_pos; lra). rewrite <- (Rmult_1_l ((1 + 3 * eps) * Dz)) at 1. apply Rmult_le_compat_r; lra. }
  set (DS := Dx + Dy + Dz) in *.
  assert (C1: (1 + eps) * ((1 + eps) * (1 + 3 * eps)) * DS <= (1 + 6 * eps) * DS).
  { apply Rmult_le_compat_r; [lra|]. assert (eps * eps <= / 64 * eps) by (apply Rmult_le_compat_r; lra).
    assert (eps * eps * eps <= / 64 * (eps * eps)) by (rewrite Rmult_assoc; apply Rmult_le_compat_r; [apply Rmult_le_pos|]; lra). lra. }
  assert (C2: (1 + eps) * ((1 + eps) * (6 * om) + 4 * om) + om <= 12 * om).
  { assert (eps * om <= / 64 * om) by (apply Rmult_le_compat_r; lra).
    assert (eps * (eps * om) <= / 64 * (eps * om)) by (apply Rmult_le_compat_r; [apply Rmult_le_pos|]; lra). lra. }
  assert (om * 1 <= om * DS) by (apply Rmult_le_compat_l; lra).
  assert (0 <= eps * DS) by (apply Rmult_le_pos; lra).
  replace ((1 + 6 * eps + 12 * om) * DS) with ((1 + 6 * eps) * DS + 12 * (om * DS)) by ring.
  assert (QB3: q <= (1 + eps) * ((1 + eps) * (1 + 3 * eps)) * DS + ((1 + eps) * ((1 + eps) * (6 * om) + 4 * om) + om)).
  { eapply Rle_trans; [exact QB|]. eapply Rle_trans; [apply Rplus_le_compat_r; exact QB2|].
    replace ((1 + eps) * ((1 + eps) * ((1 + 3 * eps) * (Dx + Dy) + 6 * om) + om + ((1 + 3 * eps) * Dz + 3 * om)) + om)
      with ((1 + eps) * ((1 + eps) * (1 + 3 * eps)) * (Dx + Dy) + (1 + eps) * ((1 + 3 * eps) * Dz) + ((1 + eps) * ((1 + eps) * (6 * om) + 4 * om) + om)) by ring.
    replace ((1 + eps) * ((1 + eps) * (1 + 3 * eps)) * DS) with ((1 + eps) * ((1 + eps) * (1 + 3 * eps)) * (Dx + Dy) + (1 + eps) * ((1 + eps) * ((1 + 3 * eps) * Dz))) by (unfold DS; ring).
    lra. }
  apply Rmax_lub; lra.
Qed.


(* a quotient of two numbers, the second at least 1 *)
Lemma quot_fin a b x y : phi a = Some x -> phi b = Some y -> 0 <= x <= Om / 8 -> 1 <= y ->
  exists q, phi (fdiv a b) = Some q /\ forall t, q <= t -> 0 <= t -> x / y * (1 - u) <= t + eta.
Proof.
  intros X Y X0 Y1. pose proof Om64.
  assert (x / y <= x). { unfold Rdiv. rewrite <- (Rmult_1_r x) at 2. apply Rmult_le_compat_l; [lra|]. rewrite <- Rinv_1. apply Rinv_le_contravar; lra. }
  assert (0 <= x / y). { apply Rmult_le_pos; [lra|]. left. apply Rinv_0_lt_compat; lra. }
  destruct (rn_div_fin _ _ _ _ _ H _ _ _ _ X Y) as [q Q]; [lra|rewrite Rabs_pos_eq; lra|].
  exists q. split; auto. intros t Ht T0. destruct (rn_div _ _ _ _ _ H _ _ _ _ Q Y) as (x' & X' & _ & D). rewrite X in X'. injection X' as <-.
  eapply quot_le; eauto; lra.
Qed.

(* an inner product *)
Lemma eddot_num n x y xf yf d C : holds phi x n xf -> holds phi y n yf -> eddot n x y = Some d -> (n <= N)%nat ->
  mag_dot n xf yf <= C -> C <= Om ->
  exists v, phi d = Some v /\ Rabs (v - dotp n xf yf) <= erd eps om n xf yf.
Proof.
  intros X Y E Hn M1 M2. destruct (eddot_acc _ _ _ _ H n x y xf yf d X Y E) as (A1 & A2 & A3).
  destruct A3 as [v V]; [apply (fits_N _ _ _ _ _ _ _ U0 E0 PC); lia|unfold mag_dot in M1; lra|].
  exists v. split; auto. apply (within_N _ _ _ _ _ _ _ U0 E0 PC) with (k := n); auto; [lia|].
  apply Rsum_nonneg. intros. apply Rabs_pos.
Qed.
End Arith.
