(* Setup and cleanup in rounding arithmetic: the matrices. *)
From Coq Require Import List Arith Bool ZArith QArith Reals Lia Lra Psatz.
From Verif Require Import Base Num.
From Verif.Model Require Import Spla Types Consts Cone Equil.
From Verif.Spec Require Import Matrix Conic Rounding Nearby.
From Verif.Proofs Require Import SplaP LoopLib EquilP EquilX RoundE.
Import ListNotations.
Open Scope R_scope.

(* a real matrix with its rows and columns multiplied *)
Lemma scaled_mat (N : spmat R) (g x : nat -> R) : wf_sp N -> exists M, rescaled (fun r c v => v * (g r * x c)) N M.
Proof.
  intros W. destruct (map_entries N (fun r c v => v * (g r * x c))
    (fun j k a => v <- get a k ;; set a k (v * (g (gd 0%nat (sp_ir N) k) * x j))) W) as (pr & _ & R).
  - intros j k a v Hk Hv _. rewrite Hv. reflexivity.
  - eauto.
Qed.

Section Rounded.
Context {O : Ops} (phi : F -> option R).

Lemma holds_mat_wf (M : spmat F) (N : spmat R) : holds_mat phi M N -> wf_sp N -> wf_sp M.
Proof.
  intros [E1 E2 E3 E4 E5 V] [W1 W2 W3 W4 W5 W6 W7]. constructor; rewrite ?E1, ?E2, ?E3, ?E4, ?E5; auto.
  intros k Hk. destruct (V k Hk) as (v & Ev & _). eauto.
Qed.

Variables (u eta Om : R) (H : rounds O phi u eta Om) (FI : fine O phi u eta).
Let u1 := u + 2 ^ 80 * eta.

Lemma prod_pos a1 a2 a3 i g : is_fac (a1 i) /\ is_fac (a2 i) /\ is_fac (a3 i) -> phi (ruiz_prod a1 a2 a3 i) = Some g -> 0 < g.
Proof.
  intros (F1 & F2 & F3) E. destruct (prod_rel phi u eta Om H FI _ _ _ _ _ F1 F2 F3 E) as (d1 & d2 & d3 & _ & _ & _ & L1 & L2 & L3 & RR).
  assert (P0: 0 < / 2 ^ 11) by (apply Rinv_0_lt_compat; lra).
  assert (PD: 0 < d1 * d2 * d3) by (repeat apply Rmult_lt_0_compat; lra).
  pose proof (rel_bounds _ _ _ _ PD (u1_pow phi u eta Om H FI 3 ltac:(lia)) RR). lra.
Qed.

Section Mat.
Variables (a1 x1 a2 x2 a3 x3 : nat -> F) (g x : nat -> R) (m n : nat).
Hypothesis Fa : forall i, (i < m)%nat -> is_fac (a1 i) /\ is_fac (a2 i) /\ is_fac (a3 i).
Hypothesis Fx : forall i, (i < n)%nat -> is_fac (x1 i) /\ is_fac (x2 i) /\ is_fac (x3 i).
Hypothesis Ga : forall i, (i < m)%nat -> phi (ruiz_prod a1 a2 a3 i) = Some (g i).
Hypothesis Gx : forall i, (i < n)%nat -> phi (ruiz_prod x1 x2 x3 i) = Some (x i).

(* the scaled matrix M' holds the numbers N; scaled back, these are nearly those of the caller *)
Lemma mat_entry (M M' : spmat F) (M0 N : spmat R) j k : wf_sp M0 -> sp_m M0 = m -> sp_n M0 = n ->
  holds_mat phi M M0 -> rescaled (ruiz_scale a1 x1 a2 x2 a3 x3) M M' -> holds_mat phi M' N -> in_col M0 j k ->
  let r := gd 0%nat (sp_ir M0) k in
  0 < g r /\ 0 < x j /\ / 2 ^ 70 <= g r * x j /\
  Rabs (gd 0 (sp_pr N) k * (g r * x j) - gd 0 (sp_pr M0) k) <=
    ((1 + u1) ^ 12 - 1) * Rabs (gd 0 (sp_pr M0) k) + 2 ^ 63 * eta * (g r * x j).
Proof.
  intros W Em En HM R HN Hk r. pose proof (in_col_nnz M0 j k W Hk) as Hn.
  destruct (hm_pr _ _ _ HM k Hn) as (v & Ev & Pv).
  assert (Hk': in_col M j k). { unfold in_col in *. rewrite (hm_jc _ _ _ HM), (hm_n _ _ _ HM). auto. }
  pose proof (rs_in _ _ _ R j k v Hk' Ev) as Ev'. rewrite (hm_ir _ _ _ HM) in Ev'. fold r in Ev'.
  assert (EN: sp_nnz N = sp_nnz M0). { rewrite <- (hm_nnz _ _ _ HN), (rs_nnz _ _ _ R), (hm_nnz _ _ _ HM). auto. }
  destruct (hm_pr _ _ _ HN k ltac:(lia)) as (v' & E2 & Pv'). rewrite Ev' in E2. injection E2 as <-.
  assert (Hr: (r < m)%nat) by (rewrite <- Em; apply (wf_row M0 W k Hn)). assert (Hj: (j < n)%nat) by (rewrite <- En; apply Hk).
  destruct (entry_near phi u eta Om H FI _ _ _ _ _ _ _ _ _ _ _ _ (Fa r Hr) (Fx j Hj) Pv' (Ga r Hr) (Gx j Hj)) as (A1 & A2 & A3 & e & Ee & A4).
  rewrite Pv in Ee. injection Ee as <-. auto.
Qed.

Lemma mat_near (M M' : spmat F) (M0 N : spmat R) : wf_sp M0 -> sp_m M0 = m -> sp_n M0 = n ->
  holds_mat phi M M0 -> rescaled (ruiz_scale a1 x1 a2 x2 a3 x3) M M' -> holds_mat phi M' N -> wf_sp N ->
  exists M1, near_mat ((1 + u1) ^ 12 - 1) (2 ^ 63 * eta) g x M0 M1 /\ wf_sp M1 /\
    forall i j, (i < m)%nat -> (j < n)%nat -> dense N i j = dense M1 i j / (g i * x j).
Proof.
  intros W Em En HM R HN WN. destruct (scaled_mat N g x WN) as (M1 & R1).
  assert (EI: sp_ir N = sp_ir M0). { rewrite <- (hm_ir _ _ _ HN), (rs_ir _ _ _ R), (hm_ir _ _ _ HM). auto. }
  assert (EJ: sp_jc N = sp_jc M0). { rewrite <- (hm_jc _ _ _ HN), (rs_jc _ _ _ R), (hm_jc _ _ _ HM). auto. }
  assert (ENN: sp_n N = sp_n M0). { rewrite <- (hm_n _ _ _ HN), (rs_n _ _ _ R), (hm_n _ _ _ HM). auto. }
  assert (EMM: sp_m N = sp_m M0). { rewrite <- (hm_m _ _ _ HN), (rs_m _ _ _ R), (hm_m _ _ _ HM). auto. }
  assert (EN: sp_nnz N = sp_nnz M0). { rewrite <- (hm_nnz _ _ _ HN), (rs_nnz _ _ _ R), (hm_nnz _ _ _ HM). auto. }
  exists M1. split; [|split].
  - constructor; rewrite ?(rs_jc _ _ _ R1), ?(rs_ir _ _ _ R1), ?(rs_n _ _ _ R1), ?(rs_m _ _ _ R1), ?(rs_nnz _ _ _ R1); auto.
    intros j k Hk. destruct (mat_entry M M' M0 N j k W Em En HM R HN Hk) as (_ & _ & _ & B).
    assert (HkN: in_col N j k). { unfold in_col in *. rewrite EJ, ENN. auto. }
    destruct (wf_pr N WN k (in_col_nnz N j k WN HkN)) as (v & Ev).
    rewrite (gd_get _ _ _ _ (rs_in _ _ _ R1 j k v HkN Ev)). rewrite (gd_get 0 _ _ _ Ev) in B. rewrite EI. exact B.
  - eapply rescaled_wf; eauto.
  - intros i j Hi Hj. rewrite (rescaled_dense (fun r c => g r * x c) N M1 i j WN R1) by lia.
    pose proof (prod_pos _ _ _ _ _ (Fa i Hi) (Ga i Hi)). pose proof (prod_pos _ _ _ _ _ (Fx j Hj) (Gx j Hj)).
    field. lra.
Qed.
End Mat.

(* a right-hand side *)
Lemma quot_near a e r x y : phi (fdiv a e) = Some r -> phi e = Some y -> phi a = Some x -> 0 < y ->
  Rabs (r * y - x) <= u * Rabs x + eta * y.
Proof.
  intros E Ey Ex Py. destruct (rn_div _ _ _ _ _ H _ _ _ _ E Ey) as (x' & Ex' & _ & B). rewrite Ex in Ex'. injection Ex' as <-.
  replace (r * y - x) with ((r - x / y) * y) by (field; lra). rewrite Rabs_mult, (Rabs_pos_eq y) by lra.
  apply Rle_trans with ((u * Rabs (x / y) + eta) * y); [apply Rmult_le_compat_r; lra|].
  right. unfold Rdiv. rewrite Rabs_mult, (Rabs_pos_eq (/ y)) by (left; apply Rinv_0_lt_compat; lra). field. lra.
Qed.
Lemma near_weak r x y : 0 < y -> Rabs (r * y - x) <= u * Rabs x + eta * y ->
  Rabs (r * y - x) <= ((1 + u1) ^ 12 - 1) * Rabs x + 2 ^ 63 * eta * y.
Proof.
  intros Py B. eapply Rle_trans; [exact B|]. pose proof (eta_pos phi u eta Om H) as Pe. destruct (u1_bounds phi u eta Om H FI) as [[B1 B2] B3]. fold u1 in B2, B3.
  apply Rplus_le_compat.
  - apply Rmult_le_compat_r; [apply Rabs_pos|]. pose proof (pow_le1 (1 + u1) 11 ltac:(lra)) as P11. change ((1 + u1) ^ 12) with ((1 + u1) * (1 + u1) ^ 11). nra.
  - apply Rmult_le_compat_r; lra.
Qed.

(* an entry v, multiplied back by cleanup *)
Lemma eta_small : 2 ^ 63 * eta <= 1 / 2 ^ 20.
Proof. pose proof (fi_eta _ _ _ _ FI) as B. pose proof (eta_pos phi u eta Om H) as P. assert (N: / 2 ^ 10 = 1 / 2 ^ 10) by (field; lra). rewrite N in B. lra. Qed.

Lemma restore_near v ga xa e fv fg fx : phi fv = Some v -> phi fg = Some ga -> phi fx = Some xa ->
  0 < ga -> 0 < xa -> / 2 ^ 70 <= ga * xa -> ga * xa <= Om -> Rabs e <= Om ->
  Rabs (v * (ga * xa) - e) <= ((1 + u1) ^ 12 - 1) * Rabs e + 2 ^ 63 * eta * (ga * xa) ->
  exists r, phi (fmul fv (fmul fg fx)) = Some r /\ Rabs (r - e) <= ((1 + u1) ^ 14 - 1) * Rabs e + 2 ^ 72 * eta * (ga * xa).
Proof.
  intros Ev Eg Ex Pg Px L HQ He B. set (Q := ga * xa) in *.
  assert (PQ: 0 < Q) by (apply Rmult_lt_0_compat; auto).
  pose proof (eta_pos phi u eta Om H) as Pe. destruct (u1_bounds phi u eta Om H FI) as [[B1 B2] B3]. fold u1 in B2, B3.
  assert (P12: (1 + u1) ^ 12 <= 3 / 2) by (apply (u1_pow phi u eta Om H FI); lia).
  assert (P12': 1 <= (1 + u1) ^ 12) by (apply pow_le1; lra).
  assert (N9: / 2 ^ 9 = 1 / 512) by (field; lra).
  assert (L80: / 2 ^ 80 <= Q). { assert (/ 2 ^ 80 <= / 2 ^ 70) by (apply Rinv_le_contravar; lra). lra. }
  destruct (rn_mul_fin _ _ _ _ _ H fg fx ga xa Eg Ex) as (q & Eq). { fold Q. rewrite Rabs_pos_eq; lra. }
  destruct (rn_mul _ _ _ _ _ H _ _ _ Eq) as (ga' & xa' & Eg' & Ex' & Bq). rewrite Eg in Eg'. rewrite Ex in Ex'. injection Eg' as <-. injection Ex' as <-. fold Q in Bq.
  pose proof (absorb phi u eta Om H Q q L80 Bq) as Rq. fold u1 in Rq.
  assert (Q1: Q / 2 <= q <= 3 / 2 * Q). { assert (u1 * Q <= / 2 ^ 9 * Q) by (apply Rmult_le_compat_r; lra). rewrite N9 in *. revert Rq H0 PQ. clear. intros. split_Rabs; lra. }
  pose proof eta_small as ES. pose proof (Rabs_pos e) as Pe'.
  (* v * Q *)
  assert (VQ: Rabs (v * Q) <= (1 + u1) ^ 12 * Rabs e + 2 ^ 63 * eta * Q).
  { replace (v * Q) with (e + (v * Q - e)) by ring. eapply Rle_trans; [apply Rabs_triang|]. lra. }
  (* v * q *)
  assert (Vd: Rabs (v * q - v * Q) <= u1 * Rabs (v * Q)).
  { replace (v * q - v * Q) with (v * (q - Q)) by ring. rewrite !Rabs_mult, (Rabs_pos_eq Q) by lra.
    replace (u1 * (Rabs v * Q)) with (Rabs v * (u1 * Q)) by ring. apply Rmult_le_compat_l; [apply Rabs_pos|auto]. }
  assert (Vd': u1 * Rabs (v * Q) <= u1 * ((1 + u1) ^ 12 * Rabs e + 2 ^ 63 * eta * Q)) by (apply Rmult_le_compat_l; lra).
  assert (Vq: Rabs (v * q) <= (1 + u1) * ((1 + u1) ^ 12 * Rabs e + 2 ^ 63 * eta * Q)).
  { replace (v * q) with (v * Q + (v * q - v * Q)) by ring. eapply Rle_trans; [apply Rabs_triang|]. lra. }
  assert (EQ: 2 ^ 63 * eta * Q <= 1 / 2 ^ 20 * Q) by (apply Rmult_le_compat_r; lra).
  assert (E0: 0 <= 2 ^ 63 * eta * Q) by (apply Rmult_le_pos; [apply Rmult_le_pos|]; lra).
  assert (PE: (1 + u1) ^ 12 * Rabs e <= 3 / 2 * Om) by (apply Rmult_le_compat; lra).
  assert (PE0: 0 <= (1 + u1) ^ 12 * Rabs e) by (apply Rmult_le_pos; lra).
  destruct (rn_mul_fin _ _ _ _ _ H fv (fmul fg fx) v q Ev Eq) as (r & Er).
  { eapply Rle_trans; [exact Vq|]. apply Rle_trans with (2 * (2 * Om)); [apply Rmult_le_compat; lra|lra]. }
  exists r. split; [auto|].
  destruct (rn_mul _ _ _ _ _ H _ _ _ Er) as (v' & q' & Ev' & Eq' & Br). rewrite Ev in Ev'. rewrite Eq in Eq'. injection Ev' as <-. injection Eq' as <-.
  assert (Uq: u * Rabs (v * q) <= u1 * ((1 + u1) * ((1 + u1) ^ 12 * Rabs e + 2 ^ 63 * eta * Q))).
  { apply Rmult_le_compat; auto using Rabs_pos. }
  assert (Ee: eta <= 2 ^ 70 * eta * Q).
  { replace (2 ^ 70 * eta * Q) with (eta * (2 ^ 70 * Q)) by ring. rewrite <- (Rmult_1_r eta) at 1. apply Rmult_le_compat_l; [auto|].
    assert (2 ^ 70 * / 2 ^ 70 = 1) by (field; lra). assert (2 ^ 70 * / 2 ^ 70 <= 2 ^ 70 * Q) by (apply Rmult_le_compat_l; lra). lra. }
  change ((1 + u1) ^ 14) with ((1 + u1) * ((1 + u1) * (1 + u1) ^ 12)). set (p := (1 + u1) ^ 12) in *.
  assert (T: Rabs (r - e) <= Rabs (r - v * q) + Rabs (v * q - v * Q) + Rabs (v * Q - e)).
  { replace (r - e) with ((r - v * q) + (v * q - v * Q) + (v * Q - e)) by ring.
    eapply Rle_trans; [apply Rabs_triang|]. apply Rplus_le_compat_r. apply Rabs_triang. }
  set (X := 2 ^ 63 * eta * Q) in *.
  assert (EX: 2 ^ 72 * eta * Q = 512 * X) by (unfold X; ring). assert (EX': 2 ^ 70 * eta * Q = 128 * X) by (unfold X; ring). rewrite EX. rewrite EX' in Ee.
  assert (UU: u1 * X <= 1 * X) by (apply Rmult_le_compat_r; lra). assert (UUU: u1 * (u1 * X) <= 1 * (1 * X)) by (apply Rmult_le_compat; try lra; apply Rmult_le_pos; lra).
  lra.
Qed.

Lemma rhs_near v y e fv fy : phi fv = Some v -> phi fy = Some y -> / 2 ^ 40 <= y -> y <= Om -> Rabs e <= Om ->
  Rabs (v * y - e) <= u * Rabs e + eta * y ->
  exists r, phi (fmul fv fy) = Some r /\ Rabs (r - e) <= ((1 + u1) ^ 14 - 1) * Rabs e + 2 ^ 72 * eta * y.
Proof.
  intros Ev Ey L HQ He B. assert (P40: 0 < / 2 ^ 40) by (apply Rinv_0_lt_compat; lra).
  pose proof (eta_pos phi u eta Om H) as Pe. destruct (u1_bounds phi u eta Om H FI) as [[B1 B2] B3]. fold u1 in B2, B3.
  assert (N9: / 2 ^ 9 = 1 / 512) by (field; lra). rewrite N9 in *. pose proof eta_small as ES. pose proof (Rabs_pos e) as Pe'.
  assert (V: Rabs (v * y) <= (1 + u) * Rabs e + eta * y).
  { replace (v * y) with (e + (v * y - e)) by ring. eapply Rle_trans; [apply Rabs_triang|]. lra. }
  assert (Ey1: eta * y <= 1 * y) by (apply Rmult_le_compat_r; lra).
  assert (E0: 0 <= eta * y) by (apply Rmult_le_pos; lra).
  assert (Ue: u * Rabs e <= 1 * Rabs e) by (apply Rmult_le_compat_r; lra).
  destruct (rn_mul_fin _ _ _ _ _ H fv fy v y Ev Ey) as (r & Er). { lra. }
  exists r. split; [auto|].
  destruct (rn_mul _ _ _ _ _ H _ _ _ Er) as (v' & y' & Ev' & Ey' & Br). rewrite Ev in Ev'. rewrite Ey in Ey'. injection Ev' as <-. injection Ey' as <-.
  assert (Ee: eta <= 2 ^ 40 * (eta * y)).
  { replace (2 ^ 40 * (eta * y)) with (eta * (2 ^ 40 * y)) by ring. rewrite <- (Rmult_1_r eta) at 1. apply Rmult_le_compat_l; [auto|].
    assert (2 ^ 40 * / 2 ^ 40 = 1) by (field; lra). assert (2 ^ 40 * / 2 ^ 40 <= 2 ^ 40 * y) by (apply Rmult_le_compat_l; lra). lra. }
  assert (T: Rabs (r - e) <= Rabs (r - v * y) + Rabs (v * y - e)).
  { replace (r - e) with ((r - v * y) + (v * y - e)) by ring. apply Rabs_triang. }
  assert (Uv: u * Rabs (v * y) <= u * ((1 + u) * Rabs e + eta * y)) by (apply Rmult_le_compat_l; lra).
  assert (U2: u * (eta * y) <= 1 * (eta * y)) by (apply Rmult_le_compat_r; lra).
  replace (2 ^ 72 * eta * y) with (2 ^ 72 * (eta * y)) by ring.
  assert (P2: (1 + u) * (1 + u) <= (1 + u1) ^ 14).
  { pose proof (pow_le1 (1 + u1) 12 ltac:(lra)) as P12. change ((1 + u1) ^ 14) with ((1 + u1) * ((1 + u1) * (1 + u1) ^ 12)).
    apply Rmult_le_compat; try lra. rewrite <- (Rmult_1_r (1 + u)). apply Rmult_le_compat; lra. }
  assert (P3: (1 + u) * (1 + u) * Rabs e <= (1 + u1) ^ 14 * Rabs e) by (apply Rmult_le_compat_r; auto). set (p := (1 + u1) ^ 14) in *.
  lra.
Qed.
Lemma prod_low a1 a2 a3 i g : is_fac (a1 i) /\ is_fac (a2 i) /\ is_fac (a3 i) -> phi (ruiz_prod a1 a2 a3 i) = Some g -> / 2 ^ 40 <= g.
Proof.
  intros (F1 & F2 & F3) E. destruct (prod_rel phi u eta Om H FI _ _ _ _ _ F1 F2 F3 E) as (d1 & d2 & d3 & _ & _ & _ & L1 & L2 & L3 & RR).
  assert (N11: / 2 ^ 11 = 1 / 2048) by (field; lra). assert (N40: / 2 ^ 40 = 1 / 2 ^ 40) by (field; lra). rewrite N11, N40 in *.
  assert (PD: 1 / 2048 * (1 / 2048) * (1 / 2048) <= d1 * d2 * d3) by (repeat apply Rmult_le_compat; lra).
  assert (PD0: 0 < d1 * d2 * d3) by lra.
  pose proof (rel_bounds _ _ _ _ PD0 (u1_pow phi u eta Om H FI 3 ltac:(lia)) RR). lra.
Qed.
End Rounded.
