(* Hyperbolic rotations of the second-order cone and Nesterov-Todd scaling of
   one block, over the reals.  No program here. *)
From Coq Require Import List Arith Reals Lia Lra Psatz.
From Verif Require Import Base Num.
From Verif.Spec Require Import Matrix Conic Jordan.
Open Scope R_scope.

(* x -> [ a q'; q I + q q'/(1+a) ] x *)
Definition rot (p : nat) (a : R) (q x : nat -> R) (i : nat) : R :=
  if Nat.eqb i 0 then a * x 0%nat + dotp (p - 1) q (from 1 x)
  else x i + (x 0%nat + dotp (p - 1) q (from 1 x) / (1 + a)) * q (i - 1)%nat.

Lemma dotp_ext n u u' v v' : (forall i, (i < n)%nat -> u i = u' i) -> (forall i, (i < n)%nat -> v i = v' i) ->
  dotp n u v = dotp n u' v'.
Proof. intros H1 H2. apply Rsum_ext. intros i Hi. rewrite H1, H2 by auto. auto. Qed.
Lemma dotp_comm n u v : dotp n u v = dotp n v u.
Proof. apply Rsum_ext. intros. ring. Qed.
Lemma dotp_add_r n u v w : dotp n u (fun i => v i + w i) = dotp n u v + dotp n u w.
Proof. unfold dotp. rewrite <- Rsum_plus. apply Rsum_ext. intros. ring. Qed.
Lemma dotp_scal_r n u c v : dotp n u (fun i => c * v i) = c * dotp n u v.
Proof. unfold dotp. rewrite <- Rsum_scal. apply Rsum_ext. intros. ring. Qed.
Lemma dotp_opp_l n u v : dotp n (fun i => - u i) v = - dotp n u v.
Proof. unfold dotp. rewrite <- Rsum_opp. apply Rsum_ext. intros. ring. Qed.
Lemma dotp_first p u v : (1 <= p)%nat -> dotp p u v = u 0%nat * v 0%nat + dotp (p - 1) (from 1 u) (from 1 v).
Proof.
  intros Hp. destruct p; [lia|]. unfold dotp. rewrite Rsum_S_l. replace (S p - 1)%nat with p by lia.
  f_equal.
Qed.
Lemma det_dot p u : det p u = u 0%nat * u 0%nat - dotp (p - 1) (from 1 u) (from 1 u).
Proof. reflexivity. Qed.

Section Rot.
Variables (p : nat) (a : R) (q : nat -> R).
Hypothesis Hp : (1 <= p)%nat.
Hypothesis Ha : 0 < a.
Hypothesis Hq : a * a - dotp (p - 1) q q = 1.

Lemma rot_rest x n : n = (p - 1)%nat ->
  forall i, from 1 (rot p a q x) i = x (1 + i)%nat + (x 0%nat + dotp n q (from 1 x) / (1 + a)) * q i.
Proof. intros -> i. unfold from at 1, rot. cbn [Nat.eqb Nat.add]. rewrite Nat.sub_succ, Nat.sub_0_r. auto. Qed.

(* q' of the tail of the image *)
Lemma rot_dot x u : dotp (p - 1) u (from 1 (rot p a q x)) =
  dotp (p - 1) u (from 1 x) + (x 0%nat + dotp (p - 1) q (from 1 x) / (1 + a)) * dotp (p - 1) u q.
Proof.
  rewrite <- dotp_scal_r, <- dotp_add_r. apply dotp_ext; auto. intros i Hi. rewrite (rot_rest x _ eq_refl). reflexivity.
Qed.
Lemma rot_0 x : rot p a q x 0%nat = a * x 0%nat + dotp (p - 1) q (from 1 x).
Proof. reflexivity. Qed.

Lemma rot_det x : det p (rot p a q x) = det p x.
Proof.
  rewrite !det_dot, rot_0. rewrite (rot_dot x (from 1 (rot p a q x))).
  rewrite (dotp_comm _ (from 1 (rot p a q x)) (from 1 x)), (rot_dot x (from 1 x)).
  rewrite (dotp_comm _ (from 1 (rot p a q x)) q), (rot_dot x q).
  rewrite (dotp_comm _ (from 1 x) q).
  set (d := dotp (p - 1) q (from 1 x)). set (e := dotp (p - 1) (from 1 x) (from 1 x)).
  replace (dotp (p - 1) q q) with (a * a - 1) by lra. field. lra.
Qed.

Lemma rot_dotp x y : dotp p y (rot p a q x) = dotp p (rot p a q y) x.
Proof.
  rewrite (dotp_first p y), (dotp_first p (rot p a q y)) by auto. rewrite !rot_0, rot_dot. rewrite (dotp_comm _ (from 1 (rot p a q y))), rot_dot.
  rewrite (dotp_comm _ (from 1 y) (from 1 x)), (dotp_comm _ (from 1 y) q), (dotp_comm _ (from 1 x) q). field. lra.
Qed.

Lemma rot_int x : int_soc p x -> int_soc p (rot p a q x).
Proof.
  intros H. apply int_soc_det. rewrite rot_det. split; [|apply int_soc_det in H; tauto].
  unfold int_soc in H. rewrite rot_0.
  pose proof (CS_ge (p - 1) q (from 1 x)) as K. pose proof (nrm_nonneg (p - 1) (from 1 x)) as N.
  pose proof (nrm_nonneg (p - 1) q) as M. pose proof (nrm_sq (p - 1) q) as Q.
  assert (B: nrm (p - 1) q < a). { apply Rsqr_incrst_0; [unfold Rsqr; lra|auto|lra]. }
  assert (nrm (p - 1) q * nrm (p - 1) (from 1 x) <= a * nrm (p - 1) (from 1 x)) by (apply Rmult_le_compat_r; lra).
  assert (a * nrm (p - 1) (from 1 x) < a * x 0%nat) by (apply Rmult_lt_compat_l; lra). lra.
Qed.
Lemma rot_in x : nrm (p - 1) (from 1 x) <= x 0%nat -> nrm (p - 1) (from 1 (rot p a q x)) <= rot p a q x 0%nat.
Proof.
  intros H.
  pose proof (CS_ge (p - 1) q (from 1 x)) as K. pose proof (nrm_nonneg (p - 1) (from 1 x)) as N.
  pose proof (nrm_nonneg (p - 1) q) as M. pose proof (nrm_sq (p - 1) q) as Q.
  assert (B: nrm (p - 1) q < a). { apply Rsqr_incrst_0; [unfold Rsqr; lra|auto|lra]. }
  assert (nrm (p - 1) q * nrm (p - 1) (from 1 x) <= a * nrm (p - 1) (from 1 x)) by (apply Rmult_le_compat_r; lra).
  assert (a * nrm (p - 1) (from 1 x) <= a * x 0%nat) by (apply Rmult_le_compat_l; lra).
  assert (P: 0 <= rot p a q x 0%nat) by (rewrite rot_0; lra).
  apply Rsqr_incr_0; [|apply nrm_nonneg|auto]. unfold Rsqr. rewrite nrm_sq.
  pose proof (rot_det x) as D. rewrite !det_dot in D.
  pose proof (nrm_sq (p - 1) (from 1 x)) as Q2.
  assert (nrm (p - 1) (from 1 x) * nrm (p - 1) (from 1 x) <= x 0%nat * x 0%nat).
  { apply Rmult_le_compat; auto. }
  lra.
Qed.
End Rot.

(* the inverse is the rotation by -q *)
Lemma rot_inv p a q x i : 0 < a -> a * a - dotp (p - 1) q q = 1 -> (1 <= p)%nat -> (i < p)%nat ->
  rot p a (fun i => - q i) (rot p a q x) i = x i.
Proof.
  intros Ha Hq Hp Hi. unfold rot at 1. rewrite dotp_opp_l, (rot_dot p a q x q), rot_0.
  replace (dotp (p - 1) q q) with (a * a - 1) by lra.
  destruct (Nat.eqb_spec i 0) as [->|N].
  - field. lra.
  - unfold rot. destruct (Nat.eqb_spec i 0); [lia|]. field. lra.
Qed.

Lemma rot_opp_hyp n (a : R) q : a * a - dotp n q q = 1 -> a * a - dotp n (fun i => - q i) (fun i => - q i) = 1.
Proof. intros H. rewrite dotp_opp_l, dotp_comm, dotp_opp_l. lra. Qed.

Lemma rot_inv' p a q x i : 0 < a -> a * a - dotp (p - 1) q q = 1 -> (1 <= p)%nat -> (i < p)%nat ->
  rot p a q (rot p a (fun i => - q i) x) i = x i.
Proof.
  intros Ha Hq Hp Hi. rewrite <- (rot_inv p a (fun i => - q i) x i); auto.
  - unfold rot at 1 3. rewrite !(dotp_ext (p - 1) (fun i => - - q i) q (from 1 _) (from 1 (rot p a (fun i => - q i) x))); auto.
    + destruct (Nat.eqb i 0); auto. rewrite Ropp_involutive. auto.
    + intros. ring.
  - apply rot_opp_hyp. auto.
Qed.

(* its square is 2 w w' - J *)
Lemma rot_sq p a q x i : 0 < a -> a * a - dotp (p - 1) q q = 1 -> (1 <= p)%nat -> (i < p)%nat ->
  rot p a q (rot p a q x) i =
  if Nat.eqb i 0 then 2 * a * (a * x 0%nat + dotp (p - 1) q (from 1 x)) - x 0%nat
  else 2 * q (i - 1)%nat * (a * x 0%nat + dotp (p - 1) q (from 1 x)) + x i.
Proof.
  intros Ha Hq Hp Hi. unfold rot at 1. rewrite (rot_dot p a q x q), rot_0.
  replace (dotp (p - 1) q q) with (a * a - 1) by lra.
  destruct (Nat.eqb_spec i 0) as [->|N].
  - field. lra.
  - unfold rot. destruct (Nat.eqb_spec i 0); [lia|]. field. lra.
Qed.

Lemma rot_lin p a q c x i : rot p a q (fun j => c * x j) i = c * rot p a q x i.
Proof.
  unfold rot. replace (dotp (p - 1) q (from 1 (fun j => c * x j))) with (c * dotp (p - 1) q (from 1 x)).
  - destruct (Nat.eqb i 0); unfold Rdiv; ring.
  - rewrite <- dotp_scal_r. apply dotp_ext; auto.
Qed.
Lemma rot_add p a q x y i : rot p a q (fun j => x j + y j) i = rot p a q x i + rot p a q y i.
Proof.
  unfold rot. replace (dotp (p - 1) q (from 1 (fun j => x j + y j))) with (dotp (p - 1) q (from 1 x) + dotp (p - 1) q (from 1 y)).
  - destruct (Nat.eqb i 0); unfold Rdiv; ring.
  - rewrite <- dotp_add_r. apply dotp_ext; auto.
Qed.

Lemma rot_ext p a q x y i : (1 <= p)%nat -> (i < p)%nat -> (forall j, (j < p)%nat -> x j = y j) -> rot p a q x i = rot p a q y i.
Proof.
  intros Hp Hi H. unfold rot. rewrite (dotp_ext (p - 1) q q (from 1 x) (from 1 y)); auto.
  - rewrite !H by lia. auto.
  - intros j Hj. unfold from. apply H. lia.
Qed.

Lemma rot_extq p a q q' x i : (i < p)%nat -> (forall j, (j < p - 1)%nat -> q j = q' j) -> rot p a q x i = rot p a q' x i.
Proof.
  intros Hi H. unfold rot. rewrite (dotp_ext (p - 1) q q' (from 1 x) (from 1 x)); auto.
  destruct (Nat.eqb_spec i 0); auto. rewrite H by lia. auto.
Qed.

(* ----------------------------------------------------- Nesterov-Todd point *)
(* s and z normalised to determinant one *)
Section NT.
Variables (p : nat) (s z : nat -> R).
Hypothesis Hp : (1 <= p)%nat.
Hypothesis Hs : int_soc p s.
Hypothesis Hz : int_soc p z.
Hypothesis Ds : det p s = 1.
Hypothesis Dz : det p z = 1.

Lemma nt_dot : 1 <= dotp p s z.
Proof.
  rewrite dotp_first by auto. rewrite det_dot in Ds, Dz. unfold int_soc in Hs, Hz.
  rewrite <- nrm_sq in Ds, Dz.
  pose proof (CS_ge (p - 1) (from 1 s) (from 1 z)) as K.
  pose proof (nrm_nonneg (p - 1) (from 1 s)) as N1. pose proof (nrm_nonneg (p - 1) (from 1 z)) as N2.
  set (x := nrm (p - 1) (from 1 s)) in *. set (y := nrm (p - 1) (from 1 z)) in *.
  set (u := s 0%nat) in *. set (v := z 0%nat) in *.
  enough (1 + x * y <= u * v) by lra.
  assert (XY: 0 <= x * y) by (apply Rmult_le_pos; auto).
  assert (UV: 0 <= u * v) by (apply Rmult_le_pos; lra).
  apply Rsqr_incr_0; [|lra|lra]. unfold Rsqr.
  replace (u * v * (u * v)) with ((u * u) * (v * v)) by ring.
  replace (u * u) with (1 + x * x) by lra. replace (v * v) with (1 + y * y) by lra.
  pose proof (Rle_0_sqr (x - y)) as SQ. unfold Rsqr in SQ. lra.
Qed.

Variable g : R.
Hypothesis Hg : 0 < g.
Hypothesis Hgg : g * g = (1 + dotp p s z) / 2.
Definition nta : R := (s 0%nat + z 0%nat) / (2 * g).
Definition ntq (i : nat) : R := (s (1 + i)%nat - z (1 + i)%nat) / (2 * g).

Lemma ntq_dot u : dotp (p - 1) ntq u = (dotp (p - 1) (from 1 s) u - dotp (p - 1) (from 1 z) u) / (2 * g).
Proof.
  unfold dotp. rewrite <- Rsum_minus. unfold Rdiv. rewrite <- Rsum_scal_r. apply Rsum_ext.
  intros i Hi. unfold ntq, from. field. lra.
Qed.

Lemma nt_hyp : nta * nta - dotp (p - 1) ntq ntq = 1.
Proof.
  rewrite ntq_dot. rewrite !(dotp_comm _ _ ntq), !ntq_dot.
  rewrite dotp_first in Hgg by auto. rewrite det_dot in Ds, Dz.
  rewrite (dotp_comm _ (from 1 z) (from 1 s)).
  set (d := dotp (p - 1) (from 1 s) (from 1 z)) in *.
  set (e := dotp (p - 1) (from 1 s) (from 1 s)) in *. set (f := dotp (p - 1) (from 1 z) (from 1 z)) in *.
  unfold nta. apply Rmult_eq_reg_l with (4 * (g * g)); [|nra].
  replace (4 * (g * g) * ((s 0%nat + z 0%nat) / (2 * g) * ((s 0%nat + z 0%nat) / (2 * g)) -
    ((e - d) / (2 * g) - (d - f) / (2 * g)) / (2 * g)))
    with ((s 0%nat + z 0%nat) * (s 0%nat + z 0%nat) - ((e - d) - (d - f))) by (field; lra).
  rewrite Hgg. lra.
Qed.

Lemma nt_pos : 0 < nta.
Proof.
  apply int_soc_det in Hs, Hz. unfold nta. apply Rdiv_lt_0_compat; lra.
Qed.

Lemma nt_first_z : nta * z 0%nat + dotp (p - 1) ntq (from 1 z) = g.
Proof.
  rewrite ntq_dot. unfold nta. rewrite dotp_first in Hgg by auto. rewrite det_dot in Dz.
  apply Rmult_eq_reg_l with (2 * g); [|lra].
  replace (2 * g * ((s 0%nat + z 0%nat) / (2 * g) * z 0%nat +
     (dotp (p - 1) (from 1 s) (from 1 z) - dotp (p - 1) (from 1 z) (from 1 z)) / (2 * g)))
    with ((s 0%nat + z 0%nat) * z 0%nat + (dotp (p - 1) (from 1 s) (from 1 z) - dotp (p - 1) (from 1 z) (from 1 z)))
    by (field; lra).
  lra.
Qed.
Lemma nt_first_s : nta * s 0%nat - dotp (p - 1) ntq (from 1 s) = g.
Proof.
  rewrite ntq_dot. unfold nta. rewrite dotp_first in Hgg by auto. rewrite det_dot in Ds.
  rewrite (dotp_comm _ (from 1 z) (from 1 s)).
  apply Rmult_eq_reg_l with (2 * g); [|lra].
  replace (2 * g * ((s 0%nat + z 0%nat) / (2 * g) * s 0%nat -
     (dotp (p - 1) (from 1 s) (from 1 s) - dotp (p - 1) (from 1 s) (from 1 z)) / (2 * g)))
    with ((s 0%nat + z 0%nat) * s 0%nat - (dotp (p - 1) (from 1 s) (from 1 s) - dotp (p - 1) (from 1 s) (from 1 z)))
    by (field; lra).
  lra.
Qed.

(* both maps send their point to the same place *)
Lemma nt_meet i : (i < p)%nat -> rot p nta ntq z i = rot p nta (fun i => - ntq i) s i.
Proof.
  intros Hi. unfold rot. rewrite dotp_opp_l.
  pose proof nt_first_z as E1. pose proof nt_first_s as E2.
  destruct (Nat.eqb_spec i 0) as [->|N]; [lra|].
  replace (dotp (p - 1) ntq (from 1 z)) with (g - nta * z 0%nat) by lra.
  replace (- dotp (p - 1) ntq (from 1 s)) with (g - nta * s 0%nat) by lra.
  replace (s i) with (z i + 2 * g * ntq (i - 1)).
  2:{ unfold ntq. replace (1 + (i - 1))%nat with i by lia. field. lra. }
  pose proof nt_pos as P.
  replace (z 0%nat) with (2 * g * nta - s 0%nat) by (unfold nta; field; lra).
  field. lra.
Qed.
End NT.
