(* The Jordan algebra of the second-order cone, the interior of a product cone
   and the position of the blocks.  Mathematics only. *)
From Coq Require Import List Arith Reals Lia Lra.
From Verif Require Import Base Num.
From Verif.Spec Require Import Matrix Conic.
Import ListNotations.
Open Scope R_scope.

(* where the second-order cones of sizes q lie when the first starts at k:
   the list of (first index, size) *)
Fixpoint layout (k : nat) (q : list nat) : list (nat * nat) :=
  match q with [] => [] | p :: t => (k, p) :: layout (k + p) t end.

(* strict interior of the second-order cone of dimension p *)
Definition int_soc (p : nat) (u : nat -> R) : Prop := nrm (p - 1) (from 1 u) < u 0%nat.

(* u0^2 - u1^2 - ... : positive in the interior of the cone and of its negative *)
Definition det (p : nat) (u : nat -> R) : R :=
  u 0%nat * u 0%nat - Rsum (p - 1) (fun i => u (1 + i)%nat * u (1 + i)%nat).

(* strict interior of the orthant times second-order cones *)
Record int_K (l : nat) (q : list nat) (u : nat -> R) : Prop := {
  int_lp : forall i, (i < l)%nat -> 0 < u i;
  int_socs : forall k p, In (k, p) (layout l q) -> int_soc p (from k u)
}.

(* strict interior of the exponential cone and of its dual *)
Definition int_exp (u : nat -> R) : Prop :=
  0 < u 2%nat /\ u 2%nat * exp (u 0%nat / u 2%nat) < u 1%nat.
Definition int_expd (u : nat -> R) : Prop :=
  u 0%nat < 0 /\ - u 0%nat * exp (u 2%nat / u 0%nat) < exp 1 * u 1%nat.

(* Jordan product of the second-order cone: (u'v, u0 v1 + v0 u1) *)
Definition jprod (p : nat) (u v : nat -> R) (i : nat) : R :=
  match i with O => dotp p u v | _ => u 0%nat * v i + v 0%nat * u i end.

(* w is the product of u and v in the algebra of orthant and second-order cones *)
Record is_jprod (l : nat) (q : list nat) (u v w : nat -> R) : Prop := {
  jp_lp : forall i, (i < l)%nat -> w i = u i * v i;
  jp_soc : forall k p i, In (k, p) (layout l q) -> (i < p)%nat -> w (k + i)%nat = jprod p (from k u) (from k v) i
}.

(* W, with inverse Wi, is a scaling of the cone (first N coordinates): linear,
   symmetric, invertible and mapping the interior onto itself *)
Record scaling (N l : nat) (q : list nat) (W Wi : (nat -> R) -> nat -> R) : Prop := {
  sc_lin : forall c x y i, W (fun j => c * x j + y j) i = c * W x i + W y i;
  sc_sym : forall x y, dotp N y (W x) = dotp N (W y) x;
  sc_inv1 : forall x i, (i < N)%nat -> Wi (W x) i = x i;
  sc_inv2 : forall x i, (i < N)%nat -> W (Wi x) i = x i;
  sc_int : forall x, int_K l q x -> int_K l q (W x);
  sc_inti : forall x, int_K l q x -> int_K l q (Wi x)
}.

(* s and z are interior and far enough from the boundary, relative to eps, for
   a division guarded by eps never to replace its divisor *)
Record margin (eps : R) (l : nat) (q : list nat) (s z : nat -> R) : Prop := {
  mg_s : int_K l q s;
  mg_z : int_K l q z;
  mg_lp : forall i, (i < l)%nat -> eps <= z i /\ eps * eps * z i <= s i;
  mg_soc : forall k p, In (k, p) (layout l q) ->
     eps * eps <= det p (from k s) /\ eps * eps <= det p (from k z) /\
     eps * eps * (eps * eps) * det p (from k z) <= det p (from k s)
}.

(* The KKT system keeps two extra coordinates behind every second-order cone.
   (first index in the plain vector, first index in the expanded one, size) *)
Fixpoint layout2 (k k' : nat) (q : list nat) : list (nat * nat * nat) :=
  match q with [] => [] | p :: t => (k, k', p) :: layout2 (k + p) (k' + p + 2) t end.

(* the expanded vector x carries the plain vector u *)
Record carries (l : nat) (q : list nat) (u x : nat -> R) : Prop := {
  ca_lp : forall i, (i < l)%nat -> x i = u i;
  ca_soc : forall k k' p i, In (k, k', p) (layout2 l l q) -> (i < p)%nat -> x (k' + i)%nat = u (k + i)%nat
}.
(* and is zero in the extra coordinates *)
Definition extra_zero (l : nat) (q : list nat) (x : nat -> R) : Prop :=
  forall k k' p, In (k, k', p) (layout2 l l q) -> x (k' + p)%nat = 0 /\ x (k' + p + 1)%nat = 0.

(* ------------------------------------------------------------- basic facts *)
Lemma layout_bounds k q k' p : In (k', p) (layout k q) -> (k <= k' /\ k' + p <= k + list_sum q)%nat.
Proof.
  revert k. induction q as [|a t IH]; intros k H; [destruct H|].
  change (list_sum (a :: t)) with (a + list_sum t)%nat.
  destruct H as [[= <- <-]|H]; [lia|]. apply IH in H. lia.
Qed.
Lemma layout_cover k q j : (k <= j < k + list_sum q)%nat ->
  exists k' p, In (k', p) (layout k q) /\ (k' <= j < k' + p)%nat.
Proof.
  revert k. induction q as [|p t IH]; intros k H; [cbn in H; lia|].
  change (list_sum (p :: t)) with (p + list_sum t)%nat in H.
  destruct (Nat.lt_ge_cases j (k + p)).
  - exists k, p. split; [left; auto|lia].
  - destruct (IH (k + p)%nat) as (k' & c' & H1 & H2); [lia|]. exists k', c'. split; [right; auto|auto].
Qed.

Lemma from_from a b u : forall i, from a (from b u) i = from (b + a) u i.
Proof. intros i. unfold from. f_equal. lia. Qed.

Lemma nrm_ext n u v : (forall i, (i < n)%nat -> u i = v i) -> nrm n u = nrm n v.
Proof. intros H. unfold nrm. f_equal. apply Rsum_ext. intros i Hi. rewrite H; auto. Qed.

(* the interior lies in the cone of Spec/Conic.v *)
Lemma in_socs_ext t : forall a b, (forall i, a i = b i) -> in_socs t a -> in_socs t b.
Proof.
  induction t as [|q t IH]; intros a b E; cbn; auto. intros [H1 H2]. split.
  - intros Hq. specialize (H1 Hq). rewrite <- E.
    rewrite (nrm_ext (q - 1) (from 1 b) (from 1 a)); auto. intros i _. unfold from. auto.
  - revert H2. apply IH. intros i. unfold from. auto.
Qed.
Lemma int_in_socs q : forall k u, (forall k' p, In (k', p) (layout k q) -> int_soc p (from k' u)) -> in_socs q (from k u).
Proof.
  induction q as [|p t IH]; intros k u H; cbn; auto. split.
  - intros _. left. apply (H k p). left; auto.
  - eapply in_socs_ext; [|apply (IH (k + p)%nat u)].
    + intros i. unfold from. f_equal. lia.
    + intros. apply H. right; auto.
Qed.
Lemma int_K_inK l q u : int_K l q u -> inK l q 0 u.
Proof.
  intros [H1 H2]. split; [|split; [|exact I]].
  - intros i Hi. left. auto.
  - apply int_in_socs. auto.
Qed.

Lemma det_ext p u v : (1 <= p)%nat -> (forall i, (i < p)%nat -> u i = v i) -> det p u = det p v.
Proof.
  intros Hp H. unfold det. rewrite H by lia. f_equal. apply Rsum_ext. intros i Hi. rewrite H by lia. auto.
Qed.
Lemma int_soc_ext p u v : (1 <= p)%nat -> (forall i, (i < p)%nat -> u i = v i) -> int_soc p u -> int_soc p v.
Proof.
  intros Hp H. unfold int_soc. rewrite <- (H 0%nat) by lia.
  rewrite (nrm_ext (p - 1) (from 1 v) (from 1 u)); auto. intros i Hi. unfold from. rewrite H by lia. auto.
Qed.

Lemma int_soc_det p u : int_soc p u <-> 0 < u 0%nat /\ 0 < det p u.
Proof.
  unfold int_soc, det.
  assert (Q: Rsum (p - 1) (fun i => u (1 + i)%nat * u (1 + i)%nat) = nrm (p - 1) (from 1 u) * nrm (p - 1) (from 1 u))
    by (rewrite nrm_sq; reflexivity).
  rewrite Q. pose proof (nrm_nonneg (p - 1) (from 1 u)) as N. generalize dependent (nrm (p - 1) (from 1 u)).
  intros r _ N. split.
  - intros H. split; [lra|]. assert (r * r < u 0%nat * u 0%nat) by (apply Rmult_le_0_lt_compat; auto). lra.
  - intros [H1 H2]. apply Rsqr_incrst_0; [|auto|lra]. unfold Rsqr. lra.
Qed.
