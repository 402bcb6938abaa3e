(* Counting sort, as pure functions: items 0..n-1 with keys; used by the
   transposition and the symmetric permutation. *)
From Coq Require Import List Arith Bool ZArith Reals Lia Lra.
From Verif Require Import Base Num.
Open Scope nat_scope.

Fixpoint natsum (n : nat) (f : nat -> nat) : nat :=
  match n with O => 0 | S k => natsum k f + f k end.

Lemma natsum_ext n f g : (forall i, i < n -> f i = g i) -> natsum n f = natsum n g.
Proof. induction n; intros H; simpl; auto. rewrite IHn, H; auto. Qed.

Lemma natsum_mono n m f : n <= m -> natsum n f <= natsum m f.
Proof. induction 1; simpl; lia. Qed.

Lemma natsum_plus n f g : natsum n (fun i => f i + g i) = natsum n f + natsum n g.
Proof. induction n; simpl; lia. Qed.

Lemma natsum_delta n b c : natsum n (fun i => if i =? b then c else 0) = if b <? n then c else 0.
Proof. induction n; simpl; auto. rewrite IHn. beq; lia. Qed.

Lemma natsum_0 n f : (forall i, i < n -> f i = 0) -> natsum n f = 0.
Proof. induction n; intros H; simpl; auto. rewrite IHn, H; auto. Qed.

Section CS.
Variable sel : nat -> bool.
Variable key : nat -> nat.

(* number of selected items k < n with key b *)
Definition cnt (b n : nat) : nat := natsum n (fun k => if sel k && (key k =? b) then 1 else 0).

Definition start (n b : nat) : nat := natsum b (fun b' => cnt b' n).

Definition pos (n k : nat) : nat := start n (key k) + cnt (key k) k.

Lemma cnt_S b n : cnt b (S n) = cnt b n + if sel n && (key n =? b) then 1 else 0.
Proof. reflexivity. Qed.

Lemma cnt_mono b n m : n <= m -> cnt b n <= cnt b m.
Proof. apply natsum_mono. Qed.

Lemma cnt_lt b k n : k < n -> sel k = true -> key k = b -> cnt b k < cnt b n.
Proof.
  intros H Sl K. apply Nat.lt_le_trans with (cnt b (S k)).
  - rewrite cnt_S, Sl, K, Nat.eqb_refl. simpl. lia.
  - apply cnt_mono; auto.
Qed.

Lemma start_S n b : start n (S b) = start n b + cnt b n.
Proof. reflexivity. Qed.

Lemma start_mono n a b : a <= b -> start n a <= start n b.
Proof. apply natsum_mono. Qed.

Lemma pos_bounds n k : k < n -> sel k = true -> start n (key k) <= pos n k < start n (S (key k)).
Proof.
  intros H Sl. unfold pos. rewrite start_S. pose proof (cnt_lt (key k) k n H Sl eq_refl). lia.
Qed.

Lemma pos_inj n k k' : k < n -> k' < n -> sel k = true -> sel k' = true -> pos n k = pos n k' -> k = k'.
Proof.
  intros H H' Sl Sl' E.
  assert (K : key k = key k').
  { pose proof (pos_bounds n k H Sl). pose proof (pos_bounds n k' H' Sl').
    destruct (Nat.lt_trichotomy (key k) (key k')) as [L|[L|L]]; auto.
    - pose proof (start_mono n (S (key k)) (key k') ltac:(lia)). lia.
    - pose proof (start_mono n (S (key k')) (key k) ltac:(lia)). lia. }
  unfold pos in E. rewrite K in E.
  destruct (Nat.lt_trichotomy k k') as [L|[L|L]]; auto.
  - pose proof (cnt_lt (key k') k k' L Sl K). lia.
  - pose proof (cnt_lt (key k') k' k L Sl' eq_refl). lia.
Qed.

(* stability *)
Lemma pos_stable n k k' : key k = key k' -> sel k = true -> k < k' -> pos n k < pos n k'.
Proof. intros K Sl L. unfold pos. rewrite K. pose proof (cnt_lt (key k') k k' L Sl K). lia. Qed.

(* the number of selected items among the first n, when all keys are below m *)
Definition nsel (n : nat) : nat := natsum n (fun k => if sel k then 1 else 0).

Lemma start_total m n : (forall k, k < n -> sel k = true -> key k < m) -> start n m = nsel n.
Proof.
  intros H. induction n as [|n IH].
  - unfold start, nsel. simpl. apply natsum_0. auto.
  - assert (E : start (S n) m = start n m + if sel n then 1 else 0).
    { unfold start.
      rewrite (natsum_ext m _ (fun b => cnt b n + (if sel n && (key n =? b) then 1 else 0))) by (intros; apply cnt_S).
      rewrite natsum_plus. f_equal.
      destruct (sel n) eqn:Sl; simpl.
      - rewrite (natsum_ext m _ (fun i => if i =? key n then 1 else 0)) by (intros; rewrite Nat.eqb_sym; auto).
        rewrite natsum_delta. pose proof (H n ltac:(lia) Sl). beq; lia.
      - apply natsum_0; auto. }
    rewrite E. unfold nsel; simpl. fold (nsel n). rewrite IH by auto. auto.
Qed.

Lemma cnt_hit b n c : c < cnt b n -> exists k, k < n /\ sel k = true /\ key k = b /\ cnt b k = c.
Proof.
  induction n as [|n IH]; intros H.
  - unfold cnt in H; simpl in H; lia.
  - rewrite cnt_S in H. destruct (Nat.lt_ge_cases c (cnt b n)) as [L|L].
    + destruct (IH L) as (k & A & B). exists k; split; auto.
    + destruct (sel n && (key n =? b)) eqn:E; [|lia].
      apply andb_true_iff in E. destruct E as [E1 E2]. apply Nat.eqb_eq in E2.
      exists n. repeat split; auto. lia.
Qed.

(* every position below start n m is hit *)
Lemma pos_surj n m q : q < start n m -> exists k, k < n /\ sel k = true /\ key k < m /\ pos n k = q.
Proof.
  intros H. induction m as [|m IH].
  - unfold start in H; simpl in H; lia.
  - rewrite start_S in H. destruct (Nat.lt_ge_cases q (start n m)) as [L|L].
    + destruct (IH L) as (k & A & B & C & D). exists k; repeat split; auto.
    + destruct (cnt_hit m n (q - start n m)) as (k & A & B & C & D); [lia|].
      exists k. repeat split; auto; [lia|]. unfold pos. rewrite C, D. lia.
Qed.

(* ... and if it lies in bucket b, by an item with key b *)
Lemma pos_surj_bucket n b q : start n b <= q < start n (S b) ->
  exists k, k < n /\ sel k = true /\ key k = b /\ pos n k = q.
Proof.
  intros H. rewrite start_S in H.
  destruct (cnt_hit b n (q - start n b)) as (k & A & B & C & D); [lia|].
  exists k. repeat split; auto. unfold pos. rewrite C, D. lia.
Qed.

(* summing over a bucket = summing over the items with that key *)
Lemma bucket_sum n b (g : nat -> R) :
  Rsumr (start n b) (start n (S b)) g =
  Rsum n (fun k => if sel k && (key k =? b) then g (pos n k) else 0%R).
Proof.
  assert (G : forall n', n' <= n ->
    Rsumr (start n b) (start n b + cnt b n') g =
    Rsum n' (fun k => if sel k && (key k =? b) then g (pos n k) else 0%R)).
  { induction n' as [|n' IH]; intros L.
    - unfold cnt; simpl. rewrite Nat.add_0_r. apply Rsumr_nil. lia.
    - rewrite cnt_S. simpl. rewrite <- IH by lia.
      destruct (sel n' && (key n' =? b)) eqn:E.
      + apply andb_true_iff in E. destruct E as [E1 E2]. apply Nat.eqb_eq in E2.
        replace (start n b + (cnt b n' + 1)) with (S (start n b + cnt b n')) by lia.
        rewrite Rsumr_S by lia. unfold pos. rewrite E2. auto.
      + rewrite Nat.add_0_r. lra. }
  rewrite start_S. apply G; auto.
Qed.

End CS.
