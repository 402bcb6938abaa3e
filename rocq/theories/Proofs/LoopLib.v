(* Loops as folds and array fills, for every arithmetic; the layout of a list
   of blocks in a vector. *)
From Coq Require Import List Arith Bool ZArith Reals Lia Lra.
From Verif Require Import Base Num.
From Verif.Spec Require Import Matrix.
Import ListNotations.
Open Scope nat_scope.

Lemma wp_case {A} (m : option A) (Q : A -> Prop) (P : Prop) :
  wp m Q -> (forall a, m = Some a -> Q a -> P) -> P.
Proof. intros H K. destruct (wp_elim _ _ H) as (a & E & HQ). eauto. Qed.

(* ------------------------------------------------------------------- folds *)
Fixpoint nfold {S : Type} (lo n : nat) (step : nat -> S -> S) (s : S) : S :=
  match n with 0 => s | Datatypes.S n => nfold (Datatypes.S lo) n step (step lo s) end.

Lemma for_fold {S : Type} (step : nat -> S -> S) lo hi body s :
  (forall i s, lo <= i < hi -> body i s = Some (step i s)) ->
  for_ lo hi body s = Some (nfold lo (hi - lo) step s).
Proof.
  intros H. unfold for_.
  assert (G: forall n lo s, (forall i s, lo <= i < lo + n -> body i s = Some (step i s)) ->
    for_loop lo n body s = Some (nfold lo n step s)).
  { clear. induction n; intros lo s H; cbn [for_loop nfold]; auto.
    rewrite H by lia. cbn [bind]. apply IHn. intros; apply H; lia. }
  apply G. intros; apply H; lia.
Qed.

Lemma nfold_ext {S : Type} (f g : nat -> S -> S) n : forall lo s,
  (forall i s, lo <= i < lo + n -> f i s = g i s) -> nfold lo n f s = nfold lo n g s.
Proof.
  induction n; intros lo s H; cbn [nfold]; auto. rewrite H by lia. apply IHn. intros; apply H; lia.
Qed.

Lemma nfold_pair {A B : Type} (f : nat -> A -> A) (g : nat -> B -> B) n : forall lo a b,
  nfold lo n (fun i '(a, b) => (f i a, g i b)) (a, b) = (nfold lo n f a, nfold lo n g b).
Proof. induction n; intros lo a b; cbn [nfold]; auto. Qed.

Lemma nfold_S {S : Type} (f : nat -> S -> S) n : forall lo s,
  nfold lo (Datatypes.S n) f s = f (lo + n) (nfold lo n f s).
Proof.
  induction n; intros lo s.
  - cbn [nfold]. rewrite Nat.add_0_r. auto.
  - transitivity (nfold (Datatypes.S lo) (Datatypes.S n) f (f lo s)); [reflexivity|].
    rewrite IHn. cbn [nfold]. f_equal. lia.
Qed.

Lemma nfold_inv {S : Type} (P : nat -> S -> Prop) (f : nat -> S -> S) n lo s :
  P lo s -> (forall i s, lo <= i < lo + n -> P i s -> P (Datatypes.S i) (f i s)) -> P (lo + n) (nfold lo n f s).
Proof.
  intros H0 Hs. induction n; [rewrite Nat.add_0_r; auto|].
  rewrite nfold_S, Nat.add_succ_r. apply Hs; [lia|]. apply IHn. intros; apply Hs; auto; lia.
Qed.

Lemma nfold_plus lo n (g : nat -> R) a :
  nfold lo n (fun i (s : R) => (s + g i)%R) a = (a + Rsum n (fun i => g (lo + i)%nat))%R.
Proof. induction n; [simpl; lra|]. rewrite nfold_S, IHn. simpl. lra. Qed.

Lemma nfold_minus lo n (g : nat -> R) a :
  nfold lo n (fun i (s : R) => (s - g i)%R) a = (a - Rsum n (fun i => g (lo + i)%nat))%R.
Proof. induction n; [simpl; lra|]. rewrite nfold_S, IHn. simpl. lra. Qed.

(* ------------------------------------------------------------------- fills *)
Section Fill.
Context {T : Type}.

(* cells k .. k+p-1 hold f, the others are as before *)
Definition wrote (k p : nat) (f : nat -> T) (a a' : arr T) : Prop :=
  length a' = length a /\
  forall j, get a' j = if (k <=? j) && (j <? k + p) then Some (f (j - k)) else get a j.

Lemma wrote_in k p f a a' i : wrote k p f a a' -> i < p -> get a' (k + i) = Some (f i).
Proof.
  intros [_ H] Hi. rewrite H. beq; try lia. cbn. do 2 f_equal. lia.
Qed.
Lemma wrote_out k p f a a' j : wrote k p f a a' -> j < k \/ k + p <= j -> get a' j = get a j.
Proof. intros [_ H] Hj. rewrite H. beq; try lia; auto. Qed.
Lemma wrote_len k p f a a' : wrote k p f a a' -> length a' = length a.
Proof. intros [H _]. auto. Qed.

(* consecutive writes *)
Lemma wrote_app k p p' f f' a b c : wrote k p f a b -> wrote (k + p) p' f' b c ->
  wrote k (p + p') (fun i => if i <? p then f i else f' (i - p)) a c.
Proof.
  intros [L H] [L' H']. split; [congruence|]. intros j. rewrite H', H. cbv beta. beq; try lia; auto; cbn [andb]; do 2 f_equal; lia.
Qed.

Lemma wrote_ext k p f g a b : wrote k p f a b -> (forall i, i < p -> f i = g i) -> wrote k p g a b.
Proof. intros [L H] E. split; auto. intros j. rewrite H. beq; try lia; auto. cbn. rewrite E by lia. auto. Qed.

Lemma wrote_0 k f a : wrote k 0 f a a.
Proof. split; auto. intros j. beq; try lia; auto. Qed.

Lemma set_wrote k v (a : arr T) : k < length a -> exists a' : arr T, set a k v = Some a' /\ wrote k 1 (fun _ => v) a a'.
Proof.
  intros H. rewrite set_ok by auto. eexists. split; [reflexivity|]. split; [apply upd_length|].
  intros j. rewrite get_upd by auto. beq; try lia; auto.
Qed.

(* a[k+i] = f(i), body not reading a *)
Lemma for_fill (f : nat -> T) k lo hi (body : nat -> arr T -> option (arr T)) (a : arr T) :
  (forall i (a' : arr T), lo <= i < hi -> length a' = length a -> body i a' = set a' (k + i) (f i)) ->
  k + hi <= length a -> lo <= hi ->
  exists a' : arr T, for_ lo hi body a = Some a' /\ wrote (k + lo) (hi - lo) (fun i => f (lo + i)) a a'.
Proof.
  intros Hb Hl Hlh. apply wp_elim.
  apply (wp_for (fun i a' => wrote (k + lo) (i - lo) (fun i => f (lo + i)) a a')).
  - lia.
  - rewrite Nat.sub_diag. apply wrote_0.
  - intros i s Hi [L H]. rewrite Hb by auto. wset a' L' G'; [lia|]. split; [congruence|].
    intros j. rewrite G', H. beq; subst; try lia; auto. cbn. do 2 f_equal. lia.
  - auto.
Qed.

(* a[k+i] = g(i, a[k+i]) *)
Lemma for_modify (g : nat -> T -> T) (d : T) k lo hi (body : nat -> arr T -> option (arr T)) (a : arr T) :
  (forall i (a' : arr T) v, lo <= i < hi -> length a' = length a -> get a' (k + i) = Some v ->
      body i a' = set a' (k + i) (g i v)) ->
  k + hi <= length a -> lo <= hi -> (forall i, lo <= i < hi -> exists v, get a (k + i) = Some v) ->
  exists a' : arr T, for_ lo hi body a = Some a' /\ wrote (k + lo) (hi - lo) (fun i => g (lo + i) (gd d a (k + lo + i))) a a'.
Proof.
  intros Hb Hl Hlh Hr. apply wp_elim.
  apply (wp_for (fun i a' => wrote (k + lo) (i - lo) (fun i => g (lo + i) (gd d a (k + lo + i))) a a')).
  - lia.
  - rewrite Nat.sub_diag. apply wrote_0.
  - intros i s Hi [L H]. destruct (Hr i Hi) as (v & Hv).
    rewrite (Hb i s v); auto; [|rewrite H, Hv; beq; try lia; auto].
    wset a' L' G'; [lia|]. split; [congruence|].
    intros j. rewrite G', H. beq; subst; try lia; auto; cbn.
    + replace (k + lo + (k + i - (k + lo))) with (k + i) by lia.
      replace (lo + (k + i - (k + lo))) with i by lia. unfold gd. rewrite Hv. auto.
  - auto.
Qed.
End Fill.

(* ---------------------------------------------------------- lists of blocks *)
Section Lay.
Context {A : Type} (sz : A -> nat).

(* the blocks l placed one after the other from position k on *)
Fixpoint lay (k : nat) (l : list A) : list (nat * A) :=
  match l with [] => [] | c :: t => (k, c) :: lay (k + sz c) t end.
Fixpoint tot (l : list A) : nat := match l with [] => 0 | c :: t => sz c + tot t end.

Lemma lay_bounds k l : forall k' c, In (k', c) (lay k l) -> k <= k' /\ k' + sz c <= k + tot l.
Proof.
  revert k. induction l as [|c t IH]; intros k k' c' H; [destruct H|]. cbn [lay tot] in *.
  destruct H as [[= <- <-]|H]; [lia|]. apply IH in H. lia.
Qed.
Lemma lay_in k l k' c : In (k', c) (lay k l) -> In c l.
Proof.
  revert k. induction l as [|x t IH]; intros k H; [destruct H|]. cbn [lay] in H.
  destruct H as [[= <- <-]|H]; [left; auto|right; eapply IH; eauto].
Qed.

Lemma lay_app k l l' : lay k (l ++ l') = lay k l ++ lay (k + tot l) l'.
Proof.
  revert k. induction l as [|c t IH]; intros k; cbn [lay tot app]; [rewrite Nat.add_0_r; auto|].
  rewrite IH. do 3 f_equal. lia.
Qed.
Lemma tot_app l l' : tot (l ++ l') = tot l + tot l'.
Proof. induction l; cbn [tot app]; lia. Qed.

(* blocks are disjoint *)
Lemma lay_disjoint k l k1 c1 k2 c2 : In (k1, c1) (lay k l) -> In (k2, c2) (lay k l) ->
  (k1, c1) = (k2, c2) \/ k1 + sz c1 <= k2 \/ k2 + sz c2 <= k1.
Proof.
  revert k. induction l as [|c t IH]; intros k H1 H2; [destruct H1|]. cbn [lay] in *.
  destruct H1 as [E1|H1], H2 as [E2|H2].
  - left; congruence.
  - injection E1 as <- <-. apply lay_bounds in H2. right; left; lia.
  - injection E2 as <- <-. apply lay_bounds in H1. right; right; lia.
  - eapply IH; eauto.
Qed.

(* every position is in a block *)
Lemma lay_cover k l j : k <= j < k + tot l -> exists k' c, In (k', c) (lay k l) /\ k' <= j < k' + sz c.
Proof.
  revert k. induction l as [|c t IH]; intros k H; cbn [tot lay] in *; [lia|].
  destruct (Nat.lt_ge_cases j (k + sz c)).
  - exists k, c. split; [left; auto|lia].
  - destruct (IH (k + sz c)) as (k' & c' & H1 & H2); [lia|]. exists k', c'. split; [right; auto|auto].
Qed.

Context {T : Type}.
(* what a loop over the blocks wrote *)
Definition wrotes (k0 : nat) (l : list A) (f : nat -> A -> nat -> T) (a a' : arr T) : Prop :=
  length a' = length a /\
  (forall k c i, In (k, c) (lay k0 l) -> i < sz c -> get a' (k + i) = Some (f k c i)) /\
  (forall j, j < k0 \/ k0 + tot l <= j -> get a' j = get a j).

Lemma wrotes_nil k0 f a : wrotes k0 [] f a a.
Proof. split; [auto|]. split; [intros k c i Hin; destruct Hin|auto]. Qed.
Lemma wrotes_cons k0 c l f a b d :
  wrote k0 (sz c) (f k0 c) a b -> wrotes (k0 + sz c) l f b d -> wrotes k0 (c :: l) f a d.
Proof.
  intros W (L & I & O). split; [|split].
  - rewrite L. apply (wrote_len _ _ _ _ _ W).
  - intros k c' i [E|H] Hi.
    + injection E as <- <-. rewrite O by lia. apply (wrote_in _ _ _ _ _ _ W Hi).
    + apply I; auto.
  - intros j Hj. cbn [tot] in Hj. rewrite O by lia. apply (wrote_out _ _ _ _ _ _ W). lia.
Qed.

Lemma wrotes_ext k0 l f g a b : wrotes k0 l f a b ->
  (forall k c i, In (k, c) (lay k0 l) -> i < sz c -> f k c i = g k c i) -> wrotes k0 l g a b.
Proof. intros (L & I & O) E. split; [auto|split; [|auto]]. intros. rewrite <- E; auto. Qed.

(* for (each block) { ...; k += size } with an array as state *)
Lemma block_loop (f : nat -> A -> nat -> T) (N : nat) (body : A -> arr T * nat -> option (arr T * nat)) :
  forall l k0 (a : arr T),
  length a = N ->
  (forall k c (a' : arr T), In (k, c) (lay k0 l) -> length a' = N ->
     (forall j, k <= j -> get a' j = get a j) ->
     exists a'', body c (a', k) = Some (a'', k + sz c) /\ wrote k (sz c) (f k c) a' a'') ->
  exists a' : arr T, for_each l body (a, k0) = Some (a', k0 + tot l) /\ wrotes k0 l f a a'.
Proof.
  induction l as [|c t IH]; intros k0 a HL Hb.
  - exists a. cbn. rewrite Nat.add_0_r. split; [auto|apply wrotes_nil].
  - cbn [for_each].
    destruct (Hb k0 c a) as (b & E & W); [left; auto|auto|auto|].
    rewrite E. cbn [bind].
    destruct (IH (k0 + sz c) b) as (d & E2 & W2).
    + rewrite (wrote_len _ _ _ _ _ W); auto.
    + intros k c' a' Hin L' G'. apply Hb; [right; auto|auto|].
      pose proof (lay_bounds _ _ _ _ Hin).
      intros j Hj. rewrite G' by lia. apply (wrote_out _ _ _ _ _ _ W). lia.
    + rewrite E2. exists d. split; [cbn [tot]; do 2 f_equal; lia|]. eapply wrotes_cons; eauto.
Qed.

(* the same with an accumulator in front *)
Lemma block_loop_acc {B : Type} (step : nat -> A -> B -> B) (f : nat -> A -> nat -> T) (N : nat)
    (body : A -> B * arr T * nat -> option (B * arr T * nat)) : forall l k0 b (a : arr T),
  length a = N ->
  (forall k c b (a' : arr T), In (k, c) (lay k0 l) -> length a' = N ->
     exists a'', body c (b, a', k) = Some (step k c b, a'', k + sz c) /\ wrote k (sz c) (f k c) a' a'') ->
  exists a' : arr T, for_each l body (b, a, k0) =
     Some (fold_left (fun b '(k, c) => step k c b) (lay k0 l) b, a', k0 + tot l) /\ wrotes k0 l f a a'.
Proof.
  induction l as [|c t IH]; intros k0 b a HL Hb.
  - exists a. cbn. rewrite Nat.add_0_r. split; [auto|apply wrotes_nil].
  - cbn [for_each].
    destruct (Hb k0 c b a) as (a1 & E & W); [left; auto|auto|].
    rewrite E. cbn [bind].
    destruct (IH (k0 + sz c) (step k0 c b) a1) as (d & E2 & W2).
    + rewrite (wrote_len _ _ _ _ _ W); auto.
    + intros. apply Hb; [right; auto|auto].
    + rewrite E2. exists d. split; [cbn [tot lay fold_left]; do 2 f_equal; lia|]. eapply wrotes_cons; eauto.
Qed.

(* an accumulator only *)
Lemma block_loop_fold {B : Type} (step : nat -> A -> B -> B) body : forall l k0 b,
  (forall k c b, In (k, c) (lay k0 l) -> body c (b, k) = Some (step k c b, k + sz c)) ->
  for_each l body (b, k0) = Some (fold_left (fun b '(k, c) => step k c b) (lay k0 l) b, k0 + tot l).
Proof.
  induction l as [|c t IH]; intros k0 b Hb.
  - cbn. rewrite Nat.add_0_r. auto.
  - cbn [for_each]. rewrite Hb by (left; auto). cbn [bind]. rewrite IH by (intros; apply Hb; right; auto).
    cbn [tot lay fold_left]. do 2 f_equal. lia.
Qed.
End Lay.
