(* Fully initialised integer arrays as functions *)
From Coq Require Import List Arith ZArith Bool Lia.
From Verif Require Import Base.
From Verif.Spec Require Import Ordering.
Import ListNotations.
Open Scope nat_scope.

Definition fu {A} (f : nat -> A) (i : nat) (v : A) : nat -> A := fun k => if Nat.eqb k i then v else f k.
Lemma fu_eq {A} (f : nat -> A) i v : fu f i v i = v.
Proof. unfold fu. rewrite Nat.eqb_refl. reflexivity. Qed.
Lemma fu_ne {A} (f : nat -> A) i v k : k <> i -> fu f i v k = f k.
Proof. intros H. unfold fu. apply Nat.eqb_neq in H. rewrite H. reflexivity. Qed.

(* a has n cells, holding f *)
Definition fa (a : arr Z) (n : nat) (f : nat -> Z) : Prop := length a = n /\ holds a n f.

Lemma fa_get a n f i : fa a n f -> i < n -> get a i = Some (f i).
Proof. intros [_ H]. apply H. Qed.
Lemma fa_ext a n f g : fa a n f -> (forall i, i < n -> f i = g i) -> fa a n g.
Proof. intros [L H] E. split; [exact L|]. intros i Hi. rewrite H, E; auto. Qed.

Lemma wfa_get a n f i (Q : Z -> Prop) : fa a n f -> i < n -> Q (f i) -> wp (get a i) Q.
Proof. intros H Hi. apply wp_get. eapply fa_get; eassumption. Qed.
Lemma wfa_getz a n f i (Q : Z -> Prop) : fa a n f -> (0 <= i < Z.of_nat n)%Z -> Q (f (Z.to_nat i)) -> wp (getz a i) Q.
Proof. intros H Hi. apply wp_getz; [lia|]. eapply fa_get; [eassumption|lia]. Qed.
Lemma wfa_getn a n f i (Q : Z -> Prop) : fa a n f -> i < n -> Q (f i) -> wp (getz a (Z.of_nat i)) Q.
Proof. intros H Hi K. eapply wfa_getz; [exact H|lia|]. rewrite Nat2Z.id. exact K. Qed.

Lemma fa_upd a n f i v : fa a n f -> i < n -> fa (upd a i (Some v)) n (fu f i v).
Proof.
  intros [L H] Hi. split; [rewrite upd_length; exact L|]. intros k Hk. rewrite get_upd by lia.
  unfold fu. destruct (Nat.eqb k i); [reflexivity|apply H; exact Hk].
Qed.
Lemma wfa_set a n f i v (Q : arr Z -> Prop) : fa a n f -> i < n ->
  (forall a', fa a' n (fu f i v) -> Q a') -> wp (set a i v) Q.
Proof.
  intros H Hi K. rewrite set_ok by (destruct H; lia). cbn. apply K. apply fa_upd; assumption.
Qed.
Lemma wfa_setn a n f i v (Q : arr Z -> Prop) : fa a n f -> i < n ->
  (forall a', fa a' n (fu f i v) -> Q a') -> wp (setz a (Z.of_nat i) v) Q.
Proof.
  intros H Hi K. unfold setz. destruct (Z.ltb_spec (Z.of_nat i) 0); [lia|]. rewrite Nat2Z.id. eapply wfa_set; eassumption.
Qed.
Lemma wp_setn (a : arr Z) i v (Q : arr Z -> Prop) : i < length a ->
  (forall a', length a' = length a -> (forall j, get a' j = if j =? i then Some v else get a j) -> Q a') ->
  wp (setz a (Z.of_nat i) v) Q.
Proof.
  intros H K. unfold setz. destruct (Z.ltb_spec (Z.of_nat i) 0); [lia|]. rewrite Nat2Z.id. apply wp_set; auto.
Qed.

(* every cell of a gets initialised in a loop *)
Lemma wfa_fill (a : arr Z) n (f : nat -> Z) : length a = n ->
  wp (for_ 0 n (fun i a => set a i (f i)) a) (fun a' => fa a' n f).
Proof.
  intros L. apply (wp_for (fun k a => length a = n /\ forall i, i < k -> get a i = Some (f i))); [lia| | |].
  - split; [exact L|]. intros; lia.
  - intros i b Hi [L1 H1]. apply wp_set; [lia|]. intros b' L' G'. split; [lia|].
    intros k Hk. rewrite G'. destruct (Nat.eqb_spec k i) as [->|]; [reflexivity|apply H1; lia].
  - intros b [L1 H1]. split; auto.
Qed.
Lemma wfa_fill2 (a b : arr Z) n (f g : nat -> Z) : length a = n -> length b = n ->
  wp (for_ 0 n (fun i '(a, b) => a <- set a i (f i) ;; b <- set b i (g i) ;; Some (a, b)) (a, b))
     (fun '(a', b') => fa a' n f /\ fa b' n g).
Proof.
  intros L1 L2. apply (wp_for (fun k '(a, b) => length a = n /\ length b = n /\
      (forall i, i < k -> get a i = Some (f i)) /\ (forall i, i < k -> get b i = Some (g i)))); [lia| | |].
  - repeat split; try assumption; intros; lia.
  - intros i [a1 b1] Hi (A1 & A2 & A3 & A4). wb. apply wp_set; [lia|]. intros a' La Ga. wb. apply wp_set; [lia|].
    intros b' Lb Gb. cbn. repeat split; try lia; intros k Hk; [rewrite Ga|rewrite Gb];
      (destruct (Nat.eqb_spec k i) as [->|]; [reflexivity|]); [apply A3|apply A4]; lia.
  - intros [a1 b1] (A1 & A2 & A3 & A4). repeat split; assumption.
Qed.
(* every cell of an initialised array is rewritten from its own value *)
Lemma wfa_map (a : arr Z) n (f : nat -> Z) (g : Z -> Z) : fa a n f ->
  wp (for_ 0 n (fun i a => v <- get a i ;; set a i (g v)) a) (fun a' => fa a' n (fun i => g (f i))).
Proof.
  intros H. apply (wp_for (fun k a => fa a n (fun i => if i <? k then g (f i) else f i))); [lia| | |].
  - eapply fa_ext; [exact H|]. intros. reflexivity.
  - intros i b Hi B. wb. eapply wfa_get; [exact B|lia|]. eapply wfa_set; [exact B|lia|].
    intros a' A. eapply fa_ext; [exact A|]. intros k Hk. unfold fu.
    destruct (Nat.eqb_spec k i) as [->|].
    + destruct (Nat.ltb_spec i i); [lia|]. destruct (Nat.ltb_spec i (S i)); [reflexivity|lia].
    + destruct (Nat.ltb_spec k i), (Nat.ltb_spec k (S i)); try reflexivity; lia.
  - intros b B. eapply fa_ext; [exact B|]. intros i Hi. cbv beta. apply Nat.ltb_lt in Hi. rewrite Hi. reflexivity.
Qed.
