(* Partial correctness: [wlp m Q] says that Q holds of the result if there is
   one. *)
From Coq Require Import List Arith Lia Bool ZArith.
From Verif Require Import Base.
Import ListNotations.
Open Scope nat_scope.

Definition wlp {A} (m : option A) (Q : A -> Prop) : Prop :=
  match m with Some a => Q a | None => True end.

Lemma wlp_elim {A} (m : option A) (Q : A -> Prop) a : wlp m Q -> m = Some a -> Q a.
Proof. intros H ->. exact H. Qed.
Lemma wlp_intro {A} (m : option A) (Q : A -> Prop) : (forall a, m = Some a -> Q a) -> wlp m Q.
Proof. destruct m; cbn; auto. Qed.
Lemma wlp_conseq {A} (m : option A) (P Q : A -> Prop) : wlp m P -> (forall a, P a -> Q a) -> wlp m Q.
Proof. destruct m; cbn; auto. Qed.
Lemma wlp_and {A} (m : option A) (P Q : A -> Prop) : wlp m P -> wlp m Q -> wlp m (fun a => P a /\ Q a).
Proof. destruct m; cbn; auto. Qed.
Lemma wlp_bind {A B} (m : option A) (k : A -> option B) Q :
  wlp m (fun a => wlp (k a) Q) -> wlp (bind m k) Q.
Proof. destruct m; cbn; auto. Qed.
(* keeps the equation *)
Lemma wlp_bind_eq {A B} (m : option A) (k : A -> option B) Q :
  (forall a, m = Some a -> wlp (k a) Q) -> wlp (bind m k) Q.
Proof. destruct m; cbn; auto. Qed.
Lemma wlp_ret {A} (a : A) (Q : A -> Prop) : Q a -> wlp (Some a) Q.
Proof. auto. Qed.
Lemma wp_wlp {A} (m : option A) (Q : A -> Prop) : wp m Q -> wlp m Q.
Proof. destruct m; cbn; auto. Qed.
Lemma wlp_wp {A} (m : option A) (Q : A -> Prop) : (exists a, m = Some a) -> wlp m Q -> wp m Q.
Proof. intros (a & ->). auto. Qed.

Lemma wlp_for_loop {S : Type} (Inv : nat -> S -> Prop) lo n body s :
  Inv lo s -> (forall i s, lo <= i < lo + n -> Inv i s -> wlp (body i s) (Inv (Datatypes.S i))) ->
  wlp (for_loop lo n body s) (Inv (lo + n)).
Proof.
  revert lo s. induction n as [|n IH]; intros lo s H0 Hs; cbn [for_loop].
  - rewrite Nat.add_0_r. exact H0.
  - apply wlp_bind. eapply wlp_conseq; [apply Hs; auto; lia|]. intros s' H'.
    replace (lo + Datatypes.S n) with (Datatypes.S lo + n) by lia. apply IH; auto. intros; apply Hs; auto; lia.
Qed.
Lemma wlp_for {S : Type} (Inv : nat -> S -> Prop) lo hi body (s : S) (Q : S -> Prop) :
  lo <= hi ->
  Inv lo s ->
  (forall i s, lo <= i < hi -> Inv i s -> wlp (body i s) (Inv (Datatypes.S i))) ->
  (forall s, Inv hi s -> Q s) ->
  wlp (for_ lo hi body s) Q.
Proof.
  intros Hle H0 Hs HQ. unfold for_. eapply wlp_conseq.
  - apply (wlp_for_loop Inv); auto. intros; apply Hs; auto; lia.
  - replace (lo + (hi - lo)) with hi by lia. auto.
Qed.

(* copying a slice to a disjoint slice of the same array *)
Lemma copy_slice {T} n s d (a a' : arr T) :
  for_ 0 n (fun i a => v <- get a (s + i) ;; set a (d + i) v) a = Some a' ->
  s + n <= d \/ d + n <= s ->
  length a' = length a /\
  (forall i, i < n -> exists v, get a (s + i) = Some v /\ get a' (d + i) = Some v) /\
  (forall k, k < d \/ d + n <= k -> get a' k = get a k).
Proof.
  intros E D. refine (wlp_elim _ (fun a' => _) _ _ E). clear E a'.
  apply wlp_for with (Inv := fun i (a' : arr T) => length a' = length a /\
    (forall j, j < i -> exists v, get a (s + j) = Some v /\ get a' (d + j) = Some v) /\
    (forall k, k < d \/ d + i <= k -> get a' k = get a k)).
  - lia.
  - repeat split; auto. intros; lia.
  - intros i a1 Hi (L & A & B). apply wlp_bind_eq. intros v Ev. apply wlp_intro. intros a2 E2.
    apply set_inv in E2 as (Lt & L2 & G2). repeat split; [congruence| |].
    + intros j Hj. destruct (Nat.eq_dec j i) as [->|N].
      * exists v. rewrite G2, Nat.eqb_refl. rewrite <- Ev. split; auto. symmetry. apply B. lia.
      * destruct (A j ltac:(lia)) as (u & U1 & U2). exists u. split; auto. rewrite G2.
        destruct (Nat.eqb_spec (d + j) (d + i)); [lia|auto].
    + intros k Hk. rewrite G2. destruct (Nat.eqb_spec k (d + i)); [lia|]. apply B. lia.
  - intros a1 H. exact H.
Qed.

Lemma setz_inv {T} (a a' : arr T) i v :
  setz a i v = Some a' ->
  (0 <= i)%Z /\ Z.to_nat i < length a /\ length a' = length a /\
  (forall j, get a' j = if j =? Z.to_nat i then Some v else get a j).
Proof.
  unfold setz. destruct (Z.ltb_spec i 0); [discriminate|]. intros E. apply set_inv in E. intuition.
Qed.
