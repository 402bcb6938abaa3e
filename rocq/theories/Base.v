(* Arrays with explicit undefined behaviour, loops, and a small weakest
   precondition calculus for the option monad.

   A C array is a list of cells; a cell that was never written is [None].
   Reading a cell outside the allocation or an uninitialised cell, and writing
   outside the allocation, is undefined behaviour: the whole computation is
   [None].  Nothing in this file models code of the repository. *)
From Coq Require Import List Arith Lia Bool ZArith.
Import ListNotations.

Definition bind {A B} (m : option A) (k : A -> option B) : option B :=
  match m with Some a => k a | None => None end.

Declare Scope mon_scope.
Notation "x <- m ;; k" := (bind m (fun x => k))
  (at level 61, m at next level, right associativity) : mon_scope.
Notation "' p <- m ;; k" := (bind m (fun p => k))
  (at level 61, p pattern, m at next level, right associativity) : mon_scope.
Open Scope mon_scope.

Definition ret {A} (a : A) : option A := Some a.

(* [guard b] is undefined behaviour unless [b]. *)
Definition guard (b : bool) : option unit := if b then Some tt else None.

(* ---------------------------------------------------------------- arrays *)

Notation arr T := (list (option T)).

Definition get {T} (a : arr T) (i : nat) : option T :=
  match nth_error a i with Some o => o | None => None end.

Fixpoint upd {A} (l : list A) (i : nat) (v : A) : list A :=
  match l, i with
  | [], _ => []
  | _ :: t, O => v :: t
  | x :: t, S k => x :: upd t k v
  end.

Definition set {T} (a : arr T) (i : nat) (v : T) : option (arr T) :=
  if i <? length a then Some (upd a i (Some v)) else None.

(* malloc of n cells: contents indeterminate *)
Definition alloc {T} (n : nat) : arr T := repeat None n.

(* array given by its contents *)
Definition arr_of {T} (l : list T) : arr T := map Some l.

(* array of length n with contents f *)
Definition arr_fun {T} (n : nat) (f : nat -> T) : arr T := map (fun i => Some (f i)) (seq 0 n).

(* total read with default, for specifications *)
Definition gd {T} (d : T) (a : arr T) (i : nat) : T :=
  match get a i with Some v => v | None => d end.

(* Z-indexed accesses, for indices that the code stores in signed variables *)
Definition getz {T} (a : arr T) (i : Z) : option T :=
  if (i <? 0)%Z then None else get a (Z.to_nat i).
Definition setz {T} (a : arr T) (i : Z) (v : T) : option (arr T) :=
  if (i <? 0)%Z then None else set a (Z.to_nat i) v.

(* ----------------------------------------------------------------- loops *)

Fixpoint for_loop {S : Type} (lo n : nat) (body : nat -> S -> option S) (s : S) : option S :=
  match n with
  | O => Some s
  | Datatypes.S k => s' <- body lo s ;; for_loop (Datatypes.S lo) k body s'
  end.

(* for (i = lo; i < hi; i++) *)
Definition for_ {S : Type} (lo hi : nat) (body : nat -> S -> option S) (s : S) : option S :=
  for_loop lo (hi - lo) body s.

(* for (i = n-1; i >= 0; i--) *)
Fixpoint for_down {S : Type} (n : nat) (body : nat -> S -> option S) (s : S) : option S :=
  match n with
  | O => Some s
  | Datatypes.S k => s' <- body k s ;; for_down k body s'
  end.

(* iterate over a list, left to right *)
Fixpoint for_each {A S : Type} (l : list A) (body : A -> S -> option S) (s : S) : option S :=
  match l with
  | [] => Some s
  | x :: t => s' <- body x s ;; for_each t body s'
  end.

(* while (test s) s = body s, with fuel; running out of fuel is [None] *)
Fixpoint while_ {S : Type} (fuel : nat) (test : S -> option bool) (body : S -> option S) (s : S) : option S :=
  match fuel with
  | O => None
  | Datatypes.S k =>
      b <- test s ;;
      if b then (s' <- body s ;; while_ k test body s') else Some s
  end.

(* --------------------------------------------------- weakest preconditions *)

Definition wp {A} (m : option A) (Q : A -> Prop) : Prop :=
  match m with Some a => Q a | None => False end.

Lemma wp_elim {A} (m : option A) (Q : A -> Prop) : wp m Q -> exists a, m = Some a /\ Q a.
Proof. destruct m; simpl; [eauto | tauto]. Qed.

Lemma wp_intro {A} (m : option A) (Q : A -> Prop) a : m = Some a -> Q a -> wp m Q.
Proof. intros -> H; exact H. Qed.

Lemma wp_conseq {A} (m : option A) (P Q : A -> Prop) :
  wp m P -> (forall a, P a -> Q a) -> wp m Q.
Proof. destruct m; simpl; auto. Qed.

Lemma wp_bind {A B} (m : option A) (k : A -> option B) Q :
  wp m (fun a => wp (k a) Q) -> wp (bind m k) Q.
Proof. destruct m; simpl; auto. Qed.

Lemma wp_ret {A} (a : A) (Q : A -> Prop) : Q a -> wp (Some a) Q.
Proof. auto. Qed.

Lemma wp_guard b (Q : unit -> Prop) : b = true -> Q tt -> wp (guard b) Q.
Proof. intros ->; auto. Qed.

Lemma bind_assoc {A B C} (m : option A) (f : A -> option B) (g : B -> option C) :
  bind (bind m f) g = bind m (fun x => bind (f x) g).
Proof. destruct m; reflexivity. Qed.

(* ------------------------------------------------------------ list lemmas *)

Lemma upd_length {A} (l : list A) i v : length (upd l i v) = length l.
Proof. revert i; induction l; destruct i; simpl; auto. Qed.

Lemma nth_error_upd {A} (l : list A) i j v :
  nth_error (upd l i v) j =
  if (j =? i) then (if i <? length l then Some v else None) else nth_error l j.
Proof.
  revert i j; induction l as [|x t IH]; intros i j.
  - simpl. destruct (Nat.eqb_spec j i); destruct j; simpl; auto.
  - destruct i as [|i], j as [|j]; simpl; auto.
    rewrite IH. change (S j =? S i) with (j =? i).
    destruct (j =? i); auto.
Qed.

Lemma get_lt {T} (a : arr T) i v : get a i = Some v -> i < length a.
Proof.
  unfold get. destruct (nth_error a i) eqn:E; [|discriminate].
  intros _. apply nth_error_Some. congruence.
Qed.

Lemma set_ok {T} (a : arr T) i v : i < length a -> set a i v = Some (upd a i (Some v)).
Proof. intros H. unfold set. apply Nat.ltb_lt in H. rewrite H. reflexivity. Qed.

Lemma get_upd {T} (a : arr T) i j v :
  i < length a -> get (upd a i (Some v)) j = if j =? i then Some v else get a j.
Proof.
  intros H. unfold get. rewrite nth_error_upd. apply Nat.ltb_lt in H. rewrite H.
  destruct (j =? i); auto.
Qed.

Lemma set_inv {T} (a a' : arr T) i v :
  set a i v = Some a' ->
  i < length a /\ length a' = length a /\
  (forall j, get a' j = if j =? i then Some v else get a j).
Proof.
  unfold set. destruct (Nat.ltb_spec i (length a)); [|discriminate].
  intros [= <-]. rewrite upd_length. repeat split; auto.
  intros j; apply get_upd; auto.
Qed.

Lemma wp_get {T} (a : arr T) i v (Q : T -> Prop) : get a i = Some v -> Q v -> wp (get a i) Q.
Proof. intros ->; auto. Qed.

Lemma wp_set {T} (a : arr T) i v (Q : arr T -> Prop) :
  i < length a ->
  (forall a', length a' = length a ->
     (forall j, get a' j = if j =? i then Some v else get a j) -> Q a') ->
  wp (set a i v) Q.
Proof.
  intros H K. rewrite set_ok by auto. simpl. apply K.
  - apply upd_length.
  - intros; apply get_upd; auto.
Qed.

Lemma wp_getz {T} (a : arr T) i v (Q : T -> Prop) :
  (0 <= i)%Z -> get a (Z.to_nat i) = Some v -> Q v -> wp (getz a i) Q.
Proof.
  intros H. unfold getz. destruct (Z.ltb_spec i 0); [lia|]. intros ->; auto.
Qed.

Lemma get_alloc {T} n i : get (@alloc T n) i = None.
Proof.
  unfold get, alloc. destruct (nth_error (repeat None n) i) eqn:E; auto.
  apply nth_error_In in E. apply repeat_spec in E. auto.
Qed.

Lemma alloc_length {T} n : length (@alloc T n) = n.
Proof. apply repeat_length. Qed.

Lemma get_arr_fun {T} n (f : nat -> T) i : i < n -> get (arr_fun n f) i = Some (f i).
Proof.
  intros H. unfold get, arr_fun.
  rewrite nth_error_map.
  assert (E: nth_error (seq 0 n) i = Some i).
  { replace (Some i) with (Some (nth i (seq 0 n) 0)) by (rewrite seq_nth; auto).
    apply nth_error_nth'. rewrite seq_length; auto. }
  rewrite E. reflexivity.
Qed.

Lemma arr_fun_length {T} n (f : nat -> T) : length (arr_fun n f) = n.
Proof. unfold arr_fun. rewrite map_length, seq_length. auto. Qed.

Lemma get_arr_of {T} (l : list T) i : get (arr_of l) i = nth_error l i.
Proof.
  unfold get, arr_of. rewrite nth_error_map. destruct (nth_error l i); auto.
Qed.

Lemma arr_of_length {T} (l : list T) : length (arr_of l) = length l.
Proof. unfold arr_of. apply map_length. Qed.

Lemma gd_get {T} (d : T) a i v : get a i = Some v -> gd d a i = v.
Proof. unfold gd; intros ->; auto. Qed.

Lemma get_gd {T} (d : T) a i v : get a i = Some v -> get a i = Some (gd d a i).
Proof. unfold gd; intros ->; auto. Qed.

(* array extensionality *)
Lemma arr_ext {T} (a b : arr T) :
  length a = length b -> (forall i, get a i = get b i) -> a = b.
Proof.
  revert b; induction a as [|x a IH]; destruct b as [|y b]; simpl; try discriminate; auto.
  intros L E. f_equal.
  - specialize (E 0). unfold get in E; simpl in E. auto.
  - apply IH; [lia|]. intros i. specialize (E (S i)). unfold get in *; simpl in E; auto.
Qed.

(* ------------------------------------------------------------ loop lemmas *)

Lemma wp_for_loop {S : Type} (Inv : nat -> S -> Prop) n :
  forall lo body (s : S),
  Inv lo s ->
  (forall i s, lo <= i < lo + n -> Inv i s -> wp (body i s) (Inv (Datatypes.S i))) ->
  wp (for_loop lo n body s) (Inv (lo + n)).
Proof.
  induction n as [|n IH]; intros lo body s H0 Hs; simpl.
  - rewrite Nat.add_0_r. auto.
  - apply wp_bind. eapply wp_conseq; [apply Hs; [lia|auto]|].
    intros s' H'. simpl in H'.
    replace (lo + Datatypes.S n) with (Datatypes.S lo + n) by lia.
    apply IH; auto. intros; apply Hs; auto; lia.
Qed.

Lemma wp_for {S : Type} (Inv : nat -> S -> Prop) lo hi body (s : S) (Q : S -> Prop) :
  lo <= hi ->
  Inv lo s ->
  (forall i s, lo <= i < hi -> Inv i s -> wp (body i s) (Inv (Datatypes.S i))) ->
  (forall s, Inv hi s -> Q s) ->
  wp (for_ lo hi body s) Q.
Proof.
  intros Hle H0 Hs HQ. unfold for_. eapply wp_conseq.
  - apply (wp_for_loop Inv); auto. intros; apply Hs; auto; lia.
  - replace (lo + (hi - lo)) with hi by lia. auto.
Qed.

(* partial-correctness version: whatever the loop returns satisfies Inv *)
Lemma for_loop_pres {S : Type} (Inv : nat -> S -> Prop) n :
  forall lo body (s s' : S),
  for_loop lo n body s = Some s' ->
  Inv lo s ->
  (forall i s s1, lo <= i < lo + n -> Inv i s -> body i s = Some s1 -> Inv (Datatypes.S i) s1) ->
  Inv (lo + n) s'.
Proof.
  induction n as [|n IH]; intros lo body s s' E H0 Hs; simpl in E.
  - injection E as <-. rewrite Nat.add_0_r. auto.
  - destruct (body lo s) as [s1|] eqn:E1; [|discriminate]. simpl in E.
    replace (lo + Datatypes.S n) with (Datatypes.S lo + n) by lia.
    eapply IH; eauto.
    + eapply Hs; eauto; lia.
    + intros; eapply Hs; eauto; lia.
Qed.

Lemma wp_for_down {S : Type} (Inv : nat -> S -> Prop) n body (s : S) (Q : S -> Prop) :
  Inv n s ->
  (forall i s, i < n -> Inv (Datatypes.S i) s -> wp (body i s) (Inv i)) ->
  (forall s, Inv 0 s -> Q s) ->
  wp (for_down n body s) Q.
Proof.
  revert s; induction n as [|n IH]; intros s H0 Hs HQ; simpl; auto.
  apply wp_bind. eapply wp_conseq; [apply Hs; [lia|auto]|].
  intros s' H'. apply IH; auto.
Qed.

Lemma wp_for_each {A S : Type} (Inv : list A -> S -> Prop) (l : list A) body (s : S) (Q : S -> Prop) :
  Inv [] s ->
  (forall pre x post s, l = pre ++ x :: post -> Inv pre s -> wp (body x s) (Inv (pre ++ [x]))) ->
  (forall s, Inv l s -> Q s) ->
  wp (for_each l body s) Q.
Proof.
  intros H0 Hs HQ.
  assert (G: forall post pre s, l = pre ++ post -> Inv pre s -> wp (for_each post body s) Q).
  { induction post as [|x post IH]; intros pre s0 E HI; simpl.
    - rewrite app_nil_r in E; subst. auto.
    - apply wp_bind. eapply wp_conseq; [eapply Hs; eauto|].
      intros s1 H1; simpl in H1. apply (IH (pre ++ [x])); auto.
      rewrite <- app_assoc; auto. }
  apply (G l [] s); auto.
Qed.

Lemma for_loop_ext {S : Type} n : forall lo (b1 b2 : nat -> S -> option S) s,
  (forall i s, lo <= i < lo + n -> b1 i s = b2 i s) ->
  for_loop lo n b1 s = for_loop lo n b2 s.
Proof.
  induction n as [|n IH]; intros lo b1 b2 s H; simpl; auto.
  rewrite (H lo s) by lia. destruct (b2 lo s); simpl; auto.
  apply IH. intros; apply H; lia.
Qed.

Lemma for_loop_app {S : Type} n m : forall lo (b : nat -> S -> option S) s,
  for_loop lo (n + m) b s = bind (for_loop lo n b s) (fun s' => for_loop (lo + n) m b s').
Proof.
  induction n as [|n IH]; intros lo b s; simpl.
  - rewrite Nat.add_0_r; auto.
  - destruct (b lo s); simpl; auto. rewrite IH.
    replace (lo + Datatypes.S n) with (Datatypes.S lo + n) by lia.
    reflexivity.
Qed.

(* while with a decreasing measure *)
Lemma wp_while {S : Type} (Inv : S -> Prop) (mu : S -> nat) (test : S -> option bool) (body : S -> option S) (Q : S -> Prop) :
  (forall s, Inv s -> wp (test s) (fun b =>
      if b then wp (body s) (fun s' => Inv s' /\ mu s' < mu s) else Q s)) ->
  forall fuel s, Inv s -> mu s < fuel -> wp (while_ fuel test body s) Q.
Proof.
  intros H. induction fuel as [|f IH]; intros s HI Hm; [lia|]. simpl.
  apply wp_bind. eapply wp_conseq; [apply (H s HI)|].
  intros b Hb. destruct b; auto.
  apply wp_bind. eapply wp_conseq; [exact Hb|].
  intros s' [H1 H2]. apply IH; auto; lia.
Qed.

(* --------------------------------------------------------------- tactics *)

Ltac beq :=
  repeat match goal with
  | |- context [ ?a =? ?b ] => destruct (Nat.eqb_spec a b)
  | |- context [ ?a <? ?b ] => destruct (Nat.ltb_spec a b)
  | |- context [ ?a <=? ?b ] => destruct (Nat.leb_spec a b)
  end.

(* step over  x <- m ;; k *)
Ltac wb := apply wp_bind; cbv beta.
(* read with a known value *)
Tactic Notation "wget" uconstr(H) := wb; eapply wp_get; [ eapply H; try lia | cbv beta ].
(* write *)
Ltac wset a' L G := eapply wp_set; [ | intros a' L G; cbv beta ].

(* clearing a vector *)
Lemma wp_clear {T} (y : arr T) n (Q : arr T -> Prop) (v : T) :
  n <= length y ->
  (forall y', length y' = length y ->
     (forall i, get y' i = if i <? n then Some v else get y i) -> Q y') ->
  wp (for_ 0 n (fun i y => set y i v) y) Q.
Proof.
  intros Hl HQ.
  apply (wp_for (fun i y' => length y' = length y /\
     forall r, get y' r = if r <? i then Some v else get y r)).
  - lia.
  - split; auto.
  - intros i s Hi [L G]. wset a' L' G'; [lia|]. split; [congruence|].
    intros r. rewrite G', G. beq; subst; try lia; auto.
  - intros s [L G]. apply HQ; auto.
Qed.


(* lengths of arrays that were only written to *)
Ltac slen := solve [ assumption | congruence | lia | etransitivity; eassumption ].

(* split conjunctions only *)
Ltac csplit := repeat match goal with |- _ /\ _ => split end.
