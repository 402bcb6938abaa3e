(* amd_2.c: the assembly forest during the elimination *)
From Coq Require Import List Arith ZArith Bool Lia Permutation.
From Verif Require Import Base.
From Verif.Spec Require Import Ordering.
From Verif.Proofs Require Import AmdB AmdL AmdT QgA.
Import ListNotations.
Open Scope Z_scope.

(* v x rows, those in s x, are represented by x; par is the parent of what is dead.
   rank grows towards the root and is below t. *)
Record fi (n : nat) (K : nat -> kind) (v : nat -> Z) (par : nat -> option nat) (s : nat -> list nat) (rank : nat -> nat) (t : nat) : Prop := {
  fi_len : forall x, v x = Z.of_nat (length (s x));
  fi_nd : forall x, NoDup (s x);
  fi_lt : forall x i, In i (s x) -> (i < n)%nat /\ (x < n)%nat;
  fi_self : forall x, 0 < v x -> In x (s x);
  fi_uniq : forall x y i, In i (s x) -> In i (s y) -> x = y;
  fi_in : forall x i, In i (s x) -> i <> x -> K i = Dead /\ v i = 0 /\ exists j, par i = Some j /\ In j (s x);
  fi_par : forall i j, (i < n)%nat -> K i = Dead -> v i = 0 -> par i = Some j -> exists x, In j (s x) /\ In i (s x);
  fi_elem : forall i j, (i < n)%nat -> K i = Dead -> 0 < v i -> par i = Some j -> K j <> Var /\ 0 < v j;
  fi_range : forall i j, (i < n)%nat -> K i = Dead -> par i = Some j -> (j < n)%nat /\ (rank i < t)%nat /\ (K j = Dead -> (rank i < rank j)%nat)
}.
Definition FI n K v par := exists s rank t, fi n K v par s rank t.

Lemma FI_nonneg n K v par x : FI n K v par -> 0 <= v x.
Proof. intros (s & r & t & F). rewrite (fi_len _ _ _ _ _ _ _ F). lia. Qed.

Lemma FI_ext n K v par K' v' par' : FI n K v par -> (forall x, K' x = K x) -> (forall x, v' x = v x) -> (forall x, (x < n)%nat -> K x = Dead -> par' x = par x) -> FI n K' v' par'.
Proof.
  intros (s & r & t & F) HK Hv Hp. exists s, r, t. constructor.
  - intros x. rewrite Hv. apply F.
  - apply F.
  - apply F.
  - intros x. rewrite Hv. apply F.
  - apply F.
  - intros x i H1 H2. destruct (fi_in _ _ _ _ _ _ _ F x i H1 H2) as (A & B & C). rewrite HK, Hv, Hp; auto. apply (fi_lt _ _ _ _ _ _ _ F x i H1).
  - intros i j. rewrite HK, Hv. intros H1 H2 H3. rewrite Hp by auto. apply (fi_par _ _ _ _ _ _ _ F); auto.
  - intros i j. rewrite !HK, !Hv. intros H1 H2 H3. rewrite Hp by auto. apply (fi_elem _ _ _ _ _ _ _ F); auto.
  - intros i j. rewrite !HK. intros H1 H2. rewrite Hp by auto. apply (fi_range _ _ _ _ _ _ _ F); auto.
Qed.

(* j is absorbed into k *)
Lemma FI_merge n K v par K' v' par' j k : FI n K v par -> j <> k -> (j < n)%nat -> (k < n)%nat -> K j = Var -> 0 < v j -> K k <> Dead -> 0 < v k ->
  (forall x, K' x = fu K j Dead x) -> v' j = 0 -> v' k = v k + v j -> (forall x, x <> j -> x <> k -> v' x = v x) -> (forall x, par' x = fu par j (Some k) x) ->
  FI n K' v' par'.
Proof.
  intros (s & r & t & F) Njk Lj Lk Kj Vj Kk Vk HK V1 V2 V3 HP.
  assert (Kx : forall x, x <> j -> K' x = K x) by (intros x Hx; rewrite HK; apply fu_ne; auto).
  assert (Kj' : K' j = Dead) by (rewrite HK; apply fu_eq).
  assert (Px : forall x, x <> j -> par' x = par x) by (intros x Hx; rewrite HP; apply fu_ne; auto).
  assert (Pj : par' j = Some k) by (rewrite HP; apply fu_eq).
  set (s' := fun x => if Nat.eqb x j then [] else if Nat.eqb x k then s k ++ s j else s x).
  assert (Hs : forall x i, In i (s' x) <-> x <> j /\ (In i (s x) \/ x = k /\ In i (s j))).
  { intros x i. unfold s'. destruct (Nat.eqb_spec x j) as [->|]; [cbn; tauto|]. destruct (Nat.eqb_spec x k) as [->|]; [rewrite in_app_iff|]; tauto. }
  exists s', (fu r j t), (S t). constructor.
  - intros x. unfold s'. destruct (Nat.eqb_spec x j) as [->|]; [cbn; lia|]. destruct (Nat.eqb_spec x k) as [->|].
    + rewrite app_length, V2, !(fi_len _ _ _ _ _ _ _ F). lia.
    + rewrite V3 by auto. apply (fi_len _ _ _ _ _ _ _ F).
  - intros x. unfold s'. destruct (Nat.eqb_spec x j) as [->|]; [constructor|]. destruct (Nat.eqb_spec x k) as [->|]; [|apply F].
    apply nodup_app. split; [apply F|]. split; [apply F|]. intros y Y1 Y2. pose proof (fi_uniq _ _ _ _ _ _ _ F _ _ _ Y1 Y2). congruence.
  - intros x i Hi. apply Hs in Hi. destruct Hi as (H1 & [H2|[-> H2]]); [apply (fi_lt _ _ _ _ _ _ _ F); auto|]. split; [apply (fi_lt _ _ _ _ _ _ _ F _ _ H2)|auto].
  - intros x Hx. apply Hs. destruct (Nat.eq_dec x j) as [->|Nj]; [lia|]. split; [auto|]. left. apply (fi_self _ _ _ _ _ _ _ F). destruct (Nat.eq_dec x k) as [->|]; [auto|]. rewrite <- V3; auto.
  - intros x y i Hx Hy. apply Hs in Hx, Hy. destruct Hx as (X1 & [X2|[-> X2]]), Hy as (Y1 & [Y2|[-> Y2]]); auto.
    + eapply (fi_uniq _ _ _ _ _ _ _ F); eauto.
    + exfalso. apply X1. eapply (fi_uniq _ _ _ _ _ _ _ F); eauto.
    + exfalso. apply Y1. eapply (fi_uniq _ _ _ _ _ _ _ F); eauto.
  - intros x i Hi Ni. apply Hs in Hi. destruct Hi as (X1 & [X2|[-> X2]]).
    + destruct (fi_in _ _ _ _ _ _ _ F x i X2 Ni) as (A & B & p & C & D). assert (i <> j) by congruence. assert (i <> k) by congruence.
      rewrite Kx, V3, Px by auto. csplit; auto. exists p. split; [auto|]. apply Hs. auto.
    + destruct (Nat.eq_dec i j) as [->|Nij].
      * csplit; auto. exists k. split; [auto|]. apply Hs. split; [auto|]. left. apply (fi_self _ _ _ _ _ _ _ F); auto.
      * destruct (fi_in _ _ _ _ _ _ _ F j i X2 Nij) as (A & B & p & C & D). rewrite Kx, V3, Px by auto. csplit; auto. exists p. split; [auto|]. apply Hs. auto.
  - intros i p Hi Ki Vi Hp. destruct (Nat.eq_dec i j) as [->|Nij].
    + rewrite Pj in Hp. injection Hp as <-. exists k. rewrite !Hs. csplit; auto; [left; apply (fi_self _ _ _ _ _ _ _ F); auto|right; split; [auto|apply (fi_self _ _ _ _ _ _ _ F); auto]].
    + rewrite Kx in Ki by auto. rewrite Px in Hp by auto. assert (i <> k) by congruence. rewrite V3 in Vi by auto.
      destruct (fi_par _ _ _ _ _ _ _ F i p Hi Ki Vi Hp) as (x & X1 & X2). destruct (Nat.eq_dec x j) as [->|Nx].
      * exists k. rewrite !Hs. csplit; auto.
      * exists x. rewrite !Hs. csplit; auto.
  - intros i p Hi Ki Vi Hp. assert (Nij : i <> j) by (intros ->; lia). rewrite Kx in Ki by auto. rewrite Px in Hp by auto. assert (Nik : i <> k) by congruence. rewrite V3 in Vi by auto.
    destruct (fi_elem _ _ _ _ _ _ _ F i p Hi Ki Vi Hp) as [A B]. assert (p <> j) by congruence. rewrite Kx by auto. split; [auto|]. destruct (Nat.eq_dec p k) as [->|]; [lia|]. rewrite V3; auto.
  - intros i p Hi Ki Hp. destruct (Nat.eq_dec i j) as [->|Nij].
    + rewrite Pj in Hp. injection Hp as <-. rewrite fu_eq, Kx by auto. csplit; auto; try lia; congruence.
    + rewrite Kx in Ki by auto. rewrite Px in Hp by auto. destruct (fi_range _ _ _ _ _ _ _ F i p Hi Ki Hp) as (A & B & C). rewrite fu_ne by auto. csplit; auto; try lia.
      unfold fu. destruct (Nat.eqb_spec p j) as [->|]; [auto|]. rewrite Kx by auto. auto.
Qed.

(* the elements of ab die, with the element pm as parent or as roots *)
Lemma FI_elems n K v par K' par' (ab : nat -> bool) pm : FI n K v par -> (forall x, K x = Elem -> 0 < v x) ->
  (forall x, ab x = true -> K x = Elem) -> (forall m, pm = Some m -> (m < n)%nat /\ K m = Elem /\ ab m = false) ->
  (forall x, K' x = if ab x then Dead else K x) -> (forall x, par' x = if ab x then pm else par x) -> FI n K' v par'.
Proof.
  intros (s & r & t & F) HV Hab Hpm HK HP.
  assert (Kx : forall x, K x = Dead -> ab x = false) by (intros x Hx; destruct (ab x) eqn:E; [apply Hab in E; congruence|reflexivity]).
  exists s, (fun x => if ab x then t else r x), (S t). constructor; try apply F.
  - intros x i H1 H2. destruct (fi_in _ _ _ _ _ _ _ F x i H1 H2) as (A & B & C). rewrite HK, HP, (Kx i A). auto.
  - intros i j Hi Ki Vi Hj. rewrite HK in Ki. rewrite HP in Hj. destruct (ab i) eqn:E.
    + apply Hab in E. apply HV in E. lia.
    + apply (fi_par _ _ _ _ _ _ _ F i j Hi Ki Vi Hj).
  - intros i j Hi Ki Vi Hj. rewrite HK in Ki. rewrite HP in Hj. rewrite HK. destruct (ab i) eqn:E.
    + destruct (Hpm j Hj) as (A & B & C). rewrite C. split; [congruence|auto].
    + destruct (fi_elem _ _ _ _ _ _ _ F i j Hi Ki Vi Hj) as [A B]. split; [|auto]. destruct (ab j); congruence.
  - intros i j Hi Ki Hj. rewrite HK in Ki. rewrite HP in Hj. rewrite HK. destruct (ab i) eqn:E.
    + destruct (Hpm j Hj) as (A & B & C). rewrite C. csplit; [auto|lia|congruence].
    + destruct (fi_range _ _ _ _ _ _ _ F i j Hi Ki Hj) as (A & B & C). csplit; [auto|lia|]. destruct (ab j); auto.
Qed.

(* the pivot becomes an element *)
Lemma FI_pivot n K v par K' me : FI n K v par -> K me = Var -> (forall x, K' x = fu K me Elem x) -> FI n K' v par.
Proof.
  intros (s & r & t & F) Km HK.
  assert (Kx : forall x, x <> me -> K' x = K x) by (intros x Hx; rewrite HK; apply fu_ne; auto).
  assert (Kme : K' me = Elem) by (rewrite HK; apply fu_eq).
  assert (D : forall x, K' x = Dead <-> K x = Dead) by (intros x; destruct (Nat.eq_dec x me) as [->|]; [split; congruence|rewrite Kx; tauto]).
  exists s, r, t. constructor; try apply F.
  - intros x i H1 H2. destruct (fi_in _ _ _ _ _ _ _ F x i H1 H2) as (A & B & C). rewrite D. auto.
  - intros i j Hi Ki. apply D in Ki. apply (fi_par _ _ _ _ _ _ _ F); auto.
  - intros i j Hi Ki Vi Hj. apply D in Ki. destruct (fi_elem _ _ _ _ _ _ _ F i j Hi Ki Vi Hj) as [A B]. split; [|auto]. destruct (Nat.eq_dec j me) as [->|]; [congruence|rewrite Kx; auto].
  - intros i j Hi Ki Hj. apply D in Ki. rewrite D. apply (fi_range _ _ _ _ _ _ _ F); auto.
Qed.

(* the variables of l are absorbed into k *)
Lemma FI_merges n v K k l : forall K' v' par par', FI n K v par -> NoDup l -> (k < n)%nat -> K k <> Dead -> 0 < v k ->
  (forall x, In x l -> x <> k /\ (x < n)%nat /\ K x = Var /\ 0 < v x) ->
  (forall x, K' x = if in_dec Nat.eq_dec x l then Dead else K x) ->
  (forall x, v' x = if in_dec Nat.eq_dec x l then 0 else if Nat.eqb x k then v k + zs v l else v x) ->
  (forall x, par' x = if in_dec Nat.eq_dec x l then Some k else par x) -> FI n K' v' par'.
Proof.
  revert v K. induction l as [|j l IH]; intros v K K' v' par par' F ND Lk Kk Vk Hl HK Hv HP.
  - eapply FI_ext; [exact F| | |]; intros x; [rewrite HK|rewrite Hv|intros _ _; rewrite HP]; cbn; auto. destruct (Nat.eqb_spec x k) as [->|]; lia.
  - inversion ND as [|a b Nj NDl]; subst. destruct (Hl j (or_introl eq_refl)) as (A1 & A2 & A3 & A4).
    set (v1 := fu (fu v k (v k + v j)) j 0).
    assert (Vl : forall x, In x l -> v1 x = v x). { intros x Hx. destruct (Hl x (or_intror Hx)) as (B1 & _). unfold v1. rewrite !fu_ne; auto. intros ->. auto. }
    assert (Vk1 : v1 k = v k + v j) by (unfold v1; rewrite fu_ne, fu_eq by auto; reflexivity).
    apply (IH v1 (fu K j Dead) K' v' (fu par j (Some k)) par').
    + apply (FI_merge n K v par _ _ _ j k F); auto.
      * unfold v1. apply fu_eq.
      * intros x X1 X2. unfold v1. rewrite !fu_ne; auto.
    + exact NDl.
    + exact Lk.
    + rewrite fu_ne by auto. exact Kk.
    + lia.
    + intros x Hx. destruct (Hl x (or_intror Hx)) as (B1 & B2 & B3 & B4). rewrite Vl by auto. rewrite fu_ne by (intros ->; auto). auto.
    + intros x. rewrite HK. unfold fu. destruct (in_dec Nat.eq_dec x (j :: l)) as [H|H], (in_dec Nat.eq_dec x l) as [H'|H']; auto.
      * destruct H as [<-|]; [rewrite Nat.eqb_refl; auto|contradiction].
      * exfalso. apply H. right; auto.
      * destruct (Nat.eqb_spec x j) as [->|]; [exfalso; apply H; left; auto|auto].
    + intros x. rewrite Hv. destruct (in_dec Nat.eq_dec x (j :: l)) as [H|H], (in_dec Nat.eq_dec x l) as [H'|H']; auto.
      * destruct H as [<-|]; [|contradiction]. destruct (Nat.eqb_spec j k); [congruence|]. unfold v1. rewrite fu_eq. reflexivity.
      * exfalso. apply H. right; auto.
      * cbn [zs]. destruct (Nat.eqb_spec x k) as [->|]; [rewrite Vk1, (zs_ext v1 v l) by auto; lia|]. unfold v1. rewrite !fu_ne; auto. intros ->. apply H. left; auto.
    + intros x. rewrite HP. unfold fu. destruct (in_dec Nat.eq_dec x (j :: l)) as [H|H], (in_dec Nat.eq_dec x l) as [H'|H']; auto.
      * destruct H as [<-|]; [rewrite Nat.eqb_refl; auto|contradiction].
      * exfalso. apply H. right; auto.
      * destruct (Nat.eqb_spec x j) as [->|]; [exfalso; apply H; left; auto|auto].
Qed.

(* when everything is dead, a forest is left *)
Lemma FI_final n K v par : FI n K v par -> (forall x, (x < n)%nat -> K x = Dead) -> forest n par (fun x => Z.to_nat (v x)).
Proof.
  intros (s & r & t & F) HK.
  assert (AB : forall e i, In i (s e) -> absorbed par (fun x => Z.to_nat (v x)) e i).
  { intros e. assert (X : forall m i, (t - r i < m)%nat -> In i (s e) -> absorbed par (fun x => Z.to_nat (v x)) e i); [|intros i; eapply X; eauto].
    induction m as [|m IH]; intros i Hm Hi; [lia|]. assert (Ve : 0 < v e) by (rewrite (fi_len _ _ _ _ _ _ _ F); destruct (s e); [destruct Hi|cbn; lia]).
    destruct (Nat.eq_dec i e) as [->|Ne]; [constructor; lia|]. destruct (fi_in _ _ _ _ _ _ _ F e i Hi Ne) as (A & B & j & C & D).
    apply (absorbed_into _ _ _ i j); [rewrite B; reflexivity|exact C|]. apply IH; [|exact D].
    destruct (fi_lt _ _ _ _ _ _ _ F e i Hi) as [Li _]. destruct (fi_range _ _ _ _ _ _ _ F i j Li A C) as (E1 & E2 & E3). specialize (E3 (HK j E1)). lia. }
  assert (BA : forall e i, (e < n)%nat -> (i < n)%nat -> absorbed par (fun x => Z.to_nat (v x)) e i -> In i (s e)).
  { intros e i He Hi H. induction H as [Ve|i j Vi Pi H IH]; [apply (fi_self _ _ _ _ _ _ _ F); lia|].
    assert (Lj : (j < n)%nat) by (apply (fi_range _ _ _ _ _ _ _ F i j Hi (HK i Hi) Pi)). specialize (IH Lj).
    assert (Vi0 : v i = 0) by (pose proof (fi_len _ _ _ _ _ _ _ F i); lia).
    destruct (fi_par _ _ _ _ _ _ _ F i j Hi (HK i Hi) Vi0 Pi) as (x & X1 & X2). rewrite (fi_uniq _ _ _ _ _ _ _ F e x j IH X1). exact X2. }
  constructor.
  - intros i j Hi Hj. apply (fi_range _ _ _ _ _ _ _ F i j Hi (HK i Hi) Hj).
  - exists r. intros i j Hi Hj. destruct (fi_range _ _ _ _ _ _ _ F i j Hi (HK i Hi) Hj) as (A & _ & B). apply B. apply HK. exact A.
  - intros i j Hi Vi Hj. destruct (fi_elem _ _ _ _ _ _ _ F i j Hi (HK i Hi) ltac:(lia) Hj). lia.
  - intros i j Hi Vi Hj. assert (Vi0 : v i = 0) by (pose proof (fi_len _ _ _ _ _ _ _ F i); lia).
    destruct (fi_par _ _ _ _ _ _ _ F i j Hi (HK i Hi) Vi0 Hj) as (x & X1 & X2). exists x. apply AB. exact X1.
  - intros e He Ve. exists (s e). split; [apply F|]. split.
    + intros i. split; [intros Hi; split; [apply (fi_lt _ _ _ _ _ _ _ F e i Hi)|apply AB; exact Hi]|intros [Hi H]; apply BA; auto].
    + rewrite (fi_len _ _ _ _ _ _ _ F e). lia.
Qed.
