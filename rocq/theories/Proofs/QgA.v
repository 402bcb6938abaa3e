(* The quotient graph of external/amd/src/amd_2.c without its storage: variables,
   elements, their lists, and what eliminating a pivot and merging variables keep. *)
From Coq Require Import List Arith ZArith Bool Lia Permutation.
Import ListNotations.
Open Scope Z_scope.

(* sum of f over a list *)
Fixpoint zs (f : nat -> Z) (l : list nat) : Z := match l with [] => 0 | x :: l => f x + zs f l end.
Lemma zs_app f l1 l2 : zs f (l1 ++ l2) = zs f l1 + zs f l2.
Proof. induction l1 as [|x l1 IH]; cbn [zs app]; lia. Qed.
Lemma zs_ext f g l : (forall x, In x l -> f x = g x) -> zs f l = zs g l.
Proof. induction l as [|x l IH]; intros H; cbn [zs]; [reflexivity|]. rewrite (H x), IH; auto; [|left; auto]. intros y Hy. apply H. right; auto. Qed.
Lemma zs_le f g l : (forall x, In x l -> f x <= g x) -> zs f l <= zs g l.
Proof.
  induction l as [|x l IH]; intros H; cbn [zs]; [lia|]. assert (f x <= g x) by (apply H; left; auto).
  assert (zs f l <= zs g l) by (apply IH; intros y Hy; apply H; right; auto). lia.
Qed.
Lemma zs_0 f l : (forall x, In x l -> f x = 0) -> zs f l = 0.
Proof. induction l as [|x l IH]; intros H; cbn [zs]; [reflexivity|]. rewrite (H x), IH; auto; [|left; auto]. intros y Hy. apply H. right; auto. Qed.
Lemma zs_nonneg f l : (forall x, In x l -> 0 <= f x) -> 0 <= zs f l.
Proof. intros H. rewrite <- (zs_0 (fun _ => 0) l) at 1; [|auto]. apply zs_le; auto. Qed.
Lemma zs_perm f l l' : Permutation l l' -> zs f l = zs f l'.
Proof. induction 1; cbn [zs]; lia. Qed.
Lemma zs_in f l x : (forall y, In y l -> 0 <= f y) -> In x l -> f x <= zs f l.
Proof.
  induction l as [|y l IH]; intros H Hx; [destruct Hx|]. destruct Hx as [->|Hx]; cbn [zs].
  - assert (0 <= zs f l) by (apply zs_nonneg; intros y Hy; apply H; right; auto). lia.
  - assert (0 <= f y) by (apply H; left; auto). assert (f x <= zs f l) by (apply IH; auto; intros z Hz; apply H; right; auto). lia.
Qed.
Lemma zs_filter f p l : zs f (filter p l) = zs (fun x => if p x then f x else 0) l.
Proof. induction l as [|x l IH]; cbn [zs filter]; [reflexivity|]. destruct (p x); cbn [zs]; lia. Qed.
Lemma zs_split f p l : zs f l = zs f (filter p l) + zs f (filter (fun x => negb (p x)) l).
Proof. induction l as [|x l IH]; cbn [zs filter]; [reflexivity|]. destruct (p x); cbn [zs negb]; lia. Qed.
Lemma zs_incl f l l' : NoDup l -> (forall x, In x l -> In x l') -> (forall x, In x l' -> 0 <= f x) -> zs f l <= zs f l'.
Proof.
  intros ND. revert l'. induction ND as [|x l Hx ND IH]; intros l' HI HP; cbn [zs]; [apply zs_nonneg; auto|].
  destruct (in_split x l') as (a & b & ->); [apply HI; left; auto|].
  rewrite zs_app. cbn [zs]. assert (zs f l <= zs f (a ++ b)); [|rewrite zs_app in *; lia].
  apply IH.
  - intros y Hy. assert (In y (a ++ x :: b)) by (apply HI; right; auto). rewrite in_app_iff in *. cbn in H. destruct H as [|[->|]]; auto. contradiction.
  - intros y Hy. apply HP. rewrite in_app_iff in *. cbn. tauto.
Qed.
(* changing the function at one place of a duplicate-free list *)
Lemma zs_upd f g l x : NoDup l -> In x l -> (forall y, In y l -> y <> x -> g y = f y) -> zs g l = zs f l + (g x - f x).
Proof.
  intros ND Hx H. destruct (in_split _ _ Hx) as (a & b & ->). rewrite !zs_app. cbn [zs].
  apply NoDup_remove_2 in ND. rewrite in_app_iff in ND.
  rewrite (zs_ext g f a), (zs_ext g f b); [lia| |]; intros y Hy; apply H; rewrite ?in_app_iff; cbn; auto; intros ->; tauto.
Qed.

Inductive kind := Var | Elem | Dead.
Lemma kind_dec (a b : kind) : {a = b} + {a <> b}. Proof. decide equality. Qed.

(* kinds, element lists and variable lists of variables, variables of elements,
   number of rows represented, external degree of elements *)
Record graph := Graph {
  gK : nat -> kind; gE : nat -> list nat; gA : nat -> list nat; gL : nat -> list nat; gv : nat -> Z; gdg : nat -> Z }.

Record qgraph (n : nat) (g : graph) : Prop := {
  qg_lt : forall x, gK g x <> Dead -> (x < n)%nat;
  qg_pos : forall x, gK g x <> Dead -> 0 < gv g x;
  qg_nonneg : forall x, 0 <= gv g x;
  qg_A : forall i j, gK g i = Var -> In j (gA g i) -> (j < n)%nat /\ (gK g j = Dead /\ gv g j = 0 \/ gK g j = Var /\ In i (gA g j));
  qg_L : forall e i, gK g e = Elem -> In i (gL g e) -> (i < n)%nat /\ (gK g i = Dead /\ gv g i = 0 \/ gK g i = Var /\ In e (gE g i));
  qg_E : forall i e, gK g i = Var -> In e (gE g i) -> gK g e = Elem /\ In i (gL g e);
  qg_ndE : forall i, gK g i = Var -> NoDup (gE g i);
  qg_ndA : forall i, gK g i = Var -> NoDup (gA g i);
  qg_ndL : forall e, gK g e = Elem -> NoDup (gL g e);
  qg_deg : forall e, gK g e = Elem -> zs (gv g) (gL g e) <= gdg g e
}.

(* every element but m has a variable *)
Definition alive (g : graph) (m : nat) : Prop := forall e, e <> m -> gK g e = Elem -> exists i, In i (gL g e) /\ gK g i = Var.

Lemma qg_nodup n g i : qgraph n g -> gK g i = Var -> NoDup (gE g i ++ gA g i).
Proof.
  intros Q K. assert (H : forall x, In x (gE g i) -> ~ In x (gA g i)).
  { intros x H1 H2. destruct (qg_E _ _ Q _ _ K H1) as (K1 & _). destruct (qg_A _ _ Q _ _ K H2) as (_ & [[K2 _]|[K2 _]]); congruence. }
  pose proof (qg_ndE _ _ Q i K) as N1. pose proof (qg_ndA _ _ Q i K) as N2. clear - H N1 N2.
  induction (gE g i) as [|x l IH]; cbn; [exact N2|]. inversion N1; subst. constructor.
  - rewrite in_app_iff. intros [|]; [contradiction|]. apply (H x); [left; auto|auto].
  - apply IH; auto. intros y Hy. apply H. right; auto.
Qed.

Section Elim.
Context (n : nat) (g g' : graph) (me : nat) (Lme : list nat) (Ab : nat -> bool).
Context (Q : qgraph n g) (Kme : gK g me = Var) (ND : NoDup Lme).
Context (HL : forall i, In i Lme <-> i <> me /\ gK g i = Var /\ (In i (gA g me) \/ exists e, In e (gE g me) /\ In i (gL g e))).
Context (HAb : forall e, Ab e = true -> gK g e = Elem /\ forall i, gK g i = Var -> In e (gE g i) -> i = me \/ In i Lme).
Context (HE : forall e, In e (gE g me) -> Ab e = true).
(* the new graph *)
Context (Nme : gK g' me = Elem) (Pme : 0 < gv g' me).
Context (NAb : forall e, Ab e = true -> gK g' e = Dead /\ gv g' e = gv g e).
Context (Nx : forall x, x <> me -> Ab x = false -> ~ In x Lme ->
  gK g' x = gK g x /\ gv g' x = gv g x /\ gE g' x = gE g x /\ gA g' x = gA g x).
Context (kA : nat -> bool) (HkA : forall j, In j (gA g j) \/ True -> (kA j = true <-> gK g j = Var /\ j <> me /\ ~ In j Lme)).
Context (Ni : forall i, In i Lme ->
  (gK g' i = Dead /\ gv g' i = 0 /\ forall e, In e (gE g i) -> Ab e = true) \/
  (gK g' i = Var /\ gv g' i = gv g i /\
   Permutation (gE g' i) (me :: filter (fun e => negb (Ab e)) (gE g i)) /\ Permutation (gA g' i) (filter kA (gA g i)))).
Context (NL : forall e, e <> me -> gL g' e = gL g e /\ gdg g' e = gdg g e).
Context (NLme : gL g' me = Lme) (Ndg : gdg g' me = zs (gv g') Lme).

Lemma elim_cases x : x = me \/ x <> me /\ (Ab x = true /\ ~ In x Lme \/ In x Lme /\ Ab x = false \/ ~ In x Lme /\ Ab x = false).
Proof.
  destruct (Nat.eq_dec x me); [auto|]. right. split; [auto|].
  destruct (in_dec Nat.eq_dec x Lme) as [H|H]; destruct (Ab x) eqn:E; auto.
  destruct (HAb x E) as (K & _). apply HL in H. destruct H as (_ & K' & _). congruence.
Qed.
Lemma kA_iff j : kA j = true <-> gK g j = Var /\ j <> me /\ ~ In j Lme.
Proof. apply HkA. auto. Qed.

(* an element that stays is an old one that was not absorbed, or me *)
Lemma elim_elem e : gK g' e = Elem -> e = me \/ e <> me /\ Ab e = false /\ ~ In e Lme /\ gK g e = Elem.
Proof.
  intros K. destruct (elim_cases e) as [->|[H [[E I]|[[I E]|[I E]]]]]; auto.
  - destruct (NAb e E). congruence.
  - destruct (Ni e I) as [(K1 & _)|(K1 & _)]; congruence.
  - right. destruct (Nx e H E I) as (K1 & _). split; [auto|]. split; [auto|]. split; [auto|congruence].
Qed.
Lemma elim_var i : gK g' i = Var -> i <> me /\ gK g i = Var /\ Ab i = false /\ gv g' i = gv g i /\
   (In i Lme /\ Permutation (gE g' i) (me :: filter (fun e => negb (Ab e)) (gE g i)) /\ Permutation (gA g' i) (filter kA (gA g i)) \/
    ~ In i Lme /\ gE g' i = gE g i /\ gA g' i = gA g i).
Proof.
  intros K. destruct (elim_cases i) as [->|[H [[E I]|[[I E]|[I E]]]]]; [congruence|destruct (NAb i E); congruence| |].
  - destruct (Ni i I) as [(K1 & _)|(K1 & K2 & K3 & K4)]; [congruence|]. apply HL in I as K5. destruct K5 as (_ & K5 & _). auto 10.
  - destruct (Nx i H E I) as (K1 & K2 & K3 & K4). split; [auto|]. split; [congruence|]. auto 10.
Qed.

Lemma elim_lt x : gK g' x <> Dead -> (x < n)%nat.
Proof.
  intros K. destruct (elim_cases x) as [->|[H [[E I]|[[I E]|[I E]]]]].
  - apply (qg_lt _ _ Q). congruence.
  - destruct (NAb x E). congruence.
  - apply HL in I. destruct I as (_ & I & _). apply (qg_lt _ _ Q). congruence.
  - destruct (Nx x H E I) as (K1 & _). apply (qg_lt _ _ Q). congruence.
Qed.

Lemma elim_ok : qgraph n g'.
Proof.
  constructor.
  - exact elim_lt.
  - intros x K. destruct (elim_cases x) as [->|[H [[E I]|[[I E]|[I E]]]]]; [exact Pme|destruct (NAb x E); congruence| |].
    + destruct (Ni x I) as [(K1 & _)|(_ & K1 & _)]; [congruence|]. rewrite K1. apply (qg_pos _ _ Q). apply HL in I. destruct I as (_ & I & _). congruence.
    + destruct (Nx x H E I) as (K1 & K2 & _). rewrite K2. apply (qg_pos _ _ Q). congruence.
  - intros x. destruct (elim_cases x) as [->|[H [[E I]|[[I E]|[I E]]]]]; [lia| | |].
    + destruct (NAb x E) as (_ & ->). apply (qg_nonneg _ _ Q).
    + destruct (Ni x I) as [(_ & -> & _)|(_ & -> & _)]; [lia|]. apply (qg_nonneg _ _ Q).
    + destruct (Nx x H E I) as (_ & -> & _). apply (qg_nonneg _ _ Q).
  - intros i j K J. destruct (elim_var i K) as (I1 & I2 & I3 & I4 & [(I5 & I6 & I7)|(I5 & I6 & I7)]).
    + eapply Permutation_in in J; [|exact I7]. apply filter_In in J. destruct J as (J & KJ). apply kA_iff in KJ. destruct KJ as (KJ & J1 & J2).
      destruct (qg_A _ _ Q i j I2 J) as (J3 & J4). split; [exact J3|]. destruct J4 as [[J4 _]|[_ J4]]; [congruence|].
      assert (Ab j = false) as J5. { destruct (Ab j) eqn:X; auto. destruct (HAb j X). congruence. }
      destruct (Nx j J1 J5 J2) as (X1 & _ & _ & X2). right. rewrite X1, X2. auto.
    + rewrite I7 in J. destruct (qg_A _ _ Q i j I2 J) as (J3 & J4). split; [exact J3|].
      destruct (elim_cases j) as [->|[H [[E I]|[[I E]|[I E]]]]].
      * exfalso. apply I5. apply HL. split; [auto|]. split; [auto|]. left. destruct J4 as [[J4 _]|[_ J4]]; [congruence|exact J4].
      * destruct (HAb j E) as (X & _). destruct J4 as [[J4 _]|[J4 _]]; congruence.
      * assert (KJ : gK g j = Var) by (apply HL in I; tauto). destruct J4 as [[J4 _]|[_ J4]]; [congruence|].
        destruct (Ni j I) as [(X1 & X2 & _)|(X1 & X2 & X3 & X4)]; [auto|]. right. split; [auto|].
        eapply Permutation_in; [symmetry; exact X4|]. apply filter_In. split; [exact J4|]. apply kA_iff. auto.
      * destruct (Nx j H E I) as (-> & -> & _ & ->). exact J4.
  - intros e i K J. destruct (elim_elem e K) as [->|(H1 & H2 & H3 & H4)].
    + rewrite NLme in J. apply HL in J as J1. destruct J1 as (J1 & J2 & _). split; [apply (qg_lt _ _ Q); congruence|].
      destruct (Ni i J) as [(X1 & X2 & _)|(X1 & X2 & X3 & X4)]; [auto|]. right. split; [auto|].
      eapply Permutation_in; [symmetry; exact X3|]. left; auto.
    + destruct (NL e H1) as (E1 & _). rewrite E1 in J. destruct (qg_L _ _ Q e i H4 J) as (J1 & J2). split; [exact J1|].
      destruct (elim_cases i) as [->|[H [[E I]|[[I E]|[I E]]]]].
      * destruct J2 as [[J2 _]|[_ J2]]; [congruence|]. apply HE in J2. congruence.
      * destruct (HAb i E) as (X & _). destruct J2 as [[J2 _]|[J2 _]]; congruence.
      * assert (KJ : gK g i = Var) by (apply HL in I; tauto). destruct J2 as [[J2 _]|[_ J2]]; [congruence|].
        destruct (Ni i I) as [(X1 & X2 & _)|(X1 & X2 & X3 & X4)]; [auto|]. right. split; [auto|].
        eapply Permutation_in; [symmetry; exact X3|]. right. apply filter_In. split; [exact J2|]. rewrite H2. reflexivity.
      * destruct (Nx i H E I) as (-> & -> & -> & _). exact J2.
  - intros i e K J. destruct (elim_var i K) as (I1 & I2 & I3 & I4 & [(I5 & I6 & I7)|(I5 & I6 & I7)]).
    + eapply Permutation_in in J; [|exact I6]. destruct J as [<-|J]; [rewrite NLme; auto|].
      apply filter_In in J. destruct J as (J & KJ). apply negb_true_iff in KJ.
      destruct (qg_E _ _ Q i e I2 J) as (J1 & J2). assert (e <> me) by congruence. assert (~ In e Lme) by (rewrite HL; intros (_ & X & _); congruence).
      destruct (Nx e H KJ H0) as (X1 & _). destruct (NL e H) as (X2 & _). rewrite X1, X2. auto.
    + rewrite I6 in J. destruct (qg_E _ _ Q i e I2 J) as (J1 & J2). assert (e <> me) by congruence. assert (~ In e Lme) by (rewrite HL; intros (_ & X & _); congruence).
      assert (KJ : Ab e = false). { destruct (Ab e) eqn:X; auto. destruct (HAb e X) as (_ & Y). destruct (Y i I2 J); tauto. }
      destruct (Nx e H KJ H0) as (X1 & _). destruct (NL e H) as (X2 & _). rewrite X1, X2. auto.
  - intros i K. destruct (elim_var i K) as (I1 & I2 & I3 & I4 & [(I5 & I6 & I7)|(I5 & I6 & I7)]).
    + eapply Permutation_NoDup; [symmetry; exact I6|]. constructor; [|apply NoDup_filter, (qg_ndE _ _ Q); auto].
      intros X. apply filter_In in X. destruct X as (X & _). destruct (qg_E _ _ Q _ _ I2 X). congruence.
    + rewrite I6. apply (qg_ndE _ _ Q); auto.
  - intros i K. destruct (elim_var i K) as (I1 & I2 & I3 & I4 & [(I5 & I6 & I7)|(I5 & I6 & I7)]).
    + eapply Permutation_NoDup; [symmetry; exact I7|]. apply NoDup_filter, (qg_ndA _ _ Q); auto.
    + rewrite I7. apply (qg_ndA _ _ Q); auto.
  - intros e K. destruct (elim_elem e K) as [->|(H1 & H2 & H3 & H4)]; [rewrite NLme; exact ND|].
    destruct (NL e H1) as (-> & _). apply (qg_ndL _ _ Q); auto.
  - intros e K. destruct (elim_elem e K) as [->|(H1 & H2 & H3 & H4)]; [rewrite NLme, Ndg; lia|].
    destruct (NL e H1) as (-> & ->). etransitivity; [|apply (qg_deg _ _ Q e H4)]. apply zs_le. intros i Hi.
    destruct (elim_cases i) as [->|[H [[E I]|[[I E]|[I E]]]]].
    + destruct (qg_L _ _ Q e me H4 Hi) as (_ & [[X _]|[_ X]]); [congruence|]. apply HE in X. congruence.
    + destruct (NAb i E) as (_ & ->). lia.
    + destruct (Ni i I) as [(_ & -> & _)|(_ & -> & _)]; [|lia]. apply (qg_nonneg _ _ Q).
    + destruct (Nx i H E I) as (_ & -> & _). lia.
Qed.

Lemma elim_alive m : alive g m -> m = me \/ ~ gK g m = Elem -> alive g' me.
Proof.
  intros AL Hm e He K. destruct (elim_elem e K) as [->|(H1 & H2 & H3 & H4)]; [congruence|].
  destruct (AL e) as (i & I1 & I2); [intros ->; destruct Hm; congruence|exact H4|]. exists i. destruct (NL e H1) as (-> & _). split; [exact I1|].
  destruct (qg_L _ _ Q e i H4 I1) as (_ & [[X _]|[_ X]]); [congruence|].
  destruct (elim_cases i) as [->|[H [[E I]|[[I E]|[I E]]]]].
  - apply HE in X. congruence.
  - destruct (HAb i E). congruence.
  - destruct (Ni i I) as [(_ & _ & Y)|(Y & _)]; [|exact Y]. apply Y in X. congruence.
  - destruct (Nx i H E I) as (-> & _). exact I2.
Qed.
End Elim.

(* merging variable j into i, when they have the same elements *)
Section Merge.
Context (n : nat) (g g' : graph) (i j : nat).
Context (Q : qgraph n g) (Ki : gK g i = Var) (Kj : gK g j = Var) (Hij : i <> j).
Context (HE : forall e, In e (gE g i) <-> In e (gE g j)).
Context (N1 : gK g' j = Dead /\ gv g' j = 0) (N2 : gK g' i = Var /\ gv g' i = gv g i + gv g j).
Context (N3 : forall x, x <> i -> x <> j -> gK g' x = gK g x /\ gv g' x = gv g x).
Context (N4 : forall x, gE g' x = gE g x /\ gA g' x = gA g x /\ gL g' x = gL g x /\ gdg g' x = gdg g x).

Lemma merge_kind x : x <> j -> gK g' x = gK g x.
Proof. intros H. destruct (Nat.eq_dec x i) as [->|]; [destruct N2; congruence|]. apply N3; auto. Qed.
Lemma merge_old x : gK g' x <> Dead -> x <> j /\ gK g' x = gK g x.
Proof. intros H. assert (x <> j) by (intros ->; destruct N1; congruence). split; [auto|apply merge_kind; auto]. Qed.

Lemma merge_ok : qgraph n g'.
Proof.
  constructor.
  - intros x K. destruct (merge_old x K) as (_ & E). apply (qg_lt _ _ Q). congruence.
  - intros x K. destruct (merge_old x K) as (H & E). pose proof (qg_pos _ _ Q j ltac:(congruence)). destruct (Nat.eq_dec x i) as [->|].
    + destruct N2 as (_ & ->). pose proof (qg_pos _ _ Q i ltac:(congruence)). lia.
    + destruct (N3 x) as (_ & ->); auto. apply (qg_pos _ _ Q). congruence.
  - intros x. pose proof (qg_nonneg _ _ Q x). pose proof (qg_nonneg _ _ Q j). destruct (Nat.eq_dec x j) as [->|]; [destruct N1 as (_ & ->); lia|].
    destruct (Nat.eq_dec x i) as [->|]; [destruct N2 as (_ & ->); lia|]. destruct (N3 x) as (_ & ->); auto.
  - intros x y K J. destruct (merge_old x) as (H & E); [congruence|]. destruct (N4 x) as (_ & EA & _). rewrite EA in J.
    destruct (qg_A _ _ Q x y ltac:(congruence) J) as (J1 & J2). split; [exact J1|]. destruct (Nat.eq_dec y j) as [->|]; [auto|].
    destruct (N4 y) as (_ & -> & _). rewrite (merge_kind y) by auto. destruct J2 as [[J2 J3]|J2]; [|auto]. left. split; [exact J2|].
    destruct (N3 y) as (_ & ->); auto. congruence.
  - intros e y K J. destruct (merge_old e) as (H & E); [congruence|]. destruct (N4 e) as (_ & _ & EL & _). rewrite EL in J.
    destruct (qg_L _ _ Q e y ltac:(congruence) J) as (J1 & J2). split; [exact J1|]. destruct (Nat.eq_dec y j) as [->|]; [auto|].
    destruct (N4 y) as (-> & _). rewrite (merge_kind y) by auto. destruct J2 as [[J2 J3]|J2]; [|auto]. left. split; [exact J2|].
    destruct (N3 y) as (_ & ->); auto. congruence.
  - intros x e K J. destruct (merge_old x) as (H & E); [congruence|]. destruct (N4 x) as (EE & _). rewrite EE in J.
    destruct (qg_E _ _ Q x e ltac:(congruence) J) as (J1 & J2). destruct (N4 e) as (_ & _ & -> & _). rewrite merge_kind by congruence. auto.
  - intros x K. destruct (merge_old x) as (H & E); [congruence|]. destruct (N4 x) as (-> & _). apply (qg_ndE _ _ Q). congruence.
  - intros x K. destruct (merge_old x) as (H & E); [congruence|]. destruct (N4 x) as (_ & -> & _). apply (qg_ndA _ _ Q). congruence.
  - intros x K. destruct (merge_old x) as (H & E); [congruence|]. destruct (N4 x) as (_ & _ & -> & _). apply (qg_ndL _ _ Q). congruence.
  - intros e K. destruct (merge_old e) as (H & E); [congruence|]. destruct (N4 e) as (_ & _ & -> & ->). rewrite K in E. symmetry in E.
    etransitivity; [|apply (qg_deg _ _ Q e E)]. apply Z.eq_le_incl. pose proof (qg_ndL _ _ Q e E) as ND.
    assert (IFF : In i (gL g e) <-> In j (gL g e)).
    { split; intros X; destruct (qg_L _ _ Q _ _ E X) as (_ & [[Y _]|[_ Y]]); try congruence; apply HE in Y; eapply (qg_E _ _ Q); eauto. }
    destruct (in_dec Nat.eq_dec i (gL g e)) as [I|I].
    + set (h := fun x => if Nat.eq_dec x i then gv g i + gv g j else gv g x).
      assert (A : zs h (gL g e) = zs (gv g) (gL g e) + (h i - gv g i)).
      { apply zs_upd; auto. intros y _ Hy. unfold h. destruct (Nat.eq_dec y i); congruence. }
      assert (B : zs (gv g') (gL g e) = zs h (gL g e) + (gv g' j - h j)).
      { apply zs_upd; [auto|tauto|]. intros y _ Hy. unfold h. destruct (Nat.eq_dec y i) as [->|]; [apply N2|apply N3; auto]. }
      rewrite B, A. unfold h. destruct (Nat.eq_dec i i); [|congruence]. destruct (Nat.eq_dec j i); [congruence|]. destruct N1 as (_ & ->). lia.
    + apply zs_ext. intros x Hx. apply N3; intros ->; tauto.
Qed.

Lemma merge_alive m : alive g m -> alive g' m.
Proof.
  intros AL e He K. destruct (merge_old e) as (H & E); [congruence|]. destruct (AL e He) as (y & Y1 & Y2); [congruence|].
  destruct (N4 e) as (_ & _ & -> & _). destruct (Nat.eq_dec y j) as [->|]; [|exists y; rewrite merge_kind; auto].
  exists i. destruct N2 as (-> & _). split; [|auto]. destruct (qg_L _ _ Q e j ltac:(congruence) Y1) as (_ & [[Y _]|[_ Y]]); [congruence|].
  apply HE in Y. eapply (qg_E _ _ Q); eauto.
Qed.
End Merge.

(* dropping dead variables from the list of m, which dies when none is left *)
Section Shrink.
Context (n : nat) (g g' : graph) (m : nat).
Context (Q : qgraph n g) (Km : gK g m = Elem) (AL : alive g m).
Context (NL : forall x, x <> m -> gL g' x = gL g x) (NLm : forall x, In x (gL g' m) <-> In x (gL g m) /\ gv g x <> 0) (NDm : NoDup (gL g' m)).
Context (NK : forall x, x <> m -> gK g' x = gK g x) (NKm : gK g' m = match gL g' m with [] => Dead | _ => Elem end).
Context (NV : forall x, x <> m -> gv g' x = gv g x) (Pm : 0 < gv g' m).
Context (NE : forall x, gE g' x = gE g x) (NA : forall x, gA g' x = gA g x) (ND : forall x, gdg g' x = gdg g x).

Lemma shrink_ok : qgraph n g' /\ alive g' n.
Proof.
  assert (X1 : forall x, gK g' x = Elem -> gK g x = Elem) by (intros x K; destruct (Nat.eq_dec x m) as [->|]; [auto|rewrite <- NK; auto]).
  assert (X2 : forall x, gK g' x = Var -> gK g x = Var).
  { intros x K. destruct (Nat.eq_dec x m) as [->|]; [|rewrite <- NK; auto]. rewrite NKm in K. destruct (gL g' m); discriminate. }
  assert (X3 : forall x, gK g x = Var -> gK g' x = Var /\ gv g' x = gv g x) by (intros x K; rewrite NK, NV by congruence; auto).
  assert (X4 : forall x, gK g' x <> Dead -> gK g x <> Dead) by (intros x K; destruct (Nat.eq_dec x m) as [->|]; [congruence|rewrite <- NK; auto]).
  assert (X5 : forall x, gK g x = Dead /\ gv g x = 0 -> gK g' x = Dead /\ gv g' x = 0).
  { intros x [K1 K2]. rewrite NK, NV by congruence. auto. }
  assert (XL : forall e i, gK g' e = Elem -> In i (gL g' e) -> In i (gL g e)).
  { intros e i _ H. destruct (Nat.eq_dec e m) as [->|]; [apply NLm in H; tauto|rewrite <- NL; auto]. }
  split.
  - constructor.
    + intros x K. apply (qg_lt _ _ Q). auto.
    + intros x K. destruct (Nat.eq_dec x m) as [->|]; [auto|]. rewrite NV by auto. apply (qg_pos _ _ Q). auto.
    + intros x. destruct (Nat.eq_dec x m) as [->|]; [lia|]. rewrite NV by auto. apply (qg_nonneg _ _ Q).
    + intros i j K J. rewrite NA in J. destruct (qg_A _ _ Q i j (X2 _ K) J) as (J1 & J2). split; [exact J1|]. destruct J2 as [J2|[J2 J3]]; [left; auto|].
      right. rewrite NA. split; [apply X3|]; auto.
    + intros e i K J. destruct (qg_L _ _ Q e i (X1 _ K) (XL _ _ K J)) as (J1 & J2). split; [exact J1|]. destruct J2 as [J2|[J2 J3]]; [left; auto|].
      right. rewrite NE. split; [apply X3|]; auto.
    + intros i e K J. rewrite NE in J. destruct (qg_E _ _ Q i e (X2 _ K) J) as (J1 & J2). destruct (Nat.eq_dec e m) as [->|]; [|rewrite NK, NL; auto].
      assert (In i (gL g' m)). { apply NLm. split; [auto|]. pose proof (qg_pos _ _ Q i). specialize (H ltac:(rewrite X2; congruence)). lia. }
      split; [|auto]. rewrite NKm. destruct (gL g' m); [contradiction|reflexivity].
    + intros i K. rewrite NE. apply (qg_ndE _ _ Q); auto.
    + intros i K. rewrite NA. apply (qg_ndA _ _ Q); auto.
    + intros e K. destruct (Nat.eq_dec e m) as [->|]; [exact NDm|]. rewrite NL by auto. apply (qg_ndL _ _ Q); auto.
    + intros e K. rewrite ND. etransitivity; [|apply (qg_deg _ _ Q e (X1 _ K))].
      assert (Y : zs (gv g') (gL g' e) = zs (gv g) (gL g' e)).
      { apply zs_ext. intros i Hi. apply NV. intros ->. apply XL in Hi; auto. destruct (qg_L _ _ Q e m (X1 _ K) Hi) as (_ & [[Z _]|[Z _]]); congruence. }
      rewrite Y. apply zs_incl; [|intros; apply XL; auto|intros; apply (qg_nonneg _ _ Q)].
      destruct (Nat.eq_dec e m) as [->|]; [exact NDm|]. rewrite NL by auto. apply (qg_ndL _ _ Q); auto.
  - intros e _ K. destruct (Nat.eq_dec e m) as [->|H].
    + rewrite NKm in K. destruct (gL g' m) as [|x l] eqn:E; [discriminate|]. exists x. split; [left; auto|].
      destruct (proj1 (NLm x)) as (Y1 & Y2); [rewrite ?E; left; auto|]. destruct (qg_L _ _ Q m x Km Y1) as (_ & [[_ Z]|[Z _]]); [congruence|]. apply X3; auto.
    + destruct (AL e H) as (i & I1 & I2); [rewrite <- NK; auto|]. exists i. rewrite NL by auto. split; [auto|apply X3; auto].
Qed.
End Shrink.
