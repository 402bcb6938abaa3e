(* amd_2.c: the quotient graph after the pivot has become an element *)
From Coq Require Import List Arith ZArith Bool Lia Permutation.
From Verif Require Import Base.
From Verif.Model Require Import Amd Amd2.
From Verif.Proofs Require Import AmdB AmdL AmdT QgA QgM QgL QgC QgS QgF QgD QgR.
Import ListNotations.
Open Scope Z_scope.

Lemma zs_add f g l : zs (fun x => f x + g x) l = zs f l + zs g l.
Proof. induction l as [|x l IH]; cbn [zs]; lia. Qed.
Lemma zs_inb n F l : NoDup l -> (forall x, In x l -> (x < n)%nat) -> zs (fun x => if inb x l then F x else 0) (seq 0 n) = zs F l.
Proof.
  intros ND H. rewrite <- zs_filter. apply zs_perm. apply NoDup_Permutation; [apply NoDup_filter, seq_NoDup|exact ND|].
  intros x. rewrite filter_In, in_seq, inb_in. split; [tauto|]. intros Hx. split; [specialize (H x Hx); lia|exact Hx].
Qed.

Section After.
Context (n : nat) (pfree pme1 : Z) (g : graph) (me : nat) (acc : list nat) (par : nat -> option nat).
Context (pe0 pe1 len1 : nat -> Z) (f2 : Z -> Z) (el1 dg w : nat -> Z) (wflg : Z) (aggr : bool).
Context (Q : qgraph n g) (AL : alive g n) (Kme : gK g me = Var) (ND : NoDup acc).
Context (HL : forall i, In i acc <-> i <> me /\ gK g i = Var /\ (In i (gA g me) \/ exists e, In e (gE g me) /\ In i (gL g e))).
Context (F : FI n (gK g) (gv g) par).
Context (Live0 : forall x, (x < n)%nat -> (0 <= pe0 x <-> gK g x <> Dead)) (Dead0 : forall x, (x < n)%nat -> gK g x = Dead -> pe0 x = FLIP (enc (par x))).
Context (PE : forall e, In e (gE g me) -> pe1 e = FLIP (Z.of_nat me)).
Context (PL : forall x, (x < n)%nat -> x <> me -> ~ In x (gE g me) -> (pe0 x < 0 -> pe1 x = pe0 x) /\ (0 <= pe0 x -> 0 <= pe1 x)).
Context (Pme : pe1 me = pme1) (Hp1 : 0 <= pme1).
Context (El1 : forall x, gK g x = Var -> x <> me -> el1 x = Z.of_nat (length (gE g x))).
Context (El2 : forall x, (x < n)%nat -> gK g x <> Var -> 0 < gv g x -> el1 x <= -1) (El3 : el1 me <= -1).
Context (W1 : forall x, (x < n)%nat -> 0 <= w x < wflg) (W0 : forall e, In e (gE g me) -> w e = 0) (W2 : forall e, gK g e = Elem -> ~ In e (gE g me) -> w e <> 0).
Context (W3 : forall x, gK g x = Var -> w x <> 0) (Wf : 2 <= wflg).
Context (Dg1 : forall e, gK g e = Elem -> gdg g e = dg e) (Dg0 : forall x, gK g x = Var -> 0 <= dg x < Z.of_nat n).
Local Notation massb := (massb g me acc dg w wflg aggr).
Local Notation absb := (absb g acc dg w wflg aggr acc).
Local Notation newE := (newE g me acc dg w wflg aggr).
Local Notation newA := (newA g me acc).
Local Notation keepE := (keepE g acc dg w wflg aggr).
Local Notation keepA := (keepA g me acc).
Local Notation ms := (ms g me acc dg w wflg aggr acc).
Local Notation w1 := (w_after g dg w wflg acc).
Local Notation gone := (gone g acc dg w wflg aggr).
Local Notation pe2 := (pe2 g me acc pe1 dg w wflg aggr acc).
Local Notation len2 := (len2 g me acc len1 dg w wflg aggr acc).
Local Notation el2 := (el2 g me acc el1 dg w wflg aggr acc).
Local Notation w2 := (w2 g acc dg w wflg aggr acc).
Local Notation bd2 := (bd2 g me acc dg w wflg aggr acc).
Context (M2 : mem n pfree (fu pe2 me (-1)) len2 f2 bd2).

Definition Abb (x : nat) : bool := inb x (gE g me) || absb x.
Definition mb (x : nat) : bool := inb x acc && massb x.
Definition g1 : graph := Graph
  (fun x => if Nat.eqb x me then Elem else if Abb x || mb x then Dead else gK g x)
  (fun x => if inb x acc then newE x else gE g x)
  (fun x => if inb x acc then newA x else gA g x)
  (fun x => if Nat.eqb x me then acc else gL g x)
  (fun x => if Nat.eqb x me then gv g me + ms else if mb x then 0 else gv g x)
  (fun x => if Nat.eqb x me then zs (gv g) acc - ms else gdg g x).
Definition par1 (x : nat) : option nat := if Abb x || mb x then Some me else par x.

Local Lemma av i : In i acc -> gK g i = Var /\ i <> me /\ (i < n)%nat.
Proof. apply (acc_var n g me acc Q HL). Qed.
Local Lemma men : (me < n)%nat.
Proof. apply (qg_lt _ _ Q). congruence. Qed.
Local Lemma w1_pos i e : In i acc -> In e (gE g i) -> w e <> 0 -> wflg <= w1 e.
Proof. intros H1 H2 H3. destruct (w1_touched n g me acc dg w wflg Q ND HL Dg1 i e H1 H2 H3). lia. Qed.
Local Lemma w1_z e : w e = 0 -> w1 e = 0.
Proof. intros H. unfold w_after. rewrite H. reflexivity. Qed.

Lemma keepE_iff i e : In i acc -> In e (gE g i) -> keepE e = negb (Abb e).
Proof.
  intros Hi He. destruct (av i Hi) as (Ki & _). destruct (qg_E _ _ Q i e Ki He) as (Ke & _). unfold Abb.
  destruct (in_dec Nat.eq_dec e (gE g me)) as [H|H].
  - pose proof H as H'. apply inb_in in H'. rewrite H'. unfold QgS.keepE. rewrite (w1_z e) by (apply W0; auto). reflexivity.
  - pose proof H as H'. apply inb_not in H'. rewrite H'. cbn [orb]. pose proof (w1_pos i e Hi He (W2 e Ke H)) as P.
    assert (E : existsb (fun i => inb e (gE g i)) acc = true) by (apply existsb_exists; exists i; split; [auto|apply inb_in; auto]).
    unfold QgS.absb. rewrite E, andb_true_r. unfold QgS.gone. destruct (Z.eqb_spec (w1 e) 0); [lia|]. cbn [negb andb]. rewrite negb_involutive. reflexivity.
Qed.

Lemma Abb_elem e : Abb e = true -> gK g e = Elem /\ forall i, gK g i = Var -> In e (gE g i) -> i = me \/ In i acc.
Proof.
  unfold Abb. intros H. apply orb_true_iff in H. destruct H as [H|H].
  - apply inb_in in H. destruct (qg_E _ _ Q me e Kme H) as (Ke & _). split; [exact Ke|]. intros i Ki Hi.
    destruct (Nat.eq_dec i me); [auto|]. right. apply HL. split; [auto|]. split; [auto|]. right. exists e. split; [auto|]. apply (qg_E _ _ Q i e Ki Hi).
  - destruct (absb_elem n g me acc dg w wflg Q HL aggr acc e (fun i X => X) H) as (Ke & G & i0 & I1 & I2). split; [exact Ke|].
    intros i Ki Hi. right. unfold QgS.gone in G. apply andb_true_iff in G. destruct G as [G1 G2]. apply negb_true_iff, Z.eqb_neq in G1.
    apply negb_true_iff in G2. unfold QgS.keepE in G2. assert (Hw : w e <> 0) by (intros X; apply G1, w1_z, X).
    assert (X : (w1 e =? 0) = false) by (apply Z.eqb_neq; auto). rewrite X in G2. cbn [negb andb] in G2. apply orb_false_iff in G2. destruct G2 as [_ G2].
    apply (w1_zero n g me acc dg w wflg Q ND HL Dg1 i0 e i); auto. destruct (Z.gtb_spec (w1 e - wflg) 0); [discriminate|lia].
Qed.

Lemma mb_var x : mb x = true -> In x acc /\ massb x = true /\ gK g x = Var /\ x <> me /\ (x < n)%nat.
Proof. unfold mb. intros H. apply andb_true_iff in H. destruct H as [H1 H2]. apply inb_in in H1. destruct (av x H1) as (A & B & C). auto. Qed.
Lemma Abb_me : Abb me = false.
Proof. destruct (Abb me) eqn:E; [|reflexivity]. destruct (Abb_elem me E). congruence. Qed.
Lemma mb_me : mb me = false.
Proof. destruct (mb me) eqn:E; [|reflexivity]. destruct (mb_var me E) as (_ & _ & _ & X & _). congruence. Qed.
Lemma Abb_acc x : In x acc -> Abb x = false.
Proof. intros H. destruct (Abb x) eqn:E; [|reflexivity]. destruct (Abb_elem x E). destruct (av x H). congruence. Qed.
Lemma mb_not x : ~ In x acc -> mb x = false.
Proof. intros H. unfold mb. apply inb_not in H. rewrite H. reflexivity. Qed.
Lemma mb_acc x : In x acc -> mb x = massb x.
Proof. intros H. unfold mb. apply inb_in in H. rewrite H. reflexivity. Qed.

Lemma ms_nonneg : 0 <= ms.
Proof. unfold QgS.ms. apply zs_nonneg. intros. apply (qg_nonneg _ _ Q). Qed.
Lemma gv1_acc : zs (gv g1) acc = zs (gv g) acc - ms.
Proof.
  unfold QgS.ms. rewrite (zs_split (gv g) massb acc), (zs_filter (gv g) (fun x => negb (massb x)) acc).
  rewrite (zs_ext (gv g1) (fun x => if negb (massb x) then gv g x else 0) acc); [lia|].
  intros x Hx. destruct (av x Hx) as (_ & X & _). cbn [g1 gv]. apply Nat.eqb_neq in X. rewrite X, (mb_acc x Hx). destruct (massb x); reflexivity.
Qed.

Lemma keepA_iff j : keepA j && (if kind_dec (gK g j) Var then true else false) = true <-> gK g j = Var /\ j <> me /\ ~ In j acc.
Proof.
  unfold QgS.keepA, nvc. rewrite andb_true_iff, Z.ltb_lt. destruct (kind_dec (gK g j) Var) as [K|K]; [|split; [intros [_ X]; discriminate|tauto]].
  pose proof (qg_pos _ _ Q j ltac:(congruence)). destruct (in_dec Nat.eq_dec j (me :: acc)) as [H1|H1]; cbn [In] in H1.
  - split; [lia|]. intros (_ & A & B). destruct H1; [congruence|tauto].
  - split; [|auto]. intros _. split; [auto|]. split; intros X; apply H1; auto.
Qed.
Lemma keepA_filter i : gK g i = Var -> filter keepA (gA g i) = filter (fun j => keepA j && (if kind_dec (gK g j) Var then true else false)) (gA g i).
Proof.
  intros K. apply filter_ext_in. intros j Hj. destruct (kind_dec (gK g j) Var) as [Kj|Kj]; [rewrite andb_true_r; reflexivity|]. rewrite andb_false_r.
  destruct (qg_A _ _ Q i j K Hj) as (_ & [[_ V]|[V _]]); [|congruence]. unfold QgS.keepA, nvc. rewrite V. destruct (in_dec _ _ _); reflexivity.
Qed.

Lemma mass_gone i e : In i acc -> massb i = true -> In e (gE g i) -> Abb e = true.
Proof.
  intros Hi M He. apply massb_iff in M. destruct M as [M _]. assert (X : keepE e = false).
  { destruct (keepE e) eqn:E; [|reflexivity]. assert (In e (E2 g acc dg w wflg aggr i)) by (apply filter_In; auto). rewrite M in H. destruct H. }
  rewrite (keepE_iff i e Hi He) in X. apply negb_false_iff in X. exact X.
Qed.

Lemma g1_hyps :
  gK g1 me = Elem /\ 0 < gv g1 me /\ (forall e, Abb e = true -> gK g1 e = Dead /\ gv g1 e = gv g e) /\
  (forall x, x <> me -> Abb x = false -> ~ In x acc -> gK g1 x = gK g x /\ gv g1 x = gv g x /\ gE g1 x = gE g x /\ gA g1 x = gA g x) /\
  (forall i, In i acc -> (gK g1 i = Dead /\ gv g1 i = 0 /\ forall e, In e (gE g i) -> Abb e = true) \/
  (gK g1 i = Var /\ gv g1 i = gv g i /\
   Permutation (gE g1 i) (me :: filter (fun e => negb (Abb e)) (gE g i)) /\ Permutation (gA g1 i) (filter (fun j => keepA j && (if kind_dec (gK g j) Var then true else false)) (gA g i)))) /\
  (forall e, e <> me -> gL g1 e = gL g e /\ gdg g1 e = gdg g e) /\ gL g1 me = acc /\ gdg g1 me = zs (gv g1) acc.
Proof.
  pose proof (qg_pos _ _ Q me ltac:(congruence)) as P. pose proof ms_nonneg as MN. rewrite gv1_acc. cbn [g1 gK gv gE gA gL gdg]. rewrite Nat.eqb_refl. csplit; auto.
  - lia.
  - intros e He. destruct (Abb_elem e He) as (Ke & _). destruct (Nat.eqb_spec e me) as [->|Ne]; [congruence|]. rewrite He.
    destruct (mb e) eqn:E; [|auto]. destruct (mb_var e E) as (_ & _ & X & _). congruence.
  - intros x H1 H2 H3. rewrite H2, (mb_not x H3). apply Nat.eqb_neq in H1. apply inb_not in H3. rewrite H1, H3. auto.
  - intros i Hi. destruct (av i Hi) as (Ki & Ni & _). apply Nat.eqb_neq in Ni. rewrite Ni, (Abb_acc i Hi), (mb_acc i Hi). cbn [orb].
    pose proof Hi as Hi'. apply inb_in in Hi'. rewrite Hi'. destruct (massb i) eqn:M.
    + left. split; [auto|]. split; [auto|]. intros e. apply mass_gone; auto.
    + right. split; [auto|]. split; [auto|]. split.
      * unfold QgS.newE. constructor. rewrite rot_perm. unfold E2. rewrite (filter_ext_in _ (fun e => negb (Abb e))); [reflexivity|]. intros e He. apply (keepE_iff i); auto.
      * unfold QgS.newA. rewrite rot_perm. unfold A2. rewrite (keepA_filter i Ki). reflexivity.
  - intros e He. apply Nat.eqb_neq in He. rewrite He. auto.
Qed.

Lemma g1_qgraph : qgraph n g1.
Proof.
  destruct g1_hyps as (H1 & H2 & H3 & H4 & H5 & H6 & H7 & H8).
  eapply (elim_ok n g g1 me acc Abb Q Kme ND HL Abb_elem); eauto.
  - intros e He. unfold Abb. apply inb_in in He. rewrite He. reflexivity.
  - intros j _. apply keepA_iff.
Qed.
Lemma g1_alive : alive g1 me.
Proof.
  destruct g1_hyps as (H1 & H2 & H3 & H4 & H5 & H6 & H7 & H8).
  eapply (elim_alive n g g1 me acc Abb Q Kme HL Abb_elem _ H1 H3 H4 _ H5 H6 n AL).
  right. intros X. assert (n < n)%nat by (apply (qg_lt _ _ Q); congruence). lia.
  Unshelve. intros e He. unfold Abb. apply inb_in in He. rewrite He. reflexivity.
Qed.

Lemma mass_nodup : NoDup (filter massb acc). Proof. apply NoDup_filter, ND. Qed.
Lemma mass_in x : In x (filter massb acc) <-> mb x = true.
Proof. rewrite filter_In. unfold mb. rewrite andb_true_iff, inb_in. tauto. Qed.
Lemma mass_dec {T} x (a b : T) : (if in_dec Nat.eq_dec x (filter massb acc) then a else b) = if mb x then a else b.
Proof. destruct (in_dec Nat.eq_dec x (filter massb acc)) as [H|H]; rewrite mass_in in H; [rewrite H; reflexivity|]. destruct (mb x); congruence. Qed.

Lemma g1_FI : FI n (gK g1) (gv g1) par1.
Proof.
  pose proof (qg_pos _ _ Q me ltac:(congruence)) as P.
  pose proof (FI_pivot n (gK g) (gv g) par (fu (gK g) me Elem) me F Kme (fun x => eq_refl)) as F1.
  assert (F2 : FI n (fun x => if Abb x then Dead else fu (gK g) me Elem x) (gv g) (fun x => if Abb x then Some me else par x)).
  { eapply (FI_elems n _ (gv g) par _ _ Abb (Some me) F1); auto.
    - intros x. unfold fu. destruct (Nat.eqb_spec x me) as [->|]; [auto|]. intros K. apply (qg_pos _ _ Q). congruence.
    - intros x Hx. unfold fu. destruct (Nat.eqb_spec x me); [auto|]. apply Abb_elem; auto.
    - intros m Hm. inversion Hm; subst m. split; [apply men|]. split; [apply fu_eq|apply Abb_me]. }
  eapply (FI_merges n (gv g) _ me (filter massb acc) (gK g1) (gv g1) _ par1 F2 mass_nodup men); auto.
  - rewrite Abb_me, fu_eq. discriminate.
  - intros x Hx. apply mass_in in Hx. destruct (mb_var x Hx) as (X1 & X2 & X3 & X4 & X5). rewrite (Abb_acc x X1), fu_ne by auto.
    split; [auto|]. split; [auto|]. split; [auto|]. apply (qg_pos _ _ Q). congruence.
  - intros x. rewrite mass_dec. cbn [g1 gK]. unfold fu. destruct (Nat.eqb_spec x me) as [->|]; [rewrite mb_me, Abb_me; reflexivity|].
    destruct (Abb x), (mb x); reflexivity.
  - intros x. rewrite mass_dec. cbn [g1 gv]. destruct (Nat.eqb_spec x me) as [->|]; [rewrite mb_me; reflexivity|reflexivity].
  - intros x. rewrite mass_dec. unfold par1. destruct (Abb x), (mb x); reflexivity.
Qed.

Lemma g1_kind x : x <> me -> gK g1 x = if Abb x || mb x then Dead else gK g x.
Proof. intros H. cbn [g1 gK]. apply Nat.eqb_neq in H. rewrite H. reflexivity. Qed.
Lemma pe2_absorbed x : Abb x || mb x = true -> pe2 x = FLIP (Z.of_nat me).
Proof.
  unfold QgS.pe2. fold (mb x). unfold Abb. destruct (absb x); [reflexivity|]. destruct (mb x); [reflexivity|].
  rewrite !orb_false_r. intros H. apply PE, inb_in, H.
Qed.
Lemma pe2_other x : Abb x || mb x = false -> pe2 x = pe1 x /\ ~ In x (gE g me).
Proof.
  intros H. apply orb_false_iff in H. destruct H as [H1 H2]. unfold Abb in H1. apply orb_false_iff in H1. destruct H1 as [H0 H1].
  unfold QgS.pe2. fold (mb x). rewrite H1, H2. split; [reflexivity|]. apply inb_not, H0.
Qed.

Lemma g1_total : total n g1 = total n g - gv g me - ms.
Proof.
  unfold total. set (S0 := me :: filter massb acc).
  assert (X : zs (fun x => match gK g x with Var => gv g x | _ => 0 end) (seq 0 n) =
    zs (fun x => (match gK g1 x with Var => gv g1 x | _ => 0 end) + (if inb x S0 then gv g x else 0)) (seq 0 n)).
  { apply zs_ext. intros x Hx. assert (E : inb x S0 = Nat.eqb x me || mb x).
    { unfold S0. replace (me :: filter massb acc) with ([me] ++ filter massb acc) by reflexivity. rewrite inb_app, inb_one. f_equal.
      unfold inb. rewrite mass_dec. destruct (mb x); reflexivity. }
    rewrite E. cbn [g1 gK gv]. destruct (Nat.eqb_spec x me) as [->|Nx]; [rewrite Kme; cbn [orb]; lia|]. cbn [orb].
    destruct (mb x) eqn:Em; [destruct (mb_var x Em) as (_ & _ & K & _); rewrite K, orb_true_r; lia|]. rewrite orb_false_r.
    destruct (Abb x) eqn:Ea; [destruct (Abb_elem x Ea) as (K & _); rewrite K; lia|]. lia. }
  rewrite X, zs_add, zs_inb; [unfold S0; cbn [zs]; unfold QgS.ms; lia| |].
  - constructor; [|apply mass_nodup]. rewrite mass_in, mb_me. discriminate.
  - intros x [<-|Hx]; [apply men|]. apply mass_in in Hx. apply (mb_var x Hx).
Qed.

Theorem after_scan2 : GS n pfree pme1 me acc len2 f2 g1 pe2 g1 par1 pe2 el2.
Proof.
  constructor.
  - apply g1_qgraph.
  - apply g1_alive.
  - apply g1_hyps.
  - apply g1_hyps.
  - apply g1_FI.
  - eapply mem_ext; [exact M2|]. intros x Hx Hp. csplit; auto. unfold fu in Hp. destruct (Nat.eqb_spec x me) as [->|Nx]; [lia|].
    assert (E : Abb x || mb x = false) by (destruct (Abb x || mb x) eqn:E; [rewrite (pe2_absorbed x E) in Hp; unfold FLIP in Hp; lia|reflexivity]).
    unfold bd. rewrite (g1_kind x Nx), E. unfold QgS.bd2, bd. cbn [g1 gE gA gL]. destruct (inb x acc) eqn:I.
    + apply inb_in in I. destruct (av x I) as (K & _). rewrite K. reflexivity.
    + apply Nat.eqb_neq in Nx. rewrite Nx. reflexivity.
  - intros x Hx Nx. rewrite (g1_kind x Nx). destruct (Abb x || mb x) eqn:E.
    + rewrite (pe2_absorbed x E). unfold FLIP. split; [lia|congruence].
    + destruct (pe2_other x E) as [-> NE]. rewrite <- (Live0 x Hx). destruct (PL x Hx Nx NE) as [P1 P2]. split; [|auto]. intros X. destruct (Z_lt_le_dec (pe0 x) 0) as [Y|Y]; [rewrite P1 in X; lia|auto].
  - intros x Hx K. assert (Nx : x <> me) by (intros ->; cbn [g1 gK] in K; rewrite Nat.eqb_refl in K; discriminate). rewrite (g1_kind x Nx) in K. unfold par1. destruct (Abb x || mb x) eqn:E.
    + apply pe2_absorbed, E.
    + destruct (pe2_other x E) as [-> NE]. rewrite <- (Dead0 x Hx K). apply (PL x Hx Nx NE). destruct (Z_lt_le_dec (pe0 x) 0) as [Y|Y]; [auto|]. apply Live0 in Y; [congruence|auto].
  - assert (E : Abb me || mb me = false) by (rewrite Abb_me, mb_me; reflexivity). destruct (pe2_other me E) as [-> _]. exact Pme.
  - intros x K. assert (Nx : x <> me) by (intros ->; cbn [g1 gK] in K; rewrite Nat.eqb_refl in K; discriminate). rewrite (g1_kind x Nx) in K.
    destruct (Abb x || mb x) eqn:E; [discriminate|]. apply orb_false_iff in E. destruct E as [_ E]. unfold QgS.el2. cbn [g1 gE]. unfold mb in E.
    destruct (inb x acc) eqn:I; cbn [andb] in E; [rewrite E; reflexivity|]. apply El1; auto.
  - intros x Hx K V. unfold QgS.el2. destruct (Nat.eq_dec x me) as [->|Nx].
    + assert (X : inb me acc = false) by (apply inb_not; intros X; destruct (av me X) as (_ & Y & _); congruence). rewrite X. exact El3.
    + cbn [g1 gv] in V. rewrite (g1_kind x Nx) in K. pose proof Nx as Nx'. apply Nat.eqb_neq in Nx'. rewrite Nx' in V. destruct (mb x) eqn:E; [lia|]. rewrite orb_false_r in K. unfold mb in E.
      destruct (inb x acc) eqn:I.
      * apply inb_in in I. rewrite (Abb_acc x I) in K. destruct (av x I). congruence.
      * apply El2; auto. destruct (Abb x) eqn:A; [|auto]. destruct (Abb_elem x A). congruence.
  - intros x. auto.
  - intros x _. auto.
  - intros x H. exact H.
  - reflexivity.
  - intros x Hx _. reflexivity.
Qed.

Lemma g1_front x : In x acc -> exists t, gE g1 x = me :: t.
Proof. intros H. cbn [g1 gE]. apply inb_in in H. rewrite H. unfold QgS.newE. eauto. Qed.

(* Nv *)
Lemma g1_nv x : nv2 g me acc dg w wflg aggr acc x = nvd me acc (- gv g me) g1 x.
Proof.
  unfold nv2, nvd. fold (mb x). cbn [g1 gv]. unfold nvc. destruct (Nat.eqb_spec x me) as [->|Nx].
  - rewrite mb_me. destruct (in_dec Nat.eq_dec me (me :: acc)) as [H|H]; [reflexivity|]. exfalso. apply H. left; auto.
  - destruct (mb x); [destruct (inb x acc); reflexivity|]. destruct (in_dec Nat.eq_dec x (me :: acc)) as [H|H]; destruct (inb x acc) eqn:I; auto.
    + apply inb_not in I. destruct H; [congruence|tauto].
    + apply inb_in in I. exfalso. apply H. right; auto.
Qed.

(* W, before and after the second clear_flag *)
Lemma w2_range lemax x : (forall e, gK g e = Elem -> dg e <= lemax) -> 0 <= lemax -> (x < n)%nat -> 0 <= w2 x < wflg + lemax.
Proof.
  intros HM H0 Hx. unfold QgS.w2. destruct (absb x); [lia|]. pose proof (W1 x Hx).
  destruct (Z.eq_dec (w x) 0) as [E|E]; [rewrite (w1_z x E); lia|].
  destruct (existsb (fun i => inb x (gE g i)) acc) eqn:T.
  - apply existsb_exists in T. destruct T as (i & I1 & I2). apply inb_in in I2. destruct (w1_touched n g me acc dg w wflg Q ND HL Dg1 i x I1 I2 E) as [X1 X2].
    destruct (av i I1) as (Ki & _). destruct (qg_E _ _ Q i x Ki I2) as (Kx & _). specialize (HM x Kx). lia.
  - rewrite w1_untouched; [lia|]. intros i I1 I2. assert (existsb (fun i => inb x (gE g i)) acc = true) by (apply existsb_exists; exists i; split; [auto|apply inb_in; auto]). congruence.
Qed.
Lemma w2_live x : (x < n)%nat -> gK g1 x <> Dead -> w2 x <> 0.
Proof.
  intros Hx K. assert (Hw : w x <> 0 /\ Abb x = false).
  { destruct (Nat.eq_dec x me) as [->|Nx]; [split; [apply W3; auto|apply Abb_me]|]. rewrite (g1_kind x Nx) in K. destruct (Abb x || mb x) eqn:E; [congruence|].
    apply orb_false_iff in E. destruct E as [E _]. split; [|exact E]. unfold Abb in E. apply orb_false_iff in E. destruct E as [E _]. apply inb_not in E.
    destruct (gK g x) eqn:Kx; [apply W3; auto|apply W2; auto|congruence]. }
  destruct Hw as [Hw Ha]. unfold Abb in Ha. apply orb_false_iff in Ha. destruct Ha as [_ Ha]. unfold QgS.w2. rewrite Ha.
  destruct (existsb (fun i => inb x (gE g i)) acc) eqn:T.
  - apply existsb_exists in T. destruct T as (i & I1 & I2). apply inb_in in I2. pose proof (w1_pos i x I1 I2 Hw). lia.
  - rewrite w1_untouched; [exact Hw|]. intros i I1 I2. assert (existsb (fun i => inb x (gE g i)) acc = true) by (apply existsb_exists; exists i; split; [auto|apply inb_in; auto]). congruence.
Qed.

(* degrees *)
Lemma deg2_nonneg x : In x acc -> 0 <= deg2 g me acc dg w wflg aggr x.
Proof.
  intros Hx. destruct (av x Hx) as (Kx & _). unfold deg2. apply Z.min_glb; [apply Dg0; auto|].
  assert (0 <= zs (fun e => w1 e - wflg) (E2 g acc dg w wflg aggr x)); [|assert (0 <= zs (gv g) (A2 g me acc x)) by (apply zs_nonneg; intros; apply (qg_nonneg _ _ Q)); lia].
  apply zs_nonneg. intros e He. apply filter_In in He. destruct He as [H1 H2]. assert (Hw : w e <> 0).
  { intros E. unfold QgS.keepE in H2. rewrite (w1_z e E) in H2. discriminate. }
  pose proof (w1_pos x e Hx H1 Hw). lia.
Qed.
End After.
