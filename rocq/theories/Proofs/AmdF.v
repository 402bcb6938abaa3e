(* The end of AMD_2: from the assembly forest to the permutation *)
From Coq Require Import List Arith ZArith Bool Lia Permutation.
From Verif Require Import Base.
From Verif.Model Require Import Amd.
From Verif.Spec Require Import Ordering.
From Verif.Proofs Require Import AmdB AmdL AmdT AmdO.
Import ListNotations.
Open Scope nat_scope.

Section Finish.
Variables (n : nat) (par : nat -> option nat) (nv rank : nat -> nat).
Hypothesis R1 : forall i j, i < n -> par i = Some j -> j < n.
Hypothesis R2 : forall i j, i < n -> par i = Some j -> rank i < rank j.
Hypothesis R3 : forall i j, i < n -> 0 < nv i -> par i = Some j -> 0 < nv j.
Hypothesis R4 : forall i j, i < n -> nv i = 0 -> par i = Some j -> exists e, absorbed par nv e j.
Hypothesis R5 : forall e, e < n -> 0 < nv e ->
    exists l, NoDup l /\ (forall i, In i l <-> i < n /\ absorbed par nv e i) /\ length l = nv e.

Notation ab := (absorbed par nv).

Lemma ab_el e i : ab e i -> 0 < nv i -> e = i.
Proof. intros A H. inversion A; subst; [reflexivity|lia]. Qed.
Lemma ab_pos e i : ab e i -> 0 < nv e.
Proof. induction 1; assumption. Qed.
Lemma ab_fun e e' i : ab e i -> ab e' i -> e = e'.
Proof.
  induction 1 as [H|i j H P A IH]; intros B.
  - symmetry. apply ab_el; assumption.
  - inversion B as [|? j' H' P' B']; subst; [lia|]. apply IH. congruence.
Qed.
Lemma ab_range e i : ab e i -> i < n -> e < n /\ (nv i = 0 -> rank i < rank e) /\ rank i <= rank e.
Proof.
  induction 1 as [H|i j H P A IH]; intros Hi; [lia|].
  specialize (IH (R1 i j Hi P)). pose proof (R2 i j Hi P). lia.
Qed.

(* nodes of larger rank *)
Definition higher (j : nat) : nat := length (filter (fun x => rank j <? rank x) (seq 0 n)).
Lemma higher_lt j k : k < n -> rank j < rank k -> higher k < higher j.
Proof.
  intros Hk Hr. unfold higher.
  assert (I : NoDup (k :: filter (fun x => rank k <? rank x) (seq 0 n))).
  { constructor; [|apply NoDup_filter, seq_NoDup]. intros I. apply filter_In in I. destruct I as [_ I]. apply Nat.ltb_lt in I. lia. }
  apply (NoDup_incl_length I). intros x [<-|Hx].
  - apply filter_In. split; [apply in_seq; lia|apply Nat.ltb_lt; exact Hr].
  - apply filter_In in Hx. destruct Hx as [X1 X2]. apply filter_In. split; [exact X1|]. apply Nat.ltb_lt in X2. apply Nat.ltb_lt. lia.
Qed.
Lemma higher_le j : higher j <= n.
Proof.
  unfold higher. rewrite <- (seq_length n 0) at 2. apply NoDup_incl_length; [apply NoDup_filter, seq_NoDup|].
  intros x Hx. apply filter_In in Hx. apply Hx.
Qed.

(* ------------------------------------------------------ path compression *)
Definition comp (pe : nat -> Z) (i : nat) : Prop := nv i = 0 /\ exists e, ab e i /\ pe i = Z.of_nat e.
Definition pinv (pe : nat -> Z) : Prop := forall i, i < n -> pe i = enc (par i) \/ comp pe i.

Lemma next_ok pe e j : pinv pe -> j < n -> nv j = 0 -> ab e j ->
  exists k, pe j = Z.of_nat k /\ k < n /\ ab e k /\ rank j < rank k.
Proof.
  intros PI Hj Vj A. destruct (PI j Hj) as [E|(_ & e' & A' & E)].
  - inversion A as [H|? k H P A']; subst; [lia|]. rewrite P in E. exists k. split; [exact E|]. split; [eauto|]. split; [exact A'|eauto].
  - assert (e = e') by (eapply ab_fun; eassumption). subst e'. destruct (ab_range e j A Hj) as (B1 & B2 & _).
    exists e. split; [exact E|]. split; [exact B1|]. split; [constructor; eapply ab_pos; exact A|auto].
Qed.

Variables (Nv : arr Z).
Hypothesis FN : fa Nv n (fun i => Z.of_nat (nv i)).

Lemma find_element_ok Pe pe e j : fa Pe n pe -> pinv pe -> j < n -> ab e j ->
  find_element (n + 1) Pe Nv (Z.of_nat j) = Some (Z.of_nat e).
Proof.
  intros FP PI Hj A. unfold find_element.
  assert (W : wp (while_ (n + 1) (fun j => v <- getz Nv j ;; Some (v =? 0)%Z) (fun j => getz Pe j) (Z.of_nat j))
      (fun r => r = Z.of_nat e)).
  { apply (wp_while (fun z => exists k, z = Z.of_nat k /\ k < n /\ ab e k) (fun z => higher (Z.to_nat z))).
    - intros z (k & -> & Hk & Ak). wb. eapply wfa_getn; [exact FN|exact Hk|]. cbn [wp].
      destruct (Z.eqb_spec (Z.of_nat (nv k)) 0) as [E|E].
      + destruct (next_ok pe e k PI Hk ltac:(lia) Ak) as (k' & E' & Hk' & Ak' & Rk').
        eapply wfa_getn; [exact FP|exact Hk|]. split; [exists k'; auto|]. rewrite E', !Nat2Z.id. apply higher_lt; assumption.
      + f_equal. symmetry. apply ab_el; [exact Ak|lia].
    - exists j. auto.
    - pose proof (higher_le (Z.to_nat (Z.of_nat j))). lia. }
  apply wp_elim in W. destruct W as (r & E & ->). exact E.
Qed.

Lemma compress_path_ok Pe pe e i : fa Pe n pe -> pinv pe -> i < n -> nv i = 0 -> ab e i ->
  wp (compress_path (n + 1) Nv (Z.of_nat i) (Z.of_nat e) Pe) (fun Pe' =>
    exists pe', fa Pe' n pe' /\ pinv pe' /\ comp pe' i /\ forall x, comp pe x -> comp pe' x).
Proof.
  intros FP PI Hi Vi A. unfold compress_path. wb.
  apply (wp_while (fun '(z, Pe) => exists k pe', z = Z.of_nat k /\ k < n /\ ab e k /\ fa Pe n pe' /\ pinv pe' /\
      (k = i \/ comp pe' i) /\ forall x, comp pe x -> comp pe' x) (fun '(z, _) => higher (Z.to_nat z))).
  - intros [z Pe1] (k & pe1 & -> & Hk & Ak & FP1 & PI1 & D & M). wb. eapply wfa_getn; [exact FN|exact Hk|]. cbn [wp].
    destruct (Z.eqb_spec (Z.of_nat (nv k)) 0) as [E|E].
    + destruct (next_ok pe1 e k PI1 Hk ltac:(lia) Ak) as (k' & E' & Hk' & Ak' & Rk').
      wb. eapply wfa_getn; [exact FP1|exact Hk|]. wb. eapply wfa_setn; [exact FP1|exact Hk|]. intros Pe2 FP2. cbn [wp].
      assert (CK : comp (fu pe1 k (Z.of_nat e)) k) by (split; [lia|]; exists e; split; [exact Ak|apply fu_eq]).
      assert (CM : forall x, comp pe1 x -> comp (fu pe1 k (Z.of_nat e)) x).
      { intros x Cx. destruct (Nat.eq_dec x k) as [->|NE]; [exact CK|]. destruct Cx as (V & e' & A' & Ex).
        split; [exact V|]. exists e'. rewrite fu_ne by exact NE. auto. }
      split; [|rewrite E', !Nat2Z.id; apply higher_lt; assumption].
      exists k', (fu pe1 k (Z.of_nat e)). split; [exact E'|]. split; [exact Hk'|]. split; [exact Ak'|]. split; [exact FP2|].
      split; [|split].
      * intros x Hx. destruct (PI1 x Hx) as [P|P]; [|right; auto].
        destruct (Nat.eq_dec x k) as [->|NE]; [right; exact CK|left; rewrite fu_ne by exact NE; exact P].
      * right. destruct D as [->|D]; auto.
      * intros x Cx. apply CM, M, Cx.
    + cbn [wp]. exists pe1. split; [exact FP1|]. split; [exact PI1|]. split; [|exact M]. destruct D as [->|D]; [lia|exact D].
  - exists i, pe. split; [reflexivity|]. split; [exact Hi|]. split; [exact A|]. split; [exact FP|]. split; [exact PI|]. auto.
  - pose proof (higher_le (Z.to_nat (Z.of_nat i))). lia.
Qed.

Lemma compress_ok Pe : fa Pe n (fun i => enc (par i)) ->
  wp (compress_paths n Nv Pe) (fun Pe' => exists pe, fa Pe' n pe /\ pinv pe /\
    forall i, i < n -> nv i = 0 -> par i <> None -> comp pe i).
Proof.
  intros FP. unfold compress_paths.
  apply (wp_for (fun k Pe' => exists pe, fa Pe' n pe /\ pinv pe /\
    forall i, i < k -> nv i = 0 -> par i <> None -> comp pe i)); [lia| | |auto].
  - exists (fun i => enc (par i)). split; [exact FP|]. split; [intros i Hi; left; reflexivity|]. intros; lia.
  - intros i Pe1 Hi (pe & FP1 & PI & C). wb. eapply wfa_get; [exact FN|lia|]. cbv beta.
    destruct (Z.eqb_spec (Z.of_nat (nv i)) 0) as [E|E].
    + wb. eapply wfa_get; [exact FP1|lia|].
      assert (Vi : nv i = 0) by lia.
      destruct (par i) as [j|] eqn:P.
      * destruct (R4 i j ltac:(lia) Vi P) as (e & A).
        assert (Ai : ab e i) by (econstructor; eassumption).
        destruct (next_ok pe e i PI ltac:(lia) Vi Ai) as (k & EK & Hk & Ak & _). rewrite EK, nat_not_empty.
        rewrite (find_element_ok Pe1 pe e k FP1 PI Hk Ak). cbn [bind].
        eapply wp_conseq; [apply (compress_path_ok Pe1 pe e i); auto; lia|].
        intros Pe2 (pe2 & FP2 & PI2 & C2 & M2). exists pe2. split; [exact FP2|]. split; [exact PI2|].
        intros x Hx Vx Px. destruct (Nat.eq_dec x i) as [->|NE]; [exact C2|]. apply M2, C; auto. lia.
      * assert (EE : pe i = EMPTY).
        { destruct (PI i ltac:(lia)) as [Q|(_ & e & A & _)]; [rewrite P in Q; exact Q|]. inversion A; subst; [lia|congruence]. }
        rewrite EE. cbn. exists pe. split; [exact FP1|]. split; [exact PI|].
        intros x Hx Vx Px. apply C; auto. assert (x <> i) by congruence. lia.
    + cbn. exists pe. split; [exact FP1|]. split; [exact PI|].
      intros x Hx Vx Px. apply C; auto. assert (x <> i) by (intros ->; lia). lia.
Qed.

(* the compressed parents *)
Variable pe : nat -> Z.
Hypothesis PI : pinv pe.
Hypothesis PC : forall i, i < n -> nv i = 0 -> par i <> None -> comp pe i.

Definition cpar (i : nat) : option nat := if (pe i =? EMPTY)%Z then None else Some (Z.to_nat (pe i)).

Lemma pe_el i : i < n -> 0 < nv i -> pe i = enc (par i).
Proof. intros Hi V. destruct (PI i Hi) as [E|(V' & _)]; [exact E|lia]. Qed.
Lemma pe_dense i : i < n -> nv i = 0 -> (pe i = EMPTY <-> par i = None).
Proof.
  intros Hi V. split.
  - intros E. destruct (par i) as [j|] eqn:P; [exfalso|reflexivity]. destruct (PC i Hi V ltac:(congruence)) as (_ & e & _ & E').
    rewrite E in E'. unfold EMPTY in E'. lia.
  - intros P. destruct (PI i Hi) as [E|(_ & e & A & _)]; [rewrite P in E; exact E|]. inversion A; subst; [lia|congruence].
Qed.
Lemma cpar_el i : i < n -> 0 < nv i -> cpar i = par i.
Proof.
  intros Hi V. unfold cpar. rewrite (pe_el i Hi V), enc_empty. destruct (par i); cbn [enc]; [rewrite Nat2Z.id|]; reflexivity.
Qed.
Lemma cpar_var i e : i < n -> nv i = 0 -> (cpar i = Some e <-> ab e i).
Proof.
  intros Hi V. split.
  - unfold cpar. destruct (Z.eqb_spec (pe i) EMPTY) as [E|E]; [discriminate|]. intros [= <-].
    assert (P : par i <> None) by (intros P; apply E, pe_dense; assumption).
    destruct (PC i Hi V P) as (_ & e & A & ->). rewrite Nat2Z.id. exact A.
  - intros A. assert (P : par i <> None) by (inversion A; subst; [lia|congruence]).
    destruct (PC i Hi V P) as (_ & e' & A' & E). unfold cpar. rewrite E, nat_not_empty, Nat2Z.id. f_equal. eapply ab_fun; eassumption.
Qed.
Lemma pe_cpar i : i < n -> pe i = enc (cpar i).
Proof.
  intros Hi. unfold cpar. destruct (Z.eqb_spec (pe i) EMPTY) as [E|E]; [exact E|]. cbn [enc].
  destruct (PI i Hi) as [Q|(_ & e & _ & Q)]; [|lia]. destruct (par i) as [j|]; cbn [enc] in Q; [lia|contradiction].
Qed.
Lemma cpar_range i j : i < n -> cpar i = Some j -> j < n.
Proof.
  intros Hi P. destruct (Nat.eq_dec (nv i) 0) as [V|V].
  - apply cpar_var in P; auto. apply (ab_range j i P Hi).
  - rewrite cpar_el in P by lia. eauto.
Qed.
Lemma cpar_rank i j : i < n -> cpar i = Some j -> rank i < rank j.
Proof.
  intros Hi P. destruct (Nat.eq_dec (nv i) 0) as [V|V].
  - apply cpar_var in P; auto. apply (ab_range j i P Hi). exact V.
  - rewrite cpar_el in P by lia. eauto.
Qed.
Lemma cpar_elem i j : i < n -> 0 < nv i -> cpar i = Some j -> 0 < nv j.
Proof. intros Hi V P. rewrite cpar_el in P by assumption. eauto. Qed.
Lemma above_cpar r i : i < n -> 0 < nv i -> (above par r i <-> above cpar r i).
Proof.
  intros Hi V. split; intros A; revert Hi V; induction A as [|i k E A IH]; intros Hi V; try constructor.
  - apply above_up with k; [rewrite cpar_el; assumption|]. apply IH; eauto.
  - rewrite cpar_el in E by assumption. apply above_up with k; [exact E|]. apply IH; eauto.
Qed.

(* ------------------------------------------------------- the permutation *)
Variables (o : nat -> nat) (K : nat).
Hypothesis PO : postorder n cpar nv o K.

Definition isx (k x : nat) : bool := (0 <? nv x) && (o x =? k).
Definition invb (m k : nat) : option nat := find (isx k) (seq 0 m).

Lemma find_snoc {A} (f : A -> bool) l x : find f (l ++ [x]) = match find f l with Some y => Some y | None => if f x then Some x else None end.
Proof. induction l as [|y l IH]; cbn; [reflexivity|]. destruct (f y); [reflexivity|exact IH]. Qed.
Lemma isx_iff k x : isx k x = true <-> 0 < nv x /\ o x = k.
Proof. unfold isx. rewrite andb_true_iff, Nat.ltb_lt, Nat.eqb_eq. reflexivity. Qed.
Lemma invb_some m k x : invb m k = Some x -> x < m /\ 0 < nv x /\ o x = k.
Proof. intros E. apply find_some in E. destruct E as [E1 E2]. apply in_seq in E1. apply isx_iff in E2. lia. Qed.
Lemma invb_none m k x : invb m k = None -> x < m -> 0 < nv x -> o x <> k.
Proof.
  intros E Hx V Ho. pose proof (find_none _ _ E x) as N. rewrite in_seq in N. specialize (N ltac:(lia)).
  assert (T : isx k x = true) by (apply isx_iff; auto). congruence.
Qed.
Lemma invb_S m k : m < n -> invb (S m) k = if isx k m then Some m else invb m k.
Proof.
  intros Hm. unfold invb. rewrite seq_S, find_snoc. cbn. destruct (isx k m) eqn:E.
  - destruct (find (isx k) (seq 0 m)) as [y|] eqn:F; [|reflexivity]. apply invb_some in F. apply isx_iff in E.
    destruct PO as (_ & _ & P3 & _). f_equal. apply P3; lia.
  - destruct (find (isx k) (seq 0 m)); reflexivity.
Qed.

Lemma invert_ok W Head :
  (forall i, i < n -> get W i = Some (if 0 <? nv i then Z.of_nat (o i) else EMPTY)) ->
  fa Head n (fun _ => EMPTY) ->
  wp (invert_order n W Head) (fun Head' => fa Head' n (fun k => enc (invb n k))).
Proof.
  intros HW FH. unfold invert_order.
  apply (wp_for (fun m Head => fa Head n (fun k => enc (invb m k)))); [lia|exact FH| |auto].
  intros e Hd He F. wb. eapply wp_get; [apply HW; lia|].
  destruct (Nat.ltb_spec 0 (nv e)) as [V|V].
  - rewrite nat_not_empty. cbn [negb].
    assert (OK : o e < n).
    { destruct PO as (P1 & P2 & P3 & _). pose proof (P1 e ltac:(lia) V) as L.
      assert (K <= n); [|lia].
      assert (X : forall k, k <= K -> exists l, length l = k /\ NoDup l /\ forall x, In x l -> x < n /\ o x < k).
      { induction k as [|k IH]; intros HK; [exists []; repeat split; auto using NoDup_nil; contradiction|].
        destruct (IH ltac:(lia)) as (l & L1 & L2 & L3). destruct (P2 k ltac:(lia)) as (x & X1 & X2 & X3).
        exists (x :: l). split; [cbn; lia|]. split.
        - constructor; [|exact L2]. intros I. apply L3 in I. lia.
        - intros y [<-|I]; [lia|]. apply L3 in I. lia. }
      destruct (X K ltac:(lia)) as (l & L1 & L2 & L3). rewrite <- L1, <- (seq_length n 0).
      apply NoDup_incl_length; [exact L2|]. intros x I. apply in_seq. apply L3 in I. lia. }
    eapply wfa_setn; [exact F|exact OK|]. intros Hd' F'. eapply fa_ext; [exact F'|]. intros k Hk.
    rewrite invb_S by lia. unfold fu, isx. destruct (Nat.eqb_spec k (o e)) as [->|NE].
    + rewrite Nat.eqb_refl. apply Nat.ltb_lt in V. rewrite V. reflexivity.
    + assert (E : (o e =? k) = false) by (apply Nat.eqb_neq; congruence). rewrite E, andb_false_r. reflexivity.
  - change (negb (EMPTY =? EMPTY)%Z) with false. cbv iota. cbn [wp]. eapply fa_ext; [exact F|]. intros k Hk. cbv beta. rewrite invb_S by lia. unfold isx.
    assert (E : (0 <? nv e) = false) by (apply Nat.ltb_ge; exact V). rewrite E. reflexivity.
Qed.

(* the element numbered k *)
Definition ek (k : nat) : nat := match invb n k with Some x => x | None => 0 end.
Lemma ek_ok k : k < K -> invb n k = Some (ek k) /\ ek k < n /\ 0 < nv (ek k) /\ o (ek k) = k.
Proof.
  intros Hk. unfold ek. destruct (invb n k) as [x|] eqn:E.
  - split; [reflexivity|]. apply invb_some in E. exact E.
  - destruct PO as (_ & P2 & _). destruct (P2 k Hk) as (x & X1 & X2 & X3). exfalso. eapply invb_none; eassumption.
Qed.
Lemma ek_o x : x < n -> 0 < nv x -> ek (o x) = x.
Proof.
  intros Hx V. destruct PO as (P1 & _ & P3 & _). destruct (ek_ok (o x) (P1 x Hx V)) as (_ & A & B & C). apply P3; auto.
Qed.
Lemma K_le : K <= n.
Proof.
  assert (X : forall k, k <= K -> NoDup (map ek (seq 0 k))).
  { induction k as [|k IH]; intros Hk; [constructor|]. rewrite seq_S, map_app. apply nodup_app. split; [apply IH; lia|].
    split; [repeat constructor; cbn; tauto|]. intros x Hx. apply in_map_iff in Hx. destruct Hx as (j & <- & J). apply in_seq in J.
    cbn. intros [E|[]]. pose proof (ek_ok k ltac:(lia)) as A. pose proof (ek_ok j ltac:(lia)) as B. rewrite E in A. lia. }
  specialize (X K ltac:(lia)). rewrite <- (seq_length K 0), <- (map_length ek), <- (seq_length n 0).
  apply NoDup_incl_length; [exact X|]. intros x Hx. apply in_map_iff in Hx. destruct Hx as (j & <- & J). apply in_seq in J.
  apply in_seq. pose proof (ek_ok j ltac:(lia)). lia.
Qed.
Lemma invb_beyond k : K <= k -> invb n k = None.
Proof.
  intros Hk. destruct (invb n k) as [x|] eqn:E; [|reflexivity]. apply invb_some in E. destruct PO as (P1 & _).
  pose proof (P1 x ltac:(lia) ltac:(lia)). lia.
Qed.

(* rows that element e stands for, in the order in which they are placed *)
Definition vb (e i : nat) : bool := (nv i =? 0) && (match cpar i with Some f => f =? e | None => false end).
Definition db (i : nat) : bool := (nv i =? 0) && (match cpar i with Some _ => false | None => true end).
Definition block (e : nat) : list nat := filter (vb e) (seq 0 n) ++ [e].
Definition blocks (k : nat) : list nat := flat_map (fun k => block (ek k)) (seq 0 k).
Definition place : list nat := blocks K ++ filter db (seq 0 n).

Lemma vb_iff e i : i < n -> (vb e i = true <-> nv i = 0 /\ ab e i).
Proof.
  intros Hi. unfold vb. rewrite andb_true_iff, Nat.eqb_eq. split; intros [V H]; (split; [exact V|]).
  - destruct (cpar i) as [f|] eqn:E; [|discriminate]. apply Nat.eqb_eq in H. subst f. apply cpar_var; assumption.
  - apply cpar_var in H; auto. rewrite H. apply Nat.eqb_refl.
Qed.
Lemma db_iff i : i < n -> (db i = true <-> nv i = 0 /\ par i = None).
Proof.
  intros Hi. unfold db. rewrite andb_true_iff, Nat.eqb_eq. split; intros [V H]; (split; [exact V|]).
  - apply pe_dense; auto. unfold cpar in H. destruct (Z.eqb_spec (pe i) EMPTY); [assumption|discriminate].
  - apply pe_dense in H; auto. unfold cpar. rewrite H. reflexivity.
Qed.
Lemma in_block e i : e < n -> 0 < nv e -> (In i (block e) <-> i < n /\ ab e i).
Proof.
  intros He Ve. unfold block. rewrite in_app_iff, filter_In, in_seq. cbn. split.
  - intros [[H1 H2]|[<-|[]]].
    + split; [lia|]. apply vb_iff in H2; [apply H2|lia].
    + split; [exact He|constructor; exact Ve].
  - intros [Hi A]. destruct (Nat.eq_dec (nv i) 0) as [V|V].
    + left. split; [lia|]. apply vb_iff; auto.
    + right. left. apply ab_el; [exact A|lia].
Qed.
Lemma nodup_block e : 0 < nv e -> NoDup (block e).
Proof.
  intros Ve. apply nodup_app. split; [apply NoDup_filter, seq_NoDup|]. split; [repeat constructor; cbn; tauto|].
  intros x Hx [<-|[]]. apply filter_In in Hx. destruct Hx as [H1 H2]. apply in_seq in H1. apply vb_iff in H2; lia.
Qed.
Lemma block_length e : e < n -> 0 < nv e -> length (block e) = nv e.
Proof.
  intros He Ve. destruct (R5 e He Ve) as (l & L1 & L2 & <-). apply Nat.le_antisymm; apply NoDup_incl_length; auto using nodup_block;
    intros x Hx; [apply L2, in_block|apply in_block, L2]; assumption.
Qed.

Definition start (k : nat) : nat := length (blocks k).
Lemma blocks_S k : blocks (S k) = blocks k ++ block (ek k).
Proof. unfold blocks. rewrite seq_S, flat_map_app. cbn. rewrite app_nil_r. reflexivity. Qed.
Lemma start_S k : k < K -> start (S k) = start k + nv (ek k).
Proof. intros Hk. unfold start. rewrite blocks_S, app_length, block_length; [reflexivity| |]; apply ek_ok; exact Hk. Qed.
Lemma start_mono j k : j <= k -> start j <= start k.
Proof. induction 1 as [|k H IH]; [lia|]. unfold start in *. rewrite blocks_S, app_length. lia. Qed.

Lemma in_blocks k i : k <= K -> (In i (blocks k) <-> i < n /\ exists e, e < n /\ 0 < nv e /\ o e < k /\ ab e i).
Proof.
  intros Hk. unfold blocks. rewrite in_flat_map. split.
  - intros (j & J & I). apply in_seq in J. destruct (ek_ok j ltac:(lia)) as (_ & A & B & C). apply in_block in I; auto.
    split; [apply I|]. exists (ek j). repeat split; auto; [lia|apply I].
  - intros (Hi & e & He & Ve & Oe & A). exists (o e). split; [apply in_seq; lia|]. rewrite ek_o by assumption. apply in_block; auto.
Qed.
Lemma nodup_place : NoDup place.
Proof.
  apply nodup_app. split; [|split; [apply NoDup_filter, seq_NoDup|]].
  - assert (X : forall k, k <= K -> NoDup (blocks k)); [|apply X; lia].
    induction k as [|k IH]; intros Hk; [constructor|]. rewrite blocks_S. apply nodup_app. split; [apply IH; lia|].
    destruct (ek_ok k ltac:(lia)) as (_ & A & B & C). split; [apply nodup_block; exact B|].
    intros x Hx Hy. apply in_blocks in Hx; [|lia]. destruct Hx as (_ & e & E1 & E2 & E3 & E4). apply in_block in Hy; auto.
    assert (E : e = ek k) by (eapply ab_fun; [exact E4|apply Hy]). rewrite E in E3. lia.
  - intros x Hx Hy. apply in_blocks in Hx; [|lia]. destruct Hx as (Hx & e & E1 & E2 & E3 & E4).
    apply filter_In in Hy. destruct Hy as [_ Hy]. apply db_iff in Hy; auto. inversion E4; subst; [lia|]. destruct Hy. congruence.
Qed.
Lemma place_le : length place <= n.
Proof.
  rewrite <- (seq_length n 0). apply NoDup_incl_length; [apply nodup_place|]. intros x Hx. apply in_seq.
  apply in_app_or in Hx. destruct Hx as [Hx|Hx]; [apply in_blocks in Hx; lia|]. apply filter_In in Hx. destruct Hx as [Hx _]. apply in_seq in Hx. exact Hx.
Qed.

Lemma nth_filter (f : nat -> bool) x : x < n -> f x = true ->
  nth_error (filter f (seq 0 n)) (length (filter f (seq 0 x))) = Some x.
Proof.
  clear. intros Hx F. replace n with (x + S (n - S x)) by lia. rewrite seq_app, filter_app, nth_error_app2 by lia.
  rewrite Nat.sub_diag. cbn. rewrite F. reflexivity.
Qed.
Lemma filter_le (f : nat -> bool) x : x < n -> f x = true -> length (filter f (seq 0 x)) < length (filter f (seq 0 n)).
Proof. intros Hx F. apply nth_error_Some. rewrite nth_filter by assumption. discriminate. Qed.

(* the position given to row i *)
Definition nx (i : nat) : nat :=
  if 0 <? nv i then start (o i) + length (filter (vb i) (seq 0 n))
  else match cpar i with
       | Some e => start (o e) + length (filter (vb e) (seq 0 i))
       | None => start K + length (filter db (seq 0 i))
       end.

Lemma nth_block k t x : k < K -> nth_error (block (ek k)) t = Some x -> nth_error place (start k + t) = Some x.
Proof.
  intros Hk N. assert (T : t < length (block (ek k))) by (apply nth_error_Some; congruence).
  pose proof (start_mono (S k) K ltac:(lia)) as M. unfold start in *. rewrite blocks_S, app_length in M.
  unfold place. rewrite nth_error_app1 by lia.
  assert (X : forall m, m <= K -> S k <= m -> nth_error (blocks m) (length (blocks k) + t) = Some x); [|apply X; lia].
  induction m as [|m IH]; intros Hm Hkm; [lia|]. rewrite blocks_S. destruct (Nat.eq_dec k m) as [<-|NE].
  - rewrite nth_error_app2 by lia. replace (length (blocks k) + t - length (blocks k)) with t by lia. exact N.
  - pose proof (start_mono (S k) m ltac:(lia)) as M'. unfold start in M'. rewrite blocks_S, app_length in M'.
    rewrite nth_error_app1 by lia. apply IH; lia.
Qed.
Lemma nth_place i : i < n -> nth_error place (nx i) = Some i.
Proof.
  intros Hi. destruct PO as (P1 & _). unfold nx. destruct (Nat.ltb_spec 0 (nv i)) as [V|V].
  - apply nth_block; [apply P1; assumption|]. rewrite ek_o by assumption. unfold block.
    rewrite nth_error_app2 by lia. rewrite Nat.sub_diag. reflexivity.
  - destruct (cpar i) as [e|] eqn:C.
    + assert (A : ab e i) by (apply cpar_var; auto; lia). destruct (ab_range e i A Hi) as (He & _). pose proof (ab_pos e i A) as Ve.
      apply nth_block; [apply P1; assumption|]. rewrite ek_o by assumption. unfold block.
      assert (B : vb e i = true) by (apply vb_iff; auto; split; [lia|exact A]).
      rewrite nth_error_app1 by (apply filter_le; assumption). apply nth_filter; assumption.
    + unfold place, start. rewrite nth_error_app2 by lia.
      replace (length (blocks K) + length (filter db (seq 0 i)) - length (blocks K)) with (length (filter db (seq 0 i))) by lia.
      apply nth_filter; [exact Hi|]. unfold db. rewrite C. replace (nv i) with 0 by lia. reflexivity.
Qed.

Lemma nx_order : elimination_order n par nv nx.
Proof.
  destruct PO as (P1 & P2 & P3 & P4). constructor.
  - intros i Hi. pose proof place_le. assert (nx i < length place); [|lia]. apply nth_error_Some. rewrite nth_place by exact Hi. discriminate.
  - intros i j Hi Hj E. pose proof (nth_place i Hi) as A. pose proof (nth_place j Hj) as B. rewrite E in A. congruence.
  - intros e i He Hi A. pose proof (ab_pos e i A) as Ve. pose proof (block_length e He Ve) as BL. unfold block in BL. rewrite app_length in BL. cbn in BL.
    unfold nx. apply Nat.ltb_lt in Ve as Vb. rewrite Vb. destruct (Nat.ltb_spec 0 (nv i)) as [V|V].
    + apply ab_el in A; [subst i|exact V]. lia.
    + assert (C : cpar i = Some e) by (apply cpar_var; auto; lia). rewrite C.
      assert (B : vb e i = true) by (apply vb_iff; auto; split; [lia|exact A]). pose proof (filter_le (vb e) i Hi B). lia.
  - intros e f He Ve P. assert (Hf : f < n) by eauto. assert (Vf : 0 < nv f) by eauto.
    destruct (P4 f Hf Vf) as (first & F). assert (A : above cpar f e).
    { apply above_cpar; auto. eapply above_up; [exact P|constructor]. }
    apply F in A; auto. assert (NE : o e <> o f) by (intros E; apply P3 in E; auto; subst f; pose proof (R2 e e He P); lia).
    pose proof (start_mono (S (o e)) (o f) ltac:(lia)) as M. rewrite start_S, ek_o in M by auto.
    pose proof (block_length e He Ve) as BL. unfold block in BL. rewrite app_length in BL. cbn in BL.
    unfold nx. apply Nat.ltb_lt in Ve as Vb. rewrite Vb. apply Nat.ltb_lt in Vf as Vc. rewrite Vc. lia.
  - intros i j Hi Hj Vi Pi N.
    assert (A : start K <= nx i).
    { assert (C : cpar i = None) by (unfold cpar; apply pe_dense in Pi; auto; rewrite Pi; reflexivity).
      unfold nx. rewrite C, Vi. cbn. lia. }
    assert (B : nx j < start K); [|lia].
    assert (G : exists e, e < n /\ ab e j).
    { destruct (Nat.eq_dec (nv j) 0) as [V|V].
      - destruct (par j) as [k|] eqn:P; [|exfalso; auto]. destruct (R4 j k Hj V P) as (e & A').
        assert (A2 : ab e j) by (econstructor; eassumption). exists e. split; [apply (ab_range e j A2 Hj)|exact A2].
      - exists j. split; [exact Hj|constructor; lia]. }
    destruct G as (e & He & Ae). pose proof (ab_pos e j Ae) as Ve.
    pose proof (start_mono (S (o e)) K ltac:(apply P1; auto)) as M. rewrite start_S, ek_o in M by auto.
    pose proof (block_length e He Ve) as BL. unfold block in BL. rewrite app_length in BL. cbn in BL.
    unfold nx. destruct (Nat.ltb_spec 0 (nv j)) as [V|V].
    + apply ab_el in Ae; [subst j|exact V]. lia.
    + assert (C : cpar j = Some e) by (apply cpar_var; auto; lia). rewrite C.
      assert (Bv : vb e j = true) by (apply vb_iff; auto; split; [lia|exact Ae]). pose proof (filter_le (vb e) j Hj Bv). lia.
Qed.

(* ------------------------------------------------------------ the loops *)
Lemma place_elements_ok Head c k Next f nel : k + c = n ->
  fa Head n (fun k => enc (invb n k)) -> fa Next n f -> nel = Z.of_nat (start (Nat.min k K)) ->
  (forall e, e < n -> 0 < nv e -> o e < k -> f e = Z.of_nat (start (o e))) ->
  wp (place_elements k c Head Nv Next nel) (fun '(Next', nel') => nel' = Z.of_nat (start K) /\
    exists g, fa Next' n g /\ forall e, e < n -> 0 < nv e -> g e = Z.of_nat (start (o e))).
Proof.
  intros E FH. revert k Next f nel E. induction c as [|c IH]; intros k Next f nel E FX EN FE; cbn [place_elements].
  - cbn. pose proof K_le. destruct PO as (P1 & _). replace (Nat.min k K) with K in EN by lia. split; [exact EN|].
    exists f. split; [exact FX|]. intros e He Ve. apply FE; auto. pose proof (P1 e He Ve). lia.
  - wb. eapply wfa_get; [exact FH|lia|]. cbv beta. destruct (Nat.lt_ge_cases k K) as [Hk|Hk].
    + destruct (ek_ok k Hk) as (-> & E1 & E2 & E3). cbn [enc]. rewrite nat_not_empty.
      wb. eapply wfa_setn; [exact FX|exact E1|]. intros Next' FX'. wb. eapply wfa_getn; [exact FN|exact E1|].
      eapply IH; [lia|exact FX'| |].
      * replace (Nat.min (S k) K) with (S k) by lia. rewrite start_S by exact Hk. replace (Nat.min k K) with k in EN by lia. lia.
      * intros e He Ve Oe. destruct (Nat.eq_dec e (ek k)) as [->|NE].
        -- rewrite fu_eq, E3. replace (Nat.min k K) with k in EN by lia. exact EN.
        -- rewrite fu_ne by exact NE. apply FE; auto. destruct (Nat.eq_dec (o e) k) as [Q|Q]; [|lia].
           exfalso. apply NE. rewrite <- Q. symmetry. apply ek_o; auto.
    + rewrite invb_beyond by exact Hk. cbn. destruct PO as (P1 & _). replace (Nat.min k K) with K in EN by lia. split; [exact EN|].
      exists f. split; [exact FX|]. intros e He Ve. apply FE; auto. pose proof (P1 e He Ve). lia.
Qed.

Lemma filter_S (f : nat -> bool) i : length (filter f (seq 0 (S i))) = length (filter f (seq 0 i)) + (if f i then 1 else 0).
Proof. rewrite seq_S, filter_app, app_length. cbn. destruct (f i); reflexivity. Qed.

Lemma place_variables_ok Pe Next g : fa Pe n pe -> fa Next n g ->
  (forall e, e < n -> 0 < nv e -> g e = Z.of_nat (start (o e))) ->
  wp (place_variables n Nv Pe (Next, Z.of_nat (start K))) (fun '(Next', _) => fa Next' n (fun i => Z.of_nat (nx i))).
Proof.
  intros FP FX G. unfold place_variables.
  eapply wp_conseq.
  - apply (wp_for (fun m '(Next, nel) => nel = Z.of_nat (start K + length (filter db (seq 0 m))) /\
      exists g, fa Next n g /\ (forall x, x < m -> nv x = 0 -> g x = Z.of_nat (nx x)) /\
        (forall e, e < n -> 0 < nv e -> g e = Z.of_nat (start (o e) + length (filter (vb e) (seq 0 m)))))).
    + lia.
    + split; [cbn; lia|]. exists g. split; [exact FX|]. split; [lia|]. intros e He Ve. cbn. rewrite Nat.add_0_r. auto.
    + clear g FX G Next. intros i [Next nel] Hi (-> & g & FX & GV & GE). wb. eapply wfa_get; [exact FN|lia|]. cbv beta.
      destruct (Z.eqb_spec (Z.of_nat (nv i)) 0) as [V|V].
      * assert (Vi : nv i = 0) by lia. wb. eapply wfa_get; [exact FP|lia|]. rewrite (pe_cpar i) by lia.
        destruct (cpar i) as [e|] eqn:C; cbn [enc].
        -- rewrite nat_not_empty. cbn [negb]. assert (A : ab e i) by (apply cpar_var; auto; lia).
           destruct (ab_range e i A ltac:(lia)) as (He & _). pose proof (ab_pos e i A) as Ve.
           assert (NE : i <> e) by (intros ->; lia).
           wb. eapply wfa_getn; [exact FX|exact He|]. wb. eapply wfa_set; [exact FX|lia|]. intros N1 F1.
           wb. eapply wfa_setn; [exact F1|exact He|]. intros N2 F2. cbn [wp].
           assert (DI : db i = false) by (unfold db; rewrite C, andb_false_r; reflexivity).
           split; [rewrite filter_S, DI; f_equal; lia|].
           eexists. split; [exact F2|]. split.
           ++ intros x Hx Vx. rewrite fu_ne by (intros ->; lia). destruct (Nat.eq_dec x i) as [->|NX].
              ** rewrite fu_eq, GE by auto. unfold nx. rewrite Vi, C. reflexivity.
              ** rewrite fu_ne by exact NX. apply GV; [lia|exact Vx].
           ++ intros f Hf Vf. rewrite filter_S. destruct (Nat.eq_dec f e) as [->|NF].
              ** rewrite fu_eq, GE by auto. assert (B : vb e i = true) by (apply vb_iff; auto; lia). rewrite B. lia.
              ** rewrite !fu_ne by (try exact NF; intros ->; lia). rewrite GE by auto.
                 assert (B : vb f i = false) by (unfold vb; rewrite C; rewrite Vi; cbn; apply Nat.eqb_neq; congruence). rewrite B. lia.
        -- change (negb (EMPTY =? EMPTY)%Z) with false. cbv iota. wb. eapply wfa_set; [exact FX|lia|]. intros N1 F1. cbn [wp].
           assert (DI : db i = true) by (unfold db; rewrite C, Vi; reflexivity).
           split; [rewrite filter_S, DI; lia|]. eexists. split; [exact F1|]. split.
           ++ intros x Hx Vx. destruct (Nat.eq_dec x i) as [->|NX].
              ** rewrite fu_eq. unfold nx. rewrite Vi, C. reflexivity.
              ** rewrite fu_ne by exact NX. apply GV; [lia|exact Vx].
           ++ intros f Hf Vf. rewrite fu_ne by (intros ->; lia). rewrite GE by auto. rewrite filter_S.
              assert (B : vb f i = false) by (unfold vb; rewrite C, andb_false_r; reflexivity). rewrite B. f_equal. lia.
      * cbn [wp]. assert (DI : db i = false) by (unfold db; replace (nv i =? 0) with false by (symmetry; apply Nat.eqb_neq; lia); reflexivity).
        split; [rewrite (filter_S db), DI; f_equal; lia|]. exists g. split; [exact FX|]. split.
        -- intros x Hx Vx. apply GV; [|exact Vx]. assert (x <> i) by (intros ->; lia). lia.
        -- intros f Hf Vf. rewrite GE by auto. rewrite (filter_S (vb f)).
           assert (B : vb f i = false) by (unfold vb; replace (nv i =? 0) with false by (symmetry; apply Nat.eqb_neq; lia); reflexivity).
           rewrite B. f_equal. lia.
    + intros s H. exact H.
  - intros [Next' nel'] (_ & g' & FX' & GV & GE). eapply fa_ext; [exact FX'|]. intros i Hi. cbv beta.
    destruct (Nat.eq_dec (nv i) 0) as [V|V]; [apply GV; auto|]. rewrite GE by lia. unfold nx.
    destruct (Nat.ltb_spec 0 (nv i)); [reflexivity|lia].
Qed.

Lemma last_ok Next Last : fa Next n (fun i => Z.of_nat (nx i)) -> length Last = n ->
  wp (for_ 0 n (fun i Last => k <- get Next i ;; setz Last k (Z.of_nat i)) Last)
     (fun L => length L = n /\ forall i, i < n -> get L (nx i) = Some (Z.of_nat i)).
Proof.
  intros FX LL. destruct nx_order as [N1 N2 _ _ _].
  apply (wp_for (fun m L => length L = n /\ forall i, i < m -> get L (nx i) = Some (Z.of_nat i))); [lia|split; [exact LL|lia]| |auto].
  intros i L Hi [HL HG]. wb. eapply wfa_get; [exact FX|lia|]. apply wp_setn; [rewrite HL; apply N1; lia|].
  intros L' HL' G'. split; [lia|]. intros x Hx. rewrite G'. destruct (Nat.eqb_spec (nx x) (nx i)) as [E|E].
  - apply N2 in E; [subst; reflexivity|lia|lia].
  - apply HG. assert (x <> i) by congruence. lia.
Qed.
End Finish.

Lemma FLIP_FLIP z : FLIP (FLIP z) = z.
Proof. unfold FLIP. lia. Qed.

Theorem amd2_finish_ok n par nv Pe Nv Elen W Head Next Last el :
  forest n par nv ->
  fa Pe n (fun i => FLIP (enc (par i))) -> fa Nv n (fun i => Z.of_nat (nv i)) -> fa Elen n el ->
  (forall e, e < n -> 0 < nv e -> (el e <= -1)%Z) ->
  length W = n -> length Head = n -> length Next = n -> length Last = n ->
  wp (amd2_finish n Pe Nv Elen W Head Next Last) (fun '(Next', Last') =>
    exists nx, elimination_order n par nv nx /\ fa Next' n (fun i => Z.of_nat (nx i)) /\
      length Last' = n /\ forall i, i < n -> get Last' (nx i) = Some (Z.of_nat i)).
Proof.
  intros FO FP FN FE HE LW LH LX LL. destruct FO as [R1 [rank R2] R3 R4 R5]. unfold amd2_finish.
  wb. eapply wp_conseq; [apply (wfa_map Pe n _ FLIP FP)|]. intros Pe1 FP1.
  assert (FP1' : fa Pe1 n (fun i => enc (par i))) by (eapply fa_ext; [exact FP1|]; intros; apply FLIP_FLIP).
  wb. eapply wp_conseq; [apply (wfa_map Elen n _ FLIP FE)|]. intros El1 FE1.
  wb. eapply wp_conseq; [apply (compress_ok n par nv rank R1 R2 R4 Nv FN Pe1 FP1')|]. intros Pe2 (pe & FP2 & PI & PC).
  assert (FP2' : fa Pe2 n (fun i => enc (cpar pe i))).
  { eapply fa_ext; [exact FP2|]. intros i Hi. eapply pe_cpar; eassumption. }
  wb. eapply wp_conseq.
  { apply (AMD_postorder_run n (cpar pe) nv rank Pe2 Nv El1 W Head Next Last (fun i => Z.of_nat (nv i)) (fun i => FLIP (el i))); auto.
    - intros i j. eapply cpar_range; eassumption.
    - intros i j. eapply cpar_rank; eassumption.
    - intros i j. eapply cpar_elem; eassumption.
    - intros i Hi Vi. specialize (HE i Hi Vi). unfold FLIP. lia. }
  intros W1 (o & K & HW & LW1 & PO & _).
  wb. eapply wp_conseq; [apply (wfa_fill2 Head Next n (fun _ => EMPTY) (fun _ => EMPTY) LH LX)|]. intros [Hd1 Nx1] [FH1 FX1].
  wb. eapply wp_conseq; [eapply invert_ok; eassumption|]. intros Hd2 FH2.
  wb. eapply wp_conseq.
  { eapply place_elements_ok with (K := K) (c := n) (k := 0); try eassumption; [lia|reflexivity|lia]. }
  intros [Nx2 nel] (-> & g & FX2 & G).
  wb. eapply wp_conseq; [eapply (place_variables_ok n par nv rank); eassumption|]. intros [Nx3 nel'] FX3.
  wb. eapply wp_conseq; [eapply (last_ok n par nv rank); eassumption|]. intros L2 [HL2 G2]. cbn [wp].
  eexists. split; [eapply (nx_order n par nv rank); eassumption|]. auto.
Qed.
