(* AMD_post_tree: the explicit stack visits a tree in postorder *)
From Coq Require Import List Arith ZArith Bool Lia Permutation.
From Verif Require Import Base.
From Verif.Model Require Import Amd.
From Verif.Spec Require Import Ordering.
From Verif.Proofs Require Import AmdB AmdL.
Import ListNotations.
Open Scope nat_scope.

Lemma while_more {T} (test : T -> option bool) body : forall F s (Q : T -> Prop),
  wp (while_ F test body s) Q -> wp (while_ (S F) test body s) Q.
Proof.
  induction F as [|F IHF]; intros s Q W; [destruct W|].
  cbn [while_] in W. remember (S F) as F1 eqn:EF. cbn [while_]. destruct (test s) as [b|]; [|destruct W]. cbn [bind] in *. destruct b; [|exact W].
  destruct (body s) as [s'|]; [|destruct W]. cbn [bind] in *. subst F1. apply IHF. exact W.
Qed.

Lemma nodup_app {A} (l1 l2 : list A) : NoDup (l1 ++ l2) <-> NoDup l1 /\ NoDup l2 /\ forall x, In x l1 -> ~ In x l2.
Proof.
  induction l1 as [|y l1 IH]; cbn.
  - split; [intros H; repeat split; auto using NoDup_nil|tauto].
  - rewrite !NoDup_cons_iff, IH, in_app_iff. split.
    + intros (A1 & A2 & A3 & A4). repeat split; auto. intros x [->|Hx]; auto.
    + intros ((A1 & A2) & A3 & A4). repeat split; auto. intros [H|H]; [auto|]. apply (A4 y); auto.
Qed.

Section Post.
Variables (kd : nat -> list nat) (rank : nat -> nat).
Hypothesis rk : forall i x, In x (kd i) -> rank x < rank i.

Fixpoint post' (d i : nat) : list nat :=
  match d with O => [] | S d => flat_map (post' d) (kd i) ++ [i] end.
Definition post (i : nat) : list nat := post' (S (rank i)) i.

Lemma flat_map_ext_in {A B} (f g : A -> list B) l : (forall x, In x l -> f x = g x) -> flat_map f l = flat_map g l.
Proof.
  induction l as [|x l IH]; intros H; [reflexivity|]. cbn. rewrite H, IH; auto.
  - intros y Hy. apply H. right. exact Hy.
  - left. reflexivity.
Qed.
Lemma post'_irrel : forall d i d', rank i < d -> rank i < d' -> post' d i = post' d' i.
Proof.
  induction d as [|d IH]; intros i d' H H'; [lia|]. destruct d' as [|d']; [lia|]. cbn. f_equal.
  apply flat_map_ext_in. intros x Hx. apply rk in Hx. apply IH; lia.
Qed.
Lemma post_unfold i : post i = flat_map post (kd i) ++ [i].
Proof.
  unfold post at 1. cbn [post']. f_equal. apply flat_map_ext_in. intros x Hx. apply rk in Hx.
  apply post'_irrel; lia.
Qed.

Lemma post_ind (P : nat -> Prop) : (forall i, (forall x, In x (kd i) -> P x) -> P i) -> forall i, P i.
Proof.
  intros H i. remember (rank i) as r eqn:E. revert i E.
  induction r as [r IH] using lt_wf_ind. intros i ->. apply H. intros x Hx. apply rk in Hx. eapply IH; [exact Hx|reflexivity].
Qed.

Local Opaque post.
Lemma flat_len l : length l <= length (flat_map post l).
Proof. induction l as [|x l IHl]; [cbn; lia|]. cbn [flat_map length]. rewrite app_length, post_unfold, app_length. cbn [length]. lia. Qed.

(* loops over a child list *)
Variables (nn : nat) (Sibling : arr Z) (sb : nat -> Z).
Hypothesis FS : fa Sibling nn sb.

Lemma count_children_ok fuel h l head : lk sb h l -> (forall x, In x l -> x < nn) -> length l < fuel ->
  count_children fuel Sibling h head = Some (head + Z.of_nat (length l))%Z.
Proof.
  intros L R FU. unfold count_children.
  assert (W : wp (while_ fuel (fun '(f, _) => Some (negb (f =? EMPTY)%Z))
     (fun '(f, head) => f' <- getz Sibling f ;; Some (f', (head + 1)%Z)) (h, head))
     (fun '(_, hd) => hd = (head + Z.of_nat (length l))%Z)).
  { apply (wp_walk (fun dn rest '(f, hd) => l = dn ++ rest /\ lk sb f rest /\ hd = (head + Z.of_nat (length dn))%Z)) with (dn := @nil nat) (rest := l).
    - intros dn [f hd] (E & LK & EH). cbn in LK. subst f. split; [reflexivity|]. rewrite app_nil_r in E. subst. reflexivity.
    - intros dn x rest [f hd] (E & LK & EH). destruct LK as [-> LK]. rewrite nat_not_empty. split; [reflexivity|].
      wb. eapply wfa_getn; [exact FS|apply R; rewrite E; apply in_or_app; right; left; reflexivity|]. cbn.
      split; [rewrite <- app_assoc; exact E|]. split; [exact LK|]. rewrite app_length. cbn. lia.
    - split; [reflexivity|]. split; [exact L|]. cbn. lia.
    - exact FU. }
  apply wp_elim in W. destruct W as ([f hd] & -> & ->). reflexivity.
Qed.

Lemma push_children_ok fuel h l (top : nat) Stack : lk sb h l -> (forall x, In x l -> x < nn) -> length l < fuel ->
  length l <= top -> top < length Stack ->
  wp (push_children fuel Sibling h (Z.of_nat top) Stack) (fun St => length St = length Stack /\
    (forall t x, nth_error l t = Some x -> get St (top - t) = Some (Z.of_nat x)) /\
    (forall p, p <= top - length l -> get St p = get Stack p)).
Proof.
  intros L R FU LT TS. unfold push_children. wb.
  apply (wp_walk (fun dn rest '(f, h, St) => l = dn ++ rest /\ lk sb f rest /\ h = (Z.of_nat top - Z.of_nat (length dn))%Z /\
     length St = length Stack /\
     (forall t x, nth_error dn t = Some x -> get St (top - t) = Some (Z.of_nat x)) /\
     (forall p, p <= top - length l -> get St p = get Stack p))) with (dn := @nil nat) (rest := l).
  - intros dn [[f h'] St] (E & LK & EH & LS & G1 & G2). cbn in LK. subst f. split; [reflexivity|].
    rewrite app_nil_r in E. subst dn. cbn. auto.
  - intros dn x rest [[f h'] St] (E & LK & EH & LS & G1 & G2). destruct LK as [-> LK]. rewrite nat_not_empty. split; [reflexivity|].
    assert (LL : length l = length dn + S (length rest)) by (rewrite E, app_length; reflexivity).
    assert (EQ : h' = Z.of_nat (top - length dn)) by lia. rewrite EQ.
    wb. eapply wp_setn; [lia|]. intros St' LS' GS'.
    wb. eapply wfa_getn; [exact FS|apply R; rewrite E; apply in_or_app; right; left; reflexivity|]. cbn.
    split; [rewrite <- app_assoc; exact E|]. split; [exact LK|]. split; [rewrite app_length; cbn; lia|]. split; [lia|]. split.
    + intros t y Ht. rewrite GS'. destruct (Nat.lt_ge_cases t (length dn)) as [Lt|Ge].
      * rewrite nth_error_app1 in Ht by exact Lt. destruct (Nat.eqb_spec (top - t) (top - length dn)); [lia|]. apply G1. exact Ht.
      * rewrite nth_error_app2 in Ht by exact Ge. destruct (t - length dn) as [|u] eqn:ET; cbn in Ht; [|destruct u; discriminate].
        injection Ht as <-. assert (t = length dn) by lia. subst t. rewrite Nat.eqb_refl. reflexivity.
    + intros p Hp. rewrite GS'. destruct (Nat.eqb_spec p (top - length dn)); [lia|]. apply G2. exact Hp.
  - split; [reflexivity|]. split; [exact L|]. split; [cbn; lia|]. split; [reflexivity|]. split.
    + intros [|t] x Ht; discriminate.
    + reflexivity.
  - exact FU.
Qed.

(* ------------------------------------------------------------- the stack *)
Variables (fuel : nat).
Hypothesis kd_nodup : forall i, NoDup (post i).
Hypothesis kd_range : forall i, i < nn -> forall x, In x (kd i) -> x < nn.
Hypothesis kd_fuel : forall i, i < nn -> length (kd i) < fuel.

Definition tst := (Z * Z * arr Z * arr Z * arr Z)%type.
Definition tloop (F : nat) (s : tst) : option tst :=
  while_ F (fun '(head, _, _, _, _) => Some (0 <=? head)%Z) (post_step fuel Sibling) s.

Lemma tloop_step F s Q : (let '(head, _, _, _, _) := s in (0 <= head)%Z) ->
  wp (post_step fuel Sibling s) (fun s' => wp (tloop F s') Q) -> wp (tloop (S F) s) Q.
Proof.
  destruct s as [[[[head k] C] O] St]. intros Hh H. unfold tloop. cbn [while_ bind].
  destruct (Z.leb_spec 0 head); [|lia]. wb. exact H.
Qed.

(* after the subtrees of the nodes l have been ordered *)
Definition done (l : list nat) (k : nat) (c o : nat -> Z) (c' o' : nat -> Z) : Prop :=
  (forall x, ~ In x l -> c' x = c x) /\ (forall x, ~ In x l -> o' x = o x) /\
  (forall t x, nth_error l t = Some x -> o' x = Z.of_nat (k + t)).

Lemma done_nil k c o : done [] k c o c o.
Proof. split; [auto|]. split; [auto|]. intros [|t] x; discriminate. Qed.
Lemma done_app l1 l2 k c o c1 o1 c2 o2 : NoDup (l1 ++ l2) ->
  done l1 k c o c1 o1 -> done l2 (k + length l1) c1 o1 c2 o2 -> done (l1 ++ l2) k c o c2 o2.
Proof.
  intros ND (A1 & A2 & A3) (B1 & B2 & B3). split; [|split].
  - intros x Hx. rewrite B1, A1; [reflexivity| |]; intros I; apply Hx; apply in_or_app; auto.
  - intros x Hx. rewrite B2, A2; [reflexivity| |]; intros I; apply Hx; apply in_or_app; auto.
  - intros t x Ht. destruct (Nat.lt_ge_cases t (length l1)) as [L|L].
    + rewrite nth_error_app1 in Ht by exact L. rewrite B2; [apply A3; exact Ht|].
      intros I2. apply nth_error_In in Ht. clear - ND Ht I2.
      induction l1 as [|y l1 IH]; [destruct Ht|]. cbn in ND. inversion ND; subst. destruct Ht as [->|Ht]; [|auto].
      apply H1. apply in_or_app. right. exact I2.
    + rewrite nth_error_app2 in Ht by exact L. rewrite (B3 _ _ Ht). f_equal. lia.
Qed.

Lemma run_node : forall i, i < nn -> forall F head k C O St c o Q,
  fa C nn c -> fa O nn o -> length St = nn -> get St head = Some (Z.of_nat i) ->
  head + length (post i) <= nn ->
  (forall x, In x (post i) -> lk sb (c x) (kd x)) ->
  (forall C' O' St' c' o', fa C' nn c' -> fa O' nn o' -> length St' = nn ->
     (forall p, p < head -> get St' p = get St p) ->
     done (post i) k c o c' o' ->
     wp (tloop F (Z.of_nat head - 1, Z.of_nat (k + length (post i)), C', O', St')%Z) Q) ->
  wp (tloop (2 * length (post i) + F) (Z.of_nat head, Z.of_nat k, C, O, St)) Q.
Proof.
  intros i. induction i as [i IH] using post_ind. intros Hi F head k C O St c o Q FC FO LS GS HB LK K.
  pose proof (post_unfold i) as PU.
  assert (LP : length (post i) = S (length (flat_map post (kd i)))) by (rewrite PU, app_length; cbn; lia).
  assert (II : In i (post i)) by (rewrite PU; apply in_or_app; right; left; reflexivity).
  assert (KI : forall x, In x (kd i) -> In x (post i)).
  { intros x Hx. rewrite PU. apply in_or_app. left. apply in_flat_map. exists x. split; [exact Hx|].
    rewrite post_unfold. apply in_or_app. right. left. reflexivity. }
  (* popping i once its child list is empty *)
  assert (POP : forall F' k' C1 O1 St1 c1 o1, fa C1 nn c1 -> fa O1 nn o1 -> length St1 = nn -> get St1 head = Some (Z.of_nat i) ->
     c1 i = EMPTY -> (forall p, p < head -> get St1 p = get St p) ->
     (forall C' O' St' c' o', fa C' nn c' -> fa O' nn o' -> length St' = nn ->
       (forall p, p < head -> get St' p = get St p) -> done [i] k' c1 o1 c' o' ->
       wp (tloop F' (Z.of_nat head - 1, Z.of_nat (k' + 1), C', O', St')%Z) Q) ->
     wp (tloop (S F') (Z.of_nat head, Z.of_nat k', C1, O1, St1)) Q).
  { intros F' k' C1 O1 St1 c1 o1 FC1 FO1 LS1 GS1 E1 G1 K1. apply tloop_step; [lia|]. cbn [post_step].
    wb. apply wp_getz with (v := Z.of_nat i); [lia|rewrite Nat2Z.id; exact GS1|].
    wb. eapply wfa_getn; [exact FC1|exact Hi|]. rewrite E1. cbn [Z.eqb negb EMPTY].
    change (negb (EMPTY =? EMPTY)%Z) with false. cbv iota.
    wb. eapply wfa_setn; [exact FO1|exact Hi|]. intros O2 FO2. cbn [wp].
    replace (Z.of_nat k' + 1)%Z with (Z.of_nat (k' + 1)) by lia.
    apply (K1 C1 O2 St1 c1 (fu o1 i (Z.of_nat k')) FC1 FO2 LS1 G1). split; [auto|]. split.
    - intros x Hx. apply fu_ne. intros ->. apply Hx. left. reflexivity.
    - intros [|[|t]] x Ht; try discriminate. injection Ht as <-. rewrite fu_eq, Nat.add_0_r. reflexivity. }
  destruct (kd i) as [|x0 l0] eqn:EK.
  - (* a leaf *)
    cbn [flat_map app length] in LP, PU. rewrite LP. change (2 * 1 + F) with (S (S F)).
    assert (CI : c i = EMPTY) by (specialize (LK i II); rewrite EK in LK; exact LK).
    (* one step suffices; one unit of fuel is left over *)
    apply (POP (S F) k C O St c o FC FO LS GS CI); [reflexivity|].
    intros C' O' St' c' o' A1 A2 A3 A4 A5.
    assert (W : wp (tloop F (Z.of_nat head - 1, Z.of_nat (k + 1), C', O', St')%Z) Q).
    { rewrite LP in K. apply K with (c' := c') (o' := o'); auto. rewrite PU. exact A5. }
    apply while_more. exact W.
  - rewrite <- EK in *.
    assert (NE : kd i <> []) by (rewrite EK; discriminate). clear x0 l0 EK.
    set (l := kd i) in *.
    assert (SL : length l <= length (flat_map post l)).
    { apply flat_len. }
    (* push the children *)
    replace (2 * length (post i) + F) with (S (2 * length (flat_map post l) + S F)) by lia.
    apply tloop_step; [lia|]. cbn [post_step].
    wb. apply wp_getz with (v := Z.of_nat i); [lia|rewrite Nat2Z.id; exact GS|].
    wb. eapply wfa_getn; [exact FC|exact Hi|]. rewrite (lk_empty _ _ _ (LK i II)).
    change (kd i) with l. assert (B : negb match l with [] => true | _ :: _ => false end = true) by (destruct l; [contradiction|reflexivity]).
    rewrite B. clear B.
    assert (RL : forall x, In x l -> x < nn) by (apply kd_range; exact Hi).
    rewrite (count_children_ok fuel (c i) l (Z.of_nat head) (LK i II) RL (kd_fuel i Hi)). cbn [bind].
    replace (Z.of_nat head + Z.of_nat (length l))%Z with (Z.of_nat (head + length l)) by lia.
    wb. eapply wp_conseq; [apply (push_children_ok fuel (c i) l); [apply LK; exact II|exact RL|apply kd_fuel; exact Hi|lia|lia]|].
    intros St1 (LS1 & GS1 & GS2). replace (head + length l - length l) with head in GS2 by lia.
    wb. eapply wfa_setn; [exact FC|exact Hi|]. intros C1 FC1. cbn [wp].
    (* the children in turn *)
    assert (NI : ~ In i (flat_map post l)).
    { pose proof (kd_nodup i) as ND. rewrite PU in ND. apply NoDup_remove_2 in ND. rewrite app_nil_r in ND. exact ND. }
    assert (KIDS : forall l2 l1, l = l1 ++ l2 -> forall F' k' C2 O2 St2 c2 o2,
       fa C2 nn c2 -> fa O2 nn o2 -> length St2 = nn ->
       (forall p, p <= head + length l2 -> get St2 p = get St1 p) ->
       (forall x, In x (flat_map post l2) -> lk sb (c2 x) (kd x)) ->
       (forall C' O' St' c' o', fa C' nn c' -> fa O' nn o' -> length St' = nn ->
          (forall p, p <= head -> get St' p = get St1 p) ->
          done (flat_map post l2) k' c2 o2 c' o' ->
          wp (tloop F' (Z.of_nat head, Z.of_nat (k' + length (flat_map post l2)), C', O', St')) Q) ->
       wp (tloop (2 * length (flat_map post l2) + F') (Z.of_nat (head + length l2), Z.of_nat k', C2, O2, St2)) Q).
    { assert (HB' : head + S (length (flat_map post l)) <= nn) by lia. clear K POP.
      induction l2 as [|x l2 IHl]; intros l1 EL F' k' C2 O2 St2 c2 o2 FC2 FO2 LS2 GG LK2 K2.
      - cbn. rewrite !Nat.add_0_r in *. specialize (K2 C2 O2 St2 c2 o2 FC2 FO2 LS2). apply K2; [|apply done_nil].
        intros p Hp. apply GG. lia.
      - assert (XL : In x l) by (rewrite EL; apply in_or_app; right; left; reflexivity).
        assert (ND : NoDup (flat_map post (x :: l2))).
        { pose proof (kd_nodup i) as ND. rewrite PU, EL, flat_map_app in ND. apply nodup_app in ND. destruct ND as [ND _].
          apply nodup_app in ND. apply ND. }
        assert (SZ : length (flat_map post l) = length (flat_map post l1) + (length (post x) + length (flat_map post l2))).
        { rewrite EL, flat_map_app, app_length. cbn. rewrite app_length. reflexivity. }
        assert (SZ2 : length l2 <= length (flat_map post l2)).
        { apply flat_len. }
        cbn [flat_map]. rewrite app_length.
        replace (2 * (length (post x) + length (flat_map post l2)) + F') with (2 * length (post x) + (2 * length (flat_map post l2) + F')) by lia.
        apply (IH x XL (RL x XL) _ (head + length (x :: l2)) k' C2 O2 St2 c2 o2); try assumption.
        + rewrite GG by lia. assert (E : nth_error l (length l1) = Some x) by (rewrite EL, nth_error_app2, Nat.sub_diag by lia; reflexivity).
          rewrite <- (GS1 _ _ E). f_equal. rewrite EL, app_length. cbn. lia.
        + cbn [length]. lia.
        + intros y Hy. apply LK2. cbn. apply in_or_app. left. exact Hy.
        + intros C' O' St' c' o' A1 A2 A3 A4 A5.
          replace (Z.of_nat (head + length (x :: l2)) - 1)%Z with (Z.of_nat (head + length l2)) by (cbn [length]; lia).
          apply (IHl (l1 ++ [x])) with (c2 := c') (o2 := o'); try assumption.
          * rewrite <- app_assoc. exact EL.
          * intros p Hp. rewrite A4 by (cbn [length]; lia). apply GG. cbn [length]. lia.
          * intros y Hy. destruct A5 as (A5 & _). rewrite A5; [apply LK2; cbn; apply in_or_app; right; exact Hy|].
            intros I. cbn in ND. clear - ND Hy I. induction (post x) as [|z q IHq]; [destruct I|]. cbn in ND. inversion ND; subst.
            destruct I as [->|I]; [apply H1; apply in_or_app; right; exact Hy|auto].
          * intros C3 O3 St3 c3 o3 B1 B2 B3 B4 B5. cbn [flat_map] in K2. rewrite app_length in K2.
            replace (k' + length (post x) + length (flat_map post l2)) with (k' + (length (post x) + length (flat_map post l2))) by lia.
            apply (K2 C3 O3 St3 c3 o3 B1 B2 B3 B4). eapply done_app; eassumption. }
    apply (KIDS l [] eq_refl (S F) k C1 O St1 (fu c i EMPTY) o FC1 FO ltac:(lia)); [reflexivity| |].
    + intros x Hx. rewrite fu_ne by (intros ->; contradiction). apply LK. rewrite PU. apply in_or_app. left. exact Hx.
    + intros C' O' St' c' o' A1 A2 A3 A4 A5.
      apply (POP F (k + length (flat_map post l)) C' O' St' c' o'); try assumption.
      * rewrite A4 by lia. rewrite GS2 by lia. exact GS.
      * destruct A5 as (A5 & _). rewrite A5 by exact NI. apply fu_eq.
      * intros p Hp. rewrite A4 by lia. apply GS2. lia.
      * intros C3 O3 St3 c3 o3 B1 B2 B3 B4 B5.
        replace (k + length (flat_map post l) + 1) with (k + length (post i)) by lia.
        apply (K C3 O3 St3 c3 o3 B1 B2 B3 B4).
        assert (D : done (post i) k (fu c i EMPTY) o c3 o3) by (rewrite PU; eapply done_app; [rewrite <- PU; apply kd_nodup|exact A5|exact B5]).
        destruct D as (D1 & D2 & D3). split; [|auto]. intros x Hx. rewrite D1 by exact Hx. apply fu_ne. intros ->. contradiction.
Qed.

Lemma post_tree_ok i k C O St c o : i < nn -> fa C nn c -> fa O nn o -> length St = nn ->
  length (post i) <= nn -> 2 * length (post i) < fuel -> (forall x, In x (post i) -> lk sb (c x) (kd x)) ->
  wp (AMD_post_tree fuel (Z.of_nat i) (Z.of_nat k) C Sibling O St) (fun '(k', C', O', St') =>
    k' = Z.of_nat (k + length (post i)) /\ length St' = nn /\
    exists c' o', fa C' nn c' /\ fa O' nn o' /\ done (post i) k c o c' o').
Proof.
  intros Hi FC FO LS LP FU LK. unfold AMD_post_tree. wb. apply wp_set; [lia|]. intros St1 L1 G1.
  wb. fold tst. change (while_ fuel _ _ _) with (tloop fuel (0%Z, Z.of_nat k, C, O, St1)).
  replace fuel with (2 * length (post i) + S (fuel - 2 * length (post i) - 1)) at 1 by lia.
  change 0%Z with (Z.of_nat 0).
  apply (run_node i Hi) with (c := c) (o := o); try assumption.
  - lia.
  - rewrite G1. reflexivity.
  - intros C' O' St' c' o' A1 A2 A3 A4 A5. unfold tloop. cbn [while_ bind]. cbn.
    split; [reflexivity|]. split; [exact A3|]. exists c', o'. auto.
Qed.
End Post.
