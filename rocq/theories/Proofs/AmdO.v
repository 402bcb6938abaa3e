(* AMD_postorder numbers the elements of any assembly forest in postorder *)
From Coq Require Import List Arith ZArith Bool Lia Permutation.
From Verif Require Import Base.
From Verif.Model Require Import Amd.
From Verif.Spec Require Import Ordering.
From Verif.Proofs Require Import AmdB AmdL AmdT.
Import ListNotations.
Open Scope nat_scope.

Lemma above_chain par a b x : above par a x -> above par b x -> above par a b \/ above par b a.
Proof.
  induction 1 as [|x k E A IH]; intros B; [right; exact B|].
  inversion B as [|? k' E' B']; subst; [left; econstructor; eassumption|]. apply IH. congruence.
Qed.
Lemma above_trans par a b x : above par a b -> above par b x -> above par a x.
Proof. intros A B. induction B; [exact A|econstructor; eassumption]. Qed.

Section Forest.
Variables (nn : nat) (par : nat -> option nat) (el : nat -> bool) (rank : nat -> nat) (kd : nat -> list nat).
Hypothesis par_range : forall i j, i < nn -> par i = Some j -> j < nn.
Hypothesis rkp : forall i j, i < nn -> par i = Some j -> rank i < rank j.
Hypothesis par_el : forall i j, i < nn -> el i = true -> par i = Some j -> el j = true.
Hypothesis in_kd : forall i x, In x (kd i) <-> i < nn /\ x < nn /\ el x = true /\ par x = Some i.
Hypothesis kd_nd : forall i, NoDup (kd i).

Lemma rk i x : In x (kd i) -> rank x < rank i.
Proof. rewrite in_kd. intros (_ & H & _ & P). eauto. Qed.

Local Notation post := (post kd rank).
Local Opaque AmdT.post.

Lemma above_rank a x : above par a x -> x < nn -> rank x <= rank a /\ a < nn.
Proof.
  induction 1 as [|x k E A IH]; intros Hx; [lia|]. pose proof (rkp x k Hx E). specialize (IH (par_range x k Hx E)). lia.
Qed.

Lemma post_self i : In i (post i).
Proof. rewrite (post_unfold kd rank rk). apply in_or_app. right. left. reflexivity. Qed.
Lemma post_sub i x : In x (kd i) -> incl (post x) (post i).
Proof.
  intros Hx y Hy. rewrite (post_unfold kd rank rk). apply in_or_app. left. apply in_flat_map. eauto.
Qed.
Lemma post_above i : forall x, In x (post i) -> i < nn -> above par i x /\ x < nn /\ (el i = true -> el x = true).
Proof.
  induction i as [i IH] using (post_ind kd rank rk). intros x Hx Hi. rewrite (post_unfold kd rank rk) in Hx.
  apply in_app_or in Hx. destruct Hx as [Hx|[<-|[]]].
  - apply in_flat_map in Hx. destruct Hx as (y & Hy & Hx). pose proof Hy as Hy'. apply in_kd in Hy'. destruct Hy' as (_ & Y1 & Y2 & Y3).
    destruct (IH y Hy x Hx Y1) as (A & B & C). split; [|auto]. eapply above_trans; [|exact A].
    econstructor; [exact Y3|constructor].
  - split; [constructor|auto].
Qed.
Lemma post_closed i k x : In k (post i) -> In x (kd k) -> In x (post i).
Proof.
  revert k x. induction i as [i IH] using (post_ind kd rank rk). intros k x Hk Hx. rewrite (post_unfold kd rank rk) in Hk.
  apply in_app_or in Hk. destruct Hk as [Hk|[<-|[]]].
  - apply in_flat_map in Hk. destruct Hk as (y & Hy & Hk). apply (post_sub i y Hy). eapply IH; eassumption.
  - apply (post_sub i x Hx). apply post_self.
Qed.
Lemma above_post i x : above par i x -> x < nn -> el x = true -> In x (post i).
Proof.
  induction 1 as [|x k E A IH]; intros Hx Ex; [apply post_self|].
  eapply post_closed; [apply IH; eauto|]. apply in_kd. eauto.
Qed.

Lemma nodup_flat l : NoDup l -> (forall a, In a l -> NoDup (post a)) ->
  (forall a b x, In a l -> In b l -> In x (post a) -> In x (post b) -> a = b) -> NoDup (flat_map post l).
Proof.
  induction l as [|a l IH]; intros ND H1 H2; [constructor|]. cbn [flat_map]. inversion ND; subst. apply nodup_app. split; [|split].
  - apply H1. left. reflexivity.
  - apply IH; [assumption|intros; apply H1; right; assumption|].
    intros b c x Hb Hc. apply H2; right; assumption.
  - intros x Hx Hx'. apply in_flat_map in Hx'. destruct Hx' as (b & Hb & Hx').
    assert (a = b) by (eapply H2; eauto; [left; reflexivity|right; exact Hb]). subst. contradiction.
Qed.

Lemma post_nodup i : NoDup (post i).
Proof.
  induction i as [i IH] using (post_ind kd rank rk). rewrite (post_unfold kd rank rk). apply nodup_app. split; [|split].
  - apply nodup_flat; [apply kd_nd|exact IH|]. intros a b x Ha Hb Xa Xb.
    apply in_kd in Ha, Hb. destruct Ha as (Hi & A1 & A2 & A3), Hb as (_ & B1 & B2 & B3).
    destruct (post_above a x Xa A1) as (PA & _). destruct (post_above b x Xb B1) as (PB & _).
    assert (KEY : forall u v, u < nn -> v < nn -> par u = Some i -> par v = Some i -> above par u v -> u = v).
    { intros u v Hu Hv Pu Pv AB. inversion AB as [|? k E AB']; subst; [reflexivity|]. exfalso.
      assert (k = i) by congruence. subst k. apply above_rank in AB'; [|exact Hi]. pose proof (rkp u i Hu Pu). lia. }
    destruct (above_chain par a b x PA PB) as [C|C]; [apply KEY|symmetry; apply KEY]; assumption.
  - constructor; [intros []|constructor].
  - intros x Hx [<-|[]]. apply in_flat_map in Hx. destruct Hx as (y & Hy & Hx). pose proof (rk _ _ Hy) as RK.
    apply in_kd in Hy. destruct Hy as (Hi & Y1 & _ & _). apply post_above in Hx; [|exact Y1]. destruct Hx as (A & _).
    apply above_rank in A; [|exact Hi]. lia.
Qed.

(* ----------------------------------------------------------- the roots *)
Definition is_root (i : nat) : bool := match par i with None => el i | Some _ => false end.
Definition roots (k : nat) : list nat := filter is_root (seq 0 k).
Definition total (k : nat) : list nat := flat_map post (roots k).

Lemma in_roots k i : In i (roots k) <-> i < k /\ par i = None /\ el i = true.
Proof.
  unfold roots, is_root. rewrite filter_In, in_seq. destruct (par i); split; intros; intuition (try lia; try discriminate).
Qed.
Lemma total_S k : total (S k) = total k ++ (if is_root k then post k else []).
Proof.
  unfold total, roots. rewrite seq_S, filter_app, flat_map_app. cbn. destruct (is_root k); cbn; [rewrite app_nil_r|]; reflexivity.
Qed.
Lemma total_nodup k : k <= nn -> NoDup (total k).
Proof.
  intros Hk. apply nodup_flat; [apply NoDup_filter, seq_NoDup|intros; apply post_nodup|].
  intros a b x Ha Hb Xa Xb. apply in_roots in Ha, Hb. destruct Ha as (A1 & A2 & A3), Hb as (B1 & B2 & B3).
  destruct (post_above a x Xa ltac:(lia)) as (PA & _). destruct (post_above b x Xb ltac:(lia)) as (PB & _).
  destruct (above_chain par a b x PA PB) as [C|C]; inversion C; subst; congruence.
Qed.
Lemma total_elem k x : k <= nn -> In x (total k) -> x < nn /\ el x = true.
Proof.
  intros Hk Hx. apply in_flat_map in Hx. destruct Hx as (r & Hr & Hx). apply in_roots in Hr. destruct Hr as (R1 & R2 & R3).
  apply post_above in Hx; [|lia]. destruct Hx as (_ & A & B). auto.
Qed.

Lemma root_above : forall x, x < nn -> el x = true -> exists r, r < nn /\ par r = None /\ el r = true /\ above par r x.
Proof.
  assert (B : exists M, forall x, x < nn -> rank x <= M).
  { exists (list_sum (map rank (seq 0 nn))). intros x Hx. clear - Hx. induction nn as [|n IH]; [lia|].
    rewrite seq_S, map_app, list_sum_app. cbn. destruct (Nat.eq_dec x n) as [->|]; [lia|]. specialize (IH ltac:(lia)). lia. }
  destruct B as [M B].
  assert (G : forall d x, M - rank x <= d -> x < nn -> el x = true -> exists r, r < nn /\ par r = None /\ el r = true /\ above par r x).
  { induction d as [|d IH]; intros x Hd Hx Ex; (destruct (par x) as [k|] eqn:P; [|exists x; repeat split; auto; constructor]).
    - exfalso. pose proof (rkp x k Hx P). pose proof (B k (par_range x k Hx P)). lia.
    - destruct (IH k) as (r & R1 & R2 & R3 & R4); eauto.
      + pose proof (rkp x k Hx P). lia.
      + exists r. repeat split; auto. econstructor; eassumption. }
  intros x. apply (G (M - rank x)). lia.
Qed.
Lemma elem_total x : x < nn -> el x = true -> In x (total nn).
Proof.
  intros Hx Ex. destruct (root_above x Hx Ex) as (r & R1 & R2 & R3 & R4). apply in_flat_map. exists r.
  split; [apply in_roots; auto|]. apply above_post; assumption.
Qed.
Lemma total_len k : k <= nn -> length (total k) <= nn.
Proof.
  intros Hk. rewrite <- (seq_length nn 0). apply NoDup_incl_length; [apply total_nodup; exact Hk|].
  intros x Hx. apply total_elem in Hx; [|exact Hk]. apply in_seq. lia.
Qed.
Lemma post_len i : i < nn -> length (post i) <= nn.
Proof.
  intros Hi. rewrite <- (seq_length nn 0). apply NoDup_incl_length; [apply post_nodup|].
  intros x Hx. apply post_above in Hx; [|exact Hi]. apply in_seq. lia.
Qed.

(* subtrees are consecutive *)
Lemma post_block r i : In r (post i) -> exists A B, post i = A ++ post r ++ B.
Proof.
  revert r. induction i as [i IH] using (post_ind kd rank rk). intros r Hr. pose proof Hr as Hr'. rewrite (post_unfold kd rank rk) in Hr'.
  apply in_app_or in Hr'. destruct Hr' as [Hr'|[<-|[]]].
  - apply in_flat_map in Hr'. destruct Hr' as (y & Hy & Hr'). destruct (IH y Hy r Hr') as (A & B & E).
    pose proof Hy as Hy'. apply in_split in Hy'. destruct Hy' as (l1 & l2 & EK).
    exists (flat_map post l1 ++ A), (B ++ flat_map post l2 ++ [i]).
    rewrite (post_unfold kd rank rk i), EK, flat_map_app. cbn [flat_map]. rewrite E, <- !app_assoc. reflexivity.
  - exists [], []. rewrite app_nil_r. reflexivity.
Qed.
Lemma total_block r : r < nn -> el r = true -> exists A B, total nn = A ++ post r ++ B.
Proof.
  intros Hr Er. destruct (root_above r Hr Er) as (s & S1 & S2 & S3 & S4).
  destruct (post_block r s (above_post s r S4 Hr Er)) as (A & B & E).
  assert (Hs : In s (roots nn)) by (apply in_roots; auto). apply in_split in Hs. destruct Hs as (l1 & l2 & ER).
  exists (flat_map post l1 ++ A), (B ++ flat_map post l2). unfold total. rewrite ER, flat_map_app. cbn [flat_map].
  rewrite E, <- !app_assoc. reflexivity.
Qed.

(* positions in the total order *)
Section Pos.
Variable o : nat -> nat.
Hypothesis oP : forall t x, nth_error (total nn) t = Some x -> o x = t.

Lemma pos_of x : x < nn -> el x = true -> nth_error (total nn) (o x) = Some x.
Proof.
  intros Hx Ex. destruct (In_nth_error _ _ (elem_total x Hx Ex)) as (t & Ht). rewrite (oP t x Ht). exact Ht.
Qed.

Lemma pos_block r A B : total nn = A ++ post r ++ B -> forall x, x < nn -> el x = true ->
  (In x (post r) <-> length A <= o x < length A + length (post r)).
Proof.
  intros E x Hx Ex. pose proof (pos_of x Hx Ex) as P. split.
  - intros I. apply In_nth_error in I. destruct I as (t & Ht).
    assert (t < length (post r)) by (apply nth_error_Some; congruence).
    rewrite (oP (length A + t) x); [lia|]. rewrite E, nth_error_app2 by lia.
    replace (length A + t - length A) with t by lia. rewrite nth_error_app1 by lia. exact Ht.
  - intros I. rewrite E, nth_error_app2 in P by lia. rewrite nth_error_app1 in P by lia. apply nth_error_In in P. exact P.
Qed.

Lemma pos_root r A B : total nn = A ++ post r ++ B -> o r = length A + length (post r) - 1.
Proof.
  intros E. apply oP. rewrite (post_unfold kd rank rk) in *. rewrite E, app_length. cbn [length].
  rewrite nth_error_app2 by lia. rewrite <- app_assoc. rewrite nth_error_app2 by lia.
  replace (length A + (length (flat_map post (kd r)) + 1) - 1 - length A - length (flat_map post (kd r))) with 0 by lia. reflexivity.
Qed.

Lemma total_postorder (nv : nat -> nat) : (forall i, i < nn -> (el i = true <-> 0 < nv i)) ->
  postorder nn par nv o (length (total nn)).
Proof.
  intros EN. split; [|split; [|split]].
  - intros i Hi Vi. apply EN in Vi; [|exact Hi]. apply nth_error_Some. rewrite (pos_of i Hi Vi). discriminate.
  - intros k Hk. destruct (nth_error (total nn) k) as [x|] eqn:E; [|apply nth_error_None in E; lia].
    exists x. pose proof (nth_error_In _ _ E) as I. apply total_elem in I; [|lia]. destruct I as [I1 I2].
    split; [exact I1|]. split; [apply EN; assumption|apply oP; exact E].
  - intros i j Hi Hj Vi Vj E. apply EN in Vi, Vj; try assumption. pose proof (pos_of i Hi Vi) as P1. pose proof (pos_of j Hj Vj) as P2.
    rewrite E in P1. congruence.
  - intros r Hr Vr. apply EN in Vr; [|exact Hr]. destruct (total_block r Hr Vr) as (A & B & E).
    exists (length A). intros i Hi Vi. apply EN in Vi; [|exact Hi].
    assert (LP : 0 < length (post r)) by (rewrite (post_unfold kd rank rk), app_length; cbn [length]; lia).
    rewrite (pos_root r A B E). split.
    + intros AB. apply above_post in AB; try assumption. apply (pos_block r A B E i Hi Vi) in AB. lia.
    + intros L. assert (I : In i (post r)) by (apply (pos_block r A B E i Hi Vi); lia).
      apply post_above in I; [apply I|exact Hr].
Qed.

Lemma total_largest (nv : nat -> nat) (sz : nat -> Z) : (forall i, i < nn -> (el i = true <-> 0 < nv i)) ->
  (forall i, i < nn -> el i = true -> big_last sz (kd i)) -> largest_child_last nn par nv sz o.
Proof.
  intros EN BL c r Hc Hr Vc P. apply EN in Vc; [|exact Hc].
  assert (Er : el r = true) by eauto.
  assert (Ic : In c (kd r)) by (apply in_kd; auto).
  destruct (BL r Hr Er) as [E|(l & b & E & MX)]; [rewrite E in Ic; destruct Ic|].
  assert (Ib : In b (kd r)) by (rewrite E; apply in_or_app; right; left; reflexivity).
  pose proof (proj1 (in_kd r b) Ib) as (_ & B1 & B2 & B3).
  exists b. split; [exact B1|]. split; [apply EN; assumption|]. split; [exact B3|]. split; [apply MX; exact Ic|].
  destruct (total_block r Hr Er) as (A & B & ET). pose proof (pos_root r A B ET) as PR.
  assert (EP : post r = flat_map post l ++ post b ++ [r]).
  { rewrite (post_unfold kd rank rk r), E, flat_map_app. cbn [flat_map]. rewrite app_nil_r, <- app_assoc. reflexivity. }
  assert (ET' : total nn = (A ++ flat_map post l) ++ post b ++ [r] ++ B) by (rewrite ET, EP, <- !app_assoc; reflexivity).
  rewrite (pos_root b _ _ ET'), PR. rewrite EP, !app_length. cbn [length].
  assert (0 < length (post b)) by (rewrite (post_unfold kd rank rk b), app_length; cbn [length]; lia). lia.
Qed.
End Pos.

(* ------------------------------------------------------------- the loop *)
Lemma po_order_ok Parent Nv Child Sibling Order Stack nv ch sb :
  fa Parent nn (fun i => enc (par i)) -> fa Nv nn nv -> (forall i, i < nn -> (nv i >? 0)%Z = el i) ->
  fa Child nn ch -> fa Sibling nn sb -> (forall i, i < nn -> lk sb (ch i) (kd i)) ->
  length Order = nn -> length Stack = nn ->
  wp (po_order nn Parent Nv Child Sibling Order Stack) (fun Od =>
    exists o, fa Od nn o /\ (forall x, x < nn -> el x = false -> o x = EMPTY) /\
      (forall t x, nth_error (total nn) t = Some x -> o x = Z.of_nat t)).
Proof.
  intros FP FN HE FC FS LK LO LS. unfold po_order.
  wb. eapply wp_conseq; [apply (wfa_fill Order nn (fun _ => EMPTY) LO)|]. intros O1 FO1. cbv beta in FO1.
  wb. apply (wp_for (fun i '(k, C, Od, St) => k = Z.of_nat (length (total i)) /\ length St = nn /\
     exists c o, fa C nn c /\ fa Od nn o /\ (forall x, ~ In x (total i) -> c x = ch x) /\
      (forall x, ~ In x (total i) -> o x = EMPTY) /\ (forall t x, nth_error (total i) t = Some x -> o x = Z.of_nat t))); [lia| | |].
  - split; [reflexivity|]. split; [exact LS|]. exists ch, (fun _ => EMPTY). repeat split; auto; try apply FC; try apply FO1.
    intros [|t] x; discriminate.
  - intros i [[[k C] Od] St] Hi (-> & LSt & c & o & C1 & O2 & H1 & H2 & H3).
    wb. eapply wfa_get; [exact FP|lia|]. cbv beta. rewrite enc_empty. rewrite total_S.
    assert (KEEP : is_root i = false -> wp (Some (Z.of_nat (length (total i)), C, Od, St)) (fun '(k0, C0, O0, St0) =>
       k0 = Z.of_nat (length (total i ++ (if is_root i then post i else []))) /\ length St0 = nn /\
       exists c0 o0, fa C0 nn c0 /\ fa O0 nn o0 /\ (forall x, ~ In x (total i ++ (if is_root i then post i else [])) -> c0 x = ch x) /\
      (forall x, ~ In x (total i ++ (if is_root i then post i else [])) -> o0 x = EMPTY) /\
      (forall t x, nth_error (total i ++ (if is_root i then post i else [])) t = Some x -> o0 x = Z.of_nat t))).
    { intros ->. rewrite app_nil_r. cbn. split; [reflexivity|]. split; [exact LSt|]. exists c, o. auto. }
    destruct (par i) as [p|] eqn:P.
    + apply KEEP. unfold is_root. rewrite P. reflexivity.
    + wb. eapply wfa_get; [exact FN|lia|]. rewrite HE by lia. destruct (el i) eqn:E.
      2: { apply KEEP. unfold is_root. rewrite P. exact E. }
      assert (RT : is_root i = true) by (unfold is_root; rewrite P; exact E). rewrite RT. clear KEEP.
      assert (ND : NoDup (total (S i))) by (apply total_nodup; lia). rewrite total_S, RT in ND.
      pose proof (post_len i ltac:(lia)) as PL.
      eapply wp_conseq.
      * apply (post_tree_ok kd rank rk nn Sibling sb FS (2 * nn + 1)) with (c := c) (o := o); try assumption; try lia.
        -- apply post_nodup.
        -- intros a Ha x Hx. apply in_kd in Hx. apply Hx.
        -- intros a Ha. assert (length (kd a) <= length (seq 0 nn)).
           { apply NoDup_incl_length; [apply kd_nd|]. intros x Hx. apply in_kd in Hx. apply in_seq. lia. }
           rewrite seq_length in H. lia.
        -- intros x Hx. rewrite H1.
           ++ apply LK. apply post_above in Hx; [apply Hx|lia].
           ++ intros I. apply nodup_app in ND. destruct ND as (_ & _ & ND). apply (ND x I Hx).
      * intros [[[k' C'] Od'] St'] (-> & LS' & c' & o' & FC' & FO' & D1 & D2 & D3).
        split; [rewrite app_length; reflexivity|]. split; [exact LS'|]. exists c', o'. split; [exact FC'|]. split; [exact FO'|].
        split; [|split].
        -- intros x Hx. rewrite D1, H1; [reflexivity| |]; intros I; apply Hx; apply in_or_app; auto.
        -- intros x Hx. rewrite D2, H2; [reflexivity| |]; intros I; apply Hx; apply in_or_app; auto.
        -- intros t x Ht. destruct (Nat.lt_ge_cases t (length (total i))) as [L|L].
           ++ rewrite nth_error_app1 in Ht by exact L. rewrite D2; [apply H3; exact Ht|].
              apply nth_error_In in Ht. apply nodup_app in ND. destruct ND as (_ & _ & ND). apply ND. exact Ht.
           ++ rewrite nth_error_app2 in Ht by exact L. rewrite (D3 _ _ Ht). f_equal. lia.
  - intros [[[k C] Od] St] (_ & _ & c & o & C1 & O2 & H1 & H2 & H3). cbn. exists o. split; [exact O2|]. split; [|exact H3].
    intros x Hx Ex. apply H2. intros I. apply total_elem in I; [|lia]. destruct I as [_ I]. congruence.
Qed.
End Forest.

(* the forest as arrays: parents, numbers of pivots, front sizes *)
Theorem AMD_postorder_run n par nv rank Parent Nv Fsize Order Child Sibling Stack nvz sz :
  (forall i j, i < n -> par i = Some j -> j < n) ->
  (forall i j, i < n -> par i = Some j -> rank i < rank j) ->
  (forall i j, i < n -> 0 < nv i -> par i = Some j -> 0 < nv j) ->
  fa Parent n (fun i => enc (par i)) -> fa Nv n nvz -> (forall i, i < n -> nvz i = Z.of_nat (nv i)) ->
  fa Fsize n sz -> (forall i, i < n -> 0 < nv i -> (-1 <= sz i)%Z) ->
  length Order = n -> length Child = n -> length Sibling = n -> length Stack = n ->
  wp (AMD_postorder n Parent Nv Fsize Order Child Sibling Stack) (fun O =>
    exists o K, (forall i, i < n -> get O i = Some (if 0 <? nv i then Z.of_nat (o i) else EMPTY)) /\
      length O = n /\ postorder n par nv o K /\ largest_child_last n par nv sz o).
Proof.
  intros R1 R2 R3 FP FN NV FF SZ LO LC LSi LSt.
  set (el := fun i => 0 <? nv i).
  assert (EN : forall i, i < n -> (el i = true <-> 0 < nv i)) by (intros i Hi; apply Nat.ltb_lt).
  assert (HE : forall i, i < n -> (nvz i >? 0)%Z = el i).
  { intros i Hi. rewrite NV by exact Hi. unfold el. destruct (Z.gtb_spec (Z.of_nat (nv i)) 0), (Nat.ltb_spec 0 (nv i)); try reflexivity; lia. }
  unfold AMD_postorder. wb. unfold po_init.
  eapply wp_conseq; [apply (wfa_fill2 Child Sibling n (fun _ => EMPTY) (fun _ => EMPTY)); assumption|].
  intros [C1 S1] [FC1 FS1]. wb. eapply wp_conseq; [apply (po_children_ok n par el R1 Parent Nv C1 S1 nvz); assumption|].
  intros [C2 S2] (ch2 & sb2 & FC2 & FS2 & LK2).
  wb. eapply wp_conseq; [apply (po_last_ok n par el Nv Fsize C2 S2 nvz ch2 sb2 sz); try assumption|].
  { intros i Hi Ei. apply SZ; [exact Hi|]. apply EN; assumption. }
  intros [C3 S3] (ch3 & sb3 & kd0 & FC3 & FS3 & H3).
  set (kd := fun i => if i <? n then kd0 i else []).
  assert (KI : forall i x, In x (kd i) <-> i < n /\ x < n /\ el x = true /\ par x = Some i).
  { intros i x. unfold kd. destruct (Nat.ltb_spec i n) as [L|L]; [|split; [intros []|lia]].
    destruct (H3 i L) as (_ & P & _). split.
    - intros I. eapply Permutation_in in I; [|symmetry; exact P]. apply in_kids in I. tauto.
    - intros (_ & I). eapply Permutation_in; [exact P|]. apply in_kids. exact I. }
  assert (KN : forall i, NoDup (kd i)).
  { intros i. unfold kd. destruct (Nat.ltb_spec i n) as [L|L]; [|constructor]. destruct (H3 i L) as (_ & P & _).
    eapply Permutation_NoDup; [exact P|]. apply kids_nodup. }
  assert (RE : forall i j, i < n -> el i = true -> par i = Some j -> el j = true).
  { intros i j Hi Ei P. apply EN; [eauto|]. eapply R3; [exact Hi| |exact P]. apply EN; assumption. }
  eapply wp_conseq; [apply (po_order_ok n par el rank kd R1 R2 KI KN Parent Nv C3 S3 Order Stack nvz ch3 sb3); try assumption|].
  { intros i Hi. unfold kd. apply Nat.ltb_lt in Hi as Hi'. rewrite Hi'. apply H3. exact Hi. }
  intros O (o & (LO' & HO) & OE & OT).
  assert (OT' : forall t x, nth_error (total par el rank kd n) t = Some x -> Z.to_nat (o x) = t).
  { intros t x Ht. rewrite (OT t x Ht). lia. }
  exists (fun i => Z.to_nat (o i)), (length (total par el rank kd n)). split; [|split; [exact LO'|split]].
  - intros i Hi. rewrite HO by exact Hi. f_equal. destruct (Nat.ltb_spec 0 (nv i)) as [L|L].
    + destruct (In_nth_error _ _ (elem_total n par el rank kd R1 R2 RE KI i Hi (proj2 (EN i Hi) L))) as (t & Ht). rewrite (OT t i Ht). lia.
    + apply OE; [exact Hi|]. unfold el. apply Nat.ltb_ge. exact L.
  - apply total_postorder with (el := el) (rank := rank) (kd := kd); assumption.
  - apply total_largest with (el := el) (rank := rank) (kd := kd); try assumption. intros i Hi Ei. unfold kd. apply Nat.ltb_lt in Hi as Hi'. rewrite Hi'. apply H3; assumption.
Qed.

Theorem AMD_postorder_ok n par nv Parent Nv Fsize Order Child Sibling Stack nvz sz :
  forest n par nv -> fa Parent n (fun i => enc (par i)) -> fa Nv n nvz -> (forall i, i < n -> nvz i = Z.of_nat (nv i)) ->
  fa Fsize n sz -> (forall i, i < n -> 0 < nv i -> (-1 <= sz i)%Z) ->
  length Order = n -> length Child = n -> length Sibling = n -> length Stack = n ->
  wp (AMD_postorder n Parent Nv Fsize Order Child Sibling Stack) (fun O =>
    exists o K, (forall i, i < n -> get O i = Some (if 0 <? nv i then Z.of_nat (o i) else EMPTY)) /\
      length O = n /\ postorder n par nv o K /\ largest_child_last n par nv sz o).
Proof.
  intros FO. destruct FO as [R1 [rank R2] R3 R4 R5]. apply AMD_postorder_run with rank; assumption.
Qed.
