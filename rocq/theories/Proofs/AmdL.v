(* AMD_postorder: the linked lists of children *)
From Coq Require Import List Arith ZArith Bool Lia Permutation.
From Verif Require Import Base.
From Verif.Model Require Import Amd.
From Verif.Spec Require Import Ordering.
From Verif.Proofs Require Import AmdB.
Import ListNotations.
Open Scope nat_scope.

Definition enc (o : option nat) : Z := match o with Some j => Z.of_nat j | None => EMPTY end.

Lemma enc_empty o : (enc o =? EMPTY)%Z = match o with Some _ => false | None => true end.
Proof. destruct o; cbn; [|reflexivity]. apply Z.eqb_neq. unfold EMPTY. lia. Qed.
Lemma nat_not_empty j : (Z.of_nat j =? EMPTY)%Z = false.
Proof. apply (enc_empty (Some j)). Qed.

(* the list l is linked from h to e *)
Fixpoint lseg (sb : nat -> Z) (h : Z) (l : list nat) (e : Z) : Prop :=
  match l with [] => h = e | x :: t => h = Z.of_nat x /\ lseg sb (sb x) t e end.
Notation lk sb h l := (lseg sb h l EMPTY).

Lemma lseg_ext sb sb' l : forall h e, (forall x, In x l -> sb x = sb' x) -> lseg sb h l e -> lseg sb' h l e.
Proof.
  induction l as [|x l IH]; intros h e E H; [exact H|]. destruct H as [H1 H2]. split; [exact H1|].
  rewrite <- E by (left; reflexivity). apply IH; [|exact H2]. intros; apply E; right; assumption.
Qed.
Lemma lseg_app sb l1 l2 : forall h e, lseg sb h (l1 ++ l2) e <-> exists m, lseg sb h l1 m /\ lseg sb m l2 e.
Proof.
  induction l1 as [|x l1 IH]; intros h e; cbn.
  - split; [intros H; exists h; auto|intros (m & -> & H); exact H].
  - rewrite IH. split; [intros (H & m & A & B); exists m; auto|intros (m & (H & A) & B); eauto].
Qed.
Lemma lseg_snoc sb l x : forall h e, lseg sb h (l ++ [x]) e <-> lseg sb h l (Z.of_nat x) /\ sb x = e.
Proof.
  intros h e. rewrite lseg_app. cbn. split.
  - intros (m & A & -> & B). auto.
  - intros (A & B). exists (Z.of_nat x). auto.
Qed.
Lemma lk_empty sb h l : lk sb h l -> (h =? EMPTY)%Z = match l with [] => true | _ => false end.
Proof.
  destruct l as [|x l]; cbn; [intros ->; reflexivity|intros [-> _]]. apply nat_not_empty.
Qed.

Section Kids.
Variables (nn : nat) (par : nat -> option nat) (el : nat -> bool).
Hypothesis par_range : forall i j, i < nn -> par i = Some j -> j < nn.

Definition is_kid (i j : nat) : bool := el j && match par j with Some p => p =? i | None => false end.
Definition kidsfrom (i j : nat) : list nat := filter (is_kid i) (seq j (nn - j)).
Definition kids (i : nat) : list nat := kidsfrom i 0.

Lemma is_kid_iff i j : is_kid i j = true <-> el j = true /\ par j = Some i.
Proof.
  unfold is_kid. rewrite andb_true_iff. destruct (par j) as [p|]; [|split; intros [_ H]; discriminate].
  rewrite Nat.eqb_eq. split; intros [A B]; split; congruence.
Qed.
Lemma in_kids i j : In j (kids i) <-> j < nn /\ el j = true /\ par j = Some i.
Proof. unfold kids, kidsfrom. rewrite filter_In, in_seq, is_kid_iff. split; intros; intuition lia. Qed.
Lemma kids_nodup i : NoDup (kids i).
Proof. apply NoDup_filter, seq_NoDup. Qed.
Lemma kidsfrom_step i j : j < nn -> kidsfrom i j = (if is_kid i j then [j] else []) ++ kidsfrom i (S j).
Proof.
  intros H. unfold kidsfrom. replace (nn - j) with (S (nn - S j)) by lia. cbn. destruct (is_kid i j); reflexivity.
Qed.
Lemma kidsfrom_ge i j x : In x (kidsfrom i j) -> j <= x.
Proof. unfold kidsfrom. rewrite filter_In, in_seq. lia. Qed.

Lemma po_children_ok Parent Nv Child Sibling nv :
  fa Parent nn (fun i => enc (par i)) -> fa Nv nn nv -> (forall i, i < nn -> (nv i >? 0)%Z = el i) ->
  fa Child nn (fun _ => EMPTY) -> fa Sibling nn (fun _ => EMPTY) ->
  wp (po_children nn Parent Nv (Child, Sibling)) (fun '(C, Sb) =>
    exists ch sb, fa C nn ch /\ fa Sb nn sb /\ forall i, i < nn -> lk sb (ch i) (kids i)).
Proof.
  intros HP HN HE HC HS. unfold po_children.
  apply (wp_for_down (fun j '(C, Sb) => exists ch sb, fa C nn ch /\ fa Sb nn sb /\ forall i, i < nn -> lk sb (ch i) (kidsfrom i j))).
  - exists (fun _ => EMPTY), (fun _ => EMPTY). split; [exact HC|]. split; [exact HS|]. intros i Hi.
    unfold kidsfrom. rewrite Nat.sub_diag. reflexivity.
  - intros j [C Sb] Hj (ch & sb & FC & FS & L). wb. eapply wfa_get; [exact HN|exact Hj|]. rewrite HE by exact Hj.
    destruct (el j) eqn:EJ.
    + wb. eapply wfa_get; [exact HP|exact Hj|]. cbv beta. rewrite enc_empty. destruct (par j) as [p|] eqn:PJ; cbn [negb].
      * pose proof (par_range j p Hj PJ) as Hp. cbn [enc]. wb. eapply wfa_getn; [exact FC|exact Hp|].
        wb. eapply wfa_set; [exact FS|exact Hj|]. intros Sb' FS'. wb. eapply wfa_setn; [exact FC|exact Hp|]. intros C' FC'.
        cbn. exists (fu ch p (Z.of_nat j)), (fu sb j (ch p)). split; [exact FC'|]. split; [exact FS'|].
        intros i Hi. rewrite kidsfrom_step by exact Hj.
        assert (X : forall x, In x (kidsfrom i (Datatypes.S j)) -> sb x = fu sb j (ch p) x).
        { intros x Hx. apply kidsfrom_ge in Hx. rewrite fu_ne by lia. reflexivity. }
        destruct (Nat.eq_dec i p) as [->|NE].
        -- rewrite fu_eq. replace (is_kid p j) with true by (symmetry; apply is_kid_iff; auto). cbn.
           split; [reflexivity|]. rewrite fu_eq. eapply lseg_ext; [exact X|]. apply L. exact Hi.
        -- rewrite fu_ne by exact NE. replace (is_kid i j) with false.
           2: { symmetry. apply not_true_iff_false. rewrite is_kid_iff. intros [_ H]. congruence. }
           cbn. eapply lseg_ext; [exact X|]. apply L. exact Hi.
      * cbn. exists ch, sb. split; [exact FC|]. split; [exact FS|]. intros i Hi. rewrite kidsfrom_step by exact Hj.
        replace (is_kid i j) with false; [apply L; exact Hi|].
        symmetry. apply not_true_iff_false. rewrite is_kid_iff. intros [_ H]. congruence.
    + cbn. exists ch, sb. split; [exact FC|]. split; [exact FS|]. intros i Hi. rewrite kidsfrom_step by exact Hj.
      replace (is_kid i j) with false; [apply L; exact Hi|].
      symmetry. apply not_true_iff_false. rewrite is_kid_iff. intros [H _]. congruence.
  - intros [C Sb] (ch & sb & FC & FS & L). exists ch, sb. auto.
Qed.
End Kids.

(* the last node of a list, as the code stores it *)
Definition lastz (l : list nat) : Z := last (map Z.of_nat l) EMPTY.
Lemma lastz_snoc l x : lastz (l ++ [x]) = Z.of_nat x.
Proof. unfold lastz. rewrite map_app. cbn. apply last_last. Qed.

(* l with its largest member b moved to the end *)
Definition moved (sz : nat -> Z) (l l' : list nat) : Prop :=
  exists l1 b l2, l = l1 ++ b :: l2 /\ l' = l1 ++ l2 ++ [b] /\ forall x, In x l -> (sz x <= sz b)%Z.


(* a loop that consumes a list *)
Lemma wp_walk {T : Type} (Inv : list nat -> list nat -> T -> Prop) (test : T -> option bool) (body : T -> option T) (Q : T -> Prop) :
  (forall dn s, Inv dn [] s -> test s = Some false /\ Q s) ->
  (forall dn x rest s, Inv dn (x :: rest) s -> test s = Some true /\ wp (body s) (Inv (dn ++ [x]) rest)) ->
  forall rest dn fuel s, Inv dn rest s -> length rest < fuel -> wp (while_ fuel test body s) Q.
Proof.
  intros H0 H1. induction rest as [|x rest IH]; intros dn fuel s HI HF; (destruct fuel as [|fuel]; [lia|]); cbn [while_].
  - destruct (H0 _ _ HI) as [-> HQ]. exact HQ.
  - destruct (H1 _ _ _ _ HI) as [-> HB]. cbn [bind]. wb. eapply wp_conseq; [exact HB|].
    intros s' HI'. eapply IH; [exact HI'|]. cbn in HF. lia.
Qed.

Lemma po_biggest_ok nn Sibling Fsize sb sz fuel h l :
  fa Sibling nn sb -> fa Fsize nn sz -> lk sb h l -> (forall x, In x l -> x < nn) -> l <> [] ->
  (forall x, In x l -> (-1 <= sz x)%Z) -> length l < fuel ->
  wp (po_biggest fuel Sibling Fsize h) (fun '(fprev, bigfprev, bigf) =>
    exists l1 b l2, l = l1 ++ b :: l2 /\ fprev = lastz l /\ bigfprev = lastz l1 /\ bigf = Z.of_nat b /\
      forall x, In x l -> (sz x <= sz b)%Z).
Proof.
  intros FS FF L R NE SZ FU. unfold po_biggest. wb.
  apply (wp_walk (fun dn rest '(f, fprev, maxf, bigfprev, bigf) =>
      l = dn ++ rest /\ lk sb f rest /\ fprev = lastz dn /\
      ((dn = [] /\ maxf = EMPTY) \/
       (exists l1 b l2, dn = l1 ++ b :: l2 /\ maxf = sz b /\ bigfprev = lastz l1 /\ bigf = Z.of_nat b /\ forall x, In x dn -> (sz x <= sz b)%Z)))) with (dn := @nil nat) (rest := l).
  - intros dn [[[[f fprev] maxf] bp] bf] (E & LK & EF & D). cbn in LK. subst f. split; [reflexivity|]. cbn.
    rewrite app_nil_r in E. subst dn. destruct D as [[D _]|(l1 & b & l2 & D1 & D2 & D3 & D4 & D5)]; [contradiction|].
    exists l1, b, l2. auto.
  - intros dn x rest [[[[f fprev] maxf] bp] bf] (E & LK & EF & D). destruct LK as [-> LK].
    rewrite nat_not_empty. split; [reflexivity|].
    assert (Hx : x < nn) by (apply R; rewrite E; apply in_or_app; right; left; reflexivity).
    assert (Sx : (-1 <= sz x)%Z) by (apply SZ; rewrite E; apply in_or_app; right; left; reflexivity).
    wb. eapply wfa_getn; [exact FF|exact Hx|]. wb. eapply wfa_getn; [exact FS|exact Hx|].
    assert (E' : l = (dn ++ [x]) ++ rest) by (rewrite <- app_assoc; exact E).
    destruct (Z.geb_spec (sz x) maxf) as [G|G]; cbn.
    + split; [exact E'|]. split; [exact LK|]. split; [symmetry; apply lastz_snoc|]. right.
      exists dn, x, []. split; [reflexivity|]. split; [reflexivity|]. split; [exact EF|]. split; [reflexivity|].
      intros y Hy. apply in_app_or in Hy. destruct Hy as [Hy|[<-|[]]]; [|lia].
      destruct D as [[-> _]|(l1 & b & l2 & D1 & D2 & D3 & D4 & D5)]; [destruct Hy|]. specialize (D5 y Hy). lia.
    + split; [exact E'|]. split; [exact LK|]. split; [symmetry; apply lastz_snoc|]. right.
      destruct D as [[_ D]|(l1 & b & l2 & D1 & D2 & D3 & D4 & D5)]; [unfold EMPTY in D; lia|].
      exists l1, b, (l2 ++ [x]). split; [rewrite D1, <- app_assoc; reflexivity|]. repeat split; auto.
      intros y Hy. apply in_app_or in Hy. destruct Hy as [Hy|[<-|[]]]; [auto|]. lia.
  - split; [reflexivity|]. split; [exact L|]. split; [reflexivity|]. left. auto.
  - exact FU.
Qed.

Lemma snoc_cases {A} (l : list A) : l = [] \/ exists l' x, l = l' ++ [x].
Proof.
  destruct l as [|x l] using rev_ind; [left; reflexivity|right; eauto].
Qed.

Lemma po_move_ok nn Fsize Child Sibling ch sb sz fuel i (kd : nat -> list nat) :
  fa Child nn ch -> fa Sibling nn sb -> fa Fsize nn sz -> i < nn ->
  (forall k, k < nn -> lk sb (ch k) (kd k)) ->
  (forall k x, k < nn -> In x (kd k) -> x < nn) ->
  (forall x, In x (kd i) -> (-1 <= sz x)%Z) ->
  NoDup (kd i) ->
  (forall k x, k < nn -> k <> i -> In x (kd i) -> ~ In x (kd k)) ->
  length (kd i) < fuel ->
  wp (po_move fuel Fsize i (Child, Sibling)) (fun '(C, Sb) =>
    exists ch' sb' l', fa C nn ch' /\ fa Sb nn sb' /\ (forall k, k < nn -> lk sb' (ch' k) (fu kd i l' k)) /\
      ((kd i = [] /\ l' = []) \/ moved sz (kd i) l')).
Proof.
  intros FC FS FF Hi L R SZ ND DJ FU. unfold po_move. wb. eapply wfa_get; [exact FC|exact Hi|].
  rewrite (lk_empty _ _ _ (L i Hi)). destruct (kd i) as [|x0 t0] eqn:EK.
  - cbn. exists ch, sb, []. split; [exact FC|]. split; [exact FS|]. split; [|left; auto].
    intros k Hk. unfold fu. destruct (Nat.eqb_spec k i) as [->|]; [rewrite <- EK|]; apply L; exact Hk.
  - rewrite <- EK in *. cbn [negb]. wb.
    eapply wp_conseq; [apply (po_biggest_ok nn Sibling Fsize sb sz fuel (ch i) (kd i)); auto|].
    { intros x Hx. apply (R i); assumption. }
    { rewrite EK. discriminate. }
    intros [[fprev bigfprev] bigf] (l1 & b & l2 & E & -> & -> & -> & MX).
    clear x0 t0 EK.
    assert (Hb : b < nn) by (apply (R i); [exact Hi|rewrite E; apply in_or_app; right; left; reflexivity]).
    pose proof (L i Hi) as Li. rewrite E in Li. apply lseg_app in Li. destruct Li as (m & L1 & -> & L2).
    wb. eapply wfa_getn; [exact FS|exact Hb|]. rewrite (lk_empty _ _ _ L2).
    destruct l2 as [|y l2'].
    + cbn. exists ch, sb, (kd i). split; [exact FC|]. split; [exact FS|]. split.
      * intros k Hk. unfold fu. destruct (Nat.eqb_spec k i) as [->|]; apply L; exact Hk.
      * right. exists l1, b, []. split; [exact E|]. split; [exact E|]. exact MX.
    + cbn [negb]. destruct (snoc_cases (y :: l2')) as [X|(l3 & z & E3)]; [discriminate|].
      rewrite E3 in *. clear y l2' E3.
      assert (ND' := ND). rewrite E in ND'. apply NoDup_remove in ND'. destruct ND' as [ND1 NI].
      assert (Hz : z < nn) by (apply (R i); [exact Hi|rewrite E; apply in_or_app; right; right; apply in_or_app; right; left; reflexivity]).
      assert (ZB : z <> b) by (intros ->; apply NI; rewrite app_assoc; apply in_or_app; right; left; reflexivity).
      assert (ZI : In z (kd i)) by (rewrite E; apply in_or_app; right; right; apply in_or_app; right; left; reflexivity).
      assert (BI : In b (kd i)) by (rewrite E; apply in_or_app; right; left; reflexivity).
      assert (LZ : lastz (kd i) = Z.of_nat z).
      { rewrite E. replace (l1 ++ b :: l3 ++ [z]) with ((l1 ++ b :: l3) ++ [z]) by (rewrite <- app_assoc; reflexivity). apply lastz_snoc. }
      rewrite LZ. apply lseg_snoc in L2. destruct L2 as [L2 LZE].
      assert (NZ : ~ In z (l1 ++ l3)).
      { rewrite app_assoc in ND1. intros I. apply NoDup_remove_2 in ND1. rewrite app_nil_r in ND1. auto. }
      assert (NB : ~ In b (l1 ++ l3)).
      { intros I. apply NI. rewrite app_assoc. apply in_or_app. left. exact I. }
      wb. destruct (snoc_cases l1) as [->|(l4 & w & ->)].
      * change (lastz []) with EMPTY. rewrite Z.eqb_refl. wb. eapply wfa_set; [exact FC|exact Hi|]. intros C' FC'.
        cbn [bind]. apply wp_ret. wb. eapply wfa_setn; [exact FS|exact Hb|]. intros S1 FS1. wb. eapply wfa_setn; [exact FS1|exact Hz|].
        intros S2 FS2. cbn. eexists _, _, (l3 ++ [z] ++ [b]). split; [exact FC'|]. split; [exact FS2|]. split.
        -- intros k Hk. unfold fu at 3 4. destruct (Nat.eqb_spec k i) as [->|NE].
           ++ apply lseg_app. exists (Z.of_nat z). split.
              ** eapply lseg_ext; [|exact L2]. intros x Hx. rewrite !fu_ne; [reflexivity| |]; intros ->; [apply NB|apply NZ]; exact Hx.
              ** cbn. split; [reflexivity|]. rewrite fu_eq. split; [reflexivity|]. rewrite fu_ne by congruence. apply fu_eq.
           ++ eapply lseg_ext; [|apply L; exact Hk]. intros x Hx. rewrite !fu_ne; [reflexivity| |]; intros ->; match goal with H : In ?y (kd k) |- False => exact (DJ k y Hk NE ltac:(assumption) H) end.
        -- right. exists [], b, (l3 ++ [z]). split; [exact E|]. split; [rewrite <- app_assoc; reflexivity|exact MX].
      * rewrite lastz_snoc, nat_not_empty. apply lseg_snoc in L1. destruct L1 as [L1 LW].
        assert (WI : In w (kd i)) by (rewrite E; apply in_or_app; left; apply in_or_app; right; left; reflexivity).
        assert (Hw : w < nn) by (apply (R i); assumption).
        assert (NW : ~ In w (l4 ++ l3)).
        { rewrite <- app_assoc in ND1. cbn in ND1. apply NoDup_remove_2 in ND1. intros I. apply ND1. rewrite app_assoc. apply in_or_app. left. exact I. }
        assert (WB : w <> b) by (intros ->; apply NI; apply in_or_app; left; apply in_or_app; right; left; reflexivity).
        assert (WZ : w <> z) by (intros ->; apply NZ; apply in_or_app; left; apply in_or_app; right; left; reflexivity).
        wb. eapply wfa_setn; [exact FS|exact Hw|]. intros S0 FS0. cbn [bind]. apply wp_ret.
        wb. eapply wfa_setn; [exact FS0|exact Hb|]. intros S1 FS1. wb. eapply wfa_setn; [exact FS1|exact Hz|].
        intros S2 FS2. cbn. eexists _, _, ((l4 ++ [w]) ++ (l3 ++ [z]) ++ [b]). split; [exact FC|]. split; [exact FS2|]. split.
        -- intros k Hk. unfold fu at 4. destruct (Nat.eqb_spec k i) as [->|NE].
           ++ apply lseg_app. exists (sb b). split.
              ** apply lseg_snoc. split.
                 --- eapply lseg_ext; [|exact L1]. intros x Hx. rewrite !fu_ne; [reflexivity| | |]; intros ->.
                     +++ apply NW. apply in_or_app. left. exact Hx.
                     +++ apply NB. apply in_or_app. left. apply in_or_app. left. exact Hx.
                     +++ apply NZ. apply in_or_app. left. apply in_or_app. left. exact Hx.
                 --- rewrite fu_ne by congruence. rewrite fu_ne by congruence. apply fu_eq.
              ** apply lseg_snoc. split; [apply lseg_snoc; split|].
                 --- eapply lseg_ext; [|exact L2]. intros x Hx. rewrite !fu_ne; [reflexivity| | |]; intros ->.
                     +++ apply NW. apply in_or_app. right. exact Hx.
                     +++ apply NB. apply in_or_app. right. exact Hx.
                     +++ apply NZ. apply in_or_app. right. exact Hx.
                 --- apply fu_eq.
                 --- rewrite fu_ne by congruence. apply fu_eq.
           ++ eapply lseg_ext; [|apply L; exact Hk]. intros x Hx. rewrite !fu_ne; [reflexivity| | |]; intros ->; match goal with H : In ?y (kd k) |- False => exact (DJ k y Hk NE ltac:(assumption) H) end.
        -- right. exists (l4 ++ [w]), b, (l3 ++ [z]). split; [exact E|]. split; [reflexivity|exact MX].
Qed.

Lemma moved_perm sz l l' : moved sz l l' -> Permutation l l'.
Proof.
  intros (l1 & b & l2 & -> & -> & _). apply Permutation_app_head. apply Permutation_cons_append.
Qed.

(* the last child is the largest *)
Definition big_last (sz : nat -> Z) (l : list nat) : Prop :=
  l = [] \/ exists l' b, l = l' ++ [b] /\ forall x, In x l -> (sz x <= sz b)%Z.

Lemma moved_big sz l l' : moved sz l l' -> big_last sz l'.
Proof.
  intros M. pose proof (moved_perm _ _ _ M) as P. destruct M as (l1 & b & l2 & -> & -> & H). right.
  exists (l1 ++ l2), b. split; [rewrite app_assoc; reflexivity|]. intros x Hx. apply H.
  eapply Permutation_in; [symmetry; exact P|exact Hx].
Qed.

Lemma po_last_ok nn par el Nv Fsize Child Sibling nv ch sb sz :
  (forall i j, i < nn -> par i = Some j -> j < nn) ->
  fa Nv nn nv -> (forall i, i < nn -> (nv i >? 0)%Z = el i) ->
  fa Fsize nn sz -> (forall i, i < nn -> el i = true -> (-1 <= sz i)%Z) ->
  fa Child nn ch -> fa Sibling nn sb -> (forall i, i < nn -> lk sb (ch i) (kids nn par el i)) ->
  wp (po_last nn Nv Fsize (Child, Sibling)) (fun '(C, Sb) =>
    exists ch' sb' kd, fa C nn ch' /\ fa Sb nn sb' /\ forall i, i < nn ->
      lk sb' (ch' i) (kd i) /\ Permutation (kids nn par el i) (kd i) /\ (el i = true -> big_last sz (kd i))).
Proof.
  intros PR FN HE FF SZ FC FS L. unfold po_last.
  apply (wp_for (fun k '(C, Sb) => exists ch' sb' kd, fa C nn ch' /\ fa Sb nn sb' /\ forall i, i < nn ->
      lk sb' (ch' i) (kd i) /\ Permutation (kids nn par el i) (kd i) /\ (i < k -> el i = true -> big_last sz (kd i)))); [lia| | |].
  - exists ch, sb, (kids nn par el). split; [exact FC|]. split; [exact FS|]. intros i Hi.
    split; [apply L; exact Hi|]. split; [reflexivity|lia].
  - intros i [C Sb] Hi (ch' & sb' & kd & FC' & FS' & H).
    wb. eapply wfa_get; [exact FN|lia|]. rewrite HE by lia. destruct (el i) eqn:EI.
    + eapply wp_conseq; [apply (po_move_ok nn Fsize C Sb ch' sb' sz (nn + 1) i kd); try assumption; try lia|].
      * intros k Hk. apply H. exact Hk.
      * intros k x Hk Hx. eapply Permutation_in in Hx; [|symmetry; apply H; exact Hk]. apply in_kids in Hx. apply Hx.
      * intros x Hx. eapply Permutation_in in Hx; [|symmetry; apply H; lia]. apply in_kids in Hx. apply SZ; apply Hx.
      * eapply Permutation_NoDup; [apply H; lia|]. apply kids_nodup.
      * intros k x Hk NE Hx Hx'. eapply Permutation_in in Hx; [|symmetry; apply H; lia].
        eapply Permutation_in in Hx'; [|symmetry; apply H; lia]. apply in_kids in Hx, Hx'.
        destruct Hx as (_ & _ & X1), Hx' as (_ & _ & X2). congruence.
      * rewrite <- (Permutation_length (proj1 (proj2 (H i ltac:(lia))))).
        unfold kids, kidsfrom. rewrite Nat.sub_0_r.
        assert (length (filter (is_kid par el i) (seq 0 nn)) <= length (seq 0 nn)) as FL
          by (apply NoDup_incl_length; [apply NoDup_filter, seq_NoDup|intros y Hy; apply filter_In in Hy; apply Hy]).
        rewrite seq_length in FL. lia.
      * intros [C2 S2] (c2 & s2 & l' & FC2 & FS2 & LK & D). exists c2, s2, (fu kd i l'). split; [exact FC2|]. split; [exact FS2|].
        intros k Hk. split; [apply LK; exact Hk|]. unfold fu. destruct (Nat.eqb_spec k i) as [->|NE].
        -- destruct (H i Hk) as (_ & P & _). split.
           ++ destruct D as [[D1 ->]|M]; [rewrite <- D1; exact P|]. etransitivity; [exact P|]. eapply moved_perm. exact M.
           ++ intros _ _. destruct D as [[D1 ->]|M]; [left; reflexivity|eapply moved_big; exact M].
        -- destruct (H k Hk) as (_ & P & B). split; [exact P|]. intros Hk2. apply B. lia.
    + cbn. exists ch', sb', kd. split; [exact FC'|]. split; [exact FS'|]. intros k Hk. destruct (H k Hk) as (A & B & D).
      split; [exact A|]. split; [exact B|]. intros Hk2 EK. apply D; [|exact EK]. assert (k <> i) by congruence. lia.
  - intros [C Sb] (ch' & sb' & kd & FC' & FS' & H). exists ch', sb', kd. split; [exact FC'|]. split; [exact FS'|].
    intros i Hi. destruct (H i Hi) as (A & B & D). auto.
Qed.
