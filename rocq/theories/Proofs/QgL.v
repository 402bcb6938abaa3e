(* amd_2.c: the degree lists and the hash buckets *)
From Coq Require Import List Arith ZArith Bool Lia.
From Verif Require Import Base.
From Verif.Model Require Import Amd Amd2.
From Verif.Proofs Require Import AmdB AmdL.
Import ListNotations.
Open Scope Z_scope.

Definition firstz (l : list nat) : Z := match l with [] => EMPTY | x :: _ => Z.of_nat x end.
(* the predecessors of the members of l, p being that of the first *)
Fixpoint bk (la : nat -> Z) (p : Z) (l : list nat) : Prop :=
  match l with [] => True | x :: l => la x = p /\ bk la (Z.of_nat x) l end.
Definition lastp (p : Z) (l : list nat) : Z := last (map Z.of_nat l) p.

Lemma bk_ext la la' l : forall p, (forall x, In x l -> la' x = la x) -> bk la p l -> bk la' p l.
Proof.
  induction l as [|x l IH]; intros p H A; [exact I|]. destruct A as [A1 A2]. split; [rewrite H; [exact A1|left; auto]|].
  apply IH; [|exact A2]. intros y Hy. apply H. right; auto.
Qed.
Lemma bk_snoc la l x : forall p, bk la p (l ++ [x]) <-> bk la p l /\ la x = lastp p l.
Proof.
  induction l as [|y l IH]; intros p; cbn [app bk].
  - unfold lastp. cbn. tauto.
  - rewrite IH. unfold lastp. cbn [map]. replace (last (Z.of_nat y :: map Z.of_nat l) p) with (last (map Z.of_nat l) (Z.of_nat y)); [tauto|].
    destruct (map Z.of_nat l) as [|a m] eqn:E; [reflexivity|]. clear. revert a. induction m as [|b m IH]; intros a; [reflexivity|].
    cbn [last]. cbn [last] in IH. destruct m; [reflexivity|]. apply (IH b).
Qed.
Lemma lastp_snoc p l x : lastp p (l ++ [x]) = Z.of_nat x.
Proof. unfold lastp. rewrite map_app. apply last_last. Qed.
Lemma bk_app la l1 l2 : forall p, bk la p (l1 ++ l2) <-> bk la p l1 /\ bk la (lastp p l1) l2.
Proof.
  revert l1. induction l2 as [|x l2 IH]; intros l1 p; [rewrite app_nil_r; cbn; tauto|].
  replace (l1 ++ x :: l2) with ((l1 ++ [x]) ++ l2) by (rewrite <- app_assoc; reflexivity). rewrite IH, bk_snoc, lastp_snoc. cbn [bk]. tauto.
Qed.
Lemma bk_p la p q l : l = [] \/ p = q -> bk la p l -> bk la q l.
Proof. intros [->| ->]; auto. Qed.

Lemma firstz_ge l : -1 <= firstz l. Proof. destruct l; cbn; unfold EMPTY; lia. Qed.
Lemma firstz_empty l : (firstz l =? EMPTY) = match l with [] => true | _ => false end.
Proof. destruct l; [reflexivity|]. apply nat_not_empty. Qed.
Lemma lk_first sb h l : lk sb h l -> h = firstz l.
Proof. destruct l; cbn; [auto|]. intros [H _]; auto. Qed.

(* dl d: the variables of degree d; hb c: those in hash bucket c.  While the
   degree list is empty its head holds the flipped head of the bucket, otherwise
   the Last of its first variable does. *)
Record dls (n : nat) (h nx la : nat -> Z) (dl hb : nat -> list nat) : Prop := {
  dl_lt : forall x d, In x (dl d) -> (x < n)%nat /\ (d < n)%nat;
  hb_lt : forall x d, In x (hb d) -> (x < n)%nat /\ (d < n)%nat;
  dl_nd : forall d, NoDup (dl d);
  hb_nd : forall d, NoDup (hb d);
  dl_uniq : forall x d d', In x (dl d) -> In x (dl d') -> d = d';
  hb_uniq : forall x d d', In x (hb d) -> In x (hb d') -> d = d';
  dl_hb : forall x d d', In x (dl d) -> In x (hb d') -> False;
  dl_next : forall d, lk nx (firstz (dl d)) (dl d);
  hb_next : forall d, lk nx (firstz (hb d)) (hb d);
  dl_back : forall d, bk la (firstz (hb d)) (dl d);
  hb_last : forall x d, In x (hb d) -> la x = Z.of_nat d;
  ls_head : forall d, (d < n)%nat -> h d = match dl d with [] => FLIP (firstz (hb d)) | y :: _ => Z.of_nat y end
}.

Definition lsa (n : nat) (l : lists) (h nx la : nat -> Z) : Prop := let '(H, N, L) := l in fa H n h /\ fa N n nx /\ fa L n la.
Definition LS (n : nat) (l : lists) (dl hb : nat -> list nat) : Prop := exists h nx la, lsa n l h nx la /\ dls n h nx la dl hb.

(* changing Next outside the lists *)
Lemma dls_nx n h nx nx' la dl hb : dls n h nx la dl hb ->
  (forall x d, In x (dl d) \/ In x (hb d) -> nx' x = nx x) -> dls n h nx' la dl hb.
Proof.
  intros D H. constructor; try apply D.
  - intros d. eapply lseg_ext; [|apply (dl_next _ _ _ _ _ _ D)]. intros x Hx. symmetry. eapply H; eauto.
  - intros d. eapply lseg_ext; [|apply (hb_next _ _ _ _ _ _ D)]. intros x Hx. symmetry. eapply H; eauto.
Qed.

Section Ops.
Context (n : nat).

Lemma link_ok i d l dl hb : LS n l dl hb -> (i < n)%nat -> (d < n)%nat -> (forall c, hb c = []) -> (forall c, ~ In i (dl c)) ->
  wp (link (Z.of_nat i) (Z.of_nat d) l) (fun l' => LS n l' (fu dl d (i :: dl d)) hb).
Proof.
  intros (h & nx & la & F & D) Hi Hd Hh Hn. destruct l as [[H N] L]. destruct F as (F1 & F2 & F3). unfold link.
  wb. eapply wfa_getn; [exact F1|exact Hd|]. rewrite (ls_head _ _ _ _ _ _ D d Hd), Hh.
  assert (E : match dl d with [] => FLIP (firstz []) | y :: _ => Z.of_nat y end = firstz (dl d)) by (destruct (dl d); reflexivity). rewrite E, firstz_empty.
  assert (X : exists la', (forall x, ~ In x (dl d) -> la' x = la x) /\ bk la' (Z.of_nat i) (dl d) /\
     la' = match dl d with [] => la | y :: _ => fu la y (Z.of_nat i) end).
  { eexists. split; [|split; [|reflexivity]].
    - intros x Hx. destruct (dl d) as [|y t]; [reflexivity|]. apply fu_ne. intros ->. apply Hx. left; auto.
    - pose proof (dl_back _ _ _ _ _ _ D d) as Bd. pose proof (dl_nd _ _ _ _ _ _ D d) as Nd. destruct (dl d) as [|y t]; [exact I|]. destruct Bd as [_ Bd]. split; [apply fu_eq|].
      eapply bk_ext; [|exact Bd]. intros x Hx. apply fu_ne. intros ->. inversion Nd; auto. }
  destruct X as (la' & X1 & X2 & X3).
  wb. eapply (wp_conseq _ (fun L' => fa L' n la')).
  { destruct (dl d) as [|y t] eqn:Ed; cbn [negb firstz]; [rewrite X3; exact F3|]. eapply wfa_setn; [exact F3|apply (dl_lt _ _ _ _ _ _ D y d); rewrite Ed; left; auto|].
    intros L' G. rewrite X3. exact G. }
  intros L1 G1. wb. eapply wfa_setn; [exact F2|exact Hi|]. intros N1 G2. wb. eapply wfa_setn; [exact G1|exact Hi|]. intros L2 G3. wb. eapply wfa_setn; [exact F1|exact Hd|]. intros H1 G4.
  cbn [wp]. eexists _, _, _. split; [split; [exact G4|split; [exact G2|exact G3]]|].
  assert (Ih : forall x c, In x (hb c) -> False) by (intros x c Hx; rewrite Hh in Hx; exact Hx).
  constructor; try (intros; exfalso; eapply Ih; eassumption).
  - intros x c. unfold fu. destruct (Nat.eqb_spec c d) as [->|]; [|apply (dl_lt _ _ _ _ _ _ D)]. intros [<-|Hx]; [auto|]. apply (dl_lt _ _ _ _ _ _ D); auto.
  - intros c. unfold fu. destruct (Nat.eqb_spec c d) as [->|]; [|apply (dl_nd _ _ _ _ _ _ D)]. constructor; [apply Hn|apply (dl_nd _ _ _ _ _ _ D)].
  - intros c. rewrite Hh. constructor.
  - intros x c c'. unfold fu. destruct (Nat.eqb_spec c d) as [->|], (Nat.eqb_spec c' d) as [->|]; auto.
    + intros [<-|Hx] Hy; [exfalso; eapply Hn; eauto|]. eapply (dl_uniq _ _ _ _ _ _ D); eauto.
    + intros Hy [<-|Hx]; [exfalso; eapply Hn; eauto|]. eapply (dl_uniq _ _ _ _ _ _ D); eauto.
    + apply (dl_uniq _ _ _ _ _ _ D).
  - intros c. unfold fu at 2 3. destruct (Nat.eqb_spec c d) as [->|].
    + cbn [firstz lseg]. split; [auto|]. rewrite fu_eq. eapply lseg_ext; [|apply (dl_next _ _ _ _ _ _ D)]. intros x Hx. symmetry. apply fu_ne. intros ->. eapply Hn; eauto.
    + eapply lseg_ext; [|apply (dl_next _ _ _ _ _ _ D)]. intros x Hx. symmetry. apply fu_ne. intros ->. eapply Hn; eauto.
  - intros c. rewrite Hh. reflexivity.
  - intros c. rewrite Hh. unfold fu at 2. destruct (Nat.eqb_spec c d) as [->|].
    + cbn [firstz bk]. split; [apply fu_eq|]. eapply bk_ext; [|exact X2]. intros x Hx. apply fu_ne. intros ->. eapply Hn; eauto.
    + pose proof (dl_back _ _ _ _ _ _ D c) as Bc. rewrite Hh in Bc. eapply bk_ext; [|exact Bc]. intros x Hx. rewrite fu_ne by (intros ->; eapply Hn; eauto).
      apply X1. intros Hx'. apply n0. eapply (dl_uniq _ _ _ _ _ _ D); eauto.
  - intros c Hc. rewrite Hh. unfold fu. destruct (Nat.eqb_spec c d) as [->|]; [reflexivity|]. rewrite (ls_head _ _ _ _ _ _ D c Hc), Hh. reflexivity.
Qed.

(* a member of list d, between a and b, leaves it *)
Lemma out_ok i d a b h nx la dl hb h' nx' la' :
  dls n h nx la dl hb -> (d < n)%nat -> (forall c, hb c = []) -> dl d = a ++ i :: b ->
  (forall x, nx' x = if Nat.eqb (match rev a with [] => n | y :: _ => y end) x then firstz b else nx x) ->
  (forall x, la' x = if Nat.eqb (match b with [] => n | y :: _ => y end) x then lastp EMPTY a else la x) ->
  (forall c, (c < n)%nat -> h' c = if Nat.eqb c d then firstz (a ++ b) else h c) ->
  dls n h' nx' la' (fu dl d (a ++ b)) hb.
Proof.
  intros D Hd Hh E Enx Ela Eh.
  assert (Ih : forall x c, In x (hb c) -> False) by (intros x c Hx; rewrite Hh in Hx; exact Hx).
  assert (Mem : forall x, In x (a ++ b) -> In x (dl d)) by (intros x; rewrite E, !in_app_iff; cbn [In]; tauto).
  assert (Sub : forall x c, In x (fu dl d (a ++ b) c) -> In x (dl c)). { intros x c. unfold fu. destruct (Nat.eqb_spec c d) as [->|]; auto. }
  pose proof (dl_nd _ _ _ _ _ _ D d) as ND. rewrite E in ND.
  assert (IA : forall x, In x (rev a) -> In x a) by (intros; apply in_rev; auto).
  constructor; try (intros; exfalso; eapply Ih; eassumption).
  - intros x c Hx. apply (dl_lt _ _ _ _ _ _ D); auto.
  - intros c. unfold fu. destruct (Nat.eqb_spec c d) as [->|]; [|apply (dl_nd _ _ _ _ _ _ D)]. eapply NoDup_remove_1; eauto.
  - intros c. rewrite Hh. constructor.
  - intros x c c' H1 H2. eapply (dl_uniq _ _ _ _ _ _ D); eauto.
  - intros c. unfold fu. destruct (Nat.eqb_spec c d) as [->|Hc].
    + pose proof (dl_next _ _ _ _ _ _ D d) as Nx. rewrite E in Nx. apply lseg_app in Nx. destruct Nx as (m & Nx1 & Nx2). destruct Nx2 as [-> Nx2].
      pose proof (lk_first _ _ _ Nx2) as Ei. rewrite Ei in Nx2.
      assert (Nb : lk nx' (firstz b) b).
      { eapply lseg_ext; [|exact Nx2]. intros x Hx. rewrite Enx. destruct (Nat.eqb_spec (match rev a with [] => n | y :: _ => y end) x) as [Y|]; [|reflexivity]. exfalso.
        destruct (rev a) as [|y t] eqn:Er.
        - assert (x < n)%nat; [|lia]. apply (dl_lt _ _ _ _ _ _ D x d). rewrite E, in_app_iff. cbn. auto.
        - subst y. assert (In x a) by (apply IA; left; auto).
          apply in_split in H. destruct H as (a1 & a2 & ->). rewrite <- app_assoc in ND. cbn in ND. apply NoDup_remove_2 in ND. apply ND. rewrite !in_app_iff. cbn. tauto. }
      destruct (snoc_cases a) as [->|(a' & y & ->)]; [exact Nb|].
      replace (firstz ((a' ++ [y]) ++ b)) with (firstz ((a' ++ [y]) ++ i :: b)) by (destruct a'; reflexivity).
      apply lseg_app. exists (firstz b). split; [|exact Nb]. apply lseg_snoc in Nx1. destruct Nx1 as [Nx1 Nx3]. apply lseg_snoc. split.
      * eapply lseg_ext; [|exact Nx1]. intros x Hx. rewrite Enx, rev_app_distr. cbn [rev app]. destruct (Nat.eqb_spec y x) as [->|]; [|reflexivity]. exfalso.
        rewrite <- app_assoc in ND. cbn in ND. apply NoDup_remove_2 in ND. apply ND. rewrite in_app_iff. auto.
      * rewrite Enx, rev_app_distr. cbn [rev app]. rewrite Nat.eqb_refl. reflexivity.
    + eapply lseg_ext; [|apply (dl_next _ _ _ _ _ _ D)]. intros x Hx. rewrite Enx. destruct (Nat.eqb_spec (match rev a with [] => n | y :: _ => y end) x) as [Y|]; [|reflexivity]. exfalso.
      destruct (rev a) as [|y t] eqn:Er; [apply (dl_lt _ _ _ _ _ _ D) in Hx; lia|]. subst y. apply Hc. eapply (dl_uniq _ _ _ _ _ _ D); [exact Hx|].
      rewrite E, in_app_iff. left. apply IA. left; auto.
  - intros c. rewrite Hh. reflexivity.
  - intros c. rewrite Hh. unfold fu. destruct (Nat.eqb_spec c d) as [->|Hc].
    + pose proof (dl_back _ _ _ _ _ _ D d) as Bd. rewrite E, Hh in Bd. apply bk_app in Bd. destruct Bd as [B1 B2]. destruct B2 as [B2 B3]. cbn [firstz] in *. apply bk_app. split.
      * eapply bk_ext; [|exact B1]. intros x Hx. rewrite Ela. destruct (Nat.eqb_spec (match b with [] => n | y :: _ => y end) x) as [Y|]; [|reflexivity]. exfalso.
        destruct b as [|y t]; [assert (x < n)%nat; [|lia]; apply (dl_lt _ _ _ _ _ _ D x d); rewrite E, in_app_iff; auto|]. subst y.
        apply in_split in Hx. destruct Hx as (a1 & a2 & ->). rewrite <- app_assoc in ND. cbn in ND. apply NoDup_remove_2 in ND. apply ND. rewrite !in_app_iff. cbn. tauto.
      * destruct b as [|y t]; [exact I|]. destruct B3 as [_ B3]. split; [rewrite Ela, Nat.eqb_refl; reflexivity|]. eapply bk_ext; [|exact B3].
        intros x Hx. rewrite Ela. destruct (Nat.eqb_spec y x) as [->|]; [|reflexivity]. exfalso.
        replace (a ++ i :: x :: t) with ((a ++ [i]) ++ x :: t) in ND by (rewrite <- app_assoc; reflexivity). apply NoDup_remove_2 in ND. apply ND. rewrite in_app_iff. auto.
    + pose proof (dl_back _ _ _ _ _ _ D c) as Bc. rewrite Hh in Bc. eapply bk_ext; [|exact Bc]. intros x Hx. rewrite Ela.
      destruct (Nat.eqb_spec (match b with [] => n | y :: _ => y end) x) as [Y|]; [|reflexivity]. exfalso.
      destruct b as [|y t]; [apply (dl_lt _ _ _ _ _ _ D) in Hx; lia|]. subst y. apply Hc. eapply (dl_uniq _ _ _ _ _ _ D); [exact Hx|]. rewrite E, in_app_iff. cbn. auto.
  - intros c Hc. rewrite Hh, Eh by auto. unfold fu. destruct (Nat.eqb_spec c d) as [->|].
    + destruct (a ++ b); reflexivity.
    + rewrite (ls_head _ _ _ _ _ _ D c Hc), Hh. reflexivity.
Qed.

Lemma unlink_ok Degree dg i d l dl hb : LS n l dl hb -> fa Degree n dg -> (forall c, hb c = []) -> In i (dl d) -> dg i = Z.of_nat d ->
  wp (unlink Degree (Z.of_nat i) l) (fun l' => exists a b, dl d = a ++ i :: b /\ LS n l' (fu dl d (a ++ b)) hb).
Proof.
  intros (h & nx & la & F & D) FD Hh Hin Hdg. destruct l as [[H N] L]. destruct F as (F1 & F2 & F3). unfold unlink.
  destruct (dl_lt _ _ _ _ _ _ D i d Hin) as [Hi Hd]. destruct (in_split _ _ Hin) as (a & b & E).
  wb. eapply wfa_getn; [exact F3|exact Hi|]. wb. eapply wfa_getn; [exact F2|exact Hi|].
  assert (E1 : la i = lastp EMPTY a).
  { pose proof (dl_back _ _ _ _ _ _ D d) as Bd. rewrite E, Hh in Bd. apply bk_app in Bd. destruct Bd as [_ [Bd _]]. exact Bd. }
  assert (E2 : nx i = firstz b).
  { pose proof (dl_next _ _ _ _ _ _ D d) as Nx. rewrite E in Nx. apply lseg_app in Nx. destruct Nx as (m & _ & [_ Nx]). apply lk_first in Nx. exact Nx. }
  rewrite E1, E2, firstz_empty.
  set (la' := fun x => if Nat.eqb (match b with [] => n | y :: _ => y end) x then lastp EMPTY a else la x).
  wb. eapply (wp_conseq _ (fun L' => fa L' n la')).
  { destruct b as [|y t]; cbn [negb firstz].
    - eapply fa_ext; [exact F3|]. intros x Hx. unfold la'. destruct (Nat.eqb_spec n x); [lia|reflexivity].
    - eapply wfa_setn; [exact F3|apply (dl_lt _ _ _ _ _ _ D y d); rewrite E, in_app_iff; cbn; auto|]. intros L' G. eapply fa_ext; [exact G|].
      intros x Hx. unfold la', fu. rewrite Nat.eqb_sym. reflexivity. }
  intros L1 G1. set (nx' := fun x => if Nat.eqb (match rev a with [] => n | y :: _ => y end) x then firstz b else nx x).
  destruct (snoc_cases a) as [->|(a' & y & ->)].
  - cbn [lastp map last]. destruct (Z.eqb_spec EMPTY EMPTY) as [_|E0]; [|congruence]. cbn [negb]. wb. eapply wfa_getn; [exact FD|exact Hi|]. rewrite Hdg.
    wb. eapply wfa_setn; [exact F1|exact Hd|]. intros H1 G2. cbn [wp]. exists [], b. split; [exact E|].
    exists (fu h d (firstz b)), nx', la'. split.
    + split; [exact G2|]. split; [|exact G1]. eapply fa_ext; [exact F2|]. intros x Hx. unfold nx'. cbn [rev]. destruct (Nat.eqb_spec n x); [lia|reflexivity].
    + apply (out_ok i d [] b h nx la dl hb); auto. 
  - rewrite lastp_snoc, nat_not_empty. cbn [negb]. assert (Hy : (y < n)%nat) by (apply (dl_lt _ _ _ _ _ _ D y d); rewrite E, !in_app_iff; cbn; auto).
    wb. eapply wfa_setn; [exact F2|exact Hy|]. intros N1 G2. cbn [wp]. exists (a' ++ [y]), b. split; [exact E|].
    exists h, nx', la'. split.
    + split; [exact F1|]. split; [|exact G1]. eapply fa_ext; [exact G2|]. intros x Hx. unfold nx', fu. rewrite rev_app_distr. cbn [rev app]. rewrite Nat.eqb_sym. reflexivity.
    + apply (out_ok i d (a' ++ [y]) b h nx la dl hb); auto. intros c Hc. destruct (Nat.eqb_spec c d) as [->|]; [|reflexivity].
      rewrite (ls_head _ _ _ _ _ _ D d Hd), E. destruct a'; reflexivity.
Qed.

Lemma find_ok Head h nx la dl hb : fa Head n h -> dls n h nx la dl hb -> (forall c, hb c = []) ->
  forall c d me0, (d + c = n)%nat -> (exists d', (d <= d')%nat /\ dl d' <> []) ->
  wp (find_degree c (Z.of_nat d) me0 Head) (fun '(deg, me) => exists d' m t, deg = Z.of_nat d' /\ me = Z.of_nat m /\ (d <= d')%nat /\ dl d' = m :: t /\
     forall e, (d <= e < d')%nat -> dl e = []).
Proof.
  intros F D Hh. induction c as [|c IH]; intros d me0 Hd (d0 & D1 & D2).
  - exfalso. destruct (dl d0) as [|x t] eqn:E; [congruence|]. destruct (dl_lt _ _ _ _ _ _ D x d0); [rewrite E; left; auto|]. lia.
  - cbn [find_degree]. wb. eapply wfa_getn; [exact F|lia|]. rewrite (ls_head _ _ _ _ _ _ D d) by lia. rewrite Hh. destruct (dl d) as [|m t] eqn:E.
    + cbn [firstz]. change (FLIP EMPTY) with EMPTY. destruct (Z.eqb_spec EMPTY EMPTY) as [_|E0]; [|congruence]. cbn [negb].
      replace (Z.of_nat d + 1) with (Z.of_nat (S d)) by lia. eapply wp_conseq; [apply (IH (S d)); [lia|]|].
      * exists d0. split; [|exact D2]. assert (d0 <> d) by (intros ->; congruence). lia.
      * intros [deg me] (d' & m & t & X1 & X2 & X3 & X4 & X5). exists d', m, t. split; [auto|]. split; [auto|]. split; [lia|]. split; [auto|].
        intros e He. destruct (Nat.eq_dec e d) as [->|]; [exact E|]. apply X5. lia.
    + rewrite nat_not_empty. cbn [negb wp]. exists d, m, t. split; [auto|]. split; [auto|]. split; [lia|]. split; [auto|]. intros; lia.
Qed.

Lemma choose_ok mindeg l dl hb : LS n l dl hb -> (forall c, hb c = []) -> (exists d, (mindeg <= d)%nat /\ dl d <> []) ->
  wp (choose_pivot n (Z.of_nat mindeg) l) (fun '(me, deg, l') => exists d m t, me = Z.of_nat m /\ deg = Z.of_nat d /\ (mindeg <= d)%nat /\ dl d = m :: t /\
     (forall e, (mindeg <= e < d)%nat -> dl e = []) /\ LS n l' (fu dl d t) hb).
Proof.
  intros (h & nx & la & F & D) Hh Hne. destruct l as [[H N] L]. destruct F as (F1 & F2 & F3). unfold choose_pivot.
  assert (Hm : (mindeg < n)%nat).
  { destruct Hne as (d & D1 & D2). destruct (dl d) as [|x t] eqn:E; [congruence|]. destruct (dl_lt _ _ _ _ _ _ D x d); [rewrite E; left; auto|]. lia. }
  wb. eapply wp_conseq; [apply (find_ok H h nx la dl hb F1 D Hh (Z.to_nat (Z.of_nat n - Z.of_nat mindeg)) mindeg EMPTY); [lia|exact Hne]|].
  intros [deg me] (d & m & t & -> & -> & X1 & X2 & X3). cbv beta iota.
  destruct (dl_lt _ _ _ _ _ _ D m d) as [Mn Dn]; [rewrite X2; left; auto|].
  wb. eapply wfa_getn; [exact F2|exact Mn|].
  assert (E2 : nx m = firstz t).
  { pose proof (dl_next _ _ _ _ _ _ D d) as Nx. rewrite X2 in Nx. destruct Nx as [_ Nx]. apply lk_first in Nx. exact Nx. }
  rewrite E2, firstz_empty. set (la' := fun x => if Nat.eqb (match t with [] => n | y :: _ => y end) x then EMPTY else la x).
  wb. eapply (wp_conseq _ (fun L' => fa L' n la')).
  { destruct t as [|y t']; cbn [negb firstz].
    - eapply fa_ext; [exact F3|]. intros x Hx. unfold la'. destruct (Nat.eqb_spec n x); [lia|reflexivity].
    - eapply wfa_setn; [exact F3|apply (dl_lt _ _ _ _ _ _ D y d); rewrite X2; cbn; auto|]. intros L' G. eapply fa_ext; [exact G|].
      intros x Hx. unfold la', fu. rewrite Nat.eqb_sym. reflexivity. }
  intros L1 G1. wb. eapply wfa_setn; [exact F1|exact Dn|]. intros H1 G2. cbn [wp]. exists d, m, t. csplit; auto.
  set (nx' := fun x => if Nat.eqb n x then firstz t else nx x).
  exists (fu h d (firstz t)), nx', la'. split.
  - split; [exact G2|]. split; [|exact G1]. eapply fa_ext; [exact F2|]. intros x Hx. unfold nx'. destruct (Nat.eqb_spec n x); [lia|reflexivity].
  - apply (out_ok m d [] t h nx la dl hb); auto.
Qed.

(* ---- hash buckets ---- *)
Lemma insert_ok i c l h nx la dl hb : lsa n l h nx la -> dls n h nx la dl hb -> (i < n)%nat -> (c < n)%nat ->
  (forall d, ~ In i (dl d)) -> (forall d, ~ In i (hb d)) ->
  wp (hash_insert (Z.of_nat i) (Z.of_nat c) l) (fun l' => exists h' nx' la', lsa n l' h' nx' la' /\ dls n h' nx' la' dl (fu hb c (i :: hb c)) /\
    (forall x, x <> i -> (forall d, ~ In x (dl d)) -> la' x = la x) /\ la' i = Z.of_nat c).
Proof.
  destruct l as [[H N] L]. intros (F1 & F2 & F3) D Hi Hc Nd Nh. unfold hash_insert.
  wb. eapply wfa_getn; [exact F1|exact Hc|]. rewrite (ls_head _ _ _ _ _ _ D c Hc).
  set (la1 := match dl c with [] => la | y :: _ => fu la y (Z.of_nat i) end).
  set (h1 := match dl c with [] => fu h c (FLIP (Z.of_nat i)) | _ => h end).
  assert (LA : forall x, (forall d, ~ In x (dl d)) -> la1 x = la x).
  { intros x Hx. unfold la1. destruct (dl c) as [|y t] eqn:E; [reflexivity|]. apply fu_ne. intros ->. apply (Hx c). rewrite E. left; auto. }
  wb. eapply (wp_conseq _ (fun '(H, N, L) => fa H n h1 /\ fa N n (fu nx i (firstz (hb c))) /\ fa L n la1)).
  { unfold h1, la1. destruct (dl c) as [|y t] eqn:E.
    - pose proof (firstz_ge (hb c)) as G. destruct (Z.leb_spec (FLIP (firstz (hb c))) EMPTY) as [X|X]; [|unfold FLIP, EMPTY in *; lia].
      wb. eapply wfa_setn; [exact F2|exact Hi|]. intros N1 G1. wb. eapply wfa_setn; [exact F1|exact Hc|]. intros H1 G2. cbn [wp].
      replace (FLIP (FLIP (firstz (hb c)))) with (firstz (hb c)) in G1 by (unfold FLIP; lia). auto.
    - destruct (Z.leb_spec (Z.of_nat y) EMPTY) as [X|X]; [unfold EMPTY in X; lia|].
      assert (Hy : (y < n)%nat) by (apply (dl_lt _ _ _ _ _ _ D y c); rewrite E; left; auto).
      pose proof (dl_back _ _ _ _ _ _ D c) as Bc. rewrite E in Bc. destruct Bc as [Bc _].
      wb. eapply wfa_getn; [exact F3|exact Hy|]. rewrite Bc. wb. eapply wfa_setn; [exact F2|exact Hi|]. intros N1 G1. wb. eapply wfa_setn; [exact F3|exact Hy|]. intros L1 G2. cbn [wp]. auto. }
  intros [[H1 N1] L1] (G1 & G2 & G3). cbv beta iota. wb. eapply wfa_setn; [exact G3|exact Hi|]. intros L2 G4. cbn [wp].
  exists h1, (fu nx i (firstz (hb c))), (fu la1 i (Z.of_nat c)). split; [split; auto|].
  split; [|split; [intros x X1 X2; rewrite fu_ne by auto; auto|apply fu_eq]].
  assert (Mem : forall x d, In x (fu hb c (i :: hb c) d) <-> (x = i /\ d = c) \/ In x (hb d)).
  { intros x d. unfold fu. destruct (Nat.eqb_spec d c) as [->|]; cbn [In]; [|tauto]. split; [intros [<-|]|intros [[-> _]|]]; auto. }
  constructor; try apply D.
  - intros x d Hx. apply Mem in Hx. destruct Hx as [[-> ->]|Hx]; [auto|apply (hb_lt _ _ _ _ _ _ D); auto].
  - intros d. unfold fu. destruct (Nat.eqb_spec d c) as [->|]; [|apply (hb_nd _ _ _ _ _ _ D)]. constructor; [apply Nh|apply (hb_nd _ _ _ _ _ _ D)].
  - intros x d d' H1' H2'. apply Mem in H1'. apply Mem in H2'. destruct H1' as [[-> ->]|H1'], H2' as [[E1 E2]|H2']; subst; auto; try (exfalso; eapply Nh; eassumption).
    eapply (hb_uniq _ _ _ _ _ _ D); eauto.
  - intros x d d' H1' H2'. apply Mem in H2'. destruct H2' as [[-> ->]|H2']; [eapply Nd; eauto|]. eapply (dl_hb _ _ _ _ _ _ D); eauto.
  - intros d. eapply lseg_ext; [|apply (dl_next _ _ _ _ _ _ D)]. intros x Hx. symmetry. apply fu_ne. intros ->. eapply Nd; eauto.
  - intros d. assert (X : forall e, lk (fu nx i (firstz (hb c))) (firstz (hb e)) (hb e)).
    { intros e. eapply lseg_ext; [|apply (hb_next _ _ _ _ _ _ D)]. intros x Hx. symmetry. apply fu_ne. intros ->. eapply Nh; eauto. }
    unfold fu at 2 3. destruct (Nat.eqb_spec d c) as [->|]; [|apply X]. cbn [firstz lseg]. rewrite fu_eq. split; [auto|apply X].
  - intros d. assert (X : forall x, In x (dl d) -> fu la1 i (Z.of_nat c) x = la1 x) by (intros x Hx; apply fu_ne; intros ->; eapply Nd; eauto).
    eapply bk_ext; [exact X|]. pose proof (dl_back _ _ _ _ _ _ D d) as Bd. unfold fu, la1. destruct (Nat.eqb_spec d c) as [->|Hdc].
    + pose proof (dl_nd _ _ _ _ _ _ D c) as NDc. destruct (dl c) as [|y t]; [exact I|]. destruct Bd as [_ Bd]. split; [apply fu_eq|]. eapply bk_ext; [|exact Bd].
      intros x Hx. apply fu_ne. intros ->. inversion NDc; auto.
    + eapply bk_ext; [|exact Bd]. intros x Hx. destruct (dl c) as [|y t] eqn:E; [reflexivity|]. apply fu_ne. intros ->. apply Hdc.
      eapply (dl_uniq _ _ _ _ _ _ D); [exact Hx|]. rewrite E. left; auto.
  - intros x d Hx. apply Mem in Hx. destruct Hx as [[-> ->]|Hx]; [apply fu_eq|]. rewrite fu_ne by (intros ->; eapply Nh; eauto). rewrite LA; [apply (hb_last _ _ _ _ _ _ D); auto|].
    intros e He. eapply (dl_hb _ _ _ _ _ _ D); eauto.
  - intros d Hd. unfold h1, fu. destruct (Nat.eqb_spec d c) as [->|Hdc].
    + destruct (dl c) as [|y t] eqn:E; [rewrite Nat.eqb_refl; reflexivity|]. rewrite (ls_head _ _ _ _ _ _ D c Hd), E. reflexivity.
    + rewrite <- (ls_head _ _ _ _ _ _ D d Hd). destruct (dl c); [|reflexivity]. apply Nat.eqb_neq in Hdc. rewrite Hdc. reflexivity.
Qed.

Lemma take_ok c l h nx la dl hb : lsa n l h nx la -> dls n h nx la dl hb -> (c < n)%nat ->
  wp (hash_take (Z.of_nat c) l) (fun '(i, l') => i = firstz (hb c) /\ exists h' la', lsa n l' h' nx la' /\ dls n h' nx la' dl (fu hb c []) /\
    (forall x, (forall d, ~ In x (dl d)) -> la' x = la x)).
Proof.
  destruct l as [[H N] L]. intros (F1 & F2 & F3) D Hc. unfold hash_take.
  set (la1 := match dl c with [] => la | y :: _ => fu la y EMPTY end).
  set (h1 := match dl c with [] => fu h c EMPTY | _ => h end).
  assert (Mem : forall x d, In x (fu hb c [] d) -> In x (hb d)) by (intros x d; unfold fu; destruct (Nat.eqb d c); [intros []|auto]).
  assert (D' : dls n h1 nx la1 dl (fu hb c [])).
  { constructor; try apply D.
    - intros x d Hx. apply (hb_lt _ _ _ _ _ _ D); auto.
    - intros d. unfold fu. destruct (Nat.eqb d c); [constructor|apply D].
    - intros x d d' H1 H2. eapply (hb_uniq _ _ _ _ _ _ D); eauto.
    - intros x d d' H1 H2. eapply (dl_hb _ _ _ _ _ _ D); eauto.
    - intros d. unfold fu. destruct (Nat.eqb d c); [reflexivity|apply D].
    - intros d. pose proof (dl_back _ _ _ _ _ _ D d) as Bd. unfold fu, la1. destruct (Nat.eqb_spec d c) as [->|Hdc].
      + pose proof (dl_nd _ _ _ _ _ _ D c) as NDc. destruct (dl c) as [|y t]; [exact I|]. destruct Bd as [_ Bd]. split; [apply fu_eq|]. eapply bk_ext; [|exact Bd].
        intros x Hx. apply fu_ne. intros ->. inversion NDc; auto.
      + eapply bk_ext; [|exact Bd]. intros x Hx. destruct (dl c) as [|y t] eqn:E; [reflexivity|]. apply fu_ne. intros ->. apply Hdc.
        eapply (dl_uniq _ _ _ _ _ _ D); [exact Hx|]. rewrite E. left; auto.
    - intros x d Hx. apply Mem in Hx. unfold la1. rewrite <- (hb_last _ _ _ _ _ _ D x d Hx). destruct (dl c) as [|y t] eqn:E; [reflexivity|]. apply fu_ne. intros ->.
      apply (dl_hb _ _ _ _ _ _ D y c d); [rewrite E; left|]; auto.
    - intros d Hd. unfold h1, fu. destruct (Nat.eqb_spec d c) as [->|Hdc].
      + destruct (dl c) as [|y t] eqn:E; [rewrite Nat.eqb_refl; reflexivity|]. rewrite (ls_head _ _ _ _ _ _ D c Hd), E. reflexivity.
      + rewrite <- (ls_head _ _ _ _ _ _ D d Hd). destruct (dl c); [|reflexivity]. apply Nat.eqb_neq in Hdc. rewrite Hdc. reflexivity. }
  assert (LA : forall x, (forall d, ~ In x (dl d)) -> la1 x = la x).
  { intros x Hx. unfold la1. destruct (dl c) as [|y t] eqn:E; [reflexivity|]. apply fu_ne. intros ->. apply (Hx c). rewrite E. left; auto. }
  wb. eapply wfa_getn; [exact F1|exact Hc|]. pose proof (ls_head _ _ _ _ _ _ D c Hc) as Eh. rewrite Eh.
  unfold h1, la1 in *. destruct (dl c) as [|y t] eqn:E.
  - destruct (hb c) as [|x b] eqn:Eb; cbn [firstz].
    + change (FLIP EMPTY) with EMPTY. destruct (Z.eqb_spec EMPTY EMPTY) as [_|E0]; [|congruence]. cbn [wp]. split; [reflexivity|]. exists (fu h c EMPTY), la. split; [|split; [exact D'|auto]].
      split; [|auto]. eapply fa_ext; [exact F1|]. intros d Hd. unfold fu. destruct (Nat.eqb_spec d c) as [->|]; [rewrite Eh; reflexivity|reflexivity].
    + destruct (Z.eqb_spec (FLIP (Z.of_nat x)) EMPTY) as [X|X]; [unfold FLIP, EMPTY in X; lia|]. destruct (Z.ltb_spec (FLIP (Z.of_nat x)) EMPTY) as [Y|Y]; [|unfold FLIP, EMPTY in *; lia].
      wb. eapply wfa_setn; [exact F1|exact Hc|]. intros H1 G1. cbn [wp]. split; [unfold FLIP; lia|]. exists (fu h c EMPTY), la. split; [split; auto|]. split; [exact D'|auto].
  - rewrite nat_not_empty. destruct (Z.ltb_spec (Z.of_nat y) EMPTY) as [X|X]; [unfold EMPTY in X; lia|].
    assert (Hy : (y < n)%nat) by (apply (dl_lt _ _ _ _ _ _ D y c); rewrite E; left; auto).
    pose proof (dl_back _ _ _ _ _ _ D c) as Bc. rewrite E in Bc. destruct Bc as [Bc _].
    wb. eapply wfa_getn; [exact F3|exact Hy|]. wb. eapply wfa_setn; [exact F3|exact Hy|]. intros L1 G1. cbn [wp]. split; [exact Bc|].
    exists h, (fu la y EMPTY). split; [split; auto|]. split; [exact D'|]. exact LA.
Qed.
End Ops.
