(* Numeric factorisation: memory safety and the recurrences it evaluates, for
   every arithmetic. *)
From Coq Require Import List Arith Bool ZArith QArith Lia.
From Verif Require Import Base Num.
From Verif.Model Require Import Spla Ldl.
From Verif.Spec Require Import Matrix Fill.
From Verif.Proofs Require Import SplaP LdlSym.
Import ListNotations.
Open Scope nat_scope.

Section Num.
Context `{O : Ops} (M : spmat F).
Notation n := (sp_n M).
Notation JC := (gd 0 (sp_jc M)).
Notation IR := (gd 0 (sp_ir M)).
Notation PR := (gd f0 (sp_pr M)).
Local Open Scope fl_scope.

(* value scattered to row i by the entries jc_r .. p-1: the last one with that row *)
Definition colv (r p i : nat) : F :=
  fold_left (fun acc q => if Nat.eqb (IR q) i then PR q else acc) (seq (JC r) (p - JC r)) f0.
Definition colval (r i : nat) : F := colv r (JC (r + 1)) i.

Definition subs (R : nat -> nat -> bool) (Lv : nat -> nat -> F) (yv : nat -> F) (j : nat) (l : list nat) (a : F) : F :=
  fold_left (fun acc i => if R j i then acc - Lv j i * yv i else acc) l a.

Definition dsub (Dv yv : nat -> F) (l : list nat) (a : F) : F :=
  fold_left (fun d i => d - yv i / Dv i * yv i) l a.

Definition regul (sg : Z) (eps delta d : F) : F :=
  if fofZ sg * d <=? eps then fofZ sg * delta else d.

Record rowspec (par : nat -> option nat) (R : nat -> nat -> bool) (sgv : nat -> Z) (eps delta : F)
  (r : nat) (pat : list nat) (yv : nat -> F) (Lv : nat -> nat -> F) (Dv : nat -> F) : Prop := {
  rs_nodup : NoDup pat;
  rs_in : forall i, In i pat <-> R r i = true;
  rs_topo : forall l1 i l2, pat = l1 ++ i :: l2 -> forall j, R i j = true -> R r j = true -> In j l1;
  rs_y : forall l1 i l2, pat = l1 ++ i :: l2 -> yv i = subs R Lv yv i l1 (colval r i);
  rs_L : forall i, R r i = true -> Lv r i = yv i / Dv i;
  rs_D : Dv r = regul (sgv r) eps delta (dsub Dv yv pat (colval r r))
}.

Local Open Scope nat_scope.

Lemma colv_S k p i : JC k <= p -> colv k (S p) i = if IR p =? i then PR p else colv k p i.
Proof.
  intros H. unfold colv. replace (S p - JC k) with (S (p - JC k)) by lia.
  rewrite seq_S, fold_left_app. simpl. replace (JC k + (p - JC k)) with p by lia. auto.
Qed.

Lemma colv_none k p i : JC k <= p -> (forall q, JC k <= q < p -> IR q <> i) -> colv k p i = f0.
Proof.
  intros H. induction H as [|p Hp IH]; intros Hn.
  - unfold colv. rewrite Nat.sub_diag. auto.
  - rewrite colv_S by auto. destruct (Nat.eqb_spec (IR p) i) as [Ex|]; [exfalso; apply (Hn p); auto; lia|].
    apply IH. intros q Hq. apply Hn. lia.
Qed.

Context (W : wf_sp M) (U : upper M) (SQ : sp_m M = sp_n M).
Context (par : nat -> option nat) (R : nat -> nat -> bool) (E : etree M n par R).

Lemma nodup_bound (l : list nat) k : NoDup l -> (forall i, In i l -> i < k) -> length l <= k.
Proof.
  intros N H. rewrite <- (seq_length k 0). apply NoDup_incl_length; auto.
  intros x Hx. apply in_seq. specialize (H x Hx). lia.
Qed.

(* the array holds the list l from position t on *)
Definition holds (a : arr nat) (t : nat) (l : list nat) : Prop :=
  forall q x, nth_error l q = Some x -> get a (t + q) = Some x.

Lemma holds_app a t l1 l2 : holds a t (l1 ++ l2) <-> holds a t l1 /\ holds a (t + length l1) l2.
Proof.
  split.
  - intros H. split; intros q x Hq.
    + apply H. rewrite nth_error_app1; auto. apply nth_error_Some. congruence.
    + rewrite <- Nat.add_assoc. apply H. rewrite nth_error_app2 by lia.
      replace (length l1 + q - length l1) with q by lia. auto.
  - intros [H1 H2] q x Hq. destruct (Nat.lt_ge_cases q (length l1)) as [L|L].
    + rewrite nth_error_app1 in Hq by auto. auto.
    + rewrite nth_error_app2 in Hq by auto. apply H2 in Hq. rewrite <- Hq. f_equal. lia.
Qed.

Lemma holds_upd a a' t l i : (forall j, j <> i -> get a' j = get a j) ->
  (i < t \/ t + length l <= i) -> holds a t l -> holds a' t l.
Proof.
  intros G Hi H q x Hq. rewrite G; auto. assert (q < length l) by (apply nth_error_Some; congruence). lia.
Qed.

Lemma holds_one a t x : get a t = Some x -> holds a t [x].
Proof. intros G [|q] y; simpl; [intros [= <-]; rewrite Nat.add_0_r; auto|destruct q; discriminate]. Qed.

Lemma num_push_wp : forall seg pat top (Pt : arr nat) (Q : nat * arr nat -> Prop),
  top + length pat = length Pt -> length seg <= top ->
  holds Pt 0 seg -> holds Pt top pat ->
  (forall Pt', length Pt' = length Pt -> holds Pt' (top - length seg) (seg ++ pat) -> Q (top - length seg, Pt')) ->
  wp (num_push (length seg) top Pt) Q.
Proof.
  intros seg. induction seg as [|x seg IH] using rev_ind; intros pat top Pt Q Lp Lt H1 H2 HQ.
  - simpl. apply (wp_intro _ _ _ eq_refl). rewrite <- (Nat.sub_0_r top) at 1. apply HQ; auto.
    simpl. rewrite Nat.sub_0_r. auto.
  - rewrite app_length in Lt; simpl in Lt. rewrite app_length; simpl. rewrite Nat.add_1_r.
    simpl. wb. apply wp_guard; [apply Nat.ltb_lt; lia|].
    apply holds_app in H1. destruct H1 as [H1 H1'].
    assert (G : get Pt (length seg) = Some x).
    { specialize (H1' 0 x eq_refl). rewrite Nat.add_0_r in H1'. auto. }
    rewrite G; simpl. wb. wset Pt' L' G'; [lia|].
    assert (Gn : forall j, j <> top - 1 -> get Pt' j = get Pt j).
    { intros j Hj. rewrite G'. destruct (Nat.eqb_spec j (top - 1)); auto; lia. }
    apply (IH (x :: pat)).
    + simpl. lia.
    + lia.
    + apply (holds_upd Pt Pt' 0 seg (top - 1)); auto. lia.
    + change (x :: pat) with ([x] ++ pat). apply holds_app. split.
      * apply holds_one. rewrite G', Nat.eqb_refl. auto.
      * simpl. replace (top - 1 + 1) with top by lia. apply (holds_upd Pt Pt' top pat (top - 1)); auto. lia.
    + intros Pt2 L2 H3. replace (top - 1 - length seg) with (top - length (seg ++ [x])) in * by (rewrite app_length; simpl; lia).
      replace (top - S (length seg)) with (top - length (seg ++ [x])) in * by (rewrite app_length; simpl; lia).
      apply HQ; [congruence|]. rewrite <- app_assoc. auto.
Qed.

(* the nodes of l are ordered so that the parent of each is k or comes later *)
Definition topo k (l : list nat) := forall l1 i l2, l = l1 ++ i :: l2 ->
  exists j, par i = Some j /\ (j = k \/ In j l2).

Definition chain (seg : list nat) (cur : nat) := forall l1 i l2, seg = l1 ++ i :: l2 -> par i = Some (hd cur l2).

Record pst (k top : nat) (seg pat : list nat) (Pt Fl : arr nat) : Prop := {
  ps_lP : length Pt = n; ps_lF : length Fl = n;
  ps_top : top + length pat = n;
  ps_seg : holds Pt 0 seg;
  ps_pat : holds Pt top pat;
  ps_nd : NoDup (seg ++ pat);
  ps_R : forall i, In i (seg ++ pat) -> R k i = true;
  ps_F : forall i, i < k -> exists f, get Fl i = Some f /\ f <= k /\ (f = k <-> In i (seg ++ pat));
  ps_Fk : get Fl k = Some k
}.

Lemma Rk_lt k i : k < n -> R k i = true -> i < k.
Proof. intros; eapply et_lt; eauto. Qed.

Lemma num_path_wp k (Pa : arr Z) : k < n -> (forall i, i < n -> get Pa i = Some (pz (par i))) ->
  forall fuel i seg pat top Pt Fl (Q : _ -> Prop),
  pst k top seg pat Pt Fl -> i <= k -> k - i < fuel ->
  (i < k -> R k i = true) -> chain seg i -> (forall x, In x seg -> x < i) ->
  (forall seg' cur Pt' Fl', pst k top seg' pat Pt' Fl' -> chain seg' cur ->
     (cur = k \/ In cur pat) -> (forall x, In x seg -> In x seg') -> (i = k \/ In i (seg' ++ pat)) -> Q (length seg', Pt', Fl')) ->
  wp (num_path fuel k i (length seg) Pa Pt Fl) Q.
Proof.
  intros Hk HP. induction fuel as [|fuel IH]; intros i seg pat top Pt Fl Q PS Hi Hf HR HC HS HQ; [lia|].
  simpl.
  assert (HF : exists f, get Fl i = Some f /\ (f = k <-> (i = k \/ In i (seg ++ pat)))).
  { destruct (Nat.eq_dec i k) as [->|Ne].
    - exists k; split; [apply PS|]. tauto.
    - destruct (ps_F _ _ _ _ _ _ PS i ltac:(lia)) as [f [A [_ B]]]. exists f; split; auto. rewrite B.
      intuition lia. }
  destruct HF as [f [Gf Bf]]. rewrite Gf; simpl.
  destruct (Nat.eqb_spec f k) as [Ef|Ef].
  - apply (wp_intro _ _ _ eq_refl). apply (HQ seg i); auto.
    + destruct (proj1 Bf Ef) as [->|Hin]; auto. right. apply in_app_or in Hin. destruct Hin as [Hin|]; auto.
      specialize (HS i Hin). lia.
    + tauto.
  - assert (Hik : i < k) by (destruct (Nat.eq_dec i k); [exfalso; apply Ef, Bf; auto | lia]).
    assert (Nin : ~ In i (seg ++ pat)) by (intros X; apply Ef, Bf; auto).
    pose proof (HR Hik) as Ri.
    destruct (et_par _ _ _ _ E k i Hk Ri) as [j [Pj Hj]].
    pose proof (et_parR _ _ _ _ E _ _ Pj) as [Lj _].
    assert (ND : NoDup (i :: seg ++ pat)) by (constructor; auto; apply PS).
    assert (Len : length (i :: seg ++ pat) <= k).
    { apply nodup_bound; auto. intros x [<-|Hx]; auto. apply Rk_lt; auto. apply PS; auto. }
    simpl in Len. rewrite app_length in Len. pose proof (ps_top _ _ _ _ _ _ PS) as Lt.
    wb. wset Pt' LP' GP'; [rewrite (ps_lP _ _ _ _ _ _ PS); lia|].
    wb. wset Fl' LF' GF'; [rewrite (ps_lF _ _ _ _ _ _ PS); lia|].
    rewrite HP by lia. rewrite Pj; simpl. destruct (Z.leb_spec 0 (Z.of_nat j)); [|lia]. simpl.
    rewrite Nat2Z.id.
    replace (length seg + 1) with (length (seg ++ [i])) by (rewrite app_length; auto).
    assert (Gn : forall q, q <> length seg -> get Pt' q = get Pt q).
    { intros q Hq. rewrite GP'. destruct (Nat.eqb_spec q (length seg)); auto; lia. }
    assert (InE : forall x, In x ((seg ++ [i]) ++ pat) <-> x = i \/ In x (seg ++ pat)).
    { intros x. rewrite !in_app_iff. simpl. intuition. }
    apply (IH j (seg ++ [i]) pat top); try lia.
    + constructor; try (rewrite ?LP', ?LF'; apply PS); auto.
      * apply holds_app. split.
        -- apply (holds_upd Pt Pt' 0 seg (length seg)); auto. apply PS.
        -- apply holds_one. rewrite GP', Nat.eqb_refl. auto.
      * apply (holds_upd Pt Pt' top pat (length seg)); auto; [lia|apply PS].
      * apply (NoDup_Add (a := i) (l := seg ++ pat)).
        -- rewrite <- app_assoc. apply Add_app.
        -- split; auto. apply PS.
      * intros x Hx. apply InE in Hx. destruct Hx as [->|Hx]; auto. apply PS; auto.
      * intros x Hx. rewrite GF'. destruct (Nat.eqb_spec x i) as [->|Nx].
        -- exists k. split; auto. split; auto. rewrite InE. tauto.
        -- destruct (ps_F _ _ _ _ _ _ PS x Hx) as [g [A [B C]]]. exists g. rewrite InE. split; auto. split; auto.
           rewrite C. intuition.
      * rewrite GF'. destruct (Nat.eqb_spec k i); [auto|apply PS].
    + intros Hjk. destruct Hj as [->|[_ Hj]]; [lia|auto].
    + intros l1 x l2 Es. destruct (list_eq_dec Nat.eq_dec l2 []) as [->|Nn].
      * apply app_inj_tail in Es. destruct Es as [<- <-]. simpl. auto.
      * destruct (exists_last Nn) as [l2' [y ->]]. change (x :: l2' ++ [y]) with ((x :: l2') ++ [y]) in Es.
        rewrite app_assoc in Es. apply app_inj_tail in Es. destruct Es as [Es <-].
        rewrite (HC _ _ _ Es). destruct l2'; auto.
    + intros x Hx. apply in_app_or in Hx. destruct Hx as [Hx|[<-|[]]]; [apply HS in Hx; lia|lia].
    + intros seg' cur Pt2 Fl2 PS2 C2 Hc In2 _. apply (HQ seg' cur); auto.
      * intros x Hx. apply In2. apply in_or_app; auto.
      * right. apply in_or_app. left. apply In2. apply in_or_app; simpl; auto.
Qed.

Lemma topo_app k seg pat cur : chain seg cur -> (cur = k \/ In cur pat) -> topo k pat -> topo k (seg ++ pat).
Proof.
  intros C Hc Ht l1 i l2 Es.
  revert l1 Es. 
  assert (G : forall l1, seg ++ pat = l1 ++ i :: l2 ->
     (exists s2, seg = l1 ++ i :: s2 /\ l2 = s2 ++ pat) \/ (exists s1, l1 = seg ++ s1 /\ pat = s1 ++ i :: l2)).
  { clear C. induction seg as [|x seg IH]; intros l1 Es; simpl in *.
    - right. exists l1. auto.
    - destruct l1 as [|y l1]; simpl in Es; injection Es as -> Es.
      + left. exists seg. auto.
      + destruct (IH l1 Es) as [[s2 [-> ->]]|[s1 [-> ->]]]; [left; exists s2; auto|right; exists s1; auto]. }
  intros l1 Es. destruct (G l1 Es) as [[s2 [E1 ->]]|[s1 [-> E2]]].
  - exists (hd cur s2). split; [apply (C _ _ _ E1)|]. destruct s2 as [|y s2]; simpl.
    + destruct Hc; auto. 
    + auto.
  - destruct (Ht _ _ _ E2) as [j [A B]]. eauto.
Qed.

Lemma PRget : forall k, k < sp_nnz M -> get (sp_pr M) k = Some (PR k).
Proof. intros k Hk. destruct (wf_pr M W k Hk) as [v Hv]. eapply get_gd; eauto. Qed.

Lemma num_pattern_wp k (Pa : arr Z) (Y : arr F) (Pt Fl : arr nat) (Q : _ -> Prop) :
  k < n -> (forall i, i < n -> get Pa i = Some (pz (par i))) ->
  length Y = n -> length Pt = n -> length Fl = n ->
  (forall i, i <= k -> get Y i = Some f0) ->
  (forall i, i < k -> exists f, get Fl i = Some f /\ f < k) -> get Fl k = Some k ->
  (forall pat Y' Pt' Fl',
     length Y' = n -> pst k (n - length pat) [] pat Pt' Fl' -> topo k pat ->
     (forall i, In i pat <-> R k i = true) ->
     (forall i, i <= k -> get Y' i = Some (colval k i)) ->
     Q (n - length pat, Y', Pt', Fl')) ->
  wp (num_pattern n k (sp_jc M) (sp_ir M) (sp_pr M) Pa Y Pt Fl) Q.
Proof.
  intros Hk HP LY LPt LFl HY HF HFk HQ. unfold num_pattern.
  wget (wf_jc M W). wget (wf_jc M W).
  apply (wp_for (fun p st => let '(top, Y, Pt, Fl) := st in exists pat,
     length Y = n /\ pst k top [] pat Pt Fl /\ topo k pat /\
     (forall i, i <= k -> get Y i = Some (colv k p i)) /\
     (forall q, JC k <= q < p -> IR q < k -> In (IR q) pat))).
  - apply (wf_mono M W); lia.
  - exists []. split; auto. split; [|split; [|split]].
    + constructor; auto; simpl; try (intros ? ? Hq; destruct q; discriminate).
      * constructor.
      * intros i Hi. destruct (HF i Hi) as [f [A B]]. exists f. split; auto. split; [lia|]. split; [lia|tauto].
    + intros l1 i l2 Es. destruct l1; discriminate.
    + intros i Hi. rewrite HY by auto. unfold colv. rewrite Nat.sub_diag. auto.
    + lia.
  - intros p [[[top Y1] Pt1] Fl1] Hp [pat [L1 [PS [Tp [GY Cv]]]]].
    assert (Ic : in_col M k p) by (split; [lia|auto]).
    pose proof (in_col_nnz M k p W Ic) as Hn. pose proof (U k p Ic) as Hu.
    wget (wf_ir M W). wget PRget. wb. wset Y2 L2 G2; [lia|].
    wb. change 0 with (length (@nil nat)) at 2.
    apply (num_path_wp k Pa Hk HP (S n) (IR p) [] pat top); auto; try lia.
    + intros Hlt. apply (et_adj _ _ _ _ E); auto. split; auto. exists p; auto.
    + intros l1 i l2 Es. destruct l1; discriminate.
    + intros x [].
    + intros seg cur Pt2 Fl2 PS2 C2 Hc _ Hin.
      assert (Len : length (seg ++ pat) <= k).
      { apply nodup_bound; [apply PS2|]. intros x Hx. apply Rk_lt; auto. apply PS2; auto. }
      rewrite app_length in Len. pose proof (ps_top _ _ _ _ _ _ PS2) as Lt.
      wb. apply (num_push_wp seg pat); try apply PS2.
      * rewrite (ps_lP _ _ _ _ _ _ PS2). auto.
      * lia.
      * intros Pt3 L3 H3. apply (wp_intro _ _ _ eq_refl). exists (seg ++ pat).
        split; [congruence|]. split; [|split; [|split]].
        -- destruct PS2. constructor; auto.
           ++ congruence.
           ++ rewrite app_length. lia.
           ++ intros q x Hq. destruct q; discriminate.
        -- eapply topo_app; eauto.
        -- intros i Hi. rewrite G2, colv_S by lia. rewrite (Nat.eqb_sym i).
           destruct (Nat.eqb_spec (IR p) i) as [Ei|]; auto.
        -- intros q Hq Hlt. destruct (Nat.eq_dec q p) as [->|].
           ++ destruct Hin as [Hin|Hin]; auto. lia.
           ++ apply in_or_app. right. apply Cv; auto. lia.
  - intros [[[top Y1] Pt1] Fl1] [pat [L1 [PS [Tp [GY Cv]]]]].
    replace top with (n - length pat) in * by (pose proof (ps_top _ _ _ _ _ _ PS); lia).
    apply HQ; auto. intros i. split; [apply PS|].
    intros HR. revert HR. induction i as [i IH] using lt_wf_ind. intros HR.
    pose proof (Rk_lt _ _ Hk HR) as Lik.
    destruct (et_gen _ _ _ _ E k i Hk HR) as [[_ [q [[_ Iq] <-]]]|[i' [R' P']]].
    + apply Cv; auto.
    + pose proof (et_parR _ _ _ _ E _ _ P').
      assert (Hi' : In i' pat) by (apply IH; auto; lia).
      apply in_split in Hi'. destruct Hi' as [l1 [l2 El]].
      destruct (Tp _ _ _ El) as [j [Pj [->|Hj]]]; rewrite P' in Pj; injection Pj as ->; [lia|].
      rewrite El. apply in_or_app. simpl; auto.
Qed.

(* ---------------------------------------------------------- elimination *)
Notation lp := (starts (cnt R n)).

Lemma topo_anc k pat : k < n -> topo k pat -> (forall x, In x pat -> R k x = true) ->
  forall r i l1 l2, pat = l1 ++ i :: l2 -> r < k -> R r i = true -> In r l2.
Proof.
  intros Hk Tp HR r i. remember (r - i) as m eqn:Em. revert i Em.
  induction m as [m IH] using lt_wf_ind; intros i Em l1 l2 El Hr Ri.
  destruct (et_par _ _ _ _ E r i ltac:(lia) Ri) as [p [Pp Hp]].
  pose proof (et_parR _ _ _ _ E _ _ Pp) as [Lp _].
  destruct (Tp _ _ _ El) as [p' [Pp' Hp']]. rewrite Pp in Pp'. injection Pp' as <-.
  destruct Hp' as [->|Hp']; [destruct Hp as [->|[Hp _]]; lia|].
  destruct Hp as [->|[Hp Rp]]; auto.
  apply in_split in Hp'. destruct Hp' as [a [b ->]].
  apply in_or_app. right. right.
  apply (IH (r - p) ltac:(lia) p eq_refl (l1 ++ i :: a) b); auto.
  rewrite El, <- app_assoc. auto.
Qed.

Lemma subs_ext Lv Lv' yv yv' j l a : (forall i, In i l -> R j i = true -> Lv j i = Lv' j i) ->
  (forall i, In i l -> yv i = yv' i) -> subs R Lv yv j l a = subs R Lv' yv' j l a.
Proof.
  revert a. induction l as [|x l IH]; intros a HL HY; simpl; auto.
  rewrite <- (HY x) by (simpl; auto). destruct (R j x) eqn:X.
  - rewrite <- (HL x) by (simpl; auto). apply IH; intros; [apply HL|apply HY]; simpl; auto.
  - apply IH; intros; [apply HL|apply HY]; simpl; auto.
Qed.

Lemma dsub_ext Dv Dv' yv yv' l a : (forall i, In i l -> Dv i = Dv' i) ->
  (forall i, In i l -> yv i = yv' i) -> dsub Dv yv l a = dsub Dv' yv' l a.
Proof.
  revert a. induction l as [|x l IH]; intros a HL HY; simpl; auto.
  rewrite <- (HY x), <- (HL x) by (simpl; auto). apply IH; intros; [apply HL|apply HY]; simpl; auto.
Qed.

Lemma subs_snoc Lv yv j l i a : subs R Lv yv j (l ++ [i]) a =
  if R j i then (subs R Lv yv j l a - Lv j i * yv i)%fl else subs R Lv yv j l a.
Proof. unfold subs. rewrite fold_left_app. auto. Qed.

Lemma dsub_snoc Dv yv l i a : dsub Dv yv (l ++ [i]) a = (dsub Dv yv l a - yv i / Dv i * yv i)%fl.
Proof. unfold dsub. rewrite fold_left_app. auto. Qed.

Lemma pos_lt k i : i < n -> k < n -> R k i = true -> lp i + cnt R k i < lp n.
Proof.
  intros Hi Hk HR. pose proof (cnt_lt R i k n Hk HR). pose proof (starts_mono (cnt R n) (S i) n Hi).
  simpl in H0. lia.
Qed.

Lemma pos_inj r i r' i' : r < n -> r' < n -> R r i = true -> R r' i' = true ->
  lp i + cnt R r i = lp i' + cnt R r' i' -> r = r' /\ i = i'.
Proof.
  intros H1 H2 R1 R2 Eq.
  apply starts_inj in Eq; try (apply cnt_lt; auto). destruct Eq as [-> Ec]. split; auto.
  destruct (Nat.lt_trichotomy r r') as [L|[L|L]]; auto.
  - pose proof (cnt_lt R i' _ _ L R1). lia.
  - pose proof (cnt_lt R i' _ _ L R2). lia.
Qed.

(* entries of the first k rows of L are where they should be *)
Definition stored (k : nat) (Lv : nat -> nat -> F) (Li : arr nat) (Lx : arr F) : Prop :=
  forall r i, r < k -> R r i = true ->
    get Li (lp i + cnt R r i) = Some r /\ get Lx (lp i + cnt R r i) = Some (Lv r i).

Lemma col_update k i Lv (Li : arr nat) (Lx Y : arr F) (yi : F) (y : nat -> F) (Q : arr F -> Prop) :
  k < n -> i < k -> stored k Lv Li Lx -> length Y = n ->
  (forall j, j <= k -> get Y j = Some (y j)) ->
  (forall Y', length Y' = n ->
     (forall j, j < k -> get Y' j = Some (if R j i then (y j - Lv j i * yi)%fl else y j)) ->
     get Y' k = Some (y k) -> Q Y') ->
  wp (for_ (lp i) (lp i + cnt R k i) (fun p Y =>
      r <- get Li p ;; l <- get Lx p ;; y <- get Y r ;; set Y r (y - l * yi)%fl) Y) Q.
Proof.
  intros Hk Hi St LY GY HQ.
  apply (wp_for (fun p Y' => length Y' = n /\ forall j, j <= k -> get Y' j =
     Some (if R j i && (lp i + cnt R j i <? p) then (y j - Lv j i * yi)%fl else y j))).
  - lia.
  - split; auto. intros j Hj. rewrite GY by auto. destruct (Nat.ltb_spec (lp i + cnt R j i) (lp i)); [lia|].
    rewrite andb_false_r. auto.
  - intros p Y' Hp [L' G'].
    destruct (cnt_find R i k (p - lp i) ltac:(lia)) as [r [Hr [Rr Cr]]].
    destruct (St r i Hr Rr) as [S1 S2]. replace (lp i + cnt R r i) with p in * by lia.
    rewrite S1; simpl. rewrite S2; simpl. rewrite (G' r) by lia. simpl.
    rewrite Rr. simpl. replace (lp i + cnt R r i) with p by lia. rewrite Nat.ltb_irrefl.
    wset Y2 L2 G2; [lia|]. split; [congruence|]. intros j Hj. rewrite G2.
    destruct (Nat.eqb_spec j r) as [->|Nj].
    + rewrite Rr. replace (lp i + cnt R r i) with p by lia. destruct (Nat.ltb_spec p (S p)); [auto|lia].
    + rewrite G' by auto. destruct (R j i) eqn:Rj; auto. simpl.
      destruct (Nat.ltb_spec (lp i + cnt R j i) p), (Nat.ltb_spec (lp i + cnt R j i) (S p)); auto; try lia.
      exfalso. apply Nj. assert (Ec : cnt R j i = cnt R r i) by lia.
      destruct (Nat.lt_trichotomy j r) as [L|[L|L]]; auto.
      * pose proof (cnt_lt R i _ _ L Rj). lia.
      * pose proof (cnt_lt R i _ _ L Rr). lia.
  - intros Y' [L' G']. apply HQ; auto.
    + intros j Hj. rewrite G' by lia. destruct (R j i) eqn:Rj; auto. simpl.
      pose proof (cnt_lt R i _ _ Hj Rj). destruct (Nat.ltb_spec (lp i + cnt R j i) (lp i + cnt R k i)); auto; lia.
    + rewrite G' by lia. destruct (Nat.ltb_spec (lp i + cnt R k i) (lp i + cnt R k i)); [lia|].
      rewrite andb_false_r. auto.
Qed.

Record elst (k : nat) (pat l1 : list nat) (yv : nat -> F) (Lv : nat -> nat -> F) (Dv : nat -> F)
  (Lnz Li : arr nat) (Lx D Y : arr F) : Prop := {
  es_lN : length Lnz = n; es_lI : length Li = lp n; es_lX : length Lx = lp n;
  es_lD : length D = n; es_lY : length Y = n;
  es_N1 : forall i, i < k -> In i l1 -> get Lnz i = Some (cnt R k i + 1);
  es_N2 : forall i, i < k -> ~ In i l1 -> get Lnz i = Some (cnt R k i);
  es_Nk : get Lnz k = Some 0;
  es_S : stored k Lv Li Lx;
  es_I : forall i, In i l1 -> get Li (lp i + cnt R k i) = Some k;
  es_X : forall i, In i l1 -> get Lx (lp i + cnt R k i) = Some (yv i / Dv i)%fl;
  es_D : forall i, i < k -> get D i = Some (Dv i);
  es_Dk : get D k = Some (dsub Dv yv l1 (colval k k));
  es_Y1 : forall j, In j l1 -> get Y j = Some f0;
  es_Y2 : forall j, j < k -> ~ In j l1 -> get Y j = Some (subs R Lv yv j l1 (colval k j));
  es_Yk : get Y k = Some f0;
  es_y : forall a i b, l1 = a ++ i :: b -> yv i = subs R Lv yv i a (colval k i)
}.

Lemma num_elim_wp k pat l1 i l2 yv Lv Dv (Lp Lnz Li : arr nat) (Lx D Y : arr F) (Q : _ -> Prop) :
  k < n -> vec Lp (n + 1) lp -> topo k pat -> NoDup pat -> (forall x, In x pat -> R k x = true) ->
  pat = l1 ++ i :: l2 ->
  elst k pat l1 yv Lv Dv Lnz Li Lx D Y ->
  (forall yv' Lnz' Li' Lx' D' Y', elst k pat (l1 ++ [i]) yv' Lv Dv Lnz' Li' Lx' D' Y' ->
     Q (Lnz', Li', Lx', D', Y')) ->
  wp (num_elim k i Lp (Lnz, Li, Lx, D, Y)) Q.
Proof.
  intros Hk VLp Tp ND HR El ES HQ. unfold num_elim.
  assert (Ri : R k i = true) by (apply HR; rewrite El; apply in_or_app; simpl; auto).
  pose proof (Rk_lt _ _ Hk Ri) as Hi.
  assert (Ni : ~ In i l1).
  { intros X. rewrite El in ND. apply NoDup_remove_2 in ND. apply ND. apply in_or_app; auto. }
  assert (L1R : forall j, In j l1 -> R k j = true) by (intros j Hj; apply HR; rewrite El; apply in_or_app; auto).
  assert (L1k : forall j, In j l1 -> j < k) by (intros j Hj; apply Rk_lt; auto).
  (* the rows column i touches are not done yet *)
  assert (Fut : forall j, j < k -> R j i = true -> ~ In j l1).
  { intros j Hj Rj X. pose proof (topo_anc k pat Hk Tp HR j i l1 l2 El Hj Rj) as Y2.
    rewrite El in ND. apply NoDup_remove_1 in ND. revert ND X Y2. clear.
    induction l1 as [|a l1 IH]; simpl; [tauto|]. intros ND [->|X] Y2.
    - inversion ND; subst. apply H1. apply in_or_app; auto.
    - inversion ND; subst. auto. }
  assert (Rii : R i i = false).
  { destruct (R i i) eqn:X; auto. pose proof (et_lt _ _ _ _ E i i ltac:(lia) X). lia. }
  set (yi := subs R Lv yv i l1 (colval k i)).
  set (yv' := fun x => if x =? i then yi else yv x).
  assert (Y1 : forall x, In x l1 -> yv x = yv' x).
  { intros x Hx. unfold yv'. destruct (Nat.eqb_spec x i) as [->|]; tauto. }
  assert (Yi : yv' i = yi) by (unfold yv'; rewrite Nat.eqb_refl; auto).
  assert (SE : forall j l a, (forall x, In x l -> In x l1) -> subs R Lv yv j l a = subs R Lv yv' j l a).
  { intros. apply subs_ext; auto. }
  rewrite (es_Y2 _ _ _ _ _ _ _ _ _ _ _ ES i Hi Ni). fold yi. simpl.
  wb. wset Y2 LY2 GY2; [rewrite (es_lY _ _ _ _ _ _ _ _ _ _ _ ES); lia|].
  wget VLp. rewrite (es_N2 _ _ _ _ _ _ _ _ _ _ _ ES i Hi Ni). simpl.
  set (y1 := fun j => if existsb (Nat.eqb j) (i :: l1) || (j =? k) then f0 else subs R Lv yv j l1 (colval k j)).
  wb. eapply (col_update k i Lv Li Lx Y2 yi y1); auto.
  - apply ES.
  - rewrite LY2. apply ES.
  - intros j Hj. rewrite GY2. unfold y1. cbn [existsb].
    destruct (Nat.eqb_spec j i) as [->|Nj]; auto. cbn [orb].
    destruct (existsb (Nat.eqb j) l1) eqn:X; cbn [orb].
    + apply existsb_exists in X. destruct X as [x [Hx Ex]]. apply Nat.eqb_eq in Ex. subst x.
      apply (es_Y1 _ _ _ _ _ _ _ _ _ _ _ ES); auto.
    + destruct (Nat.eqb_spec j k) as [->|Njk]; [exact (es_Yk _ _ _ _ _ _ _ _ _ _ _ ES)|].
      apply (es_Y2 _ _ _ _ _ _ _ _ _ _ _ ES); [lia|]. intros Hin. assert (Yx : existsb (Nat.eqb j) l1 = true).
      { apply existsb_exists. exists j. rewrite Nat.eqb_refl. auto. } congruence.
  - intros Y3 LY3 GY3 GY3k.
    rewrite (es_D _ _ _ _ _ _ _ _ _ _ _ ES i Hi). simpl.
    rewrite (es_Dk _ _ _ _ _ _ _ _ _ _ _ ES). simpl.
    wb. wset D2 LD2 GD2; [rewrite (es_lD _ _ _ _ _ _ _ _ _ _ _ ES); lia|].
    pose proof (pos_lt k i ltac:(lia) Hk Ri) as Hpos.
    wb. wset Li2 LLi2 GLi2; [rewrite (es_lI _ _ _ _ _ _ _ _ _ _ _ ES); lia|].
    wb. wset Lx2 LLx2 GLx2; [rewrite (es_lX _ _ _ _ _ _ _ _ _ _ _ ES); lia|].
    wb. wset N2 LN2 GN2; [rewrite (es_lN _ _ _ _ _ _ _ _ _ _ _ ES); lia|].
    apply (wp_intro _ _ _ eq_refl). apply (HQ yv').
    assert (NotPos : forall r x, r <= k -> R r x = true -> (r <> k \/ x <> i) ->
       (lp x + cnt R r x =? lp i + cnt R k i) = false).
    { intros r x Hr Rx Ne. apply Nat.eqb_neq. intros Eq.
      apply pos_inj in Eq; auto; try lia. }
    constructor; try (rewrite ?LN2, ?LLi2, ?LLx2, ?LD2; apply ES); auto.
    + intros x Hx Hin. rewrite GN2. destruct (Nat.eqb_spec x i) as [->|]; auto.
      apply in_app_or in Hin. destruct Hin as [Hin|[->|[]]]; [apply (es_N1 _ _ _ _ _ _ _ _ _ _ _ ES); auto|tauto].
    + intros x Hx Hin. rewrite GN2. destruct (Nat.eqb_spec x i) as [->|].
      * exfalso. apply Hin. apply in_or_app; simpl; auto.
      * apply (es_N2 _ _ _ _ _ _ _ _ _ _ _ ES); auto. intros Hx1. apply Hin. apply in_or_app; auto.
    + rewrite GN2. destruct (Nat.eqb_spec k i); [lia|exact (es_Nk _ _ _ _ _ _ _ _ _ _ _ ES)].
    + intros r x Hr Rx. rewrite GLi2, GLx2, NotPos by (auto; lia). apply (es_S _ _ _ _ _ _ _ _ _ _ _ ES); auto.
    + intros x Hin. rewrite GLi2. apply in_app_or in Hin. destruct Hin as [Hin|[->|[]]].
      * rewrite NotPos; auto; [apply (es_I _ _ _ _ _ _ _ _ _ _ _ ES); auto|]. right. congruence.
      * rewrite Nat.eqb_refl. auto.
    + intros x Hin. rewrite GLx2. apply in_app_or in Hin. destruct Hin as [Hin|[->|[]]].
      * rewrite NotPos; auto; [|right; congruence]. rewrite <- (Y1 x Hin). apply (es_X _ _ _ _ _ _ _ _ _ _ _ ES); auto.
      * rewrite Nat.eqb_refl. rewrite Yi. auto.
    + intros x Hx. rewrite GD2. destruct (Nat.eqb_spec x k); [lia|]. apply (es_D _ _ _ _ _ _ _ _ _ _ _ ES); auto.
    + rewrite GD2, Nat.eqb_refl, dsub_snoc, Yi. rewrite (dsub_ext Dv Dv yv yv' l1); auto.
    + intros j Hin. assert (Hj : j < k) by (apply in_app_or in Hin; destruct Hin as [Hin|[<-|[]]]; auto).
      rewrite GY3 by auto.
      assert (Ey : y1 j = f0).
      { unfold y1. replace (existsb (Nat.eqb j) (i :: l1)) with true; auto. symmetry.
        apply existsb_exists. exists j. rewrite Nat.eqb_refl. split; auto.
        apply in_app_or in Hin. simpl. destruct Hin as [Hin|[<-|[]]]; auto. }
      destruct (R j i) eqn:Rj; [|congruence].
      apply in_app_or in Hin. destruct Hin as [Hin|[<-|[]]]; [|congruence].
      exfalso. apply (Fut j); auto.
    + intros j Hj Hin. rewrite GY3 by auto. rewrite subs_snoc, Yi.
      assert (Ey : y1 j = subs R Lv yv' j l1 (colval k j)).
      { unfold y1. replace (existsb (Nat.eqb j) (i :: l1)) with false.
        - destruct (Nat.eqb_spec j k); [lia|]. cbn [orb]. apply SE; auto.
        - symmetry. apply not_true_is_false. intros X. apply existsb_exists in X.
          destruct X as [x [Hx Ex]]. apply Nat.eqb_eq in Ex. subst x. apply Hin.
          apply in_or_app. simpl in *. destruct Hx as [->|]; auto. }
      rewrite Ey. auto.
    + rewrite GY3k. unfold y1. rewrite Nat.eqb_refl, orb_true_r. auto.
    + intros a x b Eab. destruct (list_eq_dec Nat.eq_dec b []) as [->|Nn].
      * apply app_inj_tail in Eab. destruct Eab as [<- <-]. rewrite Yi. unfold yi. apply SE; auto.
      * destruct (exists_last Nn) as [b' [z ->]]. change (x :: b' ++ [z]) with ((x :: b') ++ [z]) in Eab.
        rewrite app_assoc in Eab. apply app_inj_tail in Eab. destruct Eab as [Eab <-].
        rewrite <- (Y1 x) by (rewrite Eab; apply in_or_app; simpl; auto).
        rewrite <- (SE x a) by (intros; rewrite Eab; apply in_or_app; auto).
        apply (es_y _ _ _ _ _ _ _ _ _ _ _ ES a x b'). auto.
Qed.

Record numst (sgv : nat -> Z) (eps delta : F) (k : nat) (Lv : nat -> nat -> F) (Dv : nat -> F)
  (Lnz Li : arr nat) (Lx D Y : arr F) (Pt Fl : arr nat) : Prop := {
  ns_lN : length Lnz = n; ns_lI : length Li = lp n; ns_lX : length Lx = lp n;
  ns_lD : length D = n; ns_lY : length Y = n; ns_lP : length Pt = n; ns_lF : length Fl = n;
  ns_N : forall i, i < k -> get Lnz i = Some (cnt R k i);
  ns_S : stored k Lv Li Lx;
  ns_D : forall i, i < k -> get D i = Some (Dv i);
  ns_Y : forall i, i < k -> get Y i = Some f0;
  ns_F : forall i, i < k -> exists f, get Fl i = Some f /\ f < k;
  ns_rows : forall r, r < k -> exists pat yv, rowspec par R sgv eps delta r pat yv Lv Dv
}.

Lemma rowspec_ext sgv eps delta r pat yv Lv Lv' Dv Dv' : r < n ->
  (forall s i, s <= r -> R s i = true -> Lv s i = Lv' s i) -> (forall i, i <= r -> Dv i = Dv' i) ->
  rowspec par R sgv eps delta r pat yv Lv Dv -> rowspec par R sgv eps delta r pat yv Lv' Dv'.
Proof.
  intros Hr HL HD RS. destruct RS as [r1 r2 r3 r4 r5 r6].
  assert (Pl : forall i, In i pat -> i < r) by (intros i Hi; apply (et_lt _ _ _ _ E); auto; apply r2; auto).
  constructor; auto.
  - intros l1 i l2 El. rewrite (r4 l1 i l2 El). apply subs_ext; auto.
    intros x _ Hx. apply HL; auto. assert (In i pat) by (rewrite El; apply in_or_app; simpl; auto).
    specialize (Pl i H). lia.
  - intros i Hi. rewrite <- HL by auto. rewrite r5 by auto. rewrite HD; auto.
    apply r2 in Hi. specialize (Pl i Hi). lia.
  - rewrite <- HD, r6 by auto. f_equal. apply dsub_ext; auto.
    intros i Hi. apply HD. specialize (Pl i Hi). lia.
Qed.

Lemma LDL_numeric2_wp (sgv : nat -> Z) (eps delta : F) (Lp : arr nat) (Pa Sign : arr Z)
  (Lnz Li : arr nat) (Lx D Y : arr F) (Pt Fl : arr nat) (Q : _ -> Prop) :
  vec Lp (n + 1) lp -> (forall i, i < n -> get Pa i = Some (pz (par i))) -> vec Sign n sgv ->
  length Lnz = n -> length Li = lp n -> length Lx = lp n -> length D = n -> length Y = n ->
  length Pt = n -> length Fl = n ->
  (forall Lv Dv Lnz' Li' Lx' D' Y' Pt' Fl',
     numst sgv eps delta n Lv Dv Lnz' Li' Lx' D' Y' Pt' Fl' ->
     Q (Lnz', Li', Lx', D', Y', Pt', Fl')) ->
  wp (LDL_numeric2 n (sp_jc M) (sp_ir M) (sp_pr M) Lp Pa Sign eps delta Lnz Li Lx D Y Pt Fl) Q.
Proof.
  intros VLp HP VS L1 L2 L3 L4 L5 L6 L7 HQ. unfold LDL_numeric2.
  apply (wp_for (fun k st => let '(Lnz, Li, Lx, D, Y, Pt, Fl) := st in
     exists Lv Dv, numst sgv eps delta k Lv Dv Lnz Li Lx D Y Pt Fl)); [lia| | |].
  - exists (fun _ _ => f0), (fun _ => f0). constructor; auto; try lia. intros r i Hr; lia.
  - clear L1 L2 L3 L4 L5 L6 L7. intros k [[[[[[N0 I0] X0] D0] Y0] P0] F0] Hk [Lv [Dv NS]]. destruct NS.
    wb. wset Y1 LY1 GY1; [lia|]. wb. wset F1 LF1 GF1; [lia|]. wb. wset N1 LN1 GN1; [lia|].
    wb. apply num_pattern_wp; auto; try lia.
    + intros i Hi. rewrite GY1. destruct (Nat.eqb_spec i k); auto. apply ns_Y0. lia.
    + intros i Hi. rewrite GF1. destruct (Nat.eqb_spec i k); [lia|]. auto.
    + rewrite GF1, Nat.eqb_refl; auto.
    + intros pat Y2 P2 F2 LY2 PS Tp HIn GY2.
      assert (Plt : forall i, In i pat -> i < k) by (intros i Hi; apply Rk_lt; [lia|]; apply HIn; auto).
      assert (ND : NoDup pat) by apply (ps_nd _ _ _ _ _ _ PS).
      rewrite GY2 by auto. simpl. wb. wset D1 LD1 GD1; [lia|]. wb. wset Y3 LY3 GY3; [lia|].
      pose proof (ps_top _ _ _ _ _ _ PS) as Lt.
      wb. apply (wp_for (fun t st => let '(Lnz, Li, Lx, D, Y) := st in
        exists l1 l2 yv, pat = l1 ++ l2 /\ t = n - length pat + length l1 /\
          elst k pat l1 yv Lv Dv Lnz Li Lx D Y)).
      * lia.
      * exists [], pat, (fun _ => f0). split; auto. split; [simpl; lia|].
        constructor; simpl; try congruence; try tauto.
        -- intros i Hi _. rewrite GN1. destruct (Nat.eqb_spec i k); [lia|]. auto.
        -- rewrite GN1, Nat.eqb_refl. auto.
        -- intros i Hi. rewrite GD1. destruct (Nat.eqb_spec i k); [lia|]. auto.
        -- rewrite GD1, Nat.eqb_refl. auto.
        -- intros j Hj _. rewrite GY3. destruct (Nat.eqb_spec j k); [lia|]. apply GY2. lia.
        -- rewrite GY3, Nat.eqb_refl. auto.
        -- intros a i b Eab. destruct a; discriminate.
      * intros t [[[[Na Ia] Xa] Da] Ya] Ht [l1 [l2 [yv [El [Et ES]]]]].
        assert (Ln : length pat = length l1 + length l2) by (rewrite El; apply app_length).
        destruct l2 as [|i l2]; [simpl in Ln; lia|].
        assert (Gp : get P2 t = Some i).
        { rewrite Et. apply (ps_pat _ _ _ _ _ _ PS). rewrite El, nth_error_app2, Nat.sub_diag; auto. }
        rewrite Gp; simpl.
        apply (num_elim_wp k pat l1 i l2 yv Lv Dv); auto; try lia; [intros x Hx; apply HIn; auto|].
        intros yv' Nb Ib Xb Db Yb ES'. exists (l1 ++ [i]), l2, yv'. split; [rewrite <- app_assoc; auto|].
        split; auto. rewrite app_length; simpl; lia.
      * intros [[[[Na Ia] Xa] Da] Ya] [l1 [l2 [yv [El [Et ES]]]]].
        assert (Ln : length pat = length l1 + length l2) by (rewrite El; apply app_length).
        assert (l2 = []) by (destruct l2; auto; simpl in Ln; lia). subst l2. rewrite app_nil_r in El. subst l1.
        destruct ES. rewrite es_Dk0. simpl. wget VS. wb. wset Db LDb GDb; [lia|].
        apply (wp_intro _ _ _ eq_refl).
        set (Dv' := fun i => if i =? k then regul (sgv k) eps delta (dsub Dv yv pat (colval k k)) else Dv i).
        set (Lv' := fun r i => if r =? k then (yv i / Dv i)%fl else Lv r i).
        assert (EL : forall r i, r < k -> Lv r i = Lv' r i).
        { intros r i Hr. unfold Lv'. destruct (Nat.eqb_spec r k); auto; lia. }
        assert (ED : forall i, i < k -> Dv i = Dv' i).
        { intros i Hi. unfold Dv'. destruct (Nat.eqb_spec i k); auto; lia. }
        assert (Ck : forall i, i < k -> ~ In i pat -> R k i = false).
        { intros i Hi Hn. apply not_true_is_false. intros X. apply Hn, HIn. auto. }
        assert (RS : rowspec par R sgv eps delta k pat yv Lv' Dv').
        { constructor; auto.
          - intros l1 i l2 El j Rij Rkj.
            assert (Hik : i < k) by (apply Plt; rewrite El; apply in_or_app; simpl; auto).
            assert (Hj : In j pat) by (apply HIn; auto). rewrite El in Hj. apply in_app_or in Hj.
            destruct Hj as [Hj|[->|Hj]]; auto.
            + pose proof (et_lt _ _ _ _ E j j ltac:(lia) Rij). lia.
            + exfalso. apply in_split in Hj. destruct Hj as [a [b ->]].
              assert (El2 : pat = (l1 ++ i :: a) ++ j :: b) by (rewrite El, <- app_assoc; auto).
              pose proof (topo_anc k pat ltac:(lia) Tp ltac:(intros x Hx; apply HIn; auto) i j _ _ El2 Hik Rij) as Hb.
              rewrite El in ND. apply NoDup_remove_2 in ND. apply ND. apply in_or_app. right.
              apply in_or_app. simpl; auto.
          - intros l1 i l2 El. rewrite (es_y0 l1 i l2 El). apply subs_ext; auto.
            intros x _ _. apply EL. apply Plt. rewrite El. apply in_or_app; simpl; auto.
          - intros i Ri. unfold Lv'. rewrite Nat.eqb_refl. rewrite <- ED; auto.
            apply Rk_lt; auto; lia.
          - unfold Dv' at 1. rewrite Nat.eqb_refl. f_equal. apply dsub_ext; auto. }
        exists Lv', Dv'. constructor; try congruence; try apply PS.
        -- intros i Hi. simpl. destruct (Nat.eq_dec i k) as [->|Ne].
           ++ rewrite es_Nk0. f_equal. rewrite cnt_0.
              ** destruct (R k k) eqn:X; auto. pose proof (et_lt _ _ _ _ E k k ltac:(lia) X). lia.
              ** intros r Hr. apply not_true_is_false. intros X.
                 pose proof (et_lt _ _ _ _ E r k ltac:(lia) X). lia.
           ++ destruct (in_dec Nat.eq_dec i pat) as [Hin|Hin].
              ** apply HIn in Hin as Rki. rewrite Rki. apply es_N3; auto; lia.
              ** rewrite Ck by (auto; lia). rewrite Nat.add_0_r. apply es_N4; auto; lia.
        -- intros r i Hr Ri. destruct (Nat.eq_dec r k) as [->|Ne].
           ++ apply HIn in Ri. split; [apply es_I0; auto|]. unfold Lv'. rewrite Nat.eqb_refl. auto.
           ++ rewrite <- EL by lia. apply es_S0; auto; lia.
        -- intros i Hi. rewrite GDb. unfold Dv'. destruct (Nat.eqb_spec i k) as [->|Ne]; [reflexivity|].
           apply es_D0. lia.
        -- intros i Hi. destruct (Nat.eq_dec i k) as [->|Ne]; auto.
           destruct (in_dec Nat.eq_dec i pat) as [Hin|Hin]; auto.
           rewrite es_Y4 by (auto; lia). f_equal.
           assert (Rf : R k i = false) by (apply Ck; auto; lia).
           assert (Ec : colval k i = f0).
           { apply colv_none; [apply (wf_mono M W); lia|]. intros q Hq Eq.
             assert (R k i = true); [|congruence]. apply (et_adj _ _ _ _ E); [lia|]. split; [lia|].
             exists q. split; auto. split; auto; lia. }
           rewrite Ec. clear - E Rf Hi Ne Hk HIn.
           assert (Hl : forall x, In x pat -> R i x = false).
           { intros x Hx. apply not_true_is_false. intros X. apply HIn in Hx.
             pose proof (et_lt _ _ _ _ E i x ltac:(lia) X).
             rewrite (et_closed M n par R E k i x) in Rf; auto; try lia; try discriminate. }
           revert Hl. generalize pat. intros l Hl. unfold subs. induction l as [|x l IH]; simpl; auto.
           rewrite Hl by (simpl; auto). apply IH. intros y Hy. apply Hl; simpl; auto.
        -- intros i Hi. destruct (Nat.eq_dec i k) as [->|Ne].
           ++ exists k. split; [apply PS|lia].
           ++ destruct (ps_F _ _ _ _ _ _ PS i ltac:(lia)) as [f [A [B _]]]. exists f. split; auto. lia.
        -- intros r Hr. destruct (Nat.eq_dec r k) as [->|Ne]; [eauto|].
           destruct (ns_rows0 r ltac:(lia)) as [pat' [yv' RS']]. exists pat', yv'.
           apply (rowspec_ext sgv eps delta r pat' yv' Lv Lv' Dv Dv'); auto; [lia| |].
           ++ intros s i Hs _. apply EL. lia.
           ++ intros i Hi. apply ED. lia.
  - intros [[[[[[N0 I0] X0] D0] Y0] P0] F0] [Lv [Dv NS]]. eapply HQ; eauto.
Qed.


(* the factor as a matrix *)
Definition lmat (Lp Li : arr nat) (Lx : arr F) : spmat F := mkSp Lp Li Lx n n (lp n).

Lemma lmat_col k Lv Lp Li Lx : vec Lp (n + 1) lp -> stored k Lv Li Lx -> k = n ->
  forall i p, in_col (lmat Lp Li Lx) i p <->
  exists r, r < n /\ i < n /\ R r i = true /\ p = lp i + cnt R r i.
Proof.
  intros V St -> i p. unfold in_col; simpl. split.
  - intros [Hi [H1 H2]]. rewrite (gd_get 0 Lp i (lp i)) in H1 by (apply V; lia).
    rewrite (gd_get 0 Lp (i + 1) (lp (i + 1))) in H2 by (apply V; lia).
    rewrite Nat.add_1_r in H2. simpl in H2.
    destruct (cnt_find R i n (p - lp i) ltac:(lia)) as [r [Hr [Rr Cr]]].
    exists r. repeat split; auto. lia.
  - intros [r [Hr [Hi [Rr ->]]]]. split; auto.
    rewrite (gd_get 0 Lp i (lp i)) by (apply V; lia).
    rewrite (gd_get 0 Lp (i + 1) (lp (i + 1))) by (apply V; lia).
    rewrite Nat.add_1_r. simpl. pose proof (cnt_lt R i r n Hr Rr). lia.
Qed.

Lemma pos_find p m : p < lp m -> m <= n -> exists r i, r < n /\ i < m /\ R r i = true /\ p = lp i + cnt R r i.
Proof.
  induction m as [|m IH]; simpl; intros H Hm; [lia|].
  destruct (Nat.lt_ge_cases p (lp m)) as [L|L].
  - destruct (IH L ltac:(lia)) as [r [i [A [B C]]]]. exists r, i. repeat split; try tauto; lia.
  - destruct (cnt_find R m n (p - lp m) ltac:(lia)) as [r [Hr [Rr Cr]]].
    exists r, m. repeat split; auto; lia.
Qed.

Lemma lmat_wf Lv Lp Li Lx : vec Lp (n + 1) lp -> stored n Lv Li Lx ->
  wf_sp (lmat Lp Li Lx) /\ strictly_lower (lmat Lp Li Lx) /\ nodup (lmat Lp Li Lx) /\
  (forall r i, r < n -> (has_entry (lmat Lp Li Lx) r i <-> R r i = true)).
Proof.
  intros V St.
  assert (GL : forall i, i <= n -> gd 0 Lp i = lp i) by (intros i Hi; apply gd_get, V; lia).
  assert (Col := lmat_col n Lv Lp Li Lx V St eq_refl).
  assert (Row : forall r i, r < n -> R r i = true -> gd 0 Li (lp i + cnt R r i) = r).
  { intros r i Hr Rr. apply gd_get. apply St; auto. }
  split; [|split; [|split]].
  - constructor; simpl.
    + intros i Hi. rewrite (V i Hi), GL by lia. auto.
    + rewrite GL by lia. auto.
    + intros j Hj. rewrite !GL by lia. apply starts_mono. lia.
    + apply GL. lia.
    + intros p Hp. destruct (pos_find p n Hp ltac:(lia)) as [r [i [A [B [C ->]]]]].
      apply (get_gd 0 _ _ r). apply St; auto.
    + intros p Hp. destruct (pos_find p n Hp ltac:(lia)) as [r [i [A [B [C ->]]]]].
      rewrite Row; auto.
    + intros p Hp. destruct (pos_find p n Hp ltac:(lia)) as [r [i [A [B [C ->]]]]].
      exists (Lv r i). apply St; auto.
  - intros j p Ip. apply Col in Ip. destruct Ip as [r [Hr [Hj [Rr ->]]]]. simpl. rewrite Row by auto.
    apply (et_lt _ _ _ _ E); auto.
  - intros j p q Ip Iq. apply Col in Ip. apply Col in Iq.
    destruct Ip as [r [Hr [Hj [Rr ->]]]], Iq as [r' [Hr' [_ [Rr' ->]]]]. simpl.
    rewrite !Row by auto. intros ->. auto.
  - intros r i Hr. split.
    + intros [p [Ip Ep]]. apply Col in Ip. destruct Ip as [r' [Hr' [Hj [Rr ->]]]]. simpl in Ep.
      rewrite Row in Ep by auto. congruence.
    + intros Rr. assert (Hi : i < r) by (apply (et_lt _ _ _ _ E); auto).
      exists (lp i + cnt R r i). split; [apply Col; exists r; repeat split; auto; lia|]. simpl. apply Row; auto.
Qed.

End Num.
