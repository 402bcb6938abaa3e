(* amd_2.c: clear_flag, scan 1 and scan 2 *)
From Coq Require Import List Arith ZArith Bool Lia Permutation.
From Verif Require Import Base.
From Verif.Model Require Import Amd Amd2.
From Verif.Proofs Require Import AmdB AmdL AmdT QgA QgM QgL QgC.
Import ListNotations.
Open Scope Z_scope.

Definition inb (x : nat) (l : list nat) : bool := if in_dec Nat.eq_dec x l then true else false.
Lemma inb_in x l : inb x l = true <-> In x l.
Proof. unfold inb. destruct (in_dec Nat.eq_dec x l); split; intros; try discriminate; tauto. Qed.
Lemma inb_not x l : inb x l = false <-> ~ In x l.
Proof. rewrite <- inb_in. destruct (inb x l); split; intros; congruence. Qed.
Lemma inb_app x l l' : inb x (l ++ l') = inb x l || inb x l'.
Proof. apply eq_true_iff_eq. rewrite orb_true_iff, !inb_in, in_app_iff. tauto. Qed.
Lemma inb_one x y : inb x [y] = Nat.eqb x y.
Proof. apply eq_true_iff_eq. rewrite inb_in, Nat.eqb_eq. cbn. split; [intros [|[]]; auto|auto]. Qed.

Lemma clear_flag_ok n W w wflg wbig : fa W n w -> (forall x, (x < n)%nat -> 0 <= w x /\ (2 <= wflg -> w x < wflg)) ->
  wp (clear_flag wflg wbig W n) (fun '(wflg', W') => exists w', fa W' n w' /\ 2 <= wflg' /\ forall x, (x < n)%nat -> 0 <= w' x < wflg' /\ (w' x = 0 <-> w x = 0)).
Proof.
  intros F H. unfold clear_flag. destruct ((wflg <? 2) || (wbig <=? wflg)) eqn:E.
  - wb. eapply wp_conseq.
    { apply (wp_for (fun k W' => fa W' n (fun x => if (x <? k)%nat then if w x =? 0 then 0 else 1 else w x)) 0 n _ W
        (fun W' => fa W' n (fun x => if w x =? 0 then 0 else 1))); [lia| | |].
      - eapply fa_ext; [exact F|]. intros x Hx. reflexivity.
      - intros k W1 Hk F1. wb. eapply wfa_get; [exact F1|lia|]. cbv beta. rewrite Nat.ltb_irrefl. destruct (Z.eqb_spec (w k) 0) as [Ez|Ez]; cbn [negb].
        + cbn [wp]. eapply fa_ext; [exact F1|]. intros x Hx. cbv beta. destruct (Nat.ltb_spec x k), (Nat.ltb_spec x (S k)); try lia; try reflexivity.
          assert (x = k) as -> by lia. rewrite Ez. reflexivity.
        + eapply wfa_set; [exact F1|lia|]. intros W2 F2. eapply fa_ext; [exact F2|]. intros x Hx. unfold fu. destruct (Nat.eqb_spec x k) as [->|].
          * destruct (Nat.ltb_spec k (S k)); [|lia]. destruct (Z.eqb_spec (w k) 0); [lia|reflexivity].
          * destruct (Nat.ltb_spec x k), (Nat.ltb_spec x (S k)); try lia; reflexivity.
      - intros W1 F1. eapply fa_ext; [exact F1|]. intros x Hx. cbv beta. destruct (Nat.ltb_spec x n); [reflexivity|lia]. }
    intros W1 F1. cbn [wp]. eexists. split; [exact F1|]. split; [lia|]. intros x Hx. cbv beta. destruct (Z.eqb_spec (w x) 0); split; lia.
  - apply orb_false_iff in E. destruct E as [E _]. apply Z.ltb_ge in E. cbn [wp]. exists w. split; [exact F|]. split; [lia|]. intros x Hx. destruct (H x Hx) as [A B]. specialize (B E). split; [lia|tauto].
Qed.

(* object x is rewritten inside its place, or given up *)
Lemma mem_change n P pe len f B x f' pe' len' B' : mem n P pe len f B -> (x < n)%nat -> 0 <= pe x ->
  (forall p, p < pe x \/ pe x + len x <= p -> f' p = f p) -> (forall p, 0 <= p < P -> 0 <= f' p < Z.of_nat n) ->
  (forall y, (y < n)%nat -> y <> x -> 0 <= pe' y -> 0 <= pe y /\ pe' y = pe y /\ len' y = len y /\ B' y = B y) ->
  (0 <= pe' x -> pe' x = pe x /\ B' x <> [] /\ len' x = Z.of_nat (length (B' x)) /\ len' x <= len x /\ at_ f' (pe x) (B' x)) ->
  mem n P pe' len' f' B'.
Proof.
  intros M Hx Px Hf Hc Ho Hn. constructor.
  - intros y Y1 Y2. destruct (Nat.eq_dec y x) as [->|Ny]; [apply Hn; auto|]. destruct (Ho y Y1 Ny Y2) as (A1 & A2 & A3 & ->). apply (m_ne _ _ _ _ _ _ M); auto.
  - intros y Y1 Y2. destruct (Nat.eq_dec y x) as [->|Ny]; [apply Hn; auto|]. destruct (Ho y Y1 Ny Y2) as (A1 & A2 & -> & ->). apply (m_len _ _ _ _ _ _ M); auto.
  - intros y Y1 Y2. destruct (Nat.eq_dec y x) as [->|Ny].
    + destruct (Hn Y2) as (A1 & A2 & A3 & A4 & _). pose proof (m_end _ _ _ _ _ _ M x Hx Px). lia.
    + destruct (Ho y Y1 Ny Y2) as (A1 & -> & -> & _). apply (m_end _ _ _ _ _ _ M); auto.
  - intros y Y1 Y2. destruct (Nat.eq_dec y x) as [->|Ny].
    + destruct (Hn Y2) as (-> & _ & _ & _ & A). exact A.
    + destruct (Ho y Y1 Ny Y2) as (A1 & -> & A3 & ->). eapply at_ext; [|apply (m_at _ _ _ _ _ _ M); auto]. intros k Hk. apply Hf.
      pose proof (m_len _ _ _ _ _ _ M y Y1 A1). destruct (m_disj _ _ _ _ _ _ M y x Y1 Hx Ny A1 Px); lia.
  - intros y z Y1 Z1 NE Y2 Z2. destruct (Nat.eq_dec y x) as [->|Ny]; destruct (Nat.eq_dec z x) as [->|Nz]; [congruence| | |].
    + destruct (Hn Y2) as (-> & _ & _ & A & _). destruct (Ho z Z1 Nz Z2) as (A1 & -> & -> & _). destruct (m_disj _ _ _ _ _ _ M x z Y1 Z1 NE Px A1); lia.
    + destruct (Hn Z2) as (-> & _ & _ & A & _). destruct (Ho y Y1 Ny Y2) as (A1 & -> & -> & _). destruct (m_disj _ _ _ _ _ _ M y x Y1 Z1 NE A1 Px); lia.
    + destruct (Ho y Y1 Ny Y2) as (A1 & -> & -> & _). destruct (Ho z Z1 Nz Z2) as (B1 & -> & -> & _). apply (m_disj _ _ _ _ _ _ M); auto.
  - exact Hc.
Qed.

Section Scan.
Context (n : nat) (N pfree pme1 : Z) (g : graph) (me : nat) (acc : list nat).
Context (pe1 len1 : nat -> Z) (f1 : Z -> Z) (el1 dg w : nat -> Z) (wflg degme : Z).
Context (Q : qgraph n g) (Kme : gK g me = Var) (ND : NoDup acc).
Context (HL : forall i, In i acc <-> i <> me /\ gK g i = Var /\ (In i (gA g me) \/ exists e, In e (gE g me) /\ In i (gL g e))).
Context (M1 : mem n pfree (fu pe1 me (-1)) len1 f1 (bd g)).
Context (Hp1 : 0 <= pme1) (Hp2 : pme1 + Z.of_nat (length acc) <= pfree) (Hp3 : pfree <= N).
Context (At1 : at_ f1 pme1 acc).
Context (Dj1 : forall x, (x < n)%nat -> x <> me -> 0 <= pe1 x -> pe1 x + len1 x <= pme1 \/ pme1 + Z.of_nat (length acc) <= pe1 x).
Context (Lv1 : forall i, In i acc -> 0 <= pe1 i).
Context (El1 : forall i, In i acc -> el1 i = Z.of_nat (length (gE g i))).
Context (W1 : forall x, (x < n)%nat -> 0 <= w x < wflg) (W0 : forall e, In e (gE g me) -> w e = 0) (W2 : forall e, gK g e = Elem -> ~ In e (gE g me) -> w e <> 0).
Context (Dg1 : forall e, gK g e = Elem -> gdg g e = dg e).
Local Notation dg1 := (fu dg me degme).
Local Notation nv1 := (nvc g me acc).

Lemma acc_var i : In i acc -> gK g i = Var /\ i <> me /\ (i < n)%nat.
Proof. intros H. apply HL in H. destruct H as (A & B & _). split; [auto|]. split; [auto|]. apply (qg_lt _ _ Q). congruence. Qed.
Lemma acc_bd i : In i acc -> bd g i = gE g i ++ gA g i.
Proof. intros H. destruct (acc_var i H) as (K & _). unfold bd. rewrite K. reflexivity. Qed.
Lemma acc_nth k : (k < length acc)%nat -> In (nth k acc 0%nat) acc /\ f1 (pme1 + Z.of_nat k) = Z.of_nat (nth k acc 0%nat).
Proof. intros H. split; [apply nth_In; auto|]. apply at_nth; auto. Qed.
Lemma acc_region i : In i acc -> len1 i = Z.of_nat (length (gE g i) + length (gA g i)) /\ 0 <= pe1 i /\ pe1 i + len1 i <= pfree /\ at_ f1 (pe1 i) (gE g i ++ gA g i).
Proof.
  intros H. destruct (acc_var i H) as (K & Hm & Hn). pose proof (Lv1 i H) as P. assert (P' : 0 <= fu pe1 me (-1) i) by (rewrite fu_ne by auto; exact P).
  pose proof (m_len _ _ _ _ _ _ M1 i Hn P') as L. pose proof (m_end _ _ _ _ _ _ M1 i Hn P') as E. pose proof (m_at _ _ _ _ _ _ M1 i Hn P') as A.
  rewrite acc_bd in * by auto. rewrite fu_ne in * by auto. rewrite app_length in L. auto.
Qed.
Lemma nv_acc i : In i acc -> nv1 i = - gv g i.
Proof. intros H. unfold nvc. destruct (in_dec Nat.eq_dec i (me :: acc)) as [|X]; [reflexivity|]. exfalso. apply X. right; auto. Qed.

(* ---- scan 1 ---- *)
Definition having (l : list nat) (e : nat) : list nat := filter (fun i => inb e (gE g i)) l.
Definition w_after (l : list nat) (e : nat) : Z :=
  if w e =? 0 then 0 else match having l e with [] => w e | _ => wflg + dg e - zs (gv g) (having l e) end.

Lemma having_in l e i : In i (having l e) <-> In i l /\ In e (gE g i).
Proof. unfold having. rewrite filter_In, inb_in. tauto. Qed.
Lemma having_le l e : NoDup l -> (forall i, In i l -> gK g i = Var) -> gK g e = Elem -> zs (gv g) (having l e) <= dg e.
Proof.
  intros NDl Hl Ke. rewrite <- (Dg1 e Ke). etransitivity; [|apply (qg_deg _ _ Q e Ke)]. apply zs_incl; [apply NoDup_filter; auto| |intros; apply (qg_nonneg _ _ Q)].
  intros i Hi. apply having_in in Hi. destruct Hi as [H1 H2]. eapply (qg_E _ _ Q); eauto.
Qed.
Lemma having_snoc l e i : having (l ++ [i]) e = having l e ++ (if inb e (gE g i) then [i] else []).
Proof. unfold having. rewrite filter_app. cbn [filter]. destruct (inb e (gE g i)); reflexivity. Qed.

Lemma scan1_ok Iw Nv Elen Pe Degree W :
  fz Iw N pfree f1 -> fa Nv n nv1 -> (exists el, fa Elen n el /\ forall i, In i acc -> el i = Z.of_nat (length (gE g i))) ->
  fa Pe n pe1 -> fa Degree n dg1 -> fa W n w ->
  wp (scan1 Iw Nv Elen Pe Degree wflg pme1 (length acc) W) (fun W' => fa W' n (w_after acc)).
Proof.
  intros F1 F2 (el & F3 & Hel) F4 F5 F6. unfold scan1. eapply wp_conseq.
  { apply (wp_for_loop (fun k W => fa W n (w_after (firstn k acc)))).
    - eapply fa_ext; [exact F6|]. intros x Hx. unfold w_after. cbn. destruct (Z.eqb_spec (w x) 0); auto.
    - intros k Wk Hk FW. assert (Hk' : (k < length acc)%nat) by lia. destruct (acc_nth k Hk') as [Hi Ei]. set (i := nth k acc 0%nat) in *.
      destruct (acc_var i Hi) as (Ki & Ni & Lti). destruct (acc_region i Hi) as (Li & Pi & Endi & Ati).
      assert (Fst : firstn (S k) acc = firstn k acc ++ [i]) by (apply firstn_S_nth; exact Hk'). rewrite Fst. set (pre := firstn k acc) in *.
      assert (Ipre : ~ In i pre /\ NoDup (pre ++ [i]) /\ forall x, In x pre -> In x acc).
      { assert (X : NoDup (pre ++ [i])) by (rewrite <- Fst; rewrite <- (firstn_skipn (S k) acc) in ND; apply nodup_app in ND; tauto).
        split; [apply nodup_app in X; destruct X as (_ & _ & X); intros Y; apply (X i Y); left; auto|]. split; [exact X|]. intros x Hx. unfold pre in Hx. rewrite <- (firstn_skipn k acc). apply in_app_iff. auto. }
      destruct Ipre as (Ip1 & Ip2 & Ip3).
      wb. eapply wfz_get; [exact F1|lia|]. rewrite Ei. wb. eapply wfa_getn; [exact F3|exact Lti|]. rewrite (Hel i Hi).
      destruct (Z.gtb_spec (Z.of_nat (length (gE g i))) 0) as [Hg|Hg].
      + wb. eapply wfa_getn; [exact F2|exact Lti|]. rewrite nv_acc by auto. wb. eapply wfa_getn; [exact F4|exact Lti|].
        unfold scan1_row. rewrite Nat2Z.id. eapply wp_conseq.
        { apply (wp_for_loop (fun t W => fa W n (fun x => if inb x (firstn t (gE g i)) then w_after (pre ++ [i]) x else w_after pre x))).
          - eapply fa_ext; [exact FW|]. intros x Hx. reflexivity.
          - intros t Wt Ht FT. assert (Ht' : (t < length (gE g i))%nat) by lia. set (e := nth t (gE g i) 0%nat). assert (He : In e (gE g i)) by (apply nth_In; exact Ht').
            destruct (qg_E _ _ Q i e Ki He) as [Ke Le]. assert (Lte : (e < n)%nat) by (apply (qg_lt _ _ Q); congruence). assert (Nme : e <> me) by congruence.
            assert (Fe : firstn (S t) (gE g i) = firstn t (gE g i) ++ [e]) by (apply firstn_S_nth; exact Ht').
            assert (Ine : ~ In e (firstn t (gE g i))).
            { pose proof (qg_ndE _ _ Q i Ki) as NE. rewrite <- (firstn_skipn (S t) (gE g i)), Fe in NE. apply nodup_app in NE. destruct NE as (NE & _). apply nodup_app in NE. destruct NE as (_ & _ & NE). intros X. apply (NE e X). left; auto. }
            assert (Rd : f1 (pe1 i + Z.of_nat t) = Z.of_nat e). { rewrite (at_nth _ _ _ t 0%nat Ati) by (rewrite app_length; lia). f_equal. unfold e. apply app_nth1. exact Ht'. }
            wb. eapply wfz_get; [exact F1|lia|]. rewrite Rd. wb. eapply wfa_getn; [exact FT|exact Lte|]. cbv beta. apply inb_not in Ine. rewrite Ine.
            assert (HS : having (pre ++ [i]) e = having pre e ++ [i]) by (rewrite having_snoc; apply inb_in in He; rewrite He; reflexivity).
            pose proof (W1 e Lte) as We.
            assert (HB : zs (gv g) (having (pre ++ [i]) e) <= dg e) by (apply having_le; auto; intros x Hx; apply in_app_iff in Hx; destruct Hx as [Hx|[<-|[]]]; [apply acc_var; auto|auto]).
            rewrite HS, zs_app in HB. cbn [zs] in HB. pose proof (qg_nonneg _ _ Q i) as Gi.
            wb. eapply (wp_conseq _ (fun v => v = w_after (pre ++ [i]) e)).
            { unfold w_after. rewrite HS. destruct (Z.eqb_spec (w e) 0) as [Ez|Ez].
              - destruct (Z.geb_spec 0 wflg); [lia|]. cbn. reflexivity.
              - destruct (having pre e) as [|y t'] eqn:Eh; cbn [app].
                + destruct (Z.geb_spec (w e) wflg); [lia|]. destruct (Z.eqb_spec (w e) 0); [lia|]. cbn [negb]. wb. eapply wfa_getn; [exact F5|exact Lte|]. rewrite fu_ne by auto. cbn [wp zs]. lia.
                + destruct (Z.geb_spec (wflg + dg e - zs (gv g) (y :: t')) wflg) as [X|X]; [|lia]. cbn [wp]. change (y :: t' ++ [i]) with ((y :: t') ++ [i]). rewrite zs_app. cbn [zs]. lia. }
            intros v ->. eapply wfa_setn; [exact FT|exact Lte|]. intros W' F'. eapply fa_ext; [exact F'|]. intros x Hx. cbv beta. unfold fu. rewrite Fe, inb_app, inb_one.
            destruct (Nat.eqb_spec x e) as [->|]; [rewrite orb_true_r; reflexivity|rewrite orb_false_r; reflexivity]. }
        intros W' F'. rewrite Nat.add_0_l, firstn_all in F'. eapply fa_ext; [exact F'|]. intros x Hx. cbv beta. destruct (inb x (gE g i)) eqn:Ex; [reflexivity|].
        unfold w_after. rewrite having_snoc, Ex, app_nil_r. reflexivity.
      + cbn [wp]. eapply fa_ext; [exact FW|]. intros x Hx. unfold w_after. rewrite having_snoc. destruct (gE g i); [|cbn in Hg; lia]. cbn. rewrite app_nil_r. reflexivity. }
  intros W' F'. rewrite Nat.add_0_l, firstn_all in F'. exact F'.
Qed.

(* what scan 1 computes *)
Local Notation w1 := (w_after acc).
Lemma w1_touched i e : In i acc -> In e (gE g i) -> w e <> 0 -> w1 e = wflg + dg e - zs (gv g) (having acc e) /\ 0 <= dg e - zs (gv g) (having acc e) < dg e.
Proof.
  intros Hi He Hw. destruct (acc_var i Hi) as (Ki & _). destruct (qg_E _ _ Q i e Ki He) as [Ke _].
  assert (I : In i (having acc e)) by (apply having_in; auto).
  assert (P : gv g i <= zs (gv g) (having acc e)) by (apply zs_in; [intros; apply (qg_nonneg _ _ Q)|exact I]).
  pose proof (qg_pos _ _ Q i ltac:(congruence)). pose proof (having_le acc e ND ltac:(intros x Hx; apply acc_var; auto) Ke).
  unfold w_after. destruct (Z.eqb_spec (w e) 0); [congruence|]. destruct (having acc e); [destruct I|]. split; lia.
Qed.
Lemma w1_untouched e : (forall i, In i acc -> ~ In e (gE g i)) -> w1 e = w e.
Proof.
  intros H. unfold w_after. destruct (Z.eqb_spec (w e) 0); [auto|]. destruct (having acc e) as [|x l] eqn:E; [reflexivity|]. exfalso.
  assert (In x (having acc e)) by (rewrite E; left; auto). apply having_in in H0. destruct H0. eapply H; eauto.
Qed.
(* nothing outside acc has an element of external degree 0 *)
Lemma w1_zero i e x : In i acc -> In e (gE g i) -> w e <> 0 -> w1 e <= wflg -> gK g x = Var -> In e (gE g x) -> In x acc.
Proof.
  intros Hi He Hw H K Hx. destruct (in_dec Nat.eq_dec x acc) as [|X]; [auto|]. exfalso.
  destruct (w1_touched i e Hi He Hw) as [E _]. destruct (acc_var i Hi) as (Ki & _). destruct (qg_E _ _ Q i e Ki He) as [Ke _].
  assert (B : zs (gv g) (x :: having acc e) <= dg e).
  { rewrite <- (Dg1 e Ke). etransitivity; [|apply (qg_deg _ _ Q e Ke)]. apply zs_incl; [|intros y [<-|Hy]|intros; apply (qg_nonneg _ _ Q)].
    - constructor; [intros Y; apply having_in in Y; tauto|apply NoDup_filter; auto].
    - apply (qg_E _ _ Q x e K Hx).
    - apply having_in in Hy. destruct Hy. apply (qg_E _ _ Q y e); auto. apply acc_var; auto. }
  cbn [zs] in B. pose proof (qg_pos _ _ Q x ltac:(congruence)). lia.
Qed.

(* ---- scan 2 ---- *)
Context (aggr : bool).
Definition keepE (e : nat) : bool := negb (w1 e =? 0) && (negb aggr || (w1 e - wflg >? 0)).
Definition gone (e : nat) : bool := negb (w1 e =? 0) && negb (keepE e).
Definition keepA (j : nat) : bool := 0 <? nv1 j.
Definition E2 (i : nat) : list nat := filter keepE (gE g i).
Definition A2 (i : nat) : list nat := filter keepA (gA g i).
Definition massb (i : nat) : bool := match E2 i, A2 i with [], [] => true | _, _ => false end.
Definition rot (l : list nat) : list nat := match l with [] => [] | x :: t => t ++ [x] end.
Definition newE (i : nat) : list nat := me :: rot (E2 i).
Definition newA (i : nat) : list nat := rot (A2 i).

Lemma rot_perm l : Permutation (rot l) l.
Proof. destruct l as [|x t]; cbn; [constructor|]. symmetry. apply Permutation_cons_append. Qed.
Lemma rot_length l : length (rot l) = length l.
Proof. apply Permutation_length, rot_perm. Qed.

Lemma rot_at f p me' (le la : list nat) : at_ f p (le ++ la) -> forall p3 pn, p3 = p + Z.of_nat (length le) -> pn = p3 + Z.of_nat (length la) ->
  at_ (zu (zu (zu f pn (f p3)) p3 (zu f pn (f p3) p)) p (Z.of_nat me')) p (me' :: rot le ++ rot la).
Proof.
  intros A p3 pn -> ->. apply at_app in A. destruct A as [A1 A2']. cbn [at_]. rewrite zu_eq. split; [reflexivity|].
  assert (L1 : at_ (zu f (p + Z.of_nat (length le) + Z.of_nat (length la)) (f (p + Z.of_nat (length le)))) (p + Z.of_nat (length le) + 1) (rot la)).
  { destruct la as [|a t]; cbn [rot]; [exact I|]. destruct A2' as [B1 B2]. apply at_app. cbn [length]. split; [apply at_zu; [lia|exact B2]|].
    split; [|exact I]. replace (p + Z.of_nat (length le) + 1 + Z.of_nat (length t)) with (p + Z.of_nat (length le) + Z.of_nat (S (length t))) by lia. rewrite zu_eq. exact B1. }
  apply at_app. rewrite rot_length. apply and_comm. split.
  - replace (p + 1 + Z.of_nat (length le)) with (p + Z.of_nat (length le) + 1) by lia. apply at_zu; [lia|]. apply at_zu; [lia|]. exact L1.
  - apply at_zu; [lia|]. destruct le as [|e t]; cbn [rot]; [exact I|]. destruct A1 as [B1 B2]. cbn [length] in *. apply at_app. split.
    + apply at_zu; [lia|]. apply at_zu; [lia|]. exact B2.
    + split; [|exact I]. replace (p + 1 + Z.of_nat (length t)) with (p + Z.of_nat (S (length t))) by lia. rewrite zu_eq, zu_ne by lia. exact B1.
Qed.

Lemma filter_len {A} (p : A -> bool) l : (length (filter p l) <= length l)%nat.
Proof. induction l as [|x l IH]; cbn; [auto|]. destruct (p x); cbn; lia. Qed.
Lemma filter_lt {A} (p : A -> bool) l x : In x l -> p x = false -> (length (filter p l) < length l)%nat.
Proof.
  induction l as [|y l IH]; intros H E; [destruct H|]. cbn. destruct H as [->|H].
  - rewrite E. pose proof (filter_len p l). lia.
  - specialize (IH H E). destruct (p y); cbn; lia.
Qed.

(* room for me: one of the entries of i is dropped *)
Lemma dropped i : In i acc -> (length (E2 i) + length (A2 i) < length (gE g i) + length (gA g i))%nat.
Proof.
  intros Hi. destruct (acc_var i Hi) as (Ki & Ni & Lti). pose proof (filter_len keepE (gE g i)). pose proof (filter_len keepA (gA g i)).
  pose proof Hi as Hi'. apply HL in Hi'. destruct Hi' as (_ & _ & [H1|(e & H1 & H2)]).
  - assert (X : In me (gA g i)) by (destruct (qg_A _ _ Q me i Kme H1) as (_ & [[X _]|[_ X]]); [congruence|exact X]).
    assert (Y : keepA me = false).
    { unfold keepA, nvc. destruct (in_dec Nat.eq_dec me (me :: acc)) as [_|Z]; [|exfalso; apply Z; left; auto]. pose proof (qg_nonneg _ _ Q me). apply Z.ltb_ge. lia. }
    pose proof (filter_lt keepA _ _ X Y). unfold E2, A2. lia.
  - destruct (qg_E _ _ Q me e Kme H1) as [Ke _]. assert (X : In e (gE g i)) by (destruct (qg_L _ _ Q e i Ke H2) as (_ & [[X _]|[_ X]]); [congruence|exact X]).
    assert (Y : keepE e = false) by (unfold keepE, w_after; rewrite (W0 e H1); reflexivity).
    pose proof (filter_lt keepE _ _ X Y). unfold E2, A2. lia.
Qed.

Lemma elements_ok i Iw Pe W f (D : nat -> bool) (p0 : nat -> Z) : In i acc -> fz Iw N pfree f -> at_ f (pe1 i) (gE g i) ->
  (forall p, 0 <= p < pfree -> 0 <= f p < Z.of_nat n) -> (forall x, D x = true -> gone x = true) ->
  fa Pe n (fun x => if D x then FLIP (Z.of_nat me) else p0 x) -> fa W n (fun x => if D x then 0 else w1 x) ->
  wp (scan2_elements aggr (Z.of_nat me) wflg (pe1 i) (length (gE g i)) (pe1 i, 0, 0, Iw, Pe, W)) (fun '(pn, deg, hash, Iw, Pe, W) =>
    exists f', pn = pe1 i + Z.of_nat (length (E2 i)) /\ deg = zs (fun e => w1 e - wflg) (E2 i) /\ fz Iw N pfree f' /\ at_ f' (pe1 i) (E2 i) /\
      (forall p, p < pe1 i \/ pe1 i + Z.of_nat (length (gE g i)) <= p -> f' p = f p) /\ (forall p, 0 <= p < pfree -> 0 <= f' p < Z.of_nat n) /\
      fa Pe n (fun x => if D x || gone x && inb x (gE g i) then FLIP (Z.of_nat me) else p0 x) /\
      fa W n (fun x => if D x || gone x && inb x (gE g i) then 0 else w1 x)).
Proof.
  intros Hi F1 A1 C1 HD F2 F3. destruct (acc_var i Hi) as (Ki & Ni & Lti). destruct (acc_region i Hi) as (Li & Pi & Endi & _).
  unfold scan2_elements. eapply wp_conseq.
  { apply (wp_for_loop (fun t '(pn, deg, hash, Iw, Pe, W) => exists f', 
      pn = pe1 i + Z.of_nat (length (filter keepE (firstn t (gE g i)))) /\ deg = zs (fun e => w1 e - wflg) (filter keepE (firstn t (gE g i))) /\ fz Iw N pfree f' /\ at_ f' (pe1 i) (filter keepE (firstn t (gE g i))) /\
      (forall p, p < pe1 i \/ pe1 i + Z.of_nat t <= p -> f' p = f p) /\ (forall p, 0 <= p < pfree -> 0 <= f' p < Z.of_nat n) /\
      fa Pe n (fun x => if D x || gone x && inb x (firstn t (gE g i)) then FLIP (Z.of_nat me) else p0 x) /\
      fa W n (fun x => if D x || gone x && inb x (firstn t (gE g i)) then 0 else w1 x))).
    - exists f. cbn [firstn filter length zs at_]. csplit; auto; try lia.
      + eapply fa_ext; [exact F2|]. intros x Hx. cbv beta. rewrite andb_false_r, orb_false_r. reflexivity.
      + eapply fa_ext; [exact F3|]. intros x Hx. cbv beta. rewrite andb_false_r, orb_false_r. reflexivity.
    - intros t [[[[[pn deg] hash] Iw'] Pe'] W'] Ht (f' & -> & -> & G1 & G2 & G3 & G4 & G5 & G6).
      assert (Ht' : (t < length (gE g i))%nat) by lia. set (e := nth t (gE g i) 0%nat). assert (He : In e (gE g i)) by (apply nth_In; exact Ht').
      destruct (qg_E _ _ Q i e Ki He) as [Ke Le]. assert (Lte : (e < n)%nat) by (apply (qg_lt _ _ Q); congruence).
      assert (Fe : firstn (S t) (gE g i) = firstn t (gE g i) ++ [e]) by (apply firstn_S_nth; exact Ht').
      assert (Ine : inb e (firstn t (gE g i)) = false).
      { apply inb_not. pose proof (qg_ndE _ _ Q i Ki) as NE. rewrite <- (firstn_skipn (S t) (gE g i)), Fe in NE. apply nodup_app in NE. destruct NE as (NE & _). apply nodup_app in NE. destruct NE as (_ & _ & NE). intros X. apply (NE e X). left; auto. }
      assert (Rd : f' (pe1 i + Z.of_nat t) = Z.of_nat e) by (rewrite G3 by lia; apply at_nth; auto).
      pose proof (filter_len keepE (firstn t (gE g i))) as FL. rewrite firstn_length, Nat.min_l in FL by lia.
      wb. eapply wfz_get; [exact G1|lia|]. rewrite Rd. wb. eapply wfa_getn; [exact G6|exact Lte|]. cbv beta. rewrite Ine, andb_false_r, orb_false_r.
      rewrite Fe, filter_app. cbn [filter]. set (l := firstn t (gE g i)) in *.
      assert (XD : forall x, gone e = true \/ D x = true -> D x || gone x && inb x (l ++ [e]) = (D x || gone x && inb x l) || Nat.eqb x e).
      { intros x Hx. rewrite inb_app, inb_one. destruct (Nat.eqb_spec x e) as [->|]; [|rewrite !orb_false_r; reflexivity].
        rewrite !orb_true_r, andb_true_r. destruct Hx as [->| ->]; [apply orb_true_r|reflexivity]. }
      assert (XN : forall x, gone e = false -> D x || gone x && inb x (l ++ [e]) = D x || gone x && inb x l).
      { intros x Hx. rewrite inb_app, inb_one. destruct (Nat.eqb_spec x e) as [->|]; [|rewrite !orb_false_r; reflexivity]. rewrite Hx. reflexivity. }
      destruct (D e) eqn:ED.
      { pose proof (HD e ED) as Ge. cbn [negb Z.eqb]. cbn [wp]. exists f'. assert (Kf : keepE e = false) by (unfold gone in Ge; apply andb_true_iff in Ge; destruct Ge as [_ Ge]; apply negb_true_iff in Ge; exact Ge).
        rewrite Kf, app_nil_r. csplit; auto; try lia.
        - intros p Hp. apply G3. lia.
        - eapply fa_ext; [exact G5|]. intros x Hx. cbv beta. rewrite inb_app, inb_one. destruct (Nat.eqb_spec x e) as [->|]; [rewrite ED; reflexivity|rewrite orb_false_r; reflexivity].
        - eapply fa_ext; [exact G6|]. intros x Hx. cbv beta. rewrite inb_app, inb_one. destruct (Nat.eqb_spec x e) as [->|]; [rewrite ED; reflexivity|rewrite orb_false_r; reflexivity]. }
      destruct (Z.eqb_spec (w1 e) 0) as [Ez|Ez]; cbn [negb].
      { assert (Kf : keepE e = false) by (unfold keepE; rewrite Ez; reflexivity). assert (Gf : gone e = false) by (unfold gone; rewrite Ez; reflexivity).
        cbn [wp]. exists f'. rewrite Kf, app_nil_r. csplit; auto; try lia.
        - intros p Hp. apply G3. lia.
        - eapply fa_ext; [exact G5|]. intros x Hx. cbv beta. rewrite XN by auto. reflexivity.
        - eapply fa_ext; [exact G6|]. intros x Hx. cbv beta. rewrite XN by auto. reflexivity. }
      assert (Ez' : negb (w1 e =? 0) = true) by (apply negb_true_iff, Z.eqb_neq; auto).
      destruct (negb aggr || (w1 e - wflg >? 0)) eqn:Ek.
      + assert (Kt : keepE e = true) by (unfold keepE; rewrite Ek, Ez'; reflexivity). assert (Gf : gone e = false) by (unfold gone; rewrite Kt, andb_false_r; reflexivity).
        wb. eapply wfz_set'; [exact G1|lia|exact Hp3|]. intros Iw2 G1'. cbn [wp]. eexists. rewrite Kt. csplit; [| |exact G1'| | | | |].
        * rewrite app_length. cbn [length]. lia.
        * rewrite zs_app. cbn [zs]. lia.
        * apply at_app. split; [apply at_zu; [lia|exact G2]|]. cbn [at_]. rewrite zu_eq. auto.
        * intros p Hp. rewrite zu_ne by lia. apply G3. lia.
        * intros p Hp. unfold zu. destruct (Z.eqb_spec p (pe1 i + Z.of_nat (length (filter keepE l)))); [lia|]. apply G4; lia.
        * eapply fa_ext; [exact G5|]. intros x Hx. cbv beta. rewrite XN by auto. reflexivity.
        * eapply fa_ext; [exact G6|]. intros x Hx. cbv beta. rewrite XN by auto. reflexivity.
      + assert (Kf : keepE e = false) by (unfold keepE; rewrite Ek; apply andb_false_r). assert (Gt : gone e = true) by (unfold gone; rewrite Kf, Ez'; reflexivity).
        wb. eapply wfa_setn; [exact G5|exact Lte|]. intros Pe2 H5. wb. eapply wfa_setn; [exact G6|exact Lte|]. intros W2' H6. cbn [wp].
        exists f'. rewrite Kf, app_nil_r. csplit; auto; try lia.
        * intros p Hp. apply G3. lia.
        * eapply fa_ext; [exact H5|]. intros x Hx. unfold fu. rewrite XD by auto. destruct (Nat.eqb x e); [rewrite orb_true_r; reflexivity|rewrite orb_false_r; reflexivity].
        * eapply fa_ext; [exact H6|]. intros x Hx. unfold fu. rewrite XD by auto. destruct (Nat.eqb x e); [rewrite orb_true_r; reflexivity|rewrite orb_false_r; reflexivity]. }
  intros [[[[[pn deg] hash] Iw'] Pe'] W'] (f' & G). rewrite Nat.add_0_l, firstn_all in G. exists f'. exact G.
Qed.

Lemma variables_ok i Iw Nv f nv' deg0 hash0 : In i acc -> fz Iw N pfree f -> at_ f (pe1 i + Z.of_nat (length (gE g i))) (gA g i) ->
  (forall p, 0 <= p < pfree -> 0 <= f p < Z.of_nat n) -> fa Nv n nv' ->
  (forall x, (0 < nv' x <-> keepA x = true) /\ (0 < nv' x -> nv' x = gv g x)) ->
  wp (scan2_variables Nv (pe1 i + Z.of_nat (length (gE g i))) (length (gA g i)) (pe1 i + Z.of_nat (length (E2 i)), deg0, hash0, Iw)) (fun '(pn, deg, hash, Iw) =>
    exists f', pn = pe1 i + Z.of_nat (length (E2 i)) + Z.of_nat (length (A2 i)) /\ deg = deg0 + zs (gv g) (A2 i) /\ fz Iw N pfree f' /\
      at_ f' (pe1 i + Z.of_nat (length (E2 i))) (A2 i) /\
      (forall p, p < pe1 i + Z.of_nat (length (E2 i)) \/ pe1 i + len1 i <= p -> f' p = f p) /\ (forall p, 0 <= p < pfree -> 0 <= f' p < Z.of_nat n)).
Proof.
  intros Hi F1 A1 C1 F2 Hv. destruct (acc_var i Hi) as (Ki & Ni & Lti). destruct (acc_region i Hi) as (Li & Pi & Endi & _).
  pose proof (filter_len keepE (gE g i)) as FE. fold (E2 i) in FE. set (p3 := pe1 i + Z.of_nat (length (E2 i))).
  unfold scan2_variables. eapply wp_conseq.
  { apply (wp_for_loop (fun t '(pn, deg, hash, Iw) => exists f', 
      pn = p3 + Z.of_nat (length (filter keepA (firstn t (gA g i)))) /\ deg = deg0 + zs (gv g) (filter keepA (firstn t (gA g i))) /\ fz Iw N pfree f' /\ at_ f' p3 (filter keepA (firstn t (gA g i))) /\
      (forall p, p < p3 \/ pe1 i + Z.of_nat (length (gE g i)) + Z.of_nat t <= p -> f' p = f p) /\ (forall p, 0 <= p < pfree -> 0 <= f' p < Z.of_nat n))).
    - exists f. cbn [firstn filter length zs at_]. csplit; auto; try lia.
    - intros t [[[pn deg] hash] Iw'] Ht (f' & -> & -> & G1 & G2 & G3 & G4).
      assert (Ht' : (t < length (gA g i))%nat) by lia. set (j := nth t (gA g i) 0%nat). assert (Hj : In j (gA g i)) by (apply nth_In; exact Ht').
      destruct (qg_A _ _ Q i j Ki Hj) as [Ltj _].
      assert (Fe : firstn (S t) (gA g i) = firstn t (gA g i) ++ [j]) by (apply firstn_S_nth; exact Ht').
      assert (Rd : f' (pe1 i + Z.of_nat (length (gE g i)) + Z.of_nat t) = Z.of_nat j) by (rewrite G3 by lia; apply at_nth; auto).
      pose proof (filter_len keepA (firstn t (gA g i))) as FL. rewrite firstn_length, Nat.min_l in FL by lia.
      wb. eapply wfz_get; [exact G1|lia|]. rewrite Rd. wb. eapply wfa_getn; [exact F2|exact Ltj|].
      rewrite Fe, filter_app. cbn [filter]. set (l := firstn t (gA g i)) in *. destruct (Hv j) as [V1 V2].
      destruct (Z.gtb_spec (nv' j) 0) as [Hg|Hg].
      + rewrite (proj1 V1) by lia. rewrite V2 by lia. wb. eapply wfz_set'; [exact G1|lia|exact Hp3|]. intros Iw2 G1'. cbn [wp]. eexists. csplit; [| |exact G1'| | |].
        * rewrite app_length. cbn [length]. lia.
        * rewrite zs_app. cbn [zs]. lia.
        * apply at_app. split; [apply at_zu; [lia|exact G2]|]. cbn [at_]. rewrite zu_eq. auto.
        * intros p Hp. rewrite zu_ne by lia. apply G3. lia.
        * intros p Hp. unfold zu. destruct (Z.eqb_spec p (p3 + Z.of_nat (length (filter keepA l)))); [lia|]. apply G4; lia.
      + assert (Kj : keepA j = false) by (destruct (keepA j); [assert (0 < nv' j) by (apply V1; reflexivity); lia|reflexivity]). rewrite Kj. cbn [wp]. exists f'. rewrite app_nil_r. csplit; auto; try lia. intros p Hp. apply G3. lia. }
  intros [[[pn deg] hash] Iw'] (f' & G). rewrite Nat.add_0_l, firstn_all in G. destruct G as (G1 & G2 & G3 & G4 & G5 & G6).
  exists f'. csplit; auto. intros p Hp. apply G5. lia.
Qed.

(* the state after the rows pre *)
Definition absb (pre : list nat) (x : nat) : bool := gone x && existsb (fun i => inb x (gE g i)) pre.
Definition pe2 (pre : list nat) (x : nat) : Z := if absb pre x then FLIP (Z.of_nat me) else if inb x pre && massb x then FLIP (Z.of_nat me) else pe1 x.
Definition w2 (pre : list nat) (x : nat) : Z := if absb pre x then 0 else w1 x.
Definition nv2 (pre : list nat) (x : nat) : Z := if inb x pre && massb x then 0 else nv1 x.
Definition el2 (pre : list nat) (x : nat) : Z := if inb x pre then if massb x then EMPTY else Z.of_nat (length (newE x)) else el1 x.
Definition deg2 (x : nat) : Z := Z.min (dg x) (zs (fun e => w1 e - wflg) (E2 x) + zs (gv g) (A2 x)).
Definition dg2 (pre : list nat) (x : nat) : Z := if inb x pre && negb (massb x) then deg2 x else dg1 x.
Definition len2 (pre : list nat) (x : nat) : Z := if inb x pre && negb (massb x) then Z.of_nat (length (newE x ++ newA x)) else len1 x.
Definition bd2 (pre : list nat) (x : nat) : list nat := if inb x pre then newE x ++ newA x else bd g x.
Definition ms (pre : list nat) : Z := zs (gv g) (filter massb pre).

Context (nel0 nvp0 mindeg0 lemax0 : Z) (dl : nat -> list nat) (Hdl : forall x d, In x acc -> ~ In x (dl d)).

Record S2 (pre : list nat) (q : quotient) (degme' nvpiv' : Z) : Prop := {
  s2_f : exists f, fz (q_iw q) N pfree f /\ mem n pfree (fu (pe2 pre) me (-1)) (len2 pre) f (bd2 pre) /\ at_ f pme1 acc;
  s2_pfree : q_pfree q = pfree;
  s2_pe : fa (q_pe q) n (pe2 pre);
  s2_len : fa (q_len q) n (len2 pre);
  s2_nv : fa (q_nv q) n (nv2 pre);
  s2_el : fa (q_elen q) n (el2 pre);
  s2_dg : fa (q_deg q) n (dg2 pre);
  s2_w : fa (q_w q) n (w2 pre);
  s2_wflg : q_wflg q = wflg;
  s2_ls : exists hb, LS n (q_lists q) dl hb /\ forall x, (exists c, In x (hb c)) <-> In x pre /\ massb x = false;
  s2_mindeg : q_mindeg q = mindeg0;
  s2_lemax : q_lemax q = lemax0;
  s2_nel : q_nel q = nel0 + ms pre;
  s2_degme : degme' = degme - ms pre;
  s2_nvpiv : nvpiv' = nvp0 + ms pre }.

Lemma absb_elem pre x : (forall i, In i pre -> In i acc) -> absb pre x = true -> gK g x = Elem /\ gone x = true /\ exists i, In i pre /\ In x (gE g i).
Proof.
  intros H E. apply andb_true_iff in E. destruct E as [E1 E2']. apply existsb_exists in E2'. destruct E2' as (i & I1 & I2). apply inb_in in I2.
  split; [|split; [exact E1|eauto]]. destruct (acc_var i (H i I1)) as (K & _). eapply (qg_E _ _ Q); eauto.
Qed.
Lemma absb_snoc pre i x : absb (pre ++ [i]) x = absb pre x || gone x && inb x (gE g i).
Proof. unfold absb. rewrite existsb_app. cbn [existsb]. rewrite orb_false_r, andb_orb_distrib_r. reflexivity. Qed.

Lemma nv2_keep pre x : (forall i, In i pre -> In i acc) -> (0 < nv2 pre x <-> keepA x = true) /\ (0 < nv2 pre x -> nv2 pre x = gv g x).
Proof.
  intros Hp. unfold nv2, keepA. rewrite Z.ltb_lt. destruct (inb x pre && massb x) eqn:E.
  - apply andb_true_iff in E. destruct E as [E _]. apply inb_in in E. rewrite nv_acc by auto. pose proof (qg_nonneg _ _ Q x). split; [split|]; intros; lia.
  - split; [tauto|]. intros H. eapply nvc_pos in H; [tauto|exact Q].
Qed.

Lemma massb_iff i : massb i = true <-> E2 i = [] /\ A2 i = [].
Proof. unfold massb. destruct (E2 i), (A2 i); split; intros; try discriminate; try (destruct H; discriminate); auto. Qed.

Lemma row_ok pre i rest q d nvp : acc = pre ++ i :: rest -> S2 pre q d nvp ->
  wp (scan2_row aggr n (Z.of_nat me) pme1 (length pre) (q, d, nvp)) (fun '(q, d, nvp) => S2 (pre ++ [i]) q d nvp).
Proof.
  intros Hacc S. destruct S as [(f & Fi & M & Ata) EP Fp Fl Fn Fe Fd Fw EW (hb & (h & nx & la & LA & D) & Hhb) Em El En Ed Env].
  assert (Hi : In i acc) by (rewrite Hacc; apply in_app_iff; right; left; auto).
  assert (Hpre : forall x, In x pre -> In x acc) by (intros x Hx; rewrite Hacc; apply in_app_iff; auto).
  assert (Ipre : inb i pre = false). { apply inb_not. intros X. rewrite Hacc in ND. apply nodup_app in ND. destruct ND as (_ & _ & Y). apply (Y i X). left; auto. }
  destruct (acc_var i Hi) as (Ki & Ni & Lti). destruct (acc_region i Hi) as (Li & Pi & Endi & _).
  destruct q as [Pe Iw Len pf Nv Elen Degree W wf l mindeg nel lemax]. cbn [q_pe q_iw q_len q_pfree q_nv q_elen q_deg q_w q_wflg q_lists q_mindeg q_nel q_lemax] in *. subst pf wf mindeg lemax nel d nvp.
  assert (Ab : forall x, gK g x = Var -> absb pre x = false) by (intros x Kx; destruct (absb pre x) eqn:E; [destruct (absb_elem pre x Hpre E); congruence|reflexivity]).
  assert (Pei : pe2 pre i = pe1 i) by (unfold pe2; rewrite Ab, Ipre by auto; reflexivity).
  assert (Leni : len2 pre i = len1 i) by (unfold len2; rewrite Ipre; reflexivity).
  assert (Bdi : bd2 pre i = gE g i ++ gA g i) by (unfold bd2; rewrite Ipre; apply acc_bd; auto).
  assert (Pm : 0 <= fu (pe2 pre) me (-1) i) by (rewrite fu_ne by auto; lia).
  pose proof (m_at _ _ _ _ _ _ M i Lti Pm) as Ati. rewrite Bdi, fu_ne, Pei in Ati by auto. apply at_app in Ati. destruct Ati as [Ati1 Ati2].
  assert (Lac : (length pre < length acc)%nat) by (rewrite Hacc, app_length; cbn [length]; lia).
  unfold scan2_row.
  wb. eapply wfz_get; [exact Fi|lia|]. rewrite (at_nth _ _ _ _ 0%nat Ata Lac). replace (nth (length pre) acc 0%nat) with i by (rewrite Hacc, app_nth2, Nat.sub_diag by lia; reflexivity).
  wb. eapply wfa_getn; [exact Fp|exact Lti|]. rewrite Pei. wb. eapply wfa_getn; [exact Fe|exact Lti|]. assert (Eli : el2 pre i = Z.of_nat (length (gE g i))) by (unfold el2; rewrite Ipre; auto). rewrite Eli, Nat2Z.id.
  wb. eapply wp_conseq.
  { apply (elements_ok i Iw Pe W f (absb pre) (fun x => if inb x pre && massb x then FLIP (Z.of_nat me) else pe1 x) Hi Fi Ati1 (m_cells _ _ _ _ _ _ M)); [|exact Fp|exact Fw].
    intros x Hx. apply (absb_elem pre x Hpre Hx). }
  intros [[[[[pn deg] hash] Iw1] Pe1] W1'] (f3 & -> & -> & G1 & G2 & G3 & G4 & G5 & G6). cbv beta iota.
  wb. eapply wfa_setn; [exact Fe|exact Lti|]. intros Elen1 Fe1. wb. eapply wfa_getn; [exact Fl|exact Lti|]. rewrite Leni, Li.
  replace (Z.to_nat (Z.of_nat (length (gE g i) + length (gA g i)) - Z.of_nat (length (gE g i)))) with (length (gA g i)) by lia.
  wb. eapply wp_conseq.
  { apply (variables_ok i Iw1 Nv f3 (nv2 pre) (zs (fun e => w1 e - wflg) (E2 i)) hash Hi G1); auto.
    - eapply at_ext; [|exact Ati2]. intros k Hk. apply G3. lia.
    - intros x. apply nv2_keep; auto. }
  intros [[[pn deg] hash'] Iw2] (f4 & -> & -> & H1 & H2 & H3 & H4). cbv beta iota.
  pose proof (dropped i Hi) as Dr.
  assert (At4 : at_ f4 (pe1 i) (E2 i ++ A2 i)).
  { apply at_app. split; [|exact H2]. eapply at_ext; [|exact G2]. intros k Hk. apply H3. lia. }
  assert (Out4 : forall p, p < pe1 i \/ pe1 i + len1 i <= p -> f4 p = f p).
  { intros p Hp. rewrite H3 by lia. apply G3. lia. }
  assert (Accf : forall f5, (forall p, p < pe1 i \/ pe1 i + len1 i <= p -> f5 p = f p) -> at_ f5 pme1 acc).
  { intros f5 H5. eapply at_ext; [|exact Ata]. intros k Hk. apply H5. destruct (Dj1 i Lti Ni Pi); lia. }
  assert (Snoc : forall x, inb x (pre ++ [i]) = inb x pre || Nat.eqb x i) by (intros x; rewrite inb_app, inb_one; reflexivity).
  assert (Gi : gone i && inb i (gE g i) = false).
  { destruct (inb i (gE g i)) eqn:X; [|apply andb_false_r]. apply inb_in in X. destruct (qg_E _ _ Q i i Ki X). congruence. }
  assert (Pold : forall x, x <> i -> 0 <= fu (pe2 (pre ++ [i])) me (-1) x -> 0 <= fu (pe2 pre) me (-1) x /\ fu (pe2 (pre ++ [i])) me (-1) x = fu (pe2 pre) me (-1) x).
  { intros x Nx. unfold fu. destruct (Nat.eqb_spec x me); [lia|]. unfold pe2. rewrite absb_snoc, Snoc.
    assert (Nat.eqb x i = false) as -> by (apply Nat.eqb_neq; auto). rewrite orb_false_r. destruct (absb pre x); cbn [orb]; [unfold FLIP; lia|].
    destruct (gone x && inb x (gE g i)); [unfold FLIP; lia|]. intros X. split; [exact X|reflexivity]. }
  assert (Fw1 : fa W1' n (w2 (pre ++ [i]))).
  { eapply fa_ext; [exact G6|]. intros x Hx. unfold w2. rewrite absb_snoc. reflexivity. }
  destruct ((pe1 i + Z.of_nat (length (E2 i)) - pe1 i + 1 =? 1) && (pe1 i + Z.of_nat (length (E2 i)) =? pe1 i + Z.of_nat (length (E2 i)) + Z.of_nat (length (A2 i)))) eqn:Em.
  - assert (Mi : massb i = true).
    { apply andb_true_iff in Em. destruct Em as [X Y]. apply Z.eqb_eq in X, Y. apply massb_iff. destruct (E2 i), (A2 i); cbn [length] in *; try lia. auto. }
    wb. eapply wfa_setn; [exact G5|exact Lti|]. intros Pe2' Fp2. wb. eapply wfa_getn; [exact Fn|exact Lti|].
    assert (Nvi : nv2 pre i = - gv g i) by (unfold nv2; rewrite Ipre; apply nv_acc; auto). rewrite Nvi, Z.opp_involutive.
    wb. eapply wfa_setn; [exact Fn|exact Lti|]. intros Nv1 Fn1. wb. eapply wfa_setn; [exact Fe1|exact Lti|]. intros Elen2 Fe2. cbn [wp].
    assert (Ms : ms (pre ++ [i]) = ms pre + gv g i). { unfold ms. rewrite filter_app. cbn [filter]. rewrite Mi, zs_app. cbn [zs]. lia. }
    constructor; cbn [q_pe q_iw q_len q_pfree q_nv q_elen q_deg q_w q_wflg q_lists q_mindeg q_nel q_lemax]; auto; try lia.
    + exists f4. split; [exact H1|]. split; [|apply Accf; exact Out4].
      apply (mem_change n pfree (fu (pe2 pre) me (-1)) (len2 pre) f (bd2 pre) i); auto.
      * rewrite fu_ne, Pei, Leni by auto. exact Out4.
      * intros x X1 X2 X3. destruct (Pold x X2 X3) as [Y1 Y2]. split; [exact Y1|]. split; [exact Y2|]. unfold len2, bd2. rewrite Snoc. assert (Nat.eqb x i = false) as -> by (apply Nat.eqb_neq; auto). rewrite orb_false_r. auto.
      * rewrite fu_ne by auto. unfold pe2. rewrite Snoc, Nat.eqb_refl, Mi, orb_true_r. cbn [andb]. destruct (absb (pre ++ [i]) i); unfold FLIP; lia.
    + eapply fa_ext; [exact Fp2|]. intros x Hx. unfold fu, pe2. rewrite absb_snoc, Snoc. destruct (Nat.eqb_spec x i) as [->|]; [|rewrite orb_false_r; reflexivity].
      rewrite Mi, orb_true_r. cbn [andb]. destruct (absb pre i || gone i && inb i (gE g i)); reflexivity.
    + eapply fa_ext; [exact Fl|]. intros x Hx. unfold len2. rewrite Snoc. destruct (Nat.eqb_spec x i) as [->|]; [|rewrite orb_false_r; reflexivity]. rewrite Mi, !andb_false_r. reflexivity.
    + eapply fa_ext; [exact Fn1|]. intros x Hx. unfold fu, nv2. rewrite Snoc. destruct (Nat.eqb_spec x i) as [->|]; [|rewrite orb_false_r; reflexivity]. rewrite Mi, orb_true_r. reflexivity.
    + eapply fa_ext; [exact Fe2|]. intros x Hx. unfold fu, el2. rewrite Snoc. destruct (Nat.eqb_spec x i) as [->|]; [|rewrite orb_false_r; reflexivity]. rewrite Mi, orb_true_r. reflexivity.
    + eapply fa_ext; [exact Fd|]. intros x Hx. unfold dg2. rewrite Snoc. destruct (Nat.eqb_spec x i) as [->|]; [|rewrite orb_false_r; reflexivity]. rewrite Mi, !andb_false_r. reflexivity.
    + exists hb. split; [exists h, nx, la; auto|]. intros x. rewrite Hhb, in_app_iff. cbn [In]. split; [tauto|]. intros [[X|[<-|[]]] Y]; [auto|congruence].
  - assert (Mi : massb i = false).
    { destruct (massb i) eqn:X; [|reflexivity]. apply massb_iff in X. destruct X as [X Y]. rewrite X, Y in Em. cbn [length] in Em.
      replace (pe1 i + Z.of_nat 0 - pe1 i + 1) with 1 in Em by lia. replace (pe1 i + Z.of_nat 0 + Z.of_nat 0) with (pe1 i + Z.of_nat 0) in Em by lia. rewrite !Z.eqb_refl in Em. discriminate. }
    set (p3 := pe1 i + Z.of_nat (length (E2 i))) in *. set (pn := p3 + Z.of_nat (length (A2 i))) in *.
    wb. eapply wfa_getn; [exact Fd|exact Lti|]. wb. eapply wfa_setn; [exact Fd|exact Lti|]. intros Degree1 Fd1.
    wb. eapply wfz_get; [exact H1|lia|]. wb. eapply wfz_set'; [exact H1|lia|exact Hp3|]. intros Iw3 J1.
    wb. eapply wfz_get; [exact J1|lia|]. wb. eapply wfz_set'; [exact J1|lia|exact Hp3|]. intros Iw4 J2.
    wb. eapply wfz_set'; [exact J2|lia|exact Hp3|]. intros Iw5 J3.
    wb. eapply wfa_setn; [exact Fl|exact Lti|]. intros Len1 Fl1.
    assert (Hn : 0 < Z.of_nat n) by lia. pose proof (Z.mod_pos_bound hash' (Z.of_nat n) Hn) as HB.
    rewrite <- (Z2Nat.id (hash' mod Z.of_nat n)) by lia. set (c := Z.to_nat (hash' mod Z.of_nat n)).
    wb. eapply wp_conseq.
    { apply (insert_ok n i c l h nx la dl hb LA D Lti); [unfold c; lia|intros d0; apply Hdl; auto|]. intros d0 X. assert (Y : exists c, In i (hb c)) by eauto. apply Hhb in Y. destruct Y as [Y _]. apply inb_in in Y. congruence. }
    intros l' (h' & nx' & la' & LA' & D' & _ & _). cbn [wp].
    pose proof (rot_at f4 (pe1 i) me (E2 i) (A2 i) At4 p3 pn eq_refl eq_refl) as R. 
    match type of J3 with fz _ _ _ ?F => set (f5 := F) in * end.
    assert (Out5 : forall p, p < pe1 i \/ pe1 i + len1 i <= p -> f5 p = f p). { intros p Hp. unfold f5. rewrite !zu_ne by lia. apply Out4. exact Hp. }
    assert (C4 : forall p, 0 <= p < pfree -> 0 <= f5 p < Z.of_nat n).
    { intros p Hp. assert (Lm : (me < n)%nat) by (apply (qg_lt _ _ Q); congruence). unfold f5, zu. destruct (p =? pe1 i); [lia|]. destruct (p =? p3).
      - destruct (pe1 i =? pn); [apply H4; lia|apply H4; lia].
      - destruct (p =? pn); [apply H4; lia|apply H4; lia]. }
    assert (Nlen : Z.of_nat (length (newE i ++ newA i)) = pn - pe1 i + 1).
    { unfold newE, newA. rewrite app_length. cbn [length]. rewrite !rot_length. lia. }
    assert (Ms : ms (pre ++ [i]) = ms pre). { unfold ms. rewrite filter_app. cbn [filter]. rewrite Mi, app_nil_r. reflexivity. }
    constructor; cbn [q_pe q_iw q_len q_pfree q_nv q_elen q_deg q_w q_wflg q_lists q_mindeg q_nel q_lemax]; auto; try lia.
    + exists f5. split; [exact J3|]. split; [|apply Accf; exact Out5].
      apply (mem_change n pfree (fu (pe2 pre) me (-1)) (len2 pre) f (bd2 pre) i); auto.
      * rewrite fu_ne, Pei, Leni by auto. exact Out5.
      * intros x X1 X2 X3. destruct (Pold x X2 X3) as [Y1 Y2]. split; [exact Y1|]. split; [exact Y2|]. unfold len2, bd2. rewrite Snoc. assert (Nat.eqb x i = false) as -> by (apply Nat.eqb_neq; auto). rewrite orb_false_r. auto.
      * intros _. rewrite !fu_ne by auto. rewrite Pei, Leni. unfold pe2, len2, bd2. rewrite absb_snoc, Ab, Gi, Snoc, Nat.eqb_refl, Mi, orb_true_r by auto. cbn [andb orb negb].
        split; [reflexivity|]. split; [unfold newE; discriminate|]. split; [reflexivity|]. split; [lia|]. exact R.
    + eapply fa_ext; [exact G5|]. intros x Hx. unfold pe2. rewrite absb_snoc, Snoc. destruct (Nat.eqb_spec x i) as [->|]; [|rewrite orb_false_r; reflexivity]. rewrite Mi, !andb_false_r. reflexivity.
    + eapply fa_ext; [exact Fl1|]. intros x Hx. unfold fu, len2. rewrite Snoc. destruct (Nat.eqb_spec x i) as [->|]; [|rewrite orb_false_r; reflexivity]. rewrite Mi, orb_true_r, Nlen. reflexivity.
    + eapply fa_ext; [exact Fn|]. intros x Hx. unfold nv2. rewrite Snoc. destruct (Nat.eqb_spec x i) as [->|]; [|rewrite orb_false_r; reflexivity]. rewrite Mi, !andb_false_r. reflexivity.
    + eapply fa_ext; [exact Fe1|]. intros x Hx. unfold fu, el2. rewrite Snoc. destruct (Nat.eqb_spec x i) as [->|]; [|rewrite orb_false_r; reflexivity]. rewrite Mi, orb_true_r. unfold newE. cbn [length]. rewrite rot_length. unfold p3. lia.
    + eapply fa_ext; [exact Fd1|]. intros x Hx. unfold fu, dg2. rewrite Snoc. destruct (Nat.eqb_spec x i) as [->|]; [|rewrite orb_false_r; reflexivity]. rewrite Mi, orb_true_r, Ipre. cbn [andb negb]. rewrite fu_ne by auto. reflexivity.
    + exists (fu hb c (i :: hb c)). split; [exists h', nx', la'; auto|]. intros x. rewrite in_app_iff. cbn [In]. unfold fu. split.
      * intros (c' & X). destruct (Nat.eqb_spec c' c) as [Ec|]; [destruct X as [<-|X]; [auto|]|]; (assert (Y : exists c, In x (hb c)) by eauto; apply Hhb in Y; tauto).
      * intros [[X|[<-|[]]] Y].
        -- destruct (proj2 (Hhb x) (conj X Y)) as (c' & Hc'). exists c'. destruct (Nat.eqb_spec c' c) as [Ec|]; [rewrite Ec in Hc'; right; auto|auto].
        -- exists c. rewrite Nat.eqb_refl. left; auto.
Qed.

Lemma scan2_ok q : S2 [] q degme nvp0 ->
  wp (for_loop 0 (length acc) (scan2_row aggr n (Z.of_nat me) pme1) (q, degme, nvp0)) (fun '(q, d, nvp) => S2 acc q d nvp).
Proof.
  intros S0. eapply wp_conseq.
  { apply (wp_for_loop (fun k '(q, d, nvp) => S2 (firstn k acc) q d nvp)); [exact S0|].
    intros k [[q1 d] nvp] Hk S1. assert (Hk' : (k < length acc)%nat) by lia.
    rewrite (firstn_S_nth 0%nat) by exact Hk'. assert (L : length (firstn k acc) = k) by (rewrite firstn_length; lia). rewrite <- L at 1.
    apply (row_ok (firstn k acc) (nth k acc 0%nat) (skipn (S k) acc)); [|exact S1].
    rewrite <- (firstn_skipn (S k) acc) at 1. rewrite (firstn_S_nth 0%nat) by exact Hk'. rewrite <- app_assoc. reflexivity. }
  intros [[q1 d] nvp] S1. rewrite Nat.add_0_l, firstn_all in S1. exact S1.
Qed.
End Scan.
