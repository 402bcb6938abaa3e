(* amd_2.c: the construction of the new element *)
From Coq Require Import List Arith ZArith Bool Lia.
From Verif Require Import Base.
From Verif.Model Require Import Amd Amd2.
From Verif.Proofs Require Import AmdB AmdL AmdT QgA QgM QgL.
Import ListNotations.
Open Scope Z_scope.

Lemma firstn_S_nth {A} (d : A) l : forall k, (k < length l)%nat -> firstn (S k) l = firstn k l ++ [nth k l d].
Proof. induction l as [|y t IH]; intros k Hk; cbn in Hk; [lia|]. destruct k; [reflexivity|]. change (firstn (S (S k)) (y :: t)) with (y :: firstn (S k) t). rewrite IH by lia. reflexivity. Qed.

Lemma mem_ext n P pe len f B pe' len' B' : mem n P pe len f B ->
  (forall x, (x < n)%nat -> 0 <= pe' x -> 0 <= pe x /\ pe' x = pe x /\ len' x = len x /\ B' x = B x) -> mem n P pe' len' f B'.
Proof.
  intros M H. constructor.
  - intros x X1 X2. destruct (H x X1 X2) as (Y1 & Y2 & Y3 & Y4). rewrite Y4. apply (m_ne _ _ _ _ _ _ M); auto.
  - intros x X1 X2. destruct (H x X1 X2) as (Y1 & Y2 & Y3 & Y4). rewrite Y3, Y4. apply (m_len _ _ _ _ _ _ M); auto.
  - intros x X1 X2. destruct (H x X1 X2) as (Y1 & Y2 & Y3 & Y4). rewrite Y2, Y3. apply (m_end _ _ _ _ _ _ M); auto.
  - intros x X1 X2. destruct (H x X1 X2) as (Y1 & Y2 & Y3 & Y4). rewrite Y2, Y4. apply (m_at _ _ _ _ _ _ M); auto.
  - intros x y X1 X2 X3 X4 X5. destruct (H x X1 X4) as (Y1 & Y2 & Y3 & _). destruct (H y X2 X5) as (Z1 & Z2 & Z3 & _). rewrite Y2, Y3, Z2, Z3. apply (m_disj _ _ _ _ _ _ M); auto.
  - apply (m_cells _ _ _ _ _ _ M).
Qed.
Lemma mem_f n P pe len f f' B : mem n P pe len f B -> (forall p, 0 <= p < P -> f' p = f p) -> mem n P pe len f' B.
Proof.
  intros M H. constructor; try apply M.
  - intros x X1 X2. eapply at_ext; [|apply (m_at _ _ _ _ _ _ M); auto]. intros k Hk. apply H.
    pose proof (m_end _ _ _ _ _ _ M x X1 X2). pose proof (m_len _ _ _ _ _ _ M x X1 X2). lia.
  - intros p Hp. rewrite H by auto. apply (m_cells _ _ _ _ _ _ M). auto.
Qed.
Lemma mem_suffix n P pe len f B x s : mem n P pe len f B -> (x < n)%nat -> 0 <= pe x -> (s <= length (B x))%nat ->
  mem n P (fu pe x (if (s =? length (B x))%nat then EMPTY else pe x + Z.of_nat s)) (fu len x (len x - Z.of_nat s)) f (fu B x (skipn s (B x))).
Proof.
  intros M Hx Hp Hs. pose proof (m_len _ _ _ _ _ _ M x Hx Hp) as Lx. pose proof (m_end _ _ _ _ _ _ M x Hx Hp) as Ex.
  assert (Live : forall y, 0 <= fu pe x (if (s =? length (B x))%nat then EMPTY else pe x + Z.of_nat s) y ->
     0 <= pe y /\ (y = x -> (s < length (B x))%nat)).
  { intros y. unfold fu. destruct (Nat.eqb_spec y x) as [->|]; [|intros; split; [auto|congruence]]. destruct (Nat.eqb_spec s (length (B x))); [unfold EMPTY; lia|]. intros _. split; [auto|lia]. }
  assert (Val : (s < length (B x))%nat -> fu pe x (if (s =? length (B x))%nat then EMPTY else pe x + Z.of_nat s) x = pe x + Z.of_nat s).
  { intros H. rewrite fu_eq. destruct (Nat.eqb_spec s (length (B x))); [lia|reflexivity]. }
  constructor.
  - intros y Y1 Y2. destruct (Live y Y2) as [Y3 Y4]. destruct (Nat.eq_dec y x) as [->|]; [|rewrite fu_ne by auto; apply (m_ne _ _ _ _ _ _ M); auto].
    rewrite fu_eq. specialize (Y4 eq_refl). intros E. apply (f_equal (@length nat)) in E. rewrite skipn_length in E. cbn in E. lia.
  - intros y Y1 Y2. destruct (Live y Y2) as [Y3 Y4]. destruct (Nat.eq_dec y x) as [->|]; [|rewrite !fu_ne by auto; apply (m_len _ _ _ _ _ _ M); auto].
    rewrite !fu_eq, skipn_length. lia.
  - intros y Y1 Y2. destruct (Live y Y2) as [Y3 Y4]. destruct (Nat.eq_dec y x) as [->|]; [|rewrite !fu_ne by auto; apply (m_end _ _ _ _ _ _ M); auto].
    rewrite Val by auto. rewrite fu_eq. lia.
  - intros y Y1 Y2. destruct (Live y Y2) as [Y3 Y4]. destruct (Nat.eq_dec y x) as [->|]; [|rewrite !fu_ne by auto; apply (m_at _ _ _ _ _ _ M); auto].
    rewrite Val by auto. rewrite fu_eq. apply at_skip; [apply (m_at _ _ _ _ _ _ M); auto|lia].
  - intros y z Y1 Z1 NE Y2 Z2. destruct (Live y Y2) as [Y3 Y4]. destruct (Live z Z2) as [Z3 Z4].
    pose proof (m_disj _ _ _ _ _ _ M y z Y1 Z1 NE Y3 Z3) as D.
    destruct (Nat.eq_dec y x) as [->|Ny]; destruct (Nat.eq_dec z x) as [->|Nz]; [congruence| | |]; rewrite ?Val by auto; rewrite ?fu_eq; rewrite ?fu_ne by auto; [lia|lia|exact D].
  - apply (m_cells _ _ _ _ _ _ M).
Qed.
Lemma stored_suffix n P pe len f B x s : mem n P pe len f B -> (x < n)%nat -> 0 <= pe x -> (s <= length (B x))%nat ->
  zs (stored_len (fu pe x (if (s =? length (B x))%nat then EMPTY else pe x + Z.of_nat s)) (fu len x (len x - Z.of_nat s))) (seq 0 n) <=
  zs (stored_len pe len) (seq 0 n).
Proof.
  intros M Hx Hp Hs. apply zs_le. intros y Hy. unfold stored_len. destruct (Nat.eq_dec y x) as [->|]; [|rewrite !fu_ne by auto; lia].
  rewrite !fu_eq. pose proof (m_len _ _ _ _ _ _ M x Hx Hp). destruct (Z.leb_spec 0 (pe x)); [|lia].
  destruct (Nat.eqb_spec s (length (B x))); [change (0 <=? EMPTY) with false; cbv iota; lia|]. destruct (Z.leb_spec 0 (pe x + Z.of_nat s)); lia.
Qed.
(* the sign of the pointers after mem_suffix *)
Lemma suffix_sign (pe : nat -> Z) x s L : 0 <= pe x -> (s <= L)%nat ->
  (0 <= fu pe x (if (s =? L)%nat then EMPTY else pe x + Z.of_nat s) x <-> (s < L)%nat).
Proof. intros H1 H2. rewrite fu_eq. destruct (Nat.eqb_spec s L); unfold EMPTY; lia. Qed.

Section Build.
Context (n : nat) (N P0 : Z) (g : graph) (me : nat) (dg : nat -> Z).
Context (Q : qgraph n g) (Kme : gK g me = Var) (HN : P0 + Z.of_nat n <= N).
Context (Hdg : forall x, gK g x = Var -> 0 <= dg x < Z.of_nat n).

Local Notation nil_ := (fun _ : nat => @nil nat).
Definition nvc (acc : list nat) (x : nat) : Z := if in_dec Nat.eq_dec x (me :: acc) then - gv g x else gv g x.
(* the degree lists without me and acc *)
Definition dlc (acc : list nat) (dl : nat -> list nat) : Prop :=
  forall x d, In x (dl d) <-> gK g x = Var /\ x <> me /\ ~ In x acc /\ dg x = Z.of_nat d.

Lemma nvc_pos acc i : 0 < nvc acc i -> i <> me /\ ~ In i acc /\ nvc acc i = gv g i.
Proof.
  unfold nvc. pose proof (qg_nonneg _ _ Q i). destruct (in_dec Nat.eq_dec i (me :: acc)) as [H1|H1]; [lia|]. intros _.
  cbn [In] in H1. split; [intros ->; apply H1; auto|]. split; [intros ?; apply H1; auto|auto].
Qed.
Lemma nvc_nonpos acc i : nvc acc i <= 0 -> gK g i = Var -> i = me \/ In i acc.
Proof.
  unfold nvc. intros H K. pose proof (qg_pos _ _ Q i ltac:(congruence)). destruct (in_dec Nat.eq_dec i (me :: acc)) as [H1|H1]; [|lia].
  cbn [In] in H1. destruct H1; auto.
Qed.
Lemma nvc_add acc i : i <> me -> ~ In i acc -> forall x, nvc (acc ++ [i]) x = fu (nvc acc) i (- gv g i) x.
Proof.
  intros H1 H2 x. unfold nvc, fu. destruct (Nat.eqb_spec x i) as [->|H3].
  - destruct (in_dec Nat.eq_dec i (me :: acc ++ [i])) as [|H]; [reflexivity|]. exfalso. apply H. cbn [In]. rewrite in_app_iff. cbn [In]. auto.
  - destruct (in_dec Nat.eq_dec x (me :: acc ++ [i])) as [A|A], (in_dec Nat.eq_dec x (me :: acc)) as [B|B]; try reflexivity; exfalso; cbn [In] in *; rewrite in_app_iff in A; cbn [In] in A; firstorder congruence.
Qed.

Lemma take_step acc i l dl Degree :
  LS n l dl nil_ -> dlc acc dl -> fa Degree n dg -> gK g i = Var -> i <> me -> ~ In i acc ->
  wp (unlink Degree (Z.of_nat i) l) (fun l' => exists dl', LS n l' dl' nil_ /\ dlc (acc ++ [i]) dl').
Proof.
  intros HL HD FD Ki Hi Hacc. unfold dlc in HD. pose proof (Hdg i Ki) as Di.
  assert (IN : In i (dl (Z.to_nat (dg i)))). { apply HD. rewrite Z2Nat.id by lia. auto. }
  eapply wp_conseq; [eapply (unlink_ok n Degree dg i (Z.to_nat (dg i))); [exact HL|exact FD|reflexivity|exact IN|rewrite Z2Nat.id; lia]|].
  intros l' (a & b & E & HL'). exists (fu dl (Z.to_nat (dg i)) (a ++ b)). split; [exact HL'|].
  destruct HL as (h & nx & la & _ & D). pose proof (dl_nd _ _ _ _ _ _ D (Z.to_nat (dg i))) as ND. rewrite E in ND. apply NoDup_remove_2 in ND.
  intros x d. unfold fu. rewrite in_app_iff. cbn [In]. destruct (Nat.eqb_spec d (Z.to_nat (dg i))) as [->|Hd].
  - assert (EX : In x (a ++ b) <-> In x (dl (Z.to_nat (dg i))) /\ x <> i).
    { rewrite E, !in_app_iff. cbn [In]. rewrite in_app_iff in ND. split; [|intros [[X|[X|X]] Y]; auto; congruence]. intros X. split; [tauto|]. intros ->. tauto. }
    rewrite EX, HD. split; [intros ((A1 & A2 & A3 & A4) & A5)|intros (A1 & A2 & A3 & A4)].
    + split; [auto|]. split; [auto|]. split; [|auto]. intros [X|[X|[]]]; [auto|congruence].
    + split; [split; [auto|]; split; [auto|]; split; [|auto]|]; [intros X; apply A3; auto|]. intros ->. apply A3. auto.
  - rewrite HD. split; intros (A1 & A2 & A3 & A4); (split; [auto|]; split; [auto|]; split; [|auto]).
    + intros [X|[<-|[]]]; [auto|]. apply Hd. lia.
    + intros X; apply A3; auto.
Qed.

Record CM (gc : bool) (pme1 pfree degme : Z) (pe len : nat -> Z) (f : Z -> Z) (B : nat -> list nat) (acc : list nat) : Prop := {
  c_mem : mem n pme1 pe len f B;
  c_pme : 0 <= pme1;
  c_pfree : pfree = pme1 + Z.of_nat (length acc);
  c_N : pfree <= N;
  c_acc : at_ f pme1 acc;
  c_nd : NoDup acc;
  c_var : forall i, In i acc -> gK g i = Var /\ i <> me;
  c_deg : degme = zs (gv g) acc;
  c_gc : gc = true -> pme1 <= P0;
  c_sum : zs (stored_len pe len) (seq 0 n) <= P0 }.

Lemma acc_length acc : NoDup acc -> (forall i, In i acc -> gK g i = Var /\ i <> me) -> (length acc < n)%nat.
Proof.
  intros ND H. assert (Mn : (me < n)%nat) by (apply (qg_lt _ _ Q); congruence).
  assert (X : (length (me :: acc) <= length (seq 0 n))%nat); [|rewrite seq_length in X; cbn [length] in X; lia].
  apply NoDup_incl_length; [constructor; [intros I; apply H in I; tauto|exact ND]|]. intros x [<-|Hx]; apply in_seq; [lia|].
  assert (x < n)%nat; [|lia]. apply (qg_lt _ _ Q). destruct (H x Hx). congruence.
Qed.

Definition BA (b : building) (pe len : nat -> Z) (f : Z -> Z) (acc : list nat) : Prop :=
  fa (b_pe b) n pe /\ fa (b_len b) n len /\ fz (b_iw b) N (b_pfree b) f /\ fa (b_nv b) n (nvc acc) /\
  exists dl, LS n (b_lists b) dl nil_ /\ dlc acc dl.

(* the entries of object x from position pos on are stored at p *)
Definition cur (gc : bool) (pe : nat -> Z) (B : nat -> list nat) (x : nat) (full : list nat) (pos : nat) (p : Z) : Prop :=
  exists s, (s <= pos <= length full)%nat /\ (gc = false -> s = 0%nat) /\ B x = skipn s full /\
    (skipn s full <> [] -> 0 <= pe x /\ p = pe x + Z.of_nat (pos - s)).

Lemma cur_read gc pme1 pfree degme pe len f B acc x full pos p : CM gc pme1 pfree degme pe len f B acc -> (x < n)%nat ->
  cur gc pe B x full pos p -> (pos < length full)%nat -> 0 <= p < pfree /\ f p = Z.of_nat (nth pos full 0%nat).
Proof.
  intros C Hx (s & S1 & S2 & S3 & S4) Hp.
  assert (NE : skipn s full <> []). { intros E. apply (f_equal (@length nat)) in E. rewrite skipn_length in E. cbn in E. lia. }
  destruct (S4 NE) as [Px ->]. pose proof (c_mem _ _ _ _ _ _ _ _ _ C) as M. pose proof (c_pfree _ _ _ _ _ _ _ _ _ C).
  pose proof (m_end _ _ _ _ _ _ M x Hx Px). pose proof (m_len _ _ _ _ _ _ M x Hx Px) as L. rewrite S3, skipn_length in L. split; [lia|].
  pose proof (m_at _ _ _ _ _ _ M x Hx Px) as A. rewrite S3 in A. rewrite (at_nth _ _ _ (pos - s) 0%nat A) by (rewrite skipn_length; lia). f_equal.
  rewrite <- (firstn_skipn s full) at 2. rewrite app_nth2 by (rewrite firstn_length; lia). rewrite firstn_length, Nat.min_l by lia. reflexivity.
Qed.

(* the objects other than me and e are where they were, up to moves *)
Definition stay (e : nat) (pe1 len1 : nat -> Z) (B1 : nat -> list nat) (pe len : nat -> Z) (B : nat -> list nat) : Prop :=
  forall x, (x < n)%nat -> x <> me -> x <> e ->
    (pe1 x < 0 -> pe x = pe1 x) /\ (0 <= pe1 x -> 0 <= pe x) /\ len x = len1 x /\ B x = B1 x.
Lemma stay_refl e pe len B : stay e pe len B pe len B.
Proof. intros x _ _ _. auto. Qed.
Lemma stay_trans e p1 l1 b1 p2 l2 b2 p3 l3 b3 : stay e p1 l1 b1 p2 l2 b2 -> stay e p2 l2 b2 p3 l3 b3 -> stay e p1 l1 b1 p3 l3 b3.
Proof.
  intros H1 H2 x X1 X2 X3. destruct (H1 x X1 X2 X3) as (A1 & A2 & A3 & A4). destruct (H2 x X1 X2 X3) as (B1 & B2 & B3 & B4).
  csplit; try congruence; intros X; [rewrite B1; auto; rewrite A1; auto|auto].
Qed.

(* where the garbage collection leaves everything *)
Lemma collect_ok e pm_pos e_pos pme1 pfree degme pe len f B acc Pe Len Iw bodyme bodye :
  CM false pme1 pfree degme pe len f B acc -> (me < n)%nat -> (e < n)%nat ->
  B me = bodyme -> 0 <= pe me -> (pm_pos <= length bodyme)%nat ->
  (e <> me -> B e = bodye /\ 0 <= pe e /\ (e_pos <= length bodye)%nat) ->
  let pe1 := fu pe me (if (pm_pos =? length bodyme)%nat then EMPTY else pe me + Z.of_nat pm_pos) in
  let len1 := fu len me (len me - Z.of_nat pm_pos) in
  let pe2 := if Nat.eq_dec e me then pe1 else fu pe1 e (if (e_pos =? length bodye)%nat then EMPTY else pe1 e + Z.of_nat e_pos) in
  let len2 := if Nat.eq_dec e me then len1 else fu len1 e (len1 e - Z.of_nat e_pos) in
  fa Pe n pe2 -> fa Len n len2 -> fz Iw N pfree f ->
  wp (collect_garbage n pme1 pfree Len Pe Iw) (fun '(pme1', pfree', Pe', Iw') => exists pe' f' B',
    fa Pe' n pe' /\ fz Iw' N pfree' f' /\ CM true pme1' pfree' degme pe' len2 f' B' acc /\ stay e pe len B pe' len2 B' /\
    B' me = skipn pm_pos bodyme /\ (skipn pm_pos bodyme <> [] -> 0 <= pe' me) /\
    (e <> me -> B' e = skipn e_pos bodye /\ (skipn e_pos bodye <> [] -> 0 <= pe' e))).
Proof.
  intros C Mn En Bm Pm Hm He pe1 len1 pe2 len2 F1 F2 F3. pose proof (c_mem _ _ _ _ _ _ _ _ _ C) as M0.
  assert (Lm : (pm_pos <= length (B me))%nat) by (rewrite Bm; exact Hm).
  pose proof (mem_suffix _ _ _ _ _ _ me pm_pos M0 Mn Pm Lm) as M1. pose proof (stored_suffix _ _ _ _ _ _ me pm_pos M0 Mn Pm Lm) as S1. rewrite Bm in M1, S1.
  fold pe1 len1 in M1, S1. set (B1 := fu B me (skipn pm_pos bodyme)) in *.
  set (B2 := if Nat.eq_dec e me then B1 else fu B1 e (skipn e_pos bodye)).
  assert (M2 : mem n pme1 pe2 len2 f B2 /\ zs (stored_len pe2 len2) (seq 0 n) <= P0).
  { pose proof (c_sum _ _ _ _ _ _ _ _ _ C). unfold pe2, len2, B2. destruct (Nat.eq_dec e me) as [|Ne]; [split; [exact M1|lia]|].
    destruct (He Ne) as (E1 & E2 & E3).
    assert (X : B1 e = bodye) by (unfold B1; rewrite fu_ne by auto; exact E1). assert (Y : 0 <= pe1 e) by (unfold pe1; rewrite fu_ne by auto; exact E2).
    assert (Z : (e_pos <= length (B1 e))%nat) by (rewrite X; exact E3).
    pose proof (mem_suffix _ _ _ _ _ _ e e_pos M1 En Y Z) as M2. pose proof (stored_suffix _ _ _ _ _ _ e e_pos M1 En Y Z) as S2. rewrite X in M2, S2. split; [exact M2|lia]. }
  destruct M2 as [M2 S2]. pose proof (c_pfree _ _ _ _ _ _ _ _ _ C) as EP. pose proof (c_pme _ _ _ _ _ _ _ _ _ C).
  eapply wp_conseq; [apply (gc_ok n N pme1 pfree pe2 len2 f B2 M2 ltac:(lia) (c_N _ _ _ _ _ _ _ _ _ C) Pe Len Iw F1 F2 F3)|].
  intros [[[pme1' pfree'] Pe'] Iw'] (pe' & f' & G1 & G2 & G3 & G4 & G5 & G6 & G7 & G8 & G9). exists pe', f', B2.
  assert (Sum : zs (stored_len pe' len2) (seq 0 n) <= P0).
  { etransitivity; [|exact S2]. apply zs_le. intros x Hx. apply in_seq in Hx. unfold stored_len. destruct (Z.leb_spec 0 (pe2 x)) as [X|X].
    - destruct (Z.leb_spec 0 (pe' x)) as [Y|Y]; [lia|]. specialize (G5 x ltac:(split; [lia|exact X])). lia.
    - rewrite (G4 x) by lia. destruct (Z.leb_spec 0 (pe2 x)); lia. }
  assert (Sg : forall x, (x < n)%nat -> (0 <= pe2 x -> 0 <= pe' x)) by (intros; apply G5; auto).
  csplit; auto.
  - constructor; try apply C; auto; try lia.
    + pose proof (c_N _ _ _ _ _ _ _ _ _ C). lia.
    + eapply at_ext; [|apply (c_acc _ _ _ _ _ _ _ _ _ C)]. intros k Hk. apply G9. lia.
  - intros x X1 X2 X3. assert (E : pe2 x = pe x /\ len2 x = len x /\ B2 x = B x).
    { unfold pe2, len2, B2, pe1, len1, B1. destruct (Nat.eq_dec e me); rewrite ?fu_ne by auto; auto. }
    destruct E as (E1 & E2 & E3). csplit; auto; rewrite <- E1; [apply G4; auto|apply Sg; auto].
  - unfold B2. destruct (Nat.eq_dec e me); [unfold B1; apply fu_eq|]. rewrite fu_ne by auto. unfold B1. apply fu_eq.
  - intros NE. apply Sg; [exact Mn|]. assert (pm_pos < length bodyme)%nat.
    { destruct (Nat.eq_dec pm_pos (length bodyme)) as [E|]; [|lia]. exfalso. apply NE. rewrite E. apply skipn_all. }
    unfold pe2. destruct (Nat.eq_dec e me); [|rewrite fu_ne by auto]; unfold pe1; apply suffix_sign; auto.
  - intros Ne. destruct (He Ne) as (E1 & E2 & E3). split; [unfold B2; destruct (Nat.eq_dec e me); [congruence|apply fu_eq]|].
    intros NE. apply Sg; [exact En|]. assert (e_pos < length bodye)%nat.
    { destruct (Nat.eq_dec e_pos (length bodye)) as [E|]; [|lia]. exfalso. apply NE. rewrite E. apply skipn_all. }
    unfold pe2. destruct (Nat.eq_dec e me); [congruence|]. apply suffix_sign; auto. unfold pe1. rewrite fu_ne by auto. exact E2.
Qed.

Definition body : list nat := gE g me ++ gA g me.
Definition posme (e k j : nat) : nat := if Nat.eq_dec e me then (length (gE g me) + j)%nat else S k.
Definition cursors (gc : bool) (pe : nat -> Z) (B : nat -> list nat) (e : nat) (Le : list nat) (k j : nat) (pj p : Z) : Prop :=
  cur gc pe B me body (posme e k j) (if Nat.eq_dec e me then pj else p) /\ (e <> me -> cur gc pe B e Le j pj).

Lemma compress_ok e Le k j b pe len f B acc :
  CM false (b_pme1 b) (b_pfree b) (b_degme b) pe len f B acc -> BA b pe len f acc -> (me < n)%nat -> (e < n)%nat ->
  (e = me -> Le = gA g me /\ k = length (gE g me)) -> Le <> [] ->
  cursors false pe B e Le k (S j) (b_pj b) (b_p b) ->
  wp (compress n (Z.of_nat me) (Z.of_nat e) (Z.of_nat k + 1) (Z.of_nat (length Le)) (Z.of_nat j + 1) b) (fun b' =>
    exists pe' len' f' B', CM true (b_pme1 b') (b_pfree b') (b_degme b') pe' len' f' B' acc /\ BA b' pe' len' f' acc /\
      stay e pe len B pe' len' B' /\ cursors true pe' B' e Le k (S j) (b_pj b') (b_p b') /\ b_nv b' = b_nv b).
Proof.
  intros C (A1 & A2 & A3 & A4 & A5) Mn En Eme LeN [Cm Ce]. destruct b as [pj p pme1 pfree degme Pe Len Iw Nv l]. cbn [b_pj b_p b_pme1 b_pfree b_degme b_pe b_len b_iw b_nv b_lists] in *.
  unfold compress. pose proof (c_mem _ _ _ _ _ _ _ _ _ C) as M.
  destruct Cm as (s & S1 & S2 & S3 & S4). rewrite (S2 eq_refl) in *. cbn [skipn] in *. clear S2 s.
  assert (BN : body <> []). { intros E. rewrite E in S1. cbn in S1. unfold posme in S1. destruct (Nat.eq_dec e me); lia. }
  destruct (S4 BN) as [Pm Ep]. pose proof (m_len _ _ _ _ _ _ M me Mn Pm) as Lm. rewrite S3 in Lm.
  assert (He : e <> me -> B e = Le /\ 0 <= pe e /\ (S j <= length Le)%nat /\ pj = pe e + Z.of_nat (S j)).
  { intros Ne. destruct (Ce Ne) as (s & T1 & T2 & T3 & T4). rewrite (T2 eq_refl) in *. cbn [skipn] in *. destruct (T4 LeN) as [T5 T6]. csplit; auto; lia. }
  wb. eapply wfa_setn; [exact A1|exact Mn|]. intros Pe1 G1. wb. eapply wfa_getn; [exact A2|exact Mn|]. wb. eapply wfa_setn; [exact A2|exact Mn|]. intros Len1 G2.
  set (v1 := if len me - (Z.of_nat k + 1) =? 0 then EMPTY else p).
  wb. eapply (wp_conseq _ (fun Pe' => fa Pe' n (fu pe me v1))).
  { unfold v1. destruct (len me - (Z.of_nat k + 1) =? 0).
    - eapply wfa_setn; [exact G1|exact Mn|]. intros Pe2 G3. eapply fa_ext; [exact G3|]. intros x Hx. unfold fu. destruct (x =? me)%nat; reflexivity.
    - exact G1. }
  intros Pe2 G3. wb. eapply wfa_setn; [exact G3|exact En|]. intros Pe3 G4. wb. eapply wfa_setn; [exact G2|exact En|]. intros Len2 G5.
  set (v2 := if Z.of_nat (length Le) - (Z.of_nat j + 1) =? 0 then EMPTY else pj).
  wb. eapply (wp_conseq _ (fun Pe' => fa Pe' n (fu (fu pe me v1) e v2))).
  { unfold v2. destruct (Z.of_nat (length Le) - (Z.of_nat j + 1) =? 0).
    - eapply wfa_setn; [exact G4|exact En|]. intros Pe4 G6. eapply fa_ext; [exact G6|]. intros x Hx. unfold fu. destruct (x =? e)%nat; reflexivity.
    - exact G4. }
  intros Pe4 G6.
  set (pm_pos := posme e k (S j)) in *.
  set (pe1 := fu pe me (if (pm_pos =? length body)%nat then EMPTY else pe me + Z.of_nat pm_pos)).
  set (len1 := fu len me (len me - Z.of_nat pm_pos)).
  set (pe2 := if Nat.eq_dec e me then pe1 else fu pe1 e (if (S j =? length Le)%nat then EMPTY else pe1 e + Z.of_nat (S j))).
  set (len2 := if Nat.eq_dec e me then len1 else fu len1 e (len1 e - Z.of_nat (S j))).
  assert (LB : length body = (length (gE g me) + length (gA g me))%nat) by (unfold body; apply app_length).
  assert (X1 : fa Pe4 n pe2).
  { eapply fa_ext; [exact G6|]. intros x Hx. unfold pe2, pe1, v1, v2, fu. destruct (Nat.eq_dec e me) as [Em|Ne].
    - subst e. destruct (Nat.eqb_spec x me) as [->|]; [|reflexivity]. destruct (Eme eq_refl) as [EL Ek]. unfold pm_pos, posme in *. destruct (Nat.eq_dec me me); [|congruence].
      rewrite EL. rewrite LB. destruct (Z.eqb_spec (Z.of_nat (length (gA g me)) - (Z.of_nat j + 1)) 0), (Nat.eqb_spec (length (gE g me) + S j) (length (gE g me) + length (gA g me))); try lia; try reflexivity.
    - destruct (He Ne) as (_ & _ & T2 & T3). unfold pm_pos, posme in *. destruct (Nat.eq_dec e me); [congruence|].
      destruct (Nat.eqb_spec x e) as [->|].
      + destruct (Nat.eqb_spec e me); [congruence|]. destruct (Z.eqb_spec (Z.of_nat (length Le) - (Z.of_nat j + 1)) 0), (Nat.eqb_spec (S j) (length Le)); try lia; reflexivity.
      + destruct (Nat.eqb_spec x me) as [->|]; [|reflexivity]. destruct (Z.eqb_spec (len me - (Z.of_nat k + 1)) 0), (Nat.eqb_spec (S k) (length body)); try lia; reflexivity. }
  assert (X2 : fa Len2 n len2).
  { eapply fa_ext; [exact G5|]. intros x Hx. unfold len2, len1, fu. destruct (Nat.eq_dec e me) as [Em|Ne].
    - subst e. destruct (Nat.eqb_spec x me) as [->|]; [|reflexivity]. destruct (Eme eq_refl) as [EL Ek]. unfold pm_pos, posme in *. destruct (Nat.eq_dec me me); [|congruence]. rewrite EL. lia.
    - destruct (He Ne) as (T0 & T1 & T2 & T3). unfold pm_pos, posme in *. destruct (Nat.eq_dec e me); [congruence|].
      destruct (Nat.eqb_spec x e) as [->|].
      + destruct (Nat.eqb_spec e me); [congruence|]. pose proof (m_len _ _ _ _ _ _ M e En T1) as Le'. rewrite T0 in Le'. lia.
      + destruct (Nat.eqb_spec x me) as [->|]; [|reflexivity]. lia. }
  wb. eapply wp_conseq.
  { apply (collect_ok e pm_pos (S j) pme1 pfree degme pe len f B acc Pe4 Len2 Iw body Le C Mn En S3 Pm ltac:(lia)); [|exact X1|exact X2|exact A3].
    intros Ne. destruct (He Ne) as (T0 & T1 & T2 & T3). auto. }
  intros [[[pme1' pfree'] Pe'] Iw'] (pe' & f' & B' & H1 & H2 & H3 & H4 & H5 & H6 & H7). cbv beta iota.
  wb. eapply wfa_getn; [exact H1|exact En|]. wb. eapply wfa_getn; [exact H1|exact Mn|]. cbn [wp].
  exists pe', len2, f', B'. cbn [b_pj b_p b_pme1 b_pfree b_degme b_pe b_len b_iw b_nv b_lists]. split; [exact H3|].
  split; [unfold BA; cbn [b_pj b_p b_pme1 b_pfree b_degme b_pe b_len b_iw b_nv b_lists]; auto|]. split; [exact H4|]. split; [|reflexivity].
  split.
  - exists pm_pos. fold pm_pos. split; [lia|]. split; [discriminate|]. split; [exact H5|]. intros NE. split; [auto|].
    rewrite Nat.sub_diag, Z.add_0_r. destruct (Nat.eq_dec e me); congruence.
  - intros Ne. destruct (He Ne) as (T0 & T1 & T2 & T3). destruct (H7 Ne) as [H8 H9]. exists (S j). split; [lia|]. split; [discriminate|]. split; [exact H8|].
    intros NE. split; [auto|]. rewrite Nat.sub_diag, Z.add_0_r. reflexivity.
Qed.

Lemma cur_adv gc pe B x full pos p : cur gc pe B x full pos p -> (pos < length full)%nat -> cur gc pe B x full (S pos) (p + 1).
Proof.
  intros (s & S1 & S2 & S3 & S4) H. exists s. split; [lia|]. split; [exact S2|]. split; [exact S3|]. intros NE. destruct (S4 NE). split; [auto|lia].
Qed.

Lemma CM_add gc pme1 pfree degme pe len f B acc i : CM gc pme1 pfree degme pe len f B acc -> pfree < N -> gK g i = Var -> i <> me -> ~ In i acc ->
  CM gc pme1 (pfree + 1) (degme + gv g i) pe len (zu f pfree (Z.of_nat i)) B (acc ++ [i]).
Proof.
  intros C H K Hi Hacc. pose proof (c_pfree _ _ _ _ _ _ _ _ _ C). constructor; try apply C.
  - eapply mem_f; [apply C|]. intros p Hp. apply zu_ne. lia.
  - rewrite app_length. cbn [length]. lia.
  - lia.
  - apply at_app. split; [apply at_zu; [lia|apply C]|]. cbn [at_]. split; [|exact I]. replace (pme1 + Z.of_nat (length acc)) with pfree by lia. apply zu_eq.
  - apply AmdT.nodup_app. split; [apply C|]. split; [repeat constructor; cbn; tauto|]. intros x Hx [<-|[]]. auto.
  - intros x Hx. apply in_app_iff in Hx. destruct Hx as [Hx|[<-|[]]]; [apply C; auto|auto].
  - rewrite zs_app, (c_deg _ _ _ _ _ _ _ _ _ C). cbn [zs]. lia.
Qed.

Lemma inner_ok e Le k b0 gc1 pe1 len1 f1 B1 acc1 Degree :
  fa Degree n dg -> (me < n)%nat -> (e < n)%nat -> (e = me -> Le = gA g me /\ k = length (gE g me)) ->
  (forall i, In i Le -> (i < n)%nat /\ (gK g i = Dead /\ gv g i = 0 \/ gK g i = Var)) ->
  CM gc1 (b_pme1 b0) (b_pfree b0) (b_degme b0) pe1 len1 f1 B1 acc1 -> BA b0 pe1 len1 f1 acc1 ->
  cursors gc1 pe1 B1 e Le k 0 (b_pj b0) (b_p b0) ->
  wp (for_loop 0 (length Le) (build_entry n N Degree (Z.of_nat me) (Z.of_nat e) (Z.of_nat k + 1) (Z.of_nat (length Le))) b0) (fun b =>
    exists gc pe len f B acc, CM gc (b_pme1 b) (b_pfree b) (b_degme b) pe len f B acc /\ BA b pe len f acc /\ stay e pe1 len1 B1 pe len B /\
      cursors gc pe B e Le k (length Le) (b_pj b) (b_p b) /\
      (forall i, In i acc1 -> In i acc) /\ (forall i, In i acc -> In i acc1 \/ In i Le) /\ (forall i, In i Le -> gK g i = Var -> i = me \/ In i acc)).
Proof.
  intros FD Mn En Eme HLe C1 A1 Cu1.
  eapply wp_conseq.
  { apply (wp_for_loop (fun j b => exists gc pe len f B acc, CM gc (b_pme1 b) (b_pfree b) (b_degme b) pe len f B acc /\ BA b pe len f acc /\ stay e pe1 len1 B1 pe len B /\
      cursors gc pe B e Le k j (b_pj b) (b_p b) /\
      (forall i, In i acc1 -> In i acc) /\ (forall i, In i acc -> In i acc1 \/ In i Le) /\ (forall i, In i (firstn j Le) -> gK g i = Var -> i = me \/ In i acc))).
    - exists gc1, pe1, len1, f1, B1, acc1. csplit; auto. apply stay_refl. intros i [].
    - intros j b Hj (gc & pe & len & f & B & acc & C & A & St & Cu & H1 & H2 & H3).
      assert (Hj' : (j < length Le)%nat) by lia. clear Hj.
      assert (LeN : Le <> []) by (intros E; rewrite E in Hj'; cbn in Hj'; lia).
      assert (Rd : 0 <= b_pj b < b_pfree b /\ f (b_pj b) = Z.of_nat (nth j Le 0%nat)).
      { destruct Cu as [Cm Ce]. destruct (Nat.eq_dec e me) as [Em|Ne].
        - destruct (Eme Em) as [EL Ek]. pose proof (cur_read _ _ _ _ _ _ _ _ _ me body (posme e k j) (b_pj b) C Mn Cm) as R. unfold posme in R.
          destruct (Nat.eq_dec e me); [|congruence]. unfold body in R. rewrite app_length, app_nth2 in R by lia. rewrite EL in *.
          replace (length (gE g me) + j - length (gE g me))%nat with j in R by lia. apply R. lia.
        - apply (cur_read _ _ _ _ _ _ _ _ _ e Le j (b_pj b) C En (Ce Ne) Hj'). }
      destruct Rd as [Rp Rv]. set (i := nth j Le 0%nat) in *. assert (Hi : In i Le) by (apply nth_In; exact Hj').
      destruct (HLe i Hi) as [Hin Hk].
      assert (Cu' : cursors gc pe B e Le k (S j) (b_pj b + 1) (b_p b)).
      { destruct Cu as [Cm Ce]. split.
        - unfold posme in *. destruct (Nat.eq_dec e me) as [Em|Ne]; [|exact Cm]. destruct (Eme Em) as [EL Ek]. replace (length (gE g me) + S j)%nat with (S (length (gE g me) + j)) by lia.
          apply cur_adv; [exact Cm|]. unfold body. rewrite app_length. rewrite EL in Hj'. lia.
        - intros Ne. apply cur_adv; auto. }
      assert (FJ : forall x, In x (firstn (S j) Le) -> In x (firstn j Le) \/ x = i).
      { intros x Hx. assert (E : firstn (S j) Le = firstn j Le ++ [i]).
        { apply firstn_S_nth. exact Hj'. }
        rewrite E, in_app_iff in Hx. cbn in Hx. destruct Hx as [|[|[]]]; auto. }
      destruct A as (G1 & G2 & G3 & G4 & dl & G5 & G6). unfold build_entry. wb. eapply wfz_get; [exact G3|exact Rp|]. rewrite Rv. wb. eapply wfa_getn; [exact G4|exact Hin|].
      destruct b as [pj p pme1 pfree degme Pe Len Iw Nv l]. cbn [b_pj b_p b_pme1 b_pfree b_degme b_pe b_len b_iw b_nv b_lists] in *.
      destruct (Z.gtb_spec (nvc acc i) 0) as [Hv|Hv].
      + destruct (nvc_pos acc i ltac:(lia)) as (Ime & Iacc & Env). rewrite Env in *.
        assert (Ki : gK g i = Var) by (destruct Hk as [[_ X]|X]; [lia|exact X]).
        wb. eapply (wp_conseq _ (fun b => exists gc pe len f B, CM gc (b_pme1 b) (b_pfree b) (b_degme b) pe len f B acc /\ BA b pe len f acc /\ stay e pe1 len1 B1 pe len B /\
            cursors gc pe B e Le k (S j) (b_pj b) (b_p b) /\ b_pfree b < N)).
        { destruct (Z.geb_spec pfree N) as [Hf|Hf].
          - assert (gc = false) as ->.
            { destruct gc; [|reflexivity]. pose proof (c_gc _ _ _ _ _ _ _ _ _ C eq_refl). pose proof (c_pfree _ _ _ _ _ _ _ _ _ C). pose proof (acc_length acc (c_nd _ _ _ _ _ _ _ _ _ C) (c_var _ _ _ _ _ _ _ _ _ C)). lia. }
            eapply wp_conseq; [apply (compress_ok e Le k j (Building (pj + 1) p pme1 pfree degme Pe Len Iw Nv l) pe len f B acc C); auto|].
            + unfold BA. cbn [b_pj b_p b_pme1 b_pfree b_degme b_pe b_len b_iw b_nv b_lists]. csplit; auto. exists dl; auto.
            + intros b' (pe' & len' & f' & B' & C' & A' & St' & Cu'' & _). exists true, pe', len', f', B'. csplit; auto.
              * eapply stay_trans; eauto.
              * pose proof (c_gc _ _ _ _ _ _ _ _ _ C' eq_refl). pose proof (c_pfree _ _ _ _ _ _ _ _ _ C'). pose proof (acc_length acc (c_nd _ _ _ _ _ _ _ _ _ C) (c_var _ _ _ _ _ _ _ _ _ C)). lia.
          - cbn [wp]. exists gc, pe, len, f, B. cbn [b_pj b_p b_pme1 b_pfree b_degme b_pe b_len b_iw b_nv b_lists]. csplit; auto.
            unfold BA. cbn [b_pj b_p b_pme1 b_pfree b_degme b_pe b_len b_iw b_nv b_lists]. csplit; auto. exists dl; auto. }
        clear dl G1 G2 G3 G4 G5 G6 C St Cu Cu' Rp Rv.
        intros [pj' p' pme1' pfree' degme' Pe' Len' Iw' Nv' l'] (gc' & pe' & len' & f' & B' & C & (G1 & G2 & G3 & G4 & dl & G5 & G6) & St & Cu & Hf).
        cbn [b_pj b_p b_pme1 b_pfree b_degme b_pe b_len b_iw b_nv b_lists] in *. cbv beta iota.
        pose proof (c_pfree _ _ _ _ _ _ _ _ _ C) as EP. pose proof (c_pme _ _ _ _ _ _ _ _ _ C) as EP'.
        wb. eapply wfa_setn; [exact G4|exact Hin|]. intros Nv2 J1. wb. eapply wfz_set; [exact G3|lia|lia|]. intros Iw2 J2.
        wb. eapply wp_conseq; [apply (take_step acc i l' dl Degree G5 G6 FD Ki Ime Iacc)|]. intros l2 (dl2 & J3 & J4). cbn [wp].
        exists gc', pe', len', (zu f' pfree' (Z.of_nat i)), B', (acc ++ [i]). cbn [b_pj b_p b_pme1 b_pfree b_degme b_pe b_len b_iw b_nv b_lists].
        csplit; auto.
        * apply CM_add; auto.
        * unfold BA. cbn [b_pj b_p b_pme1 b_pfree b_degme b_pe b_len b_iw b_nv b_lists]. csplit; auto.
          -- rewrite Z.max_r in J2 by lia. exact J2.
          -- eapply fa_ext; [exact J1|]. intros x Hx. symmetry. apply nvc_add; auto.
          -- exists dl2; auto.
        * intros x Hx. apply in_app_iff. auto.
        * intros x Hx. apply in_app_iff in Hx. destruct Hx as [Hx|[<-|[]]]; [apply H2; auto|auto].
        * intros x Hx Kx. rewrite in_app_iff. cbn [In]. destruct (FJ x Hx) as [Y| ->]; [destruct (H3 x Y Kx); auto|auto].
      + cbn [wp]. exists gc, pe, len, f, B, acc. cbn [b_pj b_p b_pme1 b_pfree b_degme b_pe b_len b_iw b_nv b_lists]. csplit; auto.
        * unfold BA. cbn [b_pj b_p b_pme1 b_pfree b_degme b_pe b_len b_iw b_nv b_lists]. csplit; auto. exists dl; auto.
        * intros x Hx Kx. destruct (FJ x Hx) as [Y| ->]; [apply H3; auto|]. apply nvc_nonpos; auto. }
  intros b (gc & pe & len & f & B & acc & C & A & St & Cu & H1 & H2 & H3). rewrite Nat.add_0_l in *. rewrite firstn_all in H3. exists gc, pe, len, f, B, acc. auto 10.
Qed.

(* the objects during the construction: those absorbed so far point to me *)
Definition live_now (done : list nat) (pe0 pe : nat -> Z) (len0 len : nat -> Z) (B : nat -> list nat) (bd : nat -> list nat) : Prop :=
  forall x, (x < n)%nat -> x <> me ->
    (In x done -> pe x = FLIP (Z.of_nat me)) /\
    (~ In x done -> (pe0 x < 0 -> pe x = pe0 x) /\ (0 <= pe0 x -> 0 <= pe x /\ B x = bd x /\ len x = len0 x)).

Context (pe0 len0 : nat -> Z) (f0 : Z -> Z) (w0 : nat -> Z) (pfree0 : Z).
Context (Live0 : forall x, (x < n)%nat -> (0 <= pe0 x <-> gK g x <> Dead)).
Definition bd (x : nat) : list nat := match gK g x with Var => gE g x ++ gA g x | Elem => gL g x | Dead => [] end.
Context (M0 : mem n pfree0 pe0 len0 f0 bd) (Pf0 : 0 <= pfree0 <= N) (Sum0 : zs (stored_len pe0 len0) (seq 0 n) <= P0).

Definition wz (done : list nat) (x : nat) : Z := if in_dec Nat.eq_dec x done then 0 else w0 x.

Lemma build_new_ok Degree Pe Len Iw Nv W l dl :
  fa Degree n dg -> fa Pe n pe0 -> fa Len n len0 -> fz Iw N pfree0 f0 -> fa Nv n (nvc []) -> fa W n w0 -> LS n l dl nil_ -> dlc [] dl ->
  wp (build_new n N Degree (Z.of_nat me) (Z.of_nat (length (gE g me))) pfree0 Pe Len Iw Nv W l) (fun '(b, W) =>
    exists pe len f B acc, mem n (b_pme1 b) pe len f B /\ 0 <= b_pme1 b /\ b_pfree b = b_pme1 b + Z.of_nat (length acc) /\ b_pfree b <= N /\ at_ f (b_pme1 b) acc /\
      NoDup acc /\ b_degme b = zs (gv g) acc /\ BA b pe len f acc /\ fa W n (wz (gE g me)) /\ live_now (gE g me) pe0 pe len0 len B bd /\
      (forall i, In i acc <-> i <> me /\ gK g i = Var /\ (In i (gA g me) \/ exists e, In e (gE g me) /\ In i (gL g e)))).
Proof.
  intros FD F1 F2 F3 F4 F5 HL HD. assert (Mn : (me < n)%nat) by (apply (qg_lt _ _ Q); congruence).
  assert (Pm : 0 <= pe0 me) by (apply Live0; [auto|congruence]).
  assert (Bm : bd me = body) by (unfold bd, body; rewrite Kme; reflexivity).
  pose proof (m_len _ _ _ _ _ _ M0 me Mn Pm) as Lm. rewrite Bm in Lm. pose proof (m_ne _ _ _ _ _ _ M0 me Mn Pm) as BN. rewrite Bm in BN.
  assert (LB : length body = (length (gE g me) + length (gA g me))%nat) by (unfold body; apply app_length).
  unfold build_new. wb. eapply wfa_getn; [exact F1|exact Mn|]. wb. eapply wfa_getn; [exact F2|exact Mn|]. rewrite Lm.
  replace (Z.to_nat (Z.of_nat (length (gE g me)) + 1)) with (S (length (gE g me))) by lia.
  replace (Z.of_nat (length body) - Z.of_nat (length (gE g me))) with (Z.of_nat (length (gA g me))) by lia.
  set (ne := length (gE g me)) in *.
  eapply wp_conseq.
  { apply (wp_for_loop (fun k '(b, W) => exists gc pe len f B acc, CM gc (b_pme1 b) (b_pfree b) (b_degme b) pe len f B acc /\ BA b pe len f acc /\
      fa W n (wz (firstn k (gE g me))) /\ live_now (firstn k (gE g me)) pe0 pe len0 len B bd /\
      ((k <= ne)%nat -> cur gc pe B me body k (b_p b)) /\
      (forall i, In i acc -> (exists e, In e (firstn k (gE g me)) /\ In i (gL g e)) \/ k = S ne /\ In i (gA g me)) /\
      (forall i, gK g i = Var -> (exists e, In e (firstn k (gE g me)) /\ In i (gL g e)) \/ k = S ne /\ In i (gA g me) -> i = me \/ In i acc))).
    - exists false, pe0, len0, f0, bd, (@nil nat). cbn [b_pj b_p b_pme1 b_pfree b_degme b_pe b_len b_iw b_nv b_lists firstn].
      split.
      { constructor; auto; try lia; cbn [length zs at_ In]; try lia; try tauto; try constructor; try discriminate. }
      split; [unfold BA; cbn [b_pj b_p b_pme1 b_pfree b_degme b_pe b_len b_iw b_nv b_lists]; csplit; auto; exists dl; auto|].
      split; [eapply fa_ext; [exact F5|]; intros x Hx; reflexivity|].
      split. { intros x X1 X2. split; [intros []|]. intros _. split; auto. }
      split. { intros _. exists 0%nat. split; [lia|]. split; [auto|]. split; [rewrite Bm; reflexivity|]. intros _. split; [auto|]. lia. }
      split; [intros i []|]. intros i K [(e & [] & _)|[X _]]. discriminate.
    - intros k [b W1] Hk (gc & pe & len & f & B & acc & C & A & FW & LN & Cu & H1 & H2). specialize (Cu ltac:(lia)).
      destruct b as [pj p pme1 pfree degme Pe1 Len1 Iw1 Nv1 l1]. cbn [b_pj b_p b_pme1 b_pfree b_degme b_pe b_len b_iw b_nv b_lists] in *.
      pose proof (c_mem _ _ _ _ _ _ _ _ _ C) as M. pose proof A as A'. destruct A' as (G1 & G2 & G3 & G4 & dl1 & G5 & G6). cbn [b_pj b_p b_pme1 b_pfree b_degme b_pe b_len b_iw b_nv b_lists] in *.
      unfold build_step. destruct (Z.gtb_spec (Z.of_nat k + 1) (Z.of_nat ne)) as [Hl|Hl].
      + assert (k = ne) as -> by lia. cbn [bind]. rewrite Nat2Z.id.
        assert (FE : firstn ne (gE g me) = gE g me) by apply firstn_all. rewrite FE in *.
        wb. eapply wp_conseq.
        { apply (inner_ok me (gA g me) ne (Building p p pme1 pfree degme Pe1 Len1 Iw1 Nv1 l1) gc pe len f B acc Degree FD Mn Mn); cbn [b_pj b_p b_pme1 b_pfree b_degme b_pe b_len b_iw b_nv b_lists]; auto.
          - intros i Hi. destruct (qg_A _ _ Q me i Kme Hi) as [X1 [X2|[X2 _]]]; auto.
          - split; [|congruence]. unfold posme. destruct (Nat.eq_dec me me); [|congruence]. rewrite Nat.add_0_r. exact Cu. }
        intros b (gc' & pe' & len' & f' & B' & acc' & C' & A'' & St & Cu' & J1 & J2 & J3). cbv beta. destruct (Z.eqb_spec (Z.of_nat me) (Z.of_nat me)); [|congruence]. cbn [negb wp].
        exists gc', pe', len', f', B', acc'. rewrite firstn_all2 by (unfold ne; lia). split; [exact C'|]. split; [exact A''|]. split; [exact FW|]. split; [|split; [lia|split]].
        * intros x X1 X2. destruct (LN x X1 X2) as [L1 L2]. destruct (St x X1 X2 X2) as (S1 & S2 & S3 & S4).
          split; [intros X3; specialize (L1 X3); rewrite S1; [auto|rewrite L1; unfold FLIP; lia]|]. intros X3. destruct (L2 X3) as [L3 L4]. split; [intros X4; specialize (L3 X4); rewrite S1; [auto|lia]|].
          intros X4. destruct (L4 X4) as (L5 & L6 & L7). split; [auto|]. split; congruence.
        * intros i Hi. destruct (J2 i Hi) as [Y|Y]; [|right; auto]. destruct (H1 i Y) as [|[Z _]]; [auto|lia].
        * intros i Ki [Y|[_ Y]]; [|apply J3; auto]. destruct (H2 i Ki (or_introl Y)); auto.
      + assert (Hk' : (k < ne)%nat) by lia. clear Hk Hl. set (e := nth k (gE g me) 0%nat).
        assert (He : In e (gE g me)) by (apply nth_In; exact Hk'). destruct (qg_E _ _ Q me e Kme He) as [Ke Le]. assert (En : (e < n)%nat) by (apply (qg_lt _ _ Q); congruence).
        assert (Ne : e <> me) by congruence.
        destruct (cur_read _ _ _ _ _ _ _ _ _ me body k p C Mn Cu ltac:(lia)) as [Rp Rv].
        assert (Ev : nth k body 0%nat = e) by (unfold body, e; apply app_nth1; exact Hk'). rewrite Ev in Rv.
        assert (Fst : firstn (S k) (gE g me) = firstn k (gE g me) ++ [e]).
        { apply firstn_S_nth. exact Hk'. }
        assert (Nin : ~ In e (firstn k (gE g me))).
        { pose proof (qg_ndE _ _ Q me Kme) as ND. rewrite <- (firstn_skipn (S k) (gE g me)), Fst in ND. rewrite <- app_assoc in ND. cbn in ND. apply NoDup_remove_2 in ND. rewrite in_app_iff in ND. tauto. }
        destruct (LN e En Ne) as [_ LNe]. destruct (LNe Nin) as [_ LNe']. destruct LNe' as (Pe_e & Be & Lene); [apply Live0; [auto|congruence]|].
        assert (Bd : bd e = gL g e) by (unfold bd; rewrite Ke; reflexivity). rewrite Bd in Be.
        pose proof (m_len _ _ _ _ _ _ M e En Pe_e) as Le'. rewrite Be in Le'.
        wb. wb. eapply wfz_get; [exact G3|lia|]. rewrite Rv. wb. eapply wfa_getn; [exact G1|exact En|]. wb. eapply wfa_getn; [exact G2|exact En|]. rewrite Le'. cbn [wp].
        rewrite Nat2Z.id. wb. eapply wp_conseq.
        { apply (inner_ok e (gL g e) k (Building (pe e) (p + 1) pme1 pfree degme Pe1 Len1 Iw1 Nv1 l1) gc pe len f B acc Degree FD Mn En); cbn [b_pj b_p b_pme1 b_pfree b_degme b_pe b_len b_iw b_nv b_lists]; auto.
          - congruence.
          - intros i Hi. destruct (qg_L _ _ Q e i Ke Hi) as [X1 [X2|[X2 _]]]; auto.
          - split; [|intros _].
            + unfold posme. destruct (Nat.eq_dec e me); [congruence|]. apply cur_adv; [exact Cu|lia].
            + exists 0%nat. split; [lia|]. split; [auto|]. split; [exact Be|]. intros _. split; [auto|]. lia. }
        intros [pj2 p2 pme2 pfree2 degme2 Pe2 Len2 Iw2 Nv2 l2] (gc' & pe' & len' & f' & B' & acc' & C' & (K1 & K2 & K3 & K4 & dl2 & K5 & K6) & St & [Cu' _] & J1 & J2 & J3).
        cbn [b_pj b_p b_pme1 b_pfree b_degme b_pe b_len b_iw b_nv b_lists] in *. cbv beta. destruct (Z.eqb_spec (Z.of_nat e) (Z.of_nat me)); [lia|]. cbn [negb].
        wb. eapply wfa_setn; [exact K1|exact En|]. intros Pe3 L1. wb. eapply wfa_setn; [exact FW|exact En|]. intros W2 L2. cbn [wp].
        exists gc', (fu pe' e (FLIP (Z.of_nat me))), len', f', B', acc'. cbn [b_pj b_p b_pme1 b_pfree b_degme b_pe b_len b_iw b_nv b_lists].
        assert (NF : FLIP (Z.of_nat me) < 0) by (unfold FLIP; lia).
        split; [|split; [|split; [|split; [|split; [|split]]]]].
        * constructor; try apply C'.
          -- eapply mem_ext; [apply C'|]. intros x X1 X2. unfold fu in *. destruct (Nat.eqb_spec x e) as [->|]; [lia|auto].
          -- etransitivity; [|apply (c_sum _ _ _ _ _ _ _ _ _ C')]. apply zs_le. intros x Hx. apply in_seq in Hx. unfold stored_len, fu. destruct (Nat.eqb_spec x e) as [->|]; [|lia].
             destruct (Z.leb_spec 0 (FLIP (Z.of_nat me))); [lia|]. destruct (Z.leb_spec 0 (pe' e)) as [Y|Y]; [|lia].
             pose proof (m_len _ _ _ _ _ _ (c_mem _ _ _ _ _ _ _ _ _ C') e En Y). lia.
        * unfold BA. cbn [b_pj b_p b_pme1 b_pfree b_degme b_pe b_len b_iw b_nv b_lists]. csplit; auto. exists dl2; auto.
        * eapply fa_ext; [exact L2|]. intros x Hx. unfold wz, fu. rewrite Fst. destruct (Nat.eqb_spec x e) as [->|Hxe].
          -- destruct (in_dec Nat.eq_dec e (firstn k (gE g me) ++ [e])) as [|Y]; [reflexivity|]. exfalso. apply Y. apply in_app_iff. right. left; auto.
          -- destruct (in_dec Nat.eq_dec x (firstn k (gE g me) ++ [e])) as [Y|Y], (in_dec Nat.eq_dec x (firstn k (gE g me))) as [Y'|Y']; try reflexivity; exfalso; rewrite in_app_iff in Y; cbn in Y; [destruct Y as [|[|[]]]; congruence|tauto].
        * intros x X1 X2. rewrite Fst, in_app_iff. cbn [In]. destruct (Nat.eq_dec x e) as [->|X3].
          -- rewrite fu_eq. split; [auto|]. intros X; exfalso; apply X; auto.
          -- rewrite fu_ne by auto. destruct (LN x X1 X2) as [N1 N2]. destruct (St x X1 X2 X3) as (S1 & S2 & S3 & S4).
             split; [intros [X4|[X4|[]]]; [|congruence]; specialize (N1 X4); rewrite S1; [auto|lia]|]. intros X4. destruct (N2 ltac:(tauto)) as [N3 N4]. split; [intros X5; specialize (N3 X5); rewrite S1; [auto|lia]|].
             intros X5. destruct (N4 X5) as (N5 & N6 & N7). split; [auto|]. split; congruence.
        * intros _. unfold posme in Cu'. destruct (Nat.eq_dec e me); [congruence|]. destruct Cu' as (s & S1 & S2 & S3 & S4). exists s. csplit; auto; try lia. intros NE. rewrite fu_ne by auto. apply S4. exact NE.
        * intros i Hi. rewrite Fst. left. destruct (J2 i Hi) as [Y|Y].
          -- destruct (H1 i Y) as [(e' & Y1 & Y2)|[Y1 _]]; [|lia]. exists e'. rewrite in_app_iff. auto.
          -- exists e. rewrite in_app_iff. cbn. auto.
        * intros i Ki. rewrite Fst. intros [(e' & Y1 & Y2)|[Y1 _]]; [|lia]. apply in_app_iff in Y1. destruct Y1 as [Y1|[<-|[]]]; [|apply J3; auto].
          destruct (H2 i Ki) as [|Y]; [left; exists e'; auto|auto|]. right. apply J1. auto. }
  intros [b W1] (gc & pe & len & f & B & acc & C & A & FW & LN & _ & H1 & H2). rewrite Nat.add_0_l in *. rewrite firstn_all2 in * by (unfold ne; lia).
  exists pe, len, f, B, acc. csplit; try apply C; auto.
  intros i. split.
  - intros Hi. destruct (c_var _ _ _ _ _ _ _ _ _ C i Hi) as [K1 K2]. split; [auto|]. split; [auto|]. destruct (H1 i Hi) as [|[_ X]]; auto.
  - intros (X1 & X2 & X3). destruct (H2 i X2); [destruct X3; auto|congruence|auto].
Qed.

Lemma in_place_ok Degree Iw Nv l dl :
  gE g me = [] -> fa Degree n dg -> fz Iw N pfree0 f0 -> fa Nv n (nvc []) -> LS n l dl nil_ -> dlc [] dl ->
  wp (build_in_place Degree (pe0 me) (len0 me) Iw Nv l) (fun '(pme2, degme, Iw, Nv, l) =>
    exists f acc dl, pme2 = pe0 me - 1 + Z.of_nat (length acc) /\ degme = zs (gv g) acc /\ fz Iw N pfree0 f /\ fa Nv n (nvc acc) /\ LS n l dl nil_ /\ dlc acc dl /\
      NoDup acc /\ (length acc <= length (gA g me))%nat /\ at_ f (pe0 me) acc /\ (forall p, p < pe0 me \/ pe0 me + len0 me <= p -> f p = f0 p) /\
      (forall p, 0 <= p < pfree0 -> 0 <= f p < Z.of_nat n) /\
      (forall i, In i acc <-> i <> me /\ gK g i = Var /\ In i (gA g me))).
Proof.
  intros E0 FD F1 F2 HL HD. assert (Mn : (me < n)%nat) by (apply (qg_lt _ _ Q); congruence).
  assert (Pm : 0 <= pe0 me) by (apply Live0; [auto|congruence]).
  assert (Bm : bd me = gA g me) by (unfold bd; rewrite Kme, E0; reflexivity).
  pose proof (m_len _ _ _ _ _ _ M0 me Mn Pm) as Lm. rewrite Bm in Lm. pose proof (m_end _ _ _ _ _ _ M0 me Mn Pm) as Em. pose proof (m_at _ _ _ _ _ _ M0 me Mn Pm) as Am. rewrite Bm in Am.
  unfold build_in_place. eapply wp_conseq.
  { apply (wp_for_loop (fun k '(pme2, degme, Iw, Nv, l) => exists f acc dl, pme2 = pe0 me - 1 + Z.of_nat (length acc) /\ degme = zs (gv g) acc /\ fz Iw N pfree0 f /\ fa Nv n (nvc acc) /\
      LS n l dl nil_ /\ dlc acc dl /\ NoDup acc /\ (length acc <= k)%nat /\ at_ f (pe0 me) acc /\ (forall p, p < pe0 me \/ pe0 me + Z.of_nat k <= p -> f p = f0 p) /\
      (forall p, 0 <= p < pfree0 -> 0 <= f p < Z.of_nat n) /\
      (forall i, In i acc <-> i <> me /\ gK g i = Var /\ In i (firstn k (gA g me))))).
    - exists f0, [], dl. cbn [length zs at_ firstn In]. csplit; auto; try lia; try constructor; try tauto.
      all: match goal with H : 0 <= ?x < pfree0 |- _ => pose proof (m_cells _ _ _ _ _ _ M0 x H); lia end.
    - intros k [[[[pme2 degme] Iw1] Nv1] l1] Hk (f & acc & dl1 & -> & -> & G1 & G2 & G3 & G4 & G5 & G6 & G7 & G8 & G9 & G10).
      assert (Hk' : (k < length (gA g me))%nat) by lia. set (i := nth k (gA g me) 0%nat). assert (Hi : In i (gA g me)) by (apply nth_In; exact Hk').
      destruct (qg_A _ _ Q me i Kme Hi) as [Hin Hki].
      assert (Fst : firstn (S k) (gA g me) = firstn k (gA g me) ++ [i]) by (apply firstn_S_nth; exact Hk').
      wb. eapply wfz_get; [exact G1|lia|]. rewrite G8 by lia. rewrite (at_nth _ _ _ k 0%nat Am Hk'). fold i. wb. eapply wfa_getn; [exact G2|exact Hin|].
      destruct (Z.gtb_spec (nvc acc i) 0) as [Hv|Hv].
      + destruct (nvc_pos acc i ltac:(lia)) as (Ime & Iacc & Env). rewrite Env in *.
        assert (Ki : gK g i = Var) by (destruct Hki as [[_ X]|[X _]]; [lia|exact X]).
        wb. eapply wfa_setn; [exact G2|exact Hin|]. intros Nv2 J1. wb. eapply wfz_set'; [exact G1|lia|lia|]. intros Iw2 J2.
        wb. eapply wp_conseq; [apply (take_step acc i l1 dl1 Degree G3 G4 FD Ki Ime Iacc)|]. intros l2 (dl2 & J3 & J4). cbn [wp].
        replace (pe0 me - 1 + Z.of_nat (length acc) + 1) with (pe0 me + Z.of_nat (length acc)) in * by lia.
        exists (zu f (pe0 me + Z.of_nat (length acc)) (Z.of_nat i)), (acc ++ [i]), dl2. rewrite app_length, zs_app. cbn [length zs].
        csplit; auto; try lia.
        * eapply fa_ext; [exact J1|]. intros x Hx. symmetry. apply nvc_add; auto.
        * apply nodup_app. split; [auto|]. split; [repeat constructor; cbn; tauto|]. intros x Hx [<-|[]]. auto.
        * apply at_app. split; [apply at_zu; [lia|auto]|]. cbn [at_]. split; [apply zu_eq|exact I].
        * intros p Hp. rewrite zu_ne by lia. apply G8. lia.
        * intros p Hp. unfold zu. destruct (p =? pe0 me + Z.of_nat (length acc)); [lia|apply G9; auto].
        * intros x. rewrite Fst, !in_app_iff, G10. cbn [In]. split; [intros [(X1 & X2 & X3)|[<-|[]]]; auto|]. intros (X1 & X2 & [X3|[<-|[]]]); auto.
      + cbn [wp]. exists f, acc, dl1. csplit; auto; try lia.
        * intros p Hp. apply G8. lia.
        * intros x. rewrite Fst, G10, in_app_iff. cbn [In]. split; [intros (X1 & X2 & X3); auto|]. intros (X1 & X2 & [X3|[<-|[]]]); [auto|].
          destruct (nvc_nonpos acc i Hv X2) as [|Y]; [congruence|]. apply G10 in Y. exact Y. }
  intros [[[[pme2 degme] Iw1] Nv1] l1] (f & acc & dl1 & X1 & X2 & G1 & G2 & G3 & G4 & G5 & G6 & G7 & G8 & G9 & G10).
  replace (0 + Z.to_nat (len0 me))%nat with (length (gA g me)) in * by lia. rewrite firstn_all in G10. exists f, acc, dl1. csplit; auto.
  intros p Hp. apply G8. lia.
Qed.

Record built (pme1 pfree : Z) (pe len : nat -> Z) (f : Z -> Z) (acc : list nat) : Prop := {
  bu_mem : mem n pfree (fu pe me (-1)) len f bd;
  bu_pos : 0 <= pme1;
  bu_end : pme1 + Z.of_nat (length acc) <= pfree;
  bu_N : pfree <= N;
  bu_at : at_ f pme1 acc;
  bu_disj : forall x, (x < n)%nat -> x <> me -> 0 <= pe x -> pe x + len x <= pme1 \/ pme1 + Z.of_nat (length acc) <= pe x;
  bu_nd : NoDup acc;
  bu_acc : forall i, In i acc <-> i <> me /\ gK g i = Var /\ (In i (gA g me) \/ exists e, In e (gE g me) /\ In i (gL g e));
  bu_E : forall e, In e (gE g me) -> pe e = FLIP (Z.of_nat me);
  bu_live : forall x, (x < n)%nat -> x <> me -> ~ In x (gE g me) -> (pe0 x < 0 -> pe x = pe0 x) /\ (0 <= pe0 x -> 0 <= pe x /\ len x = len0 x);
  bu_me : pe me = pme1 /\ len me = Z.of_nat (length acc);
  bu_new : gE g me <> [] -> pfree = pme1 + Z.of_nat (length acc) }.

Lemma build_ok q el0 dl :
  fa (q_pe q) n pe0 -> fa (q_len q) n len0 -> fz (q_iw q) N (q_pfree q) f0 -> q_pfree q = pfree0 -> fa (q_nv q) n (gv g) -> fa (q_elen q) n el0 ->
  fa (q_deg q) n dg -> fa (q_w q) n w0 -> LS n (q_lists q) dl nil_ -> dlc [] dl ->
  wp (build_element n N (Z.of_nat me) (Z.of_nat (length (gE g me))) (gv g me) q) (fun '(q', pme1, pme2, degme) =>
    exists pe len f acc dl', built pme1 (q_pfree q') pe len f acc /\ pme2 = pme1 + Z.of_nat (length acc) - 1 /\ degme = zs (gv g) acc /\
      fa (q_pe q') n pe /\ fa (q_len q') n len /\ fz (q_iw q') N (q_pfree q') f /\ fa (q_nv q') n (nvc acc) /\
      fa (q_elen q') n (fu el0 me (FLIP (gv g me + degme))) /\ fa (q_deg q') n (fu dg me degme) /\ fa (q_w q') n (wz (gE g me)) /\
      LS n (q_lists q') dl' nil_ /\ dlc acc dl' /\ q_wflg q' = q_wflg q /\ q_mindeg q' = q_mindeg q /\ q_nel q' = q_nel q + gv g me /\ q_lemax q' = q_lemax q).
Proof.
  intros F1 F2 F3 EP F4 F5 F6 F7 HL HD. assert (Mn : (me < n)%nat) by (apply (qg_lt _ _ Q); congruence).
  assert (Pm : 0 <= pe0 me) by (apply Live0; [auto|congruence]).
  destruct q as [Pe Iw Len pfree Nv Elen Degree W wflg l mindeg nel lemax]. cbn [q_pe q_iw q_len q_pfree q_nv q_elen q_deg q_w q_wflg q_lists q_mindeg q_nel q_lemax] in *. subst pfree.
  unfold build_element. wb. eapply wfa_setn; [exact F4|exact Mn|]. intros Nv1 G0.
  assert (G1 : fa Nv1 n (nvc [])).
  { eapply fa_ext; [exact G0|]. intros x Hx. unfold nvc, fu. cbn [in_dec In]. destruct (in_dec Nat.eq_dec x [me]) as [X|X]; destruct (Nat.eqb_spec x me) as [->|Y]; auto; exfalso; [destruct X as [|[]]; congruence|apply X; left; auto]. }
  wb. eapply (wp_conseq _ (fun '(pme1, pme2, degme, pfree, Pe, Len, Iw, Nv, l, W) => exists pe len f acc dl',
     built pme1 pfree (fu pe me pme1) (fu len me (Z.of_nat (length acc))) f acc /\ pme2 = pme1 + Z.of_nat (length acc) - 1 /\ degme = zs (gv g) acc /\
     fa Pe n pe /\ fa Len n len /\ fz Iw N pfree f /\ fa Nv n (nvc acc) /\ fa W n (wz (gE g me)) /\ LS n l dl' nil_ /\ dlc acc dl')).
  { destruct (Z.eqb_spec (Z.of_nat (length (gE g me))) 0) as [H0|H0].
    - assert (E0 : gE g me = []) by (destruct (gE g me); [reflexivity|cbn in H0; lia]).
      pose proof (m_len _ _ _ _ _ _ M0 me Mn Pm) as Lm. assert (Bm : bd me = gA g me) by (unfold bd; rewrite Kme, E0; reflexivity). rewrite Bm in Lm.
      pose proof (m_end _ _ _ _ _ _ M0 me Mn Pm).
      wb. eapply wfa_getn; [exact F1|exact Mn|]. wb. eapply wfa_getn; [exact F2|exact Mn|].
      wb. eapply wp_conseq; [apply (in_place_ok Degree Iw Nv1 l dl E0 F6 F3 G1 HL HD)|].
      intros [[[[pme2 degme] Iw1] Nv2] l1] (f & acc & dl1 & X1 & X2 & J1 & J2 & J3 & J4 & J5 & J6 & J7 & J8 & J9 & J10). cbn [wp].
      exists pe0, len0, f, acc, dl1. csplit; auto; try lia.
      + constructor; auto; try lia.
        * assert (Y : mem n pfree0 (fu pe0 me (-1)) len0 f bd).
          { constructor; [intros x H3 H4|intros x H3 H4|intros x H3 H4|intros x H3 H4|intros x y H3 H4 H5 H6 H7|intros p0 H3].
            - unfold fu in *. destruct (Nat.eqb_spec x me); [lia|]. apply (m_ne _ _ _ _ _ _ M0); auto.
            - unfold fu in *. destruct (Nat.eqb_spec x me); [lia|]. apply (m_len _ _ _ _ _ _ M0); auto.
            - unfold fu in *. destruct (Nat.eqb_spec x me); [lia|]. apply (m_end _ _ _ _ _ _ M0); auto.
            - unfold fu in *. destruct (Nat.eqb_spec x me) as [|Nx]; [lia|]. eapply at_ext; [|apply (m_at _ _ _ _ _ _ M0); auto].
              intros k Hk. apply J8. rewrite <- (m_len _ _ _ _ _ _ M0) in Hk by auto. destruct (m_disj _ _ _ _ _ _ M0 x me); auto; lia.
            - unfold fu in *. destruct (Nat.eqb_spec x me); [lia|]. destruct (Nat.eqb_spec y me); [lia|]. apply (m_disj _ _ _ _ _ _ M0); auto.
            - apply J9; auto. }
          eapply mem_ext; [exact Y|]. intros x X3 X4. unfold fu in *. destruct (Nat.eqb_spec x me); [lia|]. auto.
        * intros x Y1 Y2 Y3. rewrite !fu_ne in * by auto. destruct (m_disj _ _ _ _ _ _ M0 x me); auto; lia.
        * intros i. rewrite J10, E0. split; [intros (Y1 & Y2 & Y3); auto|]. intros (Y1 & Y2 & [Y3|(e & [] & _)]); auto.
        * intros e He. rewrite E0 in He. destruct He.
        * intros x Y1 Y2 Y3. rewrite !fu_ne by auto. auto.
        * rewrite !fu_eq. auto.
        * congruence.
      + eapply fa_ext; [exact F7|]. intros x Hx. unfold wz. rewrite E0. destruct (in_dec Nat.eq_dec x []) as [[]|]; reflexivity.
    - wb. eapply wp_conseq; [apply (build_new_ok Degree Pe Len Iw Nv1 W l dl F6 F1 F2 F3 G1 F7 HL HD)|].
      intros [b W1] (pe & len & f & B & acc & J1 & J2 & J3 & J4 & J5 & J6 & J7 & (K1 & K2 & K3 & K4 & dl1 & K5 & K6) & J8 & J9 & J10).
      destruct b as [pj p pme1 pfree degme Pe1 Len1 Iw1 Nv2 l1]. cbn [b_pj b_p b_pme1 b_pfree b_degme b_pe b_len b_iw b_nv b_lists] in *. cbn [wp].
      exists pe, len, f, acc, dl1. csplit; auto; try lia.
      assert (NF : FLIP (Z.of_nat me) < 0) by (unfold FLIP; lia).
      assert (LV : forall x, (x < n)%nat -> x <> me -> 0 <= pe x -> B x = bd x /\ len x = len0 x).
      { intros x Y1 Y2 Y3. destruct (J9 x Y1 Y2) as [Z1 Z2]. destruct (in_dec Nat.eq_dec x (gE g me)) as [I|I]; [specialize (Z1 I); lia|]. destruct (Z2 I) as [Z3 Z4].
        destruct (Z_lt_dec (pe0 x) 0) as [Y4|Y4]; [specialize (Z3 Y4); lia|]. apply Z4. lia. }
      constructor; auto; try lia.
      + assert (Y : mem n pme1 (fu pe me (-1)) len f bd).
        { eapply mem_ext; [exact J1|]. intros x Y1 Y2. unfold fu in *. destruct (Nat.eqb_spec x me); [lia|]. destruct (LV x Y1 n0 Y2). auto. }
        constructor; [intros x H H1|intros x H H1|intros x H H1|intros x H H1|intros x y H H1 H2 H3 H4|intros p0 H].
        * unfold fu in *. destruct (Nat.eqb_spec x me); [lia|]. destruct (LV x H n0 H1) as [<- _]. apply (m_ne _ _ _ _ _ _ J1); auto.
        * unfold fu in *. destruct (Nat.eqb_spec x me); [lia|]. destruct (LV x H n0 H1) as [<- _]. apply (m_len _ _ _ _ _ _ J1); auto.
        * unfold fu in *. destruct (Nat.eqb_spec x me); [lia|]. pose proof (m_end _ _ _ _ _ _ J1 x H H1). lia.
        * unfold fu in *. destruct (Nat.eqb_spec x me); [lia|]. destruct (LV x H n0 H1) as [<- _]. apply (m_at _ _ _ _ _ _ J1); auto.
        * unfold fu in *. destruct (Nat.eqb_spec x me); [lia|]. destruct (Nat.eqb_spec y me); [lia|]. apply (m_disj _ _ _ _ _ _ J1); auto.
        * destruct (Z_lt_dec p0 pme1); [apply (m_cells _ _ _ _ _ _ J1); lia|]. destruct (at_in f acc pme1 (p0 - pme1) J5 ltac:(lia)) as (x & X1 & X2).
          replace (pme1 + (p0 - pme1)) with p0 in X2 by lia. rewrite X2. apply J10 in X1. destruct X1 as (_ & X1 & _). pose proof (qg_lt _ _ Q x ltac:(congruence)). lia.
      + intros x Y1 Y2 Y3. rewrite !fu_ne in * by auto. pose proof (m_end _ _ _ _ _ _ J1 x Y1 Y3). lia.
      + intros e He. destruct (qg_E _ _ Q me e Kme He) as [Ke _]. rewrite fu_ne by congruence. apply J9; [apply (qg_lt _ _ Q); congruence|congruence|auto].
      + intros x Y1 Y2 Y3. rewrite !fu_ne by auto. destruct (J9 x Y1 Y2) as [_ Z]. destruct (Z Y3) as [Z1 Z2]. split; [auto|]. intros Z3. destruct (Z2 Z3) as (Z4 & Z5 & Z6). auto.
      + rewrite !fu_eq. auto. }
  intros [[[[[[[[[pme1 pme2] degme] pfree] Pe1] Len1] Iw1] Nv2] l1] W1] (pe & len & f & acc & dl1 & BU & X1 & X2 & J1 & J2 & J3 & J4 & J5 & J6 & J7). cbv beta iota.
  wb. eapply wfa_setn; [exact F6|exact Mn|]. intros Degree1 K1. wb. eapply wfa_setn; [exact J1|exact Mn|]. intros Pe2 K2. wb. eapply wfa_setn; [exact J2|exact Mn|]. intros Len2 K3.
  wb. eapply wfa_setn; [exact F5|exact Mn|]. intros Elen1 K4. cbn [wp]. exists (fu pe me pme1), (fu len me (Z.of_nat (length acc))), f, acc, dl1.
  cbn [q_pe q_iw q_len q_pfree q_nv q_elen q_deg q_w q_wflg q_lists q_mindeg q_nel q_lemax]. csplit; auto.
  replace (pme2 - pme1 + 1) with (Z.of_nat (length acc)) in K3 by lia. exact K3.
Qed.
End Build.
