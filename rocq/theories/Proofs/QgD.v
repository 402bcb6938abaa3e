(* amd_2.c: supervariable detection *)
From Coq Require Import List Arith ZArith Bool Lia Permutation.
From Verif Require Import Base.
From Verif.Model Require Import Amd Amd2.
From Verif.Proofs Require Import AmdB AmdL AmdT QgA QgM QgL QgC QgS QgF.
Import ListNotations.
Open Scope Z_scope.

(* rows not yet eliminated *)
Definition total (n : nat) (g : graph) : Z := zs (fun x => match gK g x with Var => gv g x | _ => 0 end) (seq 0 n).

Section Detect.
Context (n : nat) (N pfree pme1 : Z) (me : nat) (acc : list nat) (len : nat -> Z) (f : Z -> Z) (nvm : Z) (g0 : graph) (peb : nat -> Z).
Context (Hp1 : 0 <= pme1) (Hp2 : pme1 + Z.of_nat (length acc) <= pfree) (Hp3 : pfree <= N) (At : at_ f pme1 acc) (ND : NoDup acc).
Context (Hd0 : forall x, In x acc -> gK g0 x = Var -> exists t, gE g0 x = me :: t).

Definition nvd (g : graph) (x : nat) : Z := if Nat.eqb x me then nvm else if inb x acc then - gv g x else gv g x.

Record GS (g : graph) (par : nat -> option nat) (pe el : nat -> Z) : Prop := {
  gs_q : qgraph n g;
  gs_al : alive g me;
  gs_me : gK g me = Elem;
  gs_L : gL g0 me = acc;
  gs_F : FI n (gK g) (gv g) par;
  gs_mem : mem n pfree (fu pe me (-1)) len f (bd g);
  gs_live : forall x, (x < n)%nat -> x <> me -> (0 <= pe x <-> gK g x <> Dead);
  gs_dead : forall x, (x < n)%nat -> gK g x = Dead -> pe x = FLIP (enc (par x));
  gs_pme : pe me = pme1;
  gs_el : forall x, gK g x = Var -> el x = Z.of_nat (length (gE g x));
  gs_el' : forall x, (x < n)%nat -> gK g x <> Var -> 0 < gv g x -> el x <= -1;
  gs_same : forall x, gE g x = gE g0 x /\ gA g x = gA g0 x /\ gL g x = gL g0 x /\ gdg g x = gdg g0 x;
  gs_K : forall x, ~ In x acc -> gK g x = gK g0 x /\ gv g x = gv g0 x;
  gs_K' : forall x, gK g x = Var -> gK g0 x = Var;
  gs_tot : total n g = total n g0;
  gs_pe : forall x, (x < n)%nat -> 0 <= pe x -> pe x = peb x }.

Lemma gs_acc g par pe el x : GS g par pe el -> In x acc -> (x < n)%nat /\ x <> me /\ (gK g x = Var \/ gK g x = Dead /\ gv g x = 0).
Proof.
  intros G H. pose proof (gs_same _ _ _ _ G me) as (_ & _ & EL & _). rewrite (gs_L _ _ _ _ G) in EL. rewrite <- EL in H.
  destruct (qg_L _ _ (gs_q _ _ _ _ G) me x (gs_me _ _ _ _ G) H) as [A B]. split; [exact A|]. split; [|tauto].
  intros ->. pose proof (gs_me _ _ _ _ G). destruct B as [[B _]|[B _]]; congruence.
Qed.

Lemma gs_body g par pe el x : GS g par pe el -> In x acc -> gK g x = Var ->
  0 <= pe x /\ len x = Z.of_nat (length (gE g x) + length (gA g x)) /\ pe x + len x <= pfree /\ at_ f (pe x) (gE g x ++ gA g x) /\
  (exists t, gE g x = me :: t) /\ NoDup (gE g x ++ gA g x) /\ (forall y, In y (gE g x ++ gA g x) -> (y < n)%nat).
Proof.
  intros G Hx Kx. destruct (gs_acc _ _ _ _ _ G Hx) as (Lx & Nx & _). pose proof (gs_q _ _ _ _ G) as Q.
  assert (P : 0 <= pe x) by (apply (gs_live _ _ _ _ G); auto; congruence).
  assert (P' : 0 <= fu pe me (-1) x) by (rewrite fu_ne by auto; exact P).
  assert (EB : bd g x = gE g x ++ gA g x) by (unfold bd; rewrite Kx; reflexivity).
  pose proof (m_len _ _ _ _ _ _ (gs_mem _ _ _ _ G) x Lx P') as A1. pose proof (m_end _ _ _ _ _ _ (gs_mem _ _ _ _ G) x Lx P') as A2.
  pose proof (m_at _ _ _ _ _ _ (gs_mem _ _ _ _ G) x Lx P') as A3. rewrite EB, fu_ne in * by auto. rewrite app_length in A1.
  csplit; auto.
  - destruct (gs_same _ _ _ _ G x) as (-> & _). apply Hd0; auto. apply (gs_K' _ _ _ _ G); auto.
  - eapply qg_nodup; eauto.
  - intros y Hy. apply in_app_iff in Hy. destruct Hy as [Hy|Hy].
    + destruct (qg_E _ _ Q x y Kx Hy). apply (qg_lt _ _ Q). congruence.
    + apply (qg_A _ _ Q x y Kx Hy).
Qed.

Lemma flag_ok Iw W w wflg p x0 tl : fz Iw N pfree f -> fa W n w -> at_ f p (x0 :: tl) -> 0 <= p -> p + Z.of_nat (length (x0 :: tl)) <= pfree -> (forall x, In x tl -> (x < n)%nat) ->
  wp (flag_row Iw wflg p (Z.of_nat (length (x0 :: tl))) W) (fun W' => fa W' n (fun x => if inb x tl then wflg else w x)).
Proof.
  intros F1 F2 A Hp Hp' Hl. unfold flag_row. cbn [length] in *. replace (Z.to_nat (Z.of_nat (S (length tl)) - 1)) with (length tl) by lia.
  eapply wp_conseq.
  { apply (wp_for_loop (fun k W => fa W n (fun x => if inb x (firstn (k - 1) tl) then wflg else w x))).
    - eapply fa_ext; [exact F2|]. intros x Hx. reflexivity.
    - intros k Wk Hk FW. assert (Hk' : (k - 1 < length tl)%nat) by lia. set (y := nth (k - 1) tl 0%nat). assert (Hy : In y tl) by (apply nth_In; auto).
      wb. eapply wfz_get; [exact F1|lia|]. rewrite (at_nth _ _ _ k 0%nat A) by (cbn [length]; lia). replace (nth k (x0 :: tl) 0%nat) with y by (unfold y; destruct k; [lia|cbn [nth]; f_equal; lia]).
      eapply wfa_setn; [exact FW|auto|]. intros W' F'. eapply fa_ext; [exact F'|]. intros x Hx. cbv beta. unfold fu. replace (S k - 1)%nat with (S (k - 1)) by lia.
      rewrite (firstn_S_nth 0%nat) by auto. fold y. rewrite inb_app, inb_one. destruct (Nat.eqb x y); [rewrite orb_true_r; reflexivity|rewrite orb_false_r; reflexivity]. }
  intros W' F'. replace (1 + length tl - 1)%nat with (length tl) in F' by lia. rewrite firstn_all in F'. exact F'.
Qed.

Lemma compare_ok Iw W w wflg p x0 tl ln ok : fz Iw N pfree f -> fa W n w -> at_ f p (x0 :: tl) -> 0 <= p -> p + Z.of_nat (length (x0 :: tl)) <= pfree -> (forall x, In x tl -> (x < n)%nat) ->
  (ok = true -> ln = Z.of_nat (length (x0 :: tl))) ->
  wp (compare_row Iw W wflg p ln ok) (fun r => r = ok && forallb (fun x => w x =? wflg) tl).
Proof.
  intros F1 F2 A Hp Hp' Hl Hln. unfold compare_row. destruct ok; cbn [andb].
  - rewrite Hln by auto. cbn [length] in *. replace (Z.to_nat (Z.of_nat (S (length tl)) - 1)) with (length tl) by lia. eapply wp_conseq.
    { apply (wp_for_loop (fun k (r : bool) => r = forallb (fun x => w x =? wflg) (firstn (k - 1) tl))); [reflexivity|].
      intros k r Hk ->. assert (Hk' : (k - 1 < length tl)%nat) by lia. set (y := nth (k - 1) tl 0%nat). assert (Hy : In y tl) by (apply nth_In; auto).
      replace (S k - 1)%nat with (S (k - 1)) by lia. rewrite (firstn_S_nth 0%nat) by auto. fold y. rewrite forallb_app. cbn [forallb]. rewrite andb_true_r.
      destruct (forallb (fun x => w x =? wflg) (firstn (k - 1) tl)); cbn [andb]; [|reflexivity].
      wb. eapply wfz_get; [exact F1|lia|]. rewrite (at_nth _ _ _ k 0%nat A) by (cbn [length]; lia). replace (nth k (x0 :: tl) 0%nat) with y by (unfold y; destruct k; [lia|cbn [nth]; f_equal; lia]).
      wb. eapply wfa_getn; [exact F2|auto|]. reflexivity. }
    intros r ->. replace (1 + length tl - 1)%nat with (length tl) by lia. rewrite firstn_all. reflexivity.
  - eapply wp_conseq; [apply (wp_for_loop (fun _ (r : bool) => r = false)); [reflexivity|]|]; [|auto]. intros k r Hk ->. reflexivity.
Qed.

(* equal after the first entry: the same elements *)
Lemma same_elements g par pe el i j ti tj : GS g par pe el -> In i acc -> In j acc -> gK g i = Var -> gK g j = Var ->
  gE g i ++ gA g i = me :: ti -> gE g j ++ gA g j = me :: tj -> length ti = length tj -> length (gE g i) = length (gE g j) -> (forall x, In x tj -> In x ti) ->
  forall e, In e (gE g i) <-> In e (gE g j).
Proof.
  intros G Hi Hj Ki Kj Bi Bj Ll Le Hs. pose proof (gs_q _ _ _ _ G) as Q.
  assert (Sub : forall e, In e (gE g j) -> In e (gE g i)).
  { intros e He. destruct (qg_E _ _ Q j e Kj He) as [Ke _]. assert (X : In e (me :: tj)) by (rewrite <- Bj; apply in_app_iff; auto).
    assert (Y : In e (gE g i ++ gA g i)) by (rewrite Bi; destruct X as [X|X]; [left; auto|right; auto]). apply in_app_iff in Y. destruct Y as [Y|Y]; [exact Y|].
    destruct (qg_A _ _ Q i e Ki Y) as (_ & [[Z _]|[Z _]]); congruence. }
  intros e. split; [|apply Sub]. apply NoDup_length_incl; [apply (qg_ndE _ _ Q j Kj)|lia|exact Sub].
Qed.

Definition merged (g : graph) (i j : nat) : graph :=
  Graph (fu (gK g) j Dead) (gE g) (gA g) (gL g) (fu (fu (gv g) i (gv g i + gv g j)) j 0) (gdg g).

Lemma merge_gs g par pe el i j : GS g par pe el -> In i acc -> In j acc -> i <> j -> gK g i = Var -> gK g j = Var -> (forall e, In e (gE g i) <-> In e (gE g j)) ->
  GS (merged g i j) (fu par j (Some i)) (fu pe j (FLIP (Z.of_nat i))) (fu el j EMPTY).
Proof.
  intros G Hi Hj Nij Ki Kj HE. pose proof (gs_q _ _ _ _ G) as Q. destruct (gs_acc _ _ _ _ _ G Hi) as (Li & Ni & _). destruct (gs_acc _ _ _ _ _ G Hj) as (Lj & Nj & _).
  pose proof (qg_pos _ _ Q i ltac:(congruence)) as Vi. pose proof (qg_pos _ _ Q j ltac:(congruence)) as Vj.
  assert (N1 : gK (merged g i j) j = Dead /\ gv (merged g i j) j = 0) by (cbn; rewrite !fu_eq; auto).
  assert (N2 : gK (merged g i j) i = Var /\ gv (merged g i j) i = gv g i + gv g j) by (cbn; rewrite fu_ne, fu_ne, fu_eq by auto; auto).
  assert (N3 : forall x, x <> i -> x <> j -> gK (merged g i j) x = gK g x /\ gv (merged g i j) x = gv g x) by (intros x X1 X2; cbn; rewrite !fu_ne by auto; auto).
  assert (N4 : forall x, gE (merged g i j) x = gE g x /\ gA (merged g i j) x = gA g x /\ gL (merged g i j) x = gL g x /\ gdg (merged g i j) x = gdg g x) by (intros x; cbn; auto).
  assert (KK : forall x, x <> j -> gK (merged g i j) x = gK g x) by (intros x X; cbn; apply fu_ne; auto).
  assert (Pold : forall x, 0 <= fu pe j (FLIP (Z.of_nat i)) x -> x <> j /\ fu pe j (FLIP (Z.of_nat i)) x = pe x).
  { intros x. unfold fu. destruct (Nat.eqb_spec x j); [unfold FLIP; lia|auto]. }
  constructor.
  - apply (merge_ok n g (merged g i j) i j); auto.
  - apply (merge_alive n g (merged g i j) i j); auto. apply G.
  - rewrite KK by auto. apply G.
  - apply G.
  - apply (FI_merge n (gK g) (gv g) par _ _ _ j i (gs_F _ _ _ _ G)); auto; try congruence; try apply N1; try apply N2. intros x X1 X2. apply N3; auto.
  - eapply mem_ext; [apply (gs_mem _ _ _ _ G)|].
    all: intros x X1 X2; unfold fu at 1 in X2; destruct (Nat.eqb_spec x me) as [|Nx]; [lia|]; destruct (Pold x X2) as [Y1 Y2]; rewrite !(fu_ne _ me) by auto; rewrite Y2 in *;
      csplit; auto; unfold bd; rewrite KK by auto; reflexivity.
  - intros x X1 X2. destruct (Nat.eq_dec x j) as [->|Nx].
    + rewrite fu_eq. destruct N1 as [-> _]. unfold FLIP. split; [lia|congruence].
    + rewrite fu_ne, KK by auto. apply (gs_live _ _ _ _ G); auto.
  - intros x X1 X2. destruct (Nat.eq_dec x j) as [->|Nx]; [rewrite !fu_eq; reflexivity|]. rewrite !fu_ne by auto. rewrite KK in X2 by auto. apply (gs_dead _ _ _ _ G); auto.
  - rewrite fu_ne by auto. apply G.
  - intros x X. assert (Nx : x <> j) by (intros ->; destruct N1; congruence). rewrite fu_ne by auto. rewrite KK in X by auto. apply (gs_el _ _ _ _ G); auto.
  - intros x X1 X2 X3. destruct (Nat.eq_dec x j) as [->|Nx]; [destruct N1; lia|]. rewrite fu_ne by auto. rewrite KK in X2 by auto. assert (x <> i) by congruence.
    destruct (N3 x) as [_ E]; auto. rewrite E in X3. apply (gs_el' _ _ _ _ G); auto.
  - intros x. apply (gs_same _ _ _ _ G).
  - intros x X. assert (x <> i) by congruence. assert (x <> j) by congruence. destruct (N3 x) as [-> ->]; auto. apply (gs_K _ _ _ _ G); auto.
  - intros x X. assert (Nx : x <> j) by (intros ->; destruct N1; congruence). rewrite KK in X by auto. apply (gs_K' _ _ _ _ G); auto.
  - rewrite <- (gs_tot _ _ _ _ G). unfold total.
    set (F := fun x => match gK g x with Var => gv g x | _ => 0 end). set (F1 := fu F i (gv g i + gv g j)).
    rewrite (zs_upd F1 _ (seq 0 n) j); [|apply seq_NoDup|apply in_seq; lia|].
    + rewrite (zs_upd F F1 (seq 0 n) i); [|apply seq_NoDup|apply in_seq; lia|].
      * unfold F1, F. rewrite fu_eq, fu_ne by auto. destruct N1 as [-> _]. rewrite Ki, Kj. lia.
      * intros y _ Hy. unfold F1. apply fu_ne; auto.
    + intros y _ Hy. rewrite KK by auto. unfold F1, F, fu. destruct (Nat.eqb_spec y i) as [->|]; [rewrite Ki; apply N2|]. destruct (N3 y) as [_ ->]; auto.
  - intros x X1 X2. destruct (Pold x X2) as [Y1 Y2]. rewrite Y2 in *. apply (gs_pe _ _ _ _ G); auto.
Qed.

Lemma chain_remove nx h a y x r : lk nx h (a ++ [y] ++ x :: r) -> NoDup (a ++ [y] ++ x :: r) -> nx x = firstz r /\ lk (fu nx y (firstz r)) h (a ++ [y] ++ r).
Proof.
  intros H D. rewrite app_assoc in H, D. apply lseg_app in H. destruct H as (m & H1 & H2). apply lseg_snoc in H1. destruct H1 as [H1 E]. destruct H2 as [-> H2].
  assert (Ex : nx x = firstz r) by (eapply lk_first; eauto). split; [exact Ex|].
  apply nodup_app in D. destruct D as (D1 & D2 & D3). assert (Yr : ~ In y r) by (intros X; apply (D3 y); [apply in_app_iff; right; left; auto|right; auto]).
  assert (Ya : ~ In y a) by (apply nodup_app in D1; destruct D1 as (_ & _ & D1); intros X; apply (D1 y X); left; auto).
  rewrite app_assoc. apply lseg_app. exists (firstz r). split.
  - apply lseg_snoc. rewrite fu_eq. split; [|reflexivity]. eapply lseg_ext; [|exact H1]. intros z Hz. symmetry. apply fu_ne. intros ->. auto.
  - rewrite <- Ex. eapply lseg_ext; [|exact H2]. intros z Hz. symmetry. apply fu_ne. intros ->. auto.
Qed.

(* one bucket: b is the bucket, gb the graph when it was taken out *)
Section Bucket.
Context (Iw Len : arr Z) (FI1 : fz Iw N pfree f) (FL1 : fa Len n len) (b : list nat) (nx0 : nat -> Z) (gb : graph).

Definition BI (c : list nat) (h : Z) (Pe Nv Elen Next : arr Z) : Prop := exists g par pe el nx,
  GS g par pe el /\ fa Pe n pe /\ fa Nv n (nvd g) /\ fa Elen n el /\ fa Next n nx /\ lk nx h c /\ NoDup c /\
  (forall x, In x c -> In x b /\ In x acc /\ gK g x = Var) /\ (forall x, ~ In x b -> nx x = nx0 x /\ gK g x = gK gb x) /\ (forall x, gK g x <> Dead -> gK gb x <> Dead).

Lemma absorb_ok fuel i t W w wflg Pe Nv Elen Next :
  BI (i :: t) (Z.of_nat i) Pe Nv Elen Next -> (length t < fuel)%nat ->
  fa W n w -> (forall x, (x < n)%nat -> (w x = wflg <-> In x (skipn 1 (gE g0 i ++ gA g0 i)))) ->
  wp (while_ fuel (fun '(_, j, _, _, _, _) => Some (negb (j =? EMPTY))) (absorb_step Iw Len W wflg (Z.of_nat i) (len i) (Z.of_nat (length (gE g0 i)))) (Z.of_nat i, firstz t, Pe, Nv, Elen, Next))
     (fun '(_, _, Pe, Nv, Elen, Next) => exists t', BI (i :: t') (Z.of_nat i) Pe Nv Elen Next /\ (length t' <= length t)%nat).
Proof.
  intros B Hf FW Hw. pose proof B as (g1 & par1 & pe1 & el1 & nx1 & G1 & _ & _ & _ & Fx & C1 & _ & Hc1 & _).
  destruct (Hc1 i (or_introl eq_refl)) as (_ & Hi & Ki1). destruct (gs_acc _ _ _ _ _ G1 Hi) as (Li & Ni & _).
  refine (wp_walk (fun dn rest '(jlast, j, Pe, Nv, Elen, Next) => exists a y, BI (a ++ [y] ++ rest) (Z.of_nat i) Pe Nv Elen Next /\ jlast = Z.of_nat y /\ j = firstz rest /\
     (length (a ++ [y] ++ rest) <= S (length t))%nat) _ _ _ _ _ t [] fuel _ _ Hf).
  - intros dn [[[[[jlast j] Pe2] Nv2] Elen2] Next2] (a & y & B2 & -> & -> & Hl). split; [reflexivity|]. rewrite app_nil_r in *.
    pose proof B2 as (g & par & pe & el & nx & _ & _ & _ & _ & _ & C2 & _). destruct a as [|a0 a]; cbn [app] in *.
    + destruct C2 as [E _]. apply Nat2Z.inj in E. subst y. exists []. split; [exact B2|cbn; lia].
    + destruct C2 as [E _]. apply Nat2Z.inj in E. subst a0. exists (a ++ [y]). split; [exact B2|cbn [length] in Hl; lia].
  - intros dn x rest [[[[[jlast j] Pe2] Nv2] Elen2] Next2] (a & y & B2 & -> & -> & Hl). split; [rewrite firstz_empty; reflexivity|]. cbn [firstz].
    destruct B2 as (g & par & pe & el & nx & G & F1 & F2 & F3 & F4 & C & Dn & Hc & Ho & Hk).
    destruct (Hc x ltac:(rewrite !in_app_iff; cbn; auto)) as (Xb & Xa & Xk). destruct (gs_acc _ _ _ _ _ G Xa) as (Lx & Nx & _).
    assert (Iin : In i (a ++ [y])). { destruct a as [|a0 a]; destruct C as [E _]; apply Nat2Z.inj in E; subst; left; auto. }
    destruct (Hc i ltac:(rewrite app_assoc, in_app_iff; auto)) as (Ib & _ & Ik).
    assert (Nix : i <> x). { intros ->. rewrite app_assoc in Dn. apply nodup_app in Dn. destruct Dn as (_ & _ & Dn). apply (Dn x Iin). left; auto. }
    assert (Yin : In y b /\ In y acc) by (destruct (Hc y ltac:(rewrite !in_app_iff; cbn; auto)); tauto).
    assert (Ly : (y < n)%nat) by (apply (gs_acc _ _ _ _ _ G (proj2 Yin))).
    destruct (gs_body _ _ _ _ _ G Xa Xk) as (P1 & P2 & P3 & P4 & (tx & P5) & P6 & P7).
    destruct (gs_body _ _ _ _ _ G Hi Ik) as (I1 & I2 & I3 & I4 & (ti & I5) & I6 & I7).
    destruct (gs_same _ _ _ _ G i) as (SE & SA & _).
    destruct (chain_remove _ _ _ _ _ _ C Dn) as [Enx C'].
    assert (Bx : gE g x ++ gA g x = me :: (tx ++ gA g x)) by (rewrite P5; reflexivity).
    assert (Bi : gE g i ++ gA g i = me :: (ti ++ gA g i)) by (rewrite I5; reflexivity).
    unfold absorb_step. wb. eapply wfa_getn; [exact FL1|exact Lx|].
    wb. eapply (wp_conseq _ (fun ok => ok = ((len x =? len i) && (Z.of_nat (length (gE g x)) =? Z.of_nat (length (gE g0 i)))))).
    { destruct (len x =? len i); cbn [andb]; [|reflexivity]. wb. eapply wfa_getn; [exact F3|exact Lx|]. rewrite (gs_el _ _ _ _ G x Xk). reflexivity. }
    intros ok Hok. wb. eapply wfa_getn; [exact F1|exact Lx|].
    assert (Lxx : length (me :: tx ++ gA g x) = (length (gE g x) + length (gA g x))%nat) by (rewrite <- Bx, app_length; reflexivity).
    wb. eapply wp_conseq.
    { apply (compare_ok Iw W w wflg (pe x) me (tx ++ gA g x) (len i) ok FI1 FW); [rewrite <- Bx; exact P4|exact P1|rewrite Lxx; lia| |].
      - intros z Hz. apply P7. rewrite Bx. right. exact Hz.
      - intros ->. symmetry in Hok. apply andb_true_iff in Hok. destruct Hok as [O1 _]. apply Z.eqb_eq in O1. rewrite Lxx. lia. }
    intros r Hr. destruct r.
    + symmetry in Hr. apply andb_true_iff in Hr. destruct Hr as [R1 R2]. subst ok. apply andb_true_iff in R1. destruct R1 as [O1 O2]. apply Z.eqb_eq in O1, O2.
      assert (HE : forall e, In e (gE g i) <-> In e (gE g x)).
      { eapply (same_elements g par pe el i x (ti ++ gA g i) (tx ++ gA g x)); eauto; [|rewrite SE; lia|].
        - assert (X : length (me :: ti ++ gA g i) = (length (gE g i) + length (gA g i))%nat) by (rewrite <- Bi, app_length; reflexivity). cbn [length] in *. lia.
        - intros z Hz. rewrite forallb_forall in R2. specialize (R2 z Hz). apply Z.eqb_eq in R2. apply Hw in R2; [|apply P7; rewrite Bx; right; exact Hz].
          rewrite <- SE, <- SA, Bi in R2. exact R2. }
      pose proof (merge_gs g par pe el i x G Hi Xa Nix Ik Xk HE) as G'.
      wb. eapply wfa_setn; [exact F1|exact Lx|]. intros Pe3 F1'. wb. eapply wfa_getn; [exact F2|exact Li|]. wb. eapply wfa_getn; [exact F2|exact Lx|].
      wb. eapply wfa_setn; [exact F2|exact Li|]. intros Nv3 F2'. wb. eapply wfa_setn; [exact F2'|exact Lx|]. intros Nv4 F2''.
      wb. eapply wfa_setn; [exact F3|exact Lx|]. intros Elen3 F3'. wb. eapply wfa_getn; [exact F4|exact Lx|]. rewrite Enx.
      wb. eapply wfa_setn; [exact F4|exact Ly|]. intros Next3 F4'. cbn [wp]. exists a, y. split; [|split; [reflexivity|split; [reflexivity|]]].
      * exists (merged g i x), (fu par x (Some i)), (fu pe x (FLIP (Z.of_nat i))), (fu el x EMPTY), (fu nx y (firstz rest)). csplit; auto.
        -- eapply fa_ext; [exact F2''|]. intros z Hz. unfold fu, nvd. cbn [merged gv]. apply inb_in in Hi, Xa. rewrite Hi, Xa.
           assert (Nat.eqb i me = false) as -> by (apply Nat.eqb_neq; auto). assert (Nat.eqb x me = false) as -> by (apply Nat.eqb_neq; auto). unfold fu.
           destruct (Nat.eqb_spec z x) as [->|Nzx].
           ++ assert (Nat.eqb x me = false) as -> by (apply Nat.eqb_neq; auto). rewrite Xa. reflexivity.
           ++ destruct (Nat.eqb_spec z i) as [->|Nzi]; [|reflexivity]. assert (Nat.eqb i me = false) as -> by (apply Nat.eqb_neq; auto). rewrite Hi. lia.
        -- rewrite app_assoc in *. apply NoDup_remove_1 in Dn. exact Dn.
        -- intros z Hz. assert (Z1 : In z (a ++ [y] ++ x :: rest)) by (rewrite !in_app_iff in *; cbn; tauto). destruct (Hc z Z1) as (H1 & H2 & H3). csplit; auto.
           cbn [merged gK]. rewrite fu_ne; [exact H3|]. intros ->. rewrite app_assoc in *. apply NoDup_remove_2 in Dn. contradiction.
        -- intros z Hz. destruct (Ho z Hz) as [H1 H2]. cbn [merged gK]. rewrite !fu_ne; [auto| |]; intros ->; tauto.
        -- intros z Hz. apply Hk. cbn [merged gK] in Hz. unfold fu in Hz. destruct (Nat.eqb z x); congruence.
      * rewrite !app_length in *. cbn [length] in *. lia.
    + wb. eapply wfa_getn; [exact F4|exact Lx|]. rewrite Enx. cbn [wp]. exists (a ++ [y]), x. rewrite <- !app_assoc. split; [|split; [reflexivity|split; [reflexivity|exact Hl]]].
      exists g, par, pe, el, nx. csplit; auto.
  - exists [], i. cbn [app]. split; [exact B|]. csplit; auto.
Qed.

Definition WC (g : graph) (w : nat -> Z) (wflg : Z) : Prop := forall x, (x < n)%nat -> 0 <= w x < wflg /\ (gK g x <> Dead -> w x <> 0).

Lemma bucket_ok : forall fuel fuel' c h Pe Nv Elen W wflg Next w,
  BI c h Pe Nv Elen Next -> (length c < fuel)%nat -> (length c < fuel')%nat -> fa W n w -> WC gb w wflg -> 2 <= wflg ->
  wp (while_ fuel (fun '(i, _, _, _, _, _, Next) => if i =? EMPTY then Some false else x <- getz Next i ;; Some (negb (x =? EMPTY)))
        (bucket_step fuel' Iw Len) (h, Pe, Nv, Elen, W, wflg, Next)) (fun '(_, Pe, Nv, Elen, W, wflg, Next) =>
     exists c' h' w', BI c' h' Pe Nv Elen Next /\ fa W n w' /\ WC gb w' wflg /\ 2 <= wflg).
Proof.
  induction fuel as [|fuel IH]; intros fuel' c h Pe Nv Elen W wflg Next w B Hc Hc' FW HW H2; [lia|].
  pose proof B as (g & par & pe & el & nx & G & F1 & F2 & F3 & F4 & C & Dn & Hc1 & Ho & Hk).
  cbn [while_]. destruct c as [|i t].
  - cbn [lseg] in C. subst h. rewrite Z.eqb_refl. cbn [bind wp]. exists [], EMPTY, w. auto.
  - destruct C as [-> C]. rewrite nat_not_empty. destruct (Hc1 i (or_introl eq_refl)) as (Ib & Ia & Ik). destruct (gs_acc _ _ _ _ _ G Ia) as (Li & Ni & _).
    wb. wb. eapply wfa_getn; [exact F4|exact Li|]. rewrite (lk_first _ _ _ C), firstz_empty. destruct t as [|j t]; cbn [negb wp].
    + exists [i], (Z.of_nat i), w. auto.
    + wb. unfold bucket_step at 1. destruct (gs_body _ _ _ _ _ G Ia Ik) as (I1 & I2 & I3 & I4 & (ti & I5) & I6 & I7). destruct (gs_same _ _ _ _ G i) as (SE & SA & _).
      assert (Bi : gE g i ++ gA g i = me :: (ti ++ gA g i)) by (rewrite I5; reflexivity).
      assert (Lii : length (me :: ti ++ gA g i) = (length (gE g i) + length (gA g i))%nat) by (rewrite <- Bi, app_length; reflexivity).
      wb. eapply wfa_getn; [exact FL1|exact Li|]. wb. eapply wfa_getn; [exact F3|exact Li|]. wb. eapply wfa_getn; [exact F1|exact Li|].
      rewrite (gs_el _ _ _ _ G i Ik), SE. wb. rewrite I2 at 1. rewrite <- Lii. eapply wp_conseq.
      { apply (flag_ok Iw W w wflg (pe i) me (ti ++ gA g i) FI1 FW); [rewrite <- Bi; exact I4|exact I1|rewrite Lii; lia|]. intros z Hz. apply I7. rewrite Bi. right; auto. }
      intros W1 FW1. set (w1 := fun x => if inb x (ti ++ gA g i) then wflg else w x) in *.
      assert (W1b : forall x, (x < n)%nat -> w1 x = wflg <-> In x (skipn 1 (gE g0 i ++ gA g0 i))).
      { intros x Hx. rewrite <- SE, <- SA, Bi. cbn [skipn]. unfold w1. destruct (inb x (ti ++ gA g i)) eqn:E; [apply inb_in in E; tauto|]. apply inb_not in E. destruct (HW x Hx). split; [lia|tauto]. }
      wb. eapply wfa_getn; [exact F4|exact Li|]. rewrite (lk_first _ _ _ C). wb. eapply wp_conseq; [apply (absorb_ok fuel' i (j :: t) W1 w1 wflg Pe Nv Elen Next B); auto; cbn [length] in *; lia|].
      intros [[[[[u1 u2] Pe2] Nv2] Elen2] Next2] (t' & B2 & Lt'). cbv beta iota. pose proof B2 as (g2 & par2 & pe2 & el2 & nx2 & G2 & K1 & K2 & K3 & K4 & C2 & Dn2 & Hc2 & Ho2 & Hk2).
      wb. eapply wfa_getn; [exact K4|exact Li|]. destruct C2 as [_ C2]. cbn [wp].
      apply (IH fuel' t' (nx2 i) Pe2 Nv2 Elen2 W1 (wflg + 1) Next2 w1); try (cbn [length] in *; lia); auto.
      * exists g2, par2, pe2, el2, nx2. csplit; auto; [inversion Dn2; auto|]. intros x Hx. apply Hc2. right; auto.
      * intros x Hx. unfold w1. destruct (HW x Hx) as [A1 A2]. destruct (inb x (ti ++ gA g i)); split; lia || (intros X; specialize (A2 X); lia).
Qed.
End Bucket.

(* ---- all buckets ---- *)
Context (dl : nat -> list nat).
Record DI (q : quotient) (g : graph) (par : nat -> option nat) (pe el w : nat -> Z) (hb : nat -> list nat) (h nx la : nat -> Z) : Prop := {
  di_gs : GS g par pe el;
  di_iw : fz (q_iw q) N pfree f;
  di_len : fa (q_len q) n len;
  di_pe : fa (q_pe q) n pe;
  di_nv : fa (q_nv q) n (nvd g);
  di_el : fa (q_elen q) n el;
  di_w : fa (q_w q) n w;
  di_wc : WC g w (q_wflg q);
  di_2 : 2 <= q_wflg q;
  di_ls : lsa n (q_lists q) h nx la;
  di_dls : dls n h nx la dl hb;
  di_hb : forall x c, In x (hb c) -> In x acc /\ gK g x = Var;
  di_la : forall x, In x acc -> gK g x = Var -> exists c, (c < n)%nat /\ la x = Z.of_nat c;
  di_dl : forall x d, In x (dl d) -> ~ In x acc }.

Definition same_rest (q q' : quotient) : Prop :=
  q_pfree q' = q_pfree q /\ q_deg q' = q_deg q /\ q_mindeg q' = q_mindeg q /\ q_nel q' = q_nel q /\ q_lemax q' = q_lemax q.

Lemma detect_ok k q g par pe el w hb h nx la : (k < length acc)%nat -> DI q g par pe el w hb h nx la ->
  wp (detect_row (n + 1) pme1 k q) (fun q' => (exists g par pe el w hb' h nx la, DI q' g par pe el w hb' h nx la /\
     (forall x c, In x (hb' c) -> In x (hb c) /\ x <> nth k acc 0%nat)) /\ same_rest q q').
Proof.
  intros Hk D. pose proof (di_gs _ _ _ _ _ _ _ _ _ _ D) as G. set (i := nth k acc 0%nat). assert (Hi : In i acc) by (apply nth_In; auto).
  destruct (gs_acc _ _ _ _ _ G Hi) as (Li & Ni & Ki). pose proof (gs_q _ _ _ _ G) as Q.
  destruct D as [_ D2 D3 D4 D5 D6 D7 D8 D8' D9 D10 D11 D12 D13]. destruct q as [Pe Iw Len pf Nv Elen Degree W wf [[Hd Nt] Lt] mindeg nel lemax].
  cbn [q_pe q_iw q_len q_pfree q_nv q_elen q_deg q_w q_wflg q_lists q_mindeg q_nel q_lemax] in *.
  unfold detect_row. wb. eapply wfz_get; [exact D2|lia|]. rewrite (at_nth _ _ _ k 0%nat At) by auto. fold i. wb. eapply wfa_getn; [exact D5|exact Li|].
  assert (Ei : nvd g i = - gv g i) by (unfold nvd; destruct (Nat.eqb_spec i me); [congruence|]; apply inb_in in Hi; rewrite Hi; reflexivity). rewrite Ei.
  destruct (Z.ltb_spec (- gv g i) 0) as [V|V].
  - assert (Kv : gK g i = Var) by (destruct Ki as [|[_ X]]; [auto|lia]). destruct (D12 i Hi Kv) as (c & Lc & Ec). pose proof D9 as (A1 & A2 & A3).
    wb. eapply wfa_getn; [exact A3|exact Li|]. rewrite Ec. wb. eapply wp_conseq; [apply (take_ok n c (Hd, Nt, Lt) h nx la dl hb D9 D10 Lc)|].
    intros [j [[Hd1 Nt1] Lt1]] (-> & h1 & la1 & L1 & L2 & L3). cbv beta iota. destruct L1 as (B1 & B2 & B3).
    assert (Hn : (length (hb c) <= n)%nat).
    { pose proof (NoDup_incl_length (hb_nd _ _ _ _ _ _ D10 c) (l' := seq 0 n)) as X. rewrite seq_length in X. apply X. intros z Hz. apply in_seq. destruct (hb_lt _ _ _ _ _ _ D10 z c Hz). lia. }
    wb. eapply wp_conseq.
    { apply (bucket_ok Iw Len D2 D3 (hb c) nx g (n + 1) (n + 1) (hb c) (firstz (hb c)) Pe Nv Elen W wf Nt1 w); auto; try lia.
      exists g, par, pe, el, nx. csplit; auto.
      - apply (hb_next _ _ _ _ _ _ D10).
      - apply (hb_nd _ _ _ _ _ _ D10).
      - intros x Hx. destruct (D11 x c Hx). auto. }
    intros [[[[[[u Pe2] Nv2] Elen2] W2] wf2] Nt2] (c' & h' & w' & (g2 & par2 & pe2 & el2 & nx2 & G2 & K1 & K2 & K3 & K4 & C2 & Dn2 & Hc2 & Ho2 & Hk2) & W1' & W2' & W3'). cbn [wp].
    split; [|unfold same_rest; csplit; reflexivity]. exists g2, par2, pe2, el2, w', (fu hb c []), h1, nx2, la1. split; [|intros x d X; unfold fu in X; destruct (Nat.eqb_spec d c) as [Ed|Nd]; [destruct X|]; split; [exact X|];
      fold i; intros ->; apply (hb_last _ _ _ _ _ _ D10) in X; rewrite Ec in X; apply Nat2Z.inj in X; congruence].
    assert (Nb : forall x d, In x (fu hb c [] d) -> ~ In x (hb c)).
    { intros x d X Y. unfold fu in X. destruct (Nat.eqb_spec d c) as [Ed|Nd]; [destruct X|]. apply Nd. eapply (hb_uniq _ _ _ _ _ _ D10); eauto. }
    constructor; cbn [q_pe q_iw q_len q_pfree q_nv q_elen q_deg q_w q_wflg q_lists q_mindeg q_nel q_lemax]; auto.
    + intros x Hx. destruct (W2' x Hx) as [Y1 Y2]. split; [exact Y1|]. intros Y3. apply Y2. apply Hk2. exact Y3.
    + split; auto.
    + eapply dls_nx; [exact L2|]. intros x d Hx. destruct (Ho2 x) as [X _]; [|exact X]. destruct Hx as [Hx|Hx]; [|eapply Nb; eauto]. intros Y. eapply (dl_hb _ _ _ _ _ _ D10); eauto.
    + intros x d Hx. destruct (Ho2 x (Nb x d Hx)) as [_ ->]. apply (D11 x d). unfold fu in Hx. destruct (Nat.eqb d c); [destruct Hx|exact Hx].
    + intros x Hx Kx. rewrite L3 by (intros d Hdl; apply (D13 x d Hdl Hx)). apply D12; auto.
      destruct (gs_acc _ _ _ _ _ G Hx) as (_ & _ & [Y|[Y _]]); [exact Y|]. exfalso. apply (Hk2 x); congruence.
  - cbn [wp]. split; [|unfold same_rest; csplit; reflexivity]. exists g, par, pe, el, w, hb, h, nx, la. split; [constructor; auto|]. intros x c Hx. split; [exact Hx|]. fold i. intros ->. destruct (D11 i c Hx) as [_ Y]. pose proof (qg_pos _ _ Q i ltac:(congruence)). lia.
Qed.

Lemma detect_all_ok q g par pe el w hb h nx la : DI q g par pe el w hb h nx la ->
  wp (for_loop 0 (length acc) (detect_row (n + 1) pme1) q) (fun q' => (exists g par pe el w h nx la, DI q' g par pe el w (fun _ => []) h nx la) /\ same_rest q q').
Proof.
  intros D. eapply wp_conseq.
  { apply (wp_for_loop (fun k q' => (exists g par pe el w hb h nx la, DI q' g par pe el w hb h nx la /\ forall x c, In x (hb c) -> ~ In x (firstn k acc)) /\ same_rest q q')).
    - split; [exists g, par, pe, el, w, hb, h, nx, la; split; [exact D|auto]|unfold same_rest; csplit; reflexivity].
    - intros k q1 Hk ((g1 & par1 & pe1 & el1 & w1 & hb1 & h1 & nx1 & la1 & D1 & E1) & R1). eapply wp_conseq; [apply (detect_ok k q1 g1 par1 pe1 el1 w1 hb1 h1 nx1 la1); auto; lia|].
      intros q2 ((g2 & par2 & pe2 & el2 & w2 & hb2 & h2 & nx2 & la2 & D2 & E2) & R2). split; [|unfold same_rest in *; intuition congruence].
      exists g2, par2, pe2, el2, w2, hb2, h2, nx2, la2. split; [exact D2|]. intros x c Hx. destruct (E2 x c Hx) as [X1 X2]. rewrite (firstn_S_nth 0%nat) by lia. rewrite in_app_iff. cbn [In].
      intros [Y|[Y|[]]]; [apply (E1 x c X1 Y)|congruence]. }
  intros q' ((g1 & par1 & pe1 & el1 & w1 & hb1 & h1 & nx1 & la1 & D1 & E1) & R1). split; [|exact R1]. exists g1, par1, pe1, el1, w1, h1, nx1, la1.
  rewrite Nat.add_0_l, firstn_all in E1. assert (Z : forall c, hb1 c = []).
  { intros c. destruct (hb1 c) as [|x l] eqn:X; [reflexivity|]. exfalso. assert (Y : In x (hb1 c)) by (rewrite X; left; auto). apply (E1 x c Y). apply (di_hb _ _ _ _ _ _ _ _ _ _ D1 x c Y). }
  destruct D1 as [D0 D2 D3 D4 D5 D6 D7 D8 D8' D9 D10 D11 D12 D13]. constructor; auto.
  - destruct D10 as [X1 X2 X3 X4 X5 X6 X7 X8 X9 X10 X11 X12]. constructor; auto; try (intros; contradiction).
    + intros _. constructor.
    + intros _. reflexivity.
    + intros d. specialize (X10 d). rewrite Z in X10. exact X10.
    + intros d Hd. specialize (X12 d Hd). rewrite Z in X12. exact X12.
  - intros x c [].
Qed.
End Detect.
