(* amd_2.c: one pivot *)
From Coq Require Import List Arith ZArith Bool Lia Permutation.
From Verif Require Import Base.
From Verif.Model Require Import Amd Amd2.
From Verif.Proofs Require Import AmdB AmdL AmdT QgA QgM QgL QgC QgS QgF QgD QgR QgG QgT.
Import ListNotations.
Open Scope Z_scope.

Definition TInv (n : nat) (N P0 : Z) (q : quotient) : Prop := exists g par pe len f el dg w dl, TI n N P0 q g par pe len f el dg w dl.

Lemma absb_nil g acc dg w wflg aggr x : absb g acc dg w wflg aggr [] x = false.
Proof. unfold absb. cbn [existsb]. apply andb_false_r. Qed.

Lemma inb_nil x : inb x [] = false. Proof. reflexivity. Qed.

Local Ltac proj := cbn [q_pe q_iw q_len q_pfree q_nv q_elen q_deg q_w q_wflg q_lists q_mindeg q_nel q_lemax] in *.

Lemma step_ok aggr wbig n N P0 q : P0 + Z.of_nat n <= N -> TInv n N P0 q -> q_nel q < Z.of_nat n ->
  wp (eliminate_step aggr wbig n N q) (fun q' => TInv n N P0 q' /\ q_nel q < q_nel q').
Proof.
  intros HN (g & par & pe & len & f & el & dg & w & dl & T) Hnel.
  pose proof (ti_q _ _ _ _ _ _ _ _ _ _ _ _ _ T) as Q. pose proof (ti_al _ _ _ _ _ _ _ _ _ _ _ _ _ T) as AL. pose proof (ti_F _ _ _ _ _ _ _ _ _ _ _ _ _ T) as F.
  pose proof (ti_live _ _ _ _ _ _ _ _ _ _ _ _ _ T) as Live. pose proof (ti_dead _ _ _ _ _ _ _ _ _ _ _ _ _ T) as Dead0.
  pose proof (ti_el _ _ _ _ _ _ _ _ _ _ _ _ _ T) as El. pose proof (ti_el' _ _ _ _ _ _ _ _ _ _ _ _ _ T) as El'. pose proof (ti_dg _ _ _ _ _ _ _ _ _ _ _ _ _ T) as Dg. pose proof (ti_dv _ _ _ _ _ _ _ _ _ _ _ _ _ T) as Dv.
  pose proof (ti_dl _ _ _ _ _ _ _ _ _ _ _ _ _ T) as Hdl. pose proof (ti_tot _ _ _ _ _ _ _ _ _ _ _ _ _ T) as Tot. pose proof (ti_wc _ _ _ _ _ _ _ _ _ _ _ _ _ T) as Wc.
  pose proof (ti_ls _ _ _ _ _ _ _ _ _ _ _ _ _ T) as Ls. destruct (ti_md _ _ _ _ _ _ _ _ _ _ _ _ _ T) as [Md1 Md2]. destruct (ti_dle _ _ _ _ _ _ _ _ _ _ _ _ _ T) as [Lm1 Lm2].
  pose proof (ti_pe _ _ _ _ _ _ _ _ _ _ _ _ _ T) as F1. pose proof (ti_len _ _ _ _ _ _ _ _ _ _ _ _ _ T) as F2. pose proof (ti_iw _ _ _ _ _ _ _ _ _ _ _ _ _ T) as F3. pose proof (ti_nv _ _ _ _ _ _ _ _ _ _ _ _ _ T) as F4.
  pose proof (ti_elen _ _ _ _ _ _ _ _ _ _ _ _ _ T) as F5. pose proof (ti_deg _ _ _ _ _ _ _ _ _ _ _ _ _ T) as F6. pose proof (ti_w _ _ _ _ _ _ _ _ _ _ _ _ _ T) as F7.
  pose proof (ti_mem _ _ _ _ _ _ _ _ _ _ _ _ _ T) as M0. pose proof (ti_pf _ _ _ _ _ _ _ _ _ _ _ _ _ T) as Pf. pose proof (ti_sum _ _ _ _ _ _ _ _ _ _ _ _ _ T) as Sm. pose proof (ti_nel _ _ _ _ _ _ _ _ _ _ _ _ _ T) as Nl. clear T.
  destruct q as [Pe Iw Len pf Nv Elen Degree W wflg l mindeg nel lemax]. proj.
  destruct (total_pos n g ltac:(lia)) as (x0 & Hx0 & Kx0).
  assert (Hch : exists d, (Z.to_nat mindeg <= d)%nat /\ dl d <> []).
  { pose proof (Dv x0 Kx0) as B. assert (I : In x0 (dl (Z.to_nat (dg x0)))) by (apply Hdl; split; [auto|lia]).
    exists (Z.to_nat (dg x0)). split; [|intros X; rewrite X in I; destruct I]. destruct (le_lt_dec (Z.to_nat mindeg) (Z.to_nat (dg x0))) as [|Y]; [auto|].
    rewrite Md2 in I by lia. destruct I. }
  unfold eliminate_step. rewrite <- (Z2Nat.id mindeg) by exact Md1. wb. eapply wp_conseq; [apply (choose_ok n _ l dl (fun _ => []) Ls (fun _ => eq_refl) Hch)|].
  intros [[me0 deg0] l0] (d & me & t & -> & -> & Hd & Ed & Hbelow & Ls0).
  assert (Ime : In me (dl d)) by (rewrite Ed; left; auto). apply Hdl in Ime as Kme. destruct Kme as [Kme Dme]. assert (Mn : (me < n)%nat) by (apply (qg_lt _ _ Q); congruence).
  assert (Dlc : dlc g me dg [] (fu dl d t)).
  { intros x c. unfold fu. destruct Ls as (h & nx & la & _ & DS). pose proof (dl_nd _ _ _ _ _ _ DS d) as NDd. rewrite Ed in NDd. inversion NDd as [|a b Nme _]; subst.
    destruct (Nat.eqb_spec c d) as [->|Nc].
    - split.
      + intros Hx. assert (I : In x (dl d)) by (rewrite Ed; right; auto). apply Hdl in I. destruct I as [I1 I2]. csplit; auto. intros ->. contradiction.
      + intros (I1 & I2 & _ & I3). assert (I : In x (dl d)) by (apply Hdl; auto). rewrite Ed in I. destruct I as [|I]; [congruence|exact I].
    - split.
      + intros Hx. apply Hdl in Hx as I. destruct I as [I1 I2]. csplit; auto. intros ->. apply Nc. lia.
      + intros (I1 & I2 & _ & I3). apply Hdl; auto. }
  assert (Below : forall c, (c < d)%nat -> dl c = []).
  { intros c Hc. destruct (le_lt_dec (Z.to_nat mindeg) c) as [Y|Y]; [apply Hbelow; lia|apply Md2; lia]. }
  wb. eapply wfa_getn; [exact F5|exact Mn|]. rewrite (El me Kme). wb. eapply wfa_getn; [exact F4|exact Mn|].
  wb. eapply wp_conseq.
  { apply (build_ok n N P0 g me dg Q Kme HN Dv pe len f w pf Live M0 Pf Sm (Quotient Pe Iw Len pf Nv Elen Degree W wflg l0 (Z.of_nat d) nel lemax) el (fu dl d t)); auto. }
  intros [[[q1 pme1] pme2] degme] (pe1 & len1 & f1 & acc & dl1 & Bu & E2 & Edeg & G1 & G2 & G3 & G4 & G5 & G6 & G7 & G8 & G9 & G10 & G11 & G12 & G13).
  destruct q1 as [Pe1 Iw1 Len1 pf1 Nv1 Elen1 Degree1 W1 wflg1 l1 mindeg1 nel1 lemax1]. proj. subst wflg1 mindeg1 nel1 lemax1. clear Iw Pe Len Nv Elen Degree W l F1 F2 F3 F4 F5 F6 F7 Ls.
  pose proof (bu_acc _ _ _ _ _ _ _ _ _ _ _ _ Bu) as HL. pose proof (bu_nd _ _ _ _ _ _ _ _ _ _ _ _ Bu) as ND. pose proof (bu_mem _ _ _ _ _ _ _ _ _ _ _ _ Bu) as M1.
  pose proof (bu_pos _ _ _ _ _ _ _ _ _ _ _ _ Bu) as Hp1. pose proof (bu_end _ _ _ _ _ _ _ _ _ _ _ _ Bu) as Hp2. pose proof (bu_N _ _ _ _ _ _ _ _ _ _ _ _ Bu) as Hp3.
  pose proof (bu_at _ _ _ _ _ _ _ _ _ _ _ _ Bu) as At1. pose proof (bu_disj _ _ _ _ _ _ _ _ _ _ _ _ Bu) as Dj. pose proof (bu_E _ _ _ _ _ _ _ _ _ _ _ _ Bu) as PE. pose proof (bu_live _ _ _ _ _ _ _ _ _ _ _ _ Bu) as PL.
  destruct (bu_me _ _ _ _ _ _ _ _ _ _ _ _ Bu) as [Pme Lme]. pose proof (bu_new _ _ _ _ _ _ _ _ _ _ _ _ Bu) as New. clear Bu.
  assert (Av : forall i, In i acc -> gK g i = Var /\ i <> me /\ (i < n)%nat) by (apply (acc_var n g me acc Q HL)).
  assert (Anm : ~ In me acc) by (intros X; destruct (Av me X) as (_ & Y & _); congruence).
  assert (ElE : forall e, In e (gE g me) -> gK g e = Elem) by (intros e He; apply (qg_E _ _ Q me e Kme He)).
  replace (Z.to_nat (pme2 - pme1 + 1)) with (length acc) by lia. clear pme2 E2. cbv zeta.
  wb. eapply wp_conseq.
  { apply (clear_flag_ok n W1 (wz w (gE g me)) wflg wbig G7). intros x Hx. unfold wz. destruct (Wc x Hx) as [A _]. destruct (in_dec _ _ _); split; lia. }
  intros [wf W2] (w' & H1 & H2 & H3).
  assert (V1 : forall x, (x < n)%nat -> 0 <= w' x < wf) by (intros x Hx; apply H3; auto).
  assert (V0 : forall e, In e (gE g me) -> w' e = 0).
  { intros e He. apply H3; [apply (qg_lt _ _ Q); rewrite (ElE e He); discriminate|]. unfold wz. destruct (in_dec _ _ _); [reflexivity|contradiction]. }
  assert (V2' : forall e, gK g e <> Dead -> ~ In e (gE g me) -> w' e <> 0).
  { intros e Ke Ne X. assert (Hx : (e < n)%nat) by (apply (qg_lt _ _ Q); exact Ke). apply H3 in X; [|auto]. unfold wz in X. destruct (in_dec _ _ _); [contradiction|]. destruct (Wc e Hx) as [_ Y]. apply Y; auto. }
  assert (V2 : forall e, gK g e = Elem -> ~ In e (gE g me) -> w' e <> 0) by (intros e Ke; apply V2'; congruence).
  assert (V3 : forall x, gK g x = Var -> w' x <> 0) by (intros x Kx; apply V2'; [congruence|]; intros X; rewrite (ElE x X) in Kx; discriminate).
  assert (Lv1 : forall i, In i acc -> 0 <= pe1 i).
  { intros i Hi. destruct (Av i Hi) as (Ki & Ni & Li). apply (PL i Li Ni); [|apply Live; [auto|congruence]]. intros X. rewrite (ElE i X) in Ki. discriminate. }
  set (el1 := fu el me (FLIP (gv g me + degme))) in *.
  assert (El1 : forall i, In i acc -> el1 i = Z.of_nat (length (gE g i))) by (intros i Hi; destruct (Av i Hi) as (Ki & Ni & Li); unfold el1; rewrite fu_ne by auto; auto).
  wb. eapply wp_conseq.
  { eapply (scan1_ok n N pf1 pme1 g me acc pe1 len1 f1 dg w' wf degme Q Kme ND HL M1 Hp1 Hp2 At1 Lv1 V1 Dg Iw1 Nv1 Elen1 Pe1 Degree1 W2); auto. exists el1. auto. }
  intros W3 H4.
  assert (Hdl1 : forall x c, In x acc -> ~ In x (dl1 c)) by (intros x c Hx X; apply G9 in X; tauto).
  wb. eapply wp_conseq.
  { eapply (scan2_ok n N pf1 pme1 g me acc pe1 len1 f1 el1 dg w' wf degme Q Kme ND HL M1 Hp1 Hp2 Hp3 Dj Lv1 El1 V0 aggr (nel + gv g me) (gv g me) (Z.of_nat d) lemax dl1 Hdl1).
    constructor; proj; auto; try lia.
    - exists f1. csplit; auto. eapply mem_ext; [exact M1|]. intros x Hx Hp. assert (X : fu (pe2 g me acc pe1 dg w' wf aggr []) me (-1) x = fu pe1 me (-1) x) by (unfold fu, pe2; rewrite absb_nil; reflexivity).
      rewrite X in *. csplit; auto; reflexivity.
    - eapply fa_ext; [exact G1|]. intros x Hx. unfold pe2. rewrite absb_nil. reflexivity.
    - eapply fa_ext; [exact H4|]. intros x Hx. unfold w2. rewrite absb_nil. reflexivity.
    - exists (fun _ => []). split; [exact G8|]. intros x. cbn [In]. firstorder.
    - unfold ms. cbn. lia.
    - unfold ms. cbn. lia.
    - unfold ms. cbn. lia. }
  intros [[q2 degme2] nvp2] S. destruct q2 as [Pe2 Iw2 Len2 pf2 Nv2 Elen2 Degree2 W4 wf2 l2 mindeg2 nel2 lemax2].
  destruct S as [(f2 & S1 & S2 & S3) S4 S5 S6 S7 S8 S9 S10 S11 (hb & S12 & S13) S14 S15 S16 S17 S18]. proj. subst pf2 wf2 mindeg2 lemax2 nel2 degme2 nvp2.
  set (gg := QgG.g1 g me acc dg w' wf aggr).
  assert (Gnn : forall x, 0 <= gv g x) by (apply (qg_nonneg _ _ Q)).
  assert (Dnn : 0 <= degme) by (rewrite Edeg; apply zs_nonneg; auto).
  assert (PL' : forall x, (x < n)%nat -> x <> me -> ~ In x (gE g me) -> (pe x < 0 -> pe1 x = pe x) /\ (0 <= pe x -> 0 <= pe1 x)) by (intros x X1 X2 X3; destruct (PL x X1 X2 X3); tauto).
  assert (Gs : GS n pf1 pme1 me acc (len2 g me acc len1 dg w' wf aggr acc) f2 gg (pe2 g me acc pe1 dg w' wf aggr acc) gg (QgG.par1 g me acc par dg w' wf aggr) (pe2 g me acc pe1 dg w' wf aggr acc) (el2 g me acc el1 dg w' wf aggr acc)).
  { apply (after_scan2 n pf1 pme1 g me acc par pe pe1 len1 f2 el1 dg w' wf aggr Q AL Kme ND HL F Live Dead0 PE PL' Pme); auto.
    - intros x Kx Nx. unfold el1. rewrite fu_ne by auto. auto.
    - intros x Hx Kx Vx. unfold el1, fu. destruct (Nat.eqb_spec x me) as [->|]; [congruence|]. auto.
    - unfold el1. rewrite fu_eq. unfold FLIP. specialize (Gnn me). lia. }
  set (MS := ms g me acc dg w' wf aggr acc) in *. assert (MSn : 0 <= MS) by (apply (ms_nonneg n); auto).
  assert (Dg2 : 0 <= degme - MS) by (rewrite Edeg; unfold MS; rewrite <- (gv1_acc n g me acc dg w' wf aggr Q HL); apply zs_nonneg; intros x _; apply (qg_nonneg _ _ (gs_q _ _ _ _ _ _ _ _ _ _ _ _ _ Gs))).
  wb. eapply wfa_setn; [exact S9|exact Mn|]. intros Degree3 H5.
  set (lm := Z.max lemax (degme - MS)) in *.
  assert (WR : forall x, (x < n)%nat -> 0 <= w2 g acc dg w' wf aggr acc x < wf + lm).
  { intros x Hx. apply (w2_range n g me acc dg w' wf aggr Q ND HL V1 H2 Dg lm x); auto; [|lia]. intros e Ke. specialize (Lm2 e Ke). lia. }
  wb. eapply wp_conseq.
  { apply (clear_flag_ok n W4 _ (wf + lm) wbig S10). intros x Hx. specialize (WR x Hx). lia. }
  intros [wf3 W5] (w3 & H6 & H7 & H8).
  assert (KV : forall x, In x acc -> (gK gg x = Var <-> massb g me acc dg w' wf aggr x = false)).
  { intros x Hx. destruct (Av x Hx) as (Kx & Nx & _). unfold gg. rewrite g1_kind by auto. rewrite (Abb_acc n g me acc dg w' wf aggr Q Kme ND HL Dg x Hx), (mb_acc g me acc dg w' wf aggr x Hx). cbn [orb].
    destruct (massb _ _ _ _ _ _ _ x); split; congruence. }
  destruct S12 as (h & nx & la & S12 & DS).
  wb. eapply wp_conseq.
  { eapply (detect_all_ok n N pf1 pme1 me acc _ f2 (- gv g me) gg (pe2 g me acc pe1 dg w' wf aggr acc) Hp1 Hp2 S3).
    - intros x Hx _. apply (g1_front g me acc dg w' wf aggr x Hx).
    - constructor; proj; [exact Gs|exact S1|exact S6|exact S5| |exact S8|exact H6| |exact H7|exact S12|exact DS| | |].
      + eapply fa_ext; [exact S7|]. intros x Hx. apply (g1_nv n); auto.
      + intros x Hx. destruct (H8 x Hx) as [A1 A2]. split; [exact A1|]. intros Kx X. apply A2 in X. revert X. apply (w2_live n g me acc dg w' wf aggr); auto.
      + intros x c Hx. assert (X : exists c, In x (hb c)) by eauto. apply S13 in X. destruct X as [X1 X2]. split; [auto|]. apply KV; auto.
      + intros x Hx Kx. apply KV in Kx; [|auto]. assert (X : exists c, In x (hb c)) by (apply S13; auto). destruct X as [c X]. exists c. split; [apply (hb_lt _ _ _ _ _ _ DS x c X)|apply (hb_last _ _ _ _ _ _ DS x c X)].
      + intros x c Hx X. apply (Hdl1 x c X Hx). }
  intros q3 ((g2 & par2 & pe3 & el3 & w4 & h2 & nx2 & la2 & D) & R1 & R2 & R3 & R4 & R5).
  pose proof (di_gs _ _ _ _ _ _ _ _ _ _ _ _ _ _ _ _ _ _ _ _ _ _ D) as Gs2. pose proof (di_iw _ _ _ _ _ _ _ _ _ _ _ _ _ _ _ _ _ _ _ _ _ _ D) as J1. pose proof (di_len _ _ _ _ _ _ _ _ _ _ _ _ _ _ _ _ _ _ _ _ _ _ D) as J2.
  pose proof (di_pe _ _ _ _ _ _ _ _ _ _ _ _ _ _ _ _ _ _ _ _ _ _ D) as J3. pose proof (di_nv _ _ _ _ _ _ _ _ _ _ _ _ _ _ _ _ _ _ _ _ _ _ D) as J4. pose proof (di_el _ _ _ _ _ _ _ _ _ _ _ _ _ _ _ _ _ _ _ _ _ _ D) as J5.
  pose proof (di_w _ _ _ _ _ _ _ _ _ _ _ _ _ _ _ _ _ _ _ _ _ _ D) as J6. pose proof (di_wc _ _ _ _ _ _ _ _ _ _ _ _ _ _ _ _ _ _ _ _ _ _ D) as J7.
  assert (J8 : LS n (q_lists q3) dl1 (fun _ => [])) by (exists h2, nx2, la2; split; apply D). clear D.
  destruct q3 as [Pe3 Iw3 Len3 pf3 Nv3 Elen3 Degree4 W6 wf4 l3 mindeg3 nel3 lemax3]. proj. subst pf3 Degree4 mindeg3 nel3 lemax3.
  pose proof (gs_q _ _ _ _ _ _ _ _ _ _ _ _ _ Gs2) as Q2.
  assert (Tot2 : total n g2 = Z.of_nat n - (nel + gv g me + MS)).
  { rewrite (gs_tot _ _ _ _ _ _ _ _ _ _ _ _ _ Gs2). unfold gg. rewrite (g1_total n g me acc dg w' wf aggr); auto. fold MS. lia. }
  assert (V2m : gv g2 me = gv g me + MS).
  { destruct (gs_K _ _ _ _ _ _ _ _ _ _ _ _ _ Gs2 me Anm) as [_ X]. rewrite X. unfold gg, g1. cbn [gv]. rewrite Nat.eqb_refl. reflexivity. }
  assert (Ame : forall x, In x acc -> (x < n)%nat /\ x <> me /\ (gK g2 x = Var /\ 0 < gv g2 x \/ gK g2 x = Dead /\ gv g2 x = 0)).
  { intros x Hx. destruct (gs_acc _ _ _ _ _ _ _ _ _ _ _ _ _ x Gs2 Hx) as (A1 & A2 & A3). csplit; auto. destruct A3 as [A3|A3]; [left; split; [auto|apply (qg_pos _ _ Q2); congruence]|right; auto]. }
  assert (Pvm : 0 < gv g me) by (apply (qg_pos _ _ Q); congruence).
  set (dg3 := fu (dg2 g me acc dg w' wf degme aggr acc) me (degme - MS)) in *.
  assert (K2 : forall x, x <> me -> ~ In x acc -> gK g2 x = if Abb g me acc dg w' wf aggr x then Dead else gK g x).
  { intros x Nx Ix. destruct (gs_K _ _ _ _ _ _ _ _ _ _ _ _ _ Gs2 x Ix) as [-> _]. unfold gg. rewrite g1_kind, mb_not, orb_false_r by auto. reflexivity. }
  assert (Dg3' : forall x, x <> me -> ~ In x acc -> dg3 x = dg x).
  { intros x Nx Ix. unfold dg3. rewrite fu_ne by auto. unfold dg2. apply inb_not in Ix. rewrite Ix. cbn [andb]. apply fu_ne; auto. }
  assert (Hdg3 : forall x, In x acc -> gK g2 x = Var -> 0 <= dg3 x /\ gv g2 x <= degme - MS /\ gv g2 x <= Z.of_nat n - (nel + gv g me + MS)).
  { intros x Hx Kx. destruct (Av x Hx) as (_ & Nx & _). csplit.
    - unfold dg3. rewrite fu_ne by auto. unfold dg2. pose proof (gs_K' _ _ _ _ _ _ _ _ _ _ _ _ _ Gs2 x Kx) as Kx1. apply KV in Kx1; [|auto]. rewrite Kx1. pose proof Hx as Ix. apply inb_in in Ix. rewrite Ix. cbn [andb negb].
      apply (deg2_nonneg n g me acc dg w' wf aggr); auto.
    - pose proof (gs_me _ _ _ _ _ _ _ _ _ _ _ _ _ Gs2) as Km2. pose proof (qg_deg _ _ Q2 me Km2) as X. destruct (gs_same _ _ _ _ _ _ _ _ _ _ _ _ _ Gs2 me) as (_ & _ & E1 & E2). rewrite E1, E2 in X.
      rewrite (gs_L _ _ _ _ _ _ _ _ _ _ _ _ _ Gs2) in X. unfold gg, g1 in X. cbn [gdg] in X. rewrite Nat.eqb_refl, <- Edeg in X. fold MS in X.
      pose proof (zs_in (gv g2) acc x (fun y _ => qg_nonneg _ _ Q2 y) Hx). lia.
    - rewrite <- Tot2. apply total_ge; auto. }
  wb. eapply wp_conseq.
  { eapply (restore_ok n N pf1 pme1 me acc f2 g2 (- gv g me) dg3 (degme - MS) (Z.of_nat n - (nel + gv g me + MS)) dl1 ND S3 Hp1 Hp2 Hp3 Ame Hdg3); proj; auto.
    - lia.
    - intros x c Hx X. apply (Hdl1 x c X Hx).
    - intros p Hp. apply (m_cells _ _ _ _ _ _ S2 p Hp).
    - lia.
    - intros c Hc. destruct (dl1 c) as [|y t1] eqn:E; [reflexivity|]. assert (I : In y (dl1 c)) by (rewrite E; left; auto). apply G9 in I. destruct I as (I1 & _ & _ & I2).
      assert (I : In y (dl c)) by (apply Hdl; auto). rewrite Below in I by lia. destruct I. }
  intros [p q4] R. destruct q4 as [Pe4 Iw4 Len4 pf4 Nv4 Elen4 Degree5 W7 wf5 l4 mindeg4 nel4 lemax4].
  destruct R as [U1 (f3 & U2 & U3 & U4 & U5) U6 U7 (dl2 & U8 & U9 & U10 & U11) (U12 & U13 & U14 & U15 & U16 & U17 & U18 & U19)]. proj. subst Pe4 Len4 pf4 Elen4 W7 wf5 nel4 lemax4.
  rewrite firstn_all in *. set (kp := kept g2 acc) in *.
  wb. eapply wfa_setn; [exact U6|exact Mn|]. intros Nv5 X1. wb. eapply wfa_setn; [exact J2|exact Mn|]. intros Len5 X2.
  wb. eapply (wp_conseq _ (fun '(Pe, W) => fa Pe n (fu pe3 me (match kp with [] => EMPTY | _ => pme1 end)) /\ fa W n (fu w4 me (match kp with [] => 0 | _ => w4 me end)))).
  { replace (p - pme1) with (Z.of_nat (length kp)) by lia. destruct kp as [|y t1].
    - cbn [length Z.of_nat Z.eqb]. wb. eapply wfa_setn; [exact J3|exact Mn|]. intros Pe5 Y1. wb. eapply wfa_setn; [exact J6|exact Mn|]. intros W8 Y2. cbn [wp]. auto.
    - cbn [length]. destruct (Z.eqb_spec (Z.of_nat (S (length t1))) 0); [lia|]. cbn [wp]. split.
      + eapply fa_ext; [exact J3|]. intros x Hx. unfold fu. destruct (Nat.eqb_spec x me) as [->|]; [apply Gs2|reflexivity].
      + eapply fa_ext; [exact J6|]. intros x Hx. unfold fu. destruct (Nat.eqb_spec x me) as [->|]; reflexivity. }
  intros [Pe5 W8] [X3 X4]. cbn [wp]. proj. split; [|lia].
  set (pe4 := fu pe3 me (match kp with [] => EMPTY | _ => pme1 end)) in *.
  exists (g3 me acc g2), (par3 me par2), pe4, (fu (len2 g me acc len1 dg w' wf aggr acc) me (Z.of_nat (length kp))), f3, el3, (fun x => if inb x kp then newdeg g2 dg3 (degme - MS) (Z.of_nat n - (nel + gv g me + MS)) x else dg3 x),
    (fu w4 me (match kp with [] => 0 | _ => w4 me end)), dl2.
  assert (Pe4x : forall x, x <> me -> pe4 x = pe3 x) by (intros x Nx; unfold pe4; apply fu_ne; auto).
  assert (Pe4m : pe4 me = match kp with [] => EMPTY | _ => pme1 end) by (unfold pe4; apply fu_eq).
  assert (PL2 : exists f1, mem n pf1 (fu pe1 me (-1)) len1 f1 (bd g)) by eauto.
  assert (Kn : forall x, In x kp -> In x acc /\ gv g2 x <> 0 /\ gK g2 x = Var /\ x <> me).
  { intros x Hx. unfold kp, kept in Hx. apply filter_In in Hx. destruct Hx as [A1 A2]. unfold livev in A2. apply negb_true_iff, Z.eqb_neq in A2. destruct (Ame x A1) as (_ & A3 & [A4|A4]); [tauto|]. lia. }
  assert (Kn' : forall x, In x acc -> gK g2 x = Var -> In x kp).
  { intros x Hx Kx. apply filter_In. split; [auto|]. unfold livev. apply negb_true_iff, Z.eqb_neq. pose proof (qg_pos _ _ Q2 x ltac:(congruence)). lia. }
  assert (Var3 : forall x, gK (g3 me acc g2) x = Var <-> gK g2 x = Var).
  { intros x. cbn [g3 gK]. destruct (Nat.eqb_spec x me) as [->|]; [|tauto]. pose proof (gs_me _ _ _ _ _ _ _ _ _ _ _ _ _ Gs2). destruct (kept g2 acc); split; congruence. }
  assert (Var2 : forall x, x <> me -> ~ In x acc -> (gK g2 x = Var <-> gK g x = Var)).
  { intros x Nx Ix. rewrite (K2 x Nx Ix). destruct (Abb g me acc dg w' wf aggr x) eqn:E; [|tauto]. destruct (Abb_elem n g me acc dg w' wf aggr Q Kme ND HL Dg x E). split; congruence. }
  assert (Elem3 : forall e, gK (g3 me acc g2) e = Elem -> e = me \/ e <> me /\ ~ In e acc /\ ~ In e kp /\ gK g e = Elem).
  { intros e Ke. cbn [g3 gK] in Ke. destruct (Nat.eqb_spec e me) as [Ee|Ne]; [auto|]. right. assert (Ie : ~ In e acc) by (intros X; destruct (Ame e X) as (_ & _ & [[A _]|[A _]]); congruence).
    csplit; auto; [intros X; apply Kn in X; tauto|]. rewrite (K2 e Ne Ie) in Ke. destruct (Abb _ _ _ _ _ _ _ e); congruence. }
  assert (Nm : inb me kp = false) by (apply inb_not; intros X; apply Kn in X; tauto).
  constructor; proj.
  - apply (g3_ok n pf1 pme1 g me acc pe1 len1 f2 dg w' wf aggr ND gg g2 par2 pe3 el3 Gs2).
  - apply (g3_ok n pf1 pme1 g me acc pe1 len1 f2 dg w' wf aggr ND gg g2 par2 pe3 el3 Gs2).
  - apply (g3_FI n pf1 pme1 g me acc pe1 len1 f2 dg w' wf aggr gg g2 par2 pe3 el3 Gs2).
  - exact X3.
  - eapply fa_ext; [exact X2|]. intros x Hx. unfold fu. destruct (Nat.eqb x me); [lia|reflexivity].
  - destruct (negb _); [|exact U2]. pose proof (kp_len acc g2) as KL. fold kp in KL. eapply fz_ext; [exact U2|lia|auto].
  - eapply fa_ext; [exact X1|]. intros x Hx. unfold fu. cbn [g3 gv]. destruct (Nat.eqb_spec x me) as [->|]; [lia|]. destruct (inb x acc); reflexivity.
  - exact J5.
  - exact U7.
  - exact X4.
  - rewrite U1. eapply (g3_mem n pf1 pme1 g me acc pe len pe1 len1 f2 dg w' wf aggr Q Kme HL PL2 Hp1 Hp2); eauto.
  - eapply (g3_live n pf1 pme1 g me acc pe1 len1 f2 dg w' wf aggr); eauto.
  - eapply (g3_dead n pf1 pme1 g me acc pe1 len1 f2 dg w' wf aggr); eauto.
  - pose proof (kp_len acc g2) as KL. fold kp in KL. destruct (negb _); lia.
  - eapply (g3_sum n P0 pf1 pme1 g me acc pe len pe1 len1 f f2 dg w' wf aggr); eauto.
  - intros x Kx. apply Var3 in Kx. cbn [g3 gE]. apply (gs_el _ _ _ _ _ _ _ _ _ _ _ _ _ Gs2 x Kx).
  - intros x Hx Kx Vx. rewrite Var3 in Kx. apply (gs_el' _ _ _ _ _ _ _ _ _ _ _ _ _ Gs2 x Hx Kx Vx).
  - intros e Ke. cbn [g3 gdg]. destruct (gs_same _ _ _ _ _ _ _ _ _ _ _ _ _ Gs2 e) as (_ & _ & _ & Eg). rewrite Eg. clear Eg. unfold gg, g1. cbn [gdg]. destruct (Elem3 e Ke) as [Ee|(Ne & Ie & Ik & Kg)].
    + subst e. rewrite Nm, Nat.eqb_refl. unfold dg3. rewrite fu_eq, Edeg. reflexivity.
    + apply inb_not in Ik. rewrite Ik, Dg3' by auto. apply Nat.eqb_neq in Ne. rewrite Ne. auto.
  - intros x Kx. apply Var3 in Kx. destruct (inb x kp) eqn:I.
    + apply inb_in in I. apply Kn in I. destruct I as (I1 & _ & _ & I2). destruct (Hdg3 x I1 Kx) as (A1 & A2 & A3). pose proof (qg_pos _ _ Q2 x ltac:(congruence)). unfold newdeg.
      lia.
    + apply inb_not in I. assert (Ix : ~ In x acc) by (intros X; apply I, Kn'; auto). assert (Nx : x <> me) by (intros ->; pose proof (gs_me _ _ _ _ _ _ _ _ _ _ _ _ _ Gs2); congruence).
      rewrite Dg3' by auto. apply Dv. apply Var2; auto.
  - split; [lia|]. intros e Ke. destruct (Elem3 e Ke) as [Ee|(Ne & Ie & Ik & Kg)].
    + subst e. rewrite Nm. unfold dg3. rewrite fu_eq. lia.
    + apply inb_not in Ik. rewrite Ik, Dg3' by auto. specialize (Lm2 e Kg). lia.
  - intros x Hx. destruct (J7 x Hx) as [A1 A2]. unfold fu. cbn [g3 gK]. fold kp. destruct (Nat.eqb_spec x me) as [->|]; [|split; auto]. destruct kp; [split; [lia|congruence]|]. split; [exact A1|]. intros _. apply A2. rewrite (gs_me _ _ _ _ _ _ _ _ _ _ _ _ _ Gs2). discriminate.
  - exact U8.
  - intros x c. rewrite U9, (G9 x c), Var3. destruct (inb x kp) eqn:I.
    + apply inb_in in I. destruct (Kn x I) as (I1 & _ & I3 & I4). split; [intros [(_ & _ & X & _)|[_ X]]; [tauto|auto]|]. intros [_ X]. right. auto.
    + apply inb_not in I. split.
      * intros [(Y1 & Y2 & Y3 & Y4)|[X _]]; [|tauto]. rewrite Dg3' by auto. split; [apply Var2; auto|exact Y4].
      * intros [Y1 Y2]. left. assert (Ix : ~ In x acc) by (intros X; apply I, Kn'; auto). assert (Nx : x <> me) by (intros ->; pose proof (gs_me _ _ _ _ _ _ _ _ _ _ _ _ _ Gs2); congruence).
        rewrite Dg3' in Y2 by auto. csplit; auto. apply Var2; auto.
  - auto.
  - rewrite (g3_total n pf1 pme1 g me acc pe1 len1 f2 dg w' wf aggr gg g2 par2 pe3 el3 Gs2). exact Tot2.
  - lia.
Qed.
