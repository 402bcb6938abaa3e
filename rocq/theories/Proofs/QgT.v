(* amd_2.c: one pivot, and the loop over the pivots *)
From Coq Require Import List Arith ZArith Bool Lia Permutation.
From Verif Require Import Base.
From Verif.Model Require Import Amd Amd2.
From Verif.Proofs Require Import AmdB AmdL AmdT QgA QgM QgL QgC QgS QgF QgD QgR QgG.
Import ListNotations.
Open Scope Z_scope.

(* a list stored at a in the cells [a, a + c), where nothing else is *)
Lemma mem_finish n P P' pe len f f' B pe' len' B' m a l c : mem n P (fu pe m (-1)) len f B -> 0 <= a ->
  (forall x, (x < n)%nat -> x <> m -> 0 <= pe x -> (pe x + len x <= a \/ a + c <= pe x) /\ pe x + len x <= P') ->
  Z.of_nat (length l) <= c -> a + Z.of_nat (length l) <= P' -> P' <= P ->
  (forall p, p < a \/ a + c <= p -> f' p = f p) -> (forall p, 0 <= p < P -> 0 <= f' p < Z.of_nat n) -> at_ f' a l ->
  (forall x, (x < n)%nat -> x <> m -> pe' x = pe x /\ len' x = len x /\ (0 <= pe x -> B' x = B x)) ->
  (0 <= pe' m -> pe' m = a /\ l <> [] /\ len' m = Z.of_nat (length l) /\ B' m = l) -> mem n P' pe' len' f' B'.
Proof.
  intros M Ha HX Hl HP HP' Hf Hc Hat Hx Hm.
  assert (X : forall x, (x < n)%nat -> x <> m -> 0 <= pe' x -> 0 <= pe x /\ 0 <= fu pe m (-1) x /\ pe' x = pe x /\ fu pe m (-1) x = pe x /\ len' x = len x /\ B' x = B x).
  { intros x H1 H2 H3. destruct (Hx x H1 H2) as (A1 & A2 & A3). rewrite A1 in H3. rewrite fu_ne by auto. auto 10. }
  constructor.
  - intros x H1 H2. destruct (Nat.eq_dec x m) as [->|Nm]; [destruct (Hm H2) as (_ & A & _ & B0); rewrite B0; exact A|].
    destruct (X x H1 Nm H2) as (A1 & A2 & A3 & A4 & A5 & A6). rewrite A6. apply (m_ne _ _ _ _ _ _ M); auto.
  - intros x H1 H2. destruct (Nat.eq_dec x m) as [->|Nm]; [destruct (Hm H2) as (_ & A & A' & B0); rewrite B0; exact A'|].
    destruct (X x H1 Nm H2) as (A1 & A2 & A3 & A4 & A5 & A6). rewrite A5, A6. apply (m_len _ _ _ _ _ _ M); auto.
  - intros x H1 H2. destruct (Nat.eq_dec x m) as [->|Nm]; [destruct (Hm H2) as (A0 & A & A' & B0); lia|].
    destruct (X x H1 Nm H2) as (A1 & A2 & A3 & A4 & A5 & A6). destruct (HX x H1 Nm A1). lia.
  - intros x H1 H2. destruct (Nat.eq_dec x m) as [->|Nm]; [destruct (Hm H2) as (A0 & A & A' & B0); rewrite A0, B0; exact Hat|].
    destruct (X x H1 Nm H2) as (A1 & A2 & A3 & A4 & A5 & A6). rewrite A3, A6. pose proof (m_at _ _ _ _ _ _ M x H1 A2) as Y. rewrite A4 in Y.
    pose proof (m_len _ _ _ _ _ _ M x H1 A2) as L. destruct (HX x H1 Nm A1) as [Z0 _].
    eapply at_ext; [|exact Y]. intros k Hk. apply Hf. lia.
  - intros x y H1 H2 H3 H4 H5. destruct (Nat.eq_dec x m) as [->|Nx]; [|destruct (Nat.eq_dec y m) as [->|Ny]].
    + assert (Ny : y <> m) by auto. destruct (Hm ltac:(auto)) as (A0 & A & A' & B0). destruct (X y H2 Ny ltac:(auto)) as (C1 & C2 & C3 & C4 & C5 & C6). destruct (HX y H2 Ny C1). lia.
    + destruct (Hm ltac:(auto)) as (A0 & A & A' & B0). destruct (X x H1 Nx ltac:(auto)) as (C1 & C2 & C3 & C4 & C5 & C6). destruct (HX x H1 Nx C1). lia.
    + destruct (X x H1 Nx ltac:(auto)) as (A1 & A2 & A3 & A4 & A5 & A6). destruct (X y H2 Ny ltac:(auto)) as (C1 & C2 & C3 & C4 & C5 & C6).
      pose proof (m_disj _ _ _ _ _ _ M x y H1 H2 ltac:(auto) ltac:(auto) ltac:(auto)) as D. rewrite A4, C4 in D. lia.
  - intros p Hp. apply Hc. lia.
Qed.

Lemma flat_length (L : nat -> list nat) l : Z.of_nat (length (flat_map L l)) = zs (fun e => Z.of_nat (length (L e))) l.
Proof. induction l as [|x l IH]; cbn [flat_map zs]; [reflexivity|]. rewrite app_length. lia. Qed.

(* the new element needs no more room than what it replaces *)
Lemma sum_ok n g me acc P pe0 len0 f0 pe' len' : qgraph n g -> gK g me = Var -> NoDup acc ->
  (forall i, In i acc <-> i <> me /\ gK g i = Var /\ (In i (gA g me) \/ exists e, In e (gE g me) /\ In i (gL g e))) ->
  mem n P pe0 len0 f0 (bd g) -> (forall x, (x < n)%nat -> (0 <= pe0 x <-> gK g x <> Dead)) ->
  (forall x, (x < n)%nat -> x <> me -> 0 <= pe' x -> 0 <= pe0 x /\ len' x <= len0 x /\ ~ In x (gE g me)) -> (0 <= pe' me -> len' me <= Z.of_nat (length acc)) ->
  zs (stored_len pe' len') (seq 0 n) <= zs (stored_len pe0 len0) (seq 0 n).
Proof.
  intros Q Kme ND HL M0 Live0 HX Hm. assert (Mn : (me < n)%nat) by (apply (qg_lt _ _ Q); congruence).
  set (S0 := me :: gE g me). assert (NM : ~ In me (gE g me)) by (intros X; destruct (qg_E _ _ Q me me Kme X); congruence).
  assert (LE : forall e, In e (gE g me) -> (e < n)%nat /\ gK g e = Elem) by (intros e He; destruct (qg_E _ _ Q me e Kme He); split; [apply (qg_lt _ _ Q); congruence|auto]).
  assert (NS : NoDup S0) by (constructor; [exact NM|apply (qg_ndE _ _ Q); auto]).
  assert (LS0 : forall x, In x S0 -> (x < n)%nat) by (intros x [<-|Hx]; [auto|apply LE; auto]).
  assert (L0 : forall x, (x < n)%nat -> 0 <= pe0 x -> 0 <= len0 x) by (intros x H1 H2; rewrite (m_len _ _ _ _ _ _ M0 x H1 H2); lia).
  set (R := fun x => if inb x S0 then 0 else stored_len pe0 len0 x).
  set (G := fun x => if Nat.eqb x me then Z.of_nat (length acc) else 0).
  assert (X1 : zs (stored_len pe' len') (seq 0 n) <= zs (fun x => R x + (if inb x S0 then G x else 0)) (seq 0 n)).
  { apply zs_le. intros x Hx. apply in_seq in Hx. unfold R, G, stored_len. destruct (inb x S0) eqn:I.
    - destruct (Nat.eqb_spec x me) as [->|Nx]; destruct (Z.leb_spec 0 (pe' x)) as [Y|Y] || (destruct (Z.leb_spec 0 (pe' me)) as [Y|Y]); try lia.
      apply inb_in in I. destruct I as [|I]; [congruence|]. destruct (HX x ltac:(lia) Nx Y) as (_ & _ & Z1). tauto.
    - assert (Nx : x <> me) by (intros ->; apply inb_not in I; apply I; left; auto).
      destruct (Z.leb_spec 0 (pe' x)) as [Y|Y].
      + destruct (HX x ltac:(lia) Nx Y) as (A1 & A2 & _). destruct (Z.leb_spec 0 (pe0 x)); lia.
      + destruct (Z.leb_spec 0 (pe0 x)) as [Z0|Z0]; [pose proof (L0 x ltac:(lia) Z0); lia|lia]. }
  assert (X2 : zs (stored_len pe0 len0) (seq 0 n) = zs (fun x => R x + (if inb x S0 then stored_len pe0 len0 x else 0)) (seq 0 n)).
  { apply zs_ext. intros x Hx. unfold R. destruct (inb x S0); lia. }
  rewrite X2. rewrite zs_add in X1. rewrite zs_add. rewrite (zs_inb n G S0 NS LS0) in X1. rewrite (zs_inb n (stored_len pe0 len0) S0 NS LS0).
  assert (Y1 : zs G S0 = Z.of_nat (length acc)).
  { unfold S0. cbn [zs]. unfold G at 1. rewrite Nat.eqb_refl. rewrite (zs_ext G (fun _ => 0)); [rewrite zs_0; [lia|auto]|].
    intros x Hx. unfold G. destruct (Nat.eqb_spec x me) as [->|]; [contradiction|reflexivity]. }
  assert (Y2 : zs (stored_len pe0 len0) S0 = Z.of_nat (length (gE g me) + length (gA g me)) + zs (fun e => Z.of_nat (length (gL g e))) (gE g me)).
  { unfold S0. cbn [zs]. f_equal.
    - unfold stored_len. assert (A : 0 <= pe0 me) by (apply Live0; [auto|congruence]). destruct (Z.leb_spec 0 (pe0 me)); [|lia]. rewrite (m_len _ _ _ _ _ _ M0 me Mn A). unfold bd. rewrite Kme, app_length. reflexivity.
    - apply zs_ext. intros e He. destruct (LE e He) as [L1 L2]. unfold stored_len. assert (A : 0 <= pe0 e) by (apply Live0; [auto|congruence]). destruct (Z.leb_spec 0 (pe0 e)); [|lia].
      rewrite (m_len _ _ _ _ _ _ M0 e L1 A). unfold bd. rewrite L2. reflexivity. }
  assert (Y3 : (length acc <= length (gA g me ++ flat_map (gL g) (gE g me)))%nat).
  { apply NoDup_incl_length; [exact ND|]. intros i Hi. apply HL in Hi. apply in_app_iff. destruct Hi as (_ & _ & [H|H]); [auto|]. right. apply in_flat_map. exact H. }
  rewrite app_length in Y3. pose proof (flat_length (gL g) (gE g me)). lia.
Qed.

Lemma total_ge n g x : qgraph n g -> gK g x = Var -> gv g x <= total n g.
Proof.
  intros Q K. unfold total. pose proof (zs_in (fun x => match gK g x with Var => gv g x | _ => 0 end) (seq 0 n) x) as X. cbv beta in X. rewrite K in X. apply X.
  - intros y _. destruct (gK g y); [apply (qg_nonneg _ _ Q)|lia|lia].
  - apply in_seq. assert (x < n)%nat by (apply (qg_lt _ _ Q); congruence). lia.
Qed.
Lemma total_pos n g : 0 < total n g -> exists x, (x < n)%nat /\ gK g x = Var.
Proof.
  unfold total. intros H. assert (X : forall l, 0 < zs (fun x => match gK g x with Var => gv g x | _ => 0 end) l -> exists x, In x l /\ gK g x = Var).
  { induction l as [|y l IH]; cbn [zs]; [lia|]. intros H1. destruct (gK g y) eqn:K; [exists y; split; [left; auto|auto]| |]; destruct IH as (z & Z1 & Z2); try lia; exists z; split; auto; right; auto. }
  destruct (X _ H) as (x & X1 & X2). apply in_seq in X1. exists x. split; [lia|auto].
Qed.

Record TI (n : nat) (N P0 : Z) (q : quotient) (g : graph) (par : nat -> option nat) (pe len : nat -> Z) (f : Z -> Z) (el dg w : nat -> Z) (dl : nat -> list nat) : Prop := {
  ti_q : qgraph n g;
  ti_al : alive g n;
  ti_F : FI n (gK g) (gv g) par;
  ti_pe : fa (q_pe q) n pe;
  ti_len : fa (q_len q) n len;
  ti_iw : fz (q_iw q) N (q_pfree q) f;
  ti_nv : fa (q_nv q) n (gv g);
  ti_elen : fa (q_elen q) n el;
  ti_deg : fa (q_deg q) n dg;
  ti_w : fa (q_w q) n w;
  ti_mem : mem n (q_pfree q) pe len f (bd g);
  ti_live : forall x, (x < n)%nat -> (0 <= pe x <-> gK g x <> Dead);
  ti_dead : forall x, (x < n)%nat -> gK g x = Dead -> pe x = FLIP (enc (par x));
  ti_pf : 0 <= q_pfree q <= N;
  ti_sum : zs (stored_len pe len) (seq 0 n) <= P0;
  ti_el : forall x, gK g x = Var -> el x = Z.of_nat (length (gE g x));
  ti_el' : forall x, (x < n)%nat -> gK g x <> Var -> 0 < gv g x -> el x <= -1;
  ti_dg : forall e, gK g e = Elem -> gdg g e = dg e;
  ti_dv : forall x, gK g x = Var -> 0 <= dg x < Z.of_nat n;
  ti_dle : 0 <= q_lemax q /\ forall e, gK g e = Elem -> dg e <= q_lemax q;
  ti_wc : WC n g w (q_wflg q);
  ti_ls : LS n (q_lists q) dl (fun _ => []);
  ti_dl : forall x d, In x (dl d) <-> gK g x = Var /\ dg x = Z.of_nat d;
  ti_md : 0 <= q_mindeg q /\ forall d, Z.of_nat d < q_mindeg q -> dl d = [];
  ti_tot : total n g = Z.of_nat n - q_nel q;
  ti_nel : 0 <= q_nel q }.

Section Final.
Context (n : nat) (N P0 pfree pme1 : Z) (g : graph) (me : nat) (acc : list nat) (par0 : nat -> option nat).
Context (pe0 len0 pe1 len1 : nat -> Z) (f0 f2 : Z -> Z) (dg w : nat -> Z) (wflg : Z) (aggr : bool) (pf0 : Z).
Context (Q : qgraph n g) (Kme : gK g me = Var) (ND : NoDup acc).
Context (HL : forall i, In i acc <-> i <> me /\ gK g i = Var /\ (In i (gA g me) \/ exists e, In e (gE g me) /\ In i (gL g e))).
Context (M0 : mem n pf0 pe0 len0 f0 (bd g)) (Live0 : forall x, (x < n)%nat -> (0 <= pe0 x <-> gK g x <> Dead)).
Context (Sum0 : zs (stored_len pe0 len0) (seq 0 n) <= P0).
Context (M1 : exists f1, mem n pfree (fu pe1 me (-1)) len1 f1 (bd g)).
Context (Hp1 : 0 <= pme1) (Hp2 : pme1 + Z.of_nat (length acc) <= pfree) (Hp3 : pfree <= N).
Context (Dj1 : forall x, (x < n)%nat -> x <> me -> 0 <= pe1 x -> pe1 x + len1 x <= pme1 \/ pme1 + Z.of_nat (length acc) <= pe1 x).
Context (PE : forall e, In e (gE g me) -> pe1 e = FLIP (Z.of_nat me)).
Context (PL : forall x, (x < n)%nat -> x <> me -> ~ In x (gE g me) -> (pe0 x < 0 -> pe1 x = pe0 x) /\ (0 <= pe0 x -> 0 <= pe1 x /\ len1 x = len0 x)).
Context (New : gE g me <> [] -> pfree = pme1 + Z.of_nat (length acc)).
Context (W0 : forall e, In e (gE g me) -> w e = 0).
Local Notation pe2 := (pe2 g me acc pe1 dg w wflg aggr acc).
Local Notation len2 := (len2 g me acc len1 dg w wflg aggr acc).

Lemma fin_pe x : (x < n)%nat -> x <> me -> 0 <= pe2 x ->
  pe2 x = pe1 x /\ 0 <= pe0 x /\ ~ In x (gE g me) /\ len1 x = len0 x /\ len2 x <= len1 x.
Proof.
  intros Hx Nx Hp. assert (E : pe2 x = pe1 x) by (unfold QgS.pe2 in *; destruct (absb _ _ _ _ _ _ _ _); [unfold FLIP in Hp; lia|]; destruct (inb x acc && _); [unfold FLIP in Hp; lia|reflexivity]).
  assert (NE : ~ In x (gE g me)) by (intros X; rewrite E, (PE x X) in Hp; unfold FLIP in Hp; lia).
  destruct (PL x Hx Nx NE) as [A1 A2]. assert (P : 0 <= pe0 x) by (destruct (Z_lt_le_dec (pe0 x) 0) as [Y|Y]; [rewrite E, A1 in Hp; lia|exact Y]).
  destruct (A2 P) as [A3 A4]. csplit; auto. unfold QgS.len2. destruct (inb x acc && negb _) eqn:I; [|lia]. apply andb_true_iff in I. destruct I as [I _]. apply inb_in in I.
  destruct M1 as (f1 & M1'). assert (P' : 0 <= fu pe1 me (-1) x) by (rewrite fu_ne by auto; exact A3). rewrite (m_len _ _ _ _ _ _ M1' x Hx P').
  apply HL in I as I'. destruct I' as (_ & Kx & _). unfold bd. rewrite Kx, !app_length. unfold newE, newA. cbn [length]. rewrite !rot_length.
  pose proof (dropped n g me acc dg w wflg Q Kme HL W0 aggr x I). lia.
Qed.

(* g2: the graph after supervariable detection *)
Context (g1 g2 : graph) (par2 : nat -> option nat) (pe3 el3 : nat -> Z) (GG : GS n pfree pme1 me acc len2 f2 g1 pe2 g2 par2 pe3 el3).
Local Notation kp := (kept g2 acc).
Definition g3 : graph := Graph (fun x => if Nat.eqb x me then match kp with [] => Dead | _ => Elem end else gK g2 x) (gE g2) (gA g2)
  (fun x => if Nat.eqb x me then kp else gL g2 x) (gv g2) (gdg g2).
Definition par3 (x : nat) : option nat := if Nat.eqb x me then None else par2 x.

Lemma g3_ok : qgraph n g3 /\ alive g3 n.
Proof.
  pose proof (gs_q _ _ _ _ _ _ _ _ _ _ _ _ _ GG) as Q2. pose proof (gs_me _ _ _ _ _ _ _ _ _ _ _ _ _ GG) as Km. pose proof (gs_al _ _ _ _ _ _ _ _ _ _ _ _ _ GG) as AL.
  assert (EL : gL g2 me = acc) by (destruct (gs_same _ _ _ _ _ _ _ _ _ _ _ _ _ GG me) as (_ & _ & -> & _); apply GG).
  apply (shrink_ok n g2 g3 me Q2 Km AL); cbn [g3 gK gE gA gL gv gdg]; auto.
  - intros x Hx. apply Nat.eqb_neq in Hx. rewrite Hx. reflexivity.
  - intros x. rewrite Nat.eqb_refl, EL. unfold kept, livev. rewrite filter_In, negb_true_iff, Z.eqb_neq. reflexivity.
  - rewrite Nat.eqb_refl. apply NoDup_filter, ND.
  - intros x Hx. apply Nat.eqb_neq in Hx. rewrite Hx. reflexivity.
  - rewrite Nat.eqb_refl. reflexivity.
  - apply (qg_pos _ _ Q2). congruence.
Qed.

Lemma g3_FI : FI n (gK g3) (gv g3) par3.
Proof.
  pose proof (gs_q _ _ _ _ _ _ _ _ _ _ _ _ _ GG) as Q2. pose proof (gs_me _ _ _ _ _ _ _ _ _ _ _ _ _ GG) as Km. pose proof (gs_F _ _ _ _ _ _ _ _ _ _ _ _ _ GG) as F2.
  destruct kp as [|y t] eqn:E.
  - eapply (FI_elems n (gK g2) (gv g2) par2 _ _ (fun x => Nat.eqb x me) None F2).
    + intros x Kx. apply (qg_pos _ _ Q2). congruence.
    + intros x Hx. apply Nat.eqb_eq in Hx. subst x. exact Km.
    + intros m Hm. discriminate.
    + intros x. cbn [g3 gK]. rewrite E. reflexivity.
    + intros x. reflexivity.
  - eapply FI_ext; [exact F2| | |]; cbn [g3 gK gv]; auto.
    + intros x. rewrite E. destruct (Nat.eqb_spec x me) as [->|]; congruence.
    + intros x Hx Kx. unfold par3. destruct (Nat.eqb_spec x me) as [->|]; [congruence|reflexivity].
Qed.

Lemma g3_total : total n g3 = total n g2.
Proof.
  pose proof (gs_me _ _ _ _ _ _ _ _ _ _ _ _ _ GG) as Km. apply zs_ext. intros x Hx. cbn [g3 gK gv]. destruct (Nat.eqb_spec x me) as [->|]; [|reflexivity]. rewrite Km. destruct kp; reflexivity.
Qed.

Context (f3 : Z -> Z) (pe4 : nat -> Z) (Hf : forall p, p < pme1 \/ pme1 + Z.of_nat (length acc) <= p -> f3 p = f2 p) (Hc : forall p, 0 <= p < pfree -> 0 <= f3 p < Z.of_nat n).
Context (Hat : at_ f3 pme1 kp).
Context (Pe4 : forall x, x <> me -> pe4 x = pe3 x) (Pm4 : pe4 me = match kp with [] => EMPTY | _ => pme1 end).
Local Notation pf' := (if negb (Z.of_nat (length (gE g me)) =? 0) then pme1 + Z.of_nat (length kp) else pfree).

Lemma kp_len : (length kp <= length acc)%nat. Proof. apply flen. Qed.

Lemma g3_mem : mem n pf' pe4 (fu len2 me (Z.of_nat (length kp))) f3 (bd g3).
Proof.
  pose proof (gs_mem _ _ _ _ _ _ _ _ _ _ _ _ _ GG) as M3. pose proof kp_len as KL.
  eapply (mem_finish n pfree _ pe3 len2 f2 f3 (bd g2) _ _ _ me pme1 kp (Z.of_nat (length acc)) M3 Hp1); auto.
  - intros x Hx Nx Hp. pose proof (gs_pe _ _ _ _ _ _ _ _ _ _ _ _ _ GG x Hx Hp) as E. rewrite E in Hp.
    destruct (fin_pe x Hx Nx Hp) as (A1 & A2 & A3 & A4 & A5). assert (P1 : 0 <= pe1 x) by (rewrite <- A1; exact Hp). pose proof (Dj1 x Hx Nx P1) as D.
    split; [rewrite E, A1; lia|]. assert (P3 : 0 <= fu pe3 me (-1) x) by (rewrite fu_ne, E by auto; exact Hp).
    pose proof (m_end _ _ _ _ _ _ M3 x Hx P3) as ME. pose proof (m_pos _ _ _ _ _ _ M3 x Hx P3) as MP. rewrite fu_ne in ME by auto.
    destruct (Z.eqb_spec (Z.of_nat (length (gE g me))) 0) as [Z0|Z0]; cbn [negb]; [exact ME|]. assert (NE : gE g me <> []) by (intros X; rewrite X in Z0; cbn in Z0; lia). pose proof (New NE). lia.
  - lia.
  - destruct (negb _); lia.
  - destruct (negb _); lia.
  - intros x Hx Nx. rewrite Pe4, fu_ne by auto. csplit; auto. intros _. unfold bd. cbn [g3 gK gE gA gL]. apply Nat.eqb_neq in Nx. rewrite Nx. reflexivity.
  - intros Hp. rewrite Pm4 in *. rewrite fu_eq. unfold bd. cbn [g3 gK gL]. rewrite Nat.eqb_refl. destruct kp as [|y t]; [unfold EMPTY in Hp; lia|]. csplit; auto. discriminate.
Qed.

Lemma g3_live x : (x < n)%nat -> (0 <= pe4 x <-> gK g3 x <> Dead).
Proof.
  intros Hx. destruct (Nat.eq_dec x me) as [->|Nx].
  - rewrite Pm4. cbn [g3 gK]. rewrite Nat.eqb_refl. destruct kp; unfold EMPTY; split; congruence || lia.
  - rewrite Pe4 by auto. cbn [g3 gK]. pose proof Nx as Nx'. apply Nat.eqb_neq in Nx'. rewrite Nx'. apply (gs_live _ _ _ _ _ _ _ _ _ _ _ _ _ GG); auto.
Qed.
Lemma g3_dead x : (x < n)%nat -> gK g3 x = Dead -> pe4 x = FLIP (enc (par3 x)).
Proof.
  intros Hx K. cbn [g3 gK] in K. unfold par3. destruct (Nat.eqb_spec x me) as [->|Nx].
  - rewrite Pm4. destruct kp; [reflexivity|discriminate].
  - rewrite Pe4 by auto. apply (gs_dead _ _ _ _ _ _ _ _ _ _ _ _ _ GG); auto.
Qed.
Lemma g3_sum : zs (stored_len pe4 (fu len2 me (Z.of_nat (length kp)))) (seq 0 n) <= P0.
Proof.
  etransitivity; [|exact Sum0]. eapply (sum_ok n g me acc pf0 pe0 len0 f0 _ _ Q Kme ND HL M0 Live0).
  - intros x Hx Nx Hp. rewrite fu_ne by auto. rewrite Pe4 in Hp by auto. rewrite (gs_pe _ _ _ _ _ _ _ _ _ _ _ _ _ GG x Hx Hp) in Hp.
    destruct (fin_pe x Hx Nx Hp) as (A1 & A2 & A3 & A4 & A5). csplit; auto. lia.
  - intros _. rewrite fu_eq. pose proof kp_len. lia.
Qed.
End Final.
