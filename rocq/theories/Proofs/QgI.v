(* amd_2.c: the initial quotient graph, the loop over the pivots, and what it leaves *)
From Coq Require Import List Arith ZArith Bool Lia Permutation.
From Verif Require Import Base.
From Verif.Model Require Import Amd Amd2.
From Verif.Spec Require Import Ordering.
From Verif.Proofs Require Import AmdB AmdL AmdT QgA QgM QgL QgC QgS QgF QgD QgT QgU QgB QgN.
Import ListNotations.
Open Scope Z_scope.

Section InitP.
Context (n : nat) (cp ci : nat -> Z) (R : list (nat * nat)).
Notation adj := (adj n cp ci).
Notation good := (good n cp ci).
Notation off := (off R).
Context (dense wbig N : Z) (f : Z -> Z) (L : list (nat * nat)).
Context (GL : good L) (EC : forall x, cnt L x = cnt R x) (HN : off n <= N).
Context (Hat : forall x, (x < n)%nat -> at_ f (off x) (nbrs L x)) (Hcells : forall p, 0 <= p < off n -> 0 <= f p < Z.of_nat n).

Definition ln (x : nat) : Z := cnt R x.
Definition K0 (x : nat) : kind := if (x <? n)%nat then if (ln x =? 0) || (dense <? ln x) then Dead else Var else Dead.
Definition v0 (x : nat) : Z := if (x <? n)%nat then if ln x =? 0 then 1 else if dense <? ln x then 0 else 1 else 0.
Definition g0 : graph := Graph K0 (fun _ => []) (nbrs L) (fun _ => []) v0 (fun _ => 0).
Definition pe0 (x : nat) : Z := if (ln x =? 0) || (dense <? ln x) then EMPTY else off x.
Definition el0 (x : nat) : Z := if ln x =? 0 then FLIP 1 else if dense <? ln x then EMPTY else 0.
Definition dd (x : nat) : Z := if (ln x =? 0) || (dense <? ln x) then 1 else 0.

Lemma K0_var x : K0 x = Var <-> (x < n)%nat /\ ln x <> 0 /\ ln x <= dense.
Proof.
  unfold K0. destruct (Nat.ltb_spec x n); [|split; [discriminate|lia]]. destruct (Z.eqb_spec (ln x) 0); cbn [orb]; [split; [discriminate|lia]|].
  destruct (Z.ltb_spec dense (ln x)); split; try discriminate; try lia; auto.
Qed.
Lemma K0_elem x : K0 x <> Elem.
Proof. unfold K0. destruct (x <? n)%nat; [destruct (_ || _)|]; discriminate. Qed.
Lemma ln_bound x : (x < n)%nat -> 0 <= ln x < Z.of_nat n.
Proof. intros Hx. unfold ln. rewrite <- EC. unfold cnt. pose proof (good_bound n cp ci L x GL Hx). lia. Qed.
Lemma ln_nbrs x : ln x = Z.of_nat (length (nbrs L x)).
Proof. unfold ln. rewrite <- EC. reflexivity. Qed.

Lemma g0_q : qgraph n g0.
Proof.
  constructor; cbn [gK gE gA gL gv gdg g0].
  - intros x H. destruct (K0 x) eqn:E; [apply K0_var in E; lia|destruct (K0_elem x E)|congruence].
  - intros x H. destruct (K0 x) eqn:E; [|destruct (K0_elem x E)|congruence]. apply K0_var in E. unfold v0. destruct (Nat.ltb_spec x n); [|lia].
    destruct (Z.eqb_spec (ln x) 0); [lia|]. destruct (Z.ltb_spec dense (ln x)); lia.
  - intros x. unfold v0. destruct (x <? n)%nat; [|lia]. destruct (_ =? _); [lia|]. destruct (_ <? _); lia.
  - intros i j Ki Hj. pose proof (good_adj n cp ci L i j GL Hj) as A. pose proof A as (_ & Hjn & _). split; [exact Hjn|].
    assert (Hi : In i (nbrs L j)). { apply (gd_in _ _ _ _ GL). apply (gd_in _ _ _ _ GL) in Hj. tauto. }
    assert (Lj : ln j <> 0). { rewrite ln_nbrs. destruct (nbrs L j); [destruct Hi|cbn [length]; lia]. }
    destruct (Z_lt_le_dec dense (ln j)) as [D|D].
    + left. split; [destruct (K0 j) eqn:E; [apply K0_var in E; lia|destruct (K0_elem j E)|reflexivity]|]. unfold v0. destruct (Nat.ltb_spec j n); [|reflexivity].
      destruct (Z.eqb_spec (ln j) 0); [lia|]. destruct (Z.ltb_spec dense (ln j)); [reflexivity|lia].
    + right. split; [apply K0_var; auto|exact Hi].
  - intros e i H. destruct (K0_elem e H).
  - intros i e _ [].
  - intros; constructor.
  - intros i _. apply (gd_nd _ _ _ _ GL).
  - intros; constructor.
  - intros e H. destruct (K0_elem e H).
Qed.
Lemma g0_F : FI n K0 v0 (fun _ => None).
Proof.
  exists (fun x => if v0 x =? 0 then [] else [x]), (fun _ => 0%nat), 0%nat.
  assert (V : forall x, v0 x = 0 \/ v0 x = 1 /\ (x < n)%nat).
  { intros x. unfold v0. destruct (Nat.ltb_spec x n); [|auto]. destruct (_ =? _); [auto|]. destruct (_ <? _); auto. }
  assert (I0 : forall x i, In i (if v0 x =? 0 then [] else [x]) -> i = x /\ (x < n)%nat).
  { intros x i H. destruct (V x) as [E|[E E']]; rewrite E in H; cbn in H; [destruct H|]. destruct H as [H|[]]. auto. }
  constructor.
  - intros x. destruct (V x) as [E|[E _]]; rewrite E; reflexivity.
  - intros x. destruct (_ =? _); repeat constructor; cbn; tauto.
  - intros x i H. apply I0 in H. destruct H as [-> H]. auto.
  - intros x H. destruct (Z.eqb_spec (v0 x) 0); [lia|left; auto].
  - intros x y i H1 H2. apply I0 in H1, H2. destruct H1, H2. congruence.
  - intros x i H1 H2. apply I0 in H1. destruct H1. contradiction.
  - intros i j _ _ _ H. discriminate.
  - intros i j _ _ _ H. discriminate.
  - intros i j _ _ H. discriminate.
Qed.
Lemma pe0_live x : (x < n)%nat -> (0 <= pe0 x <-> K0 x <> Dead).
Proof.
  intros Hx. unfold pe0, K0. destruct (Nat.ltb_spec x n); [|lia]. destruct (_ || _); unfold EMPTY; split; intros; try lia; try congruence; try discriminate.
  apply (off_mono R x x). lia.
Qed.
Lemma pe0_off x : (x < n)%nat -> 0 <= pe0 x -> pe0 x = off x /\ K0 x = Var.
Proof.
  intros Hx H. pose proof H as H'. apply pe0_live in H'; auto. assert (Kx : K0 x = Var) by (destruct (K0 x) eqn:E; [auto|destruct (K0_elem x E)|congruence]).
  split; [|exact Kx]. unfold pe0 in *. destruct (_ || _); [unfold EMPTY in H; lia|reflexivity].
Qed.
Lemma g0_mem : mem n (off n) pe0 ln f (bd g0).
Proof.
  assert (B : forall x, K0 x = Var -> bd g0 x = nbrs L x) by (intros x Kx; unfold bd; cbn [gK g0]; rewrite Kx; reflexivity).
  constructor.
  - intros x Hx H. destruct (pe0_off x Hx H) as [_ Kx]. rewrite B by auto. apply K0_var in Kx. rewrite ln_nbrs in Kx. intros E. rewrite E in Kx. cbn [length] in Kx. lia.
  - intros x Hx H. destruct (pe0_off x Hx H) as [_ Kx]. rewrite B by auto. apply ln_nbrs.
  - intros x Hx H. destruct (pe0_off x Hx H) as [-> _]. unfold ln. rewrite <- off_S. apply off_mono. lia.
  - intros x Hx H. destruct (pe0_off x Hx H) as [-> Kx]. rewrite B by auto. auto.
  - intros x y Hx Hy Nxy H1 H2. destruct (pe0_off x Hx H1) as [-> _]. destruct (pe0_off y Hy H2) as [-> _]. apply off_disj. auto.
  - exact Hcells.
Qed.
Lemma g0_sum : zs (stored_len pe0 ln) (seq 0 n) <= off n.
Proof. apply zs_le. intros x _. unfold stored_len. destruct (_ <=? _); unfold ln; [lia|apply cnt_nonneg]. Qed.
Lemma g0_total : total n g0 = Z.of_nat n - zs dd (seq 0 n).
Proof.
  unfold total. cbn [gK gv g0]. assert (X : forall k, (k <= n)%nat -> zs (fun x => match K0 x with Var => v0 x | _ => 0 end) (seq 0 k) = Z.of_nat k - zs dd (seq 0 k)).
  { induction k as [|k IH]; intros Hk; [reflexivity|]. rewrite seq_S, !zs_app, IH by lia. cbn [zs Nat.add]. unfold K0, v0, dd. destruct (Nat.ltb_spec k n); [|lia].
    destruct (ln k =? 0); cbn [orb]; [lia|]. destruct (dense <? ln k); lia. }
  apply X. lia.
Qed.

Lemma init_ok Pe Iw Len Nv Next Last Head Elen Degree W : fa Pe n off -> fz Iw N (off n) f -> fa Len n ln ->
  length Nv = n -> length Next = n -> length Last = n -> length Head = n -> length Elen = n -> length Degree = n -> length W = n ->
  wp (amd2_init dense wbig n Pe Iw Len (off n) Nv Next Last Head Elen Degree W) (TInv n N (off n)).
Proof.
  intros F1 F2 F3 L1 L2 L3 L4 L5 L6 L7. unfold amd2_init.
  wb. eapply wp_conseq; [apply (wfa_fill Last n (fun _ => EMPTY)); auto|]. intros Last1 G1.
  wb. eapply wp_conseq; [apply (wfa_fill Head n (fun _ => EMPTY)); auto|]. intros Head1 G2.
  wb. eapply wp_conseq; [apply (wfa_fill Next n (fun _ => EMPTY)); auto|]. intros Next1 G3.
  wb. eapply wp_conseq; [apply (wfa_fill Nv n (fun _ => 1)); auto|]. intros Nv1 G4.
  wb. eapply wp_conseq; [apply (wfa_fill W n (fun _ => 1)); auto|]. intros W1 G5.
  wb. eapply wp_conseq; [apply (wfa_fill Elen n (fun _ => 0)); auto|]. intros Elen1 G6.
  wb. eapply (wp_for (fun k a => tl n a k ln)); [lia|split; [exact L6|intros i Hi; lia]| |].
  { intros k a Hk T. wb. eapply wfa_get; [exact F3|lia|]. eapply wtl_set; [exact T|lia|lia|]. intros a' [T1 T2]. rewrite Nat.max_r in T2 by lia. split; [exact T1|].
    intros c Hc. rewrite T2 by auto. unfold fu. destruct (Nat.eqb_spec c k) as [->|]; reflexivity. }
  intros Deg1 G7. assert (G7' : fa Deg1 n ln) by exact G7.
  wb. eapply wp_conseq; [apply (clear_flag_ok n W1 (fun _ => 1) 0 wbig G5); intros; lia|]. intros [wf W2] (w & G8 & H2 & Hw).
  wb. eapply (wp_for (fun k '(Pe, Nv, Elen, W, l, nel) => exists dl,
     fa Pe n (fun x => if (x <? k)%nat then pe0 x else off x) /\ fa Nv n (fun x => if (x <? k)%nat then v0 x else 1) /\
     fa Elen n (fun x => if (x <? k)%nat then el0 x else 0) /\ fa W n (fun x => if (x <? k)%nat && (ln x =? 0) then 0 else w x) /\
     LS n l dl (fun _ => []) /\ (forall x d, In x (dl d) <-> (x < k)%nat /\ K0 x = Var /\ ln x = Z.of_nat d) /\ nel = zs dd (seq 0 k))); [lia| | |].
  - exists (fun _ => []). csplit; auto.
    + exists (fun _ => EMPTY), (fun _ => EMPTY), (fun _ => EMPTY). split; [cbn; auto|]. constructor; try (intros x d []; fail); try (intros x d d' []; fail); try (intros d; constructor; fail); try (intros d; reflexivity).
    + intros x d. cbn. split; [tauto|lia].
  - intros k [[[[[Pe1 Nv2] Elen2] W3] l] nel] Hk (dl & I1 & I2 & I3 & I4 & I5 & I6 & ->). unfold init_row. wb. eapply wfa_get; [exact G7'|lia|].
    assert (Hkn : (k < n)%nat) by lia. pose proof (ln_bound k Hkn) as Bk. rewrite Z.gtb_ltb.
    assert (IH : forall x, (x <? S k)%nat = ((x <? k)%nat || Nat.eqb x k)).
    { intros x. destruct (Nat.ltb_spec x (S k)), (Nat.ltb_spec x k), (Nat.eqb_spec x k); auto; lia. }
    assert (SK : zs dd (seq 0 (S k)) = zs dd (seq 0 k) + dd k) by (rewrite seq_S, zs_app; cbn [zs Nat.add]; lia).
    assert (KK : (k <? n)%nat = true) by (apply Nat.ltb_lt; auto).
    assert (Kk : (k <? k)%nat = false) by apply Nat.ltb_irrefl.
    assert (Ext : forall a g g', fa a n g -> (forall x, (x < n)%nat -> x <> k -> g' x = g x) -> g' k = g k -> fa a n g').
    { intros a h h' H X1 X2. eapply fa_ext; [exact H|]. intros x Hx. symmetry. destruct (Nat.eq_dec x k) as [->|]; auto. }
    assert (Ne : forall x, x <> k -> (x <? S k)%nat = (x <? k)%nat).
    { intros x Hx. rewrite IH. apply Nat.eqb_neq in Hx. rewrite Hx. apply orb_false_r. }
    assert (Eq : (k <? S k)%nat = true) by (apply Nat.ltb_lt; lia).
    assert (DL : K0 k <> Var -> forall x d, In x (dl d) <-> (x < S k)%nat /\ K0 x = Var /\ ln x = Z.of_nat d).
    { intros Kx x d. rewrite I6. split; [intros (A & B); split; [lia|exact B]|]. intros (A & B & C). split; [|auto]. destruct (Nat.eq_dec x k) as [->|]; [congruence|lia]. }
    destruct (Z.eqb_spec (ln k) 0) as [E|E].
    + wb. eapply wfa_set; [exact I3|exact Hkn|]. intros Elen3 J3. wb. eapply wfa_set; [exact I1|exact Hkn|]. intros Pe2 J1. wb. eapply wfa_set; [exact I4|exact Hkn|]. intros W4 J4. cbn [wp].
      exists dl. csplit; auto.
      * eapply Ext; [exact J1| |]; [intros x Hx Nx; rewrite Ne, fu_ne by auto; reflexivity|]. rewrite fu_eq, Eq. unfold pe0. rewrite (proj2 (Z.eqb_eq _ _) E). reflexivity.
      * eapply Ext; [exact I2| |]; [intros x Hx Nx; rewrite Ne by auto; reflexivity|]. rewrite Eq, Kk. unfold v0. rewrite KK, (proj2 (Z.eqb_eq _ _) E). reflexivity.
      * eapply Ext; [exact J3| |]; [intros x Hx Nx; rewrite Ne, fu_ne by auto; reflexivity|]. rewrite fu_eq, Eq. unfold el0. rewrite (proj2 (Z.eqb_eq _ _) E). reflexivity.
      * eapply Ext; [exact J4| |]; [intros x Hx Nx; rewrite Ne, fu_ne by auto; reflexivity|]. rewrite fu_eq, Eq. rewrite (proj2 (Z.eqb_eq _ _) E). reflexivity.
      * apply DL. rewrite K0_var. lia.
      * rewrite SK. unfold dd. rewrite (proj2 (Z.eqb_eq _ _) E). reflexivity.
    + pose proof (proj2 (Z.eqb_neq _ _) E) as E'. destruct (dense <? ln k) eqn:D.
      * wb. eapply wfa_set; [exact I2|exact Hkn|]. intros Nv3 J2. wb. eapply wfa_set; [exact I3|exact Hkn|]. intros Elen3 J3. wb. eapply wfa_set; [exact I1|exact Hkn|]. intros Pe2 J1. cbn [wp].
        exists dl. csplit; auto.
        -- eapply Ext; [exact J1| |]; [intros x Hx Nx; rewrite Ne, fu_ne by auto; reflexivity|]. rewrite fu_eq, Eq. unfold pe0. rewrite E', D. reflexivity.
        -- eapply Ext; [exact J2| |]; [intros x Hx Nx; rewrite Ne, fu_ne by auto; reflexivity|]. rewrite fu_eq, Eq. unfold v0. rewrite KK, E', D. reflexivity.
        -- eapply Ext; [exact J3| |]; [intros x Hx Nx; rewrite Ne, fu_ne by auto; reflexivity|]. rewrite fu_eq, Eq. unfold el0. rewrite E', D. reflexivity.
        -- eapply Ext; [exact I4| |]; [intros x Hx Nx; rewrite Ne by auto; reflexivity|]. cbv beta. rewrite Eq, Kk, E'. reflexivity.
        -- apply DL. rewrite K0_var. apply Z.ltb_lt in D. lia.
        -- rewrite SK. unfold dd. rewrite E', D. reflexivity.
      * assert (Vk : K0 k = Var) by (apply K0_var; apply Z.ltb_ge in D; auto).
        wb. eapply wp_conseq.
        { replace (ln k) with (Z.of_nat (Z.to_nat (ln k))) by lia. apply (link_ok n k (Z.to_nat (ln k)) l dl (fun _ => [])); auto; [lia|]. intros c Hc. apply I6 in Hc. lia. }
        intros l' LS'. cbn [wp]. eexists. csplit; [| | | |exact LS'| |].
        -- eapply Ext; [exact I1| |]; [intros x Hx Nx; rewrite Ne by auto; reflexivity|]. rewrite Eq, Kk. unfold pe0. rewrite E', D. reflexivity.
        -- eapply Ext; [exact I2| |]; [intros x Hx Nx; rewrite Ne by auto; reflexivity|]. rewrite Eq, Kk. unfold v0. rewrite KK, E', D. reflexivity.
        -- eapply Ext; [exact I3| |]; [intros x Hx Nx; rewrite Ne by auto; reflexivity|]. rewrite Eq, Kk. unfold el0. rewrite E', D. reflexivity.
        -- eapply Ext; [exact I4| |]; [intros x Hx Nx; rewrite Ne by auto; reflexivity|]. cbv beta. rewrite Eq, Kk, E'. reflexivity.
        -- intros x d. unfold fu. destruct (Nat.eqb_spec d (Z.to_nat (ln k))) as [Ed|Ed].
           ++ subst d. cbn [In]. rewrite I6. split.
              ** intros [<-|(A & B & C)]; csplit; auto; lia.
              ** intros (A & B & C). destruct (Nat.eq_dec k x) as [->|]; [auto|]. right. csplit; auto. lia.
           ++ rewrite I6. split; intros (A & B & C); csplit; auto; destruct (Nat.eq_dec x k) as [->|]; lia.
        -- rewrite SK. unfold dd. rewrite E', D. cbn [orb]. lia.
  - intros [[[[[Pe1 Nv2] Elen2] W3] l] nel] (dl & I1 & I2 & I3 & I4 & I5 & I6 & ->). cbn [wp].
    assert (LT : forall x, (x < n)%nat -> (x <? n)%nat = true) by (intros x Hx; apply Nat.ltb_lt; auto).
    exists g0, (fun _ => None), pe0, ln, f, el0, ln, (fun x => if ln x =? 0 then 0 else w x), dl.
    constructor; cbn [q_pe q_iw q_len q_pfree q_nv q_elen q_deg q_w q_wflg q_lists q_mindeg q_nel q_lemax gK gv gE gA gL gdg g0].
    + apply g0_q.
    + intros e _ H. destruct (K0_elem e H).
    + apply g0_F.
    + eapply fa_ext; [exact I1|]. intros x Hx. cbv beta. rewrite LT by auto. reflexivity.
    + exact F3.
    + exact F2.
    + eapply fa_ext; [exact I2|]. intros x Hx. cbv beta. rewrite LT by auto. reflexivity.
    + eapply fa_ext; [exact I3|]. intros x Hx. cbv beta. rewrite LT by auto. reflexivity.
    + exact G7'.
    + eapply fa_ext; [exact I4|]. intros x Hx. cbv beta. rewrite LT by auto. reflexivity.
    + apply g0_mem.
    + apply pe0_live.
    + intros x Hx Kx. destruct (Z_lt_le_dec (pe0 x) 0) as [H|H]; [|apply pe0_live in H; [congruence|auto]]. unfold pe0 in *. destruct (_ || _); [reflexivity|]. pose proof (off_mono R x x ltac:(lia)). lia.
    + split; [apply (off_mono R n n); lia|exact HN].
    + apply g0_sum.
    + intros x Kx. apply K0_var in Kx. unfold el0. destruct (Z.eqb_spec (ln x) 0); [lia|]. destruct (Z.ltb_spec dense (ln x)); [lia|reflexivity].
    + intros x Hx Kx Vx. unfold v0 in Vx. rewrite LT in Vx by auto. unfold el0. destruct (Z.eqb_spec (ln x) 0); [cbn; lia|]. destruct (Z.ltb_spec dense (ln x)); [lia|]. exfalso. apply Kx. apply K0_var. auto.
    + intros e H. destruct (K0_elem e H).
    + intros x Kx. apply K0_var in Kx. apply ln_bound. lia.
    + split; [lia|]. intros e H. destruct (K0_elem e H).
    + intros x Hx. destruct (Hw x Hx) as [A B]. split.
      * destruct (_ =? _); lia.
      * cbn [gK g0]. intros Kx. destruct (Z.eqb_spec (ln x) 0) as [E|E]; [|lia]. destruct (K0 x) eqn:EK; [apply K0_var in EK; lia|destruct (K0_elem x EK)|congruence].
    + exact I5.
    + intros x d. rewrite I6. split; [tauto|]. intros [A B]. csplit; auto. apply K0_var in A. lia.
    + split; [lia|]. intros; lia.
    + apply g0_total.
    + apply zs_nonneg. intros x _. unfold dd. destruct (_ || _); lia.
Qed.
End InitP.

Lemma loop_ok aggr wbig n N P0 q : P0 + Z.of_nat n <= N -> TInv n N P0 q ->
  wp (while_ (n + 1) (fun q => Some (q_nel q <? Z.of_nat n)) (eliminate_step aggr wbig n N) q) (fun q => TInv n N P0 q /\ Z.of_nat n <= q_nel q).
Proof.
  intros HP T0. eapply (wp_while (TInv n N P0) (fun q => Z.to_nat (Z.of_nat n - q_nel q))).
  - intros s T. cbn [wp]. destruct (Z.ltb_spec (q_nel s) (Z.of_nat n)) as [H|H]; [|auto].
    eapply wp_conseq; [apply (step_ok aggr wbig n N P0 s); auto|]. intros s' [T' H']. split; [exact T'|].
    destruct T as (g & par & pe & len & f & el & dg & w & dl & T). pose proof (ti_nel _ _ _ _ _ _ _ _ _ _ _ _ _ T). lia.
  - exact T0.
  - destruct T0 as (g & par & pe & len & f & el & dg & w & dl & T). pose proof (ti_nel _ _ _ _ _ _ _ _ _ _ _ _ _ T). lia.
Qed.

Lemma final_ok n N P0 q : TInv n N P0 q -> Z.of_nat n <= q_nel q ->
  exists par v el, forest n par (fun x => Z.to_nat (v x)) /\ fa (q_pe q) n (fun x => FLIP (enc (par x))) /\ fa (q_nv q) n v /\ (forall x, 0 <= v x) /\
    fa (q_elen q) n el /\ forall x, (x < n)%nat -> 0 < v x -> el x <= -1.
Proof.
  intros (g & par & pe & len & f & el & dg & w & dl & T) H.
  assert (NV : forall x, gK g x <> Var).
  { intros x Kx. pose proof (total_ge n g x (ti_q _ _ _ _ _ _ _ _ _ _ _ _ _ T) Kx) as A. pose proof (qg_pos _ _ (ti_q _ _ _ _ _ _ _ _ _ _ _ _ _ T) x ltac:(congruence)) as B.
    rewrite (ti_tot _ _ _ _ _ _ _ _ _ _ _ _ _ T) in A. lia. }
  assert (Dd : forall x, (x < n)%nat -> gK g x = Dead).
  { intros x Hx. destruct (gK g x) eqn:E; [destruct (NV x E)| |reflexivity]. destruct (ti_al _ _ _ _ _ _ _ _ _ _ _ _ _ T x ltac:(lia) E) as (i & _ & K). destruct (NV i K). }
  exists par, (gv g), el. csplit.
  - apply (FI_final n (gK g)); [apply T|exact Dd].
  - eapply fa_ext; [apply T|]. intros x Hx. apply (ti_dead _ _ _ _ _ _ _ _ _ _ _ _ _ T); auto.
  - apply T.
  - apply (qg_nonneg _ _ (ti_q _ _ _ _ _ _ _ _ _ _ _ _ _ T)).
  - apply T.
  - intros x Hx. apply (ti_el' _ _ _ _ _ _ _ _ _ _ _ _ _ T); auto.
Qed.

Lemma elim_ok_all dense wbig aggr n Ap Ai cp ci : holds Ap (S n) cp -> holds Ai (Z.to_nat (cp n)) ci -> well_formed (Z.of_nat n) n cp ci -> ascending n cp ci ->
  wp (amd_elim dense wbig aggr n Ap Ai) (fun '(Pe, Nv, Elen) => exists par v el, forest n par (fun x => Z.to_nat (v x)) /\ fa Pe n (fun x => FLIP (enc (par x))) /\ fa Nv n v /\
    (forall x, 0 <= v x) /\ fa Elen n el /\ forall x, (x < n)%nat -> 0 < v x -> el x <= -1).
Proof.
  intros HP HI WF AS. unfold amd_elim. assert (LA : forall m, length (@alloc Z m) = m) by (intros m; apply repeat_length).
  wb. eapply wp_conseq; [apply (aat_ok n Ap Ai cp ci HP HI WF AS (alloc n) (alloc n)); auto|]. intros [Len nz] (R & GR & CR & F & ->).
  change (zs (cnt R) (seq 0 n)) with (off R n). set (N := off R n + off R n / 5 + Z.of_nat n). pose proof (off_mono R n n ltac:(lia)) as O0.
  assert (D5 : 0 <= off R n / 5) by (apply Z.div_pos; lia).
  wb. eapply wp_conseq; [apply (graph_ok n Ap Ai cp ci HP HI WF AS R GR CR N Len (alloc n) (alloc (Z.to_nat N)) (alloc n) (alloc n)); auto; try (unfold N; lia)|].
  { rewrite LA. unfold N. lia. }
  intros [[Pe Iw] pf] (L & f & GL & CL & EC & -> & F1 & F2 & F3 & F4). unfold amd2_select.
  wb. eapply wp_conseq; [apply (init_ok n cp ci R (dense n) (wbig n) N f L); auto; try (unfold N; lia)|]. intros q T.
  wb. eapply wp_conseq; [apply (loop_ok aggr (wbig n) n N (off R n) q); auto; unfold N; lia|]. intros q' [T' H']. cbn [wp].
  eapply final_ok; eauto.
Qed.
