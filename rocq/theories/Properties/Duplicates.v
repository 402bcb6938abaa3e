(* C42: which problems the ordering makes ECOS_setup refuse. *)
From Coq Require Import List Arith ZArith Bool Lia.
From Verif Require Import Base Num.
From Verif.Model Require Import Spla Splamm Types Consts Expcone Cone Ldl Kkt Equil Preproc Amd.
From Verif.Spec Require Import Matrix Fill KktSpec Shape SetupSpec Ordering.
From Verif.Proofs Require Import SplaP SplammP LdlSym KktAsm KktMat Layout Work SetupP.
From Verif.Properties Require Import Kkt Amd.
Import ListNotations.
Open Scope nat_scope.

(* ---- strictly ascending lists ---- *)
Fixpoint sasc (l : list nat) : Prop :=
  match l with
  | [] => True
  | a :: t => match t with [] => True | b :: _ => a < b end /\ sasc t
  end.
Lemma sasc_nth l : sasc l <-> forall k a b, nth_error l k = Some a -> nth_error l (S k) = Some b -> a < b.
Proof.
  induction l as [|x l IH]; cbn [sasc].
  - split; [intros _ [|k]; discriminate|auto].
  - split.
    + intros [H1 H2] [|k] a b E1 E2; cbn in E1.
      * injection E1 as <-. destruct l as [|y l]; [discriminate|]. cbn in E2. injection E2 as <-. exact H1.
      * cbn in E2. eapply IH; eassumption.
    + intros H. split.
      * destruct l as [|y l]; [auto|]. apply (H 0); reflexivity.
      * apply IH. intros k a b E1 E2. apply (H (S k)); assumption.
Qed.
Lemma sasc_app l r : (forall a b, In a l -> In b r -> a < b) -> (sasc (l ++ r) <-> sasc l /\ sasc r).
Proof.
  induction l as [|a l IH]; intros H; [cbn; tauto|]. cbn [app sasc]. rewrite IH by (intros; apply H; cbn; auto).
  destruct l as [|b l]; [|cbn [app]; tauto]. cbn [app]. destruct r as [|b r]; [tauto|].
  assert (a < b) by (apply H; cbn; auto). tauto.
Qed.
Lemma sasc_seq (f : nat -> nat) a k : (forall i, f i < f (S i)) -> sasc (map f (seq a k)).
Proof.
  intros H. revert a. induction k as [|k IH]; intros a; [exact I|]. cbn [seq map sasc]. split; [|apply IH].
  destruct k; cbn; auto.
Qed.
Lemma sasc_one x : sasc [x].
Proof. cbn. auto. Qed.

(* ---- the columns of the KKT matrix ---- *)
Section Cols.
Context {F : Type}.
Definition casc (x : col F) : Prop := sasc (map fst x).

Lemma casc_tail n (g tl : col F) : (forall e, In e g -> fst e < n) -> (forall e, In e tl -> n <= fst e) -> casc tl -> (casc (g ++ tl) <-> casc g).
Proof.
  intros Hg Ht T. unfold casc in *. rewrite map_app, sasc_app; [tauto|].
  intros a b Ha Hb. apply in_map_iff in Ha, Hb. destruct Ha as (x & <- & Hx), Hb as (y & <- & Hy).
  specialize (Hg x Hx). specialize (Ht y Hy). lia.
Qed.
Lemma forall_seq (P : nat -> Prop) (Q : col F -> Prop) (f : nat -> col F) a k : (forall j, a <= j < a + k -> (Q (f j) <-> P j)) ->
  (Forall Q (map f (seq a k)) <-> forall j, a <= j < a + k -> P j).
Proof.
  intros H. rewrite Forall_forall. split.
  - intros A j Hj. apply H; [exact Hj|]. apply A. apply in_map. apply in_seq. lia.
  - intros A x Hx. apply in_map_iff in Hx. destruct Hx as (j & <- & Hj). apply in_seq in Hj. apply H; auto.
Qed.

Variables (Gc : nat -> col F) (n mG : nat).
Hypothesis HG : forall j, j < mG -> forall e, In e (Gc j) -> fst e < n.

Lemma casc_g j c v : j < mG -> n <= c -> (casc (Gc j ++ [(c, v)]) <-> casc (Gc j)).
Proof. intros Hj Hc. apply (casc_tail n); [apply HG; exact Hj| |apply sasc_one]. intros e [<-|[]]. exact Hc. Qed.

Lemma casc_soc_block base cs q v : n <= base -> cs + q <= mG -> 1 <= q ->
  (Forall casc (soc_block Gc base cs q v) <-> forall j, j < q -> casc (Gc (cs + j))).
Proof.
  intros Hb Hc Hq. unfold soc_block. rewrite Forall_app.
  rewrite (forall_seq (fun j => casc (Gc (cs + j)))) by (intros j Hj; apply casc_g; lia).
  split; [intros [A _] j Hj; apply A; lia|]. intros A. split; [intros j Hj; apply A; lia|]. constructor; [|constructor; [|constructor]].
  - unfold casc. rewrite map_app, map_map. cbn [map fst]. apply sasc_app; [|split; [apply (sasc_seq (fun r => base + r)); lia|apply sasc_one]].
    intros a b Ha [<-|[]]. apply in_map_iff in Ha. destruct Ha as (r & <- & Hr). apply in_seq in Hr. lia.
  - unfold casc. rewrite map_app, map_map. cbn [map fst]. apply sasc_app; [|split; [apply (sasc_seq (fun r => base + r)); lia|apply sasc_one]].
    intros a b Ha [<-|[]]. apply in_map_iff in Ha. destruct Ha as (r & <- & Hr). apply in_seq in Hr. lia.
Qed.
Lemma casc_soc_cols soc : forall base cs, n <= base -> cs + list_sum (map fst soc) <= mG -> (forall x, In x soc -> 1 <= fst x) ->
  (Forall casc (soc_cols Gc base cs soc) <-> forall j, j < list_sum (map fst soc) -> casc (Gc (cs + j))).
Proof.
  induction soc as [|[q v] soc IH]; intros base cs Hb Hc Hq; cbn [soc_cols map fst].
  - split; [intros _ j Hj; cbn in Hj; lia|constructor].
  - change (list_sum (q :: map fst soc)) with (q + list_sum (map fst soc)) in *. cbn [map fst] in Hc.
    change (list_sum (q :: map fst soc)) with (q + list_sum (map fst soc)) in Hc.
    pose proof (Hq (q, v) (or_introl eq_refl)) as Hq1. cbn [fst] in Hq1.
    rewrite Forall_app, casc_soc_block, IH by (try lia; intros x Hx; apply Hq; cbn; auto). split.
    + intros [A B] j Hj. destruct (Nat.lt_ge_cases j q); [apply A; assumption|]. replace (cs + j) with (cs + q + (j - q)) by lia. apply B. lia.
    + intros A. split; [intros j Hj; apply A; lia|]. intros j Hj. replace (cs + q + j) with (cs + (q + j)) by lia. apply A. lia.
Qed.
Lemma casc_exp_cols ex : forall base cs, n <= base -> cs + 3 * length ex <= mG ->
  (Forall casc (exp_cols Gc base cs ex) <-> forall j, j < 3 * length ex -> casc (Gc (cs + j))).
Proof.
  induction ex as [|v ex IH]; intros base cs Hb Hc; cbn [exp_cols length] in *.
  - split; [intros _ j Hj; lia|constructor].
  - rewrite Forall_app, IH by lia. unfold exp_block.
    rewrite (forall_seq (fun j => casc (Gc (cs + j)))).
    + split.
      * intros [A B] j Hj. destruct (Nat.lt_ge_cases j 3); [apply A; lia|]. replace (cs + j) with (cs + 3 + (j - 3)) by lia. apply B. lia.
      * intros A. split; [intros j Hj; apply A; lia|]. intros j Hj. replace (cs + 3 + j) with (cs + (3 + j)) by lia. apply A. lia.
    + intros j Hj. apply (casc_tail n); [apply HG; lia| |].
      * intros e He. apply in_app_or in He. destruct He as [He|[<-|[]]]; [|cbn; lia]. apply in_map_iff in He. destruct He as (r & <- & _). cbn. lia.
      * unfold casc. rewrite map_app, map_map. cbn [map fst]. apply sasc_app; [|split; [apply (sasc_seq (fun r => base + r)); lia|apply sasc_one]].
        intros a b Ha [<-|[]]. apply in_map_iff in Ha. destruct Ha as (r & <- & Hr). apply in_seq in Hr. lia.
Qed.
Lemma casc_kkt p Ac d e l lpv soc ex :
  mG = l + list_sum (map fst soc) + 3 * length ex -> (forall x, In x soc -> 1 <= fst x) ->
  (forall j, j < p -> forall x, In x (Ac j) -> fst x < n) ->
  (Forall casc (kkt_cols Gc n p Ac d e l lpv soc ex) <->
   (forall j, j < p -> casc (Ac j)) /\ (forall j, j < mG -> casc (Gc j))).
Proof.
  intros Em Hq HA. unfold kkt_cols, lp_cols. rewrite !Forall_app.
  rewrite (forall_seq (fun _ => True)) by (intros j Hj; split; [auto|intros _; apply sasc_one]).
  rewrite (forall_seq (fun j => casc (Ac j))).
  2:{ intros j Hj. apply (casc_tail n); [apply HA; lia| |apply sasc_one]. intros x [<-|[]]. cbn. lia. }
  rewrite (forall_seq (fun j => casc (Gc j))) by (intros j Hj; apply casc_g; lia).
  rewrite casc_soc_cols, casc_exp_cols by (try assumption; lia). split.
  - intros (_ & A & B & C & D). split; [intros j Hj; apply A; lia|]. intros j Hj.
    destruct (Nat.lt_ge_cases j l); [apply B; lia|]. destruct (Nat.lt_ge_cases j (l + list_sum (map fst soc))).
    + replace j with (l + (j - l)) by lia. apply C. lia.
    + replace j with (l + list_sum (map fst soc) + (j - (l + list_sum (map fst soc)))) by lia. apply D. lia.
  - intros [A B]. split; [auto|]. split; [intros; apply A; lia|]. split; [intros; apply B; lia|]. split; intros; apply B; lia.
Qed.
End Cols.

(* ---- the stored pattern ---- *)
Section Pattern.
Context {F : Type}.
Variable cols : list (col F).
Definition pap (c : nat) : Z := Z.of_nat (KktSpec.start cols c).
Definition pai (t : nat) : Z := Z.of_nat (nth t (map fst (concat cols)) 0).

Lemma nth_in_col t c x : c < length cols -> nth_error cols c = Some x -> KktSpec.start cols c <= t < KktSpec.start cols (c + 1) ->
  exists e, nth_error x (t - KktSpec.start cols c) = Some e /\ nth t (map fst (concat cols)) 0 = fst e.
Proof.
  intros Hc Ex Ht. rewrite (KktAsm.start_S cols c x Ex) in Ht.
  destruct (nth_error x (t - KktSpec.start cols c)) as [e|] eqn:E; [|apply nth_error_None in E; lia].
  exists e. split; [reflexivity|]. apply nth_error_nth. rewrite nth_error_map.
  pose proof (KktAsm.start_nth cols c x (t - KktSpec.start cols c) e Ex E) as H.
  replace (KktSpec.start cols c + (t - KktSpec.start cols c)) with t in H by lia. rewrite H. reflexivity.
Qed.
Lemma find_col t : t < length (concat cols) -> exists c, c < length cols /\ KktSpec.start cols c <= t < KktSpec.start cols (c + 1).
Proof.
  intros Ht. rewrite <- KktAsm.start_all in Ht.
  assert (X : forall c, c <= length cols -> t < KktSpec.start cols c -> exists c', c' < c /\ KktSpec.start cols c' <= t < KktSpec.start cols (c' + 1)).
  { induction c as [|c IH]; intros Hc H; [unfold KktSpec.start in H; cbn in H; lia|].
    destruct (Nat.lt_ge_cases t (KktSpec.start cols c)) as [L|L].
    - destruct (IH ltac:(lia) L) as (c' & C1 & C2). exists c'. split; [lia|exact C2].
    - exists c. split; [lia|]. replace (c + 1) with (S c) by lia. lia. }
  destruct (X (length cols) ltac:(lia) Ht) as (c & C1 & C2). exists c. auto.
Qed.

Lemma pat_wf : allc (okc False) 0 cols -> well_formed (Z.of_nat (length cols)) (length cols) pap pai.
Proof.
  intros OK. split; [reflexivity|]. split.
  - intros j Hj. unfold pap. destruct (nth_error cols j) as [x|] eqn:E; [|apply nth_error_None in E; lia].
    pose proof (KktAsm.start_S cols j x E). replace (S j) with (j + 1) by lia. lia.
  - intros t Ht. unfold pap in Ht. rewrite KktAsm.start_all in Ht. destruct (find_col t ltac:(lia)) as (c & Hc & C).
    destruct (nth_error cols c) as [x|] eqn:E; [|apply nth_error_None in E; lia].
    destruct (nth_in_col t c x Hc E C) as (e & E1 & E2). unfold pai. rewrite E2. destruct (OK c x E) as [O1 _].
    specialize (O1 e (nth_error_In _ _ E1)). lia.
Qed.
Lemma pat_asc : ascending (length cols) pap pai <-> Forall casc cols.
Proof.
  split.
  - intros A. apply Forall_forall. intros x Hx. apply In_nth_error in Hx. destruct Hx as (c & Ec).
    assert (Hc : c < length cols) by (apply nth_error_Some; congruence). pose proof (KktAsm.start_S cols c x Ec) as ES.
    apply sasc_nth. intros k a b Ea Eb. rewrite nth_error_map in Ea, Eb.
    destruct (nth_error x k) as [e1|] eqn:E1; [|discriminate]. destruct (nth_error x (S k)) as [e2|] eqn:E2; [|discriminate].
    cbn in Ea, Eb. injection Ea as <-. injection Eb as <-.
    assert (L : S k < length x) by (apply nth_error_Some; congruence).
    specialize (A c (KktSpec.start cols c + k) Hc). unfold pap in A. replace (S c) with (c + 1) in A by lia.
    specialize (A ltac:(lia) ltac:(lia)). unfold pai in A.
    destruct (nth_in_col (KktSpec.start cols c + k) c x Hc Ec ltac:(lia)) as (e & D1 & D2).
    destruct (nth_in_col (S (KktSpec.start cols c + k)) c x Hc Ec ltac:(lia)) as (e' & D1' & D2').
    replace (KktSpec.start cols c + k - KktSpec.start cols c) with k in D1 by lia.
    replace (S (KktSpec.start cols c + k) - KktSpec.start cols c) with (S k) in D1' by lia.
    rewrite D2, D2' in A. rewrite E1 in D1. rewrite E2 in D1'. injection D1 as <-. injection D1' as <-. lia.
  - intros H c t Hc H1 H2. unfold pap in *. replace (S c) with (c + 1) in H2 by lia.
    destruct (nth_error cols c) as [x|] eqn:Ec; [|apply nth_error_None in Ec; lia].
    rewrite Forall_forall in H. specialize (H x (nth_error_In _ _ Ec)). unfold casc in H. rewrite sasc_nth in H.
    destruct (nth_in_col t c x Hc Ec ltac:(lia)) as (e & D1 & D2).
    destruct (nth_in_col (S t) c x Hc Ec ltac:(lia)) as (e' & D1' & D2').
    replace (S t - KktSpec.start cols c) with (S (t - KktSpec.start cols c)) in D1' by lia.
    unfold pai. rewrite D2, D2'. assert (fst e < fst e'); [|lia]. eapply H; rewrite nth_error_map; [rewrite D1|rewrite D1']; reflexivity.
Qed.
End Pattern.

Lemma get_map_of (a : arr nat) i v : get a i = Some v -> get (map (option_map Z.of_nat) a) i = Some (Z.of_nat v).
Proof. unfold get. rewrite nth_error_map. destruct (nth_error a i) as [[x|]|]; cbn; try discriminate. intros [= ->]. reflexivity. Qed.

(* ---- transposes ---- *)
Lemma transposed_sorted {T} (M Mt : spmat T) r q q' : wf_sp M -> transposable M -> transposed M Mt ->
  in_col Mt r q -> in_col Mt r q' -> q < q' -> gd 0 (sp_ir Mt) q <= gd 0 (sp_ir Mt) q'.
Proof.
  intros W H [mp E]. destruct (transpose_ok M W H) as (Mt' & mp' & E' & F). rewrite E in E'. injection E' as <- <-.
  destruct F as (F1 & F2 & F3 & F4 & F5 & F6 & F7 & F8). apply F8.
Qed.
Lemma transposed_casc {T} (z : T) (M Mt : spmat T) : wf_sp M -> transposable M -> transposed M Mt ->
  ((forall r, r < sp_m M -> casc (colent z Mt r)) <-> nodup M).
Proof.
  intros W T0 TT. destruct (transposed_facts M Mt W T0 TT) as (Wt & N1 & N2 & N3 & J & X).
  assert (JG : forall r, r <= sp_m M -> gd 0 (sp_jc Mt) r = tstart M r) by (intros r Hr; unfold gd; rewrite J by lia; reflexivity).
  assert (CE : forall r k a, nth_error (map fst (colent z Mt r)) k = Some a ->
    k < gd 0 (sp_jc Mt) (r + 1) - gd 0 (sp_jc Mt) r /\ a = gd 0 (sp_ir Mt) (gd 0 (sp_jc Mt) r + k)).
  { intros r k a E. unfold colent in E. rewrite map_map in E. cbn [fst] in E. rewrite nth_error_map in E.
    destruct (nth_error (seq _ _) k) as [s|] eqn:Es; [|discriminate]. cbn in E. injection E as <-.
    assert (L : k < gd 0 (sp_jc Mt) (r + 1) - gd 0 (sp_jc Mt) r) by (rewrite <- (seq_length (gd 0 (sp_jc Mt) (r + 1) - gd 0 (sp_jc Mt) r) (gd 0 (sp_jc Mt) r)); apply nth_error_Some; congruence).
    split; [exact L|]. apply nth_error_nth with (d := 0) in Es. rewrite seq_nth in Es by exact L. subst s. reflexivity. }
  split.
  - (* two entries of M at one place are two equal rows of a column of Mt *)
    intros A j p q Hp Hq E.
    destruct (Nat.eq_dec p q) as [|NE]; [assumption|exfalso].
    pose proof (in_col_nnz M j p W Hp) as Lp. pose proof (in_col_nnz M j q W Hq) as Lq.
    set (r := gd 0 (sp_ir M) p) in *. assert (Hr : r < sp_m M) by (apply (wf_row M W p Lp)).
    pose proof (CountSort.pos_bounds allsel (fun k => gd 0 (sp_ir M) k) (sp_nnz M) p Lp eq_refl) as Bp.
    pose proof (CountSort.pos_bounds allsel (fun k => gd 0 (sp_ir M) k) (sp_nnz M) q Lq eq_refl) as Bq.
    change (tstart M r <= tpos M p < tstart M (S r)) in Bp. cbv beta in Bq. rewrite <- E in Bq. change (tstart M r <= tpos M q < tstart M (S r)) in Bq.
    assert (PN : tpos M p <> tpos M q) by (intros E2; apply NE; apply (CountSort.pos_inj allsel (fun k => gd 0 (sp_ir M) k) (sp_nnz M)); auto).
    destruct (X j p Hp) as [Xp _]. destruct (X j q Hq) as [Xq _].
    assert (ST : forall a b, tstart M r <= a -> a < b -> b < tstart M (S r) -> gd 0 (sp_ir Mt) a < gd 0 (sp_ir Mt) b).
    { intros a b Ha Hab. induction Hab as [|b Hab IH]; intros Hb.
      - pose proof (A r Hr) as C. unfold casc in C. rewrite sasc_nth in C.
        apply (C (a - tstart M r)); unfold colent; rewrite map_map; cbn [fst]; rewrite nth_error_map, JG by lia;
          rewrite (JG (r + 1)) by lia; replace (r + 1) with (S r) by lia.
        + rewrite (nth_error_nth' _ 0) by (rewrite seq_length; lia). rewrite seq_nth by lia. cbn. do 2 f_equal. lia.
        + rewrite (nth_error_nth' _ 0) by (rewrite seq_length; lia). rewrite seq_nth by lia. cbn. do 2 f_equal. lia.
      - apply Nat.lt_trans with (gd 0 (sp_ir Mt) b); [apply IH; lia|].
        pose proof (A r Hr) as C. unfold casc in C. rewrite sasc_nth in C.
        apply (C (b - tstart M r)); unfold colent; rewrite map_map; cbn [fst]; rewrite nth_error_map, JG by lia;
          rewrite (JG (r + 1)) by lia; replace (r + 1) with (S r) by lia.
        + rewrite (nth_error_nth' _ 0) by (rewrite seq_length; lia). rewrite seq_nth by lia. cbn. do 2 f_equal. lia.
        + rewrite (nth_error_nth' _ 0) by (rewrite seq_length; lia). rewrite seq_nth by lia. cbn. do 2 f_equal. lia. }
    assert (Gp : gd 0 (sp_ir Mt) (tpos M p) = j) by (unfold gd; rewrite Xp; reflexivity).
    assert (Gq : gd 0 (sp_ir Mt) (tpos M q) = j) by (unfold gd; rewrite Xq; reflexivity).
    destruct (Nat.lt_ge_cases (tpos M p) (tpos M q)) as [L|L].
    + specialize (ST (tpos M p) (tpos M q) ltac:(lia) L ltac:(lia)). lia.
    + specialize (ST (tpos M q) (tpos M p) ltac:(lia) ltac:(lia) ltac:(lia)). lia.
  - intros ND r Hr. unfold casc. apply sasc_nth. intros k a b Ea Eb. apply CE in Ea, Eb. destruct Ea as [La ->], Eb as [Lb ->].
    set (s := gd 0 (sp_jc Mt) r) in *. rewrite (JG (r + 1)) in Lb by lia. assert (Es : s = tstart M r) by (apply JG; lia).
    assert (I1 : in_col Mt r (s + k)) by (unfold in_col; rewrite N1; fold s; rewrite (JG (r + 1)) by lia; lia).
    assert (I2 : in_col Mt r (s + S k)) by (unfold in_col; rewrite N1; fold s; rewrite (JG (r + 1)) by lia; lia).
    pose proof (transposed_sorted M Mt r (s + k) (s + S k) W T0 TT I1 I2 ltac:(lia)) as LE.
    assert (H : forall a, tstart M r <= a < tstart M (S r) -> exists j k, in_col M j k /\ gd 0 (sp_ir M) k = r /\ a = tpos M k /\ gd 0 (sp_ir Mt) a = j).
    { intros a Ha. destruct (CountSort.pos_surj_bucket allsel (fun k => gd 0 (sp_ir M) k) (sp_nnz M) r a Ha) as (k' & Hk & _ & Ek & Ea).
      destruct (in_col_exists M k' W Hk) as (j & Hj). exists j, k'. split; [exact Hj|]. split; [exact Ek|]. split; [symmetry; exact Ea|].
      destruct (X j k' Hj) as [X1 _]. change (tpos M k' = a) in Ea. unfold gd. rewrite <- Ea, X1. reflexivity. }
    replace (r + 1) with (S r) in Lb by lia.
    destruct (H (s + k) ltac:(lia)) as (j1 & k1 & A1 & A2 & A3 & A4). destruct (H (s + S k) ltac:(lia)) as (j2 & k2 & B1 & B2 & B3 & B4).
    destruct (Nat.eq_dec j1 j2) as [->|]; [|lia].
    assert (k1 = k2) by (apply (ND j2); congruence). subst k2. lia.
Qed.

(* ---- the call ---- *)
Lemma call_iff {T} elim (cols : list (col T)) : elimination_ok elim -> allc (okc False) 0 cols ->
  (amd_of elim (length cols) (arr_fun (length cols + 1) (KktSpec.start cols)) (arr_of (map fst (concat cols))) <> None <-> Forall casc cols).
Proof.
  intros EL OK. destruct (Nat.eq_dec (length cols) 0) as [Z|NZ].
  { destruct cols; [|discriminate]. split; [constructor|]. intros _. unfold amd_of, AMD_order. cbn. discriminate. }
  set (jc := arr_fun (length cols + 1) (KktSpec.start cols)). set (ir := arr_of (map fst (concat cols))).
  assert (HP : holds (map (option_map Z.of_nat) jc) (S (length cols)) (pap cols)).
  { intros i Hi. apply get_map_of. apply get_arr_fun. lia. }
  assert (HI : holds (map (option_map Z.of_nat) ir) (length (concat cols)) (pai cols)).
  { intros i Hi. apply get_map_of. unfold ir. rewrite get_arr_of. apply nth_error_nth'. rewrite map_length. exact Hi. }
  assert (HN : forall j, j <= length cols -> (pap cols j <= Z.of_nat (length (concat cols)))%Z).
  { intros j Hj. unfold pap. pose proof (KktAsm.start_mono cols j (length cols) Hj). rewrite KktAsm.start_all in H. lia. }
  rewrite <- pat_asc. unfold amd_of.
  destruct (C40_order elim (length cols) _ _ (alloc (length cols)) _ _ _ EL ltac:(lia) HP HI HN (alloc_length _)) as [[W _]|(_ & st & P & pf & -> & D & _)].
  { exfalso. apply W, pat_wf, OK. }
  destruct D as [[-> A]|[-> A]].
  - change (AMD_OK =? AMD_OK)%Z with true. cbv iota. split; [auto|discriminate].
  - change (AMD_OK_BUT_JUMBLED =? AMD_OK)%Z with false. cbv iota. tauto.
Qed.

Definition nodupA {T} (A : option (spmat T)) : Prop := match A with Some A => nodup A | None => True end.

Lemma nodup_pattern {T} (M M' : spmat T) : same_pattern M M' -> (nodup M' <-> nodup M).
Proof. intros (E1 & E2 & E3 & _). unfold nodup, in_col. rewrite E1, E2, E3. reflexivity. Qed.

Section Main.
Context `{O : Ops}.
Variables (elim : elimination) (L : lay) (A : option (spmat F)) (G : spmat F).
Hypothesis EL : elimination_ok elim.
Hypothesis Hq : forall d, In d (ly_q L) -> 1 <= d.

Lemma layout_iff : transp L A G ->
  let cols := ly_cols L (fun _ => (- f1)%fl) (id_soc (ly_q L)) (id_exp (ly_e L)) in
  (amd_of elim (ly_nK L) (sp_jc (mat_of cols)) (sp_ir (mat_of cols)) <> None <-> nodup G /\ nodupA A).
Proof.
  intros (WG & Gn & Gm & TG & TTG & HA) cols.
  destruct (transposed_facts G (ly_Gt L) WG TG TTG) as (WGt & Gtn & Gtm & _).
  assert (S1 : map fst (id_soc (ly_q L)) = ly_q L) by (unfold id_soc; rewrite map_map; cbn; apply map_id).
  assert (S2 : length (id_exp (ly_e L)) = ly_e L) by (unfold id_exp; apply repeat_length).
  assert (HAt : match ly_At L with Some At => wf_sp At /\ sp_n At = ly_p L /\ sp_m At = ly_n L | None => ly_p L = 0 end).
  { destruct A as [A1|], (ly_At L) as [At|]; try contradiction; auto. destruct HA as (W & E1 & E2 & T & TT).
    destruct (transposed_facts A1 At W T TT) as (Wt & F1 & F2 & _). csplit; auto; congruence. }
  assert (OK : allc (okc False) 0 cols) by (apply ly_okc; auto; congruence).
  assert (LC : length cols = ly_nK L) by (apply ly_cols_length; auto).
  cbn [sp_jc sp_ir mat_of]. rewrite <- LC, (call_iff elim cols EL OK).
  unfold cols, ly_cols. rewrite (casc_kkt _ (ly_n L) (sp_n (ly_Gt L))).
  - assert (GG : (forall j, j < sp_n (ly_Gt L) -> casc (colent f0 (ly_Gt L) j)) <-> nodup G).
    { rewrite <- (transposed_casc f0 G (ly_Gt L) WG TG TTG), Gtn. reflexivity. }
    rewrite GG. assert (AA : (forall j, j < ly_p L -> casc (acol f0 (ly_At L) j)) <-> nodupA A); [|tauto].
    destruct A as [A1|], (ly_At L) as [At|]; try contradiction; cbn [acol nodupA].
    + destruct HA as (W & E1 & E2 & T & TT). rewrite <- (transposed_casc f0 A1 At W T TT), E2. reflexivity.
    + rewrite HA. split; [auto|]. intros; lia.
  - intros j Hj x Hx. rewrite <- Gn, <- Gtm. eapply colent_rows; eassumption.
  - rewrite S1, S2, Gtn. exact Gm.
  - intros x Hx. apply Hq. rewrite <- S1. apply in_map. exact Hx.
  - intros j Hj x Hx. destruct (ly_At L) as [At|]; [|destruct Hx]. destruct HAt as (W & E1 & E2). rewrite <- E2.
    eapply colent_rows; [exact W| |exact Hx]. lia.
Qed.
End Main.

(* Setup with the library's ordering, in any arithmetic: of the problems whose cones
   fit, those in which A and G list no coordinate twice are accepted, in whatever
   order a column lists its rows; all others are refused. *)
Theorem C42_setup_accepts : forall `{O : Ops} elim junk n m p l q e G0 A0 c h b,
  elimination_ok elim -> valid_data n m p q G0 A0 c h b -> l + list_sum q + 3 * e = m ->
  (nodup G0 /\ nodupA A0 ->
     exists w, ECOS_setup (amd_of elim) junk n m p l q e (data_of G0) (option_map data_of A0) c h b = Some (Some w)) /\
  (~ (nodup G0 /\ nodupA A0) ->
     ECOS_setup (amd_of elim) junk n m p l q e (data_of G0) (option_map data_of A0) c h b = Some None).
Proof.
  intros O elim junk n m p l q e G0 A0 c h b EL [V1 V2 V3 V4 V5 V6 V7 V8 V9] Em.
  assert (NA : forall A, same_patternA A0 A -> (nodupA A <-> nodupA A0)).
  { intros A S. destruct A0, A; cbn in *; try contradiction; [apply nodup_pattern; exact S|tauto]. }
  pose proof (setup_wp_call (amd_of elim) junk n m p l q e G0 A0 c h b V1 V2 V3 V4 V5 V6 V7 V8 V9 (C40_setup_call elim EL) (fun r => match r with
    | Some w => nodup G0 /\ nodupA A0 | None => ~ (nodup G0 /\ nodupA A0) end) Em) as W.
  assert (W' : wp (setup_call (amd_of elim) junk n m p l q e G0 A0 c h b) (fun r => match r with
    | Some w => nodup G0 /\ nodupA A0 | None => ~ (nodup G0 /\ nodupA A0) end)).
  { apply W.
    - intros L A G En Ep El Eq Ee TR SG SA cols H. rewrite <- (nodup_pattern G0 G SG), <- (NA A SA).
      rewrite <- (layout_iff elim L A G EL ltac:(rewrite Eq; exact V6) TR). rewrite Eq, Ee. fold cols. rewrite H. tauto.
    - intros L w En Ep El Eq Ee [S1 _] _ SG SA cols H. rewrite <- (nodup_pattern G0 _ SG), <- (NA _ SA).
      assert (TR : transp L (w_A w) (w_G w)).
      { pose proof (ws_dat _ _ _ _ _ S1) as D. destruct D as [D1 D2 D3 [D4 D5] D6 _ _]. unfold transp. csplit; auto. }
      apply (layout_iff elim L (w_A w) (w_G w) EL ltac:(rewrite Eq; exact V6) TR). rewrite Eq, Ee. exact H. }
  clear W. apply wp_elim in W'. destruct W' as (r & E & H). unfold setup_call in E. rewrite E. destruct r as [w|].
  - split; [intros _; exists w; reflexivity|]. tauto.
  - split; [tauto|reflexivity].
Qed.
Print Assumptions C42_setup_accepts.

(* ---- example: two rows, one variable ---- *)
Section Example.
Context `{O : Ops}.
Definition two (r1 r2 : nat) : spmat F := mkSp (arr_of [0; 2]) (arr_of [r1; r2]) (arr_of [f1; f1]) 1 2 2.
Lemma two_valid r1 r2 : r1 < 2 -> r2 < 2 -> valid_data 1 2 0 [] (two r1 r2) None (arr_of [f1]) (arr_of [f1; f1]) [].
Proof.
  intros H1 H2. constructor; cbn; auto.
  - constructor; cbn.
    + intros [|[|i]] Hi; [reflexivity|reflexivity|lia].
    + reflexivity.
    + intros [|j] Hj; [cbn; lia|lia].
    + reflexivity.
    + intros [|[|i]] Hi; [reflexivity|reflexivity|lia].
    + intros [|[|k]] Hk; cbn; lia.
    + intros [|[|k]] Hk; [eexists; reflexivity|eexists; reflexivity|lia].
  - left. discriminate.
  - intros d [].
  - intros [|i] Hi; [eexists; reflexivity|lia].
  - intros [|[|i]] Hi; [eexists; reflexivity|eexists; reflexivity|lia].
  - intros i Hi; lia.
Qed.
Lemma two_nodup r1 r2 : nodup (two r1 r2) <-> r1 <> r2.
Proof.
  unfold nodup, in_col. cbn. split.
  - intros H E. specialize (H 0 0 1 ltac:(cbn; lia) ltac:(cbn; lia) E). discriminate.
  - intros NE j p q [Hj Hp] [_ Hq] E. assert (j = 0) by lia. subst j. cbn in *.
    destruct p as [|[|p]], q as [|[|q]]; cbn in *; try lia; try reflexivity; congruence.
Qed.
End Example.
(* the column that lists row 1 before row 0 is accepted, the one with row 1 twice refused *)
Theorem C42_example : forall `{O : Ops} junk,
  (exists w, ECOS_setup (amd_of elim_plain) junk 1 2 0 2 [] 0 (data_of (two 1 0)) None (arr_of [f1]) (arr_of [f1; f1]) [] = Some (Some w)) /\
  ECOS_setup (amd_of elim_plain) junk 1 2 0 2 [] 0 (data_of (two 1 1)) None (arr_of [f1]) (arr_of [f1; f1]) [] = Some None.
Proof.
  intros O junk. split.
  - apply (C42_setup_accepts elim_plain junk 1 2 0 2 [] 0 (two 1 0) None _ _ _ elim_plain_ok (two_valid 1 0 ltac:(lia) ltac:(lia)) eq_refl).
    split; [apply two_nodup; discriminate|exact I].
  - apply (C42_setup_accepts elim_plain junk 1 2 0 2 [] 0 (two 1 1) None _ _ _ elim_plain_ok (two_valid 1 1 ltac:(lia) ltac:(lia)) eq_refl).
    rewrite two_nodup. tauto.
Qed.
