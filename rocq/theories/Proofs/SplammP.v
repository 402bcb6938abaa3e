From Coq Require Import List Arith Bool ZArith Reals Lia Lra.
From Verif Require Import Base Num.
From Verif.Model Require Import Spla Splamm.
From Verif.Spec Require Import Matrix.
From Verif.Proofs Require Import SplaP CountSort.
Open Scope nat_scope.

Lemma wp_cumsum (p w : arr nat) m (wf : nat -> nat) (Q : arr nat * arr nat -> Prop) :
  vec w m wf -> m <= length p ->
  (forall p' w', length p' = length p -> length w' = length w ->
     (forall i, get p' i = if i <? m then Some (natsum i wf) else get p i) ->
     (forall i, get w' i = if i <? m then Some (natsum i wf) else get w i) -> Q (p', w')) ->
  wp (spla_cumsum p w m) Q.
Proof.
  intros W L HQ. unfold spla_cumsum. wb.
  apply (wp_for (fun i s => let '(p', w', c) := s in
     length p' = length p /\ length w' = length w /\ c = natsum i wf /\
     (forall r, get p' r = if r <? i then Some (natsum r wf) else get p r) /\
     (forall r, get w' r = if r <? i then Some (natsum r wf) else get w r))).
  - lia.
  - repeat split; auto.
  - intros i [[p' w'] c] Hi (L1 & L2 & -> & G1 & G2).
    wb. wset p2 L3 G3; [lia|].
    assert (Wi : get w' i = Some (wf i)).
    { rewrite G2. destruct (Nat.ltb_spec i i); [lia|]. apply W; lia. }
    wb. eapply wp_get; [exact Wi|]. cbv beta.
    wb. eapply wp_get; [rewrite G3, Nat.eqb_refl; reflexivity|]. cbv beta.
    wb. wset w2 L4 G4; [apply get_lt in Wi; auto|].
    simpl. repeat split; try congruence.
    + intros r. rewrite G3, G1. beq; subst; try lia; auto.
    + intros r. rewrite G4, G2. beq; subst; try lia; auto.
  - intros [[p' w'] c] (L1 & L2 & _ & G1 & G2). simpl. apply HQ; auto.
Qed.

(* -------------------------------------------------------------------- pinv *)

(* p describes a permutation of 0..n-1 *)

Lemma NoDup_map_in {A B} (f : A -> B) l : NoDup l ->
  (forall x y, In x l -> In y l -> f x = f y -> x = y) -> NoDup (map f l).
Proof.
  induction 1 as [|a l Ha HN IH]; intros Hf; simpl; constructor.
  - intros I. apply in_map_iff in I. destruct I as (x & E & I).
    apply Hf in E; simpl; auto. subst; auto.
  - apply IH. intros; apply Hf; simpl; auto.
Qed.

Lemma is_perm_surj n p : is_perm n p -> forall j, j < n -> exists i, i < n /\ p i = j.
Proof.
  intros [H1 H2] j Hj.
  assert (ND : NoDup (map p (seq 0 n))).
  { apply NoDup_map_in; [apply seq_NoDup|]. intros x y Hx Hy. apply in_seq in Hx, Hy. apply H2; lia. }
  assert (I : In j (map p (seq 0 n))).
  { refine (NoDup_length_incl (l' := seq 0 n) ND _ _ j _).
    - rewrite map_length. auto.
    - intros x Hx. apply in_map_iff in Hx. destruct Hx as (y & <- & Hy).
      apply in_seq in Hy. apply in_seq. specialize (H1 y ltac:(lia)). lia.
    - apply in_seq; lia. }
  apply in_map_iff in I. destruct I as (i & E & I). apply in_seq in I. exists i; split; auto; lia.
Qed.

Theorem pinv_spec n (pf : nat -> nat) (p pi : arr nat) :
  vec p n pf -> is_perm n pf -> n <= length pi ->
  exists pi', pinv n p pi = Some pi' /\ length pi' = length pi /\
    (forall i, i < n -> get pi' (pf i) = Some i) /\
    (forall j, j < n -> exists i, get pi' j = Some i /\ i < n /\ pf i = j) /\
    (forall j, n <= j -> get pi' j = get pi j).
Proof.
  intros P [H1 H2] L.
  assert (G : exists pi', pinv n p pi = Some pi' /\ length pi' = length pi /\
    (forall i, i < n -> get pi' (pf i) = Some i) /\ (forall j, n <= j -> get pi' j = get pi j)).
  { apply wp_elim. unfold pinv.
    apply (wp_for (fun k pi' => length pi' = length pi /\
       (forall i, i < k -> get pi' (pf i) = Some i) /\ (forall j, n <= j -> get pi' j = get pi j))).
    - lia.
    - repeat split; auto. intros; lia.
    - intros i s Hi (A & B & C). wget P. wset s' L' G'.
      { specialize (H1 i). lia. }
      repeat split; [congruence| |].
      + intros r Hr. rewrite G'. destruct (Nat.eqb_spec (pf r) (pf i)) as [E|E].
        * f_equal. symmetry. apply H2; auto; lia.
        * apply B. assert (r <> i) by congruence. lia.
      + intros r Hr. rewrite G'. specialize (H1 i). beq; [lia|auto].
    - auto. }
  destruct G as (pi' & A & B & C & D). exists pi'. repeat split; auto.
  intros j Hj. destruct (is_perm_surj n pf (conj H1 H2) j Hj) as (i & Hi & E).
  exists i. subst j. auto.
Qed.

(* --------------------------------------------------------------- transpose *)
Section Transpose.
Context {T : Type}.

Notation JC M := (gd 0%nat (sp_jc M)).
Notation IR M := (gd 0%nat (sp_ir M)).

Definition allsel : nat -> bool := fun _ => true.

Definition tpos (M : spmat T) (k : nat) : nat := pos allsel (IR M) (sp_nnz M) k.
Definition tstart (M : spmat T) (r : nat) : nat := start allsel (IR M) (sp_nnz M) r.

Lemma nsel_all n : nsel allsel n = n.
Proof. unfold nsel, allsel. induction n; simpl; lia. Qed.

Lemma tstart_total (M : spmat T) : wf_sp M -> tstart M (sp_m M) = sp_nnz M.
Proof.
  intros W. unfold tstart. rewrite start_total; [apply nsel_all|]. intros; apply (wf_row M W); auto.
Qed.

Lemma tpos_lt (M : spmat T) k : wf_sp M -> k < sp_nnz M -> tpos M k < sp_nnz M.
Proof.
  intros W H. unfold tpos.
  pose proof (pos_bounds allsel (IR M) (sp_nnz M) k H eq_refl).
  pose proof (wf_row M W k H).
  pose proof (start_mono allsel (IR M) (sp_nnz M) (S (IR M k)) (sp_m M) ltac:(lia)).
  pose proof (tstart_total M W). unfold tstart in *. lia.
Qed.

Lemma newSparseMatrix_ok m n nnz :
  @newSparseMatrix T m n nnz =
  Some (mkSp (upd (upd (alloc (n + 1)) n (Some nnz)) n (Some nnz)) (alloc nnz) (alloc nnz) n m nnz).
Proof.
  unfold newSparseMatrix, ecoscreateSparseMatrix.
  rewrite set_ok by (rewrite alloc_length; lia). simpl.
  rewrite set_ok by (rewrite upd_length, alloc_length; lia). reflexivity.
Qed.

Theorem transpose_spec (M : spmat T) (mp : arr nat) :
  wf_sp M -> sp_nnz M <> 0 -> sp_nnz M <= length mp ->
  exists A mp', transposeSparseMatrix M mp = Some (A, mp') /\
    sp_n A = sp_m M /\ sp_m A = sp_n M /\ sp_nnz A = sp_nnz M /\
    length mp' = length mp /\
    (forall r, r <= sp_m M -> get (sp_jc A) r = Some (tstart M r)) /\
    (forall j k, in_col M j k ->
        get mp' k = Some (tpos M k) /\
        get (sp_ir A) (tpos M k) = Some j /\
        get (sp_pr A) (tpos M k) = get (sp_pr M) k) /\
    (forall k, sp_nnz M <= k -> get mp' k = get mp k).
Proof.
  intros W Hnz Lm.
  cut (wp (transposeSparseMatrix M mp) (fun r => let '(A, mp') := r in
    sp_n A = sp_m M /\ sp_m A = sp_n M /\ sp_nnz A = sp_nnz M /\
    length mp' = length mp /\
    (forall r, r <= sp_m M -> get (sp_jc A) r = Some (tstart M r)) /\
    (forall j k, in_col M j k ->
        get mp' k = Some (tpos M k) /\
        get (sp_ir A) (tpos M k) = Some j /\
        get (sp_pr A) (tpos M k) = get (sp_pr M) k) /\
    (forall k, sp_nnz M <= k -> get mp' k = get mp k))).
  { intros H. apply wp_elim in H. destruct H as [[A mp'] [E H]]. exists A, mp'. split; auto. }
  unfold transposeSparseMatrix. rewrite newSparseMatrix_ok. cbn [bind sp_n sp_m sp_nnz sp_jc sp_ir sp_pr].
  destruct (Nat.eqb_spec (sp_nnz M) 0) as [E|_]; [congruence|].
  set (A0jc := upd (upd (alloc (sp_m M + 1)) (sp_m M) (Some (sp_nnz M))) (sp_m M) (Some (sp_nnz M))).
  assert (LA : length A0jc = sp_m M + 1) by (unfold A0jc; rewrite !upd_length, alloc_length; auto).
  assert (GA : get A0jc (sp_m M) = Some (sp_nnz M)).
  { unfold A0jc. rewrite get_upd, Nat.eqb_refl; auto. rewrite upd_length, alloc_length; lia. }
  wb. apply wp_clear; [rewrite alloc_length; auto|].
  intros w0 Lw0 Gw0. rewrite alloc_length in Lw0.
  wb. apply (wp_for (fun k w => length w = sp_m M /\
       forall r, r < sp_m M -> get w r = Some (cnt allsel (IR M) r k))).
  { lia. }
  { split; auto. intros r Hr. rewrite Gw0. beq; [|lia]. reflexivity. }
  { intros k w Hk [L G]. wget (wf_ir M W). pose proof (wf_row M W k ltac:(lia)) as Hr.
    wb. eapply wp_get; [apply (G _ Hr)|]. cbv beta.
    wset w2 L2 G2; [lia|]. split; [lia|]. intros r Hr'. rewrite G2, cnt_S. simpl.
    rewrite (Nat.eqb_sym (IR M k) r). destruct (Nat.eqb_spec r (IR M k)) as [->|].
    - reflexivity.
    - rewrite Nat.add_0_r. auto. }
  intros w1 [L1 G1].
  wb. apply (wp_cumsum A0jc w1 (sp_m M) (fun b => cnt allsel (IR M) b (sp_nnz M))); auto; [lia|].
  intros jc w2 Ljc Lw2 Gjc Gw2. cbv beta iota.
  wb. apply (wp_for (fun j s => let '(w, ir, pr, mp') := s in
       length w = sp_m M /\ length ir = sp_nnz M /\ length pr = sp_nnz M /\ length mp' = length mp /\
       (forall r, r < sp_m M -> get w r = Some (tstart M r + cnt allsel (IR M) r (JC M j))) /\
       (forall j' k', in_col M j' k' -> k' < JC M j ->
           get mp' k' = Some (tpos M k') /\ get ir (tpos M k') = Some j' /\
           get pr (tpos M k') = get (sp_pr M) k') /\
       (forall k, sp_nnz M <= k -> get mp' k = get mp k))).
  { lia. }
  { csplit; auto; try (apply alloc_length); try lia.
    - intros r Hr. rewrite Gw2. beq; [|lia]. rewrite (wf_jc0 M W). unfold cnt at 2; simpl.
      rewrite Nat.add_0_r. reflexivity.
    - intros j' k' _ H0. rewrite (wf_jc0 M W) in H0; lia. }
  { intros j s Hj HI.
    apply (wp_col_loop M j _ s (fun k s => let '(w, ir, pr, mp') := s in
       length w = sp_m M /\ length ir = sp_nnz M /\ length pr = sp_nnz M /\ length mp' = length mp /\
       (forall r, r < sp_m M -> get w r = Some (tstart M r + cnt allsel (IR M) r k)) /\
       (forall j' k', in_col M j' k' -> k' < k ->
           get mp' k' = Some (tpos M k') /\ get ir (tpos M k') = Some j' /\
           get pr (tpos M k') = get (sp_pr M) k') /\
       (forall k, sp_nnz M <= k -> get mp' k = get mp k))); auto; [lia| |].
    - intros k [[[w ir] pr] mp1] Hk (A1 & A2 & A3 & A4 & A5 & A6 & A7).
      pose proof (in_col_nnz M j k W Hk) as Hn. pose proof (wf_row M W k Hn) as Hr.
      pose proof (tpos_lt M k W Hn) as Ht.
      wget (wf_ir M W). wb. eapply wp_get; [apply (A5 _ Hr)|]. cbv beta.
      change (tstart M (IR M k) + cnt allsel (IR M) (IR M k) k) with (tpos M k).
      wb. wset w' Lw' Gw'; [lia|].
      wb. wset ir' Li' Gi'; [lia|].
      destruct (wf_pr M W k Hn) as [v Hv]. wb. eapply wp_get; [exact Hv|]. cbv beta.
      wb. wset pr' Lp' Gp'; [lia|].
      wb. wset mp2 Lm' Gm'; [lia|].
      cbv [ret]. simpl. repeat split; try congruence.
      + intros r Hr'. rewrite Gw', (Nat.add_1_r k), cnt_S. simpl. rewrite (Nat.eqb_sym (IR M k) r).
        destruct (Nat.eqb_spec r (IR M k)) as [->|].
        * f_equal. unfold tpos, pos, tstart. lia.
        * rewrite Nat.add_0_r. auto.
      + rewrite Gm'. destruct (Nat.eqb_spec k' k) as [->|]; auto. apply (A6 j' k'); auto; lia.
      + rewrite Gi'. destruct (Nat.eqb_spec (tpos M k') (tpos M k)) as [E|E].
        * apply pos_inj in E; auto; [|eapply in_col_nnz; eauto]. subst k'. f_equal.
          eapply in_col_unique; eauto.
        * apply (A6 j' k'); auto. assert (k' <> k) by congruence. lia.
      + rewrite Gp'. destruct (Nat.eqb_spec (tpos M k') (tpos M k)) as [E|E].
        * apply pos_inj in E; auto; [|eapply in_col_nnz; eauto]. subst k'. auto.
        * apply (A6 j' k'); auto. assert (k' <> k) by congruence. lia.
      + intros k' Hk'. rewrite Gm'. destruct (Nat.eqb_spec k' k); [lia|auto].
    - intros s' HI'. rewrite <- Nat.add_1_r. auto. }
  intros [[[w ir] pr] mp1] (A1 & A2 & A3 & A4 & A5 & A6 & A7).
  simpl. repeat split; auto.
  - intros r Hr. rewrite Gjc. destruct (Nat.ltb_spec r (sp_m M)).
    + reflexivity.
    + replace r with (sp_m M) by lia. rewrite GA, tstart_total; auto.
  - apply (A6 j k H). rewrite (wf_nnz M W). eapply in_col_nnz; eauto.
  - apply (A6 j k H). rewrite (wf_nnz M W). eapply in_col_nnz; eauto.
  - apply (A6 j k H). rewrite (wf_nnz M W). eapply in_col_nnz; eauto.
Qed.

(* the transpose is well-formed, and its entries correspond *)
Theorem transpose_wf (M : spmat T) (mp : arr nat) A mp' :
  wf_sp M -> sp_nnz M <> 0 -> sp_nnz M <= length mp ->
  transposeSparseMatrix M mp = Some (A, mp') ->
  wf_sp A.
Proof.
  intros W Hnz Lm E. destruct (transpose_spec M mp W Hnz Lm) as (A' & mp2 & E2 & H1 & H2 & H3 & _ & Hjc & He & _).
  rewrite E in E2. injection E2 as <- <-.
  assert (J : forall r, r <= sp_m M -> JC A r = tstart M r).
  { intros; apply gd_get; auto. }
  assert (Hq : forall q, q < sp_nnz M -> exists j k, in_col M j k /\ tpos M k = q).
  { intros q Hq. rewrite <- (tstart_total M W) in Hq. apply pos_surj in Hq.
    destruct Hq as (k & Hk & _ & _ & Ek). destruct (in_col_exists M k W Hk) as [j Hj].
    exists j, k; split; auto. }
  constructor.
  - intros r Hr. rewrite H1 in Hr. rewrite J by lia. apply Hjc; lia.
  - rewrite J by lia. reflexivity.
  - intros j Hj. rewrite H1 in Hj. rewrite !J by lia. apply start_mono; lia.
  - rewrite H1, H3, J by lia. apply tstart_total; auto.
  - intros q Hq'. rewrite H3 in Hq'. destruct (Hq q Hq') as (j & k & Hk & <-).
    destruct (He j k Hk) as (_ & Hi & _). eapply get_gd; eauto.
  - intros q Hq'. rewrite H3 in Hq'. destruct (Hq q Hq') as (j & k & Hk & <-).
    destruct (He j k Hk) as (_ & Hi & _). rewrite (gd_get _ _ _ _ Hi), H2. destruct Hk; auto.
  - intros q Hq'. rewrite H3 in Hq'. destruct (Hq q Hq') as (j & k & Hk & <-).
    destruct (He j k Hk) as (_ & _ & Hp). rewrite Hp. apply (wf_pr M W). eapply in_col_nnz; eauto.
Qed.

(* every column of the transpose lists its rows in increasing order *)
Theorem transpose_sorted (M : spmat T) (mp : arr nat) A mp' :
  wf_sp M -> sp_nnz M <> 0 -> sp_nnz M <= length mp ->
  transposeSparseMatrix M mp = Some (A, mp') ->
  forall r q q', in_col A r q -> in_col A r q' -> q < q' -> IR A q <= IR A q'.
Proof.
  intros W Hnz Lm E r q q' Hq Hq' Hlt.
  destruct (transpose_spec M mp W Hnz Lm) as (A' & mp2 & E2 & H1 & H2 & H3 & _ & Hjc & He & _).
  rewrite E in E2. injection E2 as <- <-.
  assert (J : forall r, r <= sp_m M -> JC A r = tstart M r) by (intros; apply gd_get; auto).
  destruct Hq as [R1 B1], Hq' as [_ B2]. rewrite H1 in R1.
  rewrite !J in B1, B2 by lia. rewrite Nat.add_1_r in *.
  destruct (pos_surj_bucket allsel (IR M) (sp_nnz M) r q B1) as (k & K1 & _ & K2 & K3).
  destruct (pos_surj_bucket allsel (IR M) (sp_nnz M) r q' B2) as (k' & K1' & _ & K2' & K3').
  assert (k < k').
  { destruct (Nat.lt_trichotomy k k') as [L|[L|L]]; auto.
    - subst. lia.
    - assert (pos allsel (IR M) (sp_nnz M) k' < pos allsel (IR M) (sp_nnz M) k).
      { apply pos_stable; auto. congruence. } lia. }
  destruct (in_col_exists M k W K1) as [j Hj]. destruct (in_col_exists M k' W K1') as [j' Hj'].
  destruct (He j k Hj) as (_ & I1 & _). destruct (He j' k' Hj') as (_ & I1' & _).
  unfold tpos in I1, I1'. rewrite K3 in I1. rewrite K3' in I1'.
  rewrite (gd_get _ _ _ _ I1), (gd_get _ _ _ _ I1').
  destruct (Nat.le_gt_cases j j') as [|Hgt]; auto. exfalso.
  destruct Hj as [X1 X2], Hj' as [Y1 Y2].
  pose proof (jc_mono M W (j' + 1) j ltac:(lia) ltac:(lia)). lia.
Qed.

End Transpose.

(* sum over all entries restricted to a column = sum over the column *)
Lemma col_restrict {T} (M : spmat T) (W : wf_sp M) (c : nat -> nat) (g : nat -> R) j :
  (forall j k, in_col M j k -> c k = j) -> j < sp_n M ->
  Rsum (sp_nnz M) (fun k => if c k =? j then g k else 0%R)
  = Rsumr (gd 0 (sp_jc M) j) (gd 0 (sp_jc M) (j + 1)) g.
Proof.
  intros C Hj.
  pose proof (jc_le_nnz M W j ltac:(lia)) as L1. pose proof (jc_le_nnz M W (j+1) ltac:(lia)) as L2.
  pose proof (wf_mono M W j Hj) as L3.
  rewrite <- Rsumr_Rsum.
  rewrite (Rsumr_split 0 (gd 0 (sp_jc M) j) (sp_nnz M)) by lia.
  rewrite (Rsumr_split (gd 0 (sp_jc M) j) (gd 0 (sp_jc M) (j + 1)) (sp_nnz M)) by lia.
  rewrite (Rsumr_0 0), (Rsumr_0 (gd 0 (sp_jc M) (j+1))).
  - rewrite Rplus_0_l, Rplus_0_r. apply Rsumr_ext. intros k Hk.
    rewrite (C j k) by (split; auto). rewrite Nat.eqb_refl. auto.
  - intros k Hk. destruct (in_col_exists M k W ltac:(lia)) as [j' Hj']. rewrite (C _ _ Hj').
    destruct (Nat.eqb_spec j' j); auto. subst. destruct Hj'; lia.
  - intros k Hk. destruct (in_col_exists M k W ltac:(lia)) as [j' Hj']. rewrite (C _ _ Hj').
    destruct (Nat.eqb_spec j' j); auto. subst. destruct Hj'; lia.
Qed.

Section TransposeReal.
Open Scope R_scope.
Notation JC M := (gd 0%nat (sp_jc M)).
Notation IR M := (gd 0%nat (sp_ir M)).
Notation PR M := (gd 0 (sp_pr M)).

Theorem transpose_dense (M : spmat R) (mp : arr nat) A mp' :
  wf_sp M -> sp_nnz M <> 0%nat -> (sp_nnz M <= length mp)%nat ->
  transposeSparseMatrix M mp = Some (A, mp') ->
  forall i j, (i < sp_m M)%nat -> (j < sp_n M)%nat -> dense A j i = dense M i j.
Proof.
  intros W Hnz Lm E i j Hi Hj.
  destruct (transpose_spec M mp W Hnz Lm) as (A' & mp2 & E2 & H1 & H2 & H3 & _ & Hjc & He & _).
  rewrite E in E2. injection E2 as <- <-.
  assert (J : forall r, (r <= sp_m M)%nat -> JC A r = tstart M r) by (intros; apply gd_get; auto).
  unfold dense at 1. rewrite !J by lia. rewrite Nat.add_1_r. unfold tstart. rewrite bucket_sum.
  set (c := fun k => gd 0%nat (sp_ir A) (tpos M k)).
  assert (C : forall j k, in_col M j k -> c k = j).
  { intros j0 k Hk. destruct (He j0 k Hk) as (_ & I & _). unfold c. apply gd_get; auto. }
  transitivity (Rsum (sp_nnz M) (fun k => if Nat.eqb (c k) j then (if Nat.eqb (IR M k) i then PR M k else 0) else 0)).
  - apply Rsum_ext. intros k Hk. simpl.
    destruct (in_col_exists M k W Hk) as [j0 Hj0]. destruct (He j0 k Hj0) as (_ & I & V).
    change (pos allsel (IR M) (sp_nnz M) k) with (tpos M k). fold (c k).
    assert (V' : gd 0 (sp_pr A) (tpos M k) = gd 0 (sp_pr M) k) by (unfold gd; rewrite V; auto).
    rewrite V'.
    destruct (Nat.eqb (IR M k) i), (Nat.eqb (c k) j); auto.
  - unfold dense. apply (col_restrict M W c); auto.
Qed.

End TransposeReal.

(* ------------------------------------------------------ symmetric permutation *)
Section Permute.
Context {T : Type}.

Notation JC M := (gd 0%nat (sp_jc M)).
Notation IR M := (gd 0%nat (sp_ir M)).

(* all entries on or above the diagonal *)
Definition upper (M : spmat T) : Prop := forall j k, in_col M j k -> IR M k <= j.

Variable M : spmat T.
Hypothesis W : wf_sp M.
Hypothesis SQ : sp_m M = sp_n M.
Hypothesis U : upper M.
Variable pf : nat -> nat.           (* the inverse permutation handed in *)
Hypothesis PP : is_perm (sp_n M) pf.
Variable col : nat -> nat.          (* column of an entry *)
Hypothesis COL : forall j k, in_col M j k -> col k = j.

Definition pkey (k : nat) : nat := Nat.max (pf (IR M k)) (pf (col k)).
Definition ppos (k : nat) : nat := pos allsel pkey (sp_nnz M) k.
Definition pstart (b : nat) : nat := start allsel pkey (sp_nnz M) b.

Lemma pkey_lt k : k < sp_nnz M -> pkey k < sp_n M.
Proof.
  intros Hk. destruct (in_col_exists M k W Hk) as [j Hj].
  unfold pkey. rewrite (COL _ _ Hj). destruct PP as [P1 _].
  pose proof (P1 (IR M k)). pose proof (P1 j). pose proof (wf_row M W k Hk). destruct Hj as [Hj _]. lia.
Qed.

Lemma pstart_total : pstart (sp_n M) = sp_nnz M.
Proof. unfold pstart. rewrite start_total; [apply nsel_all|]. intros; apply pkey_lt; auto. Qed.

Lemma ppos_lt k : k < sp_nnz M -> ppos k < sp_nnz M.
Proof.
  intros H. unfold ppos.
  pose proof (pos_bounds allsel pkey (sp_nnz M) k H eq_refl).
  pose proof (pkey_lt k H).
  pose proof (start_mono allsel pkey (sp_nnz M) (S (pkey k)) (sp_n M) ltac:(lia)).
  pose proof pstart_total. unfold pstart in *. lia.
Qed.

Lemma max_if a b : (if b <? a then a else b) = Nat.max a b.
Proof. beq; lia. Qed.
Lemma min_if a b : (if a <? b then a else b) = Nat.min a b.
Proof. beq; lia. Qed.

Theorem permute_spec (C : spmat T) (pi PK : arr nat) :
  vec pi (sp_n M) pf ->
  sp_n C = sp_n M -> sp_m C = sp_n M -> sp_nnz C = sp_nnz M ->
  length (sp_jc C) = sp_n M + 1 -> get (sp_jc C) (sp_n M) = Some (sp_nnz M) ->
  sp_nnz M <= length (sp_ir C) -> sp_nnz M <= length (sp_pr C) -> sp_nnz M <= length PK ->
  exists C' PK', permuteSparseSymmetricMatrix M pi C PK = Some (C', PK') /\
    sp_n C' = sp_n M /\ sp_m C' = sp_n M /\ sp_nnz C' = sp_nnz M /\
    length PK' = length PK /\
    length (sp_jc C') = sp_n M + 1 /\ length (sp_ir C') = length (sp_ir C) /\ length (sp_pr C') = length (sp_pr C) /\
    (forall b, b <= sp_n M -> get (sp_jc C') b = Some (pstart b)) /\
    (forall j k, in_col M j k ->
        get PK' k = Some (ppos k) /\
        get (sp_ir C') (ppos k) = Some (Nat.min (pf (IR M k)) (pf j)) /\
        get (sp_pr C') (ppos k) = get (sp_pr M) k).
Proof.
  intros P N1 N2 N3 Ljc Gjc Lir Lpr LPK.
  cut (wp (permuteSparseSymmetricMatrix M pi C PK) (fun r => let '(C', PK') := r in
    sp_n C' = sp_n M /\ sp_m C' = sp_n M /\ sp_nnz C' = sp_nnz M /\
    length PK' = length PK /\
    length (sp_jc C') = sp_n M + 1 /\ length (sp_ir C') = length (sp_ir C) /\ length (sp_pr C') = length (sp_pr C) /\
    (forall b, b <= sp_n M -> get (sp_jc C') b = Some (pstart b)) /\
    (forall j k, in_col M j k ->
        get PK' k = Some (ppos k) /\
        get (sp_ir C') (ppos k) = Some (Nat.min (pf (IR M k)) (pf j)) /\
        get (sp_pr C') (ppos k) = get (sp_pr M) k))).
  { intros H. apply wp_elim in H. destruct H as [[A mp'] [E H]]. exists A, mp'. split; auto. }
  unfold permuteSparseSymmetricMatrix.
  destruct PP as [P1 P2].
  wb. apply wp_clear; [rewrite alloc_length; auto|].
  intros w0 Lw0 Gw0. rewrite alloc_length in Lw0.
  wb. apply (wp_for (fun j w => length w = sp_n M /\
       forall r, r < sp_n M -> get w r = Some (cnt allsel pkey r (JC M j)))).
  { lia. }
  { split; auto. intros r Hr. rewrite Gw0. beq; [|lia]. rewrite (wf_jc0 M W). reflexivity. }
  { intros j w Hj HI. wget P.
    apply (wp_col_loop M j _ w (fun k w => length w = sp_n M /\
       forall r, r < sp_n M -> get w r = Some (cnt allsel pkey r k))); auto; [lia| |].
    - intros k w' Hk [L G]. pose proof (in_col_nnz M j k W Hk) as Hn. pose proof (wf_row M W k Hn) as Hr.
      wget (wf_ir M W). pose proof (U j k Hk).
      destruct (Nat.ltb_spec j (IR M k)); [lia|].
      wget P. rewrite max_if.
      assert (Ek : pkey k = Nat.max (pf (IR M k)) (pf j)) by (unfold pkey; rewrite (COL _ _ Hk); auto).
      rewrite <- Ek. pose proof (pkey_lt k Hn) as Hp.
      wb. eapply wp_get; [apply (G _ Hp)|]. cbv beta.
      wset w2 L2 G2; [lia|]. split; [lia|]. intros r Hr'. rewrite G2, (Nat.add_1_r k), cnt_S. simpl.
      rewrite (Nat.eqb_sym (pkey k) r). destruct (Nat.eqb_spec r (pkey k)) as [->|].
      + f_equal; lia.
      + rewrite Nat.add_0_r. auto.
    - intros s' HI'. rewrite <- Nat.add_1_r. auto. }
  intros w1 [L1 G1]. rewrite (wf_nnz M W) in G1.
  wb. apply (wp_cumsum (sp_jc C) w1 (sp_n M) (fun b => cnt allsel pkey b (sp_nnz M))); auto; [lia|].
  intros jc w2 Lj Lw2 Gj Gw2. cbv beta iota.
  wb. apply (wp_for (fun j s => let '(w, ir, pr, pk) := s in
       length w = sp_n M /\ length ir = length (sp_ir C) /\ length pr = length (sp_pr C) /\ length pk = length PK /\
       (forall r, r < sp_n M -> get w r = Some (pstart r + cnt allsel pkey r (JC M j))) /\
       (forall j' k', in_col M j' k' -> k' < JC M j ->
           get pk k' = Some (ppos k') /\ get ir (ppos k') = Some (Nat.min (pf (IR M k')) (pf j')) /\
           get pr (ppos k') = get (sp_pr M) k'))).
  { lia. }
  { repeat split; auto; try (exfalso; match goal with H : _ < JC M 0 |- _ => rewrite (wf_jc0 M W) in H; lia end).
    - lia.
    - intros r Hr. rewrite Gw2. beq; [|lia]. rewrite (wf_jc0 M W). unfold cnt at 2; simpl.
      rewrite Nat.add_0_r. reflexivity. }
  { intros j s Hj HI. wget P.
    apply (wp_col_loop M j _ s (fun k s => let '(w, ir, pr, pk) := s in
       length w = sp_n M /\ length ir = length (sp_ir C) /\ length pr = length (sp_pr C) /\ length pk = length PK /\
       (forall r, r < sp_n M -> get w r = Some (pstart r + cnt allsel pkey r k)) /\
       (forall j' k', in_col M j' k' -> k' < k ->
           get pk k' = Some (ppos k') /\ get ir (ppos k') = Some (Nat.min (pf (IR M k')) (pf j')) /\
           get pr (ppos k') = get (sp_pr M) k'))); auto; [lia| |].
    - intros k [[[w ir] pr] pk] Hk (A1 & A2 & A3 & A4 & A5 & A6).
      pose proof (in_col_nnz M j k W Hk) as Hn. pose proof (wf_row M W k Hn) as Hr.
      wget (wf_ir M W). pose proof (U j k Hk).
      destruct (Nat.ltb_spec j (IR M k)); [lia|].
      wget P. rewrite max_if, min_if.
      assert (Ek : pkey k = Nat.max (pf (IR M k)) (pf j)) by (unfold pkey; rewrite (COL _ _ Hk); auto).
      rewrite <- Ek. pose proof (pkey_lt k Hn) as Hp. pose proof (ppos_lt k Hn) as Ht.
      wb. eapply wp_get; [apply (A5 _ Hp)|]. cbv beta.
      change (pstart (pkey k) + cnt allsel pkey (pkey k) k) with (ppos k).
      wb. wset w' Lw' Gw'; [lia|].
      wb. wset ir' Li' Gi'; [lia|].
      destruct (wf_pr M W k Hn) as [v Hv]. wb. eapply wp_get; [exact Hv|]. cbv beta.
      wb. wset pr' Lp' Gp'; [lia|].
      wb. wset pk2 Lm' Gm'; [lia|].
      simpl. repeat split; try congruence.
      + intros r Hr'. rewrite Gw', (Nat.add_1_r k), cnt_S. simpl. rewrite (Nat.eqb_sym (pkey k) r).
        destruct (Nat.eqb_spec r (pkey k)) as [->|].
        * f_equal. unfold ppos, pos, pstart. lia.
        * rewrite Nat.add_0_r. auto.
      + rewrite Gm'. destruct (Nat.eqb_spec k' k) as [->|]; auto. apply (A6 j' k'); auto; lia.
      + rewrite Gi'. destruct (Nat.eqb_spec (ppos k') (ppos k)) as [E|E].
        * apply pos_inj in E; auto; [|eapply in_col_nnz; eauto]. subst k'.
          rewrite (in_col_unique M j' j k W) by auto. auto.
        * apply (A6 j' k'); auto. assert (k' <> k) by congruence. lia.
      + rewrite Gp'. destruct (Nat.eqb_spec (ppos k') (ppos k)) as [E|E].
        * apply pos_inj in E; auto; [|eapply in_col_nnz; eauto]. subst k'. auto.
        * apply (A6 j' k'); auto. assert (k' <> k) by congruence. lia.
    - intros s' HI'. rewrite <- Nat.add_1_r. auto. }
  intros [[[w ir] pr] pk] (A1 & A2 & A3 & A4 & A5 & A6).
  simpl. repeat split; auto; try congruence.
  - intros r Hr. rewrite Gj. destruct (Nat.ltb_spec r (sp_n M)).
    + reflexivity.
    + replace r with (sp_n M) by lia. rewrite Gjc, pstart_total; auto.
  - apply (A6 j k H). rewrite (wf_nnz M W). eapply in_col_nnz; eauto.
  - apply (A6 j k H). rewrite (wf_nnz M W). eapply in_col_nnz; eauto.
  - apply (A6 j k H). rewrite (wf_nnz M W). eapply in_col_nnz; eauto.
Qed.


Section Result.
Variables (C' : spmat T) (PK' : arr nat).
Hypothesis HN : sp_n C' = sp_n M.
Hypothesis HM : sp_m C' = sp_n M.
Hypothesis HZ : sp_nnz C' = sp_nnz M.
Hypothesis HJ : forall b, b <= sp_n M -> get (sp_jc C') b = Some (pstart b).
Hypothesis HE : forall j k, in_col M j k ->
        get PK' k = Some (ppos k) /\
        get (sp_ir C') (ppos k) = Some (Nat.min (pf (IR M k)) (pf j)) /\
        get (sp_pr C') (ppos k) = get (sp_pr M) k.

Lemma ppos_surj q : q < sp_nnz M -> exists j k, in_col M j k /\ ppos k = q.
Proof.
  intros Hq. rewrite <- pstart_total in Hq. apply pos_surj in Hq.
  destruct Hq as (k & Hk & _ & _ & Ek). destruct (in_col_exists M k W Hk) as [j Hj].
  exists j, k; split; auto.
Qed.

Lemma permute_wf : wf_sp C'.
Proof.
  assert (J : forall r, r <= sp_n M -> JC C' r = pstart r) by (intros; apply gd_get; auto).
  destruct PP as [P1 P2].
  constructor.
  - intros r Hr. rewrite HN in Hr. rewrite J by lia. apply HJ; lia.
  - rewrite J by lia. reflexivity.
  - intros j Hj. rewrite HN in Hj. rewrite !J by lia. apply start_mono; lia.
  - rewrite HN, HZ, J by lia. apply pstart_total.
  - intros q Hq'. rewrite HZ in Hq'. destruct (ppos_surj q Hq') as (j & k & Hk & <-).
    destruct (HE j k Hk) as (_ & Hi & _). eapply get_gd; eauto.
  - intros q Hq'. rewrite HZ in Hq'. destruct (ppos_surj q Hq') as (j & k & Hk & <-).
    destruct (HE j k Hk) as (_ & Hi & _). rewrite (gd_get _ _ _ _ Hi), HM.
    pose proof (P1 j ltac:(destruct Hk; auto)). lia.
  - intros q Hq'. rewrite HZ in Hq'. destruct (ppos_surj q Hq') as (j & k & Hk & <-).
    destruct (HE j k Hk) as (_ & _ & Hp). rewrite Hp. apply (wf_pr M W). eapply in_col_nnz; eauto.
Qed.

(* entry k of column j lands in column max(pf i, pf j) *)
Lemma permute_in_col j k : in_col M j k -> in_col C' (Nat.max (pf (IR M k)) (pf j)) (ppos k).
Proof.
  intros Hk. pose proof (in_col_nnz M j k W Hk) as Hn.
  assert (J : forall r, r <= sp_n M -> JC C' r = pstart r) by (intros; apply gd_get; auto).
  pose proof (pkey_lt k Hn) as Hp.
  assert (Ek : pkey k = Nat.max (pf (IR M k)) (pf j)) by (unfold pkey; rewrite (COL _ _ Hk); auto).
  rewrite <- Ek. split; [lia|].
  rewrite !J by lia. rewrite Nat.add_1_r. apply (pos_bounds allsel pkey (sp_nnz M) k Hn eq_refl).
Qed.

Lemma permute_upper : forall j k, in_col C' j k -> IR C' k <= j.
Proof.
  intros b q Hq. pose proof (in_col_nnz C' b q permute_wf Hq) as Hn. rewrite HZ in Hn.
  destruct (ppos_surj q Hn) as (j & k & Hk & <-).
  pose proof (permute_in_col j k Hk) as Hc. 
  assert (b = Nat.max (pf (IR M k)) (pf j)) by (apply (in_col_unique C' _ _ (ppos k) permute_wf); auto).
  destruct (HE j k Hk) as (_ & Hi & _). rewrite (gd_get _ _ _ _ Hi). lia.
Qed.

Lemma permute_map_inj k k' : k < sp_nnz M -> k' < sp_nnz M -> get PK' k = get PK' k' -> k = k'.
Proof.
  intros H H' E.
  destruct (in_col_exists M k W H) as [j Hj]. destruct (in_col_exists M k' W H') as [j' Hj'].
  destruct (HE j k Hj) as (E1 & _). destruct (HE j' k' Hj') as (E2 & _).
  rewrite E1, E2 in E. injection E as E. apply pos_inj in E; auto.
Qed.
End Result.

End Permute.

(* the column an entry belongs to *)
Definition colof {T} (M : spmat T) (k : nat) : nat :=
  natsum (sp_n M) (fun j => if gd 0 (sp_jc M) (j + 1) <=? k then 1 else 0).

Lemma colof_spec {T} (M : spmat T) : wf_sp M -> forall j k, in_col M j k -> colof M k = j.
Proof.
  intros W j k [Hj Hk]. unfold colof.
  assert (G : forall n, n <= sp_n M ->
     natsum n (fun j0 => if gd 0 (sp_jc M) (j0 + 1) <=? k then 1 else 0) = Nat.min n j).
  { induction n as [|n IH]; intros Hn; cbn [natsum]; auto. rewrite IH by lia.
    destruct (Nat.leb_spec (gd 0 (sp_jc M) (n + 1)) k).
    - assert (n < j); [|lia]. destruct (Nat.lt_ge_cases n j); auto.
      pose proof (jc_mono M W (j + 1) (n + 1) ltac:(lia) ltac:(lia)). lia.
    - assert (j <= n); [|lia]. destruct (Nat.lt_ge_cases n j); auto.
      pose proof (jc_mono M W (n + 1) j ltac:(lia) ltac:(lia)). lia. }
  rewrite G by auto. lia.
Qed.

Section PermuteReal.
Open Scope R_scope.
Notation JC M := (gd 0%nat (sp_jc M)).
Notation IR M := (gd 0%nat (sp_ir M)).
Notation PR M := (gd 0 (sp_pr M)).


Lemma permute_dense (M : spmat R) pf (C' : spmat R) PK' :
  wf_sp M -> sp_m M = sp_n M -> upper M -> is_perm (sp_n M) pf ->
  sp_nnz C' = sp_nnz M ->
  (forall b, (b <= sp_n M)%nat -> get (sp_jc C') b = Some (pstart M pf (colof M) b)) ->
  (forall j k, in_col M j k ->
        get PK' k = Some (ppos M pf (colof M) k) /\
        get (sp_ir C') (ppos M pf (colof M) k) = Some (Nat.min (pf (IR M k)) (pf j)) /\
        get (sp_pr C') (ppos M pf (colof M) k) = get (sp_pr M) k) ->
  forall i j, (i < sp_n M)%nat -> (j < sp_n M)%nat ->
  symdense C' (pf i) (pf j) = symdense M i j.
Proof.
  intros W SQ U PP HZ HJ HE i j Hi Hj.
  assert (J : forall r, (r <= sp_n M)%nat -> JC C' r = pstart M pf (colof M) r) by (intros; apply gd_get; auto).
  destruct PP as [P1 P2]. pose proof (P1 i Hi). pose proof (P1 j Hj).
  unfold symdense. unfold dense at 1. rewrite !J by lia. rewrite Nat.add_1_r. unfold pstart. rewrite bucket_sum.
  set (lo := Nat.min i j). set (hi := Nat.max i j).
  transitivity (Rsum (sp_nnz M) (fun k => if Nat.eqb (colof M k) hi then (if Nat.eqb (IR M k) lo then PR M k else 0) else 0)).
  - apply Rsum_ext. intros k Hk. simpl.
    destruct (in_col_exists M k W Hk) as [c Hc]. destruct (HE c k Hc) as (_ & I & V).
    change (pos allsel (pkey M pf (colof M)) (sp_nnz M) k) with (ppos M pf (colof M) k).
    rewrite (gd_get _ _ _ _ I).
    assert (V' : gd 0 (sp_pr C') (ppos M pf (colof M) k) = PR M k) by (unfold gd; rewrite V; auto).
    rewrite V'. unfold pkey. rewrite (colof_spec M W c k Hc).
    pose proof (U c k Hc) as Hu. pose proof (wf_row M W k Hk) as Hr. rewrite SQ in Hr.
    assert (Hcn : (c < sp_n M)%nat) by (destruct Hc; auto).
    destruct (Nat.eqb_spec (Nat.max (pf (IR M k)) (pf c)) (Nat.max (pf i) (pf j))) as [E1|E1];
    destruct (Nat.eqb_spec (Nat.min (pf (IR M k)) (pf c)) (Nat.min (pf i) (pf j))) as [E2|E2]; auto.
    + assert (D : (pf (IR M k) = pf i /\ pf c = pf j) \/ (pf (IR M k) = pf j /\ pf c = pf i)) by lia.
      assert (D' : (IR M k = i /\ c = j) \/ (IR M k = j /\ c = i)).
      { destruct D as [[D1 D2]|[D1 D2]]; apply P2 in D1; auto; apply P2 in D2; auto. }
      destruct (Nat.eqb_spec c hi); [|unfold hi in *; lia].
      destruct (Nat.eqb_spec (IR M k) lo); [|unfold lo in *; lia]. auto.
    + destruct (Nat.eqb_spec c hi); auto. destruct (Nat.eqb_spec (IR M k) lo); auto.
      exfalso. apply E2. unfold lo, hi in *.
      assert (D : (IR M k = i /\ c = j) \/ (IR M k = j /\ c = i)) by lia.
      destruct D as [[D1 D2]|[D1 D2]]; rewrite D1, D2; lia.
    + destruct (Nat.eqb_spec c hi); auto. destruct (Nat.eqb_spec (IR M k) lo); auto.
      exfalso. apply E1. unfold lo, hi in *.
      assert (D : (IR M k = i /\ c = j) \/ (IR M k = j /\ c = i)) by lia.
      destruct D as [[D1 D2]|[D1 D2]]; rewrite D1, D2; lia.
    + destruct (Nat.eqb_spec c hi); auto. destruct (Nat.eqb_spec (IR M k) lo); auto.
      exfalso. apply E1. unfold lo, hi in *.
      assert (D : (IR M k = i /\ c = j) \/ (IR M k = j /\ c = i)) by lia.
      destruct D as [[D1 D2]|[D1 D2]]; rewrite D1, D2; lia.
  - unfold dense. apply (col_restrict M W (colof M)).
    + apply colof_spec; auto.
    + unfold hi; lia.
Qed.

End PermuteReal.
