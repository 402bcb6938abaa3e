(* The data branch and bound builds for its relaxations (socp_to_ecos_bb). *)
From Coq Require Import List Arith Bool ZArith QArith Lia Permutation.
From Verif Require Import Base Num NumI.
From Verif.Model Require Import Consts Spla Types Ecos BbTypes Bb.
From Verif.Spec Require Import Matrix Relaxed.
From Verif.Proofs Require Import Wlp BbNum BbP.
Import ListNotations.
Open Scope nat_scope.

Section Rank.
Variables (nb ni : nat) (col : nat -> nat) (n : nat).
Notation mk := (is_intvar nb ni col).
Notation rk := (rank nb ni col).

Lemma rank_S c : rk (S c) = rk c + (if mk c then 1 else 0).
Proof. unfold rank. rewrite seq_S, filter_app, app_length. cbn [filter Nat.add]. destruct (mk c); reflexivity. Qed.
Lemma rank_mono a b : a <= b -> rk a <= rk b.
Proof. induction 1; [lia|]. rewrite rank_S. lia. Qed.

Lemma mk_iff c : mk c = true <-> exists j, j < nb + ni /\ col j = c.
Proof.
  unfold is_intvar, is_bool, is_int. rewrite orb_true_iff, !existsb_exists. split.
  - intros [(j & H & E)|(j & H & E)]; apply in_seq in H; apply Nat.eqb_eq in E; [exists j|exists (nb + j)]; split; auto; lia.
  - intros (j & H & E). destruct (Nat.lt_ge_cases j nb).
    + left. exists j. split; [apply in_seq; lia|apply Nat.eqb_eq; exact E].
    + right. exists (j - nb). split; [apply in_seq; lia|]. replace (nb + (j - nb)) with j by lia. apply Nat.eqb_eq; exact E.
Qed.
Lemma bool_iff c : is_bool nb col c = true <-> exists j, j < nb /\ col j = c.
Proof.
  unfold is_bool. rewrite existsb_exists. split; intros (j & H & E); exists j; [apply in_seq in H; apply Nat.eqb_eq in E|split; [apply in_seq|apply Nat.eqb_eq]]; auto; lia.
Qed.

Hypothesis P : proper_list nb ni col n.
Lemma rank_n : rk n = nb + ni.
Proof.
  destruct P as [C I]. unfold rank.
  assert (Permutation (filter mk (seq 0 n)) (map col (seq 0 (nb + ni)))) as H.
  { apply NoDup_Permutation.
    - apply NoDup_filter, seq_NoDup.
    - assert (G: forall l, NoDup l -> (forall j, In j l -> j < nb + ni) -> NoDup (map col l)).
      { induction l as [|a l IH]; intros N B; cbn; [constructor|]. inversion N; subst. constructor; [|apply IH; auto; intros; apply B; right; auto].
        intros X. apply in_map_iff in X as (j & E & Hj). apply I in E; [subst; auto|apply B; right; auto|apply B; left; auto]. }
      apply G; [apply seq_NoDup|]. intros j Hj. apply in_seq in Hj. lia.
    - intros x. rewrite filter_In, in_seq, mk_iff, in_map_iff. split.
      + intros (_ & j & Hj & E). exists j. split; auto. apply in_seq. lia.
      + intros (j & E & Hj). apply in_seq in Hj. split; [|exists j; split; auto; lia]. pose proof (C j ltac:(lia)). lia. }
  rewrite (Permutation_length H), map_length, seq_length. reflexivity.
Qed.
Lemma rank_lt c : c < n -> mk c = true -> rk c < nb + ni.
Proof. intros H M. pose proof (rank_mono (S c) n ltac:(lia)) as L. rewrite rank_n, rank_S, M in L. lia. Qed.

Lemma rank_onto b i : i < rk b -> exists c, c < b /\ mk c = true /\ rk c = i.
Proof.
  induction b as [|b IH]; intros H; [unfold rank in H; cbn in H; lia|]. rewrite rank_S in H. destruct (Nat.lt_ge_cases i (rk b)) as [L|L].
  - destruct (IH L) as (c & A & B & C). exists c. auto with arith.
  - exists b. destruct (mk b) eqn:E; [|lia]. split; [lia|]. split; [reflexivity|lia].
Qed.

(* the row pair of a variable is the one its place in the list suggests exactly when
   the list is ascending *)
Lemma rank_sorted : ascending nb ni col -> forall j, j < nb + ni -> rk (col j) = j.
Proof.
  intros A. destruct P as [C I].
  assert (L: forall j, j < nb + ni -> j <= rk (col j)).
  { induction j as [|j IH]; intros Hj; [lia|]. specialize (IH ltac:(lia)). pose proof (A j (S j) ltac:(lia) Hj) as Lt.
    pose proof (rank_mono (S (col j)) (col (S j)) Lt) as M. rewrite rank_S in M. replace (mk (col j)) with true in M; [lia|].
    symmetry. apply mk_iff. exists j. split; auto; lia. }
  assert (U: forall k j, j < nb + ni -> j + k = nb + ni -> rk (col j) <= j).
  { induction k as [|k IH]; intros j Hj E; [lia|].
    assert (Mk: mk (col j) = true) by (apply mk_iff; exists j; auto).
    destruct (Nat.eq_dec k 0) as [->|Nk].
    - pose proof (rank_lt _ (C j Hj) Mk). lia.
    - specialize (IH (S j) ltac:(lia) ltac:(lia)). pose proof (A j (S j) ltac:(lia) ltac:(lia)) as Lt.
      pose proof (rank_mono (S (col j)) (col (S j)) Lt) as M. rewrite rank_S, Mk in M. lia. }
  intros j Hj. specialize (L j Hj). specialize (U (nb + ni - j) j Hj ltac:(lia)). lia.
Qed.
Lemma sorted_rank : (forall j, j < nb + ni -> rk (col j) = j) -> ascending nb ni col.
Proof.
  intros H i j L Hj. destruct (Nat.lt_ge_cases (col i) (col j)) as [A|A]; [exact A|].
  pose proof (rank_mono _ _ A) as M. rewrite !H in M by lia. lia.
Qed.
End Rank.

Section Setup.
Context {O : Ops}.

Lemma contains_ok (vars : arr nat) num (f : nat -> nat) c : (forall j, j < num -> get vars j = Some (f j)) ->
  contains c num vars = Some (existsb (fun j => f j =? c) (seq 0 num)).
Proof.
  intros H. unfold contains.
  assert (wp (for_ 0 num (fun i ans => ' v <- get vars i;; Some (ans + (if v =? c then 1 else 0))) 0)
     (fun ans => negb (ans =? 0) = existsb (fun j => f j =? c) (seq 0 num))) as W.
  { apply wp_for with (Inv := fun i ans => negb (ans =? 0) = existsb (fun j => f j =? c) (seq 0 i)); [lia|reflexivity| |auto].
    intros i a Hi IH. apply wp_bind, (wp_get _ _ (f i)); [apply H; lia|]. apply wp_ret. rewrite seq_S, existsb_app, <- IH. cbn [existsb Nat.add]. rewrite orb_false_r.
    destruct (f i =? c); [|rewrite Nat.add_0_r, orb_false_r; reflexivity]. rewrite orb_true_r. destruct a; reflexivity. }
  destruct (wp_elim _ _ W) as (a & -> & E). cbn [bind]. rewrite E. reflexivity.
Qed.

Variables (nb ni : nat) (col : nat -> nat) (M : spmat F).
Notation n := (sp_n M).
Notation mk := (is_intvar nb ni col).
Notation rk := (rank nb ni col).
Notation J := (gd 0 (sp_jc M)).
Hypothesis WF : wf_sp M.
Hypothesis P : proper_list nb ni col n.

Notation nv := (nb + ni).
Definition start (c : nat) : nat := J c + 2 * rk c.
Definition mw (c : nat) : nat := if mk c then 2 else 0.

Lemma start_S c : c < n -> start (c + 1) = start c + mw c + (J (c + 1) - J c).
Proof. intros H. pose proof (wf_mono _ WF c H). unfold start, mw. rewrite Nat.add_1_r in *. rewrite rank_S. destruct (mk c); lia. Qed.
Lemma J_mono a b : a <= b -> b <= n -> J a <= J b.
Proof. induction 1; intros L; [lia|]. pose proof (wf_mono _ WF m ltac:(lia)). rewrite Nat.add_1_r in *. specialize (IHle ltac:(lia)). lia. Qed.
Lemma start_mono a b : a <= b -> b <= n -> start a <= start b.
Proof. intros L Lb. pose proof (J_mono a b L Lb). pose proof (rank_mono nb ni col a b L). unfold start. lia. Qed.
Lemma start_n : start n = sp_nnz M + 2 * nv.
Proof. unfold start. rewrite (wf_nnz _ WF), (rank_n nb ni col n P). reflexivity. Qed.

(* entry k of the new column c *)
Definition want (c k : nat) : nat * option F :=
  if mk c then match k with 0 => (2 * rk c, Some (fconst (-1)%Q)) | 1 => (2 * rk c + 1, Some f1)
               | S (S k) => (gd 0 (sp_ir M) (J c + k) + 2 * nv, get (sp_pr M) (J c + k)) end
  else (gd 0 (sp_ir M) (J c + k) + 2 * nv, get (sp_pr M) (J c + k)).
Definition done (c : nat) (Gpr : arr F) (Gir : arr nat) : Prop :=
  forall k, k < mw c + (J (c + 1) - J c) -> get Gir (start c + k) = Some (fst (want c k)) /\ get Gpr (start c + k) = snd (want c k).

Definition sz := sp_nnz M + 2 * nv.
(* the old entries of column c at offset off *)
Lemma put_ok c off Gpr Gjc Gir : c < n -> get Gjc c = Some (start c) -> off = mw c -> length Gpr = sz -> length Gir = sz ->
  wp (put_entries (2 * nb + 2 * ni) off c (sp_pr M) (sp_jc M) (sp_ir M) Gpr Gjc Gir) (fun '(Gpr', Gir') =>
    length Gpr' = sz /\ length Gir' = sz /\
    (forall k, k < J (c + 1) - J c -> get Gir' (start c + off + k) = Some (gd 0 (sp_ir M) (J c + k) + 2 * nv) /\
       get Gpr' (start c + off + k) = get (sp_pr M) (J c + k)) /\
    (forall k, k < start c + off \/ start (c + 1) <= k -> get Gir' k = get Gir k /\ get Gpr' k = get Gpr k)).
Proof.
  intros Hc Ho Off L1 L2. unfold put_entries. pose proof (wf_mono _ WF c Hc) as Mo. pose proof (J_mono (c + 1) n ltac:(lia) ltac:(lia)) as Jn. rewrite (wf_nnz _ WF) in Jn.
  pose proof (start_S c Hc) as S1. pose proof (start_mono (c + 1) n ltac:(lia) ltac:(lia)) as S2. rewrite start_n in S2.
  apply wp_bind, (wp_get _ _ (J (c + 1))). { rewrite <- Nat.add_1_r. apply (wf_jc _ WF). lia. }
  apply wp_bind, (wp_get _ _ (J c)). { apply (wf_jc _ WF). lia. }
  eapply wp_for with (Inv := fun i '(Gpr', Gir') => length Gpr' = sz /\ length Gir' = sz /\
    (forall k, k < i -> get Gir' (start c + off + k) = Some (gd 0 (sp_ir M) (J c + k) + 2 * nv) /\
       get Gpr' (start c + off + k) = get (sp_pr M) (J c + k)) /\
    (forall k, k < start c + off \/ start c + off + i <= k -> get Gir' k = get Gir k /\ get Gpr' k = get Gpr k)).
  - lia.
  - repeat split; auto; intros; lia.
  - intros i [Gp Gi] Hi (A & B & C & D). apply wp_bind, (wp_get _ _ (start c)); [exact Ho|].
    destruct (wf_pr _ WF (J c + i) ltac:(lia)) as [v Hv]. apply wp_bind, (wp_get _ _ v); [exact Hv|].
    apply wp_bind, wp_set; [unfold sz in *; lia|]. intros Gp' Lp Gpe.
    apply wp_bind, (wp_get _ _ (gd 0 (sp_ir M) (J c + i))); [apply (wf_ir _ WF); lia|].
    apply wp_bind, wp_set; [unfold sz in *; lia|]. intros Gi' Li Gie. apply wp_ret.
    split; [congruence|]. split; [congruence|]. split.
    + intros k Hk. rewrite Gpe, Gie. destruct (Nat.eqb_spec (start c + off + k) (start c + off + i)) as [E|E].
      * assert (k = i) as -> by lia. split; [f_equal; lia|]. rewrite Hv. reflexivity.
      * apply C. lia.
    + intros k Hk. rewrite Gpe, Gie. destruct (Nat.eqb_spec k (start c + off + i)); [lia|]. apply D. lia.
  - intros [Gp Gi] (A & B & C & D). split; [exact A|]. split; [exact B|]. split; [exact C|]. intros k Hk. apply D. lia.
Qed.

Definition blo (c : nat) : F := if is_bool nb col c then f0 else MAX_FLOAT_INT.
Definition bhi (c : nat) : F := if is_bool nb col c then f1 else MAX_FLOAT_INT.
Variables (m : nat).
Definition hz := m + 2 * nb + 2 * ni.

Definition upto (i : nat) (st : arr F * arr nat * arr nat * arr F * nat) : Prop :=
  let '(Gpr, Gjc, Gir, h, j) := st in
  j = rk i /\ length Gpr = sz /\ length Gir = sz /\ length h = hz /\ length Gjc = n + 1 /\
  (forall k, k <= n -> get Gjc k = Some (J k + 2 * rk (Nat.min k i))) /\
  (forall c, c < i -> done c Gpr Gir) /\
  (forall c, c < i -> mk c = true -> get h (2 * rk c) = Some (blo c) /\ get h (2 * rk c + 1) = Some (bhi c)).

Lemma bounds_ok i st : i < n -> mk i = true -> upto i st ->
  wp (put_bounds n (2 * nb + 2 * ni) i (blo i) (bhi i) (sp_pr M) (sp_jc M) (sp_ir M) st) (upto (S i)).
Proof.
  destruct st as [[[[Gpr Gjc] Gir] h] j]. intros Hi Mk (Ej & Lp & Li & Lh & Lj & Jc & Dn & Hh).
  assert (Rl: rk i < nv) by (apply (rank_lt nb ni col n P); auto).
  pose proof (start_S i Hi) as S1. pose proof (start_mono (i + 1) n ltac:(lia) ltac:(lia)) as S2. rewrite start_n in S2. fold sz in S2.
  assert (Mw: mw i = 2) by (unfold mw; rewrite Mk; reflexivity).
  assert (Ho: get Gjc i = Some (start i)) by (rewrite Jc by lia; rewrite Nat.min_id; reflexivity).
  unfold put_bounds. apply wp_bind, (wp_get _ _ (start i) _ Ho).
  apply wp_bind, wp_set; [lia|]. intros Gp1 L1 G1. apply wp_bind, wp_set; [lia|]. intros Gp2 L2 G2.
  apply wp_bind, wp_set; [lia|]. intros Gi1 L3 G3. apply wp_bind, wp_set; [lia|]. intros Gi2 L4 G4.
  apply wp_bind, wp_set; [unfold hz in *; lia|]. intros h1 L5 G5. apply wp_bind, wp_set; [unfold hz in *; lia|]. intros h2 L6 G6.
  apply wp_bind. eapply wp_conseq.
  { apply wp_for with (Inv := fun k0 a => length a = n + 1 /\ forall k, k <= n -> get a k = Some (J k + 2 * rk (Nat.min k i) + if (S i <=? k) && (k <? k0) then 2 else 0)) (Q := fun a => length a = n + 1 /\ forall k, k <= n -> get a k = Some (J k + 2 * rk (Nat.min k (S i)))).
    - lia.
    - split; [exact Lj|]. intros k Hk. rewrite Jc by lia. f_equal. destruct (Nat.leb_spec (S i) k), (Nat.ltb_spec k (S i)); cbn; lia.
    - intros k0 a Hk0 [La Ga]. apply wp_bind. eapply wp_get; [apply Ga; lia|].
      apply wp_set; [lia|]. intros a' La' Ga'. split; [congruence|]. intros k Hk. rewrite Ga'. destruct (Nat.eqb_spec k k0) as [->|N].
      + f_equal. destruct (Nat.leb_spec (S i) k0), (Nat.ltb_spec k0 k0), (Nat.ltb_spec k0 (S k0)); cbn; lia.
      + rewrite Ga by lia. f_equal. destruct (Nat.leb_spec (S i) k), (Nat.ltb_spec k k0), (Nat.ltb_spec k (S k0)); cbn; lia.
    - intros a [La Ga]. split; [exact La|]. intros k Hk. rewrite Ga by lia. f_equal.
      destruct (Nat.leb_spec (S i) k), (Nat.ltb_spec k (S n)); cbn; try lia.
      + rewrite !Nat.min_r by lia. rewrite rank_S, Mk. lia.
      + rewrite !Nat.min_l by lia. lia. }
  intros Gjc' [Lj' Jc']. cbv beta.
  assert (Ho': get Gjc' i = Some (start i)) by (rewrite Jc' by lia; rewrite Nat.min_l by lia; reflexivity).
  apply wp_bind. eapply wp_conseq; [apply (put_ok i 2 Gp2 Gjc' Gi2 Hi Ho'); lia|].
  intros [Gp3 Gi3] (A & B & C & D). apply wp_ret. unfold upto.
  split; [rewrite rank_S, Mk; lia|]. split; [exact A|]. split; [exact B|]. split; [lia|]. split; [exact Lj'|]. split; [exact Jc'|]. split.
  - intros c Hc k Hk. destruct (Nat.eq_dec c i) as [->|Nc].
    + unfold want. rewrite Mk. destruct k as [|[|k]].
      * destruct (D (start i + 0) ltac:(lia)) as [-> ->]. rewrite G4, G3, G2, G1.
        destruct (Nat.eqb_spec (start i + 0) (start i + 1)); [lia|]. destruct (Nat.eqb_spec (start i + 0) (start i)); [|lia]. cbn [fst snd]. split; [f_equal; lia|reflexivity].
      * destruct (D (start i + 1) ltac:(lia)) as [-> ->]. rewrite G4, G2. rewrite Nat.eqb_refl. cbn [fst snd]. split; [f_equal; lia|reflexivity].
      * cbn [fst snd]. replace (start i + S (S k)) with (start i + 2 + k) by lia. apply C. lia.
    + pose proof (start_S c ltac:(lia)) as Sc. pose proof (start_mono (c + 1) i ltac:(lia) ltac:(lia)) as Sm.
      destruct (D (start c + k) ltac:(lia)) as [-> ->]. rewrite G4, G3, G2, G1.
      destruct (Nat.eqb_spec (start c + k) (start i + 1)); [lia|]. destruct (Nat.eqb_spec (start c + k) (start i)); [lia|]. apply Dn; lia.
  - intros c Hc Mc. rewrite !G6, !G5, Ej. destruct (Nat.eq_dec c i) as [->|Nc].
    + destruct (Nat.eqb_spec (2 * rk i) (2 * rk i + 1)); [lia|]. rewrite !Nat.eqb_refl. split; reflexivity.
    + assert (rk c < rk i). { pose proof (rank_mono nb ni col (S c) i ltac:(lia)) as Rm. rewrite rank_S, Mc in Rm. lia. }
      destruct (Nat.eqb_spec (2 * rk c) (2 * rk i + 1)); [lia|]. destruct (Nat.eqb_spec (2 * rk c) (2 * rk i)); [lia|].
      destruct (Nat.eqb_spec (2 * rk c + 1) (2 * rk i + 1)); [lia|]. destruct (Nat.eqb_spec (2 * rk c + 1) (2 * rk i)); [lia|]. apply Hh; [lia|exact Mc].
Qed.

Lemma plain_ok i Gpr Gjc Gir h j : i < n -> mk i = false -> upto i (Gpr, Gjc, Gir, h, j) ->
  wp ('(Gpr, Gir) <- put_entries (2 * nb + 2 * ni) 0 i (sp_pr M) (sp_jc M) (sp_ir M) Gpr Gjc Gir ;; Some (Gpr, Gjc, Gir, h, j)) (upto (S i)).
Proof.
  intros Hi Mk (Ej & Lp & Li & Lh & Lj & Jc & Dn & Hh).
  pose proof (start_S i Hi) as S1.
  assert (Mw: mw i = 0) by (unfold mw; rewrite Mk; reflexivity).
  assert (Ho: get Gjc i = Some (start i)) by (rewrite Jc by lia; rewrite Nat.min_id; reflexivity).
  apply wp_bind. eapply wp_conseq; [apply (put_ok i 0 Gpr Gjc Gir Hi Ho); lia|].
  intros [Gp3 Gi3] (A & B & C & D). apply wp_ret. unfold upto.
  split; [rewrite rank_S, Mk; lia|]. split; [exact A|]. split; [exact B|]. split; [lia|]. split; [exact Lj|]. split.
  { intros k Hk. rewrite Jc by lia. f_equal. f_equal. f_equal. destruct (Nat.le_gt_cases k i); [rewrite !Nat.min_l by lia; reflexivity|].
    rewrite !Nat.min_r by lia. rewrite rank_S, Mk. lia. }
  split.
  - intros c Hc k Hk. destruct (Nat.eq_dec c i) as [->|Nc].
    + unfold want. rewrite Mk. cbn [fst snd]. replace (start i + k) with (start i + 0 + k) by lia. apply C. lia.
    + pose proof (start_S c ltac:(lia)) as Sc. pose proof (start_mono (c + 1) i ltac:(lia) ltac:(lia)) as Sm.
      destruct (D (start c + k) ltac:(lia)) as [-> ->]. apply Dn; lia.
  - intros c Hc Mc. apply Hh; [|exact Mc]. destruct (Nat.eq_dec c i) as [->|]; [congruence|lia].
Qed.

Variables (bidx iidx : arr nat) (h : arr F) (hv : nat -> F).
Hypothesis Hb : forall j, j < nb -> get bidx j = Some (col j).
Hypothesis Hi' : forall j, j < ni -> get iidx j = Some (col (nb + j)).
Hypothesis Hh : forall r, r < m -> get h r = Some (hv r).

Lemma setup_ok Gpr0 Gjc0 Gir0 h0 : length Gpr0 = sz -> length Gjc0 = n + 1 -> length Gir0 = sz -> length h0 = hz ->
  wp (socp_to_ecos_bb nb bidx ni iidx n m (sp_pr M) (sp_jc M) (sp_ir M) Gpr0 Gjc0 Gir0 h h0) (fun '(Gpr, Gjc, Gir, h') =>
    length Gpr = sz /\ length Gir = sz /\ length Gjc = n + 1 /\ length h' = hz /\
    (forall k, k <= n -> get Gjc k = Some (start k)) /\ (forall c, c < n -> done c Gpr Gir) /\
    (forall c, c < n -> mk c = true -> get h' (2 * rk c) = Some (blo c) /\ get h' (2 * rk c + 1) = Some (bhi c)) /\
    (forall r, r < m -> get h' (2 * nv + r) = Some (hv r))).
Proof.
  intros L1 L2 L3 L4. unfold socp_to_ecos_bb. apply wp_bind. eapply wp_conseq.
  { apply wp_for with (Inv := fun i (a : arr nat) => length a = n + 1 /\ forall k, k < i -> get a k = Some (J k)) (Q := fun a => length a = n + 1 /\ forall k, k <= n -> get a k = Some (J k)).
    - lia.
    - split; [exact L2|intros; lia].
    - intros i a Hi [La Ga]. apply wp_bind, (wp_get _ _ (J i)); [apply (wf_jc _ WF); lia|]. apply wp_set; [lia|]. intros a' La' Ga'. split; [congruence|].
      intros k Hk. rewrite Ga'. destruct (Nat.eqb_spec k i) as [->|]; [reflexivity|]. apply Ga. lia.
    - intros a [La Ga]. split; [exact La|]. intros k Hk. apply Ga. lia. }
  intros Gjc1 [Lj Gj]. cbv beta. apply wp_bind.
  eapply wp_for with (Inv := upto).
  - lia.
  - split; [reflexivity|]. split; [exact L1|]. split; [exact L3|]. split; [exact L4|]. split; [exact Lj|].
    split; [|split; intros; lia]. intros k Hk. rewrite Gj by lia. f_equal. rewrite Nat.min_0_r. unfold rank. cbn. lia.
  - intros i st Hi U. rewrite (contains_ok bidx nb col i Hb). cbn [bind]. fold (is_bool nb col i).
    assert (Em: mk i = (is_bool nb col i || is_int nb ni col i)%bool) by reflexivity.
    destruct (is_bool nb col i) eqn:Eb.
    + pose proof (bounds_ok i st ltac:(lia) Em U) as B. unfold blo, bhi in B. rewrite Eb in B. exact B.
    + rewrite (contains_ok iidx ni (fun j => col (nb + j)) i Hi'). cbn [bind]. fold (is_int nb ni col i). destruct (is_int nb ni col i) eqn:Ei.
      * pose proof (bounds_ok i st ltac:(lia) Em U) as B. unfold blo, bhi in B. rewrite Eb in B. exact B.
      * destruct st as [[[[Gpr Gjc] Gir] h'] j]. apply plain_ok; [lia|exact Em|exact U].
  - intros [[[[Gpr Gjc] Gir] h'] j] (Ej & Lp & Li & Lh & Lj' & Jc & Dn & Hhd). apply wp_bind.
    eapply wp_for with (Inv := fun i (a : arr F) => length a = hz /\ (forall k, k < 2 * nv -> get a k = get h' k) /\ forall r, r < i -> get a (2 * nv + r) = Some (hv r)).
    + lia.
    + split; [exact Lh|]. split; [reflexivity|intros; lia].
    + intros i a Hi (La & Ga & Gr). apply wp_bind, (wp_get _ _ (hv i)); [apply Hh; lia|]. apply wp_set; [unfold hz in *; lia|]. intros a' La' Ga'.
      split; [congruence|]. split.
      * intros k Hk. rewrite Ga'. destruct (Nat.eqb_spec k (2 * nv + i)); [lia|]. apply Ga. lia.
      * intros r Hr. rewrite Ga'. destruct (Nat.eqb_spec (2 * nv + r) (2 * nv + i)) as [E|E]; [f_equal; f_equal; lia|]. apply Gr. lia.
    + intros a (La & Ga & Gr). apply wp_ret. split; [exact Lp|]. split; [exact Li|]. split; [exact Lj'|]. split; [exact La|].
      split; [intros k Hk; rewrite Jc by lia; rewrite Nat.min_l by lia; reflexivity|]. split; [exact Dn|]. split; [|exact Gr].
      intros c Hc Mc. pose proof (rank_lt nb ni col n P c Hc Mc). rewrite !Ga by lia. apply Hhd; auto.
Qed.
End Setup.

(* the same in terms of matrices *)
Section Matrices.
Context {O : Ops}.
Variables (nb ni : nat) (col : nat -> nat) (G : spmat F) (h : arr F).
Hypothesis WF : wf_sp G.
Hypothesis P : proper_list nb ni col (sp_n G).
Notation nv := (nb + ni).
Notation mk := (is_intvar nb ni col).
Notation rk := (rank nb ni col).
Notation J := (gd 0 (sp_jc G)).

Lemma column_nth {T} (M : spmat T) c k : k < gd 0 (sp_jc M) (c + 1) - gd 0 (sp_jc M) c ->
  nth_error (column M c) k = Some (gd 0 (sp_ir M) (gd 0 (sp_jc M) c + k), get (sp_pr M) (gd 0 (sp_jc M) c + k)).
Proof.
  intros H. unfold column. rewrite nth_error_map, (nth_error_nth' _ 0) by (rewrite seq_length; exact H). rewrite seq_nth by exact H. reflexivity.
Qed.
Lemma column_len {T} (M : spmat T) c : length (column M c) = gd 0 (sp_jc M) (c + 1) - gd 0 (sp_jc M) c.
Proof. unfold column. rewrite map_length, seq_length. reflexivity. Qed.
Lemma list_ext {T} (l l' : list T) : length l = length l' -> (forall k, k < length l -> nth_error l k = nth_error l' k) -> l = l'.
Proof.
  revert l'. induction l as [|a l IH]; intros [|b l'] L H; try discriminate; [reflexivity|].
  pose proof (H 0 ltac:(cbn; lia)) as E. injection E as ->. f_equal. apply IH; [cbn in L; lia|]. intros k Hk. apply (H (S k)). cbn. lia.
Qed.

Definition newcol (c : nat) : list (nat * option F) :=
  (if mk c then [(2 * rk c, Some (fconst (-1)%Q)); (2 * rk c + 1, Some f1)] else []) ++
  map (fun e => (fst e + 2 * nv, snd e)) (column G c).

Lemma newcol_len c : length (newcol c) = mw nb ni col c + (J (c + 1) - J c).
Proof. unfold newcol, mw. rewrite app_length, map_length, column_len. destruct (mk c); reflexivity. Qed.
Lemma newcol_nth c k : k < mw nb ni col c + (J (c + 1) - J c) -> nth_error (newcol c) k = Some (want nb ni col G c k).
Proof.
  unfold newcol, mw, want. intros H. destruct (mk c).
  - destruct k as [|[|k]]; [reflexivity|reflexivity|]. change (nth_error (map (fun e => (fst e + 2 * nv, snd e)) (column G c)) k = Some (gd 0 (sp_ir G) (J c + k) + 2 * nv, get (sp_pr G) (J c + k))).
    rewrite nth_error_map, column_nth by lia. reflexivity.
  - cbn [app]. rewrite nth_error_map, column_nth by lia. reflexivity.
Qed.

Lemma relaxed_matrix Gpr Gjc Gir : length Gpr = sz nb ni G -> length Gir = sz nb ni G ->
  (forall k, k <= sp_n G -> get Gjc k = Some (start nb ni col G k)) -> (forall c, c < sp_n G -> done nb ni col G c Gpr Gir) ->
  let G' := mkSp Gjc Gir Gpr (sp_n G) (sp_m G + 2 * nv) (sp_nnz G + 2 * nv) in
  wf_sp G' /\ forall c, c < sp_n G -> column G' c = newcol c.
Proof.
  intros Lp Li Hj Dn G'.
  assert (Js: forall k, k <= sp_n G -> gd 0 Gjc k = start nb ni col G k) by (intros k Hk; apply gd_get, Hj, Hk).
  assert (Wd: forall c, c < sp_n G -> gd 0 Gjc (c + 1) - gd 0 Gjc c = mw nb ni col c + (J (c + 1) - J c)).
  { intros c Hc. rewrite !Js by lia. rewrite (start_S nb ni col G WF) by exact Hc. lia. }
  assert (Ent: forall k, k < sp_nnz G + 2 * nv -> exists c i, c < sp_n G /\ k = start nb ni col G c + i /\ i < mw nb ni col c + (J (c + 1) - J c)).
  { intros k Hk. rewrite <- (start_n nb ni col G WF P) in Hk.
    assert (Q: forall b, b <= sp_n G -> k < start nb ni col G b -> exists c i, c < b /\ k = start nb ni col G c + i /\ i < mw nb ni col c + (J (c + 1) - J c)).
    { induction b as [|b IH]; intros Hb Hk'.
      - unfold start in Hk'. rewrite (wf_jc0 _ WF) in Hk'. unfold rank in Hk'. cbn in Hk'. lia.
      - destruct (Nat.lt_ge_cases k (start nb ni col G b)) as [L|L].
        + destruct (IH ltac:(lia) L) as (c & i & A & B & C). exists c, i. split; [lia|auto].
        + exists b, (k - start nb ni col G b). rewrite <- Nat.add_1_r in Hk'. rewrite (start_S nb ni col G WF) in Hk' by lia. lia. }
    apply (Q (sp_n G)); auto. }
  assert (Wr: forall c i, c < sp_n G -> i < mw nb ni col c + (J (c + 1) - J c) -> fst (want nb ni col G c i) < sp_m G + 2 * nv /\ exists v, snd (want nb ni col G c i) = Some v).
  { intros c i Hc Hi. pose proof (J_mono G WF (c + 1) (sp_n G) ltac:(lia) ltac:(lia)) as Jn. rewrite (wf_nnz _ WF) in Jn.
    unfold want, mw in *. destruct (mk c) eqn:Mk.
    - pose proof (rank_lt nb ni col (sp_n G) P c Hc Mk). destruct i as [|[|i]]; cbn [fst snd]; [split; [lia|eauto]|split; [lia|eauto]|].
      split; [|apply (wf_pr _ WF); lia]. pose proof (wf_row _ WF (J c + i) ltac:(lia)). lia.
    - cbn [fst snd]. split; [|apply (wf_pr _ WF); lia]. pose proof (wf_row _ WF (J c + i) ltac:(lia)). lia. }
  assert (Wv: vec Gir (sp_nnz G + 2 * nv) (gd 0 Gir)).
  { intros k Hk. destruct (Ent k Hk) as (c & i & Hc & -> & Hi). destruct (Dn c Hc i Hi) as [E _]. rewrite E. symmetry. rewrite (gd_get _ _ _ _ E). reflexivity. }
  split.
  - constructor; cbn [G' sp_jc sp_ir sp_pr sp_n sp_m sp_nnz].
    + intros k Hk. rewrite Js by lia. apply Hj. lia.
    + rewrite Js by lia. unfold start. rewrite (wf_jc0 _ WF). reflexivity.
    + intros c Hc. rewrite !Js by lia. rewrite (start_S nb ni col G WF) by exact Hc. lia.
    + rewrite Js by lia. apply (start_n nb ni col G WF P).
    + exact Wv.
    + intros k Hk. destruct (Ent k Hk) as (c & i & Hc & -> & Hi). destruct (Dn c Hc i Hi) as [E _]. rewrite (gd_get _ _ _ _ E). apply Wr; auto.
    + intros k Hk. destruct (Ent k Hk) as (c & i & Hc & -> & Hi). destruct (Dn c Hc i Hi) as [_ E]. rewrite E. apply Wr; auto.
  - intros c Hc. apply list_ext.
    + rewrite column_len, newcol_len. cbn [G' sp_jc]. apply Wd, Hc.
    + rewrite column_len. cbn [G' sp_jc]. intros k Hk. rewrite column_nth by exact Hk. cbn [G' sp_jc sp_ir sp_pr]. rewrite Wd in Hk by exact Hc.
      rewrite newcol_nth by exact Hk. rewrite Js by lia. destruct (Dn c Hc k Hk) as [E1 E2]. rewrite (gd_get _ _ _ _ E1), E2. destruct (want nb ni col G c k); reflexivity.
Qed.
End Matrices.

(* ---------------------------------------------- a node's right-hand sides *)
Section Node.
Context {O : Ops}.
Variables (nb ni : nat) (bid : nat -> option Z) (iid : nat -> option F) (lo hi : nat -> F).
Notation nv := (nb + ni).
Hypothesis CB : forall j, j < nb -> (bid j = Some 1%Z /\ lo j = fconst (-1)%Q /\ hi j = f1) \/
  (bid j = Some 0%Z /\ lo j = f0 /\ hi j = f0) \/ (bid j = Some (-1)%Z /\ lo j = f0 /\ hi j = f1).
Hypothesis CI : forall j, j < ni -> iid (2 * j) = Some (lo (nb + j)) /\ iid (2 * j + 1) = Some (hi (nb + j)).
Variables (p : pwork F) (g : nat -> F).
Hypothesis Ge : forall i, i < 2 * nv -> get (w_Gequil p) i = Some (g i).
Hypothesis Lh : 2 * nv <= length (w_h p).

Definition rowset (k : nat) (p' : pwork F) : Prop :=
  exists h, p' = set_w_h p h /\ length h = length (w_h p) /\ (forall i, 2 * k <= i -> get h i = get (w_h p) i) /\
  forall j, j < k -> get h (2 * j) = Some (fdiv (lo j) (g (2 * j))) /\ get h (2 * j + 1) = Some (fdiv (hi j) (g (2 * j + 1))).

Lemma pair_ok j p' : j < nv -> rowset j p' ->
  wp (p1 <- ecos_updateDataEntry_h p' (2 * j) (lo j) ;; ecos_updateDataEntry_h p1 (2 * j + 1) (hi j)) (rowset (S j)).
Proof.
  intros Hj (h & -> & L & K & D). apply wp_bind. unfold ecos_updateDataEntry_h at 1. change (w_Gequil (set_w_h p h)) with (w_Gequil p). change (w_h (set_w_h p h)) with h.
  apply wp_bind, (wp_get _ _ (g (2 * j))); [apply Ge; lia|]. apply wp_bind, wp_set; [lia|]. intros h1 L1 G1. apply wp_ret.
  unfold ecos_updateDataEntry_h. change (w_Gequil (set_w_h (set_w_h p h) h1)) with (w_Gequil p). change (w_h (set_w_h (set_w_h p h) h1)) with h1.
  apply wp_bind, (wp_get _ _ (g (2 * j + 1))); [apply Ge; lia|]. apply wp_bind, wp_set; [lia|]. intros h2 L2 G2. apply wp_ret.
  exists h2. split; [reflexivity|]. split; [congruence|]. split.
  - intros i Hi. rewrite G2, G1. destruct (Nat.eqb_spec i (2 * j + 1)); [lia|]. destruct (Nat.eqb_spec i (2 * j)); [lia|]. apply K. lia.
  - intros k Hk. rewrite !G2, !G1. destruct (Nat.eq_dec k j) as [->|N].
    + destruct (Nat.eqb_spec (2 * j) (2 * j + 1)); [lia|]. rewrite !Nat.eqb_refl. split; reflexivity.
    + destruct (Nat.eqb_spec (2 * k) (2 * j + 1)); [lia|]. destruct (Nat.eqb_spec (2 * k) (2 * j)); [lia|].
      destruct (Nat.eqb_spec (2 * k + 1) (2 * j + 1)); [lia|]. destruct (Nat.eqb_spec (2 * k + 1) (2 * j)); [lia|]. apply D. lia.
Qed.

Lemma node_ok : wp (set_prob nb ni bid iid p) (rowset nv).
Proof.
  unfold set_prob. apply wp_bind. apply wp_for with (Inv := rowset).
  - lia.
  - exists (w_h p). split; [destruct p; reflexivity|]. repeat split; auto; intros; lia.
  - intros i p' Hi R. pose proof (pair_ok i p' ltac:(lia) R) as W.
    destruct (CB i ltac:(lia)) as [(-> & E1 & E2)|[(-> & E1 & E2)|(-> & E1 & E2)]]; rewrite E1, E2 in W; cbn [bind]; exact W.
  - intros p1 R1. apply wp_for with (Inv := fun i p' => rowset (nb + i) p').
    + lia.
    + rewrite Nat.add_0_r. exact R1.
    + intros i p' Hi R. destruct (CI i ltac:(lia)) as [E1 E2]. rewrite E1, E2. cbn [bind]. replace (nb + S i) with (S (nb + i)) by lia. rewrite (Nat.add_comm i nb). apply pair_ok; [lia|exact R].
    + auto.
Qed.
End Node.

(* any bounds can be put into a long enough array *)
Lemma bounds_exist {T} nv (lo hi : nat -> T) (h : arr T) : 2 * nv <= length h -> exists h2, with_bounds nv lo hi h h2.
Proof.
  intros L. induction nv as [|nv IH].
  - exists h. split; [reflexivity|]. split; [intros; lia|reflexivity].
  - destruct (IH ltac:(lia)) as (h2 & L2 & B & K).
    assert (wp (a <- set h2 (2 * nv) (lo nv) ;; set a (2 * nv + 1) (hi nv)) (with_bounds (S nv) lo hi h)) as W.
    { apply wp_bind, wp_set; [lia|]. intros a La Ga. apply wp_set; [lia|]. intros a' La' Ga'. split; [congruence|]. split.
      - intros j Hj. rewrite !Ga', !Ga. destruct (Nat.eq_dec j nv) as [->|N].
        + destruct (Nat.eqb_spec (2 * nv) (2 * nv + 1)); [lia|]. rewrite !Nat.eqb_refl. auto.
        + destruct (Nat.eqb_spec (2 * j) (2 * nv + 1)); [lia|]. destruct (Nat.eqb_spec (2 * j) (2 * nv)); [lia|].
          destruct (Nat.eqb_spec (2 * j + 1) (2 * nv + 1)); [lia|]. destruct (Nat.eqb_spec (2 * j + 1) (2 * nv)); [lia|]. apply B. lia.
      - intros i Hi. rewrite Ga', Ga. destruct (Nat.eqb_spec i (2 * nv + 1)); [lia|]. destruct (Nat.eqb_spec i (2 * nv)); [lia|]. apply K. lia. }
    apply wp_elim in W as (a & _ & W). exists a. exact W.
Qed.

(* the right-hand side only enters at the end *)
Lemma setup_h `{O : Ops} nb bidx ni iidx n m Gp Gj Gi Gp0 Gj0 Gi0 h h2 h0 Gp' Gj' Gi' h' idx v : 
  socp_to_ecos_bb nb bidx ni iidx n m Gp Gj Gi Gp0 Gj0 Gi0 h h0 = Some (Gp', Gj', Gi', h') -> idx < m -> set h idx v = Some h2 ->
  exists h'', set h' (2 * (nb + ni) + idx) v = Some h'' /\
    socp_to_ecos_bb nb bidx ni iidx n m Gp Gj Gi Gp0 Gj0 Gi0 h2 h0 = Some (Gp', Gj', Gi', h'').
Proof.
  intros E Hi E2. apply set_inv in E2 as (Li & L2 & G2). unfold socp_to_ecos_bb in *.
  bd E as Gj1 E1. bd E as st E3. destruct st as [[[[Gp3 Gj3] Gi3] h3] j3]. bd E as h4 E4. injection E as -> -> -> ->. 
  cbn [bind].
  assert (X: wlp (for_ 0 m (fun i a => ' v <- get h i;; set a (2 * (nb + ni) + i) v) h3) (fun a => length a = length h3 /\
     (forall k, k < 2 * (nb + ni) \/ 2 * (nb + ni) + m <= k -> get a k = get h3 k) /\
     forall r, r < m -> get a (2 * (nb + ni) + r) = get h r /\ exists x, get h r = Some x)).
  { apply wlp_for with (Inv := fun i a => length a = length h3 /\
     (forall k, k < 2 * (nb + ni) \/ 2 * (nb + ni) + i <= k -> get a k = get h3 k) /\
     forall r, r < i -> get a (2 * (nb + ni) + r) = get h r /\ exists x, get h r = Some x).
    - lia.
    - repeat split; auto; intros; lia.
    - intros i a Hi' (La & Ka & Ga). apply wlp_intro. intros a' Ea. bd Ea as x Ex. apply set_inv in Ea as (Lx & La' & Ga'). split; [congruence|]. split.
      + intros k Hk. rewrite Ga'. destruct (Nat.eqb_spec k (2 * (nb + ni) + i)); [lia|]. apply Ka. lia.
      + intros r Hr. rewrite Ga'. destruct (Nat.eqb_spec (2 * (nb + ni) + r) (2 * (nb + ni) + i)) as [E|E].
        * replace r with i by lia. rewrite Ex. eauto.
        * apply Ga. lia.
    - auto. }
  apply (wlp_elim _ _ _ X) in E4 as (La & Ka & Ga).
  assert (Lm: m = 0 \/ 2 * (nb + ni) + m <= length h').
  { destruct (Nat.eq_dec m 0); [auto|right]. destruct (Ga (m - 1) ltac:(lia)) as (A & x & B). rewrite B in A. apply get_lt in A. lia. }
  assert (exists h'', set h' (2 * (nb + ni) + idx) v = Some h'') as (h'' & Es).
  { unfold set. destruct (Nat.ltb_spec (2 * (nb + ni) + idx) (length h')); [eauto|lia]. }
  exists h''. split; [exact Es|]. apply set_inv in Es as (Ls & Ls' & Gs).
  assert (Y: wp (for_ 0 m (fun i a => ' v <- get h2 i;; set a (2 * (nb + ni) + i) v) h3) (fun a => a = h'')).
  { apply wp_for with (Inv := fun i a => length a = length h3 /\
     (forall k, k < 2 * (nb + ni) \/ 2 * (nb + ni) + i <= k -> get a k = get h3 k) /\
     forall r, r < i -> get a (2 * (nb + ni) + r) = get h2 r).
    - lia.
    - repeat split; auto; intros; lia.
    - intros i a Hi' (La' & Ka' & Ga'). destruct (Ga i ltac:(lia)) as (_ & x & B).
      apply wp_bind. eapply wp_get. { rewrite G2. instantiate (1 := if i =? idx then v else x). destruct (i =? idx); auto. }
      apply wp_set; [lia|]. intros a' La2 Ga2. split; [congruence|]. split.
      + intros k Hk. rewrite Ga2. destruct (Nat.eqb_spec k (2 * (nb + ni) + i)); [lia|]. apply Ka'. lia.
      + intros r Hr. rewrite Ga2. destruct (Nat.eqb_spec (2 * (nb + ni) + r) (2 * (nb + ni) + i)) as [E|E].
        * replace r with i by lia. rewrite G2. destruct (i =? idx); auto.
        * apply Ga'. lia.
    - intros a (La' & Ka' & Ga'). apply arr_ext; [congruence|]. intros k. rewrite Gs.
      destruct (Nat.lt_ge_cases k (2 * (nb + ni))) as [H1|H1]; [|destruct (Nat.lt_ge_cases k (2 * (nb + ni) + m)) as [H2|H2]].
      + destruct (Nat.eqb_spec k (2 * (nb + ni) + idx)); [lia|]. rewrite Ka', Ka by lia. reflexivity.
      + replace k with (2 * (nb + ni) + (k - 2 * (nb + ni))) by lia. rewrite Ga' by lia. rewrite (proj1 (Ga (k - 2 * (nb + ni)) ltac:(lia))). rewrite G2.
        destruct (Nat.eqb_spec (k - 2 * (nb + ni)) idx), (Nat.eqb_spec (2 * (nb + ni) + (k - 2 * (nb + ni))) (2 * (nb + ni) + idx)); try lia; reflexivity.
      + destruct (Nat.eqb_spec k (2 * (nb + ni) + idx)); [lia|]. rewrite Ka', Ka by lia. reflexivity. }
  rewrite E3. cbn [bind].
  apply wp_elim in Y as (a & -> & ->). reflexivity.
Qed.
