(* Assembly of the KKT matrix (createKKT_U). *)
From Coq Require Import List Arith Bool ZArith Lia.
From Verif Require Import Base Num.
From Verif.Model Require Import Spla Splamm Types Consts Expcone Cone Ldl Equil Preproc.
From Verif.Spec Require Import Matrix Shape KktSpec.
From Verif.Proofs Require Import LoopLib SplaP.
Import ListNotations.
Open Scope nat_scope.

Lemma start_le {F} (cols more : list (col F)) c : c <= length cols -> start (cols ++ more) c = start cols c.
Proof. intros H. unfold start. rewrite firstn_app. replace (c - length cols) with 0 by lia. cbn. rewrite app_nil_r; auto. Qed.
Lemma start_all {F} (cols : list (col F)) : start cols (length cols) = length (concat cols).
Proof. unfold start. rewrite firstn_all; auto. Qed.
Lemma start_S {F} (cols : list (col F)) c x : nth_error cols c = Some x -> start cols (c + 1) = start cols c + length x.
Proof.
  revert c; induction cols as [|y t IH]; intros [|c] H; cbn in H; try discriminate.
  - injection H as ->. unfold start; cbn. rewrite app_nil_r; auto.
  - unfold start in *. cbn [Nat.add firstn concat]. rewrite !app_length, (IH c H). lia.
Qed.
Lemma start_mono {F} (cols : list (col F)) c d : c <= d -> start cols c <= start cols d.
Proof.
  revert c d; induction cols as [|y t IH]; intros [|c] [|d] H; unfold start in *; cbn; try lia.
  rewrite !app_length. specialize (IH c d ltac:(lia)). lia.
Qed.
Lemma start_nth {F} (cols : list (col F)) c x i e : nth_error cols c = Some x -> nth_error x i = Some e ->
  nth_error (concat cols) (start cols c + i) = Some e.
Proof.
  revert c; induction cols as [|y t IH]; intros [|c] H Hi; cbn in H; try discriminate.
  - injection H as ->. unfold start; cbn. rewrite nth_error_app1; auto. apply nth_error_Some; congruence.
  - unfold start. cbn. rewrite app_length. rewrite nth_error_app2 by lia.
    replace (length y + length (concat (firstn c t)) + i - length y) with (start t c + i) by (unfold start; lia).
    auto.
Qed.
Lemma start_app {F} (a b : list (col F)) c : start (a ++ b) (length a + c) = length (concat a) + start b c.
Proof. unfold start. rewrite firstn_app_2, concat_app, app_length. auto. Qed.

Lemma soc_block_cols {F} (Gc : nat -> col F) base cs q v : length (soc_block Gc base cs q v) = (q + 2)%nat.
Proof. unfold soc_block. rewrite app_length, map_length, seq_length; cbn; lia. Qed.

Lemma soc_cols_length {F} (Gc : nat -> col F) l : forall base cs,
  length (soc_cols Gc base cs l) = (list_sum (map fst l) + 2 * length l)%nat.
Proof.
  induction l as [|[q v] t IH]; intros base cs; auto. cbn [soc_cols map fst list_sum fold_right length].
  rewrite app_length, soc_block_cols, IH. unfold list_sum. lia.
Qed.

Lemma exp_cols_length {F} (Gc : nat -> col F) l : forall base cs,
  length (exp_cols Gc base cs l) = (3 * length l)%nat.
Proof.
  induction l as [|v t IH]; intros base cs; auto. cbn [exp_cols length]. rewrite app_length, IH. cbn. lia.
Qed.

Lemma kkt_cols_length {F} (Gc : nat -> col F) n p Ac d e l lpv soc ex :
  length (kkt_cols Gc n p Ac d e l lpv soc ex) = (n + p + l + list_sum (map fst soc) + 2 * length soc + 3 * length ex)%nat.
Proof.
  unfold kkt_cols, lp_cols. rewrite !app_length, !map_length, !seq_length, soc_cols_length, exp_cols_length. lia.
Qed.

Section Asm.
Context `{O : Ops}.
Local Open Scope fl_scope.

Record built (N Z : nat) (pre : list (col F)) (st : kst) : Prop := {
  bu_ljc : length (ks_jc st) = N;
  bu_lir : length (ks_ir st) = Z;
  bu_lpr : length (ks_pr st) = Z;
  bu_k : ks_k st = length (concat pre);
  bu_jc : forall c, (c < length pre)%nat -> get (ks_jc st) c = Some (start pre c);
  bu_ent : forall t e, nth_error (concat pre) t = Some e ->
     get (ks_ir st) t = Some (fst e) /\ get (ks_pr st) t = Some (snd e)
}.

Lemma kopen_wp N Z pre st cl (Q : kst -> Prop) : built N Z pre st -> cl = length pre -> (length pre < N)%nat ->
  (forall st', built N Z (pre ++ [[]]) st' -> Q st') -> wp (kopen st cl) Q.
Proof.
  intros B -> H HQ. unfold kopen. wb.
  wset a' L G; [rewrite (bu_ljc _ _ _ _ B); lia|].
  apply (wp_intro _ _ _ eq_refl). apply HQ. constructor; cbn.
  - rewrite L. apply B.
  - apply B.
  - apply B.
  - rewrite (bu_k _ _ _ _ B), concat_app, app_length; cbn; lia.
  - intros c Hc. rewrite app_length in Hc; cbn in Hc. rewrite G, start_le by lia.
    destruct (Nat.eqb_spec c (length pre)) as [E|Ne].
    + subst c. rewrite start_all, (bu_k _ _ _ _ B); auto.
    + apply B. lia.
  - intros t e Ht. rewrite concat_app in Ht; cbn in Ht. rewrite app_nil_r in Ht. apply B; auto.
Qed.

Lemma kput_wp N Z pre c st r v (Q : kst -> Prop) : built N Z (pre ++ [c]) st -> (length (concat pre) + length c < Z)%nat ->
  (forall st', built N Z (pre ++ [c ++ [(r, v)]]) st' -> Q st') -> wp (kput st r v) Q.
Proof.
  intros B H HQ. unfold kput.
  assert (Hk : ks_k st = (length (concat pre) + length c)%nat)
    by (rewrite (bu_k _ _ _ _ B), concat_app, app_length; cbn; rewrite app_nil_r; auto).
  wb. wset a' L G; [rewrite (bu_lir _ _ _ _ B); lia|].
  wb. wset b' L' G'; [rewrite (bu_lpr _ _ _ _ B); lia|].
  apply (wp_intro _ _ _ eq_refl). apply HQ. constructor; cbn.
  - apply B.
  - rewrite L; apply B.
  - rewrite L'; apply B.
  - rewrite Hk, concat_app, app_length; cbn. rewrite app_nil_r, app_length; cbn; lia.
  - intros d Hd. rewrite app_length in Hd; cbn in Hd. rewrite start_le by lia.
    rewrite (bu_jc _ _ _ _ B) by (rewrite app_length; cbn; lia). rewrite start_le by lia; auto.
  - intros t e Ht. rewrite G, G'.
    rewrite concat_app in Ht; cbn in Ht. rewrite app_nil_r, app_assoc in Ht.
    destruct (Nat.eqb_spec t (ks_k st)) as [E|Ne].
    + rewrite nth_error_app2 in Ht by (rewrite app_length; lia).
      rewrite app_length in Ht. replace (t - (length (concat pre) + length c))%nat with 0%nat in Ht by lia.
      cbn in Ht. injection Ht as <-. auto.
    + assert (t < length (concat pre ++ c))%nat.
      { assert (t < length ((concat pre ++ c) ++ [(r, v)]))%nat by (apply nth_error_Some; congruence).
        rewrite !app_length in *; cbn in *. lia. }
      rewrite nth_error_app1 in Ht by auto.
      apply B. rewrite concat_app; cbn. rewrite app_nil_r; auto.
Qed.

Lemma kputs_wp N Z pre c st lo hi (g : nat -> nat) (v : nat -> F) (Q : kst -> Prop) : built N Z (pre ++ [c]) st ->
  (lo <= hi)%nat -> (length (concat pre) + length c + (hi - lo) <= Z)%nat ->
  (forall st', built N Z (pre ++ [c ++ map (fun r => (g r, v r)) (seq lo (hi - lo))]) st' -> Q st') ->
  wp (for_ lo hi (fun r st => kput st (g r) (v r)) st) Q.
Proof.
  intros B Hle H HQ.
  apply (wp_for (fun i st => built N Z (pre ++ [c ++ map (fun r => (g r, v r)) (seq lo (i - lo))]) st)).
  - auto.
  - rewrite Nat.sub_diag; cbn. rewrite app_nil_r; auto.
  - intros i s [Hi1 Hi2] Hs. eapply kput_wp; [exact Hs| |].
    + rewrite app_length, map_length, seq_length. lia.
    + intros st' B'. replace (Datatypes.S i - lo)%nat with (Datatypes.S (i - lo)) by lia.
      rewrite seq_S, map_app; cbn. replace (lo + (i - lo))%nat with i by lia. rewrite app_assoc; auto.
  - auto.
Qed.

Variable zero : F.

Lemma colent_length (M : spmat F) j : length (colent zero M j) = (gd 0%nat (sp_jc M) (j + 1) - gd 0%nat (sp_jc M) j)%nat.
Proof. unfold colent. rewrite map_length, seq_length; auto. Qed.

Lemma kcol_wp N Z pre (Mt : spmat F) j cl st toK (Q : kst * nat * arr nat -> Prop) : wf_sp Mt -> (j < sp_n Mt)%nat ->
  built N Z pre st -> cl = length pre -> (length pre < N)%nat ->
  (length (concat pre) + length (colent zero Mt j) <= Z)%nat -> (sp_nnz Mt <= length toK)%nat ->
  (forall st' toK', built N Z (pre ++ [colent zero Mt j]) st' -> length toK' = length toK ->
     (forall q, get toK' q = if andb (gd 0%nat (sp_jc Mt) j <=? q)%nat (q <? gd 0%nat (sp_jc Mt) (j+1))%nat
                then Some (length (concat pre) + (q - gd 0%nat (sp_jc Mt) j))%nat else get toK q) ->
     Q (st', gd 0%nat (sp_jc Mt) (j + 1), toK')) ->
  wp (kcol Mt j cl (st, gd 0%nat (sp_jc Mt) j, toK)) Q.
Proof.
  intros W Hj B Hcl HN HZ HL HQ. unfold kcol.
  wb. eapply wp_get; [apply (wf_jc _ W); lia|]. wb. eapply wp_get; [apply (wf_jc _ W); lia|].
  pose proof (wf_mono _ W j Hj) as Hm.
  set (lo := gd 0%nat (sp_jc Mt) j) in *. set (hi := gd 0%nat (sp_jc Mt) (j+1)) in *.
  assert (Hn : (hi <= sp_nnz Mt)%nat) by (apply jc_le_nnz; auto; lia).
  rewrite (proj2 (Nat.leb_le lo hi) Hm).
  wb. eapply kopen_wp; eauto. intros st1 B1.
  apply (wp_for (fun i s => let '(st', i', toK') := s in i' = i /\ length toK' = length toK /\
     built N Z (pre ++ [map (fun q => (gd 0%nat (sp_ir Mt) q, gd zero (sp_pr Mt) q)) (seq lo (i - lo))]) st' /\
     forall q, get toK' q = if andb (lo <=? q)%nat (q <? i)%nat then Some (length (concat pre) + (q - lo))%nat else get toK q)).
  - auto.
  - split; auto. split; auto. split; [rewrite Nat.sub_diag; cbn; auto|].
    intros q. destruct (Nat.leb_spec lo q); destruct (Nat.ltb_spec q lo); cbn; auto; lia.
  - intros i [[st' i'] toK'] [Hi1 Hi2] (-> & L & B' & T).
    wb. eapply wp_get; [apply (wf_ir _ W); lia|].
    destruct (wf_pr _ W i ltac:(lia)) as [v Hv].
    wb. eapply wp_get; [apply Hv|].
    wb. wset t2 L2 G2; [lia|].
    wb. eapply kput_wp; [exact B'| |].
    + rewrite map_length, seq_length. rewrite colent_length in HZ. fold lo hi in HZ. lia.
    + intros st2 B2. apply (wp_intro _ _ _ eq_refl). split; [lia|]. split; [lia|]. split.
      * replace (Datatypes.S i - lo)%nat with (Datatypes.S (i - lo)) by lia.
        rewrite seq_S, map_app; cbn. replace (lo + (i - lo))%nat with i by lia.
        rewrite (gd_get zero _ _ _ Hv). auto.
      * intros q. rewrite G2, T.
        assert (Hk : ks_k st' = (length (concat pre) + (i - lo))%nat).
        { rewrite (bu_k _ _ _ _ B'), concat_app, app_length; cbn. rewrite app_nil_r, map_length, seq_length; auto. }
        destruct (Nat.eqb_spec q i) as [E|Ne].
        -- subst q. rewrite (proj2 (Nat.leb_le lo i)), (proj2 (Nat.ltb_lt i (Datatypes.S i))) by lia. cbn. f_equal; auto.
        -- destruct (Nat.leb_spec lo q); cbn [andb]; auto.
           destruct (Nat.ltb_spec q i), (Nat.ltb_spec q (Datatypes.S i)); auto; lia.
  - intros [[st' i'] toK'] (-> & L & B' & T). apply HQ; auto.
Qed.

(* the entries of the columns handled so far have been mapped to K *)
Definition tok_upto (Mt : spmat F) (cm : nat -> nat) (cols : list (col F)) (j : nat) (toK : arr nat) : Prop :=
  length toK = sp_nnz Mt /\
  forall j' q, (j' < j)%nat -> in_col Mt j' q ->
    (cm j' < length cols)%nat /\ get toK q = Some (start cols (cm j') + (q - gd 0%nat (sp_jc Mt) j'))%nat.

Lemma tok_upto_more Mt cm cols more j toK : tok_upto Mt cm cols j toK -> tok_upto Mt cm (cols ++ more) j toK.
Proof.
  intros [L H]. split; auto. intros j' q Hj Hq. destruct (H j' q Hj Hq) as [A B].
  rewrite app_length. split; [lia|]. rewrite B, start_le by lia; auto.
Qed.

(* change of the column being built *)
Lemma tok_upto_last Mt cm cols c c' j toK : tok_upto Mt cm (cols ++ [c]) j toK -> tok_upto Mt cm (cols ++ [c']) j toK.
Proof.
  intros [L H]. split; auto. intros j' q Hj Hq. destruct (H j' q Hj Hq) as [A B].
  rewrite app_length in *; cbn in *. split; [lia|]. rewrite B, !start_le by lia; auto.
Qed.

(* kcol in the form used by all callers: Gt's columns in order *)
Lemma kcol_wp' N Z pre (Mt : spmat F) cm j cl st toK (Q : kst * nat * arr nat -> Prop) : wf_sp Mt -> (j < sp_n Mt)%nat ->
  built N Z pre st -> cl = length pre -> cm j = length pre -> (length pre < N)%nat ->
  (length (concat pre) + length (colent zero Mt j) <= Z)%nat -> tok_upto Mt cm pre j toK ->
  (forall st' toK', built N Z (pre ++ [colent zero Mt j]) st' ->
     tok_upto Mt cm (pre ++ [colent zero Mt j]) (j + 1) toK' ->
     Q (st', gd 0%nat (sp_jc Mt) (j + 1), toK')) ->
  wp (kcol Mt j cl (st, gd 0%nat (sp_jc Mt) j, toK)) Q.
Proof.
  intros W Hj B Hcl Hcm HN HZ [HL HT] HQ.
  eapply kcol_wp; eauto; [lia|]. intros st' toK' B' L' T'. apply HQ; auto. split; [lia|].
  intros j' q Hj' Hq. rewrite T'.
  destruct (Nat.eq_dec j' j) as [->|Ne].
  - destruct Hq as [_ [Q1 Q2]]. rewrite (proj2 (Nat.leb_le _ _) Q1), (proj2 (Nat.ltb_lt _ _) Q2). cbn.
    rewrite app_length, Hcm; cbn. split; [lia|]. rewrite start_le, start_all by lia; auto.
  - destruct (HT j' q ltac:(lia) Hq) as [A E]. rewrite app_length. split; [lia|]. rewrite start_le, <- E by lia.
    destruct Hq as [Hn [Q1 Q2]].
    assert (gd 0%nat (sp_jc Mt) (j'+1) <= gd 0%nat (sp_jc Mt) j)%nat by (apply (jc_mono _ W); lia).
    destruct (Nat.leb_spec (gd 0%nat (sp_jc Mt) j) q); cbn; auto; lia.
Qed.

Lemma concat_upto {A} (f : nat -> list A) j L : (j < L)%nat ->
  (length (concat (map f (seq 0 j))) + length (f j) <= length (concat (map f (seq 0 L))))%nat.
Proof.
  intros H. replace L with (j + Datatypes.S (L - j - 1))%nat by lia.
  rewrite seq_app, map_app, concat_app, app_length. cbn. rewrite app_length. lia.
Qed.

(* columns of Mt, each followed by one diagonal entry whose position is recorded *)
Lemma dcols_wp N Z pre Mt cm base cs L st toK idx (v : nat -> F) (Q : (kst * nat * arr nat) * arr nat -> Prop) :
  let new := map (fun j => colent zero Mt (cs + j) ++ [((base + j)%nat, v j)]) (seq 0 L) in
  wf_sp Mt -> (cs + L <= sp_n Mt)%nat -> built N Z pre st -> base = length pre ->
  (forall j, (j < L)%nat -> cm (cs + j)%nat = (base + j)%nat) -> (length pre + L <= N)%nat ->
  (length (concat pre) + length (concat new) <= Z)%nat -> tok_upto Mt cm pre cs toK -> (L <= length idx)%nat ->
  (forall st' toK' idx', built N Z (pre ++ new) st' -> tok_upto Mt cm (pre ++ new) (cs + L) toK' ->
     length idx' = length idx ->
     (forall j, (j < L)%nat -> get idx' j = Some (start (pre ++ new) (base + j) + length (colent zero Mt (cs + j)))%nat) ->
     Q ((st', gd 0%nat (sp_jc Mt) (cs + L), toK'), idx')) ->
  wp (for_ 0 L (fun j x =>
      let '(s, idx) := x in
      '(st, i, toK) <- kcol Mt (cs + j) (base + j) s ;;
      idx <- set idx j (ks_k st) ;;
      st <- kput st (base + j)%nat (v j) ;;
      Some ((st, i, toK), idx)) ((st, gd 0%nat (sp_jc Mt) cs, toK), idx)) Q.
Proof.
  intros new W Hn B Hb Hcm HN HZ HT HI HQ. unfold new in *. clear new.
  set (f := fun j => colent zero Mt (cs + j) ++ [((base + j)%nat, v j)]) in *.
  apply (wp_for (fun j x => let '((st', i', toK'), idx') := x in
     i' = gd 0%nat (sp_jc Mt) (cs + j) /\ built N Z (pre ++ map f (seq 0 j)) st' /\
     tok_upto Mt cm (pre ++ map f (seq 0 j)) (cs + j) toK' /\ length idx' = length idx /\
     forall j', (j' < j)%nat -> get idx' j' = Some (start (pre ++ map f (seq 0 j)) (base + j') + length (colent zero Mt (cs + j')))%nat)).
  - lia.
  - cbn. rewrite Nat.add_0_r, app_nil_r. csplit; auto. intros; lia.
  - intros j [[[st' i'] toK'] idx'] [_ Hj] (-> & B' & T' & L' & I').
    pose proof (concat_upto f j L Hj) as HC. unfold f at 2 in HC. rewrite app_length in HC; cbn in HC.
    wb. eapply (kcol_wp' N Z _ Mt cm); eauto; try lia.
    + rewrite app_length, map_length, seq_length; lia.
    + rewrite app_length, map_length, seq_length, Hcm; lia.
    + rewrite app_length, map_length, seq_length; lia.
    + rewrite concat_app, app_length. lia.
    + intros st2 toK2 B2 T2. wb. wset idx2 Li Gi; [lia|]. wb. eapply kput_wp; [exact B2| |].
      { rewrite concat_app, app_length. lia. }
      intros st3 B3. apply (wp_intro _ _ _ eq_refl).
      replace (cs + Datatypes.S j)%nat with (cs + j + 1)%nat by lia.
      rewrite seq_S, map_app, app_assoc. cbn [map Nat.add].
      split; auto. split; [exact B3|]. split; [eapply tok_upto_last; exact T2|]. split; [lia|].
      intros j' Hj'. rewrite Gi. destruct (Nat.eqb_spec j' j) as [E|Ne].
      * subst j'. f_equal. rewrite (bu_k _ _ _ _ B2), concat_app, app_length. cbn. rewrite app_nil_r.
        rewrite start_le by (rewrite app_length, map_length, seq_length; lia).
        replace (base + j)%nat with (length (pre ++ map f (seq 0 j))) by (rewrite app_length, map_length, seq_length; lia).
        rewrite start_all; auto.
      * rewrite I' by lia. rewrite (start_le (pre ++ map f (seq 0 j))) by (rewrite app_length, map_length, seq_length; lia). auto.
  - intros [[[st' i'] toK'] idx'] (-> & B' & T' & L' & I'). apply HQ; auto.
Qed.

(* the same without recording *)
Lemma ycols_wp N Z pre Mt cm base L st toK (v : F) (Q : kst * nat * arr nat -> Prop) :
  let new := map (fun j => colent zero Mt j ++ [((base + j)%nat, v)]) (seq 0 L) in
  wf_sp Mt -> (L <= sp_n Mt)%nat -> built N Z pre st -> base = length pre ->
  (forall j, (j < L)%nat -> cm j = (base + j)%nat) -> (length pre + L <= N)%nat ->
  (length (concat pre) + length (concat new) <= Z)%nat -> tok_upto Mt cm pre 0 toK ->
  (forall st' toK', built N Z (pre ++ new) st' -> tok_upto Mt cm (pre ++ new) L toK' ->
     Q (st', gd 0%nat (sp_jc Mt) L, toK')) ->
  wp (for_ 0 L (fun j s =>
      At <- Some Mt ;;
      '(st, i, toK) <- kcol At j (base + j) s ;;
      st <- kput st (base + j)%nat v ;;
      Some (st, i, toK)) (st, 0%nat, toK)) Q.
Proof.
  intros new W Hn B Hb Hcm HN HZ HT HQ. unfold new in *. clear new.
  set (f := fun j => colent zero Mt j ++ [((base + j)%nat, v)]) in *.
  apply (wp_for (fun j x => let '(st', i', toK') := x in
     i' = gd 0%nat (sp_jc Mt) j /\ built N Z (pre ++ map f (seq 0 j)) st' /\
     tok_upto Mt cm (pre ++ map f (seq 0 j)) j toK')).
  - lia.
  - cbn. rewrite app_nil_r. csplit; auto. symmetry; apply (wf_jc0 _ W).
  - intros j [[st' i'] toK'] [_ Hj] (-> & B' & T').
    pose proof (concat_upto f j L Hj) as HC. unfold f at 2 in HC. rewrite app_length in HC; cbn in HC.
    cbn [bind].
    wb. eapply (kcol_wp' N Z _ Mt cm); eauto; try lia.
    + rewrite app_length, map_length, seq_length; lia.
    + rewrite app_length, map_length, seq_length, Hcm; lia.
    + rewrite app_length, map_length, seq_length; lia.
    + rewrite concat_app, app_length. lia.
    + intros st2 toK2 B2 T2. wb. eapply kput_wp; [exact B2| |].
      { rewrite concat_app, app_length. lia. }
      intros st3 B3. apply (wp_intro _ _ _ eq_refl).
      replace (Datatypes.S j)%nat with (j + 1)%nat by lia.
      rewrite seq_app, map_app, app_assoc. cbn [map Nat.add seq].
      split; auto. split; [exact B3|]. eapply tok_upto_last; exact T2.
  - intros [[st' i'] toK'] (-> & B' & T'). apply HQ; auto.
Qed.

(* the identity part *)
Lemma xcols_wp N Z n st (d : F) (Q : kst -> Prop) :
  let new := map (fun j => [(j, d)]) (seq 0 n) in
  built N Z [] st -> (n <= N)%nat -> (n <= Z)%nat -> (forall st', built N Z new st' -> Q st') ->
  wp (for_ 0 n (fun j st =>
      jc <- set (ks_jc st) j j ;;
      ir <- set (ks_ir st) j j ;;
      pr <- set (ks_pr st) (ks_k st) d ;;
      Some (mkKst jc ir pr (ks_k st + 1))) st) Q.
Proof.
  intros new B HN HZ HQ. unfold new in *. clear new.
  assert (LC : forall k, length (concat (map (fun j => [(j, d)]) (seq 0 k))) = k).
  { intros k. induction k; auto. rewrite seq_S, map_app, concat_app, app_length, IHk. cbn. lia. }
  apply (wp_for (fun j st' => built N Z (map (fun j => [(j, d)]) (seq 0 j)) st')); auto; [lia|].
  intros j st' [_ Hj] B'.
  assert (Hk : ks_k st' = j) by (rewrite (bu_k _ _ _ _ B'), LC; auto).
  assert (W : wp (st1 <- kopen st' j ;; kput st1 j d) (built N Z (map (fun j => [(j, d)]) (seq 0 (Datatypes.S j))))).
  { wb. eapply kopen_wp; eauto; rewrite ?map_length, ?seq_length; auto; [lia|].
    intros st1 B1. eapply kput_wp; [exact B1| |]; [rewrite LC; cbn; lia|].
    intros st2 B2. rewrite seq_S, map_app. exact B2. }
  apply wp_elim in W. destruct W as (s2 & E & B2). eapply wp_intro; [|exact B2].
  rewrite <- E. unfold kopen, kput. rewrite !Hk.
  destruct (set (ks_jc st') j j); cbn; auto.
Qed.

(* the values createKKT_U stores for a second-order cone and an exponential cone *)
Definition socv_id : socv F := mkSocv (fun _ => - f1) (fun _ => f0) (- f1) (fun _ => f0) f1.
Definition expv_id : expv F := fun r j => if Nat.eqb r j then - f1 else f0.

Lemma kkt_soc_wp N Z pre Gt cm base cs c st toK (Q : socone F * (kst * nat * arr nat) -> Prop) :
  let q := so_p c in
  let new := soc_block (colent zero Gt) base cs q socv_id in
  (1 <= q)%nat -> length (so_Didx c) = q ->
  wf_sp Gt -> (cs + q <= sp_n Gt)%nat -> built N Z pre st -> base = length pre ->
  (forall j, (j < q)%nat -> cm (cs + j)%nat = (base + j)%nat) -> (length pre + q + 2 <= N)%nat ->
  (length (concat pre) + length (concat new) <= Z)%nat -> tok_upto Gt cm pre cs toK ->
  (forall st' toK' Didx', built N Z (pre ++ new) st' -> tok_upto Gt cm (pre ++ new) (cs + q) toK' ->
     length Didx' = q ->
     (forall j, (j < q)%nat -> get Didx' j = Some (start (pre ++ new) (base + j) + length (colent zero Gt (cs + j)))%nat) ->
     Q (set_so_Didx c Didx', (st', gd 0%nat (sp_jc Gt) (cs + q), toK'))) ->
  wp (kkt_soc Gt c base cs (st, gd 0%nat (sp_jc Gt) cs, toK)) Q.
Proof.
  intros q new Hq HD W Hn B Hb Hcm HN HZ HT HQ. unfold kkt_soc. fold q.
  set (new1 := map (fun j => colent zero Gt (cs + j) ++ [((base + j)%nat, - f1)]) (seq 0 q)).
  set (vc := map (fun r => ((base + r)%nat, f0)) (seq 1 (q - 1)) ++ [((base + q)%nat, - f1)]).
  set (uc := map (fun r => ((base + r)%nat, f0)) (seq 0 q) ++ [((base + q + 1)%nat, f1)]).
  assert (En : new = new1 ++ [vc; uc]) by reflexivity.
  assert (HZ' : (length (concat pre) + length (concat new1) + length vc + length uc <= Z)%nat).
  { rewrite En, concat_app, app_length in HZ. cbn in HZ. rewrite app_nil_r, app_length in HZ. lia. }
  assert (Lv : length vc = q) by (unfold vc; rewrite app_length, map_length, seq_length; cbn; lia).
  assert (Lu : length uc = (q + 1)%nat) by (unfold uc; rewrite app_length, map_length, seq_length; cbn; lia).
  assert (L1 : length new1 = q) by (unfold new1; rewrite map_length, seq_length; auto).
  wb. eapply (dcols_wp N Z pre Gt cm base cs q _ _ _ (fun _ => - f1)); eauto; fold new1; try lia.
  intros st1 toK1 Didx B1 T1 LD GD.
  wb. eapply kopen_wp; [exact B1| |rewrite app_length; lia|]; [rewrite app_length; lia|]. intros st2 B2.
  wb. eapply kputs_wp; [exact B2|lia| |]; [rewrite concat_app, app_length; cbn [length]; lia|]. intros st3 B3.
  wb. eapply kput_wp; [exact B3| |]; [rewrite concat_app, app_length; cbn [length app]; rewrite map_length, seq_length; lia|].
  intros st4 B4. cbn [app] in B4. fold vc in B4.
  wb. eapply kopen_wp; [exact B4| | |]; [rewrite !app_length; cbn; lia|rewrite !app_length; cbn; lia|]. intros st5 B5.
  wb. eapply kputs_wp; [exact B5|lia| |]; [rewrite !concat_app, !app_length; cbn [length concat]; rewrite app_nil_r; lia|]. intros st6 B6.
  rewrite Nat.sub_0_r in B6. cbn [app] in B6.
  wb. eapply kput_wp; [exact B6| |]; [rewrite !concat_app, !app_length; cbn [length concat]; rewrite app_nil_r, map_length, seq_length; lia|].
  intros st7 B7. fold uc in B7. apply (wp_intro _ _ _ eq_refl).
  assert (En' : pre ++ new = (pre ++ new1) ++ [vc; uc]) by (rewrite En, app_assoc; auto).
  apply HQ.
  - rewrite En'. rewrite <- app_assoc in B7. exact B7.
  - rewrite En'. apply tok_upto_more; auto.
  - lia.
  - intros j Hj. rewrite GD by auto. rewrite En'. rewrite (start_le (pre ++ new1)); auto. rewrite app_length; lia.
Qed.

Lemma didx_ok_more (cols more : list (col F)) len base cs (l : list (socone F)) : didx_ok cols len base cs l ->
  (base + list_sum (map so_p l) + 2 * length l <= length cols)%nat ->
  didx_ok (cols ++ more) len base cs l.
Proof.
  revert base cs. unfold list_sum. induction l as [|c t IH]; intros base cs H HL; cbn in *; auto.
  destruct H as (A & B & D). split; auto. split.
  - intros j Hj. rewrite B by auto. rewrite start_le by lia. auto.
  - apply IH; auto. lia.
Qed.

Definition same_but_didx (l l' : list (socone F)) : Prop :=
  Forall2 (fun c c' => c' = set_so_Didx c (so_Didx c')) l l'.

Lemma same_didx_p l l' : same_but_didx l l' -> map so_p l' = map so_p l.
Proof. induction 1 as [|c c' l l' H]; cbn; auto. rewrite H, IHForall2. reflexivity. Qed.

Lemma kkt_socs_wp N Z Gt cm l : forall pre base cs st toK (Q : list (socone F) * (kst * nat * arr nat) -> Prop),
  let new := soc_cols (colent zero Gt) base cs (map (fun c => (so_p c, socv_id)) l) in
  (forall c, In c l -> (1 <= so_p c)%nat) -> (forall c, In c l -> length (so_Didx c) = so_p c) ->
  wf_sp Gt -> (cs + list_sum (map so_p l) <= sp_n Gt)%nat -> built N Z pre st -> base = length pre ->
  (forall j, cm (cs + j)%nat = (base + zsoc (map so_p l) j)%nat) ->
  (length pre + list_sum (map so_p l) + 2 * length l <= N)%nat ->
  (length (concat pre) + length (concat new) <= Z)%nat -> tok_upto Gt cm pre cs toK ->
  (forall st' toK' l', built N Z (pre ++ new) st' -> tok_upto Gt cm (pre ++ new) (cs + list_sum (map so_p l)) toK' ->
     same_but_didx l l' -> didx_ok (pre ++ new) (fun j => length (colent zero Gt j)) base cs l' ->
     Q (l', (st', gd 0%nat (sp_jc Gt) (cs + list_sum (map so_p l)), toK'))) ->
  wp (kkt_socs Gt l base cs (st, gd 0%nat (sp_jc Gt) cs, toK)) Q.
Proof.
  induction l as [|c t IH]; intros pre base cs st toK Q new Hq HD W Hn B Hb Hcm HN HZ HT HQ; cbn [kkt_socs].
  - apply (wp_intro _ _ _ eq_refl). unfold new in *. cbn in *. rewrite Nat.add_0_r, app_nil_r in *.
    apply HQ; auto; constructor.
  - unfold new in *. cbn [map soc_cols] in *. clear new.
    cbn [list_sum fold_right length] in Hn, HN, HQ.
    change (fold_right Nat.add 0%nat (map so_p t)) with (list_sum (map so_p t)) in *.
    set (b1 := soc_block _ _ _ _ _) in *.
    set (b2 := soc_cols _ _ _ _) in *.
    rewrite concat_app, app_length in HZ.
    wb. eapply (kkt_soc_wp N Z pre Gt cm); fold b1; eauto; try lia.
    + apply Hq; left; auto.
    + apply HD; left; auto.
    + intros j Hj. rewrite Hcm. cbn [zsoc map]. rewrite (proj2 (Nat.ltb_lt _ _) Hj). auto.
    + intros st1 toK1 Didx B1 T1 LD GD. cbn [so_p set_so_Didx].
      assert (Lb : length (pre ++ b1) = (base + so_p c + 2)%nat).
      { rewrite app_length. unfold b1. rewrite soc_block_cols. lia. }
      wb. eapply (IH (pre ++ b1)); fold b2; eauto; try lia.
      * intros x Hx. apply Hq; right; auto.
      * intros x Hx. apply HD; right; auto.
      * intros j. rewrite <- Nat.add_assoc, Hcm. cbn [zsoc map].
        destruct (Nat.ltb_spec (so_p c + j) (so_p c)); [lia|].
        replace (so_p c + j - so_p c)%nat with j by lia. lia.
      * rewrite concat_app, app_length. lia.
      * intros st2 toK2 l' B2 T2 S2 D2. apply (wp_intro _ _ _ eq_refl).
        rewrite <- app_assoc in *. rewrite <- Nat.add_assoc in T2. rewrite <- Nat.add_assoc.
        apply HQ; auto.
        -- constructor; auto.
        -- cbn [didx_ok so_p so_Didx set_so_Didx]. split; [auto|]. split; auto.
           intros j Hj. rewrite GD by auto.
           rewrite app_assoc, (start_le (pre ++ b1)) by lia. auto.
Qed.

Lemma kkt_exp_wp N Z pre Gt cm base cs e st toK (Q : expcone F * (kst * nat * arr nat) -> Prop) :
  let new := exp_block (colent zero Gt) base cs expv_id in
  length (ex_colstart e) = 3%nat ->
  wf_sp Gt -> (cs + 3 <= sp_n Gt)%nat -> built N Z pre st -> base = length pre ->
  (forall j, (j < 3)%nat -> cm (cs + j)%nat = (base + j)%nat) -> (length pre + 3 <= N)%nat ->
  (length (concat pre) + length (concat new) <= Z)%nat -> tok_upto Gt cm pre cs toK ->
  (forall st' toK' idx', built N Z (pre ++ new) st' -> tok_upto Gt cm (pre ++ new) (cs + 3) toK' ->
     length idx' = 3%nat ->
     (forall j, (j < 3)%nat -> get idx' j = Some (start (pre ++ new) (base + j) + length (colent zero Gt (cs + j)))%nat) ->
     Q (set_ex_colstart e idx', (st', gd 0%nat (sp_jc Gt) (cs + 3), toK'))) ->
  wp (kkt_exp Gt e base cs (st, gd 0%nat (sp_jc Gt) cs, toK)) Q.
Proof.
  intros new HD W Hn B Hb Hcm HN HZ HT HQ. unfold kkt_exp, new, exp_block in *. clear new.
  set (f := fun j => colent zero Gt (cs + j) ++ map (fun r => ((base + r)%nat, expv_id r j)) (seq 0 j) ++ [((base + j)%nat, expv_id j j)]) in *.
  wb. apply (wp_for (fun j x => let '((st', i', toK'), idx') := x in
     i' = gd 0%nat (sp_jc Gt) (cs + j) /\ built N Z (pre ++ map f (seq 0 j)) st' /\
     tok_upto Gt cm (pre ++ map f (seq 0 j)) (cs + j) toK' /\ length idx' = 3%nat /\
     forall j', (j' < j)%nat -> get idx' j' = Some (start (pre ++ map f (seq 0 j)) (base + j') + length (colent zero Gt (cs + j')))%nat)).
  - lia.
  - cbn. rewrite Nat.add_0_r, app_nil_r. csplit; auto. intros; lia.
  - intros j [[[st' i'] toK'] idx'] [_ Hj] (-> & B' & T' & L' & I').
    pose proof (concat_upto f j 3 Hj) as HC. unfold f at 2 in HC. rewrite !app_length, map_length, seq_length in HC; cbn [length] in HC.
    wb. eapply (kcol_wp' N Z _ Gt cm); eauto; try lia.
    + rewrite app_length, map_length, seq_length; lia.
    + rewrite app_length, map_length, seq_length, Hcm; lia.
    + rewrite app_length, map_length, seq_length; lia.
    + rewrite concat_app, app_length. lia.
    + intros st2 toK2 B2 T2. wb. wset idx2 Li Gi; [lia|].
      wb. eapply kputs_wp; [exact B2|lia| |].
      { rewrite concat_app, app_length. lia. }
      intros st3 B3. rewrite Nat.sub_0_r in B3.
      wb. eapply kput_wp; [exact B3| |].
      { rewrite concat_app, !app_length, map_length, seq_length. lia. }
      intros st4 B4. apply (wp_intro _ _ _ eq_refl).
      replace (cs + Datatypes.S j)%nat with (cs + j + 1)%nat by lia.
      assert (Ef : f j = (colent zero Gt (cs + j) ++ map (fun r : nat => ((base + r)%nat, f0)) (seq 0 j)) ++ [((base + j)%nat, - f1)]).
      { unfold f. rewrite <- app_assoc. f_equal. f_equal.
        - apply map_ext_in. intros r Hr. apply in_seq in Hr. unfold expv_id.
          destruct (Nat.eqb_spec r j); [lia|auto].
        - unfold expv_id. rewrite Nat.eqb_refl. auto. }
      rewrite seq_S, map_app, app_assoc. cbn [map]. rewrite Nat.add_0_l, Ef.
      split; auto. split; [exact B4|]. split; [eapply tok_upto_last; exact T2|]. split; [lia|].
      intros j' Hj'. rewrite Gi. destruct (Nat.eqb_spec j' j) as [E|Ne].
      * subst j'. f_equal. rewrite (bu_k _ _ _ _ B2), concat_app, app_length. cbn. rewrite app_nil_r.
        rewrite start_le by (rewrite app_length, map_length, seq_length; lia).
        replace (base + j)%nat with (length (pre ++ map f (seq 0 j))) by (rewrite app_length, map_length, seq_length; lia).
        rewrite start_all; auto.
      * rewrite I' by lia. rewrite (start_le (pre ++ map f (seq 0 j))) by (rewrite app_length, map_length, seq_length; lia). auto.
  - intros [[[st' i'] toK'] idx'] (-> & B' & T' & L' & I').
    apply (wp_intro _ _ _ eq_refl). apply HQ; auto.
Qed.

Definition same_but_colstart (l l' : list (expcone F)) : Prop :=
  Forall2 (fun c c' => c' = set_ex_colstart c (ex_colstart c')) l l'.

Lemma kkt_exps_wp N Z Gt cm l : forall pre base cs st toK (Q : list (expcone F) * (kst * nat * arr nat) -> Prop),
  let new := exp_cols (colent zero Gt) base cs (map (fun _ => expv_id) l) in
  (forall c, In c l -> length (ex_colstart c) = 3%nat) ->
  wf_sp Gt -> (cs + 3 * length l <= sp_n Gt)%nat -> built N Z pre st -> base = length pre ->
  (forall j, cm (cs + j)%nat = (base + j)%nat) ->
  (length pre + 3 * length l <= N)%nat ->
  (length (concat pre) + length (concat new) <= Z)%nat -> tok_upto Gt cm pre cs toK ->
  (forall st' toK' l', built N Z (pre ++ new) st' -> tok_upto Gt cm (pre ++ new) (cs + 3 * length l) toK' ->
     same_but_colstart l l' -> colstart_ok (pre ++ new) (fun j => length (colent zero Gt j)) base cs l' ->
     Q (l', (st', gd 0%nat (sp_jc Gt) (cs + 3 * length l), toK'))) ->
  wp (kkt_exps Gt l base cs (st, gd 0%nat (sp_jc Gt) cs, toK)) Q.
Proof.
  induction l as [|c t IH]; intros pre base cs st toK Q new HD W Hn B Hb Hcm HN HZ HT HQ; cbn [kkt_exps].
  - apply (wp_intro _ _ _ eq_refl). unfold new in *. cbn in *. rewrite Nat.add_0_r, app_nil_r in *.
    apply HQ; auto; constructor.
  - unfold new in *. cbn [map exp_cols length] in *. clear new.
    set (b1 := exp_block _ _ _ _) in *.
    set (b2 := exp_cols _ _ _ _) in *.
    rewrite concat_app, app_length in HZ.
    wb. eapply (kkt_exp_wp N Z pre Gt cm); fold b1; eauto; try lia.
    + apply HD; left; auto.
    + intros st1 toK1 Didx B1 T1 LD GD.
      assert (Lb : length (pre ++ b1) = (base + 3)%nat).
      { rewrite app_length. unfold b1. cbn. lia. }
      wb. eapply (IH (pre ++ b1)); fold b2; eauto; try lia.
      * intros x Hx. apply HD; right; auto.
      * intros j. rewrite <- Nat.add_assoc, Hcm. lia.
      * rewrite concat_app, app_length. lia.
      * intros st2 toK2 l' B2 T2 S2 D2. apply (wp_intro _ _ _ eq_refl).
        rewrite <- app_assoc in *.
        replace (cs + 3 + 3 * length t)%nat with (cs + 3 * Datatypes.S (length t))%nat in * by lia.
        apply HQ; auto.
        -- constructor; auto.
        -- cbn [colstart_ok ex_colstart set_ex_colstart]. split; [auto|]. split; auto.
           intros j Hj. rewrite GD by auto.
           rewrite app_assoc, (start_le (pre ++ b1)) by lia. auto.
Qed.

(* ---- number of entries ---- *)
Section Count.
Context (Mt : spmat F) (W : wf_sp Mt).
Local Notation JC := (gd 0%nat (sp_jc Mt)).
Local Notation Gc := (colent zero Mt).

Lemma dcols_count cs L (tl : nat -> col F) k : (cs + L <= sp_n Mt)%nat -> (forall j, (j < L)%nat -> length (tl j) = k) ->
  (length (concat (map (fun j => Gc (cs + j)%nat ++ tl j) (seq 0 L))) + JC cs = JC (cs + L) + k * L)%nat.
Proof.
  induction L as [|L IH]; intros H Ht.
  - cbn. rewrite Nat.add_0_r, Nat.mul_0_r. lia.
  - rewrite seq_S, map_app, concat_app, app_length. cbn [map concat]. rewrite app_nil_r, app_length, colent_length, Nat.add_0_l.
    rewrite (Ht L) by lia. specialize (IH ltac:(lia) ltac:(intros; apply Ht; lia)).
    pose proof (wf_mono _ W (cs + L) ltac:(lia)).
    replace (cs + Datatypes.S L)%nat with (cs + L + 1)%nat by lia. lia.
Qed.

Lemma soc_block_count base cs q v : (1 <= q)%nat -> (cs + q <= sp_n Mt)%nat ->
  (length (concat (soc_block Gc base cs q v)) + JC cs = JC (cs + q) + (3 * q + 1))%nat.
Proof.
  intros Hq H. unfold soc_block. rewrite concat_app, app_length.
  pose proof (dcols_count cs q (fun j => [((base + j)%nat, sv_D v j)]) 1 H ltac:(auto)).
  cbn [concat]. rewrite app_nil_r, !app_length, !map_length, !seq_length. cbn [length]. lia.
Qed.

Lemma soc_cols_count l : forall base cs, (forall x, In x l -> (1 <= fst x)%nat) -> (cs + list_sum (map fst l) <= sp_n Mt)%nat ->
  (length (concat (soc_cols Gc base cs l)) + JC cs = JC (cs + list_sum (map fst l)) + fold_right (fun x a => 3 * fst x + 1 + a) 0 l)%nat.
Proof.
  unfold list_sum. induction l as [|[q v] t IH]; intros base cs Hq H; cbn [soc_cols map fold_right fst concat length] in *.
  - rewrite !Nat.add_0_r. lia.
  - rewrite concat_app, app_length.
    pose proof (soc_block_count base cs q v (Hq (q, v) ltac:(left; auto)) ltac:(lia)).
    specialize (IH (base + q + 2)%nat (cs + q)%nat ltac:(intros; apply Hq; right; auto) ltac:(lia)).
    rewrite (Nat.add_assoc cs q). lia.
Qed.

Lemma exp_cols_count l : forall base cs, (cs + 3 * length l <= sp_n Mt)%nat ->
  (length (concat (exp_cols Gc base cs l)) + JC cs = JC (cs + 3 * length l) + 6 * length l)%nat.
Proof.
  induction l as [|v t IH]; intros base cs H; cbn [exp_cols length concat] in *.
  - rewrite Nat.mul_0_r, !Nat.add_0_r. lia.
  - rewrite concat_app, app_length. specialize (IH (base + 3)%nat (cs + 3)%nat ltac:(lia)).
    assert (length (concat (exp_block Gc base cs v)) + JC cs = JC (cs + 3) + 6)%nat.
    { unfold exp_block. cbn [seq map concat]. rewrite app_nil_r, !app_length, !colent_length. cbn [length].
      pose proof (wf_mono _ W cs ltac:(lia)). pose proof (wf_mono _ W (cs + 1) ltac:(lia)). pose proof (wf_mono _ W (cs + 2) ltac:(lia)).
      rewrite !Nat.add_0_r in *. replace (cs + 1 + 1)%nat with (cs + 2)%nat in * by lia. replace (cs + 2 + 1)%nat with (cs + 3)%nat in * by lia.
      lia. }
    replace (cs + 3 * Datatypes.S (length t))%nat with (cs + 3 + 3 * length t)%nat by lia. lia.
Qed.
End Count.

Lemma xcols_count n (d : F) : length (concat (map (fun j => [(j, d)]) (seq 0 n))) = n.
Proof. induction n; auto. rewrite seq_S, map_app, concat_app, app_length, IHn. cbn. lia. Qed.

(* ---- the sign vector ---- *)
Lemma signs_wp n p m (C : cone F) (Q : arr Z -> Prop) : m = (hsize C + 3 * nexc C)%nat ->
  (forall Sg, length Sg = (n + p + m + 2 * nsoc C)%nat ->
      vec Sg (n + p + m + 2 * nsoc C) (ksign n p (lpp C) (map so_p (co_soc C))) -> Q Sg) ->
  wp (kkt_signs n p m C) Q.
Proof.
  intros Hm HQ. unfold kkt_signs, hsize in *.
  set (nK := (n + p + m + 2 * nsoc C)%nat) in *.
  wb. apply (wp_for (fun k Sg => length Sg = nK /\ forall i, (i < k)%nat -> get Sg i = Some 1%Z)); [lia| | |].
  { split; [apply alloc_length|intros; lia]. }
  { intros i Sg [_ Hi] [L G]. wset a' L' G'; [lia|]. split; [lia|]. intros j Hj. rewrite G'.
    destruct (Nat.eqb_spec j i); auto. apply G; lia. }
  intros S1 [L1 G1].
  wb. apply (wp_for (fun k Sg => length Sg = nK /\ (forall i, (i < n)%nat -> get Sg i = Some 1%Z) /\ forall i, (n <= i < k)%nat -> get Sg i = Some (-1)%Z)); [lia| | |].
  { csplit; auto. intros; lia. }
  { intros i Sg [Hi0 Hi] (L & G & G2). wset a' L' G'; [lia|]. csplit; [lia| |].
    - intros j Hj. rewrite G'. destruct (Nat.eqb_spec j i); auto. lia.
    - intros j Hj. rewrite G'. destruct (Nat.eqb_spec j i); auto. apply G2; lia. }
  intros S2 (L2 & G2 & G2').
  wb. apply (wp_for (fun k Sg => length Sg = nK /\ (forall i, (i < n)%nat -> get Sg i = Some 1%Z) /\ forall i, (n <= i < k)%nat -> get Sg i = Some (-1)%Z)); [lia| | |].
  { csplit; auto. }
  { intros i Sg [Hi0 Hi] (L & G & G3). wset a' L' G'; [lia|]. csplit; [lia| |].
    - intros j Hj. rewrite G'. destruct (Nat.eqb_spec j i); auto. lia.
    - intros j Hj. rewrite G'. destruct (Nat.eqb_spec j i); auto. apply G3; lia. }
  intros S3 (L3 & G3 & G3').
  set (b0 := (n + p + lpp C)%nat) in *.
  (* second-order cones *)
  assert (SOC : forall (l : list (socone F)) Sg ks (Q : arr Z * nat -> Prop), (ks + list_sum (map so_p l) + 2 * length l <= length Sg)%nat ->
     (forall Sg', length Sg' = length Sg -> (forall i, (i < ks)%nat -> get Sg' i = get Sg i) ->
        (forall i, (i < list_sum (map so_p l) + 2 * length l)%nat ->
            get Sg' (ks + i)%nat = Some (if usoc (map so_p l) i then 1 else -1)%Z) ->
        Q (Sg', (ks + list_sum (map so_p l) + 2 * length l)%nat)) ->
     wp (for_each l (fun c st =>
      let '(Sg, ks) := st in
      Sg <- for_ 0 (so_p c) (fun i Sg => set Sg (ks + i)%nat (-1)%Z) Sg ;;
      Sg <- set Sg (ks + so_p c)%nat (-1)%Z ;;
      Sg <- set Sg (ks + so_p c + 1)%nat 1%Z ;;
      Some (Sg, (ks + so_p c + 2)%nat)) (Sg, ks)) Q).
  { clear. unfold list_sum. induction l as [|c t IH]; intros Sg ks Q HL HQ; cbn [for_each map fold_right length] in *.
    - apply (wp_intro _ _ _ eq_refl). replace ks with (ks + 0 + 2 * 0)%nat by lia. apply HQ; auto. intros; lia.
    - wb. wb. apply (wp_for (fun k Sg' => length Sg' = length Sg /\ (forall i, (i < ks)%nat -> get Sg' i = get Sg i) /\
               forall i, (i < k)%nat -> get Sg' (ks + i)%nat = Some (-1)%Z)); [lia| | |].
      { csplit; auto. intros; lia. }
      { intros i Sg' [_ Hi] (L & G & G2). wset a' L' G'; [lia|]. csplit; [lia| |].
        - intros j Hj. rewrite G'. destruct (Nat.eqb_spec j (ks + i)); auto. lia.
        - intros j Hj. rewrite G'. destruct (Nat.eqb_spec (ks + j) (ks + i)); auto. apply G2; lia. }
      intros S1 (L1 & G1 & G1'). wb. wset S2 L2 G2; [lia|]. wb. wset S3 L3 G3; [lia|].
      apply (wp_intro _ _ _ eq_refl).
      apply IH; [lia|]. intros Sg' L' G' G''.
      replace (ks + so_p c + 2 + fold_right Nat.add 0 (map so_p t) + 2 * length t)%nat
        with (ks + (so_p c + fold_right Nat.add 0 (map so_p t)) + 2 * Datatypes.S (length t))%nat by lia.
      apply HQ; [lia| |].
      + intros i Hi. rewrite G', G3, G2 by lia.
        destruct (Nat.eqb_spec i (ks + so_p c + 1)); [lia|]. destruct (Nat.eqb_spec i (ks + so_p c)); [lia|]. auto.
      + intros i Hi. cbn [usoc]. destruct (Nat.ltb_spec i (so_p c + 2)) as [Hlt|Hge].
        * rewrite G', G3, G2 by lia.
          destruct (Nat.eqb_spec (ks + i) (ks + so_p c + 1)), (Nat.eqb_spec i (so_p c + 1)); try lia; auto.
          destruct (Nat.eqb_spec (ks + i) (ks + so_p c)); auto. apply G1'. lia.
        * rewrite <- G'' by lia. f_equal. lia. }
  wb. apply SOC; [unfold nK, nsoc in *; lia|].
  intros S4 L4 G4 G4'. fold (nsoc C) in *.
  set (e0 := (b0 + list_sum (map so_p (co_soc C)) + 2 * nsoc C)%nat) in *.
  apply (wp_for (fun k Sg => length Sg = nK /\ (forall i, (i < e0)%nat -> get Sg i = get S4 i) /\ forall i, (e0 <= i < k)%nat -> get Sg i = Some (-1)%Z)).
  - lia.
  - csplit; auto; [lia|]. intros; lia.
  - intros i Sg [Hi0 Hi] (L & G & G5). wset a' L' G'; [lia|]. csplit; [lia| |].
    + intros j Hj. rewrite G'. destruct (Nat.eqb_spec j i); auto. lia.
    + intros j Hj. rewrite G'. destruct (Nat.eqb_spec j i); auto. apply G5; lia.
  - intros Sg (L & G & G5). apply HQ; auto. intros i Hi. unfold ksign. fold b0.
    destruct (Nat.ltb_spec i n). { rewrite G, G4 by lia. auto. }
    destruct (Nat.ltb_spec i b0). { rewrite G, G4 by lia. apply G3'. lia. }
    destruct (Nat.lt_ge_cases i e0).
    + rewrite G by lia. replace i with (b0 + (i - b0))%nat at 1 by lia. apply G4'. lia.
    + rewrite G5 by lia.
      assert (U : forall q j, (list_sum q + 2 * length q <= j)%nat -> usoc q j = false).
      { clear. unfold list_sum. induction q as [|d t IH]; intros j Hj; cbn [usoc fold_right length] in *; auto.
        destruct (Nat.ltb_spec j (d + 2)); [lia|]. apply IH. lia. }
      rewrite U; auto. rewrite map_length. unfold nsoc in *. lia.
Qed.

(* ---- the whole matrix ---- *)
Definition acol (At : option (spmat F)) (j : nat) : col F :=
  match At with Some At => colent zero At j | None => [] end.
Definition id_cols (n p : nat) (At : option (spmat F)) (Gt : spmat F) (C : cone F) : list (col F) :=
  kkt_cols (colent zero Gt) n p (acol At) DELTASTAT (- DELTASTAT) (lpp C) (fun _ => - f1)
    (map (fun c => (so_p c, socv_id)) (co_soc C)) (map (fun _ => expv_id) (co_expc C)).

Lemma map_fst_socv {V} (l : list (socone F)) (v : socone F -> V) : map fst (map (fun c => (so_p c, v c)) l) = map so_p l.
Proof. rewrite map_map. auto. Qed.

Lemma soc_size_sum (l : list (socone F)) : soc_size l = list_sum (map so_p l).
Proof. unfold soc_size, list_sum. induction l as [|c t IH]; cbn; auto. Qed.

(* total number of entries, whatever the values *)
Lemma kkt_cols_count (Gt : spmat F) (WG : wf_sp Gt) (At : option (spmat F)) n p d e l lpv soc ex :
  match At with
  | Some At => p = sp_n At /\ (p = 0%nat /\ sp_nnz At = 0%nat \/ wf_sp At)
  | None => p = 0%nat end ->
  (forall x, In x soc -> (1 <= fst x)%nat) ->
  sp_n Gt = (l + list_sum (map fst soc) + 3 * length ex)%nat ->
  length (concat (kkt_cols (colent zero Gt) n p (acol At) d e l lpv soc ex)) =
  (match At with Some At => sp_nnz At | None => 0 end + sp_nnz Gt + l + (n + p)
   + fold_right (fun x a => 3 * fst x + 1 + a) 0 soc + 6 * length ex)%nat.
Proof.
  intros HA Hq Hm. unfold kkt_cols. rewrite !concat_app, !app_length, xcols_count.
  pose proof (dcols_count Gt WG 0 l (fun j => [((n + p + j)%nat, lpv j)]) 1 ltac:(lia) ltac:(auto)) as E1.
  cbn [Nat.add] in E1. fold (lp_cols (colent zero Gt) (n + p) l lpv) in E1.
  pose proof (soc_cols_count Gt WG soc (n + p + l) l Hq ltac:(lia)) as E2.
  pose proof (exp_cols_count Gt WG ex (n + p + l + list_sum (map fst soc) + 2 * length soc) (l + list_sum (map fst soc)) ltac:(lia)) as E3.
  rewrite <- Hm, (wf_nnz _ WG) in E3. rewrite (wf_jc0 _ WG) in E1.
  assert (E0 : length (concat (map (fun j => acol At j ++ [((n + j)%nat, e)]) (seq 0 p))) =
     (match At with Some At => sp_nnz At | None => 0 end + p)%nat).
  { destruct At as [At|]; [|rewrite HA; auto]. destruct HA as [-> [[H0 HZ]|WA]].
    - rewrite H0, HZ. auto.
    - pose proof (dcols_count At WA 0 (sp_n At) (fun j => [((n + j)%nat, e)]) 1 ltac:(lia) ltac:(auto)) as E.
      cbn [Nat.add] in E. rewrite (wf_nnz _ WA), (wf_jc0 _ WA) in E. cbn [acol]. lia. }
  lia.
Qed.

Theorem createKKT_U_wp (Gt : spmat F) (At : option (spmat F)) (C : cone F) (AttoK GttoK : arr nat)
    (Q : arr Z * spmat F * arr nat * arr nat * cone F -> Prop) :
  let n := sp_m Gt in
  let p := match At with Some At => sp_n At | None => 0%nat end in
  let cols := id_cols n p At Gt C in
  let len := fun j => length (colent zero Gt j) in
  wf_sp Gt -> sp_n Gt = msize C ->
  match At with
  | Some At => (sp_n At = 0%nat /\ sp_nnz At = 0%nat \/ wf_sp At) /\ length AttoK = sp_nnz At
  | None => True end ->
  length GttoK = sp_nnz Gt ->
  (forall c, In c (co_soc C) -> (1 <= so_p c)%nat) ->
  (forall c, In c (co_soc C) -> length (so_Didx c) = so_p c) ->
  (forall e, In e (co_expc C) -> length (ex_colstart e) = 3%nat) ->
  length (lp_kkt_idx (co_lpc C)) = lpp C ->
  (forall Sign K AttoK' GttoK' idx soc' expc',
     length Sign = length cols -> vec Sign (length cols) (ksign n p (lpp C) (map so_p (co_soc C))) ->
     stores K cols -> length (sp_jc K) = (length cols + 1)%nat ->
     length (sp_ir K) = length (concat cols) -> length (sp_pr K) = length (concat cols) ->
     match At with Some At => tok_upto At (fun j => (n + j)%nat) cols (sp_n At) AttoK' | None => AttoK' = AttoK end ->
     tok_upto Gt (fun j => (n + p + zidx (lpp C) (map so_p (co_soc C)) j)%nat) cols (sp_n Gt) GttoK' ->
     let C' := mkCone (set_lp_kkt_idx (co_lpc C) idx) soc' expc' (co_fexv C) in
     lpidx_ok cols len (n + p) (co_lpc C') ->
     same_but_didx (co_soc C) soc' -> didx_ok cols len (n + p + lpp C) (lpp C) soc' ->
     same_but_colstart (co_expc C) expc' ->
     colstart_ok cols len (n + p + hsize C + 2 * nsoc C) (hsize C) expc' ->
     Q (Sign, K, AttoK', GttoK', C')) ->
  wp (createKKT_U Gt At C AttoK GttoK) Q.
Proof.
  intros n p cols len WG Hm HA LG Hq HD HE HI HQ. unfold createKKT_U. fold n p.
  unfold hsize in *. unfold msize, hsize in Hm.
  set (q := map so_p (co_soc C)) in *.
  pose proof (kkt_cols_length (colent zero Gt) n p (acol At) DELTASTAT (- DELTASTAT) (lpp C) (fun _ => - f1)
    (map (fun c => (so_p c, socv_id)) (co_soc C)) (map (fun _ => expv_id) (co_expc C))) as LC.
  pose proof (kkt_cols_count Gt WG At n p DELTASTAT (- DELTASTAT) (lpp C) (fun _ => - f1)
    (map (fun c => (so_p c, socv_id)) (co_soc C)) (map (fun _ => expv_id) (co_expc C))) as CC.
  fold (id_cols n p At Gt C) in LC, CC. fold cols in LC, CC.
  rewrite map_fst_socv in LC, CC. fold q in LC, CC. repeat rewrite map_length in LC. repeat rewrite map_length in CC.
  fold (nsoc C) in LC. fold (nexc C) in LC, CC.
  assert (FE : fold_right (fun x a => (3 * fst x + 1 + a)%nat) 0%nat (map (fun c : socone F => (so_p c, socv_id)) (co_soc C)) =
               fold_right (fun c a => (3 * so_p c + 1 + a)%nat) 0%nat (co_soc C)).
  { clear. induction (co_soc C) as [|c t IH]; cbn [map fold_right fst]; auto. }
  rewrite FE in CC. clear FE.
  specialize (CC ltac:(destruct At as [At|]; [split; [reflexivity|exact (proj1 HA)]|reflexivity])
                 ltac:(intros x Hx; apply in_map_iff in Hx; destruct Hx as (c & <- & Hc); apply Hq; auto) Hm).
  set (nnzA := match At with Some At => sp_nnz At | None => 0%nat end) in *.
  set (nnzK := (nnzA + sp_nnz Gt + lpp C + (n + p) + fold_right (fun c a => 3 * so_p c + 1 + a) 0 (co_soc C) + 6 * nexc C)%nat) in *.
  set (nK := (n + p + sp_n Gt + 2 * nsoc C)%nat) in *.
  assert (LC' : length cols = nK) by (unfold nK; lia). clear LC.
  wb. apply signs_wp; [unfold hsize; auto|]. intros Sign LS GS.
  set (xc := map (fun j => [(j, DELTASTAT)]) (seq 0 n)).
  set (yc := map (fun j => acol At j ++ [((n + j)%nat, - DELTASTAT)]) (seq 0 p)).
  set (lc := lp_cols (colent zero Gt) (n + p) (lpp C) (fun _ => - f1)).
  set (sc := soc_cols (colent zero Gt) (n + p + lpp C) (lpp C) (map (fun c => (so_p c, socv_id)) (co_soc C))).
  set (ec := exp_cols (colent zero Gt) (n + p + lpp C + list_sum q + 2 * nsoc C) (lpp C + list_sum q) (map (fun _ => expv_id) (co_expc C))).
  assert (Ecols : cols = xc ++ yc ++ lc ++ sc ++ ec).
  { unfold cols, id_cols, kkt_cols. rewrite map_fst_socv, map_length. reflexivity. }
  assert (LX : length xc = n) by (unfold xc; rewrite map_length, seq_length; auto).
  assert (LY : length yc = p) by (unfold yc; rewrite map_length, seq_length; auto).
  assert (LL : length lc = lpp C) by (unfold lc, lp_cols; rewrite map_length, seq_length; auto).
  assert (LSo : length sc = (list_sum q + 2 * nsoc C)%nat) by (unfold sc; rewrite soc_cols_length, map_fst_socv, map_length; auto).
  rewrite Ecols in CC. rewrite !concat_app, !app_length in CC.
  assert (CX : length (concat xc) = n) by apply xcols_count.
  wb. eapply (xcols_wp (nK + 1) nnzK n _ DELTASTAT); fold xc; [constructor; cbn; rewrite ?alloc_length; auto; try (intros; lia); intros [|t] e; cbn; discriminate|unfold nK; lia|unfold nnzK; lia|].
  intros st1 B1.
  (* y part *)
  assert (Y : forall Q' : kst * nat * arr nat -> Prop, (forall st2 iA AttoK', built (nK + 1) nnzK (xc ++ yc) st2 ->
       match At with Some At => tok_upto At (fun j => (n + j)%nat) (xc ++ yc) (sp_n At) AttoK' | None => AttoK' = AttoK end ->
       Q' (st2, iA, AttoK')) ->
     wp (for_ 0 p (fun j s =>
      At <- At ;;
      '(st, i, toK) <- kcol At j (n + j) s ;;
      st <- kput st (n + j)%nat (- DELTASTAT) ;;
      Some (st, i, toK)) (st1, 0%nat, AttoK)) Q').
  { intros Q' HQ'. destruct At as [At|].
    - destruct HA as [[[H0 HZ]|WA] LA].
      + assert (Ey : yc = []) by (apply length_zero_iff_nil; rewrite LY; exact H0).
        rewrite Ey, app_nil_r in HQ'. assert (Hp0 : p = 0%nat) by exact H0.
        rewrite Hp0. apply (wp_intro _ _ _ eq_refl). apply HQ'; [exact B1|].
        split; [lia|]. intros j' q' Hj'. lia.
      + eapply (ycols_wp (nK + 1) nnzK xc At (fun j => (n + j)%nat) n p _ _ (- DELTASTAT)); auto.
        * unfold nK; lia.
        * change (map (fun j => colent zero At j ++ [((n + j)%nat, - DELTASTAT)]) (seq 0 p)) with yc. lia.
        * split; [lia|]. intros; lia.
    - assert (Ey : yc = []) by (apply length_zero_iff_nil; rewrite LY; reflexivity).
      rewrite Ey, app_nil_r in HQ'. apply (wp_intro _ _ _ eq_refl). apply HQ'; auto. }
  wb. apply Y. clear Y. intros st2 iA AttoK' B2 TA.
  (* LP part *)
  set (cm := fun j => (n + p + zidx (lpp C) q j)%nat) in *.
  wb. rewrite <- (wf_jc0 _ WG) at 2.
  eapply (dcols_wp (nK + 1) nnzK (xc ++ yc) Gt cm (n + p) 0 (lpp C) _ _ _ (fun _ => - f1)); auto.
  1: lia. 1: rewrite app_length; lia.
  1: { intros j Hj. unfold cm, zidx. cbn [Nat.add]. rewrite (proj2 (Nat.ltb_lt _ _) Hj). auto. }
  1: { rewrite app_length; unfold nK; lia. }
  1: { change (map (fun j : nat => colent zero Gt (0 + j) ++ [((n + p + j)%nat, - f1)]) (seq 0 (lpp C))) with lc. rewrite concat_app, app_length. lia. }
  1: { split; [lia|]. intros; lia. }
  1: { lia. }
  intros st3 tok3 idx B3 T3 L3 G3. change (map (fun j : nat => colent zero Gt (0 + j) ++ [((n + p + j)%nat, - f1)]) (seq 0 (lpp C))) with lc in *. cbn [Nat.add] in T3 |- *.
  wb. rewrite <- app_assoc in *.
  eapply (kkt_socs_wp (nK + 1) nnzK Gt cm (co_soc C) (xc ++ yc ++ lc)); auto; try lia.
  1: { fold q. lia. }
  1: { rewrite !app_length; lia. }
  1: { intros j. unfold cm, zidx. fold q. destruct (Nat.ltb_spec (lpp C + j) (lpp C)); [lia|].
       replace (lpp C + j - lpp C)%nat with j by lia. lia. }
  1: { fold q. fold (nsoc C). rewrite !app_length; unfold nK; lia. }
  1: { change (soc_cols _ _ _ _) with sc. rewrite !concat_app, !app_length. lia. }
  intros st4 tok4 soc' B4 T4 S4 D4. fold q. fold q in T4. change (soc_cols _ _ _ _) with sc in B4, T4, D4.
  rewrite soc_size_sum. fold q.
  wb. rewrite <- !app_assoc in *.
  eapply (kkt_exps_wp (nK + 1) nnzK Gt cm (co_expc C) (xc ++ yc ++ lc ++ sc)); auto; try lia.
  1: { fold (nexc C). lia. }
  1: { rewrite !app_length; lia. }
  1: { intros j. unfold cm, zidx. destruct (Nat.ltb_spec (lpp C + list_sum q + j) (lpp C)); [lia|].
       assert (ZS : forall q' j', (list_sum q' <= j')%nat -> zsoc q' j' = (j' + 2 * length q')%nat).
       { clear. unfold list_sum. induction q' as [|d t IH]; intros j' H; cbn [zsoc fold_right length] in *; [lia|].
         destruct (Nat.ltb_spec j' d); [lia|]. rewrite IH by lia. lia. }
       rewrite ZS by lia. unfold q at 2. rewrite map_length. fold (nsoc C). lia. }
  1: { fold (nexc C). rewrite !app_length; unfold nK; lia. }
  1: { replace (n + p + (lpp C + list_sum q) + 2 * nsoc C)%nat with (n + p + lpp C + list_sum q + 2 * nsoc C)%nat by lia.
       change (exp_cols _ _ _ _) with ec. rewrite !concat_app, !app_length. lia. }
  intros st5 tok5 expc' B5 T5 S5 D5. fold (nexc C) in *.
  replace (n + p + (lpp C + list_sum q) + 2 * nsoc C)%nat with (n + p + lpp C + list_sum q + 2 * nsoc C)%nat in * by lia.
  change (exp_cols _ _ _ _) with ec in B5, T5, D5. rewrite <- !app_assoc in *. rewrite <- Ecols in *.
  unfold ecoscreateSparseMatrix. wb. wb. wset jc L6 G6; [rewrite (bu_ljc _ _ _ _ B5); lia|].
  apply (wp_intro _ _ _ eq_refl). apply (wp_intro _ _ _ eq_refl).
  assert (CC' : length (concat cols) = nnzK) by (rewrite Ecols, !concat_app, !app_length; lia).
  apply HQ.
  - rewrite LC'; auto.
  - rewrite LC'; exact GS.
  - constructor; cbn [sp_jc sp_ir sp_pr sp_n sp_m sp_nnz]; auto.
    + intros c Hc. rewrite G6. destruct (Nat.eqb_spec c nK) as [E|Ne].
      * subst c. rewrite <- LC', start_all, CC'. auto.
      * apply B5. lia.
    + apply B5.
  - cbn. rewrite L6, (bu_ljc _ _ _ _ B5). lia.
  - cbn. rewrite (bu_lir _ _ _ _ B5). auto.
  - cbn. rewrite (bu_lpr _ _ _ _ B5). auto.
  - destruct At as [At|]; auto. rewrite Ecols, app_assoc. apply tok_upto_more; auto.
  - rewrite Hm. exact T5.
  - split; cbn; [rewrite L3; exact HI|]. intros j Hj. rewrite G3 by auto.
    replace cols with ((xc ++ yc ++ lc) ++ sc ++ ec) by (rewrite Ecols, <- !app_assoc; auto).
    rewrite (start_le (xc ++ yc ++ lc)) by (rewrite !app_length; unfold lpp in *; lia). auto.
  - auto.
  - rewrite Ecols. replace (xc ++ yc ++ lc ++ sc ++ ec) with ((xc ++ yc ++ lc ++ sc) ++ ec) by (rewrite <- !app_assoc; auto).
    apply didx_ok_more; auto. rewrite (same_didx_p _ _ S4). fold q.
    assert (length soc' = nsoc C) by (unfold nsoc; clear - S4; induction S4; cbn; auto).
    rewrite !app_length. lia.
  - auto.
  - replace (n + p + (lpp C + list_sum q) + 2 * nsoc C)%nat with (n + p + lpp C + list_sum q + 2 * nsoc C)%nat by lia. exact D5.
Qed.

End Asm.
