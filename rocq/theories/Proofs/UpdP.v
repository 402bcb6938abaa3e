(* New values for the data of a workspace: where the entries of A and G are in
   the KKT matrix, and ECOS_updateData (src/ecos.c:1648-1695).  Arithmetic is
   arbitrary. *)
From Coq Require Import List Arith Bool ZArith Lia.
From Verif Require Import Base Num.
From Verif.Model Require Import Spla Splamm Types Consts Expcone Cone Ldl Kkt Equil Preproc Ecos.
From Verif.Spec Require Import Matrix Fill KktSpec KktMatrix Shape SetupSpec UpdateSpec.
From Verif.Proofs Require Import SplaP LoopLib SplammP LdlSym LdlNum KktAsm KktMat KktR CountSort ConeP KktUpd Layout EquilP EquilX Work SetupP WorkUpd
  SafeLib Stretch ExitP.
Import ListNotations.
Open Scope nat_scope.

(* ------------------------------------------------ positions of conic rows *)
Lemma unzsoc_zsoc q : forall j, unzsoc q (zsoc q j) = Some j.
Proof.
  induction q as [|d t IH]; intros j; cbn [zsoc unzsoc]; auto. destruct (Nat.ltb_spec j d).
  - rewrite (proj2 (Nat.ltb_lt j d)) by auto. auto.
  - rewrite (proj2 (Nat.ltb_ge (d + 2 + zsoc t (j - d)) d)), (proj2 (Nat.ltb_ge (d + 2 + zsoc t (j - d)) (d + 2))) by lia.
    replace (d + 2 + zsoc t (j - d) - (d + 2)) with (zsoc t (j - d)) by lia. rewrite IH. cbn [option_map]. f_equal. lia.
Qed.
Lemma zsoc_unzsoc q : forall t j, unzsoc q t = Some j -> zsoc q j = t.
Proof.
  induction q as [|d tl IH]; intros t j E; cbn [zsoc unzsoc] in *; [congruence|].
  destruct (Nat.ltb_spec t d); [injection E as <-; rewrite (proj2 (Nat.ltb_lt t d)) by auto; auto|].
  destruct (Nat.ltb_spec t (d + 2)); [discriminate|]. destruct (unzsoc tl (t - (d + 2))) as [j'|] eqn:E1; [|discriminate].
  cbn [option_map] in E. injection E as <-. apply IH in E1. destruct (Nat.ltb_spec (d + j') d); [lia|]. replace (d + j' - d) with j' by lia. lia.
Qed.
Lemma unz_zidx l q j : unz l q (zidx l q j) = Some j.
Proof.
  unfold unz, zidx. destruct (Nat.ltb_spec j l).
  - rewrite (proj2 (Nat.ltb_lt j l)) by auto. auto.
  - rewrite (proj2 (Nat.ltb_ge (l + zsoc q (j - l)) l)) by lia. replace (l + zsoc q (j - l) - l) with (zsoc q (j - l)) by lia.
    rewrite unzsoc_zsoc. cbn [option_map]. f_equal. lia.
Qed.
Lemma zidx_unz l q t j : unz l q t = Some j -> zidx l q j = t.
Proof.
  unfold unz, zidx. destruct (Nat.ltb_spec t l); [intros E; injection E as <-; rewrite (proj2 (Nat.ltb_lt t l)) by auto; auto|].
  destruct (unzsoc q (t - l)) as [j'|] eqn:E; [|discriminate]. cbn [option_map]. intros E'. injection E' as <-. apply zsoc_unzsoc in E.
  destruct (Nat.ltb_spec (l + j') l); [lia|]. replace (l + j' - l) with j' by lia. lia.
Qed.

(* --------------------------------------- the columns of the KKT matrix again *)
Section Cols.
Context {F : Type}.
Notation colf := (nat -> col F).

Lemma nth_error_seq a n i : i < n -> nth_error (seq a n) i = Some (a + i).
Proof.
  revert a i. induction n as [|n IH]; intros a [|i] H; cbn; try lia; [f_equal; lia|]. rewrite IH by lia. f_equal. lia.
Qed.
Lemma map_seq_nth {A} (f : nat -> A) k i : i < k -> nth_error (map f (seq 0 k)) i = Some (f i).
Proof. intros H. rewrite nth_error_map, nth_error_seq by auto. reflexivity. Qed.

Lemma soc_block_nth base cs q v t : t < q + 2 -> exists tail, forall Gc : colf,
  nth_error (soc_block Gc base cs q v) t = Some ((if Nat.ltb t q then Gc (cs + t) else []) ++ tail).
Proof.
  intros H. unfold soc_block. destruct (Nat.ltb_spec t q) as [L|L].
  - eexists. intros Gc. rewrite nth_error_app1 by (rewrite map_length, seq_length; auto). rewrite map_seq_nth by auto; reflexivity.
  - assert (t = q \/ t = q + 1) as [->| ->] by lia; eexists; intros Gc; rewrite nth_error_app2 by (rewrite map_length, seq_length; lia);
      rewrite map_length, seq_length; [rewrite Nat.sub_diag|replace (q + 1 - q) with 1 by lia]; cbn [nth_error app]; reflexivity.
Qed.
Lemma soc_block_len Gc base cs q (v : socv F) : length (soc_block Gc base cs q v) = q + 2.
Proof. unfold soc_block. rewrite app_length, map_length, seq_length. auto. Qed.

Definition headz (q : list nat) (Gc : colf) (cs t : nat) : col F := match unzsoc q t with Some j => Gc (cs + j) | None => [] end.

Lemma soc_cols_nth soc : forall base cs t, t < list_sum (map fst soc) + 2 * length soc -> exists tail, forall Gc : colf,
  nth_error (soc_cols Gc base cs soc) t = Some (headz (map fst soc) Gc cs t ++ tail).
Proof.
  induction soc as [|[q v] s IH]; intros base cs t H.
  - cbn in H. lia.
  - assert (E : list_sum (map fst ((q, v) :: s)) = q + list_sum (map fst s)) by reflexivity. rewrite E in H. cbn [length] in H. clear E.
    cbn [soc_cols map]. unfold headz. cbn [fst unzsoc].
    destruct (Nat.lt_ge_cases t (q + 2)) as [L|L].
    + destruct (soc_block_nth base cs q v t L) as [tail Ht]. exists tail. intros Gc.
      rewrite nth_error_app1 by (rewrite soc_block_len; auto). rewrite Ht. destruct (Nat.ltb_spec t q); auto.
      rewrite (proj2 (Nat.ltb_lt t (q + 2))) by auto. auto.
    + destruct (IH (base + q + 2) (cs + q) (t - (q + 2)) ltac:(lia)) as [tail Ht]. exists tail. intros Gc.
      rewrite nth_error_app2 by (rewrite soc_block_len; auto). rewrite soc_block_len, Ht.
      rewrite (proj2 (Nat.ltb_ge t q)), (proj2 (Nat.ltb_ge t (q + 2))) by lia. unfold headz.
      destruct (unzsoc (map fst s) (t - (q + 2))); cbn; auto. rewrite Nat.add_assoc. auto.
Qed.

Lemma exp_cols_nth ex : forall base cs t, t < 3 * length ex -> exists tail, forall Gc : colf,
  nth_error (exp_cols Gc base cs ex) t = Some (Gc (cs + t) ++ tail).
Proof.
  induction ex as [|v s IH]; intros base cs t H; cbn [length] in H; [lia|]. cbn [exp_cols].
  assert (LE : forall Gc, length (exp_block Gc base cs v) = 3) by (intros; unfold exp_block; rewrite map_length, seq_length; auto).
  destruct (Nat.lt_ge_cases t 3) as [L|L].
  - eexists. intros Gc. rewrite nth_error_app1 by (rewrite LE; auto). unfold exp_block. rewrite map_seq_nth by auto; reflexivity.
  - destruct (IH (base + 3) (cs + 3) (t - 3) ltac:(lia)) as [tail Ht]. exists tail. intros Gc.
    rewrite nth_error_app2 by (rewrite LE; auto). rewrite LE, Ht. do 3 f_equal. lia.
Qed.

(* the part of a column that holds data *)
Definition head (n p l : nat) (q : list nat) (Gc Ac : colf) (c : nat) : col F :=
  if Nat.ltb c n then [] else if Nat.ltb c (n + p) then Ac (c - n) else
  match unz l q (c - (n + p)) with Some j => Gc j | None => [] end.

Lemma kkt_cols_nth n p d e l lpv soc ex c :
  let q := map fst soc in c < n + p + (l + list_sum q + 3 * length ex + 2 * length q) ->
  exists tail, forall Gc Ac : colf, nth_error (kkt_cols Gc n p Ac d e l lpv soc ex) c = Some (head n p l q Gc Ac c ++ tail).
Proof.
  intros q H. unfold kkt_cols, head. fold q. assert (Lq : length q = length soc) by apply map_length.
  assert (LS : forall Gc, length (soc_cols Gc (n + p + l) l soc) = list_sum q + 2 * length q).
  { intros Gc. unfold q. clear. generalize (n + p + l). generalize l. induction soc as [|[d v] s IH]; intros cs b; auto.
    cbn [soc_cols]. rewrite app_length, soc_block_len, IH. change (list_sum (map fst ((d, v) :: s))) with (d + list_sum (map fst s)). cbn [length map]. lia. }
  destruct (Nat.ltb_spec c n) as [L0|L0].
  { eexists. intros Gc Ac. rewrite nth_error_app1 by (rewrite map_length, seq_length; auto). rewrite map_seq_nth by auto. reflexivity. }
  destruct (Nat.ltb_spec c (n + p)) as [L1|L1].
  { eexists. intros Gc Ac. rewrite nth_error_app2, map_length, seq_length by (rewrite map_length, seq_length; auto).
    rewrite nth_error_app1 by (rewrite map_length, seq_length; lia). rewrite map_seq_nth by lia. reflexivity. }
  assert (SKIP : forall Gc Ac X, nth_error (map (fun j => [(j, d)]) (seq 0 n) ++ map (fun j => Ac j ++ [(n + j, e)]) (seq 0 p) ++ lp_cols Gc (n + p) l lpv ++ X) c
      = nth_error (lp_cols Gc (n + p) l lpv ++ X) (c - (n + p))).
  { intros. rewrite nth_error_app2, map_length, seq_length by (rewrite map_length, seq_length; auto).
    rewrite nth_error_app2, map_length, seq_length by (rewrite map_length, seq_length; lia). f_equal. lia. }
  assert (LL : forall Gc, length (lp_cols Gc (n + p) l lpv) = l) by (intros; unfold lp_cols; rewrite map_length, seq_length; auto).
  set (t := c - (n + p)) in *. unfold unz. destruct (Nat.ltb_spec t l) as [L2|L2].
  { eexists. intros Gc Ac. rewrite SKIP, nth_error_app1 by (rewrite LL; auto). unfold lp_cols. rewrite map_seq_nth by auto. reflexivity. }
  destruct (Nat.lt_ge_cases (t - l) (list_sum q + 2 * length q)) as [L3|L3].
  { destruct (soc_cols_nth soc (n + p + l) l (t - l)) as [tail Ht]; [fold q; lia|]. exists tail. intros Gc Ac.
    rewrite SKIP, nth_error_app2, LL by (rewrite LL; auto). rewrite nth_error_app1 by (rewrite LS; auto). rewrite Ht. fold q. unfold headz.
    destruct (unzsoc q (t - l)); reflexivity. }
  destruct (exp_cols_nth ex (n + p + l + list_sum q + 2 * length soc) (l + list_sum q) (t - l - (list_sum q + 2 * length q))) as [tail Ht]; [lia|].
  exists tail. intros Gc Ac. rewrite SKIP, nth_error_app2, LL by (rewrite LL; auto). rewrite nth_error_app2, LS by (rewrite LS; auto). rewrite Ht.
  rewrite KktR.unzsoc_beyond by auto. cbn [option_map]. do 3 f_equal. lia.
Qed.

(* every entry is in some column *)
Lemma concat_at (cols : list (col F)) t : t < length (concat cols) ->
  exists c x i, nth_error cols c = Some x /\ i < length x /\ t = KktSpec.start cols c + i.
Proof.
  revert t. induction cols as [|x s IH]; intros t H; cbn [concat length] in H; [lia|]. rewrite app_length in H.
  destruct (Nat.lt_ge_cases t (length x)) as [L|L].
  - exists 0, x, t. split; [reflexivity|]. split; [auto|]. reflexivity.
  - destruct (IH (t - length x) ltac:(lia)) as (c & y & i & E & Hi & Et). exists (S c), y, i. split; [exact E|]. split; [auto|].
    unfold KktSpec.start. cbn [firstn concat]. rewrite app_length. fold (KktSpec.start s c). lia.
Qed.
End Cols.

(* ------------------------------------------------------------ transposition *)
Section Trans.
Context `{O : Ops}.

Lemma trans_nth (M Mt : spmat F) k : wf_sp M -> transposable M -> transposed M Mt -> k < sp_nnz M ->
  let r := gd 0 (sp_ir M) k in
  r < sp_m M /\ exists j, nth_error (colent f0 Mt r) (tpos M k - tstart M r) = Some (j, gd f0 (sp_pr M) k).
Proof.
  intros W T X Hk r. pose proof (wf_row M W k Hk) as Hr. split; auto. destruct (transposed_facts M Mt W T X) as (Wt & Tn & Tm & Tz & J & E).
  destruct (in_col_exists M k W Hk) as [j Hj]. exists j. destruct (E j k Hj) as (Ei & Ep).
  pose proof (pos_bounds allsel (gd 0 (sp_ir M)) (sp_nnz M) k Hk eq_refl) as B. fold (tpos M k) in B. fold r in B. fold (tstart M r) in B. fold (tstart M (S r)) in B.
  unfold colent. rewrite !(gd_get _ _ _ _ (J r ltac:(lia))). rewrite (gd_get _ _ _ _ (J (r + 1) ltac:(lia))). rewrite Nat.add_1_r.
  rewrite nth_error_map, nth_error_seq by lia. cbn [option_map]. replace (tstart M r + (tpos M k - tstart M r)) with (tpos M k) by lia.
  rewrite (gd_get _ _ _ _ Ei). f_equal. f_equal. unfold gd. rewrite Ep. auto.
Qed.

Lemma trans_surj (M Mt : spmat F) r i : wf_sp M -> transposable M -> transposed M Mt -> r < sp_m M -> i < length (colent f0 Mt r) ->
  exists k, k < sp_nnz M /\ gd 0 (sp_ir M) k = r /\ tpos M k - tstart M r = i.
Proof.
  intros W T X Hr Hi. destruct (transposed_facts M Mt W T X) as (Wt & Tn & Tm & Tz & J & E).
  rewrite colent_length in Hi. rewrite !(gd_get _ _ _ _ (J r ltac:(lia))), (gd_get _ _ _ _ (J (r + 1) ltac:(lia))), Nat.add_1_r in Hi.
  destruct (pos_surj_bucket allsel (gd 0 (sp_ir M)) (sp_nnz M) r (tstart M r + i)) as (k & Hk & _ & Ek & Ep).
  { fold (tstart M r). fold (tstart M (S r)). lia. }
  exists k. split; auto. split; auto. unfold tpos. rewrite Ep. lia.
Qed.

(* transposes of matrices with the same pattern have the same pattern *)
Lemma trans_pat (M M' Mt Mt' : spmat F) : wf_sp M -> transposable M -> transposed M Mt ->
  wf_sp M' -> transposable M' -> transposed M' Mt' -> same_pattern M M' ->
  forall r, r < sp_m M -> map fst (colent f0 Mt r) = map fst (colent f0 Mt' r).
Proof.
  intros W T X W' T' X' (Ej & Ei & En & Em & Ez) r Hr.
  destruct (transposed_facts M Mt W T X) as (Wt & Tn & Tm & Tz & J & E). destruct (transposed_facts M' Mt' W' T' X') as (Wt' & Tn' & Tm' & Tz' & J' & E').
  assert (TS : forall r, tstart M' r = tstart M r) by (intros; unfold tstart; rewrite Ei, Ez; auto).
  assert (TP : forall k, tpos M' k = tpos M k) by (intros; unfold tpos; rewrite Ei, Ez; auto).
  unfold colent. rewrite !map_map. cbn [fst].
  rewrite !(gd_get _ _ _ _ (J r ltac:(lia))), (gd_get _ _ _ _ (J (r + 1) ltac:(lia))).
  rewrite !(gd_get _ _ _ _ (J' r ltac:(lia))), (gd_get _ _ _ _ (J' (r + 1) ltac:(lia))), !TS.
  apply map_ext_in. intros q Hq. apply in_seq in Hq.
  destruct (pos_surj_bucket allsel (gd 0 (sp_ir M)) (sp_nnz M) r q) as (k & Hk & _ & Ek & Ep).
  { fold (tstart M r). fold (tstart M (S r)). rewrite Nat.add_1_r in Hq. lia. }
  fold (tpos M k) in Ep. subst q. destruct (in_col_exists M k W Hk) as [j Hj].
  destruct (E j k Hj) as (A & _). assert (Hj' : in_col M' j k) by (destruct Hj; split; rewrite ?Ej, ?En; auto).
  destruct (E' j k Hj') as (A' & _). rewrite TP in A'. rewrite (gd_get _ _ _ _ A), (gd_get _ _ _ _ A'). auto.
Qed.
End Trans.

(* ------------------------------------------------------- writing the values *)
Section Write.
Context {F : Type}.

Lemma kv_writes (PK : arr nat) len cnt (idx : nat -> nat) (val f : nat -> F) (body : nat -> arr F -> option (arr F)) (pr : arr F) (Q : arr F -> Prop) :
  (forall t, t < len -> exists k, get PK t = Some k /\ get pr k = Some (f t)) ->
  (forall t t' k, t < len -> t' < len -> get PK t = Some k -> get PK t' = Some k -> t = t') ->
  (forall k, k < cnt -> idx k < len) ->
  (forall k a, k < cnt -> body k a = (pk <- get PK (idx k) ;; set a pk (val k))) ->
  (forall pr' f', length pr' = length pr -> (forall t, t < len -> exists k, get PK t = Some k /\ get pr' k = Some (f' t)) ->
     (forall t, t < len -> (exists i, i < cnt /\ t = idx i /\ f' t = val i) \/ ((forall i, i < cnt -> idx i <> t) /\ f' t = f t)) -> Q pr') ->
  wp (for_ 0 cnt body pr) Q.
Proof.
  intros H INJ HI HB HQ.
  apply (wp_for (fun c pr' => exists f', length pr' = length pr /\ (forall t, t < len -> exists k, get PK t = Some k /\ get pr' k = Some (f' t)) /\
    forall t, t < len -> (exists i, i < c /\ t = idx i /\ f' t = val i) \/ ((forall i, i < c -> idx i <> t) /\ f' t = f t))).
  - lia.
  - exists f. csplit; auto. intros t Ht. right. split; auto. intros; lia.
  - intros c pr' [_ Hc] (f' & L' & H' & C'). rewrite HB by auto. destruct (H' (idx c) (HI c Hc)) as (k & Gk & Gv). wget Gk.
    apply wp_set; [eapply get_lt; eauto|]. intros pr2 L2 G2. exists (fun t => if Nat.eqb t (idx c) then val c else f' t). csplit; [congruence| |].
    + intros t Ht. destruct (H' t Ht) as (k' & Gk' & Gv'). exists k'. split; auto. rewrite G2. destruct (Nat.eqb_spec t (idx c)) as [->|Ne].
      * rewrite Gk in Gk'. injection Gk' as <-. rewrite Nat.eqb_refl. auto.
      * destruct (Nat.eqb_spec k' k) as [->|]; auto. exfalso. apply Ne. eapply INJ; eauto.
    + intros t Ht. destruct (Nat.eqb_spec t (idx c)) as [->|Ne].
      * left. exists c. csplit; auto; lia.
      * destruct (C' t Ht) as [(i & Hi & Ei & Ev)|(Hn & Ev)].
        { left. exists i. csplit; auto; lia. }
        { right. split; auto. intros i Hi. destruct (Nat.eq_dec i c) as [->|]; auto. apply Hn. lia. }
  - intros pr' (f' & L' & H' & C'). eapply HQ; eauto.
Qed.
End Write.

Section Rewrite.
Context {F : Type}.
Lemma kv_rewrite (cols cols' : list (col F)) (PK : arr nat) (pr : arr F) ca cg (ia ig : nat -> nat) (va vg : nat -> F) ba bg (Q : arr F -> Prop) :
  length (concat cols') = length (concat cols) -> kv (concat cols) PK pr ->
  (forall k, k < ca -> exists r, nth_error (concat cols') (ia k) = Some (r, va k)) ->
  (forall k, k < cg -> exists r, nth_error (concat cols') (ig k) = Some (r, vg k)) ->
  (forall t e, nth_error (concat cols') t = Some e ->
     (exists k, k < ca /\ t = ia k) \/ (exists k, k < cg /\ t = ig k) \/ nth_error (concat cols) t = Some e) ->
  (forall k a, k < ca -> ba k a = (pk <- get PK (ia k) ;; set a pk (va k))) ->
  (forall k a, k < cg -> bg k a = (pk <- get PK (ig k) ;; set a pk (vg k))) ->
  (forall pr', length pr' = length pr -> kv (concat cols') PK pr' -> Q pr') ->
  wp (pr1 <- for_ 0 ca ba pr ;; for_ 0 cg bg pr1) Q.
Proof.
  intros LE [KV KI] HA HG HS BA BG HQ. destruct (concat cols) as [|e0 fl] eqn:EF.
  { assert (E0 : concat cols' = []) by (destruct (concat cols'); [auto|discriminate]). rewrite E0 in *.
    assert (ca = 0) as ->. { destruct ca; auto. destruct (HA 0 ltac:(lia)) as [r Hr]. destruct (ia 0); discriminate. }
    assert (cg = 0) as ->. { destruct cg; auto. destruct (HG 0 ltac:(lia)) as [r Hr]. destruct (ig 0); discriminate. }
    apply (wp_intro _ _ _ eq_refl). apply HQ; auto. constructor; [intros t e He; destruct t; discriminate|intros t t' k Ht; cbn in Ht; lia]. }
  rewrite <- EF in *. clear EF fl. set (f := fun t => snd (nth t (concat cols) e0)).
  assert (H0 : forall t, t < length (concat cols) -> exists k, get PK t = Some k /\ get pr k = Some (f t)).
  { intros t Ht. apply (KV t). apply nth_error_nth'; auto. }
  assert (IA : forall k, k < ca -> ia k < length (concat cols)).
  { intros k Hk. destruct (HA k Hk) as [r E]. rewrite <- LE. apply nth_error_Some. congruence. }
  assert (IG : forall k, k < cg -> ig k < length (concat cols)).
  { intros k Hk. destruct (HG k Hk) as [r E]. rewrite <- LE. apply nth_error_Some. congruence. }
  wb. apply (kv_writes PK (length (concat cols)) ca ia va f _ pr _ H0 KI IA BA). intros pr1 f1 L1 H1 C1.
  apply (kv_writes PK (length (concat cols)) cg ig vg f1 _ pr1 _ H1 KI IG BG). intros pr2 f2 L2 H2 C2.
  apply HQ; [congruence|]. constructor; [|rewrite LE; exact KI]. intros t e He.
  assert (Ht : t < length (concat cols)) by (rewrite <- LE; apply nth_error_Some; congruence).
  destruct (H2 t Ht) as (k & Gk & Gv). exists k. split; auto. rewrite Gv. f_equal.
  destruct (C2 t Ht) as [(i & Hi & -> & ->)|(Hn & ->)]; [destruct (HG i Hi) as [r E]; rewrite E in He; injection He as <-; reflexivity|].
  destruct (C1 t Ht) as [(i & Hi & -> & ->)|(Hn1 & ->)]; [destruct (HA i Hi) as [r E]; rewrite E in He; injection He as <-; reflexivity|].
  destruct (HS t e He) as [(i & Hi & Et)|[(i & Hi & Et)|Et]]; [exfalso; apply (Hn1 i); auto|exfalso; apply (Hn i); auto|].
  unfold f. rewrite (nth_error_nth _ _ e0 Et). reflexivity.
Qed.

Lemma same_pat_nth (a b : list (col F)) : length a = length b ->
  (forall c x y, nth_error a c = Some x -> nth_error b c = Some y -> map fst x = map fst y) -> same_pat a b.
Proof.
  unfold same_pat. revert b. induction a as [|x a IH]; intros [|y b] L H; try discriminate; auto. cbn. f_equal.
  - apply (H 0); reflexivity.
  - apply IH; [cbn in L; lia|]. intros c. apply (H (S c)).
Qed.

Lemma nth_concat (cols : list (col F)) c x i e : nth_error cols c = Some x -> nth_error x i = Some e ->
  nth_error (concat cols) (KktSpec.start cols c + i) = Some e.
Proof.
  revert c. induction cols as [|y s IH]; intros [|c] Hc Hi; try discriminate; unfold KktSpec.start; cbn [firstn concat].
  - injection Hc as ->. cbn [length]. rewrite nth_error_app1; [exact Hi|]. apply nth_error_Some. cbn. congruence.
  - rewrite app_length, nth_error_app2 by lia. rewrite <- (IH c Hc Hi). f_equal. unfold KktSpec.start. lia.
Qed.
End Rewrite.

Lemma indexed_len `{O : Ops} (a : list (col F)) len len' n p C : (forall j, j < msize C -> len j = len' j) -> indexed a len n p C -> indexed a len' n p C.
Proof.
  intros H [[L1 L2] S E]. unfold msize, hsize, nexc in *. constructor.
  - split; auto. intros j Hj. rewrite <- H by (unfold lpp; lia). auto.
  - assert (H' : forall j, j < lpp C + list_sum (map so_p (co_soc C)) -> len j = len' j) by (intros; apply H; lia). clear - S H'. revert S H'.
    generalize (n + p + lpp C) as base. generalize (lpp C) as cs. induction (co_soc C) as [|c t IH]; cbn [didx_ok map]; auto.
    intros cs base (A & B & D) H'. change (list_sum (so_p c :: map so_p t)) with (so_p c + list_sum (map so_p t)) in H'. csplit; auto.
    + intros j Hj. rewrite <- H' by lia. auto.
    + apply IH; auto. intros; apply H'; lia.
  - clear - E H. revert E H. unfold hsize. generalize (n + p + (lpp C + list_sum (map so_p (co_soc C))) + 2 * nsoc C) as base.
    generalize (lpp C + list_sum (map so_p (co_soc C))) as cs. induction (co_expc C) as [|c t IH]; cbn [colstart_ok length]; auto.
    intros cs base (A & B & D) H'. csplit; auto.
    + intros j Hj. rewrite <- H' by lia. auto.
    + apply IH; auto. intros; apply H'; lia.
Qed.

Section Upd.
Context `{O : Ops}.

(* the same layout with other values of A and G *)
Definition relay (L : @lay O) At Gt : lay :=
  mkLay (ly_n L) (ly_p L) (ly_l L) (ly_q L) (ly_e L) At Gt (ly_pf L) (ly_par L) (ly_R L).

Section At.
Variables (L : @lay O) (lpv : nat -> F) (soc : list (nat * socv F)) (ex : list (expv F)) (A A' : option (spmat F)) (G G' : spmat F) (AtoK GtoK : arr nat)
  (At' : option (spmat F)) (Gt' : spmat F).
Notation cols := (ly_cols L lpv soc ex).
Notation cols' := (ly_cols (relay L At' Gt') lpv soc ex).
Hypothesis Hq : map fst soc = ly_q L.
Hypothesis He : length ex = ly_e L.
Hypothesis DW : dws L cols A G AtoK GtoK.
Hypothesis SG : same_pattern G G'.
Hypothesis SA : same_patternA A A'.
Hypothesis WG' : wf_sp G'.
Hypothesis WA' : match A' with Some A' => wf_sp A' | None => True end.
Hypothesis TG' : transposed G' Gt'.
Hypothesis TA' : match A', At' with Some A', Some At' => transposed A' At' | None, None => True | _, _ => False end.

Lemma upd_Gpat j : j < ly_m L -> map fst (colent f0 (ly_Gt L) j) = map fst (colent f0 Gt' j).
Proof.
  intros Hj. destruct DW as [D1 D2 D3 [D4 D4'] _ _ _]. apply (trans_pat G G'); auto; [|lia].
  destruct SG as (_ & _ & _ & E & E'). unfold transposable in *. rewrite E, E'. auto.
Qed.
Lemma upd_Apat j : j < ly_p L -> map fst (acol f0 (ly_At L) j) = map fst (acol f0 At' j).
Proof.
  intros Hj. destruct DW as [_ _ _ _ D _ _]. destruct A as [A1|], (ly_At L) as [At|], A' as [A1'|], At' as [At1|]; try contradiction; [|lia].
  destruct D as (D1 & D2 & D3 & D4 & D4'). cbn [acol]. apply (trans_pat A1 A1'); auto; [|lia].
  destruct SA as (_ & _ & _ & E & E'). unfold transposable in *. rewrite E, E'. auto.
Qed.

Lemma head_pat c : c < ly_nK L -> map fst (head (ly_n L) (ly_p L) (ly_l L) (ly_q L) (colent f0 (ly_Gt L)) (acol f0 (ly_At L)) c) =
  map fst (head (ly_n L) (ly_p L) (ly_l L) (ly_q L) (colent f0 Gt') (acol f0 At') c).
Proof.
  intros Hc. unfold head. destruct (Nat.ltb_spec c (ly_n L)); auto. destruct (Nat.ltb_spec c (ly_n L + ly_p L)); [apply upd_Apat; lia|].
  destruct (unz _ _ _) as [j|] eqn:E; auto. apply upd_Gpat. eapply unz_lt; [| |exact E]; unfold ly_nK, ly_mt, ly_m in *; lia.
Qed.

Lemma upd_nth c : c < ly_nK L -> exists tail,
  nth_error cols c = Some (head (ly_n L) (ly_p L) (ly_l L) (ly_q L) (colent f0 (ly_Gt L)) (acol f0 (ly_At L)) c ++ tail) /\
  nth_error cols' c = Some (head (ly_n L) (ly_p L) (ly_l L) (ly_q L) (colent f0 Gt') (acol f0 At') c ++ tail).
Proof.
  intros Hc. unfold ly_cols. cbn [relay ly_n ly_p ly_l ly_q ly_e ly_At ly_Gt].
  destruct (kkt_cols_nth (ly_n L) (ly_p L) DELTASTAT (- DELTASTAT)%fl (ly_l L) lpv soc ex c) as [tail Ht].
  { rewrite Hq, He. unfold ly_nK, ly_mt, ly_m in Hc. lia. }
  exists tail. rewrite Hq in Ht. split; apply Ht.
Qed.

Lemma upd_pat : same_pat cols cols'.
Proof.
  apply same_pat_nth.
  - rewrite !ly_cols_length; auto.
  - intros c x y Ex Ey. assert (Hc : c < ly_nK L) by (rewrite <- (ly_cols_length L lpv soc ex) by auto; apply nth_error_Some; congruence).
    destruct (upd_nth c Hc) as (tail & E1 & E2). rewrite E1 in Ex. rewrite E2 in Ey. injection Ex as <-. injection Ey as <-.
    rewrite !map_app, head_pat by auto. reflexivity.
Qed.

Lemma upd_tG : transposable G'.
Proof. destruct SG as (_ & _ & _ & E & E'). destruct DW as [_ _ _ [D _] _ _ _]. unfold transposable in *. rewrite E, E'. auto. Qed.

Lemma upd_G k : k < sp_nnz G' -> exists r,
  nth_error (concat cols') (KktSpec.start cols (ly_n L + ly_p L + zidx (ly_l L) (ly_q L) (gd 0 (sp_ir G) k)) + (tpos G k - tstart G (gd 0 (sp_ir G) k)))
  = Some (r, gd f0 (sp_pr G') k).
Proof.
  intros Hk. destruct (trans_nth G' Gt' k WG' upd_tG TG' Hk) as (Hr & j & E). exists j.
  pose proof SG as (_ & Ei & _ & Em & Ez).
  assert (TS : forall r, tstart G' r = tstart G r) by (intros; unfold tstart; rewrite Ei, Ez; auto).
  assert (TP : tpos G' k = tpos G k) by (unfold tpos; rewrite Ei, Ez; auto).
  rewrite TS, TP, Ei, Em in *. set (r := gd 0 (sp_ir G) k) in *. rewrite (dw_Gm _ _ _ _ _ _ DW) in Hr.
  assert (Hz : zidx (ly_l L) (ly_q L) r < ly_mt L).
  { destruct (unz_surj (ly_l L) (ly_q L) (ly_m L) r Hr ltac:(unfold ly_m; lia)) as (t & Ht & Et). apply zidx_unz in Et. subst t. exact Ht. }
  destruct (upd_nth (ly_n L + ly_p L + zidx (ly_l L) (ly_q L) r) ltac:(unfold ly_nK; lia)) as (tail & _ & E2).
  rewrite (same_pat_start _ _ _ upd_pat). eapply nth_concat; [exact E2|]. unfold head.
  rewrite (proj2 (Nat.ltb_ge _ (ly_n L))), (proj2 (Nat.ltb_ge _ (ly_n L + ly_p L))) by lia.
  replace (ly_n L + ly_p L + zidx (ly_l L) (ly_q L) r - (ly_n L + ly_p L)) with (zidx (ly_l L) (ly_q L) r) by lia. rewrite unz_zidx.
  rewrite nth_error_app1; [exact E|]. apply nth_error_Some. congruence.
Qed.

Lemma upd_A : match A, A' with Some A, Some A' => forall k, k < sp_nnz A' -> exists r,
    nth_error (concat cols') (KktSpec.start cols (ly_n L + gd 0 (sp_ir A) k) + (tpos A k - tstart A (gd 0 (sp_ir A) k))) = Some (r, gd f0 (sp_pr A') k)
  | _, _ => True end.
Proof.
  pose proof upd_pat as UP. pose proof upd_nth as UN. pose proof (dw_A _ _ _ _ _ _ DW) as DA. pose proof SA as SA1. pose proof WA' as WA1. pose proof TA' as TA1'.
  destruct A as [A1|], A' as [A1'|]; auto. intros k Hk. destruct At' as [At1|] eqn:EAt; [|contradiction].
  destruct SA1 as (_ & Ei & _ & Em & Ez). destruct (ly_At L) as [At0|]; [|contradiction].
  destruct DA as (D1 & D2 & D3 & D4 & D5). assert (TA1 : transposable A1') by (unfold transposable in *; rewrite Em, Ez; auto).
  destruct (trans_nth A1' At1 k WA1 TA1 TA1' Hk) as (Hr & j & E). exists j.
  assert (TS : forall r, tstart A1' r = tstart A1 r) by (intros; unfold tstart; rewrite Ei, Ez; auto).
  assert (TP : tpos A1' k = tpos A1 k) by (unfold tpos; rewrite Ei, Ez; auto).
  rewrite TS, TP, Ei, Em in *. set (r := gd 0 (sp_ir A1) k) in *. rewrite D3 in Hr.
  destruct (UN (ly_n L + r) ltac:(unfold ly_nK; lia)) as (tail & _ & E2).  rewrite (same_pat_start _ _ _ UP). eapply nth_concat; [exact E2|]. unfold head.
  rewrite (proj2 (Nat.ltb_ge _ (ly_n L))), (proj2 (Nat.ltb_lt _ (ly_n L + ly_p L))) by lia.
  replace (ly_n L + r - ly_n L) with r by lia. cbn [acol].
  rewrite nth_error_app1; [exact E|]. apply nth_error_Some. congruence.
Qed.

Lemma upd_S t e : nth_error (concat cols') t = Some e ->
  (match A, A' with Some A, Some A' => exists k, k < sp_nnz A' /\ t = KktSpec.start cols (ly_n L + gd 0 (sp_ir A) k) + (tpos A k - tstart A (gd 0 (sp_ir A) k)) | _, _ => False end) \/
  (exists k, k < sp_nnz G' /\ t = KktSpec.start cols (ly_n L + ly_p L + zidx (ly_l L) (ly_q L) (gd 0 (sp_ir G) k)) + (tpos G k - tstart G (gd 0 (sp_ir G) k))) \/
  nth_error (concat cols) t = Some e.
Proof.
  intros E. destruct (concat_at cols' t ltac:(apply nth_error_Some; congruence)) as (c & x & i & Ec & Hi & ->).
  assert (Hc : c < ly_nK L). { change (ly_nK L) with (ly_nK (relay L At' Gt')). rewrite <- (ly_cols_length (relay L At' Gt') lpv soc ex) by auto. apply nth_error_Some. congruence. }
  destruct (upd_nth c Hc) as (tail & E1 & E2). rewrite E2 in Ec. injection Ec as <-.
  destruct (nth_error (head (ly_n L) (ly_p L) (ly_l L) (ly_q L) (colent f0 Gt') (acol f0 At') c ++ tail) i) as [e'|] eqn:Ee; [|apply nth_error_None in Ee; lia].
  pose proof (nth_concat cols' c _ i e' E2 Ee) as Ee'. rewrite E in Ee'. injection Ee' as <-.
  pose proof upd_pat as UP. rewrite <- (same_pat_start _ _ _ UP).
  set (hd' := head _ _ _ _ (colent f0 Gt') _ c) in *.
  assert (LH : length hd' = length (head (ly_n L) (ly_p L) (ly_l L) (ly_q L) (colent f0 (ly_Gt L)) (acol f0 (ly_At L)) c)).
  { rewrite <- (map_length fst hd'). unfold hd'. rewrite <- head_pat by auto. apply map_length. }
  destruct (Nat.lt_ge_cases i (length hd')) as [Li|Li].
  2:{ right. right. eapply nth_concat; [exact E1|]. rewrite nth_error_app2 in Ee |- * by lia. rewrite <- LH. exact Ee. }
  unfold hd', head in Li. destruct (Nat.ltb_spec c (ly_n L)); [cbn in Li; lia|].
  destruct (Nat.ltb_spec c (ly_n L + ly_p L)) as [B|B].
  - left. pose proof SA as SA1. pose proof WA' as WA1. pose proof TA' as TA1'. clear Ee E E1 E2. clearbody hd'. pose proof (dw_A _ _ _ _ _ _ DW) as DA. destruct A as [A1|].
    2:{ destruct (ly_At L); [contradiction|lia]. }
    destruct (ly_At L) as [At0|]; [|contradiction]. destruct DA as (D1 & D2 & D3 & D4 & D5).
    destruct A' as [A1'|]; [|contradiction]. destruct At' as [At1|]; [|contradiction].
    destruct SA1 as (_ & Ei & _ & Em & Ez). assert (TA1 : transposable A1') by (unfold transposable in *; rewrite Em, Ez; auto).
    cbn [acol] in Li. destruct (trans_surj A1' At1 (c - ly_n L) i WA1 TA1 TA1' ltac:(lia) Li) as (k & Hk & Er & Ep). exists k. split; auto.
    assert (TS : forall r, tstart A1' r = tstart A1 r) by (intros; unfold tstart; rewrite Ei, Ez; auto).
    assert (TP : tpos A1' k = tpos A1 k) by (unfold tpos; rewrite Ei, Ez; auto).
    rewrite Ei in Er. rewrite TS, TP in Ep. rewrite Er, Ep. do 2 f_equal. lia.
  - right. left. destruct (unz (ly_l L) (ly_q L) (c - (ly_n L + ly_p L))) as [j|] eqn:EU; [|cbn in Li; lia].
    assert (Hj : j < ly_m L). { eapply unz_lt; [| |exact EU]; unfold ly_nK, ly_mt, ly_m in *; lia. }
    pose proof SG as (_ & Ei & _ & Em & Ez). pose proof (dw_Gm _ _ _ _ _ _ DW) as Gm.
    destruct (trans_surj G' Gt' j i WG' upd_tG TG' ltac:(lia) Li) as (k & Hk & Er & Ep). exists k. split; auto.
    assert (TS : forall r, tstart G' r = tstart G r) by (intros; unfold tstart; rewrite Ei, Ez; auto).
    assert (TP : tpos G' k = tpos G k) by (unfold tpos; rewrite Ei, Ez; auto).
    rewrite Ei in Er. rewrite TS, TP in Ep. rewrite Er, Ep. rewrite (zidx_unz _ _ _ _ EU). do 2 f_equal. lia.
Qed.

Lemma upd_dws : dws (relay L At' Gt') cols' A' G' AtoK GtoK.
Proof.
  pose proof upd_pat as UP. pose proof upd_tG as TG. pose proof SG as (Ej & Ei & En & Em & Ez).
  destruct DW as [D1 D2 D3 [D4 D4'] D5 D6 [D7 D8]]. constructor; cbn [relay ly_n ly_p ly_l ly_q ly_e ly_At ly_Gt ly_m]; auto.
  - congruence.
  - change (ly_m (relay L At' Gt')) with (ly_m L). congruence.
  - destruct A as [A1|], (ly_At L) as [At0|], A' as [A1'|], At' as [At1|]; try contradiction; auto.
    destruct D5 as (X1 & X2 & X3 & X4 & X5). destruct SA as (Aj & Ai & An & Am & Az). unfold transposable in *. rewrite An, Am, Az. csplit; auto.
  - destruct A as [A1|], A' as [A1'|]; try contradiction; auto. destruct D6 as [X Y]. destruct SA as (Aj & Ai & An & Am & Az).
    rewrite Az. split; auto. intros k Hk. rewrite Y by auto. rewrite (same_pat_start _ _ _ UP). unfold tpos, tstart. rewrite Ai, Az. reflexivity.
  - rewrite Ez. split; auto. intros k Hk. rewrite D8 by auto. rewrite (same_pat_start _ _ _ UP). unfold tpos, tstart. rewrite Ei, Ez. reflexivity.
Qed.

Lemma upd_kws K pr' : kws L lpv soc ex K -> kv (concat cols') (kk_PK K) pr' ->
  kws (relay L At' Gt') lpv soc ex (set_kk_PKPt K (with_pr (kk_PKPt K) pr')).
Proof.
  intros KW KV. pose proof (permuted_pr _ _ _ _ _ pr' upd_pat (pd_pat _ _ _ _ (kw_perm _ _ _ _ _ KW)) KV) as P.
  clear - KW P. destruct KW. constructor; cbn [set_kk_PKPt kk_PKPt kk_PK kk_Pinv kk_Sign kk_Parent kk_L kk_D kk_work1 kk_work2 kk_work3 kk_work4 kk_work5 kk_work6
     kk_RHS1 kk_RHS2 kk_dx1 kk_dx2 kk_dy1 kk_dy2 kk_dz1 kk_dz2 kk_Pattern kk_Flag kk_Lnz]; try assumption.
  destruct kw_et as [E1 E2 E3 E4 E5]. constructor; assumption.
Qed.
End At.

(* ---------------------------------------------- the result of the equilibration
   does not depend on the previous contents of the scaling vectors, nor on the
   cones beyond their sizes *)
Lemma fill_same n v (a a' : arr F) : length a = n -> length a' = n -> Equil.fill n v a = Equil.fill n v a'.
Proof.
  intros L L'. destruct (fill_eq n v a ltac:(lia)) as (x & -> & Lx & Vx & _). destruct (fill_eq n v a' ltac:(lia)) as (y & -> & Ly & Vy & _).
  f_equal. apply arr_ext; [congruence|]. intros i. destruct (Nat.lt_ge_cases i n) as [H|H]; [rewrite Vx, Vy by auto; auto|].
  destruct (get x i) eqn:Ex; [apply get_lt in Ex; lia|]. destruct (get y i) eqn:Ey; [apply get_lt in Ey; lia|]. auto.
Qed.

Lemma for_each_map {A B S} (f : A -> B) (body : B -> S -> option S) l s :
  for_each (map f l) body s = for_each l (fun x => body (f x)) s.
Proof. revert s. induction l as [|x l IH]; intros s; cbn; auto. destruct (body (f x) s); cbn; auto. Qed.
Lemma for_each_len {A B S} (body : S -> option S) (l : list A) (l' : list B) s : length l = length l' ->
  for_each l (fun _ => body) s = for_each l' (fun _ => body) s.
Proof. revert l' s. induction l as [|x l IH]; intros [|y l'] s H; try discriminate; cbn; auto. destruct (body s); cbn; auto. Qed.

Lemma collapse_cones_same C C' G : lpp C = lpp C' -> map so_p (co_soc C) = map so_p (co_soc C') -> nexc C = nexc C' ->
  collapse_cones C G = collapse_cones C' G.
Proof.
  intros E1 E2 E3. unfold collapse_cones. rewrite E1.
  rewrite <- (for_each_map so_p (fun p st => let '(G, k) := st in G <- collapse G k p ;; Some (G, k + p)) (co_soc C)).
  rewrite <- (for_each_map so_p (fun p st => let '(G, k) := st in G <- collapse G k p ;; Some (G, k + p)) (co_soc C')).
  rewrite E2. destruct (for_each _ _ _) as [[G1 k]|]; cbn [bind]; auto.
  rewrite (for_each_len (fun st => let '(G, k) := st in G <- collapse G k 3 ;; Some (G, k + 3)) (co_expc C) (co_expc C') _ E3). reflexivity.
Qed.

Lemma ruiz_iter_same C C' A G eq : lpp C = lpp C' -> map so_p (co_soc C) = map so_p (co_soc C') -> nexc C = nexc C' ->
  ruiz_iter C A G eq = ruiz_iter C' A G eq.
Proof.
  intros E1 E2 E3. destruct eq as [[xe Ae] Ge]. unfold ruiz_iter.
  repeat (match goal with |- bind ?m _ = bind ?m _ => destruct m; cbn [bind]; [|reflexivity] end).
  rewrite (collapse_cones_same C C') by auto. reflexivity.
Qed.

Lemma set_equilibration_same C C' A G b h xe Ae Ge xe' Ae' Ge' : lpp C = lpp C' -> map so_p (co_soc C) = map so_p (co_soc C') -> nexc C = nexc C' ->
  colsA A G = length xe -> rowsA A = length Ae -> sp_m G = length Ge ->
  length xe' = length xe -> length Ae' = length Ae -> length Ge' = length Ge ->
  set_equilibration C A G b h (xe, Ae, Ge) = set_equilibration C' A G b h (xe', Ae', Ge').
Proof.
  intros E1 E2 E3 Lx La Lg Lx' La' Lg'. unfold set_equilibration.
  change (match A with Some A => sp_n A | None => sp_n G end) with (colsA A G).
  change (match A with Some A => sp_m A | None => 0%nat end) with (rowsA A). cbv zeta.
  rewrite (fill_same (colsA A G) f1 xe xe') by congruence. destruct (Equil.fill (colsA A G) f1 xe') as [x|]; cbn [bind]; auto.
  rewrite (fill_same (rowsA A) f1 Ae Ae') by congruence. destruct (Equil.fill (rowsA A) f1 Ae') as [a|]; cbn [bind]; auto.
  rewrite (fill_same (sp_m G) f1 Ge Ge') by congruence. destruct (Equil.fill (sp_m G) f1 Ge') as [g|]; cbn [bind]; auto.
  unfold for_. cbn [Nat.sub for_loop]. rewrite (ruiz_iter_same C C') by auto.
  destruct (ruiz_iter C' A G (x, a, g)) as [[[A1 G1] q1]|]; cbn [bind]; auto. rewrite (ruiz_iter_same C C') by auto.
  destruct (ruiz_iter C' A1 G1 q1) as [[[A2 G2] q2]|]; cbn [bind]; auto. rewrite (ruiz_iter_same C C') by auto. reflexivity.
Qed.

Lemma setup_data amd junk n m p l q e G0 A0 c h b w : wf_sp G0 -> sp_n G0 = n -> sp_m G0 = m -> okA n p A0 ->
  ECOS_setup amd junk n m p l q e (data_of G0) (option_map data_of A0) c h b = Some (Some w) ->
  set_equilibration (new_cone l q e) A0 G0 b h (alloc n, alloc p, alloc m)
    = Some (w_A w, w_G w, w_b w, w_h w, (w_xequil w, w_Aequil w, w_Gequil w)) /\ w_c w = c.
Proof.
  intros WG Gn Gm HA E. unfold ECOS_setup in E. destruct (negb _); [discriminate|].
  pose proof (mkA_ok n p A0 HA) as EA. unfold mkA in EA. rewrite EA in E. cbn [bind] in E.
  pose proof (mkG_ok n m G0 WG Gn Gm) as EG. unfold mkG in EG. rewrite EG in E. cbn [bind] in E.
  destruct (set_equilibration _ _ _ _ _ _) as [[[[[A G] b'] h'] [[xe Ae] Ge]]|]; [|discriminate]. cbn [bind] in E.
  destruct (match A with Some A => _ | None => _ end) as [[At mp]|]; [|discriminate]. cbn [bind] in E.
  destruct (transposeSparseMatrix _ _) as [[Gt mpG]|]; [|discriminate]. cbn [bind] in E.
  destruct (createKKT_U _ _ _ _ _) as [[[[[Sg KU] x1] x2] C']|]; [|discriminate]. cbn [bind] in E.
  repeat match type of E with
  | bind ?m _ = _ => destruct m; [|discriminate]; cbn [bind] in E
  | (let '(_, _) := ?x in _) = _ => destruct x
  | match ?x with Some _ => _ | None => _ end = _ => destruct x; [|discriminate]
  end; try discriminate; injection E as <-; auto.
Qed.

Lemma with_pr_wf (M : spmat F) pr : wf_sp M -> full pr (sp_nnz M) -> wf_sp (with_pr M pr).
Proof. intros [] H. constructor; cbn; auto. Qed.

(* the old arrays, as the caller finds them when all five new arrays are elsewhere *)
Definition old_arrays (w : pwork F) (ap : apart) : option (arr F * option (arr F) * arr F * arr F) :=
  if (ap_G ap && ap_A ap && ap_c ap && ap_h ap && ap_b ap)%bool then
    match unset_equilibration (w_A w) (w_G w) (w_b w) (w_h w) (w_xequil w, w_Aequil w, w_Gequil w) with
    | Some (A, G, b, h) => Some (sp_pr G, option_map sp_pr A, h, b)
    | None => None
    end
  else None.

Lemma updateData_wp L lpv soc ex w ap Gpr Apr c h b (Q : pwork F * option (arr F * option (arr F) * arr F * arr F) -> Prop) :
  ws L lpv soc ex w -> new_values w Gpr Apr c h b -> (ap_G ap = true -> w_A w <> None) ->
  (forall At Gt A' G' b' h' xe Ae Ge pr,
     set_equilibration (w_C w) (new_A (w_A w) Apr) (new_G w Gpr) (new_b w b) h (w_xequil w, w_Aequil w, w_Gequil w)
       = Some (A', G', b', h', (xe, Ae, Ge)) ->
     let w' := set_w_KKT (set_w_Gequil (set_w_Aequil (set_w_xequil (set_w_h (set_w_b (set_w_c (set_w_G (set_w_A w A') G') c) b') h') xe) Ae) Ge)
                 (set_kk_PKPt (w_KKT w) (with_pr (kk_PKPt (w_KKT w)) pr)) in
     length pr = length (sp_pr (kk_PKPt (w_KKT w))) ->
     ws (relay L At Gt) lpv soc ex w' -> Q (w', old_arrays w ap)) ->
  wp (ECOS_updateData w ap Gpr Apr c h b) Q.
Proof.
  intros WS (NG & NA & NC & NH & NB) HA HQ. pose proof (ws_dat _ _ _ _ _ WS) as DW.
  pose proof (dw_G _ _ _ _ _ _ DW) as WG. pose proof (dw_Gn _ _ _ _ _ _ DW) as Gn. pose proof (dw_Gm _ _ _ _ _ _ DW) as Gm.
  rewrite (ws_n _ _ _ _ _ WS) in NC. rewrite (ws_m _ _ _ _ _ WS) in NH. rewrite (ws_p _ _ _ _ _ WS) in NB.
  assert (HWA : wfA (w_A w) (ly_n L) /\ rowsA (w_A w) = ly_p L).
  { pose proof (dw_A _ _ _ _ _ _ DW) as DA. destruct (w_A w) as [A|], (ly_At L) as [At|]; try contradiction; cbn [wfA rowsA]; [|auto]. intuition. }
  destruct HWA as [WA RA].
  (* the old arrays *)
  assert (OLD : exists A1 G1 b1 h1, unset_equilibration (w_A w) (w_G w) (w_b w) (w_h w) (w_xequil w, w_Aequil w, w_Gequil w) = Some (A1, G1, b1, h1)).
  { destruct (unset_equilibration_eq (w_A w) (w_G w) (w_b w) (w_h w) (w_xequil w) (w_Aequil w) (w_Gequil w)
      (gd f0 (w_xequil w)) (gd f0 (w_Aequil w)) (gd f0 (w_Gequil w)) (gd f0 (w_b w)) (gd f0 (w_h w))) as (A1 & G1 & b1 & h1 & E & _);
      rewrite ?RA, ?Gn, ?Gm; auto; try apply full_vec; try apply WS. eauto 6. }
  destruct OLD as (A1 & G1 & b1 & h1 & EO). unfold ECOS_updateData.
  wb. set (far := (ap_G ap && ap_A ap && ap_c ap && ap_h ap && ap_b ap)%bool).
  assert (EF : (if ap_G ap then _ <- (match w_A w with Some _ => Some tt | None => None end) ;; Some (ap_A ap && ap_c ap && ap_h ap && ap_b ap)%bool else Some false) = Some far).
  { unfold far. destruct (ap_G ap) eqn:EG; auto. destruct (w_A w); [reflexivity|]. exfalso. apply HA; auto. }
  apply (wp_intro _ _ _ EF). clear EF. cbv beta.
  wb. assert (EF : (if far then '(A, G, b, h) <- unset_equilibration (w_A w) (w_G w) (w_b w) (w_h w) (w_xequil w, w_Aequil w, w_Gequil w) ;;
            Some (Some (sp_pr G, match A with Some A => Some (sp_pr A) | None => None end, h, b)) else Some None) = Some (old_arrays w ap)).
  { unfold old_arrays. fold far. destruct far; auto. rewrite EO. cbn [bind]. destruct A1; reflexivity. }
  apply (wp_intro _ _ _ EF). clear EF EO. cbv beta.
  (* equilibration of the new data *)
  fold (new_A (w_A w) Apr). fold (new_b w b). fold (new_G w Gpr). cbv zeta.
  pose proof (with_pr_wf (w_G w) Gpr WG NG) as WG0. fold (new_G w Gpr) in WG0.
  assert (WA0 : wfA (new_A (w_A w) Apr) (ly_n L) /\ rowsA (new_A (w_A w) Apr) = ly_p L /\ same_patternA (w_A w) (new_A (w_A w) Apr)).
  { unfold new_A. destruct (w_A w) as [A|]; [|cbn in *; auto]. destruct NA as (pr & -> & Hpr). cbn [wfA rowsA same_patternA] in *. destruct WA as [W E].
    csplit; auto; [apply with_pr_wf; auto|]. repeat split. }
  destruct WA0 as (WA0 & RA0 & PA0).
  assert (FB : full (new_b w b) (ly_p L)). { unfold new_b. destruct (w_A w); auto. apply WS. }
  destruct (set_equilibration_eq (fun _ => True) (fun _ => True) (fun _ => True) ltac:(auto) ltac:(auto) I ltac:(auto) ltac:(auto)
      (w_C w) (new_A (w_A w) Apr) (new_G w Gpr) (new_b w b) h (w_xequil w) (w_Aequil w) (w_Gequil w) (gd f0 (new_b w b)) (gd f0 h))
    as (A' & G' & b' & h' & xe & Ae & Ge & x1 & x2 & x3 & a1 & a2 & a3 & g1 & g2 & g3 & ES & Lx & La & Lg & SA & SG & Vx & Va & Vg & (Lb & Vb & _) & (Lh & Vh & _) & _).
  { exact WG0. } { cbn [new_G with_pr sp_n]. rewrite Gn. auto. } { intros ? ? ? ?; exact I. } { destruct (new_A (w_A w) Apr); cbn; auto. intros ? ? ? ?; exact I. }
  { cbn [new_G with_pr sp_m]. rewrite Gm. symmetry. destruct (ws_C _ _ _ _ _ WS) as [_ E1 E2 E3]. unfold msize, hsize, ly_m. rewrite E1, E2, E3. reflexivity. }
  { cbn [new_G with_pr sp_n]. rewrite Gn, (ws_lxe _ _ _ _ _ WS). auto. } { rewrite RA0, (ws_lAe _ _ _ _ _ WS). auto. } { cbn [new_G with_pr sp_m]. rewrite Gm, (ws_lGe _ _ _ _ _ WS). auto. }
  { rewrite RA0. apply full_vec. auto. } { cbn [new_G with_pr sp_m]. rewrite Gm. apply full_vec. auto. }
  cbn [new_G with_pr sp_n sp_m] in Vx, Vg, Vh. rewrite Gn in Vx. rewrite Gm in Vg, Vh. rewrite RA0 in Va, Vb.
  wb. apply (wp_intro _ _ _ ES). cbv beta iota.
  assert (SPG : same_pattern (w_G w) G') by (destruct SG; repeat split; auto).
  assert (SPA : same_patternA (w_A w) A').
  { destruct (w_A w) as [A|], (new_A _ Apr) as [A0|], A' as [A2|]; cbn in *; try contradiction; auto. destruct SA, PA0 as (? & ? & ? & ? & ?).
    repeat split; congruence. }
  pose proof (rescaled_wf _ _ _ SG WG0) as WG'. pose proof (rescaledA_wf _ _ _ _ SA WA0) as WA'.
  assert (WA1 : match A' with Some A' => wf_sp A' | None => True end) by (destruct A'; [apply WA'|auto]).
  assert (TG' : transposable G'). { destruct SPG as (_ & _ & _ & E & E'). destruct (dw_Gt _ _ _ _ _ _ DW) as [D _]. unfold transposable in *. rewrite E, E'. auto. }
  destruct (transpose_ok G' WG' TG') as (Gt & mpG & EG & _).
  assert (TAE : exists At, match A', At with Some A', Some At' => transposed A' At' | None, None => True | _, _ => False end).
  { destruct A' as [A2|]; [|exists None; auto]. pose proof (dw_A _ _ _ _ _ _ DW) as DA. destruct (w_A w) as [A|]; [|contradiction].
    destruct (ly_At L) as [At|]; [|contradiction]. destruct DA as (_ & _ & _ & D & _). destruct SPA as (_ & _ & _ & E & E').
    destruct (transpose_ok A2 WA1) as (At2 & mp & ET & _); [unfold transposable in *; rewrite E, E'; auto|]. exists (Some At2). exists mp. auto. }
  destruct TAE as (At & TA). assert (TGt : transposed G' Gt) by (exists mpG; auto).
  pose proof (ws_K _ _ _ _ _ WS) as KW. pose proof (kw_q _ _ _ _ _ KW) as Kq. pose proof (kw_e _ _ _ _ _ KW) as Ke.
  pose proof (upd_pat L lpv soc ex (w_A w) A' (w_G w) G' _ _ At Gt Kq Ke DW SPG SPA WG' WA1 TGt TA) as UP.
  pose proof (upd_dws L lpv soc ex (w_A w) A' (w_G w) G' _ _ At Gt Kq Ke DW SPG SPA WG' WA1 TGt TA) as DW'.
  pose proof (pd_val _ _ _ _ (kw_perm _ _ _ _ _ KW)) as KV.
  set (K := w_KKT w) in *. set (cols := ly_cols L lpv soc ex) in *. set (cols' := ly_cols (relay L At Gt) lpv soc ex) in *.
  (* the writes *)
  set (ca := match A' with Some A => sp_nnz A | None => 0 end).
  set (ba := fun k pr => ak <- get (w_AtoK w) k ;; pk <- get (kk_PK K) ak ;; v <- get (match A' with Some A => sp_pr A | None => [] end) k ;; @set F pr pk v).
  set (bg := fun k pr => gk <- get (w_GtoK w) k ;; pk <- get (kk_PK K) gk ;; v <- get (sp_pr G') k ;; set pr pk v).
  assert (WR : wp (pr1 <- for_ 0 ca ba (sp_pr (kk_PKPt K)) ;; for_ 0 (sp_nnz G') bg pr1)
    (fun pr => length pr = length (sp_pr (kk_PKPt K)) /\ kv (concat cols') (kk_PK K) pr)).
  { apply (kv_rewrite cols cols' (kk_PK K) (sp_pr (kk_PKPt K)) ca (sp_nnz G')
     (fun k => match w_A w with Some A => KktSpec.start cols (ly_n L + gd 0 (sp_ir A) k) + (tpos A k - tstart A (gd 0 (sp_ir A) k)) | None => 0 end)
     (fun k => KktSpec.start cols (ly_n L + ly_p L + zidx (ly_l L) (ly_q L) (gd 0 (sp_ir (w_G w)) k)) + (tpos (w_G w) k - tstart (w_G w) (gd 0 (sp_ir (w_G w)) k)))
     (fun k => gd f0 (match A' with Some A => sp_pr A | None => [] end) k) (fun k => gd f0 (sp_pr G') k) ba bg).
  { apply same_pat_concat in UP. rewrite <- (map_length fst (concat cols')), <- UP, map_length. auto. }
  { exact KV. }
  { pose proof (upd_A L lpv soc ex (w_A w) A' (w_G w) G' _ _ At Gt Kq Ke DW SPG SPA WG' WA1 TGt TA) as UA.
    intros k Hk. unfold ca in Hk. destruct A' as [A2|]; [|lia]. destruct (w_A w) as [A|]; [|contradiction]. apply UA. auto. }
  { intros k Hk. apply (upd_G L lpv soc ex (w_A w) A' (w_G w) G' _ _ At Gt Kq Ke DW SPG SPA WG' WA1 TGt TA). auto. }
  { intros t e0 Ht. destruct (upd_S L lpv soc ex (w_A w) A' (w_G w) G' _ _ At Gt Kq Ke DW SPG SPA WG' WA1 TGt TA t e0 Ht) as [H|[H|H]]; auto.
    left. unfold ca. destruct (w_A w) as [A|]; [|contradiction]. destruct A' as [A2|]; [|contradiction]. exact H. }
  { intros k a Hk. unfold ba, ca in *. destruct A' as [A2|]; [|lia]. destruct (w_A w) as [A|]; [|contradiction].
    destruct (dw_AtoK _ _ _ _ _ _ DW) as [_ X]. destruct SPA as (_ & _ & _ & _ & Ez). rewrite X by lia. cbn [bind]. destruct (get (kk_PK K) _); cbn [bind]; auto.
    destruct (wf_pr A2 WA1 k Hk) as [v Hv]. rewrite Hv. cbn [bind]. rewrite (gd_get _ _ _ _ Hv). auto. }
  { intros k a Hk. unfold bg. destruct (dw_GtoK _ _ _ _ _ _ DW) as [_ X]. destruct SPG as (_ & _ & _ & _ & Ez). rewrite X by lia. cbn [bind]. destruct (get (kk_PK K) _); cbn [bind]; auto.
    destruct (wf_pr G' WG' k Hk) as [v Hv]. rewrite Hv. cbn [bind]. rewrite (gd_get _ _ _ _ Hv). auto. }
  { auto. } }
  destruct (wp_elim _ _ WR) as (pr2 & E2 & L2 & KV2). clear WR.
  destruct (for_ 0 ca ba (sp_pr (kk_PKPt K))) as [pr1|] eqn:E1; [|discriminate]. cbn [bind] in E2.
  wb. apply (wp_intro _ _ pr1). { unfold ca, ba in E1. destruct A' as [A2|]; auto. }
  cbv beta. wb. apply (wp_intro _ _ pr2). { exact E2. } cbv beta.
  apply (wp_intro _ _ _ eq_refl). specialize (HQ At Gt A' G' b' h' xe Ae Ge pr2 ES). cbv zeta in HQ. apply HQ; auto.
  (* the invariant *)
  pose proof (upd_kws L lpv soc ex (w_A w) A' (w_G w) G' _ _ At Gt Kq Ke DW SPG SPA WG' WA1 TGt TA K pr2 KW KV2) as KW'.
  assert (IX : indexed cols' (ly_len (relay L At Gt)) (ly_n L) (ly_p L) (w_C w)).
  { eapply indexed_same; [exact UP|]. eapply indexed_len; [|exact (ws_ix _ _ _ _ _ WS)]. intros j Hj.
    unfold ly_len. cbn [relay ly_Gt]. rewrite <- (map_length fst (colent f0 (ly_Gt L) j)), <- (map_length fst (colent f0 Gt j)).
    f_equal. eapply (upd_Gpat L lpv soc ex (w_A w) (w_G w) G'); eauto.
    destruct (ws_C _ _ _ _ _ WS) as [_ F1 F2 F3]. unfold msize, hsize in Hj. rewrite F1, F2, F3 in Hj. exact Hj. }
  apply vec_full in Vx, Va, Vg, Vb, Vh. rewrite (ws_lxe _ _ _ _ _ WS) in Lx. rewrite (ws_lAe _ _ _ _ _ WS) in La. rewrite (ws_lGe _ _ _ _ _ WS) in Lg.
  clear - WS KW' IX DW' Vx Va Vg Vb Vh NC Lx La Lg. destruct WS. constructor; wcbn; try assumption.
Qed.

Lemma updateData_needs w ap Gpr Apr c h b r : ECOS_updateData w ap Gpr Apr c h b = Some r -> ap_G ap = true -> w_A w <> None.
Proof. intros E EG EA. unfold ECOS_updateData in E. rewrite EG, EA in E. discriminate. Qed.
End Upd.
