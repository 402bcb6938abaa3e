(* A matrix stored column by column: well-formedness, shape and meaning. *)
From Coq Require Import List Arith Bool ZArith Reals Lia Lra FinFun.
From Verif Require Import Base Num.
From Verif.Model Require Import Spla Splamm Types.
From Verif.Spec Require Import Matrix Fill KktSpec.
From Verif.Proofs Require Import LoopLib SplaP KktAsm.
Import ListNotations.
Open Scope nat_scope.

Section Cols.
Context {F : Type}.
Implicit Types (cols : list (col F)) (P Q : nat -> col F -> Prop).

Definition allc (P : nat -> col F -> Prop) (i : nat) cols : Prop :=
  forall c x, nth_error cols c = Some x -> P (i + c) x.

Lemma allc_nil (P : nat -> col F -> Prop) i : allc P i [].
Proof. intros [|c] x; cbn; discriminate. Qed.
Lemma allc_app (P : nat -> col F -> Prop) i a b : allc P i a -> allc P (i + length a) b -> allc P i (a ++ b).
Proof.
  intros A B c x H. destruct (Nat.lt_ge_cases c (length a)).
  - rewrite nth_error_app1 in H by auto. apply A; auto.
  - rewrite nth_error_app2 in H by auto. apply B in H.
    replace (i + length a + (c - length a)) with (i + c) in H by lia. auto.
Qed.
Lemma nth_error_map_seq {A} (f : nat -> A) a L c (x : A) : nth_error (map f (seq a L)) c = Some x -> c < L /\ x = f (a + c).
Proof.
  intros H. assert (c < L) by (rewrite <- (seq_length L a), <- (map_length f); apply nth_error_Some; congruence).
  split; auto. rewrite nth_error_map in H.
  rewrite (nth_error_nth' _ 0) in H by (rewrite seq_length; auto). cbn in H. rewrite seq_nth in H by auto. congruence.
Qed.
Lemma allc_map (P : nat -> col F -> Prop) i L (f : nat -> col F) : (forall j, j < L -> P (i + j) (f j)) -> allc P i (map f (seq 0 L)).
Proof. intros H c x Hc. apply nth_error_map_seq in Hc. destruct Hc as [A ->]. auto. Qed.
Lemma allc_two (P : nat -> col F -> Prop) i x y : P i x -> P (i + 1) y -> allc P i [x; y].
Proof. intros A B [|[|c]] z; cbn; intros H; try (injection H as <-). - rewrite Nat.add_0_r; auto. - auto. - destruct c; discriminate. Qed.

(* ---- a stored matrix ---- *)
Lemma stores_in K cols c k : stores K cols -> c < length cols -> in_col K c k ->
  exists x i e, nth_error cols c = Some x /\ k = start cols c + i /\ nth_error x i = Some e /\
    get (sp_ir K) k = Some (fst e) /\ get (sp_pr K) k = Some (snd e).
Proof.
  intros S Hc [_ Hk]. destruct (nth_error cols c) as [x|] eqn:E.
  2: { apply nth_error_None in E. lia. }
  rewrite (gd_get 0 _ _ _ (st_jc _ _ S c ltac:(lia))) in Hk.
  rewrite (gd_get 0 _ _ _ (st_jc _ _ S (c + 1) ltac:(lia))), (start_S _ _ _ E) in Hk.
  destruct (nth_error x (k - start cols c)) as [e|] eqn:Ee.
  2: { apply nth_error_None in Ee. lia. }
  exists x, (k - start cols c), e. split; auto. split; [lia|]. split; auto.
  apply (st_ent _ _ S). replace k with (start cols c + (k - start cols c)) by lia. apply (start_nth _ _ x); auto.
Qed.

Lemma stores_at K cols c x i : stores K cols -> nth_error cols c = Some x -> i < length x ->
  in_col K c (start cols c + i).
Proof.
  intros S E Hi. assert (c < length cols) by (apply nth_error_Some; congruence).
  split; [rewrite (st_n _ _ S); auto|].
  rewrite (gd_get 0 _ _ _ (st_jc _ _ S c ltac:(lia))).
  rewrite (gd_get 0 _ _ _ (st_jc _ _ S (c + 1) ltac:(lia))), (start_S _ _ _ E). lia.
Qed.

Lemma stores_wf K cols : stores K cols -> allc (fun c x => forall e, In e x -> fst e < length cols) 0 cols -> wf_sp K.
Proof.
  intros S HR.
  assert (V : vec (sp_jc K) (sp_n K + 1) (gd 0 (sp_jc K))).
  { intros j Hj. rewrite (st_n _ _ S) in Hj. eapply get_gd, (st_jc _ _ S). lia. }
  assert (EN : forall k, k < sp_nnz K -> exists e, In e (concat cols) /\ get (sp_ir K) k = Some (fst e) /\ get (sp_pr K) k = Some (snd e)).
  { intros k Hk. rewrite (st_nnz _ _ S) in Hk. destruct (nth_error (concat cols) k) as [e|] eqn:E.
    - exists e. split; [eapply nth_error_In; eauto|]. apply (st_ent _ _ S); auto.
    - apply nth_error_None in E. lia. }
  constructor; auto.
  - rewrite (gd_get 0 _ _ _ (st_jc _ _ S 0 ltac:(lia))). auto.
  - intros j Hj. rewrite (st_n _ _ S) in Hj.
    rewrite (gd_get 0 _ _ _ (st_jc _ _ S j ltac:(lia))), (gd_get 0 _ _ _ (st_jc _ _ S (j + 1) ltac:(lia))).
    apply start_mono; lia.
  - rewrite (st_n _ _ S), (gd_get 0 _ _ _ (st_jc _ _ S (length cols) ltac:(lia))), start_all, (st_nnz _ _ S). auto.
  - intros k Hk. destruct (EN k Hk) as (e & _ & A & _). eapply get_gd; eauto.
  - intros k Hk. destruct (EN k Hk) as (e & I & A & _). rewrite (gd_get 0 _ _ _ A), (st_m _ _ S).
    apply in_concat in I. destruct I as (x & Ix & Ie). apply In_nth_error in Ix. destruct Ix as [c Hc].
    eapply HR; eauto.
  - intros k Hk. destruct (EN k Hk) as (e & _ & _ & B). eauto.
Qed.

Lemma stores_upper K cols : stores K cols -> allc (fun c x => forall e, In e x -> fst e <= c) 0 cols -> upper K.
Proof.
  intros S HU j k Hk. assert (j < length cols) by (destruct Hk; rewrite <- (st_n _ _ S); auto).
  destruct (stores_in K cols j k S ltac:(auto) Hk) as (x & i & e & E & -> & Ee & A & _).
  rewrite (gd_get 0 _ _ _ A). apply (HU _ _ E). eapply nth_error_In; eauto.
Qed.

Lemma stores_nodup K cols : stores K cols -> allc (fun c x => NoDup (map fst x)) 0 cols -> nodup K.
Proof.
  intros S HU j k k' Hk Hk' He. assert (Hj : j < length cols) by (destruct Hk; rewrite <- (st_n _ _ S); auto).
  destruct (stores_in K cols j k S Hj Hk) as (x & i & e & E & -> & Ee & A & _).
  destruct (stores_in K cols j k' S Hj Hk') as (x' & i' & e' & E' & -> & Ee' & A' & _).
  rewrite (gd_get 0 _ _ _ A), (gd_get 0 _ _ _ A') in He.
  rewrite E in E'. injection E' as <-. f_equal.
  pose proof (HU _ _ E) as ND. eapply NoDup_nth_error; eauto.
  - rewrite map_length. apply nth_error_Some. congruence.
  - rewrite !nth_error_map, Ee, Ee'. cbn. congruence.
Qed.

(* ---- the shape of the KKT columns ---- *)
Section Shape.
Variables (n p l : nat) (Ac Gc : nat -> col F) (ND : Prop) (mG : nat).
Hypothesis (HA : forall j, j < p -> forall e, In e (Ac j) -> fst e < n).
Hypothesis (HG : forall j, j < mG -> forall e, In e (Gc j) -> fst e < n).
Hypothesis (NA : ND -> forall j, j < p -> NoDup (map fst (Ac j))).
Hypothesis (NG : ND -> forall j, j < mG -> NoDup (map fst (Gc j))).

Definition okc (c : nat) (x : col F) : Prop :=
  (forall e, In e x -> fst e <= c) /\ (ND -> NoDup (map fst x)) /\ exists y v, x = y ++ [(c, v)].

Lemma NoDup_app2 (a b : list nat) : NoDup a -> NoDup b -> (forall r, In r a -> ~ In r b) -> NoDup (a ++ b).
Proof.
  induction a as [|r t IH]; cbn; auto. intros Na Nb D. inversion Na; subst. constructor.
  - rewrite in_app_iff. intros [H|H]; auto. apply (D r); auto.
  - apply IH; auto.
Qed.

Lemma okc_tail c (g : col F) (tl : col F) v :
  n <= c -> (forall e, In e g -> fst e < n) -> (ND -> NoDup (map fst g)) ->
  (forall e, In e tl -> n <= fst e < c) -> NoDup (map fst tl) -> okc c (g ++ tl ++ [(c, v)]).
Proof.
  intros Hn Hg Ng Ht Nt. split; [|split].
  - intros e He. apply in_app_or in He. destruct He as [He|He]; [apply Hg in He; lia|].
    apply in_app_or in He. destruct He as [He|[<-|[]]]; [apply Ht in He; lia|cbn; lia].
  - intros D. rewrite !map_app. cbn [map fst]. apply NoDup_app2; auto.
    + apply NoDup_app2; auto.
      * constructor; auto. constructor.
      * intros r Hr [H|[]]. apply in_map_iff in Hr. destruct Hr as (e & E & He). apply Ht in He. lia.
    + intros r Hr H. apply in_map_iff in Hr. destruct Hr as (e & E & He). apply Hg in He.
      apply in_app_or in H. destruct H as [H|[H|[]]]; [|lia].
      apply in_map_iff in H. destruct H as (e' & E' & He'). apply Ht in He'. lia.
  - exists (g ++ tl), v. rewrite app_assoc. auto.
Qed.

Lemma okc_g j c v : j < mG -> n <= c -> okc c (Gc j ++ [(c, v)]).
Proof.
  intros Hj Hc. change [(c, v)] with (([] : col F) ++ [(c, v)]). apply okc_tail.
  - auto.
  - apply HG; auto.
  - intros D. apply NG; auto.
  - intros e [].
  - constructor.
Qed.

Lemma nodup_shift base a k (v : nat -> F) : NoDup (map fst (map (fun r => (base + r, v r)) (seq a k))).
Proof.
  rewrite map_map. cbn. apply Injective_map_NoDup; [|apply seq_NoDup]. intros u1 u2; lia.
Qed.

Lemma okc_soc_block base cs q v : n <= base -> cs + q <= mG -> 1 <= q ->
  allc okc base (soc_block Gc base cs q v).
Proof.
  intros Hb Hcs Hq. unfold soc_block. apply allc_app.
  - apply allc_map. intros j Hj. apply okc_g; lia.
  - rewrite map_length, seq_length. apply allc_two.
    + change (okc (base + q) ([] ++ map (fun r => (base + r, sv_v v (r - 1))) (seq 1 (q - 1)) ++ [(base + q, sv_vd v)])).
      apply okc_tail; try lia.
      * intros e [].
      * intros; constructor.
      * intros e He. apply in_map_iff in He. destruct He as (r & <- & Hr). apply in_seq in Hr. cbn. lia.
      * apply (nodup_shift base 1 (q - 1) (fun r => sv_v v (r - 1))).
    + change (okc (base + q + 1) ([] ++ map (fun r => (base + r, sv_u v r)) (seq 0 q) ++ [(base + q + 1, sv_ud v)])).
      apply okc_tail; try lia.
      * intros e [].
      * intros; constructor.
      * intros e He. apply in_map_iff in He. destruct He as (r & <- & Hr). apply in_seq in Hr. cbn. lia.
      * apply nodup_shift.
Qed.

Lemma okc_soc_cols soc : forall base cs, n <= base -> cs + list_sum (map fst soc) <= mG -> (forall x, In x soc -> 1 <= fst x) ->
  allc okc base (soc_cols Gc base cs soc).
Proof.
  unfold list_sum. induction soc as [|[q v] t IH]; intros base cs Hb Hcs Hq; cbn [soc_cols map fold_right fst] in *.
  - apply allc_nil.
  - apply allc_app.
    + apply okc_soc_block; [lia|lia|]. apply (Hq (q, v)). left; auto.
    + unfold soc_block. rewrite app_length, map_length, seq_length. cbn [length].
      replace (base + (q + 2)) with (base + q + 2) by lia. apply IH; try lia. intros; apply Hq; right; auto.
Qed.

Lemma okc_exp_cols ex : forall base cs, n <= base -> cs + 3 * length ex <= mG ->
  allc okc base (exp_cols Gc base cs ex).
Proof.
  induction ex as [|v t IH]; intros base cs Hb Hcs; cbn [exp_cols length] in *.
  - apply allc_nil.
  - apply allc_app.
    + unfold exp_block. apply allc_map. intros j Hj. apply okc_tail; try lia.
      * apply HG. lia.
      * intros D. apply NG; auto. lia.
      * intros e He. apply in_map_iff in He. destruct He as (r & <- & Hr). apply in_seq in Hr. cbn. lia.
      * apply (nodup_shift base 0 j (fun r => v r j)).
    + unfold exp_block. rewrite map_length, seq_length. apply IH; lia.
Qed.

Lemma okc_kkt d e lpv soc ex : mG = l + list_sum (map fst soc) + 3 * length ex -> (forall x, In x soc -> 1 <= fst x) ->
  allc okc 0 (kkt_cols Gc n p Ac d e l lpv soc ex).
Proof.
  intros Hm Hq. unfold kkt_cols. repeat apply allc_app; rewrite ?map_length, ?seq_length; cbn [Nat.add].
  - apply allc_map. intros j Hj. cbn [Nat.add]. split; [|split].
    + intros x [<-|[]]. auto.
    + intros _. cbn. constructor; auto. constructor.
    + exists [], d. auto.
  - apply allc_map. intros j Hj. change [(n + j, e)] with (([] : col F) ++ [(n + j, e)]). apply okc_tail.
    + lia.
    + apply HA; auto.
    + intros D. apply NA; auto.
    + intros x [].
    + constructor.
  - unfold lp_cols. apply allc_map. intros j Hj. apply okc_g; lia.
  - unfold lp_cols. rewrite map_length, seq_length. apply okc_soc_cols; auto; lia.
  - unfold lp_cols. rewrite map_length, seq_length, soc_cols_length.
    replace (n + p + l + list_sum (map fst soc) + 2 * length soc) with (n + p + l + (list_sum (map fst soc) + 2 * length soc)) by lia.
    apply okc_exp_cols; lia.
Qed.

End Shape.

Lemma allc_imp (P Q : nat -> col F -> Prop) i cols : (forall c x, i <= c < i + length cols -> P c x -> Q c x) -> allc P i cols -> allc Q i cols.
Proof.
  intros H A c x E. assert (c < length cols) by (apply nth_error_Some; congruence).
  apply H; [lia|]. apply A; auto.
Qed.

(* K is well formed, upper triangular, without repeated coordinates *)
Lemma stores_okc K cols ND : stores K cols -> allc (okc ND) 0 cols -> wf_sp K /\ upper K /\ (ND -> nodup K).
Proof.
  intros S A. split; [|split].
  - eapply stores_wf; eauto. eapply allc_imp; [|exact A]. intros c x Hc (U & _) e He. apply U in He. lia.
  - eapply stores_upper; eauto. eapply allc_imp; [|exact A]. intros c x Hc (U & _). auto.
  - intros D. eapply stores_nodup; eauto. eapply allc_imp; [|exact A]. intros c x Hc (_ & N & _). auto.
Qed.
End Cols.
