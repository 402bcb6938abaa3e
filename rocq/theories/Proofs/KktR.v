(* The KKT matrix over the reals. *)
From Coq Require Import List Arith Bool ZArith Reals Lia Lra.
From Verif Require Import Base Num.
From Verif.Model Require Import Spla Splamm Types.
From Verif.Spec Require Import Matrix Fill KktSpec KktMatrix.
From Verif.Proofs Require Import LoopLib SplaP KktAsm KktMat.
Import ListNotations.
Open Scope nat_scope.

(* the entry of row r in a column *)
Definition csum (x : col R) (r : nat) : R :=
  fold_right (fun e a => ((if Nat.eqb (fst e) r then snd e else 0) + a)%R) 0%R x.
Lemma csum_app x y r : csum (x ++ y) r = (csum x r + csum y r)%R.
Proof. unfold csum. induction x as [|e t IH]; cbn [app fold_right]; [|rewrite IH]; lra. Qed.
Lemma csum_0 x r : (forall e, In e x -> fst e <> r) -> csum x r = 0%R.
Proof.
  induction x as [|e t IH]; intros H; cbn; auto. fold (csum t r). rewrite IH by (intros; apply H; right; auto).
  destruct (Nat.eqb_spec (fst e) r) as [E|]; [|lra]. exfalso. apply (H e); auto. left; auto.
Qed.
Lemma csum_1 c v r : csum [(c, v)] r = if Nat.eqb r c then v else 0%R.
Proof. cbn. rewrite Nat.eqb_sym. destruct (Nat.eqb r c); lra. Qed.

Lemma csum_map base (v : nat -> R) a k r : csum (map (fun i => (base + i, v i)) (seq a k)) r =
  if andb (base + a <=? r) (r <? base + a + k) then v (r - base) else 0%R.
Proof.
  revert a. induction k as [|k IH]; intros a.
  - cbn [seq map csum fold_right]. destruct (Nat.leb_spec (base + a) r), (Nat.ltb_spec r (base + a + 0)); cbn [andb]; auto; lia.
  - cbn [seq map].
    match goal with |- csum (?h :: ?t) r = _ => change (csum (h :: t) r) with (csum ([h] ++ t) r) end.
    rewrite csum_app, csum_1, IH.
    destruct (Nat.eqb_spec r (base + a)).
    + subst r. replace (base + a - base) with a by lia.
      destruct (Nat.leb_spec (base + S a) (base + a)); [lia|]. cbn [andb].
      rewrite (proj2 (Nat.leb_le (base + a) (base + a))), (proj2 (Nat.ltb_lt (base + a) (base + a + S k))) by lia. cbn [andb]. lra.
    + destruct (Nat.leb_spec (base + S a) r), (Nat.leb_spec (base + a) r); cbn [andb]; try lia; try lra.
      destruct (Nat.ltb_spec r (base + S a + k)), (Nat.ltb_spec r (base + a + S k)); try lia; lra.
Qed.

Lemma stores_dense (K : spmat R) cols c x r : stores K cols -> nth_error cols c = Some x -> dense K r c = csum x r.
Proof.
  intros S E. assert (Hc : c < length cols) by (apply nth_error_Some; congruence).
  unfold dense.
  rewrite (gd_get 0 _ _ _ (st_jc _ _ S c ltac:(lia))), (gd_get 0 _ _ _ (st_jc _ _ S (c + 1) ltac:(lia))), (start_S _ _ _ E).
  assert (H : forall i e, nth_error x i = Some e ->
     gd 0 (sp_ir K) (start cols c + i) = fst e /\ gd 0%R (sp_pr K) (start cols c + i) = snd e).
  { intros i e He. destruct (st_ent _ _ S (start cols c + i) e) as [A B]; [apply (start_nth _ _ x); auto|].
    rewrite (gd_get 0 _ _ _ A), (gd_get 0%R _ _ _ B). auto. }
  revert H. generalize (start cols c) as s. clear. induction x as [|e t IH]; intros s H.
  - cbn. rewrite Nat.add_0_r. apply Rsumr_nil. lia.
  - cbn [length csum fold_right]. fold (csum t r). rewrite Rsumr_Sl by lia.
    destruct (H 0 e eq_refl) as [A B]. rewrite Nat.add_0_r in A, B. rewrite A, B.
    replace (s + Datatypes.S (length t)) with (Datatypes.S s + length t) by lia. f_equal.
    apply IH. intros i e' He'. specialize (H (Datatypes.S i) e' He').
    replace (s + Datatypes.S i) with (Datatypes.S s + i) in H by lia. auto.
Qed.

Lemma colent_csum (M : spmat R) j r : csum (colent 0%R M j) r = dense M r j.
Proof.
  unfold dense, colent, Rsumr. 
  set (lo := gd 0 (sp_jc M) j). generalize (gd 0 (sp_jc M) (j + 1) - lo) as k. intros k. clearbody lo.
  induction k as [|k IH]; auto.
  rewrite seq_S, map_app, csum_app. cbn [map]. rewrite IH, csum_1. cbn [Rsum]. rewrite Nat.eqb_sym. auto.
Qed.

Section Entries.
Variables (n p l mG : nat) (Ac Gc : nat -> col R).
Hypothesis (HA : forall j, j < p -> forall e, In e (Ac j) -> fst e < n).
Hypothesis (HG : forall j, j < mG -> forall e, In e (Gc j) -> fst e < n).

Lemma gc_0 j r : j < mG -> n <= r -> csum (Gc j) r = 0%R.
Proof. intros Hj Hr. apply csum_0. intros e He. apply HG in He; auto. lia. Qed.

Definition gpart (q : list nat) (cs t r : nat) : R :=
  match unzsoc q t with Some j => csum (Gc (cs + j)) r | None => 0%R end.

Lemma soc_block_ent base cs q v : n <= base -> cs + q <= mG ->
  allc (fun c x => forall r, r <= c -> csum x r =
      ((if Nat.ltb (c - base) q then csum (Gc (cs + (c - base))) r else 0)
       + (if Nat.ltb r base then 0 else blockmat q v (r - base) (c - base)))%R) base (soc_block Gc base cs q v).
Proof.
  intros Hb Hcs. unfold soc_block. apply allc_app.
  - apply allc_map. intros j Hj r Hr. replace (base + j - base) with j by lia.
    rewrite (proj2 (Nat.ltb_lt _ _) Hj), csum_app, csum_1. f_equal. unfold blockmat. rewrite (proj2 (Nat.ltb_lt _ _) Hj).
    destruct (Nat.ltb_spec r base), (Nat.eqb_spec r (base + j)), (Nat.eqb_spec (r - base) j); try lia; auto.
  - rewrite map_length, seq_length. apply allc_two.
    + intros r Hr. replace (base + q - base) with q by lia. rewrite Nat.ltb_irrefl.
      rewrite csum_app, csum_1, (csum_map base (fun r => sv_v v (r - 1))). unfold blockmat. rewrite Nat.ltb_irrefl, Nat.eqb_refl.
      destruct (Nat.leb_spec (base + 1) r), (Nat.ltb_spec r (base + 1 + (q - 1))), (Nat.ltb_spec r base),
        (Nat.eqb_spec r (base + q)), (Nat.eqb_spec (r - base) q), (Nat.eqb_spec (r - base) 0); cbn [andb]; try lia; try lra.
    + intros r Hr. replace (base + q + 1 - base) with (q + 1) by lia.
      rewrite csum_app, csum_1, csum_map. unfold blockmat.
      destruct (Nat.ltb_spec (q + 1) q); [lia|]. destruct (Nat.eqb_spec (q + 1) q); [lia|].
      destruct (Nat.leb_spec (base + 0) r), (Nat.ltb_spec r (base + 0 + q)), (Nat.ltb_spec r base),
        (Nat.eqb_spec r (base + q + 1)), (Nat.eqb_spec (r - base) (q + 1)), (Nat.ltb_spec (r - base) q); cbn [andb]; try lia; try lra.
Qed.

Lemma soc_cols_ent soc : forall base cs, n <= base -> cs + list_sum (map fst soc) <= mG ->
  allc (fun c x => forall r, r <= c -> csum x r =
      (gpart (map fst soc) cs (c - base) r + (if Nat.ltb r base then 0 else socmat soc (r - base) (c - base)))%R)
    base (soc_cols Gc base cs soc).
Proof.
  unfold list_sum. induction soc as [|[q v] t IH]; intros base cs Hb Hcs; cbn [soc_cols map fold_right fst] in *.
  - apply allc_nil.
  - apply allc_app.
    + eapply allc_imp; [|apply soc_block_ent; lia]. rewrite soc_block_cols. intros c x Hc H r Hr.
      rewrite H by auto. unfold gpart. cbn [unzsoc socmat].
      rewrite (proj2 (Nat.ltb_lt (c - base) (q + 2))) by lia.
      destruct (Nat.ltb_spec (c - base) q); auto.
    + rewrite soc_block_cols. replace (base + (q + 2)) with (base + q + 2) by lia.
      eapply allc_imp; [|apply (IH (base + q + 2) (cs + q)); lia]. rewrite soc_cols_length. intros c x Hc H r Hr.
      rewrite H by auto. unfold gpart. cbn [unzsoc socmat].
      destruct (Nat.ltb_spec (c - base) q); [lia|]. destruct (Nat.ltb_spec (c - base) (q + 2)); [lia|].
      replace (c - base - (q + 2)) with (c - (base + q + 2)) by lia.
      f_equal.
      * destruct (unzsoc (map fst t) (c - (base + q + 2))) as [j|]; cbn; auto. rewrite Nat.add_assoc. auto.
      * destruct (Nat.ltb_spec r base), (Nat.ltb_spec r (base + q + 2)), (Nat.ltb_spec (r - base) (q + 2)); try lia; auto.
        f_equal; lia.
Qed.

Lemma exp_cols_ent ex : forall base cs, n <= base -> cs + 3 * length ex <= mG ->
  allc (fun c x => forall r, r <= c -> csum x r =
      (csum (Gc (cs + (c - base))) r + (if Nat.ltb r base then 0 else expmat ex (r - base) (c - base)))%R)
    base (exp_cols Gc base cs ex).
Proof.
  induction ex as [|v t IH]; intros base cs Hb Hcs; cbn [exp_cols length] in *.
  - apply allc_nil.
  - apply allc_app.
    + unfold exp_block. apply allc_map. intros j Hj r Hr. replace (base + j - base) with j by lia.
      rewrite !csum_app, csum_1, (csum_map base (fun r => v r j)). f_equal. cbn [expmat]. rewrite (proj2 (Nat.ltb_lt _ _) Hj).
      destruct (Nat.leb_spec (base + 0) r), (Nat.ltb_spec r (base + 0 + j)), (Nat.ltb_spec r base), (Nat.eqb_spec r (base + j)); cbn [andb]; try lia; try lra.
      subst r. replace (base + j - base) with j by lia. lra.
    + unfold exp_block. rewrite map_length, seq_length.
      eapply allc_imp; [|apply (IH (base + 3) (cs + 3)); lia]. rewrite exp_cols_length. intros c x Hc H r Hr.
      rewrite H by auto. cbn [expmat]. destruct (Nat.ltb_spec (c - base) 3); [lia|].
      replace (cs + 3 + (c - (base + 3))) with (cs + (c - base)) by lia. f_equal.
      destruct (Nat.ltb_spec r base), (Nat.ltb_spec r (base + 3)), (Nat.ltb_spec (r - base) 3); try lia; auto.
      f_equal; lia.
Qed.

Lemma unzsoc_beyond q t : list_sum q + 2 * length q <= t -> unzsoc q t = Some (t - 2 * length q).
Proof.
  revert t. unfold list_sum. induction q as [|d tl IH]; intros t H; cbn [unzsoc fold_right length] in *.
  - f_equal. lia.
  - destruct (Nat.ltb_spec t d); [lia|]. destruct (Nat.ltb_spec t (d + 2)); [lia|].
    rewrite IH by lia. cbn. f_equal. lia.
Qed.

Lemma unzsoc_lt q t j : unzsoc q t = Some j -> t < list_sum q + 2 * length q -> j < list_sum q.
Proof.
  revert t j. unfold list_sum. induction q as [|d tl IH]; intros t j E H; cbn [unzsoc fold_right length] in *; [lia|].
  destruct (Nat.ltb_spec t d). { injection E as <-. lia. }
  destruct (Nat.ltb_spec t (d + 2)); [discriminate|].
  destruct (unzsoc tl (t - (d + 2))) as [j'|] eqn:E'; [|discriminate]. cbn in E. injection E as <-.
  apply IH in E'; lia.
Qed.

Lemma kkt_cols_ent d e lpv soc ex : mG = l + list_sum (map fst soc) + 3 * length ex ->
  allc (fun c x => forall r, r <= c -> csum x r =
     kkt_entry n p (fun j r => csum (Ac j) r) (fun j r => csum (Gc j) r) d e l (map fst soc) (vmat l lpv soc ex) r c)
    0 (kkt_cols Gc n p Ac d e l lpv soc ex).
Proof.
  intros Hm. unfold kkt_cols. repeat apply allc_app; rewrite ?map_length, ?seq_length; cbn [Nat.add].
  - apply allc_map. intros c Hc r Hr. cbn [Nat.add] in *. rewrite csum_1. unfold kkt_entry.
    rewrite (proj2 (Nat.ltb_lt _ _) Hc). auto.
  - apply allc_map. intros j Hj r Hr. rewrite csum_app, csum_1. unfold kkt_entry.
    destruct (Nat.ltb_spec (n + j) n); [lia|]. rewrite (proj2 (Nat.ltb_lt (n + j) (n + p))) by lia.
    replace (n + j - n) with j by lia.
    destruct (Nat.ltb_spec r n), (Nat.eqb_spec r (n + j)); try lia; try lra.
    + rewrite csum_0; [lra|]. intros x Hx. apply HA in Hx; auto; lia.
    + rewrite csum_0; [lra|]. intros x Hx. apply HA in Hx; auto; lia.
  - unfold lp_cols. apply allc_map. intros j Hj r Hr. rewrite csum_app, csum_1. unfold kkt_entry, unz, vmat.
    destruct (Nat.ltb_spec (n + p + j) n); [lia|]. destruct (Nat.ltb_spec (n + p + j) (n + p)); [lia|].
    replace (n + p + j - (n + p)) with j by lia. rewrite (proj2 (Nat.ltb_lt _ _) Hj).
    destruct (Nat.ltb_spec r n), (Nat.ltb_spec r (n + p)), (Nat.eqb_spec r (n + p + j)), (Nat.eqb_spec (r - (n + p)) j); try lia; try lra;
      rewrite gc_0 by lia; lra.
  - unfold lp_cols. rewrite map_length, seq_length.
    eapply allc_imp; [|apply soc_cols_ent; lia]. rewrite soc_cols_length. intros c x Hc H r Hr.
    rewrite H by auto. unfold gpart, kkt_entry, unz, vmat.
    destruct (Nat.ltb_spec c n); [lia|]. destruct (Nat.ltb_spec c (n + p)); [lia|].
    destruct (Nat.ltb_spec (c - (n + p)) l); [lia|].
    replace (c - (n + p) - l) with (c - (n + p + l)) by lia.
    rewrite (proj2 (Nat.ltb_lt (c - (n + p)) (l + (list_sum (map fst soc) + 2 * length soc)))) by lia.
    destruct (Nat.ltb_spec r n).
    + rewrite (proj2 (Nat.ltb_lt r (n + p + l))) by lia. destruct (unzsoc (map fst soc) (c - (n + p + l))); cbn [option_map]; lra.
    + assert (G0 : match unzsoc (map fst soc) (c - (n + p + l)) with Some j => csum (Gc (l + j)) r | None => 0%R end = 0%R).
      { destruct (unzsoc (map fst soc) (c - (n + p + l))) as [j|] eqn:E; auto. apply gc_0; auto.
        apply unzsoc_lt in E; [|rewrite map_length; lia]. lia. }
      rewrite G0.
      destruct (Nat.ltb_spec r (n + p)), (Nat.ltb_spec r (n + p + l)), (Nat.ltb_spec (r - (n + p)) l); try lia; try lra.
      replace (r - (n + p) - l) with (r - (n + p + l)) by lia. lra.
  - unfold lp_cols. rewrite map_length, seq_length, soc_cols_length.
    set (e0 := n + p + l + (list_sum (map fst soc) + 2 * length soc)).
    replace (n + p + l + list_sum (map fst soc) + 2 * length soc) with e0 by (unfold e0; lia).
    eapply allc_imp; [|apply exp_cols_ent; unfold e0; lia]. rewrite exp_cols_length. intros c x Hc H r Hr.
    rewrite H by auto. unfold kkt_entry, unz, vmat.
    destruct (Nat.ltb_spec c n); [lia|]. destruct (Nat.ltb_spec c (n + p)); [lia|].
    destruct (Nat.ltb_spec (c - (n + p)) l); [lia|].
    destruct (Nat.ltb_spec (c - (n + p)) (l + (list_sum (map fst soc) + 2 * length soc))); [lia|].
    rewrite unzsoc_beyond by (rewrite map_length; lia). rewrite map_length. cbn [option_map].
    replace (l + (c - (n + p) - l - 2 * length soc)) with (l + list_sum (map fst soc) + (c - e0)) by lia.
    destruct (Nat.ltb_spec r n).
    + rewrite (proj2 (Nat.ltb_lt r e0)) by lia. lra.
    + rewrite gc_0 by lia.
      destruct (Nat.ltb_spec r (n + p)), (Nat.ltb_spec r e0), (Nat.ltb_spec (r - (n + p)) (l + (list_sum (map fst soc) + 2 * length soc))); try lia; try lra.
      replace (r - (n + p) - (l + (list_sum (map fst soc) + 2 * length soc))) with (r - e0) by lia.
      replace (c - (n + p) - (l + (list_sum (map fst soc) + 2 * length soc))) with (c - e0) by lia. lra.
Qed.

End Entries.
