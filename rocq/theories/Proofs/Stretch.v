(* Conic vectors and their expanded, permuted form: scatter, rhs_conic, gather
   and unstretch.  Arithmetic is arbitrary. *)
From Coq Require Import List Arith Bool ZArith Lia.
From Verif Require Import Base Num.
From Verif.Model Require Import Spla Types Consts Expcone Cone Ldl Kkt Equil Ecos.
From Verif.Spec Require Import Matrix KktMatrix Shape SetupSpec.
From Verif.Proofs Require Import LoopLib.
Import ListNotations.
Open Scope nat_scope.

Definition exsum (q : list nat) : nat := list_sum q + 2 * length q.

Lemma exsum_cons d t : exsum (d :: t) = d + 2 + exsum t.
Proof. unfold exsum. cbn [length]. change (list_sum (d :: t)) with (d + list_sum t). lia. Qed.

Lemma unzsoc_ge q : forall t, exsum q <= t -> unzsoc q t = Some (list_sum q + (t - exsum q)).
Proof.
  induction q as [|d q IH]; intros t H; cbn [unzsoc].
  - cbn. f_equal. lia.
  - rewrite exsum_cons in *. destruct (Nat.ltb_spec t d); [lia|]. destruct (Nat.ltb_spec t (d + 2)); [lia|].
    rewrite IH by lia. cbn. change (fold_right Nat.add 0 q) with (list_sum q). f_equal. lia.
Qed.

Lemma unzsoc_lt q : forall t j, t < exsum q -> unzsoc q t = Some j -> j < list_sum q.
Proof.
  induction q as [|d q IH]; intros t j H E; cbn [unzsoc] in E; [cbn in H; lia|].
  rewrite exsum_cons in H. change (list_sum (d :: q)) with (d + list_sum q). destruct (Nat.ltb_spec t d).
  - injection E as <-. lia.
  - destruct (Nat.ltb_spec t (d + 2)); [discriminate|]. destruct (unzsoc q (t - (d + 2))) eqn:E1; [|discriminate].
    cbn in E. injection E as <-. apply IH in E1; lia.
Qed.

Lemma unzsoc_surj q : forall j, j < list_sum q -> exists t, t < exsum q /\ unzsoc q t = Some j.
Proof.
  induction q as [|d q IH]; intros j H; [cbn in H; lia|]. rewrite exsum_cons.
  change (list_sum (d :: q)) with (d + list_sum q) in H. destruct (Nat.lt_ge_cases j d).
  - exists j. split; [lia|]. cbn [unzsoc]. apply Nat.ltb_lt in H0. rewrite H0. auto.
  - destruct (IH (j - d)) as (t & Ht & E); [lia|]. exists (d + 2 + t). split; [lia|]. cbn [unzsoc].
    destruct (Nat.ltb_spec (d + 2 + t) d); [lia|]. destruct (Nat.ltb_spec (d + 2 + t) (d + 2)); [lia|].
    replace (d + 2 + t - (d + 2)) with t by lia. rewrite E. cbn. f_equal. lia.
Qed.

Lemma unz_surj l q m j : j < m -> l + list_sum q <= m -> exists t, t < m + 2 * length q /\ unz l q t = Some j.
Proof.
  intros Hj Hm. unfold unz. destruct (Nat.lt_ge_cases j l) as [A|A].
  - exists j. split; [lia|]. apply Nat.ltb_lt in A. rewrite A. auto.
  - destruct (Nat.lt_ge_cases (j - l) (list_sum q)) as [B|B].
    + destruct (unzsoc_surj q (j - l) B) as (t & Ht & E). exists (l + t). unfold exsum in Ht. split; [lia|].
      destruct (Nat.ltb_spec (l + t) l); [lia|]. replace (l + t - l) with t by lia. rewrite E. cbn. f_equal. lia.
    + exists (j + 2 * length q). split; [lia|]. destruct (Nat.ltb_spec (j + 2 * length q) l); [lia|].
      rewrite unzsoc_ge; unfold exsum; [|lia]. cbn. f_equal. lia.
Qed.

Lemma unz_lt l q m t j : t < m + 2 * length q -> l + list_sum q <= m -> unz l q t = Some j -> j < m.
Proof.
  intros Ht Hm E. unfold unz in E. destruct (Nat.ltb_spec t l); [injection E as <-; lia|].
  destruct (Nat.lt_ge_cases (t - l) (exsum q)) as [B|B].
  - destruct (unzsoc q (t - l)) eqn:E1; [|discriminate]. apply unzsoc_lt in E1; auto. injection E as <-. lia.
  - rewrite unzsoc_ge in E by auto. cbn in E. injection E as <-. unfold exsum in *. lia.
Qed.

Section Stretch.
Context `{O : Ops}.
Variables (N : nat) (pf : nat -> nat) (Pinv : arr nat).
Hypothesis VP : vec Pinv N pf.
Hypothesis PP : is_perm N pf.

(* the section k .. k+cnt-1 of the unpermuted vector holds fv; the rest is as in a *)
Definition put (k cnt : nat) (fv : nat -> F) (a a' : arr F) : Prop :=
  length a' = length a /\
  (forall i, i < cnt -> get a' (pf (k + i)) = Some (fv i)) /\
  (forall i, i < N -> i < k \/ k + cnt <= i -> get a' (pf i) = get a (pf i)).

Lemma put_nil k fv a : put k 0 fv a a.
Proof. split; auto. split; auto. intros i H; lia. Qed.

Lemma put_ext k cnt f g a b : put k cnt f a b -> (forall i, i < cnt -> f i = g i) -> put k cnt g a b.
Proof. intros (A & B & D) H. split; auto. split; auto. intros i Hi. rewrite <- H by auto. auto. Qed.

Lemma put_app k c1 c2 f g a b d : k + c1 + c2 <= N -> put k c1 f a b -> put (k + c1) c2 g b d ->
  put k (c1 + c2) (fun i => if i <? c1 then f i else g (i - c1)) a d.
Proof.
  intros HN (A1 & A2 & A3) (B1 & B2 & B3). split; [congruence|]. split.
  - intros i Hi. destruct (Nat.ltb_spec i c1).
    + rewrite B3 by lia. auto.
    + specialize (B2 (i - c1) ltac:(lia)). replace (k + c1 + (i - c1)) with (k + i) in B2 by lia. auto.
  - intros i Hi Ho. rewrite B3, A3 by lia. auto.
Qed.

Lemma scatter_wp k cnt f fv (a : arr F) (Q : arr F -> Prop) : k + cnt <= N -> N <= length a ->
  (forall i, i < cnt -> f i = Some (fv i)) -> (forall a', put k cnt fv a a' -> Q a') -> wp (scatter Pinv k cnt f a) Q.
Proof.
  intros HN HL Hf HQ. unfold scatter. destruct PP as [P1 P2].
  apply (wp_for (fun c a' => put k c fv a a')); [lia|apply put_nil| |auto].
  intros i a' Hi (A & B & D). rewrite VP by lia. cbn [bind]. rewrite Hf by lia. cbn [bind].
  pose proof (P1 (k + i) ltac:(lia)). apply wp_set; [lia|]. intros a2 L2 G2. split; [lia|]. split.
  - intros j Hj. rewrite G2. destruct (Nat.eqb_spec (pf (k + j)) (pf (k + i))) as [E|E].
    + apply P2 in E; try lia. do 2 f_equal. lia.
    + apply B. assert (j <> i) by (intros ->; auto). lia.
  - intros j Hj Ho. rewrite G2. destruct (Nat.eqb_spec (pf j) (pf (k + i))) as [E|E]; [apply P2 in E; lia|]. apply D; auto. lia.
Qed.

(* the value at expanded row t of a conic vector: 0 in the extra rows *)
Definition stretchsoc (q : list nat) (fv : nat -> F) (t : nat) : F :=
  match unzsoc q t with Some j => fv j | None => f0 end.
Definition stretch (l : nat) (q : list nat) (fv : nat -> F) (t : nat) : F :=
  match unz l q t with Some j => fv j | None => f0 end.

Lemma rhs_socs_wp f fv (l : list (socone F)) : forall k j (a : arr F) (Q : arr F * nat * nat -> Prop),
  k + exsum (map so_p l) <= N -> N <= length a ->
  (forall i, j <= i < j + list_sum (map so_p l) -> f i = Some (fv i)) ->
  (forall a', put k (exsum (map so_p l)) (stretchsoc (map so_p l) (fun i => fv (j + i))) a a' ->
     Q (a', k + exsum (map so_p l), j + list_sum (map so_p l))) ->
  wp (for_each l (fun c st =>
      let '(R, k, j) := st in
      R <- scatter Pinv k (so_p c) (fun i => f (j + i)%nat) R ;;
      R <- scatter Pinv (k + so_p c) 2 (fun _ => Some f0) R ;;
      Some (R, (k + so_p c + 2)%nat, (j + so_p c)%nat)) (a, k, j)) Q.
Proof.
  induction l as [|c t IH]; intros k j a Q HN HL Hf HQ; cbn [for_each map] in *.
  - specialize (HQ a (put_nil k _ a)). unfold exsum in HQ. cbn in HQ. rewrite !Nat.add_0_r in HQ. exact HQ.
  - rewrite exsum_cons in *. change (list_sum (so_p c :: map so_p t)) with (so_p c + list_sum (map so_p t)) in *.
    wb. wb. apply (scatter_wp _ _ _ (fun i => fv (j + i))); [lia|lia|intros; apply Hf; lia|]. intros a1 U1.
    wb. apply (scatter_wp _ _ _ (fun _ => f0)); [lia|destruct U1; lia|auto|]. intros a2 U2.
    apply (wp_intro _ _ _ eq_refl). cbv beta iota.
    apply IH; [lia|destruct U1, U2; lia|intros; apply Hf; lia|]. intros a3 U3.
    replace (k + so_p c + 2 + exsum (map so_p t)) with (k + (so_p c + 2 + exsum (map so_p t))) by lia.
    replace (j + so_p c + list_sum (map so_p t)) with (j + (so_p c + list_sum (map so_p t))) by lia.
    apply HQ. eapply put_ext.
    + replace (k + so_p c + 2) with (k + (so_p c + 2)) in U3 by lia.
      refine (put_app k (so_p c + 2) _ _ _ a a2 a3 _ (put_app k _ 2 _ _ a a1 a2 _ U1 U2) U3); lia.
    + intros i Hi. cbv beta. unfold stretchsoc at 2. cbn [unzsoc].
      destruct (Nat.ltb_spec i (so_p c + 2)).
      * destruct (Nat.ltb_spec i (so_p c)); auto.
      * destruct (Nat.ltb_spec i (so_p c)); [lia|]. unfold stretchsoc. destruct (unzsoc _ _); cbn; auto. f_equal. lia.
Qed.

Lemma rhs_exps_wp f fv (l : list (expcone F)) : forall k j (a : arr F) (Q : arr F * nat * nat -> Prop),
  k + 3 * length l <= N -> N <= length a ->
  (forall i, j <= i < j + 3 * length l -> f i = Some (fv i)) ->
  (forall a', put k (3 * length l) (fun i => fv (j + i)) a a' -> Q (a', k + 3 * length l, j + 3 * length l)) ->
  wp (for_each l (fun _ st =>
      let '(R, k, j) := st in
      R <- scatter Pinv k 3 (fun i => f (j + i)%nat) R ;;
      Some (R, (k + 3)%nat, (j + 3)%nat)) (a, k, j)) Q.
Proof.
  induction l as [|c t IH]; intros k j a Q HN HL Hf HQ; cbn [for_each length] in *.
  - specialize (HQ a (put_nil k _ a)). rewrite !Nat.add_0_r in HQ. exact HQ.
  - wb. wb. apply (scatter_wp _ _ _ (fun i => fv (j + i))); [lia|lia|intros; apply Hf; lia|]. intros a1 U1.
    apply (wp_intro _ _ _ eq_refl). cbv beta iota.
    apply IH; [lia|destruct U1; lia|intros; apply Hf; lia|]. intros a3 U3.
    replace (k + 3 + 3 * length t) with (k + 3 * Datatypes.S (length t)) by lia.
    replace (j + 3 + 3 * length t) with (j + 3 * Datatypes.S (length t)) by lia.
    apply HQ. replace (3 * Datatypes.S (length t)) with (3 + 3 * length t) by lia. eapply put_ext.
    + refine (put_app k 3 _ _ _ a a1 a3 _ U1 U3); lia.
    + intros i Hi. cbv beta. destruct (Nat.ltb_spec i 3); auto. f_equal. lia.
Qed.

(* the three loops together: LP rows, second-order cones, exponential cones *)
Lemma stretch_put l q k e fv (a a1 a2 a3 : arr F) : k + (l + list_sum q + e) + 2 * length q <= N ->
  put k l fv a a1 -> put (k + l) (exsum q) (stretchsoc q (fun i => fv (l + i))) a1 a2 ->
  put (k + l + exsum q) e (fun i => fv (l + list_sum q + i)) a2 a3 ->
  put k (l + list_sum q + e + 2 * length q) (stretch l q fv) a a3.
Proof.
  intros HN U1 U2 U3.
  replace (l + list_sum q + e + 2 * length q) with (l + exsum q + e) by (unfold exsum; lia).
  assert (HE : exsum q = list_sum q + 2 * length q) by reflexivity.
  eapply put_ext.
  - replace (k + l + exsum q) with (k + (l + exsum q)) in U3 by lia.
    refine (put_app k (l + exsum q) _ _ _ a a2 a3 _ (put_app k l _ _ _ a a1 a2 _ U1 U2) U3); lia.
  - intros i Hi. cbv beta. unfold stretch, unz. destruct (Nat.ltb_spec i (l + exsum q)).
    + destruct (Nat.ltb_spec i l); auto. unfold stretchsoc. destruct (unzsoc q (i - l)); auto.
    + destruct (Nat.ltb_spec i l); [lia|]. rewrite unzsoc_ge by lia. cbn. f_equal. lia.
Qed.

Lemma rhs_conic_wp C k f fv (a : arr F) (Q : arr F -> Prop) :
  k + (msize C + 2 * nsoc C) <= N -> N <= length a ->
  (forall j, j < msize C -> f j = Some (fv j)) ->
  (forall a', put k (msize C + 2 * nsoc C) (stretch (lpp C) (map so_p (co_soc C)) fv) a a' -> Q a') ->
  wp (rhs_conic Pinv C k f a) Q.
Proof.
  intros HN HL Hf HQ. unfold rhs_conic, msize, hsize, nsoc, nexc in *.
  assert (HE : exsum (map so_p (co_soc C)) = list_sum (map so_p (co_soc C)) + 2 * length (co_soc C)) by (unfold exsum; rewrite map_length; auto).
  wb. apply (scatter_wp _ _ _ fv); [lia|lia|intros; apply Hf; lia|]. intros a1 U1.
  wb. apply (rhs_socs_wp f fv); [lia|destruct U1; lia|intros; apply Hf; lia|]. intros a2 U2. cbv beta iota.
  wb. apply (rhs_exps_wp f fv); [lia|destruct U1, U2; lia|intros; apply Hf; lia|]. intros a3 U3. cbv beta iota.
  apply (wp_intro _ _ _ eq_refl). apply HQ.
  assert (HR := stretch_put (lpp C) (map so_p (co_soc C)) k (3 * length (co_expc C)) fv a a1 a2 a3).
  rewrite map_length in HR. apply HR; auto; lia.
Qed.

(* ---- gather ---- *)
Lemma gather_wp (Px : arr F) xv k cnt dst j (Q : arr F -> Prop) : k + cnt <= N -> vec Px N xv -> j + cnt <= length dst ->
  (forall d', wrote j cnt (fun i => xv (pf (k + i))) dst d' -> Q d') -> wp (gather Px Pinv k cnt dst j) Q.
Proof.
  intros HN VX HL HQ. unfold gather. destruct PP as [P1 P2].
  match goal with |- wp (for_ 0 cnt ?B dst) Q =>
    destruct (for_fill (fun i => xv (pf (k + i))) j 0 cnt B dst) as (d' & E & W) end; [| lia | lia |].
  - intros i a' Hi _. rewrite VP by lia. cbn [bind]. rewrite VX; auto. apply P1. lia.
  - apply (wp_intro _ _ _ E). apply HQ. rewrite Nat.add_0_r, Nat.sub_0_r in W. exact W.
Qed.

(* dz holds, at conic row j0+i, the value at expanded row k0+t with unz t = i *)
Definition took (j cnt : nat) (g : nat -> F) (d d' : arr F) : Prop := wrote j cnt g d d'.

Lemma un_socs_wp (Px : arr F) xv (l : list (socone F)) : forall k j (dst : arr F) (Q : arr F * nat * nat -> Prop),
  k + exsum (map so_p l) <= N -> vec Px N xv -> j + list_sum (map so_p l) <= length dst ->
  (forall d', length d' = length dst ->
     (forall t i, t < exsum (map so_p l) -> unzsoc (map so_p l) t = Some i -> get d' (j + i) = Some (xv (pf (k + t)))) ->
     (forall i, i < j \/ j + list_sum (map so_p l) <= i -> get d' i = get dst i) ->
     Q (d', k + exsum (map so_p l), j + list_sum (map so_p l))) ->
  wp (for_each l (fun c st =>
      let '(dz, k, j) := st in
      dz <- gather Px Pinv k (so_p c) dz j ;;
      Some (dz, (k + so_p c + 2)%nat, (j + so_p c)%nat)) (dst, k, j)) Q.
Proof.
  induction l as [|c t IH]; intros k j dst Q HN VX HL HQ; cbn [for_each map] in *.
  - specialize (HQ dst eq_refl). unfold exsum in HQ. cbn in HQ. rewrite !Nat.add_0_r in HQ. apply HQ; [intros; lia|auto].
  - rewrite exsum_cons in *. change (list_sum (so_p c :: map so_p t)) with (so_p c + list_sum (map so_p t)) in *.
    wb. wb. apply (gather_wp Px xv); [lia|auto|lia|]. intros d1 W1. apply (wp_intro _ _ _ eq_refl). cbv beta iota.
    apply IH; [lia|auto|destruct W1; lia|]. intros d2 L2 A2 B2.
    replace (k + so_p c + 2 + exsum (map so_p t)) with (k + (so_p c + 2 + exsum (map so_p t))) by lia.
    replace (j + so_p c + list_sum (map so_p t)) with (j + (so_p c + list_sum (map so_p t))) by lia.
    apply HQ.
    + destruct W1; congruence.
    + intros u i Hu Ei. cbn [unzsoc] in Ei. destruct (Nat.ltb_spec u (so_p c)).
      * injection Ei as <-. rewrite B2 by lia. apply (wrote_in _ _ _ _ _ u W1). auto.
      * destruct (Nat.ltb_spec u (so_p c + 2)); [discriminate|].
        destruct (unzsoc (map so_p t) (u - (so_p c + 2))) as [i'|] eqn:E1; [|discriminate]. cbn in Ei. injection Ei as <-.
        specialize (A2 (u - (so_p c + 2)) i' ltac:(lia) E1).
        replace (k + so_p c + 2 + (u - (so_p c + 2))) with (k + u) in A2 by lia. rewrite <- A2. f_equal. lia.
    + intros i Hi. rewrite B2 by lia. apply (wrote_out _ _ _ _ _ i W1). lia.
Qed.

Lemma un_exps_wp (Px : arr F) xv (l : list (expcone F)) : forall k j (dst : arr F) (Q : arr F * nat * nat -> Prop),
  k + 3 * length l <= N -> vec Px N xv -> j + 3 * length l <= length dst ->
  (forall d', length d' = length dst ->
     (forall t, t < 3 * length l -> get d' (j + t) = Some (xv (pf (k + t)))) ->
     (forall i, i < j \/ j + 3 * length l <= i -> get d' i = get dst i) ->
     Q (d', k + 3 * length l, j + 3 * length l)) ->
  wp (for_each l (fun _ st =>
      let '(dz, k, j) := st in
      dz <- gather Px Pinv k 3 dz j ;;
      Some (dz, (k + 3)%nat, (j + 3)%nat)) (dst, k, j)) Q.
Proof.
  induction l as [|c t IH]; intros k j dst Q HN VX HL HQ; cbn [for_each length] in *.
  - specialize (HQ dst eq_refl). rewrite !Nat.add_0_r in HQ. apply HQ; [intros; lia|auto].
  - wb. wb. apply (gather_wp Px xv); [lia|auto|lia|]. intros d1 W1. apply (wp_intro _ _ _ eq_refl). cbv beta iota.
    apply IH; [lia|auto|destruct W1; lia|]. intros d2 L2 A2 B2.
    replace (k + 3 + 3 * length t) with (k + 3 * Datatypes.S (length t)) by lia.
    replace (j + 3 + 3 * length t) with (j + 3 * Datatypes.S (length t)) by lia.
    apply HQ.
    + destruct W1; congruence.
    + intros u Hu. destruct (Nat.lt_ge_cases u 3) as [H3|H3].
      * rewrite B2 by lia. apply (wrote_in _ _ _ _ _ u W1). auto.
      * specialize (A2 (u - 3) ltac:(lia)). replace (k + 3 + (u - 3)) with (k + u) in A2 by lia. rewrite <- A2. f_equal. lia.
    + intros i Hi. rewrite B2 by lia. apply (wrote_out _ _ _ _ _ i W1). lia.
Qed.

Lemma unstretch_wp n p C (Px : arr F) xv dx dy dz (Q : arr F * arr F * arr F -> Prop) :
  n + p + (msize C + 2 * nsoc C) <= N -> vec Px N xv ->
  length dx = n -> length dy = p -> length dz = msize C ->
  (forall dx' dy' dz', length dx' = n -> length dy' = p -> length dz' = msize C ->
     vec dx' n (fun i => xv (pf i)) -> vec dy' p (fun i => xv (pf (n + i))) -> full dz' (msize C) ->
     (forall t j, t < msize C + 2 * nsoc C -> unz (lpp C) (map so_p (co_soc C)) t = Some j ->
        get dz' j = Some (xv (pf (n + p + t)))) -> Q (dx', dy', dz')) ->
  wp (unstretch n p C Pinv Px dx dy dz) Q.
Proof.
  intros HN VX Lx Ly Lz HQ. unfold unstretch, msize, hsize, nsoc, nexc in *.
  assert (HE : exsum (map so_p (co_soc C)) = list_sum (map so_p (co_soc C)) + 2 * length (co_soc C)) by (unfold exsum; rewrite map_length; auto).
  wb. apply (gather_wp Px xv); [lia|auto|lia|]. intros dx' Wx.
  wb. apply (gather_wp Px xv); [lia|auto|lia|]. intros dy' Wy.
  wb. apply (gather_wp Px xv); [lia|auto|lia|]. intros z1 W1.
  wb. apply (un_socs_wp Px xv); [lia|auto|destruct W1; lia|]. intros z2 L2 A2 B2. cbv beta iota.
  wb. apply (un_exps_wp Px xv); [lia|auto|destruct W1; lia|]. intros z3 L3 A3 B3. cbv beta iota.
  apply (wp_intro _ _ _ eq_refl).
  assert (VZ : forall t j, t < lpp C + list_sum (map so_p (co_soc C)) + 3 * length (co_expc C) + 2 * length (co_soc C) ->
     unz (lpp C) (map so_p (co_soc C)) t = Some j -> get z3 j = Some (xv (pf (n + p + t)))).
  { intros t j Ht E. unfold unz in E. destruct (Nat.ltb_spec t (lpp C)).
    - injection E as <-. rewrite B3, B2 by lia. apply (wrote_in _ _ _ _ _ t W1); auto.
    - destruct (Nat.lt_ge_cases (t - lpp C) (exsum (map so_p (co_soc C)))) as [HS|HS].
      + destruct (unzsoc _ (t - lpp C)) as [i|] eqn:E1; [|discriminate]. cbn in E. injection E as <-.
        pose proof (unzsoc_lt _ _ _ HS E1). rewrite B3 by lia. rewrite (A2 (t - lpp C) i) by auto. do 3 f_equal. lia.
      + rewrite unzsoc_ge in E by auto. cbn in E. injection E as <-.
        match goal with |- get _ (_ + (_ + ?x)) = _ => specialize (A3 x ltac:(lia)) end.
        rewrite Nat.add_assoc. rewrite A3. do 3 f_equal. lia. }
  apply HQ; try (destruct Wx, Wy, W1; congruence).
  - intros i Hi. apply (wrote_in _ _ _ _ _ i Wx); auto.
  - intros i Hi. apply (wrote_in _ _ _ _ _ i Wy); auto.
  - intros j Hj. destruct (unz_surj (lpp C) (map so_p (co_soc C)) _ j Hj ltac:(lia)) as (t & Ht & E).
    rewrite map_length in Ht. eexists. apply VZ; eauto.
  - exact VZ.
Qed.
End Stretch.
