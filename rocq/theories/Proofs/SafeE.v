(* The functions of ecos.c on a workspace: they return, for every arithmetic,
   and keep the layout.  First part: kernels, initialisation, residuals. *)
From Coq Require Import List Arith Bool ZArith Lia.
From Verif Require Import Base Num.
From Verif.Model Require Import Spla Splamm Types Consts Expcone Cone Ldl Kkt Equil Preproc Ecos.
From Verif.Spec Require Import Matrix Fill KktSpec KktMatrix Shape SetupSpec.
From Verif.Proofs Require Import SplaP LoopLib SplammP LdlSym LdlNum KktAsm KktMat ConeP ScalP Scal2P LineP KktUpd Layout EquilP Work WorkUpd
  SafeLib Stretch SafeK KktErr.
From Verif.Properties Require Import Kkt.
Import ListNotations.
Open Scope nat_scope.

Section SafeE.
Context `{O : Ops}.

(* ------------------------------------------------------------ generic loops *)
(* writes into an array of which the first h cells are known to be initialised *)
Lemma for_keep {T} (h lo hi : nat) (body : nat -> arr T -> option (arr T)) (a : arr T) (Q : arr T -> Prop) : lo <= hi -> full a h ->
  (forall i a', lo <= i < hi -> length a' = length a -> full a' h -> exists k v, k < length a /\ body i a' = set a' k v) ->
  (forall a', length a' = length a -> full a' h -> Q a') -> wp (for_ lo hi body a) Q.
Proof.
  intros Hh FA Hb HQ. apply (wp_for (fun _ a' => length a' = length a /\ full a' h)); auto.
  - intros i a' Hi (L & Fa). destruct (Hb i a') as (k & v & Hk & E); auto. rewrite E. apply wp_set; [lia|].
    intros a2 L2 G2. split; [congruence|]. eapply full_set; eauto.
  - intros a' (L & Fa). auto.
Qed.

(* writes cells lo..hi-1, below them nothing changes *)
Lemma for_ext (lo hi : nat) (body : nat -> arr F -> option (arr F)) (a : arr F) (Q : arr F -> Prop) : lo <= hi -> hi <= length a -> full a lo ->
  (forall i a', lo <= i < hi -> length a' = length a -> full a' i -> exists v, body i a' = set a' i v) ->
  (forall a', length a' = length a -> full a' hi -> Q a') -> wp (for_ lo hi body a) Q.
Proof.
  intros Hh HL FA Hb HQ. apply (wp_for (fun i a' => length a' = length a /\ full a' i)); auto.
  - intros i a' Hi (L & Fa). destruct (Hb i a') as (v & E); auto. rewrite E. apply wp_set; [lia|].
    intros a2 L2 G2. split; [congruence|]. intros j Hj. rewrite G2. destruct (Nat.eqb_spec j i); eauto. apply Fa. lia.
  - intros a' (L & Fa). auto.
Qed.

Lemma filled_full C g f a a' : filled C g f a a' -> full a' (hsize C).
Proof. intros H. eapply vec_fulld. eapply filled_vec; eauto. Qed.
Lemma filled_len C g f a a' : filled C g f a a' -> length a' = length a.
Proof. intros (H & _). auto. Qed.

Lemma full_minus {T} (a : arr T) n m k : full a n -> (forall j, n <= j < m -> exists v, get a j = Some v) -> k <= m -> full a k.
Proof. intros H K Hk i Hi. destruct (Nat.lt_ge_cases i n); [apply H; auto|apply K; lia]. Qed.

Lemma copy_safe n src dst (Q : arr F -> Prop) : full src n -> n <= length dst ->
  (forall d, length d = length dst -> full d n -> (forall j, n <= j -> get d j = get dst j) -> Q d) -> wp (copy n src dst) Q.
Proof.
  intros Fs HL HQ. unfold copy. apply for_full; auto. intros i a' Hi _ _ _. destruct (Fs i Hi) as [v E]. exists v. rewrite E. auto.
Qed.
Lemma fill_safe n v dst (Q : arr F -> Prop) : n <= length dst -> (forall d, length d = length dst -> full d n -> Q d) -> wp (Equil.fill n v dst) Q.
Proof. intros HL HQ. unfold Equil.fill. apply for_full; auto. intros i a' Hi _ _ _. exists v. auto. Qed.
Lemma axpy_safe n a x y (Q : arr F -> Prop) : full x n -> full y n ->
  (forall d, length d = length y -> full d n -> Q d) -> wp (axpy n a x y) Q.
Proof.
  intros Fx Fy HQ. pose proof (full_len _ _ Fy). unfold axpy. apply (for_keep n); auto; [lia|]. intros i a' Hi La Fa.
  destruct (Fx i ltac:(lia)) as [u Eu]. destruct (Fa i ltac:(lia)) as [v Ev]. exists i, (v + a * u)%fl. split; [lia|]. rewrite Ev. cbn [bind]. rewrite Eu. auto.
Qed.

(* ------------------------------------------------------------ exponential cones *)
Lemma hess_safe (l : list (expcone F)) : forall k y x m (Q : arr F -> Prop), k + 3 * length l <= m -> full x m -> full y m ->
  (forall e, In e l -> full (ex_v e) 6) -> (forall y', length y' = length y -> full y' m -> Q y') -> wp (scaleToAddExpcone y x l k) Q.
Proof.
  intros k y x m Q HL FX FY HE HQ. unfold scaleToAddExpcone. wb.
  apply (wp_for_each (fun pre st => let '(k', y') := st in k' = k + 3 * length pre /\ length y' = length y /\ full y' m)).
  - cbn. csplit; auto; lia.
  - intros pre e post [k' y'] El (-> & Ly & Fy).
    assert (Hl : length l = length pre + S (length post)) by (rewrite El, app_length; auto).
    pose proof (full_len _ _ FY). pose proof (HE e ltac:(rewrite El; apply in_or_app; right; left; auto)) as FE.
    set (b := k + 3 * length pre) in *.
    destruct (FE 0 ltac:(lia)) as [v0 E0]. destruct (FE 1 ltac:(lia)) as [v1 E1]. destruct (FE 2 ltac:(lia)) as [v2 E2].
    destruct (FE 3 ltac:(lia)) as [v3 E3]. destruct (FE 4 ltac:(lia)) as [v4 E4]. destruct (FE 5 ltac:(lia)) as [v5 E5].
    destruct (FX b ltac:(lia)) as [x0 X0]. destruct (FX (b+1) ltac:(lia)) as [x1 X1]. destruct (FX (b+2) ltac:(lia)) as [x2 X2].
    wget E0. wget E1. wget E2. wget E3. wget E4. wget E5. wget X0. wget X1. wget X2.
    destruct (Fy b ltac:(lia)) as [y0 Y0]. wget Y0. wb. wset y1 L1 G1; [lia|]. pose proof (full_set _ _ _ _ _ Fy G1) as F1.
    destruct (F1 (b+1) ltac:(lia)) as [t1 Y1]. wget Y1. wb. wset y2 L2 G2; [lia|]. pose proof (full_set _ _ _ _ _ F1 G2) as F2.
    destruct (F2 (b+2) ltac:(lia)) as [t2 Y2]. wget Y2. wb. wset y3 L3 G3; [lia|]. pose proof (full_set _ _ _ _ _ F2 G3) as F3.
    apply (wp_intro _ _ _ eq_refl). rewrite app_length. cbn [length]. csplit; auto; unfold b; lia.
  - intros [k' y'] (-> & Ly & Fy). apply (wp_intro _ _ _ eq_refl). auto.
Qed.

Lemma dualfeas_safe z nexc : forall k m, k + 3 * nexc <= m -> full z m -> exists b, evalExpDualFeas z k nexc = Some b.
Proof.
  induction nexc as [|c IH]; intros k m Hk Fz; cbn [evalExpDualFeas]; eauto.
  destruct (Fz k ltac:(lia)) as [a0 E0]. destruct (Fz (k+1) ltac:(lia)) as [a1 E1]. destruct (Fz (k+2) ltac:(lia)) as [a2 E2].
  rewrite E0. cbn [bind]. rewrite E1. cbn [bind]. rewrite E2. cbn [bind]. destruct (expDualOk a0 a1 a2); eauto. apply (IH (k+3) m); auto. lia.
Qed.
Lemma primfeas_safe z nexc : forall k m, k + 3 * nexc <= m -> full z m -> exists b, evalExpPrimalFeas z k nexc = Some b.
Proof.
  induction nexc as [|c IH]; intros k m Hk Fz; cbn [evalExpPrimalFeas]; eauto.
  destruct (Fz k ltac:(lia)) as [a0 E0]. destruct (Fz (k+1) ltac:(lia)) as [a1 E1]. destruct (Fz (k+2) ltac:(lia)) as [a2 E2].
  rewrite E0. cbn [bind]. rewrite E1. cbn [bind]. rewrite E2. cbn [bind]. destruct (expPrimalOk a0 a1 a2); eauto. apply (IH (k+3) m); auto. lia.
Qed.
Lemma expbarrier_safe ws wz k nexc m : k + 3 * nexc <= m -> full ws m -> full wz m -> exists b, evalBarrierValue ws wz k nexc = Some b.
Proof.
  intros Hk Fs Fz. unfold evalBarrierValue.
  match goal with |- context [for_ 0 nexc ?B ?s] => destruct (acc_safe nexc B s) as [[pb db] E] end.
  - intros j [pb db] Hj.
    destruct (Fz (k+3*j) ltac:(lia)) as [a0 E0]. destruct (Fz (k+3*j+1) ltac:(lia)) as [a1 E1]. destruct (Fz (k+3*j+2) ltac:(lia)) as [a2 E2].
    destruct (Fs (k+3*j) ltac:(lia)) as [b0 H0]. destruct (Fs (k+3*j+1) ltac:(lia)) as [b1 H1]. destruct (Fs (k+3*j+2) ltac:(lia)) as [b2 H2].
    rewrite E0. cbn [bind]. rewrite E1. cbn [bind]. rewrite E2. cbn [bind]. rewrite H0. cbn [bind]. rewrite H1. cbn [bind]. rewrite H2. cbn [bind]. eauto.
  - rewrite E. cbn [bind]. eauto.
Qed.
Lemma symbarrier_safe ws wz tau kap C D : (forall c, In c (co_soc C) -> 1 <= so_p c) -> full ws (hsize C) -> full wz (hsize C) ->
  exists b, evalSymmetricBarrierValue ws wz tau kap C D = Some b.
Proof.
  intros Hp Fs Fz. unfold evalSymmetricBarrierValue. unfold hsize in *.
  match goal with |- context [for_ 0 (lpp C) ?B ?s] => destruct (acc_safe (lpp C) B s) as [b E] end.
  { intros j b Hj. destruct (Fs j ltac:(lia)) as [u Eu], (Fz j ltac:(lia)) as [v Ev]. rewrite Eu. cbn [bind]. rewrite Ev. cbn [bind]. eauto. }
  rewrite E. cbn [bind]. cbv zeta.
  match goal with |- context [for_each (co_soc C) ?B (?b0, _)] => generalize b0; intros b';
    assert (W : wp (for_each (co_soc C) B (b', lpp C)) (fun _ => True)) end.
  { apply (wp_for_each (fun pre st => snd st = lpp C + list_sum (map so_p pre))); [cbn; lia| |auto].
    intros pre c post [bb k] El Hk. cbn [snd] in Hk.
    assert (Hl : list_sum (map so_p (co_soc C)) = list_sum (map so_p pre) + (so_p c + list_sum (map so_p post))).
    { rewrite El, map_app, list_sum_app. reflexivity. }
    pose proof (Hp c ltac:(rewrite El; apply in_or_app; right; left; auto)) as Hc.
    destruct (Fs k ltac:(lia)) as [u Eu], (Fz k ltac:(lia)) as [v Ev]. wget Eu. wget Ev. wb.
    apply (wp_for (fun _ _ => True)); auto.
    - intros j [nS nZ] Hj _. destruct (Fs (k+j) ltac:(lia)) as [u' Eu'], (Fz (k+j) ltac:(lia)) as [v' Ev']. wget Eu'. wget Ev'.
      apply (wp_intro _ _ _ eq_refl). auto.
    - intros [nS nZ] _. apply (wp_intro _ _ _ eq_refl). cbn [snd]. rewrite map_app, list_sum_app.
      change (list_sum (map so_p [c])) with (so_p c + 0). lia. }
  apply wp_elim in W. destruct W as ([b2 k2] & E2 & _). rewrite E2. cbn [bind]. eauto.
Qed.

Lemma mui_at_safe ws wz j m : j + 3 <= m -> full ws m -> full wz m -> exists v, mui_at ws wz j = Some v.
Proof.
  intros Hk Fs Fz. unfold mui_at.
  destruct (Fz j ltac:(lia)) as [a0 E0]. destruct (Fz (j+1) ltac:(lia)) as [a1 E1]. destruct (Fz (j+2) ltac:(lia)) as [a2 E2].
  destruct (Fs j ltac:(lia)) as [b0 H0]. destruct (Fs (j+1) ltac:(lia)) as [b1 H1]. destruct (Fs (j+2) ltac:(lia)) as [b2 H2].
  rewrite H0. cbn [bind]. rewrite E0. cbn [bind]. rewrite H1. cbn [bind]. rewrite E1. cbn [bind]. rewrite H2. cbn [bind]. rewrite E2. cbn [bind]. eauto.
Qed.
(* the fuel of the model suffices *)
Lemma mui_while_safe ws wz m lim r : full ws m -> full wz m -> forall fuel j mui, j + 3 * r = m -> r < fuel ->
  exists j', mui_while fuel ws wz m lim mui j = Some j'.
Proof.
  intros Fs Fz. induction r as [|r IH]; intros [|fuel] j mui Hj Hf; try lia; cbn [mui_while].
  - destruct (Nat.ltb_spec (j + 2) m); [lia|]. rewrite andb_false_r. eauto.
  - destruct (_ && _)%bool eqn:E; eauto. cbv zeta. destruct (Nat.ltb_spec (j + 3) m).
    + destruct r as [|r']; [lia|]. destruct (mui_at_safe ws wz (j+3) m ltac:(lia) Fs Fz) as [v Ev]. rewrite Ev. cbn [bind]. apply (IH fuel); lia.
    + cbn [bind]. apply (IH fuel); lia.
Qed.

Lemma cell2_safe f m h a b d (Q : arr F -> Prop) : length a = m -> length b = m -> length d = m -> full a h -> full b h ->
  (forall d', length d' = m -> full d' h -> Q d') -> wp (cell2 f m a b d) Q.
Proof.
  intros La Lb Ld Fa Fb HQ. unfold cell2. pose proof (full_len _ _ Fa).
  apply (wp_for (fun i d' => length d' = m /\ forall j, j < i -> j < h -> exists v, get d' j = Some v)); [lia| | |].
  - split; auto. intros; lia.
  - intros i d' Hi (L & H'). 
    destruct (nth_error a i) as [x|] eqn:Ex; [|apply nth_error_None in Ex; lia]. wb. apply (wp_intro _ _ _ eq_refl).
    destruct (nth_error b i) as [y|] eqn:Ey; [|apply nth_error_None in Ey; lia]. wb. apply (wp_intro _ _ _ eq_refl).
    rewrite (proj2 (Nat.ltb_lt _ _)) by lia. apply (wp_intro _ _ _ eq_refl). split; [rewrite upd_length; auto|].
    intros j Hj Hh. unfold get. rewrite nth_error_upd. destruct (Nat.eqb_spec j i) as [->|Ne].
    + rewrite (proj2 (Nat.ltb_lt _ _)) by lia. rewrite ?Nat.eqb_refl.
      destruct (Fa i ltac:(lia)) as [u Eu]. destruct (Fb i ltac:(lia)) as [v Ev]. unfold get in Eu, Ev. rewrite Ex in Eu. rewrite Ey in Ev.
      cbn in Eu, Ev. subst. eauto.
    + cbn [andb]. apply H'; lia.
  - intros d' (L & H'). apply HQ; auto. intros j Hj. apply H'; auto. lia.
Qed.
End SafeE.
