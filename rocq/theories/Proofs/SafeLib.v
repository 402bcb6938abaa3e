(* Memory safety of the vector and sparse kernels, for arbitrary arithmetic:
   with enough allocated and initialised they return, keep lengths and leave
   their results initialised. *)
From Coq Require Import List Arith Bool ZArith Lia.
From Verif Require Import Base Num.
From Verif.Model Require Import Spla Types.
From Verif.Spec Require Import Matrix SetupSpec.
From Verif.Proofs Require Import SplaP LoopLib.
Import ListNotations.
Open Scope nat_scope.

Section SafeLib.
Context `{O : Ops}.

Lemma full_get {T} (a : arr T) n i : full a n -> i < n -> exists v, get a i = Some v.
Proof. intros H Hi. apply H; auto. Qed.
Lemma full_le {T} (a : arr T) n m : full a n -> m <= n -> full a m.
Proof. intros H Hm i Hi. apply H. lia. Qed.
Lemma full_len {T} (a : arr T) n : full a n -> n <= length a.
Proof.
  intros H. destruct n; [lia|]. destruct (H n ltac:(lia)) as [v Hv]. unfold get in Hv.
  destruct (nth_error a n) eqn:E; [|discriminate]. assert (n < length a) by (apply nth_error_Some; congruence). lia.
Qed.
Lemma full_vecd (a : arr F) n : full a n -> vec a n (gd f0 a).
Proof. intros H i Hi. destruct (H i Hi) as [v Hv]. rewrite Hv. unfold gd. rewrite Hv. auto. Qed.
Lemma vec_fulld {T} (a : arr T) n f : vec a n f -> full a n.
Proof. intros H i Hi. rewrite H by auto. eauto. Qed.
Lemma full_0 {T} (a : arr T) : full a 0.
Proof. intros i H; lia. Qed.
Lemma full_wrote {T} (a a' : arr T) n f : wrote 0 n f a a' -> full a' n.
Proof. intros H i Hi. pose proof (wrote_in _ _ _ _ _ i H Hi) as E. cbn in E. eauto. Qed.
Lemma full_set {T} (a a' : arr T) n i v : full a n -> (forall j, get a' j = if Nat.eqb j i then Some v else get a j) -> full a' n.
Proof. intros H G j Hj. rewrite G. destruct (Nat.eqb j i); eauto. Qed.

(* a loop that writes cells 0..n-1 once each, from possibly uninitialised memory *)
Lemma for_full (n : nat) (body : nat -> arr F -> option (arr F)) (a : arr F) (Q : arr F -> Prop) : n <= length a ->
  (forall i a', i < n -> length a' = length a -> full a' i -> (forall j, i <= j -> get a' j = get a j) ->
     exists v, body i a' = set a' i v) ->
  (forall a', length a' = length a -> full a' n -> (forall j, n <= j -> get a' j = get a j) -> Q a') ->
  wp (for_ 0 n body a) Q.
Proof.
  intros HL Hb HQ.
  apply (wp_for (fun k a' => length a' = length a /\ full a' k /\ (forall j, k <= j -> get a' j = get a j))); [lia| | |].
  - split; auto. split; auto. apply full_0.
  - intros i a' Hi (A & B & D). destruct (Hb i a') as [v E]; auto; [lia|]. rewrite E. apply wp_set; [lia|]. intros a2 L2 G2.
    split; [congruence|]. split.
    + intros j Hj. rewrite G2. destruct (Nat.eqb_spec j i); eauto. apply B. lia.
    + intros j Hj. rewrite G2. destruct (Nat.eqb_spec j i); [lia|]. apply D. lia.
  - intros a' (A & B & D). auto.
Qed.

Section SP.
Variable A : spmat F.
Hypothesis W : wf_sp A.

Lemma sparseMV_safe x y a nv (Q : arr F -> Prop) : full x (sp_n A) -> sp_m A <= length y ->
  ((nv <= 0)%Z -> full y (sp_m A)) ->
  (forall y', sparseMV A x y a nv = Some y' -> length y' = length y -> full y' (sp_m A) -> (forall i, sp_m A <= i -> get y' i = get y i) -> Q y') ->
  wp (sparseMV A x y a nv) Q.
Proof.
  intros FX HL FY HQ.
  assert (H : wp (sparseMV A x y a nv) (fun y' => length y' = length y /\ full y' (sp_m A) /\ (forall i, sp_m A <= i -> get y' i = get y i))).
  { unfold sparseMV. wb.
    apply (wp_conseq _ (fun y' => length y' = length y /\ full y' (sp_m A) /\ (forall i, sp_m A <= i -> get y' i = get y i))).
    - destruct (Z.gtb_spec nv 0) as [Hz|Hz].
      + apply for_full; [auto|eauto|]. intros; csplit; auto.
      + apply (wp_intro _ _ _ eq_refl). csplit; auto.
    - intros y1 (L1 & F1 & G1). destruct (Nat.eqb (sp_nnz A) 0); [apply (wp_intro _ _ _ eq_refl); auto|].
      assert (HB : forall (g : F -> F -> F -> F), wp (for_ 0 (sp_n A) (fun j y =>
        col_loop A j (fun i y => r <- get (sp_ir A) i ;; v <- get (sp_pr A) i ;; xj <- get x j ;; yr <- get y r ;; set y r (g yr v xj)) y) y1)
        (fun y' => length y' = length y /\ full y' (sp_m A) /\ (forall i, sp_m A <= i -> get y' i = get y i))).
      { intros g. apply (wp_for (fun _ y' => length y' = length y /\ full y' (sp_m A) /\ (forall i, sp_m A <= i -> get y' i = get y i))); [lia|auto| |auto].
        intros j y2 Hj (L2 & F2 & G2). 
        apply (wp_col_loop A j _ _ (fun _ y' => length y' = length y /\ full y' (sp_m A) /\ (forall i, sp_m A <= i -> get y' i = get y i))); [auto|lia|auto| |auto].
        intros k y3 Hk (L3 & F3 & G3). pose proof (in_col_nnz A j k W Hk). rewrite (wf_ir A W) by auto. cbn [bind].
        destruct (wf_pr A W k) as [v Ev]; auto. rewrite Ev. cbn [bind]. destruct (FX j) as [xj Ej]; [lia|]. rewrite Ej. cbn [bind].
        pose proof (wf_row A W k ltac:(auto)). destruct (F3 (gd 0 (sp_ir A) k)) as [yr Er]; [auto|]. rewrite Er. cbn [bind].
        apply wp_set; [lia|]. intros y4 L4 G4. split; [congruence|]. split; [eapply full_set; eauto|].
        intros i Hi. rewrite G4. destruct (Nat.eqb_spec i (gd 0 (sp_ir A) k)); [lia|]. auto. }
      destruct (a >? 0)%Z; apply HB. }
  apply wp_elim in H. destruct H as (y' & E & H1 & H2 & H3). apply (wp_intro _ _ _ E). auto.
Qed.

Lemma sparseMtVm_safe x y nv sk (Q : arr F -> Prop) : full x (sp_m A) -> sp_n A <= length y ->
  ((nv <= 0)%Z -> full y (sp_n A)) ->
  (forall y', sparseMtVm A x y nv sk = Some y' -> length y' = length y -> full y' (sp_n A) -> (forall i, sp_n A <= i -> get y' i = get y i) -> Q y') ->
  wp (sparseMtVm A x y nv sk) Q.
Proof.
  intros FX HL FY HQ.
  set (I := fun y' : arr F => length y' = length y /\ full y' (sp_n A) /\ (forall i, sp_n A <= i -> get y' i = get y i)).
  assert (H : wp (sparseMtVm A x y nv sk) I).
  { unfold sparseMtVm. wb. apply (wp_conseq _ I).
    - destruct (Z.gtb_spec nv 0) as [Hz|Hz].
      + apply for_full; [auto|eauto|]. intros; unfold I; csplit; auto.
      + apply (wp_intro _ _ _ eq_refl). unfold I. csplit; auto.
    - intros y1 I1. destruct (Nat.eqb (sp_nnz A) 0); [apply (wp_intro _ _ _ eq_refl); auto|].
      assert (HS : forall y2 j v, j < sp_n A -> I y2 -> wp (set y2 j v) I).
      { intros y2 j v Hj (L2 & F2 & G2). apply wp_set; [lia|]. intros y3 L3 G3. split; [congruence|]. split; [eapply full_set; eauto|].
        intros i Hi. rewrite G3. destruct (Nat.eqb_spec i j); [lia|]. auto. }
      destruct sk; (apply (wp_for (fun _ => I)); [lia|auto| |auto]); intros j y2 Hj I2;
        (apply (wp_col_loop A j _ _ (fun _ => I)); [auto|lia|auto| |auto]); intros k y3 Hk I3;
        pose proof (in_col_nnz A j k W Hk); pose proof (wf_row A W k ltac:(auto)).
      + rewrite (wf_ir A W) by auto. cbn [bind]. destruct I3 as (L3 & F3 & G3). destruct (F3 j) as [yj Ej]; [lia|]. rewrite Ej. cbn [bind].
        assert (I3 : I y3) by (unfold I; auto).
        destruct (Nat.eqb _ j); cbn [bind]; [apply HS; auto; lia|].
        destruct (wf_pr A W k) as [v Ev]; auto. rewrite Ev. cbn [bind].
        destruct (FX (gd 0 (sp_ir A) k)) as [xi Exi]; auto. rewrite Exi. cbn [bind]. apply HS; auto; lia.
      + assert (I3' := I3). destruct I3 as (L3 & F3 & G3). destruct (F3 j) as [yj Ej]; [lia|].
        rewrite ?(wf_ir A W) by auto. cbn [bind]. destruct (wf_pr A W k) as [v Ev]; auto.
        destruct (FX (gd 0 (sp_ir A) k)) as [xi Exi]; auto.
        repeat (rewrite ?Ej, ?Ev, ?Exi, ?(wf_ir A W) by auto; cbn [bind]). apply HS; auto; lia. }
  apply wp_elim in H. destruct H as (y' & E & H1 & H2 & H3). apply (wp_intro _ _ _ E). auto.
Qed.
End SP.

Lemma acc_safe {T} (n : nat) (body : nat -> T -> option T) (s : T) : (forall i s, i < n -> exists v, body i s = Some v) ->
  exists v, for_ 0 n body s = Some v.
Proof.
  intros H. assert (W : wp (for_ 0 n body s) (fun _ => True)).
  { apply (wp_for (fun _ _ => True)); auto; [lia|]. intros i s' Hi _. destruct (H i s') as [v E]; [lia|]. apply (wp_intro _ _ _ E). auto. }
  apply wp_elim in W. destruct W as (v & E & _). eauto.
Qed.

Lemma norm2_safe v n : full v n -> exists r, norm2 v n = Some r.
Proof.
  intros H. unfold norm2. destruct (acc_safe n (fun i s => vi <- get v i ;; Some (s + vi * vi)%fl) f0) as [r E].
  - intros i s Hi. destruct (H i Hi) as [x Ex]. rewrite Ex. cbn. eauto.
  - rewrite E. cbn. eauto.
Qed.
Lemma norminf_safe v n : full v n -> exists r, norminf v n = Some r.
Proof.
  intros H. unfold norminf. apply acc_safe. intros i s Hi. destruct (H i Hi) as [x Ex]. rewrite Ex. cbn. eauto.
Qed.
Lemma eddot_safe x y n : full x n -> full y n -> exists r, eddot n x y = Some r.
Proof.
  intros H K. unfold eddot. apply acc_safe. intros i s Hi. destruct (H i Hi) as [u Eu], (K i Hi) as [t Et]. rewrite Eu. cbn. rewrite Et. cbn. eauto.
Qed.
(* componentwise y := g (x,y) *)
Lemma vadd_eq n x y xf yf : vec x n xf -> vec y n yf -> n <= length y ->
  exists y', vadd n x y = Some y' /\ wrote 0 n (fun i => (yf i + xf i)%fl) y y'.
Proof.
  intros X Y HL. unfold vadd.
  match goal with |- exists y', for_ 0 n ?B y = _ /\ _ => destruct (for_modify (fun i v => (v + xf i)%fl) f0 0 0 n B y) as (y' & E & Wr) end; try lia.
  - intros i a' v Hi Ha Hv. cbn in *. rewrite Hv. cbn [bind]. rewrite X by lia. reflexivity.
  - intros i Hi. cbn. rewrite Y by lia. eauto.
  - exists y'. split; auto. rewrite Nat.sub_0_r in Wr. eapply wrote_ext; [exact Wr|]. intros i Hi. cbn. unfold gd. rewrite Y by lia. auto.
Qed.
Lemma vsubscale_eq n al x y xf yf : vec x n xf -> vec y n yf -> n <= length y ->
  exists y', vsubscale n al x y = Some y' /\ wrote 0 n (fun i => (yf i - al * xf i)%fl) y y'.
Proof.
  intros X Y HL. unfold vsubscale.
  match goal with |- exists y', for_ 0 n ?B y = _ /\ _ => destruct (for_modify (fun i v => (v - al * xf i)%fl) f0 0 0 n B y) as (y' & E & Wr) end; try lia.
  - intros i a' v Hi Ha Hv. cbn in *. rewrite Hv. cbn [bind]. rewrite X by lia. reflexivity.
  - intros i Hi. cbn. rewrite Y by lia. eauto.
  - exists y'. split; auto. rewrite Nat.sub_0_r in Wr. eapply wrote_ext; [exact Wr|]. intros i Hi. cbn. unfold gd. rewrite Y by lia. auto.
Qed.
End SafeLib.
