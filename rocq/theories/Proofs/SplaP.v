From Coq Require Import List Arith Bool ZArith Reals Lia Lra.
From Verif Require Import Base Num.
From Verif.Model Require Import Spla.
From Verif.Spec Require Import Matrix.
Open Scope nat_scope.

(* ------------------------------------------------------------- structure *)
Section Struct.
Context {T : Type}.

Lemma jc_mono (M : spmat T) : wf_sp M -> forall a b, a <= b -> b <= sp_n M ->
  gd 0 (sp_jc M) a <= gd 0 (sp_jc M) b.
Proof.
  intros W a b Hab. induction Hab as [|b Hab IH]; intros; auto.
  specialize (wf_mono M W b). rewrite Nat.add_1_r. intros. specialize (IH ltac:(lia)).
  specialize (H0 ltac:(lia)). lia.
Qed.

Lemma jc_le_nnz (M : spmat T) : wf_sp M -> forall a, a <= sp_n M -> gd 0 (sp_jc M) a <= sp_nnz M.
Proof. intros W a H. rewrite <- (wf_nnz M W). apply jc_mono; auto. Qed.

Lemma in_col_nnz (M : spmat T) j k : wf_sp M -> in_col M j k -> k < sp_nnz M.
Proof.
  intros W [H1 H2]. pose proof (jc_le_nnz M W (j + 1) ltac:(lia)). lia.
Qed.

(* every entry belongs to exactly one column *)
Lemma in_col_exists (M : spmat T) k : wf_sp M -> k < sp_nnz M -> exists j, in_col M j k.
Proof.
  intros W Hk.
  assert (G : forall c, c <= sp_n M -> k < gd 0 (sp_jc M) c -> exists j, in_col M j k).
  { induction c as [|c IH]; intros Hc H.
    - rewrite (wf_jc0 M W) in H. lia.
    - destruct (Nat.lt_ge_cases k (gd 0 (sp_jc M) c)) as [Hl|Hl].
      + apply IH; auto; lia.
      + exists c. split; [lia|]. rewrite Nat.add_1_r. lia. }
  apply (G (sp_n M)); auto. rewrite (wf_nnz M W); auto.
Qed.

Lemma in_col_unique (M : spmat T) j j' k : wf_sp M -> in_col M j k -> in_col M j' k -> j = j'.
Proof.
  intros W [A1 A2] [B1 B2].
  destruct (Nat.lt_trichotomy j j') as [H|[H|H]]; auto.
  - pose proof (jc_mono M W (j + 1) j' ltac:(lia) ltac:(lia)). lia.
  - pose proof (jc_mono M W (j' + 1) j ltac:(lia) ltac:(lia)). lia.
Qed.

Lemma wp_col_loop {S : Type} (M : spmat T) j (body : nat -> S -> option S) (s : S)
   (Inv : nat -> S -> Prop) (Q : S -> Prop) :
  wf_sp M -> j < sp_n M ->
  Inv (gd 0 (sp_jc M) j) s ->
  (forall k s, in_col M j k -> Inv k s -> wp (body k s) (Inv (k + 1))) ->
  (forall s, Inv (gd 0 (sp_jc M) (j + 1)) s -> Q s) ->
  wp (col_loop M j body s) Q.
Proof.
  intros W Hj H0 Hs HQ. unfold col_loop.
  wget (wf_jc M W). wget (wf_jc M W).
  apply (wp_for Inv); auto.
  - apply (wf_mono M W); auto.
  - intros k s' Hk HI. eapply wp_conseq; [apply Hs; [split; auto|auto]|].
    intros a; rewrite Nat.add_1_r; auto.
Qed.

End Struct.

(* ----------------------------------------------------- products over R *)
Section Real.
Local Existing Instance ROps.
Open Scope R_scope.

Lemma wf_prR (M : spmat R) : wf_sp M -> forall k, (k < sp_nnz M)%nat -> get (sp_pr M) k = Some (gd 0 (sp_pr M) k).
Proof. intros W k Hk. destruct (wf_pr M W k Hk) as [v Hv]. eapply get_gd; eauto. Qed.

Notation JC M := (gd 0%nat (sp_jc M)).
Notation IR M := (gd 0%nat (sp_ir M)).
Notation PR M := (gd 0 (sp_pr M)).

Lemma dense_mul M i j t :
  dense M i j * t = Rsumr (JC M j) (JC M (j + 1)) (fun k => if Nat.eqb (IR M k) i then PR M k * t else 0).
Proof.
  unfold dense. rewrite <- Rsumr_scal_r. apply Rsumr_ext. intros k _.
  destruct (Nat.eqb (IR M k) i); lra.
Qed.

Lemma mv_loop_spec (sg : R) M (xf : nat -> R) (x y : arr R)
   (upd_ : R -> R -> R -> R) (Q : arr R -> Prop) :
  wf_sp M ->
  (forall yr v t, upd_ yr v t = yr + sg * (v * t)) ->
  vec x (sp_n M) xf ->
  (forall i, (i < sp_m M)%nat -> get y i = Some (gd 0 y i)) ->
  (sp_m M <= length y)%nat ->
  (forall y', length y' = length y ->
     (forall i, (i < sp_m M)%nat -> get y' i = Some (gd 0 y i + sg * mulv (sp_n M) (dense M) xf i)) ->
     (forall i, (sp_m M <= i)%nat -> get y' i = get y i) -> Q y') ->
  wp (for_ 0 (sp_n M) (fun j y =>
        col_loop M j (fun i y =>
          r <- get (sp_ir M) i ;;
          v <- get (sp_pr M) i ;;
          xj <- get x j ;;
          yr <- get y r ;;
          set y r (upd_ yr v xj)) y) y) Q.
Proof.
  intros W U X Y L HQ.
  apply (wp_for (fun j y' => length y' = length y /\
     (forall i, (i < sp_m M)%nat -> get y' i = Some (gd 0 y i + sg * mulv j (dense M) xf i)) /\
     (forall i, (sp_m M <= i)%nat -> get y' i = get y i))).
  - lia.
  - split; auto. split; auto. intros i Hi. rewrite (Y i Hi). f_equal. unfold mulv; simpl. lra.
  - intros j s Hj [L1 [G1 G2]].
    apply (wp_col_loop M j _ s (fun k y' => length y' = length y /\
      (forall i, (i < sp_m M)%nat -> get y' i = Some (gd 0 y i + sg * mulv j (dense M) xf i
          + sg * Rsumr (JC M j) k (fun k => if Nat.eqb (IR M k) i then PR M k * xf j else 0))) /\
      (forall i, (sp_m M <= i)%nat -> get y' i = get y i))); auto; [lia| | | ].
    + split; auto. split; auto. intros i Hi. rewrite (G1 i Hi). f_equal. rewrite Rsumr_nil by lia. lra.
    + intros k s' Hk [L2 [G3 G4]].
      pose proof (in_col_nnz M j k W Hk) as Hn.
      pose proof (wf_row M W k Hn) as Hr.
      wget (wf_ir M W). wget (wf_prR M W). wget X.
      wb. eapply wp_get; [apply (G3 _ Hr)|].
      wset y2 L5 G5; [lia|].
      split; [slen|]. split.
      * intros i Hi. rewrite G5. destruct Hk as [_ Hk]. rewrite Nat.add_1_r.
        rewrite Rsumr_S by lia.
        destruct (Nat.eqb_spec i (IR M k)) as [->|Hne].
        -- rewrite Nat.eqb_refl. f_equal. rewrite U. ring.
        -- rewrite G3 by auto. destruct (Nat.eqb_spec (IR M k) i); [congruence|]. f_equal. ring.
      * intros i Hi. rewrite G5. destruct (Nat.eqb_spec i (IR M k)); [lia|auto].
    + intros s' [L2 [G3 G4]]. split; auto. split; auto.
      intros i Hi. rewrite (G3 i Hi). f_equal. unfold mulv; cbn [Rsum]. rewrite dense_mul. ring.
  - intros s [L1 [G1 G2]]. apply HQ; auto.
Qed.

Lemma dense_nnz0 M i j : wf_sp M -> sp_nnz M = 0%nat -> (j < sp_n M)%nat -> dense M i j = 0.
Proof.
  intros W E Hj. unfold dense. pose proof (jc_le_nnz M W (j + 1) ltac:(lia)).
  apply Rsumr_nil. lia.
Qed.

Lemma mulv_nnz0 M x i : wf_sp M -> sp_nnz M = 0%nat -> mulv (sp_n M) (dense M) x i = 0.
Proof.
  intros W E. unfold mulv. apply Rsum_0. intros. rewrite dense_nnz0; auto; lra.
Qed.

Definition mode_base (newVector : Z) (y : arr R) (i : nat) : R :=
  if (newVector >? 0)%Z then 0 else gd 0 y i.
Definition mode_sign (a : Z) : R := if (a >? 0)%Z then 1 else -1.

Theorem sparseMV_spec M (xf : nat -> R) (x y : arr R) (a nv : Z) :
  wf_sp M ->
  vec x (sp_n M) xf ->
  (sp_m M <= length y)%nat ->
  ((nv <= 0)%Z -> forall i, (i < sp_m M)%nat -> get y i = Some (gd 0 y i)) ->
  exists y', sparseMV M x y a nv = Some y' /\ length y' = length y /\
    vec y' (sp_m M) (fun i => mode_base nv y i + mode_sign a * mulv (sp_n M) (dense M) xf i) /\
    (forall i, (sp_m M <= i)%nat -> get y' i = get y i).
Proof.
  intros W X L Y. apply wp_elim. unfold sparseMV. unR.
  wb.
  eapply wp_conseq with (P := fun y1 => length y1 = length y /\
     (forall i, (i < sp_m M)%nat -> get y1 i = Some (mode_base nv y i)) /\
     (forall i, (sp_m M <= i)%nat -> get y1 i = get y i)).
  { unfold mode_base. rewrite Z.gtb_ltb. destruct (Z.ltb_spec 0 nv) as [H|H].
    - apply wp_clear; auto. intros y' L' G. split; auto. split; intros i Hi; rewrite G; beq; try lia; auto.

    - simpl. split; auto. }
  intros y1 [L1 [G1 G1']].
  assert (D : forall i, (i < sp_m M)%nat -> gd 0 y1 i = mode_base nv y i).
  { intros. apply gd_get. auto. }
  assert (D' : forall i, (i < sp_m M)%nat -> get y1 i = Some (gd 0 y1 i)).
  { intros. rewrite D; auto. }
  destruct (Nat.eqb_spec (sp_nnz M) 0) as [E|E].
  - simpl. split; auto. split; auto. intros i Hi. rewrite G1 by auto. f_equal.
    rewrite mulv_nnz0; auto; lra.
  - unfold mode_sign. destruct (a >? 0)%Z.
    + apply (mv_loop_spec 1 M xf x y1 (fun yr v t => yr + v * t)); auto; try lia.
      * intros; ring.
      * intros y' L' H1 H2. split; [slen|]. split.
        -- intros i Hi. rewrite H1 by auto. rewrite D by auto. auto.
        -- intros; rewrite H2; auto.
    + apply (mv_loop_spec (-1) M xf x y1 (fun yr v t => yr - v * t)); auto; try lia.
      * intros; ring.
      * intros y' L' H1 H2. split; [slen|]. split.
        -- intros i Hi. rewrite H1 by auto. rewrite D by auto. auto.
        -- intros; rewrite H2; auto.
Qed.

(* transposed product; [keep i j] tells which entries count *)
Definition dense_nodiag (M : spmat R) (i j : nat) : R :=
  if Nat.eqb i j then 0 else dense M i j.

Lemma mulvT_entries M xf j (keep : nat -> bool) :
  wf_sp M -> (j < sp_n M)%nat ->
  Rsumr (JC M j) (JC M (j + 1)) (fun k => if keep (IR M k) then PR M k * xf (IR M k) else 0)
  = mulvT (sp_m M) (fun i j => if keep i then dense M i j else 0) xf j.
Proof.
  intros W Hj. unfold mulvT.
  transitivity (Rsum (sp_m M) (fun i => Rsumr (JC M j) (JC M (j + 1))
     (fun k => if Nat.eqb (IR M k) i then (if keep i then PR M k * xf i else 0) else 0))).
  - rewrite <- Rsumr_swap_Rsum. apply Rsumr_ext. intros k Hk.
    assert (Hn : (k < sp_nnz M)%nat) by (eapply in_col_nnz; eauto; split; eauto).
    pose proof (wf_row M W k Hn).
    transitivity (Rsum (sp_m M) (fun i => if Nat.eqb i (IR M k) then (if keep i then PR M k * xf i else 0) else 0)).
    + rewrite (Rsum_delta (sp_m M) (IR M k) (fun i => if keep i then PR M k * xf i else 0)).
      destruct (Nat.ltb_spec (IR M k) (sp_m M)); [auto|lia].
    + apply Rsum_ext. intros i _. rewrite Nat.eqb_sym. auto.
  - apply Rsum_ext. intros i Hi. destruct (keep i).
    + rewrite dense_mul. apply Rsumr_ext. intros; auto.
    + rewrite Rmult_0_l. apply Rsumr_0. intros. destruct (Nat.eqb (IR M i0) i); auto.
Qed.

Theorem sparseMtVm_spec M (xf : nat -> R) (x y : arr R) (nv : Z) (skip : bool) :
  wf_sp M ->
  vec x (sp_m M) xf ->
  (sp_n M <= length y)%nat ->
  ((nv <= 0)%Z -> forall j, (j < sp_n M)%nat -> get y j = Some (gd 0 y j)) ->
  exists y', sparseMtVm M x y nv skip = Some y' /\ length y' = length y /\
    vec y' (sp_n M) (fun j => mode_base nv y j
        - mulvT (sp_m M) (if skip then dense_nodiag M else dense M) xf j) /\
    (forall j, (sp_n M <= j)%nat -> get y' j = get y j).
Proof.
  intros W X L Y. apply wp_elim. unfold sparseMtVm. unR.
  wb.
  eapply wp_conseq with (P := fun y1 => length y1 = length y /\
     (forall i, (i < sp_n M)%nat -> get y1 i = Some (mode_base nv y i)) /\
     (forall i, (sp_n M <= i)%nat -> get y1 i = get y i)).
  { unfold mode_base. rewrite Z.gtb_ltb. destruct (Z.ltb_spec 0 nv) as [H|H].
    - apply wp_clear; auto. intros y' L' G. split; auto. split; intros i Hi; rewrite G; beq; try lia; auto.

    - simpl. split; auto. }
  intros y1 [L1 [G1 G1']].
  destruct (Nat.eqb_spec (sp_nnz M) 0) as [E|E].
  - simpl. split; auto. split; auto. intros i Hi. rewrite G1 by auto. f_equal.
    unfold mulvT. rewrite Rsum_0; [lra|]. intros r Hr.
    destruct skip; unfold dense_nodiag; rewrite ?dense_nnz0 by auto; [destruct (Nat.eqb r i)|]; lra.
  - set (keep := fun j i => if skip then negb (Nat.eqb i j) else true).
    assert (Main : forall (Q : arr R -> Prop) body,
      (forall j k s, in_col M j k -> (forall i, (i < sp_n M)%nat -> exists v, get s i = Some v) ->
          (sp_n M <= length s)%nat ->
          body j k s = set s j (gd 0 s j - (if keep j (IR M k) then PR M k * xf (IR M k) else 0))) ->
      (forall y', length y' = length y1 ->
         (forall j, (j < sp_n M)%nat -> get y' j = Some (mode_base nv y j -
             Rsumr (JC M j) (JC M (j + 1)) (fun k => if keep j (IR M k) then PR M k * xf (IR M k) else 0))) ->
         (forall j, (sp_n M <= j)%nat -> get y' j = get y1 j) -> Q y') ->
      wp (for_ 0 (sp_n M) (fun j y => col_loop M j (body j) y) y1) Q).
    { intros Q body HB HQ.
      apply (wp_for (fun j y' => length y' = length y1 /\
         (forall i, (i < sp_n M)%nat -> get y' i = Some (mode_base nv y i -
             if Nat.ltb i j then Rsumr (JC M i) (JC M (i + 1)) (fun k => if keep i (IR M k) then PR M k * xf (IR M k) else 0) else 0)) /\
         (forall j, (sp_n M <= j)%nat -> get y' j = get y1 j))).
      - lia.
      - split; auto. split; auto. intros i Hi. rewrite G1 by auto. f_equal. simpl. lra.
      - intros j s Hj [L2 [G2 G3]].
        apply (wp_col_loop M j _ s (fun kk y' => length y' = length y1 /\
         (forall i, (i < sp_n M)%nat -> get y' i = Some (mode_base nv y i -
             if Nat.ltb i j then Rsumr (JC M i) (JC M (i + 1)) (fun k => if keep i (IR M k) then PR M k * xf (IR M k) else 0)
             else if Nat.eqb i j then Rsumr (JC M j) kk (fun k => if keep j (IR M k) then PR M k * xf (IR M k) else 0)
             else 0)) /\
         (forall j, (sp_n M <= j)%nat -> get y' j = get y1 j))); auto; [lia| | |].
        + split; auto. split; auto. intros i Hi. rewrite G2 by auto. f_equal.
          beq; try lia; subst; rewrite ?Rsumr_nil by lia; lra.
        + intros k s' Hk [L3 [G4 G5]].
          rewrite HB; auto; try lia; [|intros i Hi; eexists; apply G4; auto].
          wset y2 L6 G6; [lia|]. split; [slen|]. split.
          * intros i Hi. rewrite G6. destruct (Nat.eqb_spec i j) as [->|Hne].
            -- destruct (Nat.ltb_spec j j); [lia|]. f_equal.
               assert (EE : gd 0 s' j = mode_base nv y j - Rsumr (JC M j) k (fun k0 => if keep j (IR M k0) then PR M k0 * xf (IR M k0) else 0)).
               { apply gd_get. rewrite G4 by auto. beq; try lia; auto. }
               rewrite EE. destruct Hk as [_ Hk]. rewrite Nat.add_1_r, Rsumr_S by lia. ring.
            -- rewrite G4 by auto. f_equal. destruct (Nat.eqb_spec i j); [lia|]. auto.
          * intros i Hi. rewrite G6. destruct (Nat.eqb_spec i j); [lia|auto].
        + intros s' [L3 [G4 G5]]. split; auto. split; auto.
          intros i Hi. rewrite G4 by auto. f_equal. beq; try lia; subst; auto.
      - intros s [L2 [G2 G3]]. apply HQ; auto. intros j Hj. rewrite G2 by auto. f_equal. beq; [auto|lia]. }
    assert (Fin : forall y', length y' = length y1 ->
         (forall j, (j < sp_n M)%nat -> get y' j = Some (mode_base nv y j -
             Rsumr (JC M j) (JC M (j + 1)) (fun k => if keep j (IR M k) then PR M k * xf (IR M k) else 0))) ->
         (forall j, (sp_n M <= j)%nat -> get y' j = get y1 j) ->
         length y' = length y /\
         vec y' (sp_n M) (fun j => mode_base nv y j
            - mulvT (sp_m M) (if skip then dense_nodiag M else dense M) xf j) /\
         (forall j, (sp_n M <= j)%nat -> get y' j = get y j)).
    { intros y' H1 H2 H3. split; [slen|]. split.
      - intros j Hj. rewrite H2 by auto. f_equal. f_equal.
        rewrite (mulvT_entries M xf j (keep j)) by auto.
        unfold mulvT. apply Rsum_ext. intros i Hi. unfold keep, dense_nodiag.
        destruct skip; auto. destruct (Nat.eqb i j); simpl; auto.
      - intros j Hj. rewrite H3; auto. }
    destruct skip.
    + apply Main; [|apply Fin].
      intros j k s Hk Hs Hl. unR.
      pose proof (in_col_nnz M j k W Hk) as Hn.
      rewrite (wf_ir M W k Hn). cbn [bind].
      destruct (Hs j) as [v Hv]; [destruct Hk; auto|]. rewrite Hv. cbn [bind].
      rewrite (gd_get _ _ _ _ Hv). unfold keep.
      destruct (Nat.eqb (IR M k) j); cbn [bind negb].
      * unR. auto.
      * rewrite (wf_prR M W k Hn). cbn [bind]. rewrite (X _ (wf_row M W k Hn)). cbn [bind]. auto.
    + apply Main; [|apply Fin].
      intros j k s Hk Hs Hl. unR.
      pose proof (in_col_nnz M j k W Hk) as Hn.
      rewrite (wf_prR M W k Hn), (wf_ir M W k Hn). cbn [bind].
      rewrite (X _ (wf_row M W k Hn)). cbn [bind].
      destruct (Hs j) as [v Hv]; [destruct Hk; auto|]. rewrite Hv. cbn [bind].
      rewrite (gd_get _ _ _ _ Hv). unfold keep. auto.
Qed.

Lemma for_acc_spec (n : nat) (f : nat -> R) (body : nat -> R -> option R) :
  (forall i s, (i < n)%nat -> body i s = Some (s + f i)) ->
  for_ 0 n body 0 = Some (Rsum n f).
Proof.
  intros H.
  assert (W : wp (for_ 0 n body 0) (fun s => s = Rsum n f)).
  { apply (wp_for (fun i s => s = Rsum i f)); auto; try lia.
    - intros i s Hi ->. rewrite H by lia. simpl. auto. }
  apply wp_elim in W. destruct W as [s [-> ->]]. auto.
Qed.

Theorem eddot_spec n (xf yf : nat -> R) (x y : arr R) :
  vec x n xf -> vec y n yf -> eddot n x y = Some (dotp n xf yf).
Proof.
  intros X Y. unfold eddot. unR. apply for_acc_spec.
  intros i s Hi. rewrite (X i Hi). cbn [bind]. rewrite (Y i Hi). auto.
Qed.

Theorem norm2_spec n (vf : nat -> R) (v : arr R) :
  vec v n vf -> norm2 v n = Some (nrm n vf).
Proof.
  intros X. unfold norm2. unR.
  rewrite (for_acc_spec n (fun i => vf i * vf i)); auto.
  intros i s Hi. rewrite (X i Hi). auto.
Qed.

Theorem vadd_spec n (xf yf : nat -> R) (x y : arr R) :
  vec x n xf -> vec y n yf ->
  exists y', vadd n x y = Some y' /\ length y' = length y /\
    vec y' n (fun i => yf i + xf i) /\ (forall i, (n <= i)%nat -> get y' i = get y i).
Proof.
  intros X Y. apply wp_elim. unfold vadd. unR.
  apply (wp_for (fun k y' => length y' = length y /\
     (forall i, (i < n)%nat -> get y' i = Some (if Nat.ltb i k then yf i + xf i else yf i)) /\
     (forall i, (n <= i)%nat -> get y' i = get y i))).
  - lia.
  - split; auto.
  - intros i s Hi [L [G1 G2]]. wb. eapply wp_get; [apply G1; lia|]. cbv beta. wget X.
    wset y2 L2 G3.
    { pose proof (get_lt _ _ _ (G1 i ltac:(lia))); auto. }
    split; [slen|]. split.
    + intros r Hr. rewrite G3, G1 by auto. beq; subst; try lia; auto.
    + intros r Hr. rewrite G3. beq; try lia; auto.
  - intros s [L [G1 G2]]. split; auto. split; auto.
    intros i Hi. rewrite G1 by auto. beq; auto; lia.
Qed.

Theorem vsubscale_spec n a (xf yf : nat -> R) (x y : arr R) :
  vec x n xf -> vec y n yf ->
  exists y', vsubscale n a x y = Some y' /\ length y' = length y /\
    vec y' n (fun i => yf i - a * xf i) /\ (forall i, (n <= i)%nat -> get y' i = get y i).
Proof.
  intros X Y. apply wp_elim. unfold vsubscale. unR.
  apply (wp_for (fun k y' => length y' = length y /\
     (forall i, (i < n)%nat -> get y' i = Some (if Nat.ltb i k then yf i - a * xf i else yf i)) /\
     (forall i, (n <= i)%nat -> get y' i = get y i))).
  - lia.
  - split; auto.
  - intros i s Hi [L [G1 G2]]. wb. eapply wp_get; [apply G1; lia|]. cbv beta. wget X.
    wset y2 L2 G3.
    { pose proof (get_lt _ _ _ (G1 i ltac:(lia))); auto. }
    split; [slen|]. split.
    + intros r Hr. rewrite G3, G1 by auto. beq; subst; try lia; auto.
    + intros r Hr. rewrite G3. beq; try lia; auto.
  - intros s [L [G1 G2]]. split; auto. split; auto.
    intros i Hi. rewrite G1 by auto. beq; auto; lia.
Qed.

(* norminf: the largest absolute value (0 for the empty vector) *)
Theorem norminf_spec n (vf : nat -> R) (v : arr R) :
  vec v n vf ->
  exists r, norminf v n = Some r /\ 0 <= r /\ (forall i, (i < n)%nat -> Rabs (vf i) <= r) /\
    (r = 0 \/ exists i, (i < n)%nat /\ r = Rabs (vf i)).
Proof.
  intros X. apply wp_elim. unfold norminf. unR.
  apply (wp_for (fun k r => 0 <= r /\ (forall i, (i < k)%nat -> Rabs (vf i) <= r) /\
    (r = 0 \/ exists i, (i < k)%nat /\ r = Rabs (vf i)))).
  - lia.
  - unR. split; [lra|]. split; [intros; lia|auto].
  - intros i r Hi [H0 [H1 H2]]. wget X. unR. simpl.
    pose proof (Rabs_pos (vf i)) as HA.
    set (r1 := if Rltb r (vf i) then vf i else r).
    set (r2 := if Rltb r1 (- vf i) then - vf i else r1).
    assert (E : (r2 = r /\ Rabs (vf i) <= r) \/ (r2 = Rabs (vf i) /\ r <= r2)).
    { unfold r2, r1. destruct (Rltb_spec r (vf i)) as [A|A];
        destruct (Rltb_spec (if Rltb r (vf i) then vf i else r) (- vf i)) as [B|B];
        destruct (Rltb_spec r (vf i)) as [A'|A']; try contradiction;
        unfold Rabs in *; destruct (Rcase_abs (vf i)); try lra; auto;
        try (destruct (Rltb_spec (vf i) (- vf i)); lra);
        try (destruct (Rltb_spec r (- vf i)); lra). }
    destruct E as [[E1 E2]|[E1 E2]].
    + rewrite E1. split; auto. split.
      * intros j Hj. destruct (Nat.eq_dec j i) as [->|]; auto. apply H1; lia.
      * destruct H2 as [H2|[j [Hj H2]]]; auto. right; exists j; split; auto; lia.
    + split; [lra|]. split.
      * intros j Hj. destruct (Nat.eq_dec j i) as [->|]; [lra|]. specialize (H1 j ltac:(lia)). lra.
      * right; exists i; split; auto; lia.
  - auto.
Qed.

End Real.
