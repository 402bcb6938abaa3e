(* The scaling stored by updateScalings as a linear operator, exact arithmetic. *)
From Coq Require Import List Arith Bool ZArith Reals QArith Qreals Lia Lra.
From Verif Require Import Base Num.
From Verif.Spec Require Import Matrix Conic Jordan.
From Verif.Model Require Import Spla Types Consts Expcone Cone Preproc.
From Verif.Proofs Require Import LoopLib ConeP ScalP Scal2P RotP ConeR.
Import ListNotations.
Open Scope R_scope.

(* a function given block by block *)
Section Piece.
Context {A : Type} (sz : A -> nat) (f : nat -> A -> nat -> R).
Fixpoint piece (k : nat) (l : list A) (i : nat) : R :=
  match l with
  | [] => 0
  | c :: t => if Nat.ltb i (k + sz c) then f k c (i - k)%nat else piece (k + sz c) t i
  end.
Lemma piece_in l : forall k0 k c i, In (k, c) (lay sz k0 l) -> (i < sz c)%nat -> piece k0 l (k + i)%nat = f k c i.
Proof.
  induction l as [|x t IH]; intros k0 k c i H Hi; [destruct H|]. cbn [lay piece] in *. destruct H as [E|H].
  - injection E as <- <-. destruct (Nat.ltb_spec (k0 + i) (k0 + sz x)); [|lia]. f_equal. lia.
  - pose proof (lay_bounds _ _ _ _ _ H). destruct (Nat.ltb_spec (k + i) (k0 + sz x)); [lia|]. apply IH; auto.
Qed.
End Piece.
Lemma piece_lin {A} (sz : A -> nat) f g h c : (forall k b i, h k b i = c * f k b i + g k b i) -> forall l k i,
  piece sz h k l i = c * piece sz f k l i + piece sz g k l i.
Proof.
  intros H. induction l as [|x t IH]; intros k i; cbn [piece]; [ring|]. destruct (Nat.ltb i (k + sz x)); auto.
Qed.

Lemma blocks_sum {A} (sz : A -> nat) f g : forall l k0,
  (forall k c, In (k, c) (lay sz k0 l) -> Rsum (sz c) (fun i => f (k + i)%nat) = Rsum (sz c) (fun i => g (k + i)%nat)) ->
  Rsum (tot sz l) (fun i => f (k0 + i)%nat) = Rsum (tot sz l) (fun i => g (k0 + i)%nat).
Proof.
  induction l as [|x t IH]; intros k0 H; cbn [tot]; auto. rewrite !Rsum_split. f_equal.
  - apply H. left; auto.
  - rewrite (Rsum_ext _ _ (fun i => f (k0 + sz x + i)%nat)) by (intros; f_equal; lia).
    rewrite (Rsum_ext (tot sz t) (fun k => g (k0 + (sz x + k))%nat) (fun i => g (k0 + sz x + i)%nat)) by (intros; f_equal; lia).
    apply IH. intros. apply H. right; auto.
Qed.

Lemma layout_blocks (C : cone R) k p : In (k, p) (layout (@lpp ROps C) (map so_p (co_soc C))) <->
  exists c, In (k, c) (@blocks ROps C) /\ so_p c = p.
Proof.
  change (@blocks ROps C) with (lay (@so_p R) (@lpp ROps C) (@co_soc R C)).
  generalize (@lpp ROps C) as k0. induction (@co_soc R C) as [|c t IH]; intros k0; cbn [map layout lay].
  - split; [intros []|intros (c & H & _); destruct H].
  - split.
    + intros [E|H].
      * injection E as <- <-. exists c. split; [left|]; auto.
      * apply IH in H as (c' & H & E). exists c'. split; [right|]; auto.
    + intros (c' & [E|H] & E').
      * inversion E; subst. left. reflexivity.
      * right. apply IH. exists c'. auto.
Qed.

(* every block carries a genuine rotation *)
Record good_soc (c : socone R) : Prop := {
  gs_p : (1 <= so_p c)%nat;
  gs_a : 0 < @osc ROps (so_a c);
  gs_eta : EPSR <= @osc ROps (so_eta c);
  gs_hyp : @osc ROps (so_a c) * @osc ROps (so_a c) - dotp (so_p c - 1) (qv c) (qv c) = 1
}.
Record good (C : cone R) : Prop := {
  gd_W : @scaledW ROps C;
  gd_lp : forall i, (i < @lpp ROps C)%nat -> EPSR <= gd 0 (lp_w (co_lpc C)) i;
  gd_soc : forall c, In c (co_soc C) -> good_soc c
}.

Definition Wop (C : cone R) (x : nat -> R) (i : nat) : R :=
  if Nat.ltb i (@lpp ROps C) then gd 0 (lp_w (co_lpc C)) i * x i
  else piece so_p (fun k c i => oscR (so_eta c) * rot (so_p c) (oscR (so_a c)) (qv c) (from k x) i) (@lpp ROps C) (co_soc C) i.
Definition Wiop (C : cone R) (x : nat -> R) (i : nat) : R :=
  if Nat.ltb i (@lpp ROps C) then x i / gd 0 (lp_w (co_lpc C)) i
  else piece so_p (fun k c i => rot (so_p c) (oscR (so_a c)) (fun j => - qv c j) (from k x) i / oscR (so_eta c)) (@lpp ROps C) (co_soc C) i.

Section Op.
Variable C : cone R.
Hypothesis G : good C.

Lemma Wop_lp x i : (i < @lpp ROps C)%nat -> Wop C x i = gd 0 (lp_w (co_lpc C)) i * x i.
Proof. intros H. unfold Wop. destruct (Nat.ltb_spec i (@lpp ROps C)); [auto|lia]. Qed.
Lemma Wiop_lp x i : (i < @lpp ROps C)%nat -> Wiop C x i = x i / gd 0 (lp_w (co_lpc C)) i.
Proof. intros H. unfold Wiop. destruct (Nat.ltb_spec i (@lpp ROps C)); [auto|lia]. Qed.
Lemma Wop_soc x k c i : In (k, c) (@blocks ROps C) -> (i < so_p c)%nat ->
  Wop C x (k + i)%nat = oscR (so_eta c) * rot (so_p c) (oscR (so_a c)) (qv c) (from k x) i.
Proof.
  intros H Hi. pose proof (@blocks_in ROps C k c H) as (B & _). unfold Wop.
  destruct (Nat.ltb_spec (k + i) (@lpp ROps C)); [lia|].
  apply (piece_in so_p (fun k c i => oscR (so_eta c) * rot (so_p c) (oscR (so_a c)) (qv c) (from k x) i)); auto.
Qed.
Lemma Wiop_soc x k c i : In (k, c) (@blocks ROps C) -> (i < so_p c)%nat ->
  Wiop C x (k + i)%nat = rot (so_p c) (oscR (so_a c)) (fun j => - qv c j) (from k x) i / oscR (so_eta c).
Proof.
  intros H Hi. pose proof (@blocks_in ROps C k c H) as (B & _). unfold Wiop.
  destruct (Nat.ltb_spec (k + i) (@lpp ROps C)); [lia|].
  apply (piece_in so_p (fun k c i => rot (so_p c) (oscR (so_a c)) (fun j => - qv c j) (from k x) i / oscR (so_eta c))); auto.
Qed.

(* equality of vectors block by block *)
Lemma by_blocks (P : nat -> Prop) : (forall i, (i < @lpp ROps C)%nat -> P i) ->
  (forall k c i, In (k, c) (@blocks ROps C) -> (i < so_p c)%nat -> P (k + i)%nat) ->
  forall i, (i < @hsize ROps C)%nat -> P i.
Proof.
  intros H1 H2 i Hi. rewrite hsize_tot in Hi.
  destruct (Nat.lt_ge_cases i (@lpp ROps C)); auto.
  destruct (lay_cover so_p (@lpp ROps C) (co_soc C) i) as (k & c & Hin & Hb); [split; [lia|exact Hi]|]. unR.
  replace i with (k + (i - k))%nat by lia. apply (H2 k c); auto. lia.
Qed.

Lemma blk k c : In (k, c) (@blocks ROps C) -> good_soc c.
Proof. intros H. apply (gd_soc C G). apply (@blocks_in ROps C k c H). Qed.

Lemma Wop_scaling : scaling (@hsize ROps C) (@lpp ROps C) (map so_p (co_soc C)) (Wop C) (Wiop C).
Proof.
  pose proof EPS_pos as EP. constructor.
  - intros c x y i. unfold Wop. destruct (Nat.ltb i (@lpp ROps C)); [ring|].
    apply piece_lin. intros k b j.
    rewrite (Rmult_comm c), Rmult_assoc, <- Rmult_plus_distr_l. f_equal.
    rewrite (Rmult_comm (rot _ _ _ _ _) c), <- rot_lin, <- rot_add. reflexivity.
  - intros x y. rewrite !hsize_tot. rewrite !dotp_split. f_equal.
    + apply Rsum_ext. intros i Hi. rewrite !Wop_lp by auto. ring.
    + unfold dotp, from.
      apply (blocks_sum so_p (fun i => y i * Wop C x i) (fun i => Wop C y i * x i)).
      intros k c Hin. destruct (blk k c Hin) as [P A E H].
      rewrite (Rsum_ext _ _ (fun i => oscR (so_eta c) * (from k y i * rot (so_p c) (oscR (so_a c)) (qv c) (from k x) i))).
      2:{ intros i Hi. rewrite (Wop_soc x k c) by auto. unfold from. ring. }
      rewrite (Rsum_ext (so_p c) (fun i => Wop C y (k + i)%nat * x (k + i)%nat)
        (fun i => oscR (so_eta c) * (rot (so_p c) (oscR (so_a c)) (qv c) (from k y) i * from k x i))).
      2:{ intros i Hi. rewrite (Wop_soc y k c) by auto. unfold from. ring. }
      rewrite !Rsum_scal. f_equal. apply rot_dotp; auto.
  - intros x. apply by_blocks.
    + intros i Hi. rewrite Wiop_lp, Wop_lp by auto. pose proof (gd_lp C G i Hi). field. unR. lra.
    + intros k c i Hin Hi. destruct (blk k c Hin) as [P A E H]. rewrite (Wiop_soc _ k c) by auto.
      rewrite (rot_ext _ _ _ _ (fun j => oscR (so_eta c) * rot (so_p c) (oscR (so_a c)) (qv c) (from k x) j)); auto.
      2:{ intros j Hj. unfold from at 1. apply Wop_soc; auto. }
      rewrite rot_lin, rot_inv by auto. unfold from. field. unR. lra.
  - intros x. apply by_blocks.
    + intros i Hi. rewrite Wop_lp, Wiop_lp by auto. pose proof (gd_lp C G i Hi). field. unR. lra.
    + intros k c i Hin Hi. destruct (blk k c Hin) as [P A E H]. rewrite (Wop_soc _ k c) by auto.
      rewrite (rot_ext _ _ _ _ (fun j => / oscR (so_eta c) * rot (so_p c) (oscR (so_a c)) (fun j => - qv c j) (from k x) j)); auto.
      2:{ intros j Hj. unfold from at 1. rewrite (Wiop_soc _ k c) by auto. unfold Rdiv. ring. }
      rewrite rot_lin, rot_inv' by auto. unfold from. field. unR. lra.
  - intros x [HL HS]. constructor.
    + intros i Hi. rewrite Wop_lp by auto. apply Rmult_lt_0_compat; auto. pose proof (gd_lp C G i Hi). lra.
    + intros k p Hin. apply layout_blocks in Hin as Hin'. destruct Hin' as (c & Hc & <-).
      destruct (blk k c Hc) as [P A E H].
      eapply (int_soc_ext _ (fun i => oscR (so_eta c) * rot (so_p c) (oscR (so_a c)) (qv c) (from k x) i)); auto.
      { intros i Hi. unfold from at 2. symmetry. apply Wop_soc; auto. }
      eapply (int_soc_ext _ (rot (so_p c) (oscR (so_a c)) (qv c) (fun i => oscR (so_eta c) * from k x i))); auto.
      { intros i Hi. apply rot_lin. }
      apply rot_int; auto. apply int_soc_det. specialize (HS _ _ Hin). apply int_soc_det in HS as [H0 H1].
      split; [apply Rmult_lt_0_compat; (unR; lra)|].
      replace (det (so_p c) (fun i => oscR (so_eta c) * from k x i)) with (oscR (so_eta c) * oscR (so_eta c) * det (so_p c) (from k x)).
      * apply Rmult_lt_0_compat; auto. apply Rmult_lt_0_compat; (unR; lra).
      * unfold det. rewrite Rmult_minus_distr_l, <- Rsum_scal. f_equal; [ring|]. apply Rsum_ext. intros; ring.
  - intros x [HL HS]. constructor.
    + intros i Hi. rewrite Wiop_lp by auto. apply Rdiv_lt_0_compat; auto. pose proof (gd_lp C G i Hi). (unR; lra).
    + intros k p Hin. apply layout_blocks in Hin as Hin'. destruct Hin' as (c & Hc & <-).
      destruct (blk k c Hc) as [P A E H].
      eapply (int_soc_ext _ (fun i => / oscR (so_eta c) * rot (so_p c) (oscR (so_a c)) (fun j => - qv c j) (from k x) i)); auto.
      { intros i Hi. unfold from at 2. rewrite (Wiop_soc _ k c) by auto. unfold Rdiv. ring. }
      eapply (int_soc_ext _ (rot (so_p c) (oscR (so_a c)) (fun j => - qv c j) (fun i => / oscR (so_eta c) * from k x i))); auto.
      { intros i Hi. apply rot_lin. }
      apply rot_int; auto; [apply rot_opp_hyp; auto|]. apply int_soc_det. specialize (HS _ _ Hin). apply int_soc_det in HS as [H0 H1].
      assert (IP: 0 < / oscR (so_eta c)) by (apply Rinv_0_lt_compat; (unR; lra)).
      split; [apply Rmult_lt_0_compat; (unR; lra)|].
      replace (det (so_p c) (fun i => / oscR (so_eta c) * from k x i)) with (/ oscR (so_eta c) * / oscR (so_eta c) * det (so_p c) (from k x)).
      * apply Rmult_lt_0_compat; auto. apply Rmult_lt_0_compat; (unR; lra).
      * unfold det. rewrite Rmult_minus_distr_l, <- Rsum_scal. f_equal; [ring|]. apply Rsum_ext. intros; ring.
Qed.

(* the programs compute the operators *)
Lemma scale_op x xf buf : vec x (@hsize ROps C) xf -> (@hsize ROps C <= length buf)%nat ->
  exists r, @scale ROps x C buf = Some r /\ length r = length buf /\ vec r (@hsize ROps C) (Wop C xf) /\
    forall j, (@hsize ROps C <= j)%nat -> get r j = get buf j.
Proof.
  intros Hx Hl. destruct (@scale_eq ROps C x xf buf) as (r & E & (L & A & B & D)); auto.
  - intros c Hc. apply (gs_p c). apply (gd_soc C G c Hc).
  - apply (gd_W C G).
  - exists r. split; [auto|]. split; [auto|]. split; [|auto]. intros i. revert i. apply by_blocks.
    + intros i Hi. rewrite A by auto. rewrite Wop_lp by auto. rewrite f0_R. reflexivity.
    + intros k c i Hin Hi. rewrite (B k c i Hin Hi). rewrite (Wop_soc _ k c) by auto. f_equal.
      destruct (blk k c Hin). rewrite (scale_R c) by auto. reflexivity.
Qed.
Lemma unscale_op x xf buf : vec x (@hsize ROps C) xf -> (@hsize ROps C <= length buf)%nat ->
  exists r, @unscale ROps x C buf = Some r /\ length r = length buf /\ vec r (@hsize ROps C) (Wiop C xf) /\
    forall j, (@hsize ROps C <= j)%nat -> get r j = get buf j.
Proof.
  intros Hx Hl. destruct (@unscale_eq ROps C x xf buf) as (r & E & (L & A & B & D)); auto.
  - intros c Hc. apply (gs_p c). apply (gd_soc C G c Hc).
  - apply (gd_W C G).
  - exists r. split; [auto|]. split; [auto|]. split; [|auto]. intros i. revert i. apply by_blocks.
    + intros i Hi. rewrite A by auto. rewrite Wiop_lp by auto. rewrite f0_R. rewrite safediv_R; [reflexivity|]. apply (gd_lp C G i Hi).
    + intros k c i Hin Hi. rewrite (B k c i Hin Hi). rewrite (Wiop_soc _ k c) by auto. f_equal.
      destruct (blk k c Hin). rewrite (unscale_R c) by auto. reflexivity.
Qed.
End Op.

(* ------------------------------------- what updateScalings leaves is good *)
Lemma upd_block (c : socone R) s z : (1 <= so_p c)%nat -> @soc_upd ROps s z c ->
  int_soc (so_p c) s -> int_soc (so_p c) z -> EPSR * EPSR <= det (so_p c) s -> EPSR * EPSR <= det (so_p c) z ->
  EPSR * EPSR * (EPSR * EPSR) * det (so_p c) z <= det (so_p c) s ->
  good_soc c /\ (forall i, (i < so_p c)%nat ->
    oscR (so_eta c) * rot (so_p c) (oscR (so_a c)) (qv c) z i =
    rot (so_p c) (oscR (so_a c)) (fun j => - qv c j) s i / oscR (so_eta c)).
Proof.
  intros P U Is Iz Ms Mz Mr. destruct U. unR.
  rewrite su_a, su_eta. cbn [osc].
  assert (Q: forall j, (j < so_p c - 1)%nat -> qv c j = @nt_q ROps (so_p c) s z j).
  { intros j Hj. unfold gd. rewrite su_q by auto. auto. }
  split.
  - constructor; auto; rewrite ?su_a, ?su_eta; cbn [osc].
    + apply blk_pos; auto.
    + pose proof EPS_pos as EP. pose proof (eta_pos _ _ _ P Ms Mz) as EP2. pose proof (eta_sq _ _ _ P Ms Mz) as E2.
      apply Rsqr_incr_0; [|(unR; lra)|(unR; lra)]. unfold Rsqr. rewrite E2.
      pose proof (pz _ _ Mz) as P2.
      apply Rmult_le_reg_r with (sqrt (det (so_p c) z)); auto.
      replace (sqrt (det (so_p c) s) / sqrt (det (so_p c) z) * sqrt (det (so_p c) z)) with (sqrt (det (so_p c) s)) by (field; lra).
      rewrite <- (sqrt_square (EPSR * EPSR)) by nra. rewrite <- sqrt_mult by nra. apply sqrt_le_1_alt. auto.
    + rewrite (dotp_ext _ (qv c) (@nt_q ROps (so_p c) s z) (qv c) (@nt_q ROps (so_p c) s z)) by auto.
      apply blk_hyp; auto.
  - intros i Hi. rewrite (rot_extq _ _ (qv c) (@nt_q ROps (so_p c) s z)) by auto.
    rewrite (rot_extq _ _ (fun j => - qv c j) (fun j => - @nt_q ROps (so_p c) s z j)) by (auto; intros; rewrite Q; auto).
    apply blk_meet; auto.
Qed.

Lemma socs_out_false (l : list (socone R)) s z : forall k,
  (forall k' c, In (k', c) (lay so_p k l) -> (1 <= so_p c)%nat /\
     int_soc (so_p c) (from k' s) /\ int_soc (so_p c) (from k' z) /\
     EPSR * EPSR <= det (so_p c) (from k' s) /\ EPSR * EPSR <= det (so_p c) (from k' z)) ->
  @socs_out ROps l s z k = false.
Proof.
  induction l as [|c t IH]; intros k H; cbn [socs_out]; auto.
  destruct (H k c) as (P & A & B & D & E); [left; auto|].
  apply orb_false_iff. split; [exact (blk_ok (so_p c) (from k s) (from k z) P A B D E)|]. apply IH. intros. apply H. right; auto.
Qed.

Lemma updateScalings_good C l q e s z lambda mu sf zf : @cone_of ROps C l q e ->
  margin EPSR l q sf zf -> vec s (@msize ROps C) sf -> vec z (@msize ROps C) zf -> (@hsize ROps C <= length lambda)%nat ->
  exists C' lambda', @updateScalings ROps C s z lambda mu = Some (false, C', lambda') /\ good C' /\ @csim ROps C C' /\
    @updated ROps sf zf mu C' /\ length lambda' = length lambda /\
    vec lambda' (@hsize ROps C) (Wop C' zf) /\
    (forall i, (i < @hsize ROps C)%nat -> Wop C' zf i = Wiop C' sf i) /\
    (forall j, (@hsize ROps C <= j)%nat -> get lambda' j = get lambda j).
Proof.
  intros [SH EL EQ EE] [Is Iz ML MS] Hs Hz Hl. subst l q.
  destruct (@updateScalings_eq ROps C s z sf zf lambda mu SH Hs Hz Hl) as (C' & lambda' & E & CS & LL & _ & K).
  assert (BI: forall k c, In (k, c) (@blocks ROps C) -> (1 <= so_p c)%nat /\
     int_soc (so_p c) (from k sf) /\ int_soc (so_p c) (from k zf) /\
     EPSR * EPSR <= det (so_p c) (from k sf) /\ EPSR * EPSR <= det (so_p c) (from k zf) /\
     EPSR * EPSR * (EPSR * EPSR) * det (so_p c) (from k zf) <= det (so_p c) (from k sf)).
  { intros k c Hin. assert (Hl' : In (k, so_p c) (layout (@lpp ROps C) (map so_p (co_soc C)))).
    { apply layout_blocks. exists c. auto. }
    split; [apply (@sh_pos ROps C SH); apply (@blocks_in ROps C k c Hin)|].
    split; [apply (int_socs _ _ _ Is); auto|]. split; [apply (int_socs _ _ _ Iz); auto|]. apply MS; auto. }
  assert (OF: @socs_out ROps (co_soc C) sf zf (@lpp ROps C) = false).
  { apply socs_out_false. intros k c Hin. destruct (BI k c Hin) as (?&?&?&?&?&?). auto. }
  rewrite OF in *. destruct (K eq_refl) as [UP FI].
  pose proof (@csim_shape ROps _ _ CS SH) as SH'.
  assert (BI': forall k c, In (k, c) (@blocks ROps C') -> (1 <= so_p c)%nat /\
     int_soc (so_p c) (from k sf) /\ int_soc (so_p c) (from k zf) /\
     EPSR * EPSR <= det (so_p c) (from k sf) /\ EPSR * EPSR <= det (so_p c) (from k zf) /\
     EPSR * EPSR * (EPSR * EPSR) * det (so_p c) (from k zf) <= det (so_p c) (from k sf)).
  { intros k c Hin. assert (Hl' : In (k, so_p c) (layout (@lpp ROps C') (map so_p (co_soc C')))).
    { apply layout_blocks. exists c. auto. }
    rewrite (@csim_socs ROps _ _ CS), (@csim_lpp ROps _ _ CS) in Hl'.
    split; [apply (@sh_pos ROps C' SH'); apply (@blocks_in ROps C' k c Hin)|].
    split; [apply (int_socs _ _ _ Is); auto|]. split; [apply (int_socs _ _ _ Iz); auto|]. apply MS; auto. }
  change (cone (@F ROps)) with (cone R) in C'.
  assert (LPW: forall i, (i < @lpp ROps C')%nat -> gd 0 (lp_w (co_lpc C')) i = sqrt (sf i / zf i) /\ EPSR <= sqrt (sf i / zf i) /\ 0 < zf i /\ 0 < sf i).
  { intros i Hi. pose proof (@up_w ROps _ _ _ _ UP i Hi) as EW. unfold gd. unR. rewrite EW. rewrite (@csim_lpp ROps _ _ CS) in Hi.
    destruct (ML i Hi) as [M1 M2]. rewrite safediv_R by auto. pose proof EPS_pos. cbn [fsqrt ROps].
    split; [reflexivity|]. pose proof (int_lp _ _ _ Is i Hi). split; [|split; [(unR; lra)|auto]].
    apply sqrt_margin. apply Rmult_le_reg_r with (zf i); [(unR; lra)|]. replace (sf i / zf i * zf i) with (sf i) by (field; lra). auto. }
  assert (G: good C').
  { constructor.
    - apply scaled_W. eapply updated_scaled; eauto.
    - intros i Hi. destruct (LPW i Hi) as (-> & ? & _). auto.
    - intros c Hc. destruct (lay_of_in so_p _ (@lpp ROps C') c Hc) as (k & Hk).
      destruct (BI' k c Hk) as (P & I1 & I2 & M1 & M2 & M3).
      apply (upd_block c (from k sf) (from k zf)); auto. exact (@up_soc ROps _ _ _ _ UP k c Hk). }
  exists C', lambda'. split; [auto|]. split; [auto|]. split; [auto|]. split; [auto|]. split; [auto|].
  rewrite <- (@csim_hsize ROps _ _ CS). destruct FI as (_ & A & B & D). split; [|split]; auto.
  - intros i. revert i. apply by_blocks.
    + intros i Hi. rewrite A by auto. rewrite Wop_lp by auto. rewrite f0_R. reflexivity.
    + intros k c i Hin Hi. rewrite (B k c i Hin Hi). rewrite (Wop_soc _ _ k c) by auto. f_equal.
      destruct (gd_soc C' G c). { apply (@blocks_in ROps C' k c Hin). } rewrite (scale_R c) by auto. reflexivity.
  - apply by_blocks.
    + intros i Hi. rewrite Wop_lp, Wiop_lp by auto. destruct (LPW i Hi) as (-> & M & Pz & Ps). pose proof EPS_pos.
      apply Rmult_eq_reg_r with (sqrt (sf i / zf i)); [|(unR; lra)]. unfold Rdiv at 3. rewrite (Rmult_assoc (sf i)), Rinv_l by (unR; lra).
      rewrite (Rmult_comm (sqrt _) (zf i)), Rmult_assoc, sqrt_sqrt.
      * field. (unR; lra).
      * left. apply Rdiv_lt_0_compat; auto.
    + intros k c i Hin Hi. rewrite (Wop_soc _ _ k c), (Wiop_soc _ _ k c) by auto.
      destruct (BI' k c Hin) as (P & I1 & I2 & M1 & M2 & M3).
      apply (upd_block c (from k sf) (from k zf)); auto. exact (@up_soc ROps _ _ _ _ UP k c Hin).
Qed.
