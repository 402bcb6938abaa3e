(* The line search for the symmetric cones in exact arithmetic. *)
From Coq Require Import List Arith Bool ZArith Reals QArith Qreals Lia Lra.
From Verif Require Import Base Num.
From Verif.Spec Require Import Matrix Conic Jordan.
From Verif.Model Require Import Spla Types Consts Expcone Cone Ecos.
From Verif.Proofs Require Import LoopLib ConeP ScalP RotP ConeR NtR LineP.
Import ListNotations.
Open Scope R_scope.

Lemma nrm_scal n c u : 0 <= c -> nrm n (fun i => c * u i) = c * nrm n u.
Proof.
  intros Hc. unfold nrm. rewrite (Rsum_ext _ _ (fun i => c * c * (u i * u i))) by (intros; ring).
  rewrite Rsum_scal. rewrite sqrt_mult; [|nra|apply Rsum_sq_nonneg]. rewrite sqrt_square by auto. auto.
Qed.

Section Block.
Variables (p : nat) (l : nat -> R).
Hypothesis Hp : (1 <= p)%nat.
Hypothesis Il : int_soc p l.
Notation N := (sqrt (det p l)).
Notation a := (l 0%nat / N).
Notation q := (fun j => l (1 + j)%nat / N).

Lemma n2_R : @ls_n2 ROps p l = det p l.
Proof. unfold ls_n2. rewrite dot_R. unR. rewrite det_dot. reflexivity. Qed.
Lemma N_pos : 0 < N. Proof. apply sqrt_lt_R0. apply int_soc_det in Il. tauto. Qed.
Lemma N_sq : N * N = det p l. Proof. apply sqrt_sqrt. apply int_soc_det in Il. lra. Qed.
Lemma a_pos : 0 < a. Proof. apply Rdiv_lt_0_compat; [|apply N_pos]. apply int_soc_det in Il. tauto. Qed.
Lemma aq_hyp : a * a - dotp (p - 1) q q = 1.
Proof.
  pose proof N_pos. pose proof N_sq as E. rewrite det_dot in E.
  replace (dotp (p - 1) q q) with (dotp (p - 1) (from 1 l) (from 1 l) / (N * N)).
  - apply Rmult_eq_reg_r with (N * N); [|nra]. rewrite Rmult_1_l. rewrite E at 3. field. lra.
  - unfold dotp, Rdiv. rewrite <- Rsum_scal_r. apply Rsum_ext. intros. unfold from. field. lra.
Qed.

Lemma ld_R d : @ls_ld ROps p l d = a * d 0%nat + dotp (p - 1) (fun j => - q j) (from 1 d).
Proof.
  unfold ls_ld, ls_lb. rewrite n2_R. unR.
  rewrite (nfold_minus 1 (p - 1) (fun j => l j / N * d j)). unfold Rminus. f_equal.
  unfold dotp. rewrite <- Rsum_opp. apply Rsum_ext. intros i Hi. unfold from. ring.
Qed.

Lemma rho_R d i : (i < p)%nat -> @ls_rho ROps p l d i = / N * rot p a (fun j => - q j) d i.
Proof.
  intros Hi. unfold ls_rho. rewrite ld_R. unfold ls_inv, ls_lb. rewrite n2_R. unR. unfold rot.
  pose proof N_pos. pose proof a_pos as A.
  destruct (Nat.eqb_spec i 0); [unfold Rdiv; ring|]. unfold Rdiv at 1. rewrite Rmult_1_l. f_equal.
  replace (1 + (i - 1))%nat with i by lia. set (z := dotp _ _ _). field. split; [lra|].
  intros E. assert (a = -1). { apply Rmult_eq_reg_r with N; [|lra]. unfold Rdiv. rewrite Rmult_assoc, Rinv_l by lra. lra. } lra.
Qed.

Lemma nr_R d : @ls_nr ROps p l d = / N * (nrm (p - 1) (from 1 (rot p a (fun j => - q j) d)) - rot p a (fun j => - q j) d 0%nat).
Proof.
  unfold ls_nr. rewrite (rho_R d 0%nat) by lia. unR. rewrite Rmult_minus_distr_l. f_equal.
  rewrite (nfold_plus 0 (p - 1) (fun j => @ls_rho ROps p l d (1 + j)%nat * @ls_rho ROps p l d (1 + j)%nat)). rewrite Rplus_0_l.
  rewrite <- nrm_scal by (left; apply Rinv_0_lt_compat, N_pos). unfold nrm. f_equal. apply Rsum_ext.
  intros i Hi. cbn [Nat.add]. rewrite !rho_R by lia. reflexivity.
Qed.

(* the rotation sends l to a multiple of the unit *)
Lemma rot_l i : (i < p)%nat -> rot p a (fun j => - q j) l i = if Nat.eqb i 0 then N else 0.
Proof.
  intros Hi. pose proof N_pos as NP. pose proof a_pos as A. pose proof aq_hyp as H.
  assert (E: dotp (p - 1) (fun j => - q j) (from 1 l) = - N * (a * a - 1)).
  { rewrite dotp_opp_l. replace (a * a - 1) with (dotp (p - 1) q q) by lra. rewrite Ropp_mult_distr_l_reverse. f_equal.
    rewrite <- dotp_scal_r. apply dotp_ext; auto. intros j Hj. unfold from. field. lra. }
  assert (L0: l 0%nat = N * a) by (field; lra).
  unfold rot. rewrite E. destruct (Nat.eqb_spec i 0).
  - rewrite L0 at 2. ring.
  - replace (1 + (i - 1))%nat with i by lia. rewrite L0 at 1.
    assert (L1: l i = N * (l i / N)) by (field; lra). rewrite L1 at 1. set (x := l i / N). set (b := l 0%nat / N) in *.
    field. lra.
Qed.

Lemma rot_move t d i : (i < p)%nat ->
  rot p a (fun j => - q j) (fun j => l j + t * d j) i = (if Nat.eqb i 0 then N else 0) + t * rot p a (fun j => - q j) d i.
Proof. intros Hi. rewrite rot_add. rewrite (rot_lin p a (fun j => - q j) t d). rewrite rot_l by auto. auto. Qed.

Lemma move_int t d : 0 <= t -> t * @ls_nr ROps p l d < 1 -> int_soc p (fun j => l j + t * d j).
Proof.
  intros Ht H. pose proof N_pos as NP. rewrite nr_R in H.
  eapply (int_soc_ext p (rot p a q (rot p a (fun j => - q j) (fun j => l j + t * d j)))); auto.
  { intros i Hi. apply rot_inv'; auto. apply a_pos. apply aq_hyp. }
  apply rot_int; auto; [apply a_pos|apply aq_hyp|]. unfold int_soc. rewrite rot_move by lia. cbn [Nat.eqb].
  rewrite (nrm_ext _ _ (fun j => t * from 1 (rot p a (fun j => - q j) d) j)).
  2:{ intros i Hi. unfold from. rewrite rot_move by lia. cbn [Nat.eqb Nat.add]. ring. }
  rewrite nrm_scal by auto. set (A := nrm _ _) in *. set (B := rot _ _ _ _ _) in *.
  apply Rmult_lt_compat_l with (r := N) in H; auto. rewrite Rmult_1_r in H.
  replace (N * (t * (/ N * (A - B)))) with (t * (A - B)) in H by (field; lra). lra.
Qed.
Lemma move_in t d : 0 <= t -> t * @ls_nr ROps p l d <= 1 ->
  nrm (p - 1) (from 1 (fun j => l j + t * d j)) <= l 0%nat + t * d 0%nat.
Proof.
  intros Ht H. pose proof N_pos as NP. rewrite nr_R in H.
  set (y := rot p a (fun j => - q j) (fun j => l j + t * d j)).
  assert (E: forall i, (i < p)%nat -> rot p a q y i = l i + t * d i).
  { intros i Hi. unfold y. rewrite rot_inv' by (auto using a_pos, aq_hyp). auto. }
  rewrite <- E by lia. rewrite (nrm_ext _ _ (from 1 (rot p a q y))).
  2:{ intros i Hi. unfold from. symmetry. apply E. lia. }
  apply rot_in; auto; [apply a_pos|apply aq_hyp|]. unfold y. rewrite rot_move by lia. cbn [Nat.eqb].
  rewrite (nrm_ext _ _ (fun j => t * from 1 (rot p a (fun j => - q j) d) j)).
  2:{ intros i Hi. unfold from. rewrite rot_move by lia. cbn [Nat.eqb Nat.add]. ring. }
  rewrite nrm_scal by auto. set (A := nrm _ _) in *. set (B := rot _ _ _ _ _) in *.
  apply Rmult_le_compat_l with (r := N) in H; [|lra]. rewrite Rmult_1_r in H.
  replace (N * (t * (/ N * (A - B)))) with (t * (A - B)) in H by (field; lra). lra.
Qed.
End Block.

(* ------------------------------------------------------- the step is a rate *)
Definition ok (alpha rate : R) : Prop := alpha * rate <= 1.
Lemma ok_le a b r : 0 <= b <= a -> ok a r -> ok b r.
Proof. unfold ok. intros [H0 H1] H. destruct (Rle_dec r 0); nra. Qed.
Lemma ok_lt a t r : 0 <= t < a -> ok a r -> t * r < 1.
Proof. unfold ok. intros [H0 H1] H. destruct (Rle_dec r 0); nra. Qed.

Lemma cs_ge p l ds dz : @ls_nr ROps p l ds <= @ls_cs ROps p l ds dz /\ @ls_nr ROps p l dz <= @ls_cs ROps p l ds dz /\ 0 <= @ls_cs ROps p l ds dz.
Proof.
  unfold ls_cs. unR. set (x := @ls_nr ROps p l ds). set (y := @ls_nr ROps p l dz). unR.
  destruct (Rltb_spec 0 x).
  - destruct (Rltb_spec x y); lra.
  - destruct (Rltb_spec 0 y); lra.
Qed.

Lemma al_R p l ds dz alpha : 0 < alpha -> 0 < @ls_al ROps p l ds dz alpha <= alpha /\
  ok (@ls_al ROps p l ds dz alpha) (@ls_nr ROps p l ds) /\ ok (@ls_al ROps p l ds dz alpha) (@ls_nr ROps p l dz).
Proof.
  intros Ha. destruct (cs_ge p l ds dz) as (A & B & D). unfold ls_al, ok. unR.
  set (x := @ls_nr ROps p l ds) in *. set (y := @ls_nr ROps p l dz) in *. set (c := @ls_cs ROps p l ds dz) in *. unR.
  destruct (Reqb_spec c 0); cbn [negb].
  - split; [lra|]. split; nra.
  - assert (0 < c) by lra. assert (0 < / c) by (apply Rinv_0_lt_compat; auto).
    assert (K: / c * c = 1) by (apply Rinv_l; lra).
    destruct (Rltb_spec (1 / c) alpha); unfold Rdiv in *; rewrite Rmult_1_l in *.
    + split; [lra|]. split; nra.
    + split; [lra|]. assert (alpha * c <= 1) by nra. split; nra.
Qed.

Lemma socs_R lf df zf l : forall k alpha, 0 < alpha -> (forall k' c, In (k', c) (lay so_p k l) -> (1 <= so_p c)%nat /\ int_soc (so_p c) (from k' lf)) ->
  0 < @ls_socs_f ROps lf df zf l k alpha <= alpha /\
  forall k' c, In (k', c) (lay so_p k l) -> ok (@ls_socs_f ROps lf df zf l k alpha) (@ls_nr ROps (so_p c) (from k' lf) (from k' df)) /\
     ok (@ls_socs_f ROps lf df zf l k alpha) (@ls_nr ROps (so_p c) (from k' lf) (from k' zf)).
Proof.
  induction l as [|c t IH]; intros k alpha Ha H; cbn [ls_socs_f lay].
  - split; [lra|]. intros k' c H'. destruct H'.
  - destruct (H k c (or_introl eq_refl)) as [P I].
    assert (D: Rleb (@ls_n2 ROps (so_p c) (from k lf)) 0 = false).
    { rewrite n2_R. apply int_soc_det in I. destruct (Rleb_spec (det (so_p c) (from k lf)) 0); [lra|auto]. }
    change (@sh ROps k lf) with (from k lf). change (@sh ROps k df) with (from k df). change (@sh ROps k zf) with (from k zf).
    change (@fle ROps) with Rleb. rewrite f0_R. rewrite D.
    destruct (al_R (so_p c) (from k lf) (from k df) (from k zf) alpha Ha) as (A1 & A2 & A3).
    destruct (IH (k + so_p c)%nat _ (proj1 A1)) as (B1 & B2).
    { intros. apply H. right; auto. }
    split; [lra|]. intros k' c' [E|Hin]; [|apply B2; auto].
    injection E as <- <-. split; eapply ok_le; try eassumption; lra.
Qed.

Lemma min_R n lf d : (0 < n)%nat -> forall i, (i < n)%nat -> @ls_min ROps n lf d <= d i / lf i.
Proof.
  intros Hn i Hi. unfold ls_min. unR.
  destruct (Nat.eq_dec i 0) as [->|Ni].
  - assert (G: forall k lo m, nfold lo k (fun i m => if Rltb (d i / lf i) m then d i / lf i else m) m <= m).
    { induction k; intros lo m; cbn [nfold]; [lra|]. eapply Rle_trans; [apply IHk|]. destruct (Rltb_spec (d lo / lf lo) m); lra. }
    apply G.
  - assert (G: forall k lo m, nfold lo k (fun i m => if Rltb (d i / lf i) m then d i / lf i else m) m <= m /\
       forall i, (lo <= i < lo + k)%nat -> nfold lo k (fun i m => if Rltb (d i / lf i) m then d i / lf i else m) m <= d i / lf i).
    { induction k; intros lo m; cbn [nfold]; [split; [lra|intros; lia]|].
      destruct (IHk (Datatypes.S lo) (if Rltb (d lo / lf lo) m then d lo / lf lo else m)) as [A B].
      split.
      - eapply Rle_trans; [apply A|]. destruct (Rltb_spec (d lo / lf lo) m); lra.
      - intros j Hj. destruct (Nat.eq_dec j lo) as [->|]; [|apply B; lia].
        eapply Rle_trans; [apply A|]. destruct (Rltb_spec (d lo / lf lo) m); lra. }
    apply G. lia.
Qed.

Lemma lp_R n lf df zf : 0 < @ls_lp ROps n lf df zf /\ forall i, (i < n)%nat ->
  ok (@ls_lp ROps n lf df zf) (- (df i / lf i)) /\ ok (@ls_lp ROps n lf df zf) (- (zf i / lf i)).
Proof.
  unfold ls_lp. destruct (Nat.ltb_spec 0 n) as [Hn|Hn].
  2:{ split; [cbn; unfold Q2R; cbn; lra|]. intros; lia. }
  pose proof (min_R n lf df Hn) as MD. pose proof (min_R n lf zf Hn) as MZ. pose proof EPS_pos as EP.
  unR. set (m1 := @ls_min ROps n lf df) in *. set (m2 := @ls_min ROps n lf zf) in *. unR.
  assert (EI: 0 < 1 / EPSR) by (apply Rdiv_lt_0_compat; lra).
  assert (G: forall m, 0 < (if Rltb m 0 then 1 / - m else 1 / EPSR) /\
     forall r, m <= r -> ok (if Rltb m 0 then 1 / - m else 1 / EPSR) (- r)).
  { intros m. destruct (Rltb_spec m 0).
    - assert (P: 0 < 1 / - m) by (apply Rdiv_lt_0_compat; lra). split; auto. intros r' Hr. unfold ok.
      assert (1 / - m * - m = 1) by (field; lra). nra.
    - split; auto. intros r' Hr. unfold ok. nra. }
  destruct (Rltb_spec (- m1) (- m2)).
  - destruct (G m2) as [P Q]. split; auto. intros i Hi. specialize (MD i Hi). specialize (MZ i Hi). split; apply Q; lra.
  - destruct (G m1) as [P Q]. split; auto. intros i Hi. specialize (MD i Hi). specialize (MZ i Hi). split; apply Q; lra.
Qed.

Lemma tk_R x dx alpha : 0 < x -> 0 < alpha -> 0 < @ls_tk ROps x dx alpha <= alpha /\ ok (@ls_tk ROps x dx alpha) (- (dx / x)).
Proof.
  intros Hx Ha. unfold ls_tk. unR. set (t := - x / dx). unfold ok.
  destruct (Rltb_spec 0 t) as [Ht|Ht]; cbn [andb].
  - assert (D: dx <> 0). { intros ->. unfold t, Rdiv in Ht. rewrite Rinv_0 in Ht. lra. }
    assert (E: t * - (dx / x) = 1) by (unfold t; field; lra).
    destruct (Rltb_spec t alpha); [split; lra|]. split; [lra|].
    assert (P: 0 < - (dx / x)) by nra. nra.
  - split; [lra|]. assert (P: - (dx / x) <= 0); [|nra].
    destruct (Rle_dec 0 dx); [|exfalso].
    + assert (0 <= dx / x); [|lra]. apply Rmult_le_pos; auto. left. apply Rinv_0_lt_compat; auto.
    + apply Ht. unfold t.
      replace (- x / dx) with (x / - dx) by (field; lra). apply Rdiv_lt_0_compat; lra.
Qed.

Lemma STEPMIN_R : @STEPMIN ROps = / 1000000. Proof. unfold STEPMIN; cbn. unfold Q2R; cbn. lra. Qed.
Lemma STEPMAX_R : @STEPMAX ROps = 999 / 1000. Proof. unfold STEPMAX; cbn. unfold Q2R; cbn. lra. Qed.

Lemma clamp_R alpha : / 1000000 <= @ls_clamp ROps alpha <= 999 / 1000 /\ (/ 1000000 < @ls_clamp ROps alpha -> @ls_clamp ROps alpha <= alpha).
Proof.
  unfold ls_clamp. rewrite STEPMIN_R, STEPMAX_R. unR.
  destruct (Rltb_spec (999 / 1000) alpha).
  - destruct (Rltb_spec (999 / 1000) (/ 1000000)); lra.
  - destruct (Rltb_spec alpha (/ 1000000)); lra.
Qed.

(* every rate that the search looks at is respected *)
Lemma alpha_R C lf df zf tau dtau kap dkap : int_K (@lpp ROps C) (map so_p (co_soc C)) lf ->
  (forall c, In c (co_soc C) -> (1 <= so_p c)%nat) -> 0 < tau -> 0 < kap ->
  / 1000000 <= @ls_alpha ROps C lf df zf tau dtau kap dkap <= 999 / 1000 /\
  (/ 1000000 < @ls_alpha ROps C lf df zf tau dtau kap dkap ->
     let al := @ls_alpha ROps C lf df zf tau dtau kap dkap in
     ok al (- (dtau / tau)) /\ ok al (- (dkap / kap)) /\
     (forall i, (i < @lpp ROps C)%nat -> ok al (- (df i / lf i)) /\ ok al (- (zf i / lf i))) /\
     (forall k c, In (k, c) (@blocks ROps C) -> ok al (@ls_nr ROps (so_p c) (from k lf) (from k df)) /\
        ok al (@ls_nr ROps (so_p c) (from k lf) (from k zf)))).
Proof.
  intros [IL IS] Hp Ht Hk. unfold ls_alpha. cbv zeta.
  destruct (lp_R (@lpp ROps C) lf df zf) as [A1 A2].
  destruct (tk_R tau dtau _ Ht A1) as [B1 B2].
  destruct (tk_R kap dkap _ Hk (proj1 B1)) as [D1 D2].
  destruct (socs_R lf df zf (co_soc C) (@lpp ROps C) _ (proj1 D1)) as [E1 E2].
  { intros k c Hin. pose proof (@blocks_in ROps C k c Hin) as (_ & _ & Hc). split; [auto|]. apply IS. apply layout_blocks. exists c. auto. }
  set (a1 := @ls_lp ROps _ lf df zf) in *. set (a2 := @ls_tk ROps tau dtau a1) in *. set (a3 := @ls_tk ROps kap dkap a2) in *.
  set (a4 := @ls_socs_f ROps lf df zf (co_soc C) (@lpp ROps C) a3) in *.
  destruct (clamp_R a4) as [F1 F2]. split; [exact F1|]. intros F3. specialize (F2 F3).
  set (a5 := @ls_clamp ROps a4) in *.
  split; [eapply ok_le; [|exact B2]; lra|]. split; [eapply ok_le; [|exact D2]; lra|]. split.
  - intros i Hi. destruct (A2 i Hi) as [X Y]. split; eapply ok_le; try eassumption; lra.
  - intros k c Hin. destruct (E2 k c Hin) as [X Y]. split; eapply ok_le; try eassumption; lra.
Qed.

Lemma ok_pos t x dx : 0 < x -> 0 <= t -> t * (- (dx / x)) < 1 -> 0 < x + t * dx.
Proof.
  intros Hx Ht H. replace (x + t * dx) with (x * (1 - t * - (dx / x))) by (field; lra). apply Rmult_lt_0_compat; lra.
Qed.
Lemma ok_nonneg t x dx : 0 < x -> 0 <= t -> t * (- (dx / x)) <= 1 -> 0 <= x + t * dx.
Proof.
  intros Hx Ht H. replace (x + t * dx) with (x * (1 - t * - (dx / x))) by (field; lra). apply Rmult_le_pos; lra.
Qed.

(* moving along a direction whose rates are respected *)
Lemma move_K l q lf d al : int_K l q lf -> (forall p, In p q -> (1 <= p)%nat) ->
  (forall i, (i < l)%nat -> ok al (- (d i / lf i))) ->
  (forall k p, In (k, p) (layout l q) -> ok al (@ls_nr ROps p (from k lf) (from k d))) -> 0 < al ->
  (forall t, 0 <= t < al -> int_K l q (fun i => lf i + t * d i)) /\
  inK l q 0 (fun i => lf i + al * d i).
Proof.
  intros [IL IS] Hp HL HS Ha.
  assert (LP: forall k p, In (k, p) (layout l q) -> (1 <= p)%nat).
  { clear -Hp. intros k p H. apply Hp. revert H. generalize l. induction q as [|x t IH]; intros k0 H; cbn in H; [contradiction|].
    destruct H as [E|H]; [injection E as <- <-; left; auto|right]. eapply IH; eauto. intros; apply Hp; right; auto. }
  split.
  - intros t Ht. constructor.
    + intros i Hi. apply ok_pos; [auto|lra|]. eapply ok_lt; eauto.
    + intros k p Hin. change (int_soc p (fun j => from k lf j + t * from k d j)). apply move_int; eauto; [lra|]. eapply ok_lt; eauto.
  - assert (G: forall k' qq, (forall k p, In (k, p) (layout k' qq) -> nrm (p - 1) (from 1 (from k (fun i => lf i + al * d i))) <= lf (k + 0)%nat + al * d (k + 0)%nat) ->
       in_socs qq (from k' (fun i => lf i + al * d i))).
    { intros k' qq. revert k'. induction qq as [|p t IH]; intros k' H; cbn [in_socs]; auto. split.
      - unfold in_soc. intros _. apply (H k' p). left; auto.
      - eapply in_socs_ext; [|apply (IH (k' + p)%nat)].
        + intros i. rewrite from_from. reflexivity.
        + intros. apply H. right; auto. }
    split; [|split].
    + intros i Hi. apply ok_nonneg; auto; [lra|]. apply HL; auto.
    + apply G. intros k p Hin.
      pose proof (move_in p (from k lf) (LP k p Hin) (IS k p Hin) al (from k d)) as M.
      apply M; [lra|]. apply HS; auto.
    + cbn. auto.
Qed.
