(* The guard of the symmetric barrier has the wrong sign: a point outside the
   positive orthant gets the barrier value minus infinity. *)
From Coq Require Import List Arith Bool ZArith QArith Qreals Reals Lra Lia.
From Verif Require Import Base Num NumE.
From Verif.Model Require Import Spla Types Consts Expcone Cone Kkt Ecos.
From Verif.Spec Require Import Exp ExpSearch Inside.
From Verif.Proofs Require Import ExitP ExpP LoopLib ExpSearchX.
Import ListNotations.
Open Scope R_scope.

Definition nice (b : ext) : Prop := fin b \/ b = NInf.

Lemma f0_E : @f0 EOps = Fin 0.
Proof. unfold f0. cbn. f_equal. unfold Q2R. cbn. lra. Qed.
Lemma f1_E : @f1 EOps = Fin 1.
Proof. unfold f1. cbn. f_equal. unfold Q2R. cbn. lra. Qed.

Lemma nice_fin b r : nice b -> nice (@fsub EOps b (Fin r)).
Proof. intros [[x ->] | ->]; cbn; [left; eexists; reflexivity|right; reflexivity]. Qed.
Lemma ninf_fin r : @fsub EOps NInf (Fin r) = NInf.
Proof. reflexivity. Qed.
Lemma nice_inf b : nice b -> @fsub EOps b (@finf EOps) = NInf.
Proof. intros [[x ->] | ->]; reflexivity. Qed.
Lemma le0_E x : @fle EOps (Fin x) (@f0 EOps) = true <-> x <= 0.
Proof.
  rewrite f0_E. cbn. unfold Rltb, Reqb. destruct (Rlt_dec x 0), (Req_EM_T x 0); cbn; split; intros; try reflexivity; try lra; try discriminate.
Qed.
Lemma log_E x : ~ x <= 0 -> @flog EOps (Fin x) = Fin (ln x).
Proof. intros H. cbn. destruct (Rlt_dec 0 x); [reflexivity|lra]. Qed.

(* one subtraction of the barrier over the positive orthant *)
Lemma pair_sub b x y : nice b -> let b' := @fsub EOps b (if (@fle EOps (Fin x) (@f0 EOps) || @fle EOps (Fin y) (@f0 EOps))%bool then @finf EOps
    else @fadd EOps (@flog EOps (Fin x)) (@flog EOps (Fin y))) in
  nice b' /\ (b = NInf \/ x <= 0 \/ y <= 0 -> b' = NInf).
Proof.
  intros N. cbv zeta. pose proof (le0_E x) as X. pose proof (le0_E y) as Y.
  destruct (@fle EOps (Fin x) (@f0 EOps)); cbn [orb].
  { rewrite (nice_inf b N). split; [right; reflexivity|auto]. }
  destruct (@fle EOps (Fin y) (@f0 EOps)).
  { rewrite (nice_inf b N). split; [right; reflexivity|auto]. }
  assert (~ x <= 0) by (intros K; apply X in K; discriminate). assert (~ y <= 0) by (intros K; apply Y in K; discriminate).
  rewrite !log_E by assumption. cbn [fadd EOps eadd]. split; [apply nice_fin; exact N|]. intros [-> |[K|K]]; try contradiction. apply ninf_fin.
Qed.

Lemma half_sub b x : nice b -> let b' := @fsub EOps b (if @fle EOps (Fin x) (@f0 EOps) then @finf EOps else @fmul EOps (@half EOps) (@flog EOps (Fin x))) in
  nice b' /\ (b = NInf -> b' = NInf).
Proof.
  intros N. cbv zeta. pose proof (le0_E x) as X. destruct (@fle EOps (Fin x) (@f0 EOps)).
  { rewrite (nice_inf b N). split; [right; reflexivity|auto]. }
  assert (~ x <= 0) by (intros K; apply X in K; discriminate). rewrite log_E by assumption. unfold half. cbn [fmul fconst EOps emul].
  split; [apply nice_fin; exact N|]. intros ->. apply ninf_fin.
Qed.

Lemma guard_value (C : cone ext) (sv zv : arr ext) tau kap D (s z : nat -> R) :
  (forall c, In c (co_soc C) -> (1 <= so_p c)%nat) ->
  (forall i, (i < @lpp EOps C + list_sum (map so_p (co_soc C)))%nat -> get sv i = Some (Fin (s i)) /\ get zv i = Some (Fin (z i))) ->
  tau <= 0 \/ kap <= 0 \/ (exists i, (i < @lpp EOps C)%nat /\ (s i <= 0 \/ z i <= 0)) ->
  @evalSymmetricBarrierValue EOps sv zv (Fin tau) (Fin kap) C (Fin D) = Some NInf.
Proof.
  intros H1 G T.
  assert (W : wp (@evalSymmetricBarrierValue EOps sv zv (Fin tau) (Fin kap) C (Fin D)) (fun b => b = NInf)).
  2:{ destruct (wp_elim _ _ W) as (b & E & ->). exact E. }
  unfold evalSymmetricBarrierValue. wb.
  apply (wp_for (fun k b => nice b /\ ((exists i, (i < k)%nat /\ (s i <= 0 \/ z i <= 0)) -> b = NInf))); [lia| | |].
  { rewrite f0_E. split; [left; eexists; reflexivity|]. intros (i & Hi & _). lia. }
  { intros i b Hi [N HB]. destruct (G i ltac:(lia)) as [Gs Gz]. wget Gs. wget Gz. apply (wp_intro _ _ _ eq_refl).
    destruct (pair_sub b (s i) (z i) N) as [N' H]. split; [exact N'|]. intros (k & Hk & K). apply H.
    destruct (Nat.eq_dec k i) as [->|Nk]; [right; exact K|]. left. apply HB. exists k. split; [lia|exact K]. }
  intros b [N HB]. cbv beta zeta. destruct (pair_sub b tau kap N) as [N' H].
  assert (X : @fsub EOps b (if (@fle EOps (Fin tau) (@f0 EOps) || @fle EOps (Fin kap) (@f0 EOps))%bool then @finf EOps
    else @fadd EOps (@flog EOps (Fin tau)) (@flog EOps (Fin kap))) = NInf).
  { apply H. destruct T as [T|[T|T]]; auto. }
  rewrite X. wb.
  apply (wp_for_each (fun pre st => st = (NInf, (@lpp EOps C + list_sum (map so_p pre))%nat))).
  { cbn. rewrite Nat.add_0_r. reflexivity. }
  2:{ intros st ->. apply (wp_intro _ _ _ eq_refl). rewrite f1_E. reflexivity. }
  intros pre c post st EL ->. change (@F EOps) with ext in *. assert (Hc : (1 <= so_p c)%nat) by (apply H1; rewrite EL, in_app_iff; right; left; reflexivity).
  assert (TL : (list_sum (map so_p pre) + so_p c <= list_sum (map so_p (co_soc C)))%nat).
  { rewrite EL, map_app, list_sum_app. cbn. lia. }
  set (k := (@lpp EOps C + list_sum (map so_p pre))%nat).
  destruct (G k ltac:(unfold k; lia)) as [Gs Gz]. wget Gs. wget Gz. wb.
  apply (wp_for (fun j acc => exists x y, acc = (Fin x, Fin y))); [exact Hc|cbn; eauto| |].
  { intros j acc Hj (x & y & ->). destruct (G (k + j)%nat ltac:(unfold k; lia)) as [Gs' Gz']. wget Gs'. wget Gz'. apply (wp_intro _ _ _ eq_refl). cbn. eauto. }
  intros acc (x & y & ->). cbv beta iota zeta. apply (wp_intro _ _ _ eq_refl).
  destruct (half_sub NInf x (or_intror eq_refl)) as [_ A]. cbv zeta in A. specialize (A eq_refl).
  destruct (half_sub NInf y (or_intror eq_refl)) as [_ B]. cbv zeta in B. specialize (B eq_refl).
  apply f_equal2; [etransitivity; [|exact B]; f_equal; exact A|]. rewrite map_app, list_sum_app. cbn [list_sum map fold_right]. unfold k. change (@F EOps) with ext. lia.
Qed.

(* -------------------------------------------------- the Wright omega function *)
Lemma div_E x y : y <> 0 -> @fdiv EOps (Fin x) (Fin y) = Fin (x / y).
Proof. intros H. cbn. destruct (Req_EM_T y 0); [contradiction|reflexivity]. Qed.
Lemma const_E q : @fconst EOps q = Fin (Q2R q).
Proof. reflexivity. Qed.

Definition rw (w r : R) : R := let z := 1 + w in let q := z + 2/3 * r in w * (1 + r / z * (z * q - /2 * r) / (z * q - r)).
Definition rr (w r : R) : R := let z := 1 + w in let w' := rw w r in (2 * w' * w' - 8 * w' - 1) / (72 * (z*z*z*z*z*z)) * r * r * r * r.

Lemma fsc_den w r : 1 <= w -> - (1/4) <= r <= 1/4 -> let z := 1 + w in 3 <= z * (z + 2/3 * r) - r.
Proof. intros Hw Hr. cbv zeta. nra. Qed.

Lemma fsc_E w r : 1 <= w -> - (1/4) <= r <= 1/4 -> @fsc EOps (Fin w) (Fin r) = (Fin (rw w r), Fin (rr w r)).
Proof.
  intros Hw Hr. pose proof (fsc_den w r Hw Hr) as D. cbv zeta in D.
  unfold fsc. rewrite f1_E. unfold f2, half. rewrite !const_E.
  replace (Q2R 2) with 2 by (unfold Q2R; cbn; lra). replace (Q2R 3) with 3 by (unfold Q2R; cbn; lra). replace (Q2R (1#2)) with (/2) by (unfold Q2R; cbn; lra).
  replace (Q2R 8) with 8 by (unfold Q2R; cbn; lra). replace (Q2R 72) with 72 by (unfold Q2R; cbn; lra).
  cbn [fadd fsub fmul fneg EOps eadd emul eneg]. rewrite (div_E 2 3) by lra. cbn [fadd fsub fmul fneg EOps eadd emul eneg].
  rewrite (div_E r (1 + w)) by lra. cbn [fadd fsub fmul fneg EOps eadd emul eneg].
  rewrite div_E by lra. cbn [fadd fsub fmul fneg EOps eadd emul eneg].
  assert (P : 0 < (1 + w) * (1 + w) * (1 + w) * (1 + w) * (1 + w) * (1 + w)) by (repeat apply Rmult_lt_0_compat; lra).
  rewrite div_E by lra. cbn [fadd fsub fmul fneg EOps eadd emul eneg]. reflexivity.
Qed.

Lemma rw_bound w r e : 1 <= w -> 0 <= e <= 1/4 -> - e <= r <= e -> w * (1 - e) <= rw w r <= w * (1 + e).
Proof.
  intros Hw He Hr. assert (Hr' : - (1/4) <= r <= 1/4) by lra. pose proof (fsc_den w r Hw Hr') as D. cbv zeta in D.
  unfold rw. set (z := 1 + w) in *. set (d := z * (z + 2 / 3 * r) - r) in *.
  assert (E : r / z * (z * (z + 2 / 3 * r) - / 2 * r) / d = r / z * (1 + (r / 2) / d)). { unfold d in *. field. split; [lra|unfold z; lra]. }
  rewrite E.
  assert (B : -(1/24) <= r / 2 / d <= 1/24).
  { split; apply Rmult_le_reg_r with d; try lra; unfold Rdiv at 2; try (unfold Rdiv at 1); rewrite ?Rmult_assoc, ?Rinv_l, ?Rmult_1_r by lra; lra. }
  assert (Z : - e / 2 <= r / z <= e / 2).
  { split; apply Rmult_le_reg_r with z; try (unfold z; lra); unfold Rdiv; rewrite !(Rmult_assoc r), Rinv_l, Rmult_1_r by (unfold z; lra); unfold z; nra. }
  assert (- e <= r / z * (1 + r / 2 / d) <= e) by nra.
  split; apply Rmult_le_compat_l; lra.
Qed.

Lemma rr_small w r : 3/2 <= w <= 8/5 -> - (1/8) <= r <= 1/8 -> - (1/100) <= rr w r <= 1/100.
Proof.
  intros Hw Hr. pose proof (rw_bound w r (1/8) ltac:(lra) ltac:(lra) Hr) as B. unfold rr. set (w' := rw w r) in *. set (z := 1 + w).
  assert (BW : 1 <= w' <= 2) by lra. clearbody w'.
  assert (A : - 17 <= 2 * w' * w' - 8 * w' - 1 <= 17) by nra. set (a := 2 * w' * w' - 8 * w' - 1) in *. clearbody a.
  assert (Z : 1 <= z * z * z * z * z * z).
  { assert (Z1 : 1 <= z) by (unfold z; lra). clearbody z. assert (M : forall x, 1 <= x -> 1 <= x * z) by (intros; nra). repeat apply M; auto. }
  set (y := z * z * z * z * z * z) in *. clearbody y z.
  assert (Q : - (17/72) <= a / (72 * y) <= 17/72).
  { split; apply Rmult_le_reg_r with (72 * y); try lra; unfold Rdiv; rewrite ?(Rmult_assoc a), ?Rinv_l, ?Rmult_1_r by lra; lra. }
  set (g := a / (72 * y)) in *. clearbody g. assert (R2 : 0 <= r * r <= 1/64) by nra.
  replace (g * r * r * r * r) with (g * ((r * r) * (r * r))) by ring. set (t := r * r) in *. clearbody t.
  assert (T : 0 <= t * t <= 1/4096) by nra. set (u := t * t) in *. clearbody u. nra.
Qed.

Lemma omega2 : exists o, @wrightOmega EOps (Fin 2) = Fin o /\ 1 < o.
Proof.
  set (w0 := 1 + /2 * (2 + - (1)) + 1/16 * ((2 + - (1)) * (2 + - (1))) + - (1/192 * ((2 + - (1)) * (2 + - (1)) * (2 + - (1)))) + - (1/3072 * (2 + - (1))) + 13/61440 * (2 + - (1))).
  assert (W : 155/100 <= w0 <= 156/100) by (unfold w0; lra).
  assert (LW : 35/100 <= ln w0 <= 56/100).
  { split.
    - pose proof (ln_tangent 0 (/ w0) ltac:(apply Rinv_0_lt_compat; lra)) as H. rewrite Ropp_0, exp_0, ln_Rinv in H by lra.
      assert (/ w0 <= 65/100). { apply Rmult_le_reg_r with w0; [lra|]. rewrite Rinv_l by lra. lra. } lra.
    - pose proof (ln_tangent 0 w0 ltac:(lra)) as H. rewrite Ropp_0, exp_0 in H. lra. }
  set (r0 := 2 + - w0 + - ln w0). assert (R0 : - (1/8) <= r0 <= 1/8) by (unfold r0; lra).
  pose proof (rw_bound w0 r0 (1/8) ltac:(lra) ltac:(lra) R0) as B1. pose proof (rr_small w0 r0 ltac:(lra) R0) as R1.
  pose proof (rw_bound (rw w0 r0) (rr w0 r0) (1/100) ltac:(lra) ltac:(lra) R1) as B2.
  exists (rw (rw w0 r0) (rr w0 r0)). split; [|lra].
  unfold wrightOmega. rewrite f0_E. replace (@flt EOps (Fin 2) (Fin 0)) with false by (cbn; unfold Rltb; destruct (Rlt_dec 2 0); [lra|reflexivity]).
  rewrite f1_E. unfold M_PI. rewrite !const_E.
  match goal with |- context [@flt EOps ?a ?b] => replace (@flt EOps a b) with true end.
  2:{ cbn. unfold Rltb. destruct (Rlt_dec 2 _) as [|K]; [reflexivity|]. exfalso. apply K. unfold Q2R. cbn [Qnum Qden]. lra. }
  unfold half. rewrite !const_E.
  replace (Q2R 16) with 16 by (unfold Q2R; cbn; lra). replace (Q2R 192) with 192 by (unfold Q2R; cbn; lra). replace (Q2R (1#2)) with (/2) by (unfold Q2R; cbn; lra).
  replace (Q2R 3072) with 3072 by (unfold Q2R; cbn; lra). replace (Q2R 13) with 13 by (unfold Q2R; cbn; lra). replace (Q2R 61440) with 61440 by (unfold Q2R; cbn; lra).
  rewrite !div_E by lra. cbn [fadd fsub fmul fneg EOps eadd emul eneg]. fold w0.
  rewrite (log_E w0) by lra. cbn [fadd fsub fmul fneg EOps eadd emul eneg]. fold r0.
  rewrite (fsc_E w0 r0) by lra. rewrite fsc_E by lra. reflexivity.
Qed.
