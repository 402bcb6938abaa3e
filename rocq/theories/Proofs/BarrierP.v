(* The barrier values the line search on the exponential cones computes. *)
From Coq Require Import List Arith Bool ZArith QArith Reals Lia Lra.
From Verif Require Import Base Num.
From Verif.Model Require Import Spla Splamm Types Consts Expcone Cone Ldl Kkt Equil Preproc Ecos.
From Verif.Spec Require Import Matrix Conic Exp Jordan Shape ExpSearch Barrier.
From Verif.Proofs Require Import LoopLib ConeP ScalP Scal2P ConeR NtR SafeLib SafeE ExpSearchP DirT ExpP WrightP.
From Verif.Properties Require Import Cone.
Import ListNotations.
Open Scope R_scope.

Lemma lsum_app {A} (f : A -> R) a b : lsum f (a ++ b) = lsum f a + lsum f b.
Proof. induction a as [|x a IH]; cbn [lsum app]; [ring|]. rewrite IH. ring. Qed.
Lemma layout_app a : forall k b, layout k (a ++ b) = layout k a ++ layout (k + list_sum a) b.
Proof.
  induction a as [|x a IH]; intros k b; cbn [layout app]; [cbn; f_equal; lia|]. rewrite IH. change (list_sum (x :: a)) with (x + list_sum a)%nat. f_equal. f_equal. f_equal. lia.
Qed.

(* src/cone.c:236-268 at a point inside the cones *)
Lemma symbarrier_R (C : cone R) l q e (sv zv : arr R) sf zf (tau kap D b : R) : @cone_of ROps C l q e -> vec sv (l + list_sum q) sf -> vec zv (l + list_sum q) zf ->
  int_K l q sf -> int_K l q zf -> 0 < tau -> 0 < kap -> @evalSymmetricBarrierValue ROps sv zv tau kap C D = Some b ->
  b = sym_barrier l q sf zf tau kap - D - 1.
Proof.
  intros [SH EL EQ EE] Vs Vz Is Iz Ht Hk E. unR.
  refine (DirT.wp_get _ _ (fun b => b = sym_barrier l q sf zf tau kap - D - 1) E _). unfold evalSymmetricBarrierValue.
  wb. apply (wp_for (fun j (acc : R) => acc = - Rsum j (fun i => ln (sf i) + ln (zf i)))).
  { lia. } { cbn. rewrite ?f0_R. ring. }
  { intros j acc Hj ->. unR. rewrite EL in Hj. rewrite (Vs j) by lia. cbn [bind]. rewrite (Vz j) by lia. cbn [bind].
    pose proof (int_lp _ _ _ Is j ltac:(lia)) as P1. pose proof (int_lp _ _ _ Iz j ltac:(lia)) as P2.
    cbn [fle ROps]. rewrite ?f0_R. unfold Rleb. destruct (Rle_dec (sf j) 0); [lra|]. destruct (Rle_dec (zf j) 0); [lra|]. cbn [orb].
    apply (wp_intro _ _ _ eq_refl). cbn [Rsum fsub fadd flog ROps]. ring. }
  intros acc ->. cbn [fle ROps]. rewrite ?f0_R. unfold Rleb. destruct (Rle_dec tau 0); [lra|]. destruct (Rle_dec kap 0); [lra|]. cbn [orb]. cbv zeta.
  wb. apply (wp_for_each (fun pre st => snd st = (l + list_sum (map so_p pre))%nat /\
    fst st = - Rsum l (fun i => ln (sf i) + ln (zf i)) - (ln tau + ln kap) - lsum (fun kp => let '(k, p) := kp in / 2 * (ln (det p (from k sf)) + ln (det p (from k zf)))) (layout l (map so_p pre)))).
  { cbn [snd fst map layout lsum list_sum fold_right]. unR. rewrite EL. split; [lia|]. cbn [fsub fadd flog ROps]. ring. }
  - intros pre c post [bb k] El (Hk' & Hb). cbn [snd fst] in Hk', Hb. subst k bb.
    assert (Hq : q = map so_p pre ++ so_p c :: map so_p post) by (rewrite <- EQ; unR; rewrite El, map_app; reflexivity).
    assert (Hl : list_sum q = (list_sum (map so_p pre) + (so_p c + list_sum (map so_p post)))%nat) by (rewrite Hq, list_sum_app; reflexivity).
    assert (Hc : (1 <= so_p c)%nat) by (apply (@sh_pos ROps C SH); unR; rewrite El; apply in_or_app; right; left; auto).
    set (k := (l + list_sum (map so_p pre))%nat).
    assert (HI : In (k, so_p c) (layout l q)) by (rewrite Hq, layout_app; apply in_or_app; right; left; auto).
    pose proof (proj1 (int_soc_det _ _) (int_socs _ _ _ Is k (so_p c) HI)) as (_ & Ds). pose proof (proj1 (int_soc_det _ _) (int_socs _ _ _ Iz k (so_p c) HI)) as (_ & Dz).
    unR. rewrite (Vs k) by (unfold k; lia). cbn [bind]. rewrite (Vz k) by (unfold k; lia). cbn [bind].
    wb. apply (wp_for (fun j (acc : R * R) => acc = (sf k * sf k - Rsum (j - 1) (fun i => sf (k + (1 + i))%nat * sf (k + (1 + i))%nat), zf k * zf k - Rsum (j - 1) (fun i => zf (k + (1 + i))%nat * zf (k + (1 + i))%nat)))).
    { lia. } { cbn [Nat.sub Rsum fmul ROps]. f_equal; ring. }
    { intros j acc Hj ->. rewrite (Vs (k + j)%nat) by (unfold k; lia). cbn [bind]. rewrite (Vz (k + j)%nat) by (unfold k; lia). cbn [bind].
      apply (wp_intro _ _ _ eq_refl). replace (Datatypes.S j - 1)%nat with (Datatypes.S (j - 1)) by lia. cbn [Rsum fsub fmul ROps]. replace (1 + (j - 1))%nat with j by lia. f_equal; ring. }
    intros acc ->. apply (wp_intro _ _ _ eq_refl). cbn [fst snd].
    replace (Nat.max 1 (so_p c)) with (so_p c) by lia.
    assert (D1 : sf k * sf k - Rsum (so_p c - 1) (fun i => sf (k + (1 + i))%nat * sf (k + (1 + i))%nat) = det (so_p c) (from k sf)) by (unfold det, from; rewrite Nat.add_0_r; reflexivity).
    assert (D2 : zf k * zf k - Rsum (so_p c - 1) (fun i => zf (k + (1 + i))%nat * zf (k + (1 + i))%nat) = det (so_p c) (from k zf)) by (unfold det, from; rewrite Nat.add_0_r; reflexivity).
    rewrite D1, D2. cbn [fle ROps]. unfold Rleb. destruct (Rle_dec (det (so_p c) (from k sf)) 0); [lra|]. destruct (Rle_dec (det (so_p c) (from k zf)) 0); [lra|].
    rewrite map_app, list_sum_app, layout_app, lsum_app. cbn [map layout lsum]. split; [cbn; lia|]. fold k. cbn [fsub fmul flog ROps half fconst]. unfold half. cbn [fconst ROps]. unfold Q2R. cbn [QArith_base.Qnum QArith_base.Qden].
    field.
  - intros [bb k] (Hk' & Hb). cbn [fst snd] in *. apply (wp_intro _ _ _ eq_refl). unR. rewrite Hb, EQ. unfold sym_barrier. cbn [fsub ROps]. rewrite ?f1_R. ring.
Qed.

(* src/expcone.c:72-111 *)
Lemma expbarrier_R (sv zv : arr R) f e sf zf b : vec sv (f + 3 * e) sf -> vec zv (f + 3 * e) zf -> @evalBarrierValue ROps sv zv f e = Some b ->
  b = Rsum e (fun j => exp_conj (@wrightOmega ROps (omega_arg (sf (f + 3 * j)%nat) (sf (f + 3 * j + 1)%nat) (sf (f + 3 * j + 2)%nat))) (sf (f + 3 * j + 1)%nat) (sf (f + 3 * j + 2)%nat)
                     + exp_barrier (zf (f + 3 * j)%nat) (zf (f + 3 * j + 1)%nat) (zf (f + 3 * j + 2)%nat)).
Proof.
  intros Vs Vz E. unR.
  set (P := fun j => exp_conj (@wrightOmega ROps (omega_arg (sf (f + 3 * j)%nat) (sf (f + 3 * j + 1)%nat) (sf (f + 3 * j + 2)%nat))) (sf (f + 3 * j + 1)%nat) (sf (f + 3 * j + 2)%nat)).
  set (B := fun j => exp_barrier (zf (f + 3 * j)%nat) (zf (f + 3 * j + 1)%nat) (zf (f + 3 * j + 2)%nat)).
  change (b = Rsum e (fun j => P j + B j)). rewrite Rsum_plus.
  refine (DirT.wp_get _ _ (fun b => b = Rsum e P + Rsum e B) E _). unfold evalBarrierValue.
  wb. apply (wp_for (fun j (acc : R * R) => acc = (Rsum j P, Rsum j B))).
  { lia. } { rewrite ?f0_R. reflexivity. }
  - intros j acc Hj ->. unR. rewrite (Vz (f + 3 * j)%nat) by lia. cbn [bind]. rewrite (Vz (f + 3 * j + 1)%nat) by lia. cbn [bind]. rewrite (Vz (f + 3 * j + 2)%nat) by lia. cbn [bind].
    rewrite (Vs (f + 3 * j)%nat) by lia. cbn [bind]. rewrite (Vs (f + 3 * j + 1)%nat) by lia. cbn [bind]. rewrite (Vs (f + 3 * j + 2)%nat) by lia. cbn [bind].
    apply (wp_intro _ _ _ eq_refl). cbn [Rsum]. f_equal.
    + unfold P, exp_conj, omega_arg. cbv zeta. cbn [fsub fadd fmul fdiv fneg flog ROps]. rewrite ?f1_R, ?f2_R. cbn [fconst ROps]. unfold Q2R. cbn [QArith_base.Qnum QArith_base.Qden]. unR. lra.
  - intros acc ->. apply (wp_intro _ _ _ eq_refl). reflexivity.
Qed.

Lemma centrality_R (C : cone R) l q e (D : nat) (pt : @point ROps) c : @cone_of ROps C l q e ->
  int_K l q (p_s pt) -> int_K l q (p_z pt) -> 0 < p_tau pt -> 0 < p_kap pt -> @centrality ROps C (l + list_sum q + 3 * e) D pt c ->
  c = measure l q e D (@wrightOmega ROps) (p_s pt) (p_z pt) (p_tau pt) (p_kap pt).
Proof.
  intros CO Is Iz Ht Hk (sv & zv & b1 & b2 & Vs & Vz & E1 & E2 & ->). pose proof CO as [SH EL EQ EE].
  pose proof (hsize_of C l q e CO) as HS. rewrite (@sh_fexv ROps C SH), HS, EE in E1.
  rewrite (expbarrier_R sv zv _ e (p_s pt) (p_z pt) b1 Vs Vz E1).
  rewrite (symbarrier_R C l q e sv zv (p_s pt) (p_z pt) _ _ _ b2 CO (fun i Hi => Vs i ltac:(lia)) (fun i Hi => Vz i ltac:(lia)) Is Iz Ht Hk E2).
  unfold measure. rewrite !fofn_R. assert (MU : @mu_all ROps (l + list_sum q + 3 * e) D pt = mu_of (l + list_sum q + 3 * e) D (p_s pt) (p_z pt) (p_tau pt) (p_kap pt)).
  { unfold mu_all, mu_of. rewrite fofn_R. cbn [fadd fmul fdiv ROps]. f_equal. f_equal.
    generalize (l + list_sum q + 3 * e)%nat as m. induction m; unfold dotp in *; cbn [fsum Rsum]; [apply f0_R|]. rewrite IHm. reflexivity. }
  rewrite MU. cbn [fadd fmul flog ROps]. unR. rewrite !plus_INR. change (INR 1) with 1. ring.
Qed.

(* ---------------- the measure is bounded below ---------------- *)

Lemma soc_ln p u v : (1 <= p)%nat -> int_soc p u -> int_soc p v -> 0 < dotp p u v /\ / 2 * (ln (det p u) + ln (det p v)) <= ln (dotp p u v).
Proof.
  intros Hp Hu Hv. pose proof (proj1 (int_soc_det _ _) Hu) as (U0 & DU). pose proof (proj1 (int_soc_det _ _) Hv) as (V0 & DV).
  unfold int_soc in *. unfold det in *.
  assert (QU : Rsum (p - 1) (fun i => u (1 + i)%nat * u (1 + i)%nat) = nrm (p - 1) (from 1 u) * nrm (p - 1) (from 1 u)) by (rewrite nrm_sq; reflexivity).
  assert (QV : Rsum (p - 1) (fun i => v (1 + i)%nat * v (1 + i)%nat) = nrm (p - 1) (from 1 v) * nrm (p - 1) (from 1 v)) by (rewrite nrm_sq; reflexivity).
  rewrite QU in *. rewrite QV in *. pose proof (CS_ge (p - 1) (from 1 u) (from 1 v)) as CS.
  pose proof (nrm_nonneg (p - 1) (from 1 u)) as NU. pose proof (nrm_nonneg (p - 1) (from 1 v)) as NV.
  set (a := nrm (p - 1) (from 1 u)) in *. set (b := nrm (p - 1) (from 1 v)) in *.
  assert (ED : dotp p u v = u 0%nat * v 0%nat + dotp (p - 1) (from 1 u) (from 1 v)).
  { replace p with (1 + (p - 1))%nat at 1 by lia. rewrite dotp_split. unfold dotp at 1. cbn [Rsum]. ring. }
  set (d := dotp p u v) in *. set (x := u 0%nat) in *. set (y := v 0%nat) in *.
  assert (G : x * y - a * b <= d) by lra. assert (P : 0 < x * y - a * b) by nra. split; [lra|].
  assert (L : (x * x - a * a) * (y * y - b * b) <= d * d).
  { apply Rle_trans with ((x * y - a * b) * (x * y - a * b)); [|apply Rmult_le_compat; lra]. pose proof (Rle_0_sqr (x * b - y * a)) as S2. unfold Rsqr in S2. nra. }
  rewrite <- ln_mult by lra. assert (K : ln ((x * x - a * a) * (y * y - b * b)) <= ln (d * d)).
  { destruct L as [L|L]; [left; apply ln_increasing; auto; apply Rmult_lt_0_compat; auto|right; f_equal; auto]. }
  rewrite (ln_mult d d) in K by lra. lra.
Qed.

Lemma exp_pair x y z u v w o mu : exp_primal_int x y z -> exp_dual_int u v w -> wright (omega_arg x y z) o -> 0 < mu ->
  - (x * u + y * v + z * w) / mu - 3 * ln mu <= exp_conj o y z + exp_barrier u v w.
Proof.
  intros HI (Hu & Hv & Hr) Ho Hm. destruct (conj_R x y z o HI Ho) as [C _].
  assert (Pi : 0 < / mu) by (apply Rinv_0_lt_compat; auto).
  assert (ER : u / mu <> 0) by (unfold Rdiv; apply Rmult_integral_contrapositive; split; lra).
  assert (EQ1 : - (v / mu) / (u / mu) = - v / u) by (field; split; lra).
  assert (EQ2 : w / mu - u / mu - u / mu * ln (- (v / mu) / (u / mu)) = (w - u - u * ln (- v / u)) / mu) by (rewrite EQ1; field; lra).
  assert (D : exp_dual_int (u / mu) (v / mu) (w / mu)).
  { unfold exp_dual_int. rewrite EQ2. repeat split; [|apply Rdiv_lt_0_compat; auto|apply Rdiv_lt_0_compat; auto]. unfold Rdiv. nra. }
  specialize (C _ _ _ D). unfold exp_barrier in *. rewrite EQ2 in C.
  replace (- (u / mu)) with (- u / mu) in C by (field; lra). unfold Rdiv in C. rewrite (ln_mult (- u) (/ mu)), (ln_mult v (/ mu)), (ln_mult _ (/ mu)), ln_Rinv in C by (auto; lra).
  replace (- (x * (u * / mu) + y * (v * / mu) + z * (w * / mu))) with (- (x * u + y * v + z * w) / mu) in C by (field; lra).
  replace (- v * / u) with (- v / u) in C by reflexivity. lra.
Qed.

Lemma Rsum_three k f : Rsum (3 * k) f = Rsum k (fun j => Rsum 3 (fun i => f (3 * j + i)%nat)).
Proof.
  induction k as [|k IH]; [reflexivity|]. replace (3 * S k)%nat with (3 * k + 3)%nat by lia. rewrite Rsum_split, IH. reflexivity.
Qed.
Definition exp_blk (f j : nat) (s z : nat -> R) : R := s (f + 3 * j)%nat * z (f + 3 * j)%nat + s (f + 3 * j + 1)%nat * z (f + 3 * j + 1)%nat + s (f + 3 * j + 2)%nat * z (f + 3 * j + 2)%nat.
Lemma dotp_parts l q e s z : dotp (l + list_sum q + 3 * e) s z =
  Rsum l (fun i => s i * z i) + lsum (fun kp => let '(k, p) := kp in dotp p (from k s) (from k z)) (layout l q) + Rsum e (fun j => exp_blk (l + list_sum q) j s z).
Proof.
  rewrite dotp_split. f_equal.
  - rewrite dotp_split. f_equal. clear e. revert l. induction q as [|p q IH]; intros l; [reflexivity|].
    cbn [layout lsum]. change (list_sum (p :: q)) with (p + list_sum q)%nat. rewrite dotp_split. f_equal. rewrite <- IH. unfold dotp. apply Rsum_ext. intros i _. unfold from. rewrite Nat.add_assoc. reflexivity.
  - unfold dotp. rewrite Rsum_three. apply Rsum_ext. intros j _. cbn [Rsum]. unfold from, exp_blk. rewrite !Nat.add_assoc, !Nat.add_0_r. ring.
Qed.

Theorem measure_floor l q e om s z tau kap : (forall d, In d q -> (1 <= d)%nat) -> int_K l q s -> int_K l q z -> 0 < tau -> 0 < kap ->
  (forall j, (j < e)%nat -> exp_primal_int (s (l + list_sum q + 3 * j)%nat) (s (l + list_sum q + 3 * j + 1)%nat) (s (l + list_sum q + 3 * j + 2)%nat)) ->
  (forall j, (j < e)%nat -> exp_dual_int (z (l + list_sum q + 3 * j)%nat) (z (l + list_sum q + 3 * j + 1)%nat) (z (l + list_sum q + 3 * j + 2)%nat)) ->
  (forall t, 1 < t -> wright t (om t)) ->
  - (3 * INR e) <= measure l q e (l + length q + 3 * e) om s z tau kap.
Proof.
  intros Hq Is Iz Ht Hk HP HD HW. unfold measure. cbv zeta. set (D := (l + length q + 3 * e)%nat). set (f := (l + list_sum q)%nat) in *.
  set (mu := mu_of (f + 3 * e) D s z tau kap). unfold mu_of in mu.
  (* every part of the product is positive *)
  assert (P1 : 0 <= Rsum l (fun i => s i * z i)).
  { apply Rsum_nonneg. intros i Hi. pose proof (int_lp _ _ _ Is i Hi). pose proof (int_lp _ _ _ Iz i Hi). nra. }
  assert (Hlay : forall k p, In (k, p) (layout l q) -> (1 <= p)%nat).
  { clear - Hq. revert l. induction q as [|d q IH]; intros l k p H; [destruct H|]. destruct H as [H|H]; [injection H as <- <-; apply Hq; left; auto|]. eapply IH; [intros; apply Hq; right; auto|exact H]. }
  assert (P2 : 0 <= lsum (fun kp => let '(k, p) := kp in dotp p (from k s) (from k z)) (layout l q)).
  { pose proof (int_socs _ _ _ Is) as A. pose proof (int_socs _ _ _ Iz) as B. revert A B Hlay. clear. induction (layout l q) as [|[k p] t IH]; intros A B Hlay; cbn [lsum]; [lra|].
    destruct (soc_ln p (from k s) (from k z) (Hlay _ _ (or_introl eq_refl)) (A _ _ (or_introl eq_refl)) (B _ _ (or_introl eq_refl))) as [K _].
    assert (0 <= lsum (fun kp => let '(k, p) := kp in dotp p (from k s) (from k z)) t); [|lra]. apply IH; intros; [apply A|apply B|eapply Hlay]; right; eauto. }
  assert (P3 : 0 <= Rsum e (fun j => exp_blk f j s z)).
  { apply Rsum_nonneg. intros j Hj. specialize (HP j Hj). specialize (HD j Hj). destruct HD as (Hu & Hv & Hr).
    assert (K : exp_dual (z (f + 3 * j)%nat) (z (f + 3 * j + 1)%nat) (z (f + 3 * j + 2)%nat)) by (apply exp_dual_neg; auto; lra).
    unfold exp_blk. specialize (K (s (f + 3 * j)%nat) (s (f + 3 * j + 1)%nat) (s (f + 3 * j + 2)%nat)). apply K. left. destruct HP. split; lra. }
  pose proof (dotp_parts l q e s z) as EP. fold f in EP.
  assert (PN : 0 < INR (D + 1)) by (apply lt_0_INR; lia).
  assert (Pmu : 0 < mu). { apply Rdiv_lt_0_compat; auto. rewrite EP. assert (0 < tau * kap) by (apply Rmult_lt_0_compat; auto). lra. }
  assert (Emu : (dotp (f + 3 * e) s z + tau * kap) / mu = INR (D + 1)).
  { unfold mu. field. rewrite EP. assert (0 < tau * kap) by (apply Rmult_lt_0_compat; auto). split; lra. }
  assert (EM : mu_of (f + 3 * e) D s z tau kap = mu) by reflexivity. clearbody mu.
  (* part by part *)
  assert (B1 : Rsum l (fun i => ln (s i) + ln (z i)) <= INR l * (ln mu - 1) + Rsum l (fun i => s i * z i) / mu).
  { pose proof (int_lp _ _ _ Is) as A. pose proof (int_lp _ _ _ Iz) as B. revert A B. clear - Pmu. induction l as [|l IH]; intros A B; [cbn; lra|].
    rewrite S_INR. cbn [Rsum]. assert (IH' := IH (fun i Hi => A i ltac:(lia)) (fun i Hi => B i ltac:(lia))).
    pose proof (A l ltac:(lia)). pose proof (B l ltac:(lia)). rewrite <- ln_mult by auto.
    pose proof (ln_lin (s l * z l) mu ltac:(nra) Pmu). replace ((Rsum l (fun i => s i * z i) + s l * z l) / mu) with (Rsum l (fun i => s i * z i) / mu + s l * z l / mu) by (field; lra). lra. }
  assert (B2 : lsum (fun kp => let '(k, p) := kp in / 2 * (ln (det p (from k s)) + ln (det p (from k z)))) (layout l q)
     <= INR (length q) * (ln mu - 1) + lsum (fun kp => let '(k, p) := kp in dotp p (from k s) (from k z)) (layout l q) / mu).
  { assert (LL : length (layout l q) = length q) by (clear; revert l; induction q; intros l; cbn; auto). rewrite <- LL.
    pose proof (int_socs _ _ _ Is) as A. pose proof (int_socs _ _ _ Iz) as B. revert A B Hlay. clear - Pmu. induction (layout l q) as [|[k p] t IH]; intros A B Hlay; [cbn; lra|].
    destruct (soc_ln p (from k s) (from k z) (Hlay _ _ (or_introl eq_refl)) (A _ _ (or_introl eq_refl)) (B _ _ (or_introl eq_refl))) as [K1 K2].
    pose proof (ln_lin _ mu K1 Pmu) as K3. cbn [lsum length]. rewrite S_INR.
    assert (IH' := IH (fun k p H => A k p (or_intror H)) (fun k p H => B k p (or_intror H)) (fun k p H => Hlay k p (or_intror H))).
    unfold Rdiv in *. rewrite Rmult_plus_distr_r. lra. }
  assert (B3 : - (Rsum e (fun j => exp_blk f j s z) / mu) - 3 * INR e * ln mu <=
    Rsum e (fun j => exp_conj (om (omega_arg (s (f + 3 * j)%nat) (s (f + 3 * j + 1)%nat) (s (f + 3 * j + 2)%nat))) (s (f + 3 * j + 1)%nat) (s (f + 3 * j + 2)%nat)
                     + exp_barrier (z (f + 3 * j)%nat) (z (f + 3 * j + 1)%nat) (z (f + 3 * j + 2)%nat))).
  { revert HP HD. clear - Pmu HW. clearbody f. induction e as [|e IH]; intros HP HD; [cbn; lra|].
    assert (IH' := IH (fun j Hj => HP j ltac:(lia)) (fun j Hj => HD j ltac:(lia))). cbn [Rsum]. rewrite S_INR.
    pose proof (HP e ltac:(lia)) as A. pose proof (HD e ltac:(lia)) as B.
    pose proof (exp_pair _ _ _ _ _ _ _ mu A B (HW _ (omega_arg_gt _ _ _ A)) Pmu) as K.
    unfold Rdiv in *. rewrite Rmult_plus_distr_r. unfold exp_blk at 2. lra. }
  assert (B4 : ln tau + ln kap <= ln mu - 1 + tau * kap / mu).
  { rewrite <- ln_mult by auto. pose proof (ln_lin (tau * kap) mu ltac:(apply Rmult_lt_0_compat; auto) Pmu). lra. }
  unfold sym_barrier.
  assert (ES : (Rsum l (fun i => s i * z i) + lsum (fun kp => let '(k, p) := kp in dotp p (from k s) (from k z)) (layout l q) + Rsum e (fun j => exp_blk f j s z) + tau * kap) / mu = INR (D + 1)) by (rewrite <- EP; exact Emu).
  unfold Rdiv in ES. rewrite !Rmult_plus_distr_r in ES. unfold Rdiv in *.
  assert (EN : INR (D + 1) = INR l + INR (length q) + 3 * INR e + 1).
  { unfold D. rewrite !plus_INR, mult_INR. cbn [INR]. ring. }
  rewrite EN in *. lra.
Qed.
