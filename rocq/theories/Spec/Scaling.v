(* One problem is another with its rows and columns divided by positive factors.
   Pure mathematics, no reference to the code. *)
From Coq Require Import List Arith Reals Lia Lra FunctionalExtensionality.
From Verif Require Import Base Num.
From Verif.Spec Require Import Matrix Conic Jordan.
Import ListNotations.
Open Scope R_scope.

(* P is U with column j divided by xe j, row i of A by Ae i and row i of G by
   Ge i; the factors are positive and the rows of one cone share theirs *)
Record scaled_by (U P : problem) (xe Ae Ge : nat -> R) : Prop := {
  sb_n : pb_n P = pb_n U; sb_p : pb_p P = pb_p U;
  sb_l : pb_l P = pb_l U; sb_q : pb_q P = pb_q U; sb_e : pb_e P = pb_e U;
  sb_xe : forall j, (j < pb_n U)%nat -> 0 < xe j;
  sb_Ae : forall i, (i < pb_p U)%nat -> 0 < Ae i;
  sb_Ge : forall i, (i < pb_m U)%nat -> 0 < Ge i;
  sb_soc : forall k p i, In (k, p) (layout (pb_l U) (pb_q U)) -> (i < p)%nat -> Ge (k + i)%nat = Ge k;
  sb_exp : forall k i, (k < pb_e U)%nat -> (i < 3)%nat ->
     Ge (pb_l U + list_sum (pb_q U) + 3 * k + i)%nat = Ge (pb_l U + list_sum (pb_q U) + 3 * k)%nat;
  sb_A : forall i j, (i < pb_p U)%nat -> (j < pb_n U)%nat -> pb_A P i j = pb_A U i j / (Ae i * xe j);
  sb_G : forall i j, (i < pb_m U)%nat -> (j < pb_n U)%nat -> pb_G P i j = pb_G U i j / (Ge i * xe j);
  sb_b : forall i, (i < pb_p U)%nat -> pb_b P i = pb_b U i / Ae i;
  sb_h : forall i, (i < pb_m U)%nat -> pb_h P i = pb_h U i / Ge i;
  sb_c : forall j, (j < pb_n U)%nat -> pb_c P j = pb_c U j / xe j
}.

Definition over (a b : nat -> R) : nat -> R := fun i => a i / b i.
Definition times (a b : nat -> R) : nat -> R := fun i => a i * b i.

Definition primal_optimal (P : problem) (x s : nat -> R) : Prop :=
  primal_feasible P x s /\ forall x' s', primal_feasible P x' s' -> pobj P x <= pobj P x'.
Definition dual_optimal (P : problem) (y z : nat -> R) : Prop :=
  dual_feasible P y z /\ forall y' z', dual_feasible P y' z' -> dobj P y' z' <= dobj P y z.

(* ------------------------------------------------------------- the cones *)
Lemma in_socs_layout q : forall k u, in_socs q (from k u) <-> forall k' p, In (k', p) (layout k q) -> in_soc p (from k' u).
Proof.
  induction q as [|p t IH]; intros k u; cbn [in_socs layout].
  - split; auto. intros _ k' p [].
  - assert (E: from p (from k u) = from (k + p) u).
    { apply functional_extensionality. intros i. unfold from. f_equal. lia. }
    rewrite E, IH. split.
    + intros [H1 H2] k' p' [H|H]; [injection H as <- <-; auto|auto].
    + intros H. split; [apply H; left; auto|intros; apply H; right; auto].
Qed.
Lemma in_exps_index (Q : (nat -> R) -> Prop) e : forall k u, in_exps Q e (from k u) <-> forall i, (i < e)%nat -> Q (from (k + 3 * i) u).
Proof.
  induction e as [|e IH]; intros k u; cbn [in_exps].
  - split; auto. intros _ i Hi. lia.
  - assert (E: from 3 (from k u) = from (k + 3) u).
    { apply functional_extensionality. intros i. unfold from. f_equal. lia. }
    rewrite E, IH. split.
    + intros [H1 H2] [|i] Hi; [rewrite Nat.mul_0_r, Nat.add_0_r; auto|].
      replace (k + 3 * S i)%nat with (k + 3 + 3 * i)%nat by lia. apply H2. lia.
    + intros H. split.
      * specialize (H 0%nat ltac:(lia)). rewrite Nat.mul_0_r, Nat.add_0_r in H. auto.
      * intros i Hi. replace (k + 3 + 3 * i)%nat with (k + 3 * S i)%nat by lia. apply H. lia.
Qed.

Lemma nrm_pos_scal a n u : 0 <= a -> nrm n (fun i => u i * a) = nrm n u * a.
Proof.
  intros Ha. unfold nrm. rewrite (Rsum_ext _ _ (fun i => (u i * u i) * (a * a))) by (intros; ring).
  rewrite Rsum_scal_r, sqrt_mult; [|apply Rsum_nonneg; intros; nra|nra]. rewrite sqrt_square; auto.
Qed.
Lemma in_soc_scal p u v a : 0 < a -> (forall i, (i < p)%nat -> v i = u i * a) -> in_soc p u -> in_soc p v.
Proof.
  intros Ha E H Hp. specialize (H Hp). rewrite E by auto.
  rewrite (nrm_ext _ _ (fun i => from 1 u i * a)).
  - rewrite nrm_pos_scal by lra. apply Rmult_le_compat_r; lra.
  - intros i Hi. unfold from. apply E. lia.
Qed.
Lemma in_exp_scal u v a : 0 < a -> (forall i, (i < 3)%nat -> v i = u i * a) -> in_exp u -> in_exp v.
Proof.
  intros Ha E. unfold in_exp. rewrite !E by lia. intros [[H1 H2]|(H1 & H2 & H3)].
  - left. split; [nra|]. replace (u 0%nat * a / (u 2%nat * a)) with (u 0%nat / u 2%nat) by (field; lra). nra.
  - right. rewrite H1. split; [ring|]. split; nra.
Qed.
Lemma in_expd_scal u v a : 0 < a -> (forall i, (i < 3)%nat -> v i = u i * a) -> in_expd u -> in_expd v.
Proof.
  intros Ha E. unfold in_expd. rewrite !E by lia. intros [[H1 H2]|(H1 & H2 & H3)].
  - left. split; [nra|]. replace (u 2%nat * a / (u 0%nat * a)) with (u 2%nat / u 0%nat) by (field; lra). nra.
  - right. rewrite H1. split; [ring|]. split; nra.
Qed.

(* factors constant on every cone *)
Section Cones.
Variables (l : nat) (q : list nat) (e : nat) (g : nat -> R).
Hypothesis gpos : forall i, (i < cdim l q e)%nat -> 0 < g i.
Hypothesis gsoc : forall k p i, In (k, p) (layout l q) -> (i < p)%nat -> g (k + i)%nat = g k.
Hypothesis gexp : forall k i, (k < e)%nat -> (i < 3)%nat -> g (l + list_sum q + 3 * k + i)%nat = g (l + list_sum q + 3 * k)%nat.

Lemma cone_scal (Q : (nat -> R) -> Prop) u v :
  (forall a u v, 0 < a -> (forall i, (i < 3)%nat -> v i = u i * a) -> Q u -> Q v) ->
  (forall i, (i < cdim l q e)%nat -> v i = u i * g i) ->
  in_orthant l u /\ in_socs q (from l u) /\ in_exps Q e (from (l + list_sum q) u) ->
  in_orthant l v /\ in_socs q (from l v) /\ in_exps Q e (from (l + list_sum q) v).
Proof.
  intros HQ E (H1 & H2 & H3). unfold cdim in *. rewrite in_socs_layout in *. rewrite in_exps_index in *. split; [|split].
  - intros i Hi. rewrite E by lia. specialize (H1 i Hi). specialize (gpos i ltac:(lia)). nra.
  - intros k p Hin. pose proof (layout_bounds _ _ _ _ Hin) as B. destruct p as [|p].
    { intros Hp. lia. }
    apply (in_soc_scal _ (from k u) _ (g k)); auto.
    + apply gpos. lia.
    + intros i Hi. unfold from. rewrite E by lia. rewrite (gsoc k (S p) i Hin Hi). auto.
  - intros k Hk. apply (HQ (g (l + list_sum q + 3 * k)%nat) (from (l + list_sum q + 3 * k) u)); auto.
    + apply gpos. lia.
    + intros i Hi. unfold from. rewrite E by lia. rewrite (gexp k i Hk Hi). auto.
Qed.
End Cones.

Lemma inK_scal l q e g u v : (forall i, (i < cdim l q e)%nat -> 0 < g i) ->
  (forall k p i, In (k, p) (layout l q) -> (i < p)%nat -> g (k + i)%nat = g k) ->
  (forall k i, (k < e)%nat -> (i < 3)%nat -> g (l + list_sum q + 3 * k + i)%nat = g (l + list_sum q + 3 * k)%nat) ->
  (forall i, (i < cdim l q e)%nat -> v i = u i * g i) -> (inK l q e u <-> inK l q e v) /\ (inKd l q e u <-> inKd l q e v).
Proof.
  intros P S E EV.
  assert (P': forall i, (i < cdim l q e)%nat -> 0 < / g i) by (intros; apply Rinv_0_lt_compat; auto).
  assert (EU: forall i, (i < cdim l q e)%nat -> u i = v i * / g i).
  { intros i Hi. rewrite EV by auto. specialize (P i Hi). field. lra. }
  split; split; intros H.
  - apply (cone_scal l q e g P S E in_exp u v); auto. intros a u' v' Ha. apply in_exp_scal; auto.
  - apply (cone_scal l q e (fun i => / g i) P') with (u := v); auto.
    + intros. f_equal. eauto.
    + intros. f_equal. eauto.
    + intros a u' v' Ha. apply in_exp_scal; auto.
  - apply (cone_scal l q e g P S E in_expd u v); auto. intros a u' v' Ha. apply in_expd_scal; auto.
  - apply (cone_scal l q e (fun i => / g i) P') with (u := v); auto.
    + intros. f_equal. eauto.
    + intros. f_equal. eauto.
    + intros a u' v' Ha. apply in_expd_scal; auto.
Qed.

(* ----------------------------------------------------------- equivalence *)
Section Equiv.
Variables (U P : problem) (xe Ae Ge : nat -> R).
Hypothesis H : scaled_by U P xe Ae Ge.

Lemma sb_m : pb_m P = pb_m U.
Proof. unfold pb_m. rewrite (sb_l _ _ _ _ _ H), (sb_q _ _ _ _ _ H), (sb_e _ _ _ _ _ H). auto. Qed.

(* u in P's units is v in U's *)
Definition xpair (x x' : nat -> R) := forall j, (j < pb_n U)%nat -> x j = x' j * xe j.
Definition ypair (y y' : nat -> R) := forall i, (i < pb_p U)%nat -> y i = y' i * Ae i.
Definition zpair (z z' : nat -> R) := forall i, (i < pb_m U)%nat -> z i = z' i * Ge i.
Definition spair (s s' : nat -> R) := forall i, (i < pb_m U)%nat -> s' i = s i * Ge i.

Lemma res_eq_scaled x x' i : xpair x x' -> (i < pb_p U)%nat -> res_eq P x i = res_eq U x' i / Ae i.
Proof.
  intros X Hi. unfold res_eq. rewrite (sb_n _ _ _ _ _ H), (sb_b _ _ _ _ _ H) by auto.
  pose proof (sb_Ae _ _ _ _ _ H i Hi) as PA.
  assert (M: mulv (pb_n U) (pb_A P) x i = mulv (pb_n U) (pb_A U) x' i / Ae i).
  { unfold mulv, Rdiv. rewrite <- Rsum_scal_r. apply Rsum_ext. intros j Hj. rewrite (sb_A _ _ _ _ _ H) by auto.
    rewrite X by auto. pose proof (sb_xe _ _ _ _ _ H j Hj). field. lra. }
  rewrite M. field. lra.
Qed.
Lemma res_ineq_scaled x x' s s' i : xpair x x' -> spair s s' -> (i < pb_m U)%nat -> res_ineq P x s i = res_ineq U x' s' i / Ge i.
Proof.
  intros X S Hi. unfold res_ineq. rewrite (sb_n _ _ _ _ _ H), (sb_h _ _ _ _ _ H) by auto.
  pose proof (sb_Ge _ _ _ _ _ H i Hi) as PG. rewrite S by auto.
  assert (M: mulv (pb_n U) (pb_G P) x i = mulv (pb_n U) (pb_G U) x' i / Ge i).
  { unfold mulv, Rdiv. rewrite <- Rsum_scal_r. apply Rsum_ext. intros j Hj. rewrite (sb_G _ _ _ _ _ H) by auto.
    rewrite X by auto. pose proof (sb_xe _ _ _ _ _ H j Hj). field. lra. }
  rewrite M. field. lra.
Qed.
Lemma res_dual_scaled y y' z z' j : ypair y y' -> zpair z z' -> (j < pb_n U)%nat -> res_dual P y z j = res_dual U y' z' j / xe j.
Proof.
  intros Y Z Hj. unfold res_dual. rewrite sb_m, (sb_p _ _ _ _ _ H), (sb_c _ _ _ _ _ H) by auto.
  pose proof (sb_xe _ _ _ _ _ H j Hj) as PX.
  assert (M1: mulvT (pb_p U) (pb_A P) y j = mulvT (pb_p U) (pb_A U) y' j / xe j).
  { unfold mulvT, Rdiv. rewrite <- Rsum_scal_r. apply Rsum_ext. intros i Hi. rewrite (sb_A _ _ _ _ _ H) by auto.
    rewrite Y by auto. pose proof (sb_Ae _ _ _ _ _ H i Hi). field. lra. }
  assert (M2: mulvT (pb_m U) (pb_G P) z j = mulvT (pb_m U) (pb_G U) z' j / xe j).
  { unfold mulvT, Rdiv. rewrite <- Rsum_scal_r. apply Rsum_ext. intros i Hi. rewrite (sb_G _ _ _ _ _ H) by auto.
    rewrite Z by auto. pose proof (sb_Ge _ _ _ _ _ H i Hi). field. lra. }
  rewrite M1, M2. field. lra.
Qed.
Lemma pobj_scaled x x' : xpair x x' -> pobj P x = pobj U x'.
Proof.
  intros X. unfold pobj. rewrite (sb_n _ _ _ _ _ H). unfold dotp. apply Rsum_ext. intros j Hj.
  rewrite (sb_c _ _ _ _ _ H), X by auto. pose proof (sb_xe _ _ _ _ _ H j Hj). field. lra.
Qed.
Lemma dobj_scaled y y' z z' : ypair y y' -> zpair z z' -> dobj P y z = dobj U y' z'.
Proof.
  intros Y Z. unfold dobj. rewrite sb_m, (sb_p _ _ _ _ _ H). f_equal; [f_equal|].
  - unfold dotp. apply Rsum_ext. intros j Hj. rewrite (sb_b _ _ _ _ _ H), Y by auto. pose proof (sb_Ae _ _ _ _ _ H j Hj). field. lra.
  - unfold dotp. apply Rsum_ext. intros j Hj. rewrite (sb_h _ _ _ _ _ H), Z by auto. pose proof (sb_Ge _ _ _ _ _ H j Hj). field. lra.
Qed.
Lemma gap_scaled s s' z z' : spair s s' -> zpair z z' -> dotp (pb_m P) s z = dotp (pb_m U) s' z'.
Proof.
  intros S Z. rewrite sb_m. unfold dotp. apply Rsum_ext. intros j Hj. rewrite S, Z by auto. ring.
Qed.
Lemma K_scaled s s' : spair s s' -> inK (pb_l P) (pb_q P) (pb_e P) s <-> inK (pb_l U) (pb_q U) (pb_e U) s'.
Proof.
  intros S. rewrite (sb_l _ _ _ _ _ H), (sb_q _ _ _ _ _ H), (sb_e _ _ _ _ _ H).
  apply (inK_scal _ _ _ Ge); [apply (sb_Ge _ _ _ _ _ H)|apply (sb_soc _ _ _ _ _ H)|apply (sb_exp _ _ _ _ _ H)|exact S].
Qed.
Lemma Kd_scaled z z' : zpair z z' -> inKd (pb_l P) (pb_q P) (pb_e P) z <-> inKd (pb_l U) (pb_q U) (pb_e U) z'.
Proof.
  intros Z. rewrite (sb_l _ _ _ _ _ H), (sb_q _ _ _ _ _ H), (sb_e _ _ _ _ _ H). symmetry.
  apply (inK_scal _ _ _ Ge); [apply (sb_Ge _ _ _ _ _ H)|apply (sb_soc _ _ _ _ _ H)|apply (sb_exp _ _ _ _ _ H)|exact Z].
Qed.

Lemma div0 a b : 0 < b -> a / b = 0 <-> a = 0.
Proof.
  intros Hb. split; [|intros ->; field; lra]. intros E. replace a with (a / b * b) by (field; lra). rewrite E. ring.
Qed.

Theorem feasible_scaled x x' s s' : xpair x x' -> spair s s' -> primal_feasible P x s <-> primal_feasible U x' s'.
Proof.
  intros X S. unfold primal_feasible. rewrite (K_scaled s s' S), sb_m, (sb_p _ _ _ _ _ H).
  assert (E1: forall i, (i < pb_p U)%nat -> res_eq P x i = 0 <-> res_eq U x' i = 0).
  { intros i Hi. rewrite (res_eq_scaled x x' i X Hi). apply div0. apply (sb_Ae _ _ _ _ _ H); auto. }
  assert (E2: forall i, (i < pb_m U)%nat -> res_ineq P x s i = 0 <-> res_ineq U x' s' i = 0).
  { intros i Hi. rewrite (res_ineq_scaled x x' s s' i X S Hi). apply div0. apply (sb_Ge _ _ _ _ _ H); auto. }
  split; intros (A & B & C); (split; [|split; [|auto]]); intros; [apply E1|apply E2|apply E1|apply E2]; auto.
Qed.
Theorem dfeasible_scaled y y' z z' : ypair y y' -> zpair z z' -> dual_feasible P y z <-> dual_feasible U y' z'.
Proof.
  intros Y Z. unfold dual_feasible. rewrite (Kd_scaled z z' Z), (sb_n _ _ _ _ _ H).
  assert (E1: forall j, (j < pb_n U)%nat -> res_dual P y z j = 0 <-> res_dual U y' z' j = 0).
  { intros j Hj. rewrite (res_dual_scaled y y' z z' j Y Z Hj). apply div0. apply (sb_xe _ _ _ _ _ H); auto. }
  split; intros (A & B); (split; [|auto]); intros; apply E1; auto.
Qed.
Theorem optimal_scaled x x' s s' : xpair x x' -> spair s s' -> primal_optimal P x s <-> primal_optimal U x' s'.
Proof.
  intros X S. unfold primal_optimal. rewrite (feasible_scaled x x' s s' X S), (pobj_scaled x x' X).
  split; intros [A B]; (split; [auto|]); intros x2 s2 F.
  - assert (X2: xpair (times x2 xe) x2) by (intros j Hj; reflexivity).
    assert (S2: spair (over s2 Ge) s2). { intros i Hi. unfold over. pose proof (sb_Ge _ _ _ _ _ H i Hi). field. lra. }
    rewrite <- (pobj_scaled _ _ X2). apply (B (times x2 xe) (over s2 Ge)). apply (feasible_scaled _ _ _ _ X2 S2). auto.
  - assert (X2: xpair x2 (over x2 xe)). { intros j Hj. unfold over. pose proof (sb_xe _ _ _ _ _ H j Hj). field. lra. }
    assert (S2: spair s2 (times s2 Ge)) by (intros i Hi; reflexivity).
    rewrite (pobj_scaled _ _ X2). apply (B (over x2 xe) (times s2 Ge)). apply (feasible_scaled _ _ _ _ X2 S2). auto.
Qed.
Theorem doptimal_scaled y y' z z' : ypair y y' -> zpair z z' -> dual_optimal P y z <-> dual_optimal U y' z'.
Proof.
  intros Y Z. unfold dual_optimal. rewrite (dfeasible_scaled y y' z z' Y Z), (dobj_scaled y y' z z' Y Z).
  split; intros [A B]; (split; [auto|]); intros y2 z2 F.
  - assert (Y2: ypair (times y2 Ae) y2) by (intros j Hj; reflexivity).
    assert (Z2: zpair (times z2 Ge) z2) by (intros j Hj; reflexivity).
    rewrite <- (dobj_scaled _ _ _ _ Y2 Z2). apply (B (times y2 Ae) (times z2 Ge)). apply (dfeasible_scaled _ _ _ _ Y2 Z2). auto.
  - assert (Y2: ypair y2 (over y2 Ae)). { intros j Hj. unfold over. pose proof (sb_Ae _ _ _ _ _ H j Hj). field. lra. }
    assert (Z2: zpair z2 (over z2 Ge)). { intros j Hj. unfold over. pose proof (sb_Ge _ _ _ _ _ H j Hj). field. lra. }
    rewrite (dobj_scaled _ _ _ _ Y2 Z2). apply (B (over y2 Ae) (over z2 Ge)). apply (dfeasible_scaled _ _ _ _ Y2 Z2). auto.
Qed.
End Equiv.
