(* C46: the number by which the line search on the exponential cones judges how central
   a point is.  C29_measure says what the test of C29 compares with its limit.

   All in exact arithmetic. *)
From Coq Require Import List Arith Bool ZArith QArith Reals Lia Lra.
From Verif Require Import Base Num.
From Verif.Model Require Import Spla Splamm Types Consts Expcone Cone.
From Verif.Spec Require Import Matrix Conic Exp Jordan Shape SetupSpec ExpSearch Barrier.
From Verif.Proofs Require Import LoopLib ConeP SafeLib SafeE WrightP BarrierP.
Import ListNotations.
Open Scope R_scope.

(* the point (x, y, z) of the j-th exponential cone, whose triples start at f *)
Definition primal_in (f e : nat) (s : nat -> R) : Prop :=
  forall j, (j < e)%nat -> exp_primal_int (s (f + 3 * j)%nat) (s (f + 3 * j + 1)%nat) (s (f + 3 * j + 2)%nat).
Definition dual_in (f e : nat) (z : nat -> R) : Prop :=
  forall j, (j < e)%nat -> exp_dual_int (z (f + 3 * j)%nat) (z (f + 3 * j + 1)%nat) (z (f + 3 * j + 2)%nat).

(* what is compared with the limit is the barrier of all cones plus (D + 1) ln mu *)
Theorem C29_measure : forall (C : cone R) l q e (D : nat) (pt : @point ROps) c, @cone_of ROps C l q e ->
  int_K l q (p_s pt) -> int_K l q (p_z pt) -> 0 < p_tau pt -> 0 < p_kap pt -> @centrality ROps C (l + list_sum q + 3 * e) D pt c ->
  c = measure l q e D (@wrightOmega ROps) (p_s pt) (p_z pt) (p_tau pt) (p_kap pt).
Proof. exact centrality_R. Qed.
Print Assumptions C29_measure.

(* the function of src/wright_omega.c solves o + ln o = t for every t >= 1 *)
Theorem C46_wright : forall t, 1 <= t ->
  exists o, wright t o /\ (forall o', wright t o' -> o' = o) /\ Rabs (@wrightOmega ROps t - o) <= 6 / 10^13.
Proof.
  intros t Ht. destruct (wright_ex t Ht) as (o & _ & W). exists o. split; [exact W|]. split.
  - intros o' W'. pose proof (wright_uniq _ _ _ _ W' W) as H. replace (t - t) with 0 in H by ring. rewrite Rabs_R0 in H.
    pose proof (Rabs_pos (o' - o)) as P. apply Rminus_diag_uniq. destruct (Req_dec (o' - o) 0) as [E|E]; [exact E|]. apply Rabs_no_R0 in E. lra.
  - destruct (wrightOmega_R t Ht) as [P R0]. eapply Rle_trans; [apply (wright_uniq _ _ (@wrightOmega ROps t + ln (@wrightOmega ROps t)) t); [split; auto|exact W]|exact R0].
Qed.
Print Assumptions C46_wright.

(* at a point inside the cone its argument is above 1, and the barrier formed from the
   solution is the conjugate of the barrier of the dual cone *)
Theorem C46_conjugate : forall x y z, exp_primal_int x y z ->
  1 < omega_arg x y z /\ forall o, wright (omega_arg x y z) o -> conjugate x y z (exp_conj o y z).
Proof. intros x y z H. split; [apply omega_arg_gt; exact H|intros o; apply conj_R; exact H]. Qed.
Print Assumptions C46_conjugate.

(* what src/expcone.c:72-111 returns: the barrier of the dual cones at z, and the
   conjugate at s, up to an error that is small unless s is close to the boundary *)
Theorem C46_barrier : forall (sv zv : arr R) f e s z b, vec sv (f + 3 * e) s -> vec zv (f + 3 * e) z -> primal_in f e s ->
  (forall j, (j < e)%nat -> 1 / 10^11 <= ln (s (f + 3 * j + 1)%nat / s (f + 3 * j + 2)%nat) - s (f + 3 * j)%nat / s (f + 3 * j + 2)%nat) ->
  @evalBarrierValue ROps sv zv f e = Some b ->
  exists c : nat -> R, (forall j, (j < e)%nat -> conjugate (s (f + 3 * j)%nat) (s (f + 3 * j + 1)%nat) (s (f + 3 * j + 2)%nat) (c j)) /\
    Rabs (b - Rsum e (fun j => c j + exp_barrier (z (f + 3 * j)%nat) (z (f + 3 * j + 1)%nat) (z (f + 3 * j + 2)%nat)))
    <= Rsum e (fun j => 8 / 10^12 / (ln (s (f + 3 * j + 1)%nat / s (f + 3 * j + 2)%nat) - s (f + 3 * j)%nat / s (f + 3 * j + 2)%nat)).
Proof.
  intros sv zv f e s z b Vs Vz HI HM E. rewrite (expbarrier_R sv zv f e s z b Vs Vz E). clear E Vs Vz. revert HI HM. unfold primal_in.
  induction e as [|e IH]; intros HI HM.
  - exists (fun _ => 0). split; [intros; lia|]. cbn [Rsum]. rewrite Rminus_diag_eq, Rabs_R0 by reflexivity. lra.
  - destruct (IH (fun j Hj => HI j ltac:(lia)) (fun j Hj => HM j ltac:(lia))) as (c & Hc & B).
    destruct (conj_close _ _ _ (HI e ltac:(lia)) (HM e ltac:(lia))) as (ce & Hce & Be).
    exists (fun j => if (j =? e)%nat then ce else c j). split.
    + intros j Hj. destruct (Nat.eqb_spec j e) as [->|Hn]; [exact Hce|apply Hc; lia].
    + cbn [Rsum]. rewrite Nat.eqb_refl.
      rewrite (Rsum_ext e (fun j => (if (j =? e)%nat then ce else c j) + exp_barrier (z (f + 3 * j)%nat) (z (f + 3 * j + 1)%nat) (z (f + 3 * j + 2)%nat))
        (fun j => c j + exp_barrier (z (f + 3 * j)%nat) (z (f + 3 * j + 1)%nat) (z (f + 3 * j + 2)%nat))).
      2:{ intros j Hj. destruct (Nat.eqb_spec j e); [lia|reflexivity]. }
      match goal with |- Rabs (?a + (?p + ?q) - (?b + (ce + ?q))) <= _ => replace (a + (p + q) - (b + (ce + q))) with ((a - b) + (p - ce)) by ring end.
      eapply Rle_trans; [apply Rabs_triang|]. apply Rplus_le_compat; [exact B|exact Be].
Qed.
Print Assumptions C46_barrier.

(* inside the cones, with the exact solution, the measure is never below -3 times the
   number of exponential cones *)
Theorem C46_floor : forall l q e om s z tau kap, (forall d, In d q -> (1 <= d)%nat) -> int_K l q s -> int_K l q z -> 0 < tau -> 0 < kap ->
  primal_in (l + list_sum q) e s -> dual_in (l + list_sum q) e z -> (forall t, 1 < t -> wright t (om t)) ->
  - (3 * INR e) <= measure l q e (l + length q + 3 * e) om s z tau kap.
Proof. intros. apply measure_floor; auto. Qed.
Print Assumptions C46_floor.

(* a point inside one cone of each kind *)
Definition bar_cone : cone R := mkCone (mkLp 1 [None] [None] [None]) [mkSo 2 [None; None] [None; None] None None None None None [None] [] None None None]
  [mkEx [] [None; None; None; None; None; None] [None; None; None]] 3.
Definition bar_s (i : nat) : R := nth i [1; 2; 1; 0; 2; 1] 0.
Definition bar_z (i : nat) : R := nth i [1; 2; 1; -1; 1; 1] 0.
Definition bar_pt : @point ROps := @mkPoint ROps bar_s bar_z 1 1.
Definition bar_arr (f : nat -> R) : arr R := map (fun i => Some (f i)) (seq 0 6).

Lemma bar_in f : f 0%nat = 1 -> f 1%nat = 2 -> f 2%nat = 1 -> int_K 1 [2%nat] f.
Proof.
  intros E0 E1 E2. split.
  - intros [|i] Hi; [rewrite E0; lra|lia].
  - intros k p [H|[]]. injection H as <- <-. apply int_soc_det. unfold det, from. cbn [Rsum Nat.sub Nat.add]. rewrite E1, E2. split; lra.
Qed.
Lemma bar_exp : primal_in 3 1 bar_s /\ dual_in 3 1 bar_z.
Proof.
  split; intros j Hj; assert (j = 0%nat) as -> by lia; cbn.
  - split; [lra|]. replace (0 / 1) with 0 by field. rewrite exp_0. lra.
  - unfold exp_dual_int. replace (- (1) / -1) with 1 by field. rewrite ln_1. lra.
Qed.
Theorem C46_example : @cone_of ROps bar_cone 1 [2%nat] 1 /\ int_K 1 [2%nat] (p_s bar_pt) /\ int_K 1 [2%nat] (p_z bar_pt) /\ primal_in 3 1 (p_s bar_pt) /\ dual_in 3 1 (p_z bar_pt) /\
  1 / 10^11 <= ln (bar_s 4 / bar_s 5) - bar_s 3 / bar_s 5 /\ exists c, @centrality ROps bar_cone 6 5 bar_pt c.
Proof.
  assert (CO : @cone_of ROps bar_cone 1 [2%nat] 1).
  { split; try reflexivity. split; try reflexivity; intros c [<-|[]]; cbn; lia. }
  split; [exact CO|]. split; [apply bar_in; reflexivity|]. split; [apply bar_in; reflexivity|]. split; [apply bar_exp|]. split; [apply bar_exp|]. split.
  { cbn. replace (0 / 1) with 0 by field. replace (2 / 1) with 2 by field. rewrite Rminus_0_r.
    pose proof (ln_up 1 ltac:(lra)) as [L _]. unfold lt4 in L. replace (1 + 1) with 2 in L by ring. lra. }
  assert (G : forall f, full (bar_arr f) 6) by (intros f i Hi; do 6 (destruct i as [|i]; [eexists; reflexivity|]); lia).
  destruct (@expbarrier_safe ROps (bar_arr bar_s) (bar_arr bar_z) 3 1 6 ltac:(lia) (G _) (G _)) as [b1 E1].
  destruct (@symbarrier_safe ROps (bar_arr bar_s) (bar_arr bar_z) 1 1 bar_cone (fofn 5)) as [b2 E2].
  { intros c [<-|[]]. cbn. lia. } { intros i Hi. apply G. cbn in Hi. lia. } { intros i Hi. apply G. cbn in Hi. lia. }
  eexists. exists (bar_arr bar_s), (bar_arr bar_z), b1, b2. repeat split; [| |exact E1|exact E2]; intros i Hi; do 6 (destruct i as [|i]; [reflexivity|]); lia.
Qed.
Print Assumptions C46_example.
