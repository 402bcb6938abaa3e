(* The starting point of a run.  Mathematics over the reals. *)
From Coq Require Import List Arith Bool ZArith Reals Lia Lra.
From Verif Require Import Base Num.
From Verif.Spec Require Import Matrix Conic Jordan KktSpec KktMatrix Refine Direction.
Import ListNotations.
Open Scope R_scope.

(* every coordinate of the orthant, and the first coordinate of every second-order
   cone minus the norm of the others, is at least t; and one of them is exactly t *)
Record deep (t : R) (l : nat) (q : list nat) (u : nat -> R) : Prop := {
  dp_lp : forall i, (i < l)%nat -> t <= u i;
  dp_soc : forall k p, In (k, p) (layout l q) -> t <= u k - nrm (p - 1) (from 1 (from k u))
}.
Definition touches (t : R) (l : nat) (q : list nat) (u : nat -> R) : Prop :=
  (exists i, (i < l)%nat /\ u i = t) \/ (exists k p, In (k, p) (layout l q) /\ u k - nrm (p - 1) (from 1 (from k u)) = t).

(* u is r moved along the unit of the cone by a: by 1/100 if r is inside the cone, and
   otherwise as far as it takes to be at depth 1 *)
Definition pushed (l : nat) (q : list nat) (r u : nat -> R) (a : R) : Prop :=
  (forall i, (i < l + list_sum q)%nat -> u i = r i + if unit_at l q i then a else 0) /\
  ((int_K l q r /\ a = 1 / 100) \/ (~ int_K l q r /\ 1 <= a /\ deep 1 l q u /\ touches 1 l q u)).

(* a right-hand side of the KKT system, with zeros in the two rows added for every
   second-order cone *)
Definition spread (n p l : nat) (q : list nat) (r : triple) (i : nat) : R :=
  if (i <? n)%nat then q_x r i else if (i <? n + p)%nat then q_y r (i - n)
  else match unz l q (i - (n + p)) with Some j => q_z r j | None => 0 end.

(* d is what solving the system M for r gives, after at most nit refinement steps
   whose residuals are those of the matrix K, measured with the given drift *)
Definition refined (n p m l : nat) (q : list nat) (K M : nat -> nat -> R) (dr : nat -> R -> R -> R) (nit : Z) (r d : triple) : Prop :=
  let N := (n + p + (m + 2 * length q))%nat in let b := spread n p l q r in
  exists k xs, (Z.of_nat k <= Z.max 0 nit)%Z /\ refinement N k M b (resid N (n + p) K dr b) xs /\
    (forall i, (i < n)%nat -> q_x d i = xs k i) /\ (forall i, (i < p)%nat -> q_y d i = xs k (n + i)%nat) /\
    (forall t j, (t < m + 2 * length q)%nat -> unz l q t = Some j -> q_z d j = xs k (n + p + t)%nat).

(* the two systems behind the starting point: with the identity as scaling,
     A'y1 + G'z1 = 0, A x1 = b, G x1 - z1 = h     (least norm of h - G x)
     A'y2 + G'z2 = -c, A x2 = 0, G x2 - z2 = 0    (least norm of z)  *)
Definition rhs_primal (P : program) : triple := mkTriple (fun _ => 0) (g_b P) (g_h P).
Definition rhs_dual (P : program) : triple := mkTriple (fun j => - g_c P j) (fun _ => 0) (fun _ => 0).

(* u is the starting point made from d1 and d2 *)
Record started (P : program) (l : nat) (q : list nat) (d1 d2 : triple) (a1 a2 : R) (u : spot) : Prop := {
  sd_x : forall i, (i < g_n P)%nat -> t_x u i = q_x d1 i;
  sd_y : forall i, (i < g_p P)%nat -> t_y u i = q_y d2 i;
  sd_s : pushed l q (fun i => - q_z d1 i) (t_s u) a1;
  sd_z : pushed l q (q_z d2) (t_z u) a2;
  sd_tau : t_tau u = 1; sd_kap : t_kap u = 1
}.

(* the starting point when there are exponential cones: the unit of the orthant and of
   every second-order cone, and the same three numbers for every exponential cone *)
Definition ray (j : nat) : R :=
  match j with 0%nat => - 1.051383945322714 | 1%nat => 1.258967884768947 | _ => 0.556409619469370 end.
Definition unit_point (l : nat) (q : list nat) (i : nat) : R :=
  if (i <? l + list_sum q)%nat then (if unit_at l q i then 1 else 0) else ray ((i - (l + list_sum q)) mod 3).
Record unit_started (P : program) (l : nat) (q : list nat) (u : spot) : Prop := {
  us_x : forall i, (i < g_n P)%nat -> t_x u i = 0;
  us_y : forall i, (i < g_p P)%nat -> t_y u i = 0;
  us_s : forall i, (i < g_m P)%nat -> t_s u i = unit_point l q i;
  us_z : forall i, (i < g_m P)%nat -> t_z u i = unit_point l q i;
  us_tau : t_tau u = 1; us_kap : t_kap u = 1
}.

(* ------------------------------------------------------------- consequences *)
(* the residuals of the starting point are those of the two solves, moved along the
   unit of the cone *)
Lemma started_hom P l q d1 d2 a1 a2 u : started P l q d1 d2 a1 a2 u -> g_m P = (l + list_sum q)%nat ->
  let e i := if unit_at l q i then 1 else 0 in
  (forall i, hom_y P u i = miss_y P d1 (rhs_primal P) i) /\
  (forall i, (i < g_m P)%nat -> hom_z P u i = miss_z P (fun z => z) d1 (rhs_primal P) i + a1 * e i) /\
  (forall j, hom_x P u j = - (miss_x P d2 (rhs_dual P) j + a2 * mulvT (g_m P) (g_G P) e j)).
Proof.
  intros [X Y [S _] [Z _] T K] EM e. unfold hom_x, hom_y, hom_z, miss_x, miss_y, miss_z. rewrite T. cbn [rhs_primal rhs_dual q_x q_y q_z].
  assert (MV : forall M i, mulv (g_n P) M (t_x u) i = mulv (g_n P) M (q_x d1) i) by (intros; unfold mulv; apply Rsum_ext; intros; f_equal; auto).
  split; [|split].
  - intros i. rewrite MV. ring.
  - intros i Hi. rewrite MV, S by lia. unfold e. destruct (unit_at l q i); ring.
  - intros j. assert (mulvT (g_p P) (g_A P) (t_y u) j = mulvT (g_p P) (g_A P) (q_y d2) j) as -> by (unfold mulvT; apply Rsum_ext; intros; f_equal; auto).
    assert (mulvT (g_m P) (g_G P) (t_z u) j = mulvT (g_m P) (g_G P) (q_z d2) j + a2 * mulvT (g_m P) (g_G P) e j) as ->; [|ring].
    unfold mulvT. rewrite <- Rsum_scal, <- Rsum_plus. apply Rsum_ext. intros i Hi. rewrite Z by lia. unfold e. destruct (unit_at l q i); ring.
Qed.

Lemma layout_ge q : forall b k p, In (k, p) (layout b q) -> (b <= k)%nat /\ (k + p <= b + list_sum q)%nat /\ In p q.
Proof.
  induction q as [|d t IH]; intros b k p H; [destruct H|]. cbn [layout] in H. change (list_sum (d :: t)) with (d + list_sum t)%nat.
  destruct H as [E|H]; [injection E as <- <-; repeat split; try lia; left; auto|]. apply IH in H as (A & B & D). repeat split; try lia. right; auto.
Qed.
Lemma heads_at q : (forall d, In d q -> (1 <= d)%nat) -> forall b k p i, In (k, p) (layout b q) -> (i < p)%nat -> heads b q (k + i) = (i =? 0)%nat.
Proof.
  induction q as [|d t IH]; intros Hq b k p i H Hi; [destruct H|]. cbn [layout] in H. cbn [heads].
  assert (Ht : forall d, In d t -> (1 <= d)%nat) by (intros; apply Hq; right; auto). pose proof (Hq d ltac:(left; auto)) as Hd.
  assert (LO : forall b j, (j < b)%nat -> heads b t j = false).
  { clear. induction t as [|d t IH]; intros b j Hj; cbn [heads]; auto. rewrite IH by lia. destruct (Nat.eqb_spec j b); [lia|auto]. }
  destruct H as [E|H].
  - injection E as <- <-. rewrite LO by lia. rewrite orb_false_r. destruct (Nat.eqb_spec (b + i) b), (Nat.eqb_spec i 0); auto; lia.
  - rewrite (IH Ht _ _ _ _ H Hi). apply layout_ge in H as (A & _). destruct (Nat.eqb_spec (k + i) b); [lia|auto].
Qed.
Lemma unit_at_soc l q k p i : (forall d, In d q -> (1 <= d)%nat) -> In (k, p) (layout l q) -> (i < p)%nat -> unit_at l q (k + i) = (i =? 0)%nat.
Proof. intros Hq H Hi. unfold unit_at. rewrite (heads_at q Hq l k p i H Hi). apply layout_ge in H as (A & _). destruct (Nat.ltb_spec (k + i) l); [lia|auto]. Qed.
Lemma unit_at_lp l q i : (i < l)%nat -> unit_at l q i = true.
Proof. intros H. unfold unit_at. destruct (Nat.ltb_spec i l); [auto|lia]. Qed.

Lemma pushed_inside l q r u a : (forall d, In d q -> (1 <= d)%nat) -> pushed l q r u a -> 1 / 100 <= a /\ int_K l q u.
Proof.
  intros Hq [E [[[A B] ->]|(_ & Ha & [A B] & _)]]; (split; [lra|]); constructor.
  - intros i Hi. rewrite E, unit_at_lp by lia. specialize (A i Hi). lra.
  - intros k p HI. specialize (B k p HI). unfold int_soc in *. pose proof (layout_ge q l k p HI) as (G1 & G2 & G3). pose proof (Hq p G3) as G4.
    assert (U : forall i, (i < p)%nat -> u (k + i)%nat = r (k + i)%nat + if (i =? 0)%nat then 1 / 100 else 0).
    { intros i Hi. rewrite E by lia. rewrite (unit_at_soc l q k p i) by auto. reflexivity. }
    unfold from at 3. rewrite U by lia. cbn [Nat.eqb].
    assert (nrm (p - 1) (from 1 (from k u)) = nrm (p - 1) (from 1 (from k r))) as ->.
    { unfold nrm. f_equal. apply Rsum_ext. intros i Hi. unfold from. rewrite !(U (1 + i)%nat) by lia. cbn [Nat.eqb Nat.add]. ring. }
    unfold from at 3 in B. lra.
  - intros i Hi. specialize (A i Hi). lra.
  - intros k p HI. specialize (B k p HI). unfold int_soc. unfold from at 3. rewrite Nat.add_0_r. lra.
Qed.

(* what the two systems mean: the x of the first one makes h - G x as short as A x = b
   allows, and the z of the second one is the shortest with A'y + G'z = -c *)
Record solves_id (P : program) (r d : triple) : Prop := {
  si_x : forall j, (j < g_n P)%nat -> miss_x P d r j = 0;
  si_y : forall i, (i < g_p P)%nat -> miss_y P d r i = 0;
  si_z : forall i, (i < g_m P)%nat -> miss_z P (fun z => z) d r i = 0
}.

Lemma adj n k (M : nat -> nat -> R) x v : dotp n (fun j => mulvT k M v j) x = dotp k (fun i => mulv n M x i) v.
Proof.
  unfold dotp, mulv, mulvT. rewrite (Rsum_ext k (fun i => Rsum n (fun j => M i j * x j) * v i) (fun i => Rsum n (fun j => M i j * x j * v i))).
  2:{ intros i _. rewrite <- Rsum_scal_r. reflexivity. }
  rewrite (Rsum_ext n _ (fun j => Rsum k (fun i => M i j * x j * v i))).
  2:{ intros j _. rewrite <- Rsum_scal_r. apply Rsum_ext. intros; ring. }
  apply Rsum_swap.
Qed.

Lemma nrm_le_perp m (u v : nat -> R) : dotp m u v = 0 -> nrm m u <= nrm m (fun i => u i + v i).
Proof.
  intros E. unfold nrm. apply sqrt_le_1_alt. 
  assert (Rsum m (fun i => (u i + v i) * (u i + v i)) = Rsum m (fun i => u i * u i) + 2 * dotp m u v + Rsum m (fun i => v i * v i)) as ->.
  { unfold dotp. rewrite <- Rsum_scal, <- !Rsum_plus. apply Rsum_ext. intros; ring. }
  rewrite E. assert (0 <= Rsum m (fun i => v i * v i)) by (apply Rsum_nonneg; intros; nra). lra.
Qed.

Lemma least_primal P d : solves_id P (rhs_primal P) d ->
  (forall i, (i < g_m P)%nat -> - q_z d i = g_h P i - mulv (g_n P) (g_G P) (q_x d) i) /\
  (forall i, (i < g_p P)%nat -> mulv (g_n P) (g_A P) (q_x d) i = g_b P i) /\
  forall x, (forall i, (i < g_p P)%nat -> mulv (g_n P) (g_A P) x i = g_b P i) ->
    nrm (g_m P) (fun i => g_h P i - mulv (g_n P) (g_G P) (q_x d) i) <= nrm (g_m P) (fun i => g_h P i - mulv (g_n P) (g_G P) x i).
Proof.
  intros [X Y Z]. unfold miss_x, miss_y, miss_z in *. cbn [rhs_primal q_x q_y q_z] in *.
  assert (ZE : forall i, (i < g_m P)%nat -> - q_z d i = g_h P i - mulv (g_n P) (g_G P) (q_x d) i) by (intros i Hi; specialize (Z i Hi); lra).
  assert (YE : forall i, (i < g_p P)%nat -> mulv (g_n P) (g_A P) (q_x d) i = g_b P i) by (intros i Hi; specialize (Y i Hi); lra).
  split; [exact ZE|]. split; [exact YE|]. intros x Hx.
  set (v i := mulv (g_n P) (g_G P) (fun j => q_x d j + -1 * x j) i).
  rewrite (nrm_ext (g_m P) (fun i => g_h P i - mulv (g_n P) (g_G P) x i) (fun i => (g_h P i - mulv (g_n P) (g_G P) (q_x d) i) + v i)).
  2:{ intros i Hi. unfold v. rewrite mulv_along. ring. }
  apply nrm_le_perp.
  transitivity (- dotp (g_m P) v (q_z d)).
  { unfold dotp. rewrite <- Rsum_opp. apply Rsum_ext. intros i Hi. rewrite <- ZE by auto. ring. }
  unfold v. rewrite <- (adj (g_n P) (g_m P) (g_G P)).
  assert (dotp (g_n P) (fun j => mulvT (g_m P) (g_G P) (q_z d) j) (fun j => q_x d j + -1 * x j) = - dotp (g_n P) (fun j => mulvT (g_p P) (g_A P) (q_y d) j) (fun j => q_x d j + -1 * x j)) as ->.
  { unfold dotp. rewrite <- Rsum_opp. apply Rsum_ext. intros j Hj. specialize (X j Hj). replace (mulvT (g_m P) (g_G P) (q_z d) j) with (- mulvT (g_p P) (g_A P) (q_y d) j) by lra. ring. }
  rewrite adj. assert (dotp (g_p P) (fun i => mulv (g_n P) (g_A P) (fun j => q_x d j + -1 * x j) i) (q_y d) = 0) as ->; [|ring].
  unfold dotp. apply Rsum_0. intros i Hi. rewrite mulv_along, YE, Hx by auto. ring.
Qed.

Lemma least_dual P d : solves_id P (rhs_dual P) d ->
  (forall j, (j < g_n P)%nat -> mulvT (g_p P) (g_A P) (q_y d) j + mulvT (g_m P) (g_G P) (q_z d) j = - g_c P j) /\
  forall y z, (forall j, (j < g_n P)%nat -> mulvT (g_p P) (g_A P) y j + mulvT (g_m P) (g_G P) z j = - g_c P j) -> nrm (g_m P) (q_z d) <= nrm (g_m P) z.
Proof.
  intros [X Y Z]. unfold miss_x, miss_y, miss_z in *. cbn [rhs_dual q_x q_y q_z] in *.
  assert (XE : forall j, (j < g_n P)%nat -> mulvT (g_p P) (g_A P) (q_y d) j + mulvT (g_m P) (g_G P) (q_z d) j = - g_c P j) by (intros j Hj; specialize (X j Hj); lra).
  split; [exact XE|]. intros y z Hz.
  rewrite (nrm_ext (g_m P) z (fun i => q_z d i + (z i + -1 * q_z d i))) by (intros; ring).
  apply nrm_le_perp.
  transitivity (dotp (g_m P) (fun i => mulv (g_n P) (g_G P) (q_x d) i) (fun i => z i + -1 * q_z d i)).
  { unfold dotp. apply Rsum_ext. intros i Hi. specialize (Z i Hi). replace (q_z d i) with (mulv (g_n P) (g_G P) (q_x d) i) at 1 by lra. ring. }
  rewrite <- adj.
  transitivity (- dotp (g_n P) (fun j => mulvT (g_p P) (g_A P) (fun i => y i + -1 * q_y d i) j) (q_x d)).
  { unfold dotp. rewrite <- Rsum_opp. apply Rsum_ext. intros j Hj. rewrite !mulvT_along. specialize (XE j Hj). specialize (Hz j Hj). 
    replace (mulvT (g_m P) (g_G P) z j) with (- g_c P j - mulvT (g_p P) (g_A P) y j) by lra.
    replace (mulvT (g_m P) (g_G P) (q_z d) j) with (- g_c P j - mulvT (g_p P) (g_A P) (q_y d) j) by lra. ring. }
  rewrite adj. assert (dotp (g_p P) (fun i => mulv (g_n P) (g_A P) (q_x d) i) (fun i => y i + -1 * q_y d i) = 0) as ->; [|ring].
  unfold dotp. apply Rsum_0. intros i Hi. specialize (Y i Hi). replace (mulv (g_n P) (g_A P) (q_x d) i) with 0 by lra. ring.
Qed.
