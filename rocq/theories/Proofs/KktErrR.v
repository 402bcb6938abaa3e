(* The residual of kkt.c and the refinement loop in exact arithmetic. *)
From Coq Require Import List Arith Bool ZArith Reals Lia Lra Permutation.
From Verif Require Import Base Num.
From Verif.Model Require Import Spla Splamm Types Consts Expcone Cone Ldl Kkt Equil Preproc.
From Verif.Spec Require Import Matrix Conic Fill KktSpec KktMatrix Refine Shape SetupSpec.
From Verif.Proofs Require Import SplaP LoopLib ConeP Scal2P ConeR SafeLib Stretch Work LdlSym LdlR WorkR KktAct SafeK KktErr.
From Verif.Properties Require Import Ldl.
Import ListNotations.
Open Scope R_scope.

(* ---- sums over the expanded conic rows ---- *)
Lemma unzsoc_sum q : forall m (f x z : nat -> R), (list_sum q <= m)%nat ->
  (forall t j, (t < m + 2 * length q)%nat -> unzsoc q t = Some j -> z j = x t) ->
  Rsum (m + 2 * length q) (fun t => match unzsoc q t with Some j => f j | None => 0 end * x t) = Rsum m (fun j => f j * z j).
Proof.
  induction q as [|d q IH]; intros m f x z Hm HZ.
  - cbn [length unzsoc]. rewrite Nat.mul_0_r, Nat.add_0_r. apply Rsum_ext. intros i Hi. rewrite (HZ i i); auto. cbn. lia.
  - change (list_sum (d :: q)) with (d + list_sum q)%nat in Hm. cbn [length] in *.
    replace (m + 2 * S (length q))%nat with (d + (2 + ((m - d) + 2 * length q)))%nat by lia.
    rewrite Rsum_split, Rsum_split. replace m with (d + (m - d))%nat at 2 by lia. rewrite (Rsum_split d (m - d)). f_equal.
    + apply Rsum_ext. intros i Hi. cbn [unzsoc]. rewrite (proj2 (Nat.ltb_lt _ _) Hi). rewrite (HZ i i); auto; [lia|].
      cbn [unzsoc]. rewrite (proj2 (Nat.ltb_lt _ _) Hi). auto.
    + rewrite (Rsum_0 2). 2:{ intros i Hi. cbn [unzsoc]. rewrite (proj2 (Nat.ltb_ge (d + i) d)), (proj2 (Nat.ltb_lt (d + i) (d + 2))) by lia. lra. }
      rewrite Rplus_0_l.
      rewrite <- (IH (m - d)%nat (fun j => f (d + j)%nat) (fun t => x (d + (2 + t))%nat) (fun j => z (d + j)%nat)); [|lia|].
      * apply Rsum_ext. intros t Ht. cbn [unzsoc]. rewrite (proj2 (Nat.ltb_ge (d + (2 + t)) d)), (proj2 (Nat.ltb_ge (d + (2 + t)) (d + 2))) by lia.
        replace (d + (2 + t) - (d + 2))%nat with t by lia. destruct (unzsoc q t); cbn; lra.
      * intros t j Ht E. apply HZ; [lia|]. cbn [unzsoc]. rewrite (proj2 (Nat.ltb_ge (d + (2 + t)) d)), (proj2 (Nat.ltb_ge (d + (2 + t)) (d + 2))) by lia.
        replace (d + (2 + t) - (d + 2))%nat with t by lia. rewrite E. auto.
Qed.

Lemma unz_sum l q m (f x z : nat -> R) : (l + list_sum q <= m)%nat ->
  (forall t j, (t < m + 2 * length q)%nat -> unz l q t = Some j -> z j = x t) ->
  Rsum (m + 2 * length q) (fun t => match unz l q t with Some j => f j | None => 0 end * x t) = Rsum m (fun j => f j * z j).
Proof.
  intros Hm HZ. replace (m + 2 * length q)%nat with (l + ((m - l) + 2 * length q))%nat by lia.
  replace m with (l + (m - l))%nat at 2 by lia. rewrite !(Rsum_split l). f_equal.
  - apply Rsum_ext. intros i Hi. unfold unz. rewrite (proj2 (Nat.ltb_lt _ _) Hi). rewrite (HZ i i); auto; [lia|].
    unfold unz. rewrite (proj2 (Nat.ltb_lt _ _) Hi). auto.
  - rewrite <- (unzsoc_sum q (m - l) (fun j => f (l + j)%nat) (fun t => x (l + t)%nat) (fun j => z (l + j)%nat)); [|lia|].
    + apply Rsum_ext. intros t Ht. unfold unz. rewrite (proj2 (Nat.ltb_ge (l + t) l)) by lia.
      replace (l + t - l)%nat with t by lia. destruct (unzsoc q t); cbn; lra.
    + intros t j Ht E. apply HZ; [lia|]. unfold unz. rewrite (proj2 (Nat.ltb_ge (l + t) l)) by lia.
      replace (l + t - l)%nat with t by lia. rewrite E. auto.
Qed.

(* ---- the KKT matrix times a vector, row by row ---- *)
Section Act.
Variables (n p mt l : nat) (q : list nat) (A G V : nat -> nat -> R) (d e : R) (x : nat -> R).
Let K := kkt_entry n p A G d e l q V.
Let N := (n + p + mt)%nat.

Ltac kk := unfold K, kkt_entry;
  repeat match goal with
  | |- context [Nat.ltb ?a ?b] => first [rewrite (proj2 (Nat.ltb_lt a b)) by lia | rewrite (proj2 (Nat.ltb_ge a b)) by lia]
  end.

Lemma act_x i : (i < n)%nat -> symmul N K x i =
  d * x i + Rsum p (fun j => A j i * x (n + j)%nat) +
  Rsum mt (fun t => match unz l q t with Some j => G j i | None => 0 end * x (n + p + t)%nat).
Proof.
  intros Hi. unfold symmul, N. rewrite !Rsum_split. f_equal; [f_equal|].
  - rewrite <- (delta_l n i (fun _ => d) x Hi). apply Rsum_ext. intros j Hj.
    kk. destruct (Nat.eqb_spec i j) as [E|E]; [subst; rewrite Nat.min_id, Nat.max_id, Nat.eqb_refl; auto|].
    destruct (Nat.eqb_spec (Nat.min i j) (Nat.max i j)); [lia|auto].
  - apply Rsum_ext. intros j Hj. rewrite Nat.min_l, Nat.max_r by lia. kk. replace (n + j - n)%nat with j by lia. auto.
  - apply Rsum_ext. intros j Hj. rewrite Nat.min_l, Nat.max_r by lia. kk. replace (n + p + j - (n + p))%nat with j by lia. auto.
Qed.

Lemma act_y i : (i < p)%nat -> symmul N K x (n + i) = Rsum n (fun j => A i j * x j) + e * x (n + i)%nat.
Proof.
  intros Hi. unfold symmul, N. rewrite !Rsum_split. rewrite (Rsum_0 mt).
  - rewrite Rplus_0_r. f_equal.
    + apply Rsum_ext. intros j Hj. rewrite Nat.min_r, Nat.max_l by lia. kk. replace (n + i - n)%nat with i by lia. auto.
    + rewrite <- (delta_l p i (fun _ => e) (fun j => x (n + j)%nat) Hi). apply Rsum_ext. intros j Hj.
      kk. destruct (Nat.eqb_spec i j) as [E|E]; [subst; rewrite Nat.min_id, Nat.max_id, Nat.eqb_refl; auto|].
      destruct (Nat.eqb_spec (Nat.min (n + i) (n + j)) (Nat.max (n + i) (n + j))); [lia|auto].
  - intros t Ht. rewrite Nat.min_l, Nat.max_r by lia. kk. lra.
Qed.

Lemma act_z t : (t < mt)%nat -> symmul N K x (n + p + t) =
  Rsum n (fun j => match unz l q t with Some r => G r j | None => 0 end * x j) + symmul mt V (fun s => x (n + p + s)%nat) t.
Proof.
  intros Ht. unfold symmul, N. rewrite !Rsum_split. rewrite (Rsum_0 p).
  - rewrite Rplus_0_r. f_equal.
    + apply Rsum_ext. intros j Hj. rewrite Nat.min_r, Nat.max_l by lia. kk. replace (n + p + t - (n + p))%nat with t by lia. auto.
    + apply Rsum_ext. intros j Hj. kk. f_equal. f_equal; lia.
  - intros j Hj. rewrite Nat.min_r, Nat.max_l by lia. kk. lra.
Qed.
End Act.

(* ---- the measured residual ---- *)
Definition maxon (P : nat -> Prop) (f : nat -> R) (r : R) : Prop :=
  0 <= r /\ (forall i, P i -> Rabs (f i) <= r) /\ (r = 0 \/ exists i, P i /\ r = Rabs (f i)).
Lemma maxon_union P Q f r s : maxon P f r -> maxon Q f s -> maxon (fun i => P i \/ Q i) f (if Rltb r s then s else r).
Proof.
  intros (A1 & A2 & A3) (B1 & B2 & B3). unfold Rltb. destruct (Rlt_dec r s) as [H|H]; (split; [auto|split]).
  - intros i [Hi|Hi]; [specialize (A2 i Hi); lra|auto].
  - destruct B3 as [|(i & Hi & E)]; eauto.
  - intros i [Hi|Hi]; [auto|specialize (B2 i Hi); lra].
  - destruct A3 as [|(i & Hi & E)]; eauto.
Qed.
Lemma maxon_iff P Q f r : maxon P f r -> (forall i, P i <-> Q i) -> maxon Q f r.
Proof.
  intros (A1 & A2 & A3) H. split; auto. split.
  - intros i Hi. apply A2, H, Hi.
  - destruct A3 as [|(i & Hi & E)]; auto. right. exists i. split; auto. apply H, Hi.
Qed.
Lemma maxon_shift (v : arr R) k N f r : vec v N (fun i => f (k + i)%nat) -> @norminf ROps v N = Some r -> maxon (fun i => (k <= i < k + N)%nat) f r.
Proof.
  intros V E. destruct (norminf_spec N _ v V) as (r' & E' & A1 & A2 & A3). change (@norminf ROps v N = Some r') in E'. rewrite E in E'. injection E' as <-.
  split; auto. split.
  - intros i Hi. replace i with (k + (i - k))%nat by lia. apply A2. lia.
  - destruct A3 as [|(i & Hi & Er)]; auto. right. exists (k + i)%nat. split; [lia|auto].
Qed.

Lemma unzsoc_usoc q : forall t j, unzsoc q t = Some j -> usoc q t = false /\ rsoc q t = 1.
Proof.
  induction q as [|d q IH]; intros t j E; cbn [unzsoc usoc rsoc] in *; auto.
  destruct (Nat.ltb_spec t d) as [H|H].
  - rewrite (proj2 (Nat.ltb_lt t (d + 2))) by lia. destruct (Nat.eqb_spec t (d + 1)); [lia|auto].
  - destruct (Nat.ltb_spec t (d + 2)) as [H'|H']; [discriminate|]. rewrite !(proj2 (Nat.eqb_neq _ _)) by lia.
    destruct (unzsoc q (t - (d + 2))) eqn:E1; [|discriminate]. eapply IH; eauto.
Qed.
Lemma unz_usoc l q t j : unz l q t = Some j -> (Nat.leb l t && usoc q (t - l))%bool = false.
Proof.
  unfold unz. destruct (Nat.ltb_spec t l) as [H|H]; [intros _; destruct (Nat.leb_spec l t); [lia|auto]|].
  destruct (unzsoc q (t - l)) eqn:E; [|discriminate]. intros _. rewrite (proj1 (unzsoc_usoc _ _ _ E)). apply andb_false_r.
Qed.
Lemma unz_vreg l q t j : unz l q t = Some j -> vreg l q t = 1.
Proof.
  unfold unz, vreg. destruct (Nat.ltb_spec t l) as [H|H]; auto. destruct (unzsoc q (t - l)) eqn:E; [|discriminate]. intros _.
  exact (proj2 (unzsoc_usoc _ _ _ E)).
Qed.

Section Err.
Variables (A : option (spmat R)) (G : spmat R) (n p : nat) (C : cone R) (l : nat) (q : list nat) (e : nat) (isinit : bool) (pf : nat -> nat) (bf : nat -> R).
Notation m := (l + list_sum q + 3 * e)%nat.
Notation mt := (l + list_sum q + 3 * e + 2 * length q)%nat.
Let N := (n + p + mt)%nat.
Hypothesis CO : @cone_of ROps C l q e.
Hypothesis SC : isinit = false -> @ConeP.scaled ROps C.
Hypothesis WG : wf_sp G.
Hypothesis Gn : sp_n G = n.
Hypothesis Gm : sp_m G = m.
Hypothesis HA : match A with Some A => wf_sp A /\ sp_n A = n /\ sp_m A = p | None => p = 0%nat end.

Let b i := bf (pf i).
Definition Vof : nat -> nat -> R := if isinit then unitV l q else vmat_of C.
Definition drof : nat -> R -> R -> R := if isinit then drift0 l q (@DELTASTAT ROps) else drift l q (@DELTASTAT ROps).
Definition Kof : nat -> nat -> R := kkt_entry n p (denseA A) (dense G) (@DELTASTAT ROps) (- @DELTASTAT ROps) l q Vof.

Lemma msize_C : @msize ROps C = m /\ @nsoc ROps C = length q /\ @lpp ROps C = l /\ map so_p (co_soc C) = q.
Proof.
  destruct CO as [S0 EL EQ EE]. unfold msize, hsize, nsoc. rewrite EL, EQ, EE. repeat split; auto.
  rewrite <- EQ, map_length. auto.
Qed.

Lemma unit_act x t : (t < mt)%nat -> symmul mt (unitV l q) x t = (if Nat.leb l t && usoc q (t - l) then 1 else -1) * x t.
Proof.
  intros Ht. unfold symmul. rewrite <- (delta_l mt t (fun t => if Nat.leb l t && usoc q (t - l) then 1 else -1) x Ht).
  apply Rsum_ext. intros j Hj. unfold unitV. destruct (Nat.eqb_spec t j) as [E|E]; [subst; rewrite Nat.min_id, Nat.max_id, Nat.eqb_refl; auto|].
  destruct (Nat.eqb_spec (Nat.min t j) (Nat.max t j)); [lia|auto].
Qed.

Lemma err_of_R (xv : nat -> R) (dx dy dz g0 : arr R) nex ney nez e' t' g' :
  @parts ROps n p C pf xv dx dy dz -> (N <= length g0)%nat ->
  @err_of ROps A G n p C isinit pf bf xv dx dy dz g0 nex ney nez e' t' g' ->
  let x i := xv (pf i) in
  vec e' N (resid N (n + p) Kof drof b x) /\
  maxabs N (resid N (n + p) Kof drof b x) (if (0 <? p)%nat then @fmax ROps (@fmax ROps nex nez) ney else @fmax ROps nex nez).
Proof.
  intros (Px & Py & Fz & Pz) Lg [EX EY EG EZ ET EF] x.
  destruct msize_C as (M1 & M2 & M3 & M4). change (@F ROps) with R in *. rewrite M1, M2 in *. rewrite M3, M4 in *.
  set (zf := gd 0 dz).
  assert (VZ : vec dz m zf) by (intros i Hi; destruct (Fz i Hi) as [v Ev]; unfold zf, gd; rewrite Ev; auto).
  assert (ZX' : forall d0 t j, (t < mt)%nat -> unz l q t = Some j -> gd d0 dz j = x (n + p + t)%nat).
  { intros d0 t j Ht E. specialize (Pz t j Ht E). unfold gd. rewrite Pz. auto. }
  assert (ZX : forall t j, (t < mt)%nat -> unz l q t = Some j -> zf j = x (n + p + t)%nat) by (intros; apply ZX'; auto).
  assert (VX : vec dx n x) by exact Px.
  assert (VY : vec dy p (fun i => x (n + i)%nat)) by exact Py.
  assert (GX : forall d0 i, (i < n)%nat -> gd d0 dx i = x i) by (intros d0 i Hi; unfold gd; rewrite VX by auto; auto).
  assert (GY : forall d0 i, (i < p)%nat -> gd d0 dy i = x (n + i)%nat) by (intros d0 i Hi; unfold gd; rewrite VY by auto; auto).
  set (D := @DELTASTAT ROps) in *.
  (* the three parts *)
  assert (RX : maxon (fun i => (0 <= i < 0 + n)%nat) (resid N (n + p) Kof drof b x) nex /\
               forall i, (i < n)%nat -> get e' i = Some (resid N (n + p) Kof drof b x i)).
  { destruct EX as (ex0 & ex1 & ex2 & L0 & V0 & E1 & E2 & EN & EE).
    assert (H1 : vec ex1 n (fun i => b i - D * x i - Rsum p (fun j => denseA A j i * x (n + j)%nat)) /\ length ex1 = n).
    { assert (V0' : vec ex0 n (fun i => b i - D * x i)).
      { intros i Hi. rewrite V0 by auto. f_equal. unR. fold D. change (@F ROps) with R in *. unfold b. rewrite GX by auto. reflexivity. }
      destruct A as [A'|] eqn:EA; cbn [denseA].
      - destruct HA as (WA & An & Am).
        destruct (sparseMtVm_spec A' (fun i => x (n + i)%nat) dy ex0 0 false WA) as (y' & E' & L' & V' & _).
        + change (@F ROps) with R in *. rewrite Am. exact VY.
        + change (@F ROps) with R in *. rewrite An. lia.
        + intros _ j Hj. change (@F ROps) with R in *. rewrite An in Hj. rewrite V0' by auto. f_equal. unfold gd. rewrite V0' by auto. auto.
        + unR. change (@F ROps) with R in *. rewrite E1 in E'. injection E' as <-. rewrite An, Am in V'. split; [|congruence]. intros i Hi. rewrite V' by auto. f_equal.
          unfold mode_base, mulvT. cbn [Z.gtb Z.compare]. unfold gd. rewrite V0' by auto. reflexivity.
      - injection E1 as <-. split; [|congruence]. intros i Hi. rewrite V0' by auto. f_equal. rewrite Rsum_0; [lra|]. intros; lra. }
    destruct H1 as [V1 L1].
    destruct (sparseMtVm_spec G zf dz ex1 0 false WG) as (y' & E' & L' & V' & _).
    { change (@F ROps) with R in *. rewrite Gm. exact VZ. } { change (@F ROps) with R in *. rewrite Gn. lia. }
    { intros _ j Hj. change (@F ROps) with R in *. rewrite Gn in Hj. rewrite V1 by auto. f_equal. unfold gd. rewrite V1 by auto. auto. }
    unR. change (@F ROps) with R in *. rewrite E2 in E'. injection E' as <-. rewrite Gn, Gm in V'.
    assert (V2 : vec ex2 n (resid N (n + p) Kof drof b x)).
    { intros i Hi. rewrite V' by auto. f_equal. unfold mode_base, mulvT. cbn [Z.gtb Z.compare]. unfold gd at 1. rewrite V1 by auto.
      unfold resid. rewrite (proj2 (Nat.ltb_lt i (n + p))) by lia. unfold N, Kof. rewrite act_x by auto.
      rewrite (unz_sum l q m (fun j => dense G j i) (fun t => x (n + p + t)%nat) zf); [|lia|auto]. fold D. lra. }
    split.
    - apply (maxon_shift ex2 0 n); auto.
    - intros i Hi. rewrite EE by auto. apply V2. auto. }
  assert (RY : if (0 <? p)%nat then maxon (fun i => (n <= i < n + p)%nat) (resid N (n + p) Kof drof b x) ney /\
               forall i, (i < p)%nat -> get e' (n + i) = Some (resid N (n + p) Kof drof b x (n + i)) else True).
  { destruct (Nat.ltb_spec 0 p) as [Hp|Hp]; [|exact I]. 
    destruct EY as (A' & ey0 & ey1 & EA & L0 & V0 & E1 & EN & EE). rewrite EA in HA. destruct HA as (WA & An & Am).
    assert (V0' : vec ey0 p (fun i => b (n + i)%nat + D * x (n + i)%nat)).
    { intros i Hi. rewrite V0 by auto. f_equal. unR. fold D. change (@F ROps) with R in *. unfold b. rewrite GY by auto. reflexivity. }
    destruct (sparseMV_spec A' x dx ey0 (-1) 0 WA) as (y' & E' & L' & V' & _).
    { change (@F ROps) with R in *. rewrite An. exact VX. } { change (@F ROps) with R in *. rewrite Am. lia. }
    { intros _ j Hj. change (@F ROps) with R in *. rewrite Am in Hj. rewrite V0' by auto. f_equal. unfold gd. rewrite V0' by auto. auto. }
    unR. change (@F ROps) with R in *. rewrite E1 in E'. injection E' as <-. rewrite An, Am in V'.
    assert (V2 : vec ey1 p (fun i => resid N (n + p) Kof drof b x (n + i))).
    { intros i Hi. rewrite V' by auto. f_equal. unfold mode_base, mode_sign, mulv. cbn [Z.gtb Z.compare]. unfold gd at 1. rewrite V0' by auto.
      unfold resid. rewrite (proj2 (Nat.ltb_lt (n + i) (n + p))) by lia. unfold N, Kof. rewrite act_y by auto. rewrite EA. cbn [denseA]. fold D. lra. }
    split.
    - apply (maxon_shift ey1 n p); auto.
    - intros i Hi. rewrite EE by auto. apply V2. auto. }
  assert (RZ : maxon (fun i => (n + p <= i < n + p + mt)%nat) (resid N (n + p) Kof drof b x) nez /\
               forall t, (t < mt)%nat -> get e' (n + p + t) = Some (resid N (n + p) Kof drof b x (n + p + t))).
  { destruct EZ as (ez0 & ez1 & L0 & V0 & E1 & EN & EE).
    destruct (sparseMV_spec G x dx g0 1 1 WG) as (y' & E' & L' & V' & _).
    { change (@F ROps) with R in *. rewrite Gn. exact VX. } { change (@F ROps) with R in *. rewrite Gm. unfold N in Lg. lia. }
    { intros HH. lia. }
    unR. change (@F ROps) with R in *. rewrite EG in E'. injection E' as <-. rewrite Gn, Gm in V'.
    assert (GV : forall d0 j, (j < m)%nat -> gd d0 g' j = Rsum n (fun k => dense G j k * x k)).
    { intros d0 j Hj. unfold gd. rewrite V' by auto. unfold mode_base, mode_sign, mulv. cbn [Z.gtb Z.compare]. lra. }
    set (zc t := match unz l q t with Some j => b (n + p + t)%nat - Rsum n (fun k => dense G j k * x k) + (if lastrow l q t then - (D * x (n + p + t)%nat) else D * x (n + p + t)%nat) | None => 0 end).
    assert (V0' : vec ez0 mt zc).
    { intros t Ht. rewrite V0 by auto. f_equal. unfold ez_f, zc. destruct (unz l q t) as [j|] eqn:EU; [|unR; reflexivity].
      assert (Hj : (j < m)%nat) by (eapply unz_lt; eauto; lia). unfold ez_last, ez_in. cbn [Nat.add].
      unR. fold D. change (@F ROps) with R in *. rewrite !(GV _ j Hj), !(ZX' _ t j Ht EU). destruct (lastrow l q t); unfold b; lra. }
    assert (V2 : vec ez1 mt (fun t => resid N (n + p) Kof drof b x (n + p + t))).
    { assert (V1 : vec ez1 mt (fun t => zc t + (if isinit then x (n + p + t)%nat else - symmul mt (vmat_of C) (fun t => x (n + p + t)%nat) t - D * vreg l q t * x (n + p + t)%nat))).
      { destruct isinit.
        - destruct (@vadd_eq ROps mt t' ez0 (fun t => x (n + p + t)%nat) zc ET V0') as (y' & E' & VV); [change (@F ROps) with R in *; lia|].
          unR. change (@F ROps) with R in *. rewrite E1 in E'. injection E' as <-. intros t Ht. exact (wrote_in _ _ _ _ _ t VV Ht).
        - destruct (conic_scale2add C l q e t' ez0 (fun t => x (n + p + t)%nat) zc CO (SC eq_refl)) as (y' & E' & VV).
          + exact ET.
          + exact V0'.
          + change (@F ROps) with R in *. lia.
          + unR. change (@F ROps) with R in *. rewrite E1 in E'. injection E' as <-. intros t Ht. rewrite VV by auto. f_equal. fold D. unfold act, sym, symmul. lra. }
      intros t Ht. rewrite V1 by auto. f_equal. unfold resid. rewrite (proj2 (Nat.ltb_ge (n + p + t) (n + p))) by lia.
      replace (n + p + t - (n + p))%nat with t by lia. unfold N, Kof. rewrite act_z by auto. unfold zc, drof, Vof.
      assert (NU : forall j, unz l q t = Some j -> (Nat.leb l t && usoc q (t - l))%bool = false) by (intros j; apply unz_usoc).
      assert (NR : forall j, unz l q t = Some j -> vreg l q t = 1) by (intros j; apply unz_vreg).
      destruct isinit.
      - rewrite unit_act by auto. unfold drift0. fold D. destruct (unz l q t) as [j|] eqn:EU.
        + rewrite (NU j eq_refl). destruct (lastrow l q t); lra.
        + rewrite Rsum_0 by (intros; lra). destruct (Nat.leb l t && usoc q (t - l))%bool; lra.
      - unfold drift. fold D. destruct (unz l q t) as [j|] eqn:EU.
        + rewrite (NR j eq_refl). destruct (lastrow l q t); lra.
        + rewrite Rsum_0 by (intros; lra). lra. }
    split.
    - apply (maxon_shift ez1 (n + p) mt); auto.
    - intros i Hi. rewrite EE by auto. apply V2. auto. }
  destruct RX as [MX GX']. destruct RZ as [MZ GZ'].
  assert (FM : forall a c, @fmax ROps a c = if Rltb a c then c else a) by reflexivity.
  split.
  - intros i Hi. destruct (Nat.lt_ge_cases i n) as [H|H]; [auto|]. destruct (Nat.lt_ge_cases i (n + p)) as [H'|H'].
    + destruct (Nat.ltb_spec 0 p) as [Hp|Hp]; [|lia]. replace i with (n + (i - n))%nat by lia. apply RY. lia.
    + replace i with (n + p + (i - (n + p)))%nat by lia. apply GZ'. unfold N in Hi. lia.
  - change (maxabs N ?f ?r) with (maxon (fun i => (i < N)%nat) f r).
    destruct (Nat.ltb_spec 0 p) as [Hp|Hp]; rewrite !FM.
    + eapply maxon_iff; [apply maxon_union; [apply maxon_union; [exact MX|exact MZ]|exact (proj1 RY)]|].
      intros i. unfold N. split; intros; lia.
    + eapply maxon_iff; [apply maxon_union; [exact MX|exact MZ]|]. intros i. unfold N. split; intros; lia.
Qed.
End Err.

(* ---- sums under a permutation ---- *)
Lemma Rsum_list N f : Rsum N f = fold_right Rplus 0 (map f (seq 0 N)).
Proof.
  assert (A : forall l1 l2, fold_right Rplus 0 (l1 ++ l2) = fold_right Rplus 0 l1 + fold_right Rplus 0 l2) by (induction l1; intros; cbn; [|rewrite IHl1]; lra).
  induction N as [|N IH]; [reflexivity|]. rewrite seq_S, map_app, A, <- IH. cbn. lra.
Qed.
Lemma Rsum_perm N pf f : is_perm N pf -> Rsum N (fun i => f (pf i)) = Rsum N f.
Proof.
  intros [P1 P2]. rewrite !Rsum_list.
  assert (A : forall l1 l2 : list R, Permutation.Permutation l1 l2 -> fold_right Rplus 0 l1 = fold_right Rplus 0 l2).
  { intros l1 l2 H. induction H; cbn; lra. }
  apply A. rewrite <- (map_map pf f). apply Permutation.Permutation_map.
  assert (ND : NoDup (map pf (seq 0 N))).
  { assert (G : forall s k, (s + k <= N)%nat -> NoDup (map pf (seq s k))).
    { intros s k. revert s. induction k as [|k IH]; intros s H; cbn; [constructor|]. constructor; [|apply IH; lia].
      rewrite in_map_iff. intros (x & E & Hx). apply in_seq in Hx. apply P2 in E; lia. }
    apply G. lia. }
  apply Permutation.NoDup_Permutation_bis; auto.
  - rewrite map_length. auto.
  - intros a Ha. rewrite in_map_iff in Ha. destruct Ha as (x & <- & Hx). apply in_seq in Hx. apply in_seq. specialize (P1 x ltac:(lia)). lia.
Qed.

Lemma maxabs_unique N f r r' : maxabs N f r -> maxabs N f r' -> r = r'.
Proof.
  intros (A1 & A2 & A3) (B1 & B2 & B3).
  destruct A3 as [|(i & Hi & E)]; destruct B3 as [|(j & Hj & E')]; subst; auto.
  - specialize (A2 j Hj). pose proof (Rabs_pos (f j)). lra.
  - specialize (B2 i Hi). pose proof (Rabs_pos (f i)). lra.
  - specialize (B2 i Hi). specialize (A2 j Hj). lra.
Qed.
Lemma maxabs_ext N f g r : maxabs N f r -> (forall i, (i < N)%nat -> f i = g i) -> maxabs N g r.
Proof.
  intros (A1 & A2 & A3) E. split; auto. split.
  - intros i Hi. rewrite <- E by auto. auto.
  - destruct A3 as [|(i & Hi & Er)]; auto. right. exists i. split; auto. rewrite <- E; auto.
Qed.

Lemma ldl_solve_R N (K : kkt R) (rhs x0 x' : arr R) (d bv xv : nat -> R) :
  sp_n (kk_PKPt K) = N -> wf_sp (kk_L K) -> sp_n (kk_L K) = N -> sp_m (kk_L K) = N -> strictly_lower (kk_L K) ->
  vec (kk_D K) N d -> (forall i, (i < N)%nat -> d i <> 0) -> vec rhs N bv -> length x0 = N ->
  @ldl_solve ROps K rhs x0 = Some x' -> vec x' N xv ->
  forall i, (i < N)%nat -> Rsum N (fun r => ldl_prod N (dense (kk_L K)) d i r * xv r) = bv i.
Proof.
  intros HN WL Ln Lm SL VD D0 VB L0 E VX. subst N. 
  destruct (C13_solve (kk_L K) (kk_D K) rhs x0 d bv) as (X1 & X2 & X3 & x & E1 & E2 & E3 & L3 & V3 & S3); auto; try (rewrite Ln; auto; fail); try congruence.
  rewrite Ln in *. unfold ldl_solve in E. cbv zeta in E. change (@F ROps) with R in *. rewrite E1 in E. cbn [bind] in E.
  rewrite E2 in E. cbn [bind] in E. rewrite E3 in E. injection E as <-.
  intros i Hi. rewrite <- (S3 i Hi). apply Rsum_ext. intros r Hr. f_equal. specialize (VX r Hr). rewrite V3 in VX by auto. congruence.
Qed.

Section RefineR.
Variables (K : kkt R) (A : option (spmat R)) (G : spmat R) (Pb : arr R) (n p : nat) (C : cone R) (l : nat) (q : list nat) (e : nat) (isinit : bool) (pf : nat -> nat) (bf d : nat -> R).
Notation m := (l + list_sum q + 3 * e)%nat.
Notation mt := (l + list_sum q + 3 * e + 2 * length q)%nat.
Let N := (n + p + mt)%nat.
Hypothesis CO : @cone_of ROps C l q e.
Hypothesis SC : isinit = false -> @ConeP.scaled ROps C.
Hypothesis WG : wf_sp G.
Hypothesis Gn : sp_n G = n.
Hypothesis Gm : sp_m G = m.
Hypothesis HA : match A with Some A => wf_sp A /\ sp_n A = n /\ sp_m A = p | None => p = 0%nat end.
Hypothesis PP : is_perm N pf.
Hypothesis VB : vec Pb N bf.
Hypothesis KN : sp_n (kk_PKPt K) = N.
Hypothesis WL : wf_sp (kk_L K).
Hypothesis Ln : sp_n (kk_L K) = N.
Hypothesis Lm : sp_m (kk_L K) = N.
Hypothesis SL : strictly_lower (kk_L K).
Hypothesis VD : vec (kk_D K) N d.
Hypothesis D0 : forall i, (i < N)%nat -> d i <> 0.

Let b i := bf (pf i).
Definition Mof (i j : nat) : R := ldl_prod N (dense (kk_L K)) d (pf i) (pf j).
Definition resof : (nat -> R) -> nat -> R := resid N (n + p) (Kof A G n p C l q isinit) (drof l q isinit) b.

Lemma sameN : (n + p + (@msize ROps C + 2 * @nsoc ROps C))%nat = N.
Proof. destruct (msize_C C l q e CO) as (M1 & M2 & _). change (@F ROps) with R in *. rewrite M1, M2. reflexivity. Qed.

Lemma resof_ext x y i : (forall i, (i < N)%nat -> x i = y i) -> (i < N)%nat -> resof x i = resof y i.
Proof.
  intros H Hi. unfold resof, resid, symmul. rewrite (H i Hi). f_equal. f_equal. apply Rsum_ext. intros j Hj. rewrite (H j Hj). auto.
Qed.

Lemma measured_R x e' nerr xv : vec x N xv -> @measured ROps A G n p C isinit pf bf x e' nerr ->
  vec e' N (resof (fun i => xv (pf i))) /\ maxabs N (resof (fun i => xv (pf i))) nerr.
Proof.
  intros VX (xv' & dx & dy & dz & g0 & nex & ney & nez & t' & g' & V' & Pa & Lg & ER & ->).
  change (@F ROps) with R in *. rewrite sameN in V', Lg.
  destruct (err_of_R A G n p C l q e isinit pf bf CO SC WG Gn Gm HA xv' dx dy dz g0 nex ney nez e' t' g' Pa Lg ER) as [H1 H2].
  assert (X : forall i, (i < N)%nat -> xv' (pf i) = xv (pf i)).
  { intros i Hi. destruct PP as [P1 _]. specialize (P1 i Hi).
    pose proof (V' _ P1) as W. rewrite VX in W by auto. congruence. }
  split.
  - intros i Hi. unfold N in *. rewrite H1 by auto. f_equal. apply resof_ext; auto.
  - eapply maxabs_ext; [exact H2|]. intros i Hi. apply resof_ext; auto.
Qed.

Lemma perm_sum (f : nat -> R) i : Rsum N (fun j => Mof i j * f (pf j)) = Rsum N (fun r => ldl_prod N (dense (kk_L K)) d (pf i) r * f r).
Proof. exact (Rsum_perm N pf (fun r => ldl_prod N (dense (kk_L K)) d (pf i) r * f r) PP). Qed.

Lemma base_R x xv : vec x N xv -> @base ROps K Pb n p C x -> forall i, (i < N)%nat -> Rsum N (fun j => Mof i j * xv (pf j)) = b i.
Proof.
  intros VX (x0 & L0 & E) i Hi. rewrite sameN in L0. rewrite perm_sum.
  destruct PP as [P1 _].
  exact (ldl_solve_R N K Pb x0 x d bf xv KN WL Ln Lm SL VD D0 VB L0 E VX (pf i) (P1 i Hi)).
Qed.

Lemma correction_R x nerr dd xv dv : vec x N xv -> vec dd N dv -> @correction ROps K A G n p C isinit pf bf x nerr dd ->
  (forall i, (i < N)%nat -> Rsum N (fun j => Mof i j * dv (pf j)) = resof (fun i => xv (pf i)) i).
Proof.
  intros VX Vd (e' & Pe & d0 & Me & LPe & GP & Ld & E) i Hi. rewrite sameN in *.
  destruct (measured_R x e' nerr xv VX Me) as [Ve _]. rewrite perm_sum.
  destruct (perm_inv N pf PP) as (g & Hg & Hg').
  assert (VPe : vec Pe N (fun a => resof (fun i => xv (pf i)) (g a))).
  { intros a Ha. destruct (Hg a Ha) as [G1 G2]. rewrite <- G2 at 1. rewrite GP by auto. apply Ve. auto. }
  destruct PP as [P1 _].
  rewrite (ldl_solve_R N K Pe d0 dd d _ dv KN WL Ln Lm SL VD D0 VPe Ld E Vd (pf i) (P1 i Hi)). rewrite Hg' by auto. auto.
Qed.

Lemma full_of x : @full R x N -> vec x N (gd 0 x).
Proof. intros H i Hi. destruct (H i Hi) as [v E]. unfold gd. rewrite E. auto. Qed.

Lemma corr_full x nerr dd : @correction ROps K A G n p C isinit pf bf x nerr dd -> @full R dd N.
Proof.
  intros (e' & Pe & d0 & Me & LPe & GP & Ld & E). rewrite sameN in *.
  assert (FA : @factored ROps N K) by (constructor; auto; intros i Hi; exists (d i); apply VD; auto).
  assert (W : wp (@ldl_solve ROps K Pe d0) (fun d' => @full R d' N)).
  { apply (@ldl_solve_safe ROps N); auto.
    destruct Me as (xv & a1 & a2 & a3 & a4 & a5 & a6 & a7 & a8 & a9 & _ & _ & _ & ER1 & _).
    destruct (perm_inv N pf PP) as (g & Hg & _). intros i Hi. destruct (Hg i Hi) as [G1 G2]. rewrite <- G2. rewrite GP by auto.
    apply (er_f _ _ _ _ _ _ _ _ _ _ _ _ _ _ _ _ _ _ _ ER1). rewrite sameN. auto. }
  apply wp_elim in W. destruct W as (d' & E' & F'). change (@F ROps) with R in *. rewrite E in E'. injection E' as <-. auto.
Qed.

Lemma path_R k x nerr : @path ROps K A G Pb n p C isinit pf bf k x nerr ->
  @full R x N /\ forall xv, vec x N xv ->
  exists xs, (forall i, (i < N)%nat -> xs k i = xv (pf i)) /\ refinement N k Mof b resof xs /\ maxabs N (resof (xs k)) nerr.
Proof.
  induction 1 as [x e' nerr B Me|k x nerr dd x1 e1 nerr1 _ [FX IH] Co [Lx1 Vx1] Me LE].
  - pose proof Me as (xv0 & _ & _ & _ & _ & _ & _ & _ & _ & _ & V0 & _). change (@F ROps) with R in *. rewrite sameN in V0.
    split; [intros i Hi; exists (xv0 i); auto|].
    intros xv VX. exists (fun _ i => xv (pf i)). split; [auto|]. split.
    + constructor; try lia. exact (base_R x xv VX B).
    + exact (proj2 (measured_R x e' nerr xv VX Me)).
  - change (@F ROps) with R in *. rewrite sameN in *.
    pose proof (corr_full x nerr dd Co) as FD.
    split; [intros i Hi; eexists; apply Vx1; auto|].
    intros xv VX. pose proof (full_of x FX) as V0. pose proof (full_of dd FD) as Vd.
    destruct (IH _ V0) as (xs & X1 & [R1 R2 R3] & X3).
    exists (fun s => if Nat.eqb s (S k) then (fun i => xv (pf i)) else xs s).
    assert (EV : forall a, (a < N)%nat -> xv a = gd 0 x a + gd 0 dd a).
    { intros a Ha. specialize (VX a Ha). rewrite Vx1 in VX by auto. injection VX as <-. unR.
      unfold gd. rewrite (V0 a Ha), (Vd a Ha). auto. }
    destruct (measured_R x1 e1 nerr1 xv VX Me) as [_ ME].
    destruct PP as [P1 _].
    split; [intros i Hi; rewrite Nat.eqb_refl; auto|]. split; [|rewrite Nat.eqb_refl; exact ME].
    constructor.
    + exact R1.
    + intros s i Hs Hi. destruct (Nat.eqb_spec (S s) (S k)) as [E|E].
      * assert (s = k) by lia. subst s. rewrite (proj2 (Nat.eqb_neq k (S k))) by lia.
        rewrite (resof_ext (xs k) (fun i => gd 0 x (pf i)) i X1 Hi).
        rewrite <- (correction_R x nerr dd _ _ V0 Vd Co i Hi). apply Rsum_ext. intros j Hj. rewrite X1 by auto. rewrite EV by auto. f_equal. lra.
      * rewrite (proj2 (Nat.eqb_neq s (S k))) by lia. apply R2; auto. lia.
    + intros s r r' Hs Hr Hr'. destruct (Nat.eqb_spec (S s) (S k)) as [E|E].
      * assert (s = k) by lia. subst s. rewrite (proj2 (Nat.eqb_neq k (S k))) in Hr by lia.
        pose proof (maxabs_unique _ _ _ _ Hr X3). pose proof (maxabs_unique _ _ _ _ Hr' ME). subst.
        cbn in LE. unfold Rltb in LE. destruct (Rlt_dec nerr nerr1); [discriminate|lra].
      * rewrite (proj2 (Nat.eqb_neq s (S k))) in Hr by lia. apply (R3 s); auto. lia.
Qed.

Lemma ended_R nitref k x xv : @ended ROps K A G Pb n p C isinit pf bf nitref k x -> vec x N xv ->
  exists xs, (forall i, (i < N)%nat -> xs k i = xv (pf i)) /\ refinement N k Mof b resof xs.
Proof.
  intros [(_ & -> & B)|(_ & _ & [(nerr & P)|(_ & x0 & nerr & dd & x1 & e1 & nerr1 & P & Co & [L1 V1] & Me & _ & [L2 V2])])] VX.
  - exists (fun _ i => xv (pf i)). split; auto. constructor; try lia. exact (base_R x xv VX B).
  - destruct (path_R _ _ _ P) as [_ H]. destruct (H xv VX) as (xs & A1 & A2 & _). eauto.
  - destruct (path_R _ _ _ P) as [F0 H]. destruct (H (gd 0 x0) (full_of _ F0)) as (xs & A1 & A2 & _).
    exists xs. split; auto. intros i Hi. rewrite A1 by auto. destruct PP as [P1 _]. specialize (P1 i Hi).
    pose proof (corr_full x0 nerr dd Co) as FD.
    change (@F ROps) with R in *. rewrite sameN in *. specialize (VX _ P1). rewrite V2 in VX by auto. injection VX as <-.
    specialize (V1 _ P1). unR. unfold gd. rewrite V1. destruct (F0 _ P1) as [a Ea]. destruct (FD _ P1) as [c Ec]. rewrite Ea, Ec. unR. unfold gd. rewrite Ea, Ec. lra.
Qed.
End RefineR.

(* ---- no duplicates ---- *)
Lemma transposed_nodup (M Mt : spmat R) : wf_sp M -> transposable M -> transposed M Mt -> nodup M ->
  forall (z : R) r, (r < sp_m M)%nat -> NoDup (map fst (colent z Mt r)).
Proof.
  intros W T TT ND z r Hr. destruct (transposed_facts M Mt W T TT) as (Wt & N1 & N2 & N3 & J & X).
  unfold colent. rewrite map_map. cbn [fst]. apply SplammP.NoDup_map_in; [apply seq_NoDup|].
  assert (J1 : gd 0%nat (sp_jc Mt) r = SplammP.tstart M r) by (unfold gd; rewrite J by lia; auto).
  assert (J2 : gd 0%nat (sp_jc Mt) (r + 1) = SplammP.tstart M (r + 1)) by (unfold gd; rewrite J by lia; auto).
  rewrite J1, J2.
  assert (H : forall a, In a (seq (SplammP.tstart M r) (SplammP.tstart M (r + 1) - SplammP.tstart M r)) ->
    exists j k, in_col M j k /\ gd 0%nat (sp_ir M) k = r /\ a = SplammP.tpos M k /\ gd 0%nat (sp_ir Mt) a = j).
  { intros a Ha. apply in_seq in Ha. unfold SplammP.tstart in Ha.
    destruct (CountSort.pos_surj_bucket SplammP.allsel (fun k => gd 0%nat (sp_ir M) k) (sp_nnz M) r a) as (k & Hk & _ & Ek & Ea).
    { replace (S r) with (r + 1)%nat by lia. change (SplammP.tstart M r <= a < SplammP.tstart M (r + 1))%nat. unfold SplammP.tstart. lia. }
    destruct (in_col_exists M k W Hk) as (j & Hj). exists j, k. split; auto. split; auto. split; auto.
    destruct (X j k Hj) as [X1 _]. change (SplammP.tpos M k = a) in Ea. unfold gd. rewrite <- Ea, X1. auto. }
  intros a a' Ha Ha' E. destruct (H a Ha) as (j & k & K1 & K2 & K3 & K4). destruct (H a' Ha') as (j' & k' & K1' & K2' & K3' & K4').
  assert (Ej : j = j') by congruence. rewrite Ej in K1. rewrite (ND _ _ _ K1 K1') in K3 by congruence. congruence.
Qed.

Lemma ly_okc_nd (L : @lay ROps) lpv soc ex cols A G atk gtk : map fst soc = ly_q L -> length ex = ly_e L ->
  (forall d, In d (ly_q L) -> (1 <= d)%nat) -> @dws ROps L cols A G atk gtk ->
  nodup G -> match A with Some A => nodup A | None => True end ->
  KktMat.allc (KktMat.okc True) 0 (@ly_cols ROps L lpv soc ex).
Proof.
  intros Hq He H1 D NG NA. destruct (dws_facts _ _ _ _ _ _ D) as (WG & Gn & Gm & _ & HA & _). unfold ly_cols.
  apply (KktMat.okc_kkt (ly_n L) (ly_p L) (ly_l L) _ _ True (sp_n (ly_Gt L))).
  - intros j Hj e0 H0. destruct (ly_At L) as [At|]; [|lia]. destruct HA as (WA & An & Am).
    apply (@colent_rows ROps) in H0; auto; lia.
  - intros j Hj e0 H0. apply (@colent_rows ROps) in H0; auto; lia.
  - intros _ j Hj. pose proof (dw_A _ _ _ _ _ _ D) as DA. destruct A as [A'|], (ly_At L) as [At|]; try contradiction; try lia.
    destruct DA as (W & _ & Am & T & TT). cbn [KktAsm.acol]. apply (transposed_nodup A' At); auto. change (@F ROps) with R in *. lia.
  - intros _ j Hj. destruct (dw_Gt _ _ _ _ _ _ D) as [T TT]. apply (transposed_nodup G (ly_Gt L)); auto.
    + apply (dw_G _ _ _ _ _ _ D).
    + pose proof (dw_Gm _ _ _ _ _ _ D). change (@F ROps) with R in *. lia.
  - rewrite Gn, Hq, He. reflexivity.
  - intros x Hx. apply H1. rewrite <- Hq. apply in_map. auto.
Qed.

(* ---- the factorisation ---- *)
Lemma ldl_prod_sym N Lf D i j : ldl_prod N Lf D i j = ldl_prod N Lf D j i.
Proof. unfold ldl_prod. apply Rsum_ext. intros. ring. Qed.

Lemma kkt_factor_R L (lpv : nat -> R) soc ex (K : kkt R) (eps delta : R) cols A G AtoK GtoK (KM : nat -> nat -> R) :
  @kws ROps L lpv soc ex K -> (forall d, In d (ly_q L) -> (1 <= d)%nat) -> @dws ROps L cols A G AtoK GtoK ->
  nodup G -> match A with Some A => nodup A | None => True end -> 0 <= eps -> 0 < delta ->
  (forall i j, (i <= j)%nat -> (j < @ly_nK ROps L)%nat -> symdense (kk_PKPt K) (ly_pf L i) (ly_pf L j) = KM i j) ->
  exists K' Dv, @kkt_factor ROps K eps delta = Some (true, K') /\ @kws ROps L lpv soc ex K' /\ @factored ROps (@ly_nK ROps L) K' /\
    kk_RHS1 K' = kk_RHS1 K /\ kk_RHS2 K' = kk_RHS2 K /\ kk_PKPt K' = kk_PKPt K /\ kk_PK K' = kk_PK K /\ kk_Pinv K' = kk_Pinv K /\
    strictly_lower (kk_L K') /\ vec (kk_D K') (@ly_nK ROps L) Dv /\ (forall i, (i < @ly_nK ROps L)%nat -> Dv i <> 0) /\
    pivoted (@ly_nK ROps L) KM (fun i => IZR (ksign (ly_n L) (ly_p L) (ly_l L) (ly_q L) i)) eps delta
      (fun i j => ldl_prod (@ly_nK ROps L) (dense (kk_L K')) Dv (ly_pf L i) (ly_pf L j)).
Proof.
  intros KW H1 D NG NA He Hd HK.
  pose proof (@kkt_factor_wp ROps L lpv soc ex K eps delta cols A G AtoK GtoK (fun r => exists K', r = (true, K') /\
    @kws ROps L lpv soc ex K' /\ @factored ROps (@ly_nK ROps L) K' /\
    kk_RHS1 K' = kk_RHS1 K /\ kk_RHS2 K' = kk_RHS2 K /\ kk_PKPt K' = kk_PKPt K /\ kk_PK K' = kk_PK K /\ kk_Pinv K' = kk_Pinv K) KW H1 D) as W.
  apply wp_elim in W. 2:{ intros K' k1 k2 k3 k4 k5 k6 k7. exists K'. csplit; auto. }
  destruct W as (r & E & K' & -> & KW' & FA & Q1 & Q2 & Q3 & Q4 & Q5).
  pose proof (ly_okc_nd L lpv soc ex cols A G AtoK GtoK (kw_q _ _ _ _ _ KW) (kw_e _ _ _ _ _ KW) H1 D NG NA) as OK.
  destruct (@kws_dim ROps _ _ _ _ _ KW) as (PP & En & Em). pose proof KW as KW0. destruct KW0.
  pose proof (Layout.pm_wf _ _ _ _ kw_perm _ OK) as Wm. pose proof (Layout.pm_upper _ _ _ _ kw_perm _ OK) as Um. pose proof (Layout.pm_nodup _ _ _ _ kw_perm _ OK I) as Nm.
  destruct (perm_inv _ _ PP) as (g & Hg & Hg').
  set (N := @ly_nK ROps L) in *.
  set (sgv := fun a => ksign (ly_n L) (ly_p L) (ly_l L) (ly_q L) (g a)).
  assert (Et : etree (kk_PKPt K) (sp_n (kk_PKPt K)) (ly_par L) (ly_R L)) by (change (@F ROps) with R in *; rewrite En; auto).
  pose proof (numeric_R (kk_PKPt K) sgv eps delta (ly_par L) (ly_R L) (sp_jc (kk_L K)) (kk_Parent K) (kk_Sign K)
    (kk_Lnz K) (sp_ir (kk_L K)) (sp_pr (kk_L K)) (kk_D K) (kk_work1 K) (kk_Pattern K) (kk_Flag K) Wm Um) as H.
  cbv zeta in H. change (@F ROps) with R in *. rewrite En in H. rewrite En in Et. change (@F ROps) with R in *.
  destruct H as (N' & I' & X' & D' & Y' & P' & F' & Dv & E1 & WL & SL & _ & _ & VD & LD & O1 & O2 & O3); auto.
  { intros a Ha. destruct (Hg a Ha) as [Ga Gb]. rewrite <- Gb at 1. apply kw_Sign. auto. }
  { intros r Hr. unfold sgv, ksign. destruct (Nat.ltb _ _); auto. destruct (Nat.ltb _ _); auto. destruct (usoc _ _); auto. }
  exists K', Dv. unfold kkt_factor in E. cbv zeta in E. change (@F ROps) with R in *. rewrite En in E.
  rewrite E1 in E. cbn [bind] in E. injection E as _ EK. 
  assert (EL : kk_L K' = mkSp (sp_jc (kk_L K)) I' X' N N (starts (cnt (ly_R L) N) N)).
  { rewrite <- EK. cbn. rewrite kw_Ln, kw_Lm, kw_Lnnz. reflexivity. }
  assert (ED : kk_D K' = D') by (rewrite <- EK; reflexivity).
  split; [unfold kkt_factor; cbv zeta; change (@F ROps) with R in *; rewrite En, E1; cbn [bind]; rewrite EK, Nat.eqb_refl; reflexivity|].
  csplit; auto.
  - rewrite EL. exact SL.
  - rewrite ED. exact VD.
  - intros i Hi E0. specialize (O3 i Hi). rewrite E0 in O3. lra.
  - rewrite EL. destruct PP as [P1 P2]. constructor.
    + intros i j. apply ldl_prod_sym.
    + intros i j Hij Hj. rewrite <- (HK i j) by lia. pose proof (P1 i ltac:(lia)). pose proof (P1 j Hj).
      assert (ly_pf L i <> ly_pf L j) by (intros E0; apply P2 in E0; lia).
      unfold symdense. destruct (Nat.lt_ge_cases (ly_pf L i) (ly_pf L j)).
      * rewrite Nat.min_l, Nat.max_r by lia. apply O1; auto.
      * rewrite Nat.min_r, Nat.max_l by lia. rewrite ldl_prod_sym. apply O1; auto. lia.
    + intros i Hi. destruct (O2 (ly_pf L i) (P1 i Hi)) as (dd & M1 & M2). exists dd. rewrite <- (HK i i) by lia. unfold symdense. rewrite Nat.min_id, Nat.max_id.
      rewrite M1. f_equal. f_equal. rewrite M2. unfold sgv. rewrite Hg' by auto. auto.
Qed.
