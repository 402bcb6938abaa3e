(* What the branch-and-bound search guarantees, given a solver for relaxations. *)
From Coq Require Import Reals Lra QArith_base Qreals List Arith Bool ZArith Lia Permutation Psatz.
From Verif Require Import Base Num NumE NumI.
From Verif.Model Require Import Consts Spla Types Ecos BbTypes Bb.
From Verif.Spec Require Import Integer Tree MixedInteger.
From Verif.Proofs Require Import ExitP Wlp BbNum BbP.
Import ListNotations.
Open Scope nat_scope.

Section Opt.
Local Notation E := (@F EOps).
Local Notation W := (bbwork (@F EOps)).
Local Notation PW := (pwork (@F EOps)).
Variable solver : nat -> ctrlc -> PW -> option (Z * ctrlc * PW).
Variable rnd : nat -> Z.
Variable rfuel : nat.
Variables (n nb ni : nat) (col : nat -> nat) (c : nat -> R) (feas accepted : (nat -> R) -> Prop).
Variables (good : PW -> Prop) (eps delta tol : R).
Local Notation nv := (nb + ni).
Hypothesis SOLVER : relaxation_solver n nb ni col c feas good accepted eps delta solver.
Hypothesis Htol : (0 <= delta < tol /\ tol < / 2)%R.
Hypothesis Hcol : forall j, j < nv -> col j < n.
Hypothesis Hrnd : forall k, (0 <= rnd k <= RAND_MAX)%Z.

Local Notation costf := (cost n c).
Local Notation adm := (admissible nb ni col feas).

(* ---------------------------------------------------------------- boxes *)

Definition legal (b : Z) : Prop := (b = -1 \/ b = 0 \/ b = 1)%Z.
(* b: entries of the booleans; a: the bounds of the integer variables *)
Definition blo (b : nat -> Z) (a : nat -> R) (j : nat) : R :=
  if j <? nb then (if (b j =? 1)%Z then 1 else 0)%R else Ropp (a (2 * (j - nb))).
Definition bhi (b : nat -> Z) (a : nat -> R) (j : nat) : R :=
  if j <? nb then (if (b j =? 0)%Z then 0 else 1)%R else a (2 * (j - nb) + 1).
Definition cells (bid : nat -> option Z) (iid : nat -> option E) (b : nat -> Z) (a : nat -> R) : Prop :=
  (forall j, j < nb -> bid j = Some (b j) /\ legal (b j)) /\ (forall k, k < 2 * ni -> iid k = Some (Fin (a k))).
Definition inb (b : nat -> Z) (a : nat -> R) (v : nat -> R) : Prop := in_box nb ni col (blo b a) (bhi b a) v.

(* the part of the workspace that never changes *)
Definition static (w : W) : Prop :=
  bb_nb w = nb /\ bb_ni w = ni /\ (forall j, j < nv -> var_col w j = Some (col j)) /\
  bs_itol (bb_stgs w) = Fin tol /\ good (bb_prob w).

(* x is in the solver's workspace *)
Definition holds (a : arr E) (x : nat -> R) : Prop := forall i, i < n -> get a i = Some (Fin (x i)).

Lemma upd_h_inv (p p' : PW) i v : ecos_updateDataEntry_h p i v = Some p' ->
  exists e h, get (w_Gequil p) i = Some e /\ p' = set_w_h p h /\ length h = length (w_h p) /\
    forall k, get h k = if k =? i then Some (fdiv v e) else get (w_h p) k.
Proof.
  unfold ecos_updateDataEntry_h. intros H. bd H as e Ee. bd H as h Eh. injection H as <-.
  apply set_inv in Eh as (L & L2 & G). exists e, h. auto.
Qed.

(* after set_prob *)
Lemma set_prob_spec bid iid b a (p : PW) : cells bid iid b a -> good p ->
  wlp (set_prob nb ni bid iid p) (fun p' => good p' /\ posed nb ni p' (blo b a) (bhi b a) /\ exists h, p' = set_w_h p h).
Proof.
  intros [CB CI] G0.
  set (Done := fun k (p' : PW) => (exists h, p' = set_w_h p h) /\ length (w_h p') = length (w_h p) /\
     (forall i, 2 * nv <= i -> get (w_h p') i = get (w_h p) i) /\
     forall j, j < k -> exists xa xb ea eb,
       get (w_h p') (2 * j) = Some (Fin xa) /\ get (w_Gequil p) (2 * j) = Some (Fin ea) /\ (xa * ea = - blo b a j)%R /\
       get (w_h p') (2 * j + 1) = Some (Fin xb) /\ get (w_Gequil p) (2 * j + 1) = Some (Fin eb) /\ (xb * eb = bhi b a j)%R).
  assert (Eq: forall p', (exists h, p' = set_w_h p h) -> w_Gequil p' = w_Gequil p) by (intros p' (h & ->); reflexivity).
  pose proof (rs_dims _ _ _ _ _ _ _ _ _ _ _ SOLVER p G0) as (_ & _ & Ge).
  (* writing one pair *)
  assert (Pair: forall j p' p1 p2 u1 u2, j < nv -> Done j p' ->
     ecos_updateDataEntry_h p' (2 * j) (Fin u1) = Some p1 -> ecos_updateDataEntry_h p1 (2 * j + 1) (Fin u2) = Some p2 ->
     u1 = (- blo b a j)%R -> u2 = bhi b a j -> Done (S j) p2).
  { intros j p' p1 p2 u1 u2 Hj (Hx & L & K & D) E1 E2 -> ->.
    pose proof (Eq _ Hx) as Eg. destruct Hx as (h0 & Hx).
    apply upd_h_inv in E1 as (e1 & h1 & Ea1 & -> & L1 & G1). apply upd_h_inv in E2 as (e2 & h2 & Ea2 & -> & L2 & G2).
    change (w_Gequil (set_w_h p' h1)) with (w_Gequil p') in Ea2. rewrite Eg in Ea1, Ea2.
    change (w_h (set_w_h p' h1)) with h1 in L2, G2.
    destruct (Ge (2 * j) ltac:(lia)) as (r1 & R1 & N1). destruct (Ge (2 * j + 1) ltac:(lia)) as (r2 & R2 & N2).
    pose proof (eq_trans (eq_sym Ea1) R1) as Q1. pose proof (eq_trans (eq_sym Ea2) R2) as Q2.
    injection Q1 as Q1. injection Q2 as Q2. subst e1 e2.
    unfold Done. change (w_h (set_w_h (set_w_h p' h1) h2)) with h2.
    split; [exists h2; subst p'; reflexivity|]. split; [congruence|]. split.
    - intros i Hi. rewrite G2, G1. destruct (Nat.eqb_spec i (2 * j + 1)); [lia|]. destruct (Nat.eqb_spec i (2 * j)); [lia|]. auto.
    - intros k Hk. destruct (Nat.eq_dec k j) as [->|N].
      + rewrite !G2, !G1, Nat.eqb_refl. destruct (Nat.eqb_spec (2 * j) (2 * j + 1)); [lia|]. rewrite Nat.eqb_refl.
        unfold fdiv; cbn [EOps]. unfold ediv. destruct (Req_EM_T r1 0); [contradiction|]. destruct (Req_EM_T r2 0); [contradiction|].
        exists (- blo b a j / r1)%R, (bhi b a j / r2)%R, r1, r2. repeat split; auto; field; auto.
      + destruct (D k ltac:(lia)) as (xa & xb & ea & eb & D1 & D2 & D3 & D4 & D5 & D6).
        exists xa, xb, ea, eb. rewrite !G2, !G1.
        destruct (Nat.eqb_spec (2 * k) (2 * j + 1)); [lia|]. destruct (Nat.eqb_spec (2 * k) (2 * j)); [lia|].
        destruct (Nat.eqb_spec (2 * k + 1) (2 * j + 1)); [lia|]. destruct (Nat.eqb_spec (2 * k + 1) (2 * j)); [lia|]. auto 10. }
  unfold set_prob. apply wlp_bind. apply wlp_for with (Inv := Done).
  - lia.
  - unfold Done. split; [exists (w_h p); destruct p; reflexivity|]. repeat split; auto. intros; lia.
  - intros j p' Hj D. destruct (CB j ltac:(lia)) as [Eb Lb]. rewrite Eb. cbn [bind].
    rewrite f0_E', f1_E', m1_E. unfold MI_ONE, MI_ZERO, MI_STAR.
    assert (B1: blo b a j = if (b j =? 1)%Z then 1%R else 0%R) by (unfold blo; destruct (Nat.ltb_spec j nb); [reflexivity|lia]).
    assert (B2: bhi b a j = if (b j =? 0)%Z then 0%R else 1%R) by (unfold bhi; destruct (Nat.ltb_spec j nb); [reflexivity|lia]).
    destruct Lb as [Lb|[Lb|Lb]]; rewrite Lb in *; cbn [Z.eqb Pos.eqb] in *.
    + apply wlp_bind_eq. intros p1 E1. apply wlp_intro. intros p2 E2. eapply (Pair j); eauto; try lia; rewrite ?B1, ?B2; lra.
    + apply wlp_bind_eq. intros p1 E1. apply wlp_intro. intros p2 E2. eapply (Pair j); eauto; try lia; rewrite ?B1, ?B2; lra.
    + apply wlp_bind_eq. intros p1 E1. apply wlp_intro. intros p2 E2. eapply (Pair j); eauto; try lia; rewrite ?B1, ?B2; lra.
  - intros p1 D1. apply wlp_for with (Inv := fun k => Done (nb + k)).
    + lia.
    + rewrite Nat.add_0_r. exact D1.
    + intros j p' Hj D. rewrite (CI (2 * j)), (CI (2 * j + 1)) by lia. cbn [bind].
      apply wlp_bind_eq. intros p2 E2. apply wlp_intro. intros p3 E3.
      replace (nb + S j) with (S (nb + j)) by lia. rewrite (Nat.add_comm j nb) in E2, E3.
      eapply (Pair (nb + j)); eauto; try lia; unfold blo, bhi.
      * destruct (Nat.ltb_spec (nb + j) nb); [lia|]. replace (nb + j - nb) with j by lia. lra.
      * destruct (Nat.ltb_spec (nb + j) nb); [lia|]. replace (nb + j - nb) with j by lia. lra.
    + intros p' (Hx & L & K & D). pose proof (Eq _ Hx) as Eg. split; [|split; auto].
      * destruct Hx as (h & ->). apply (rs_h _ _ _ _ _ _ _ _ _ _ _ SOLVER); auto.
      * intros j Hj. destruct (D j Hj) as (xa & xb & ea & eb & Q). exists xa, xb, ea, eb. rewrite <- Eg in Q. exact Q.
Qed.

(* ------------------------------------------------------ one relaxation *)

Definition relaxed (b : nat -> Z) (a : nat -> R) (code : Z) (p : PW) : Prop :=
  good p /\
  (usable_code code -> exists x, holds (w_x p) x /\ accepted x /\
     (forall j, j < nv -> (blo b a j - delta <= x (col j) <= bhi b a j + delta)%R) /\
     forall v, feas v -> inb b a v -> (costf x <= costf v + eps)%R) /\
  (~ usable_code code -> forall v, feas v -> ~ inb b a v) /\
  exists k0 t0 t1 p0, good p0 /\ posed nb ni p0 (blo b a) (bhi b a) /\ solver k0 t0 p0 = Some (code, t1, p).

Definition ran (w w' : W) : Prop :=
  exists p k t, w' = set_bb_ctrlc (set_bb_solves (set_bb_prob w p) k) t.

Lemma static_ran w w' : static w -> ran w w' -> good (bb_prob w') -> static w'.
Proof. intros (A & B & C & D & G) (p & k & t & ->) G'. exact (conj A (conj B (conj C (conj D G')))). Qed.

Lemma run_relax_spec bid iid b a (w : W) : static w -> cells bid iid b a ->
  wlp (run_relax solver bid iid w) (fun '(code, w') => ran w w' /\ static w' /\ relaxed b a code (bb_prob w')).
Proof.
  intros St C. pose proof St as (En & Ei & _ & _ & G). unfold run_relax. rewrite En, Ei. apply wlp_bind.
  eapply wlp_conseq; [apply (set_prob_spec bid iid b a (bb_prob w) C G)|]. intros p1 (G1 & P1 & _).
  apply wlp_bind_eq. intros [[code t] p'] Es. apply wlp_ret.
  pose proof (rs_solve _ _ _ _ _ _ _ _ _ _ _ SOLVER _ _ _ _ _ _ _ _ G1 P1 Es) as (Gp & Hu & Hn).
  assert (Rn: ran w (set_bb_ctrlc (set_bb_solves (set_bb_prob w p') (S (bb_solves w))) t)) by (do 3 eexists; reflexivity).
  split; [exact Rn|]. split; [eapply static_ran; eauto|]. bbc.
  split; [exact Gp|]. split; [exact Hu|]. split; [exact Hn|]. eauto 10.
Qed.

Lemma obj_spec (w : W) x : static w -> holds (w_x (bb_prob w)) x -> wlp (obj w) (fun q => q = Fin (costf x)).
Proof.
  intros (_ & _ & _ & _ & G) H. pose proof (rs_dims _ _ _ _ _ _ _ _ _ _ _ SOLVER _ G) as (En & Ec & _).
  unfold obj, eddot. assert (En': @w_n E (bb_prob w) = n) by exact En. rewrite En'.
  apply wlp_for with (Inv := fun i (z : E) => z = Fin (dotp i c x)).
  - lia.
  - rewrite f0_E'. reflexivity.
  - intros i z Hi ->. rewrite (H i) by lia. cbn [bind].
    refine (eq_ind_r (fun g => wlp (bind g _) _) _ (Ec i ltac:(lia))). cbn [bind]. apply wlp_ret. cbn. f_equal. unfold dotp; cbn [Rsum]. ring.
  - intros z ->. reflexivity.
Qed.

Definition ltU (r : R) (U : E) : Prop := match U with Fin u => (r < u)%R | PInf => True | _ => False end.
Definition leL (L : E) (r : R) : Prop := match L with Fin l => (l <= r)%R | NInf => True | _ => False end.

Lemma usable_dec code : {usable_code code} + {~ usable_code code}.
Proof.
  unfold usable_code. destruct (Z.eq_dec code ECOS_OPTIMAL); [left; auto|].
  destruct (Z.eq_dec code (ECOS_OPTIMAL + ECOS_INACC_OFFSET)); [left; auto|].
  destruct (Z.eq_dec code ECOS_MAXIT); [left; auto|]. destruct (Z.eq_dec code ECOS_NUMERICS); [left; auto|]. right; tauto.
Qed.
Lemma infeasible_unusable code : is_infeasible code = true -> ~ usable_code code.
Proof.
  unfold is_infeasible, usable_code, ECOS_OPTIMAL, ECOS_INACC_OFFSET, ECOS_MAXIT, ECOS_NUMERICS, ECOS_DINF, ECOS_PINF.
  intros H K. repeat (apply orb_true_iff in H as [H|H]); apply Z.eqb_eq in H; lia.
Qed.

Lemma calc_tmp_spec b a (w : W) : static w -> cells (get (bb_tbb w)) (get (bb_tbi w)) b a ->
  wlp (calc_tmp solver w) (fun '(q, code, w') => ran w w' /\ static w' /\ relaxed b a code (bb_prob w') /\
    ((is_infeasible code || flt (bb_U w) q)%bool = true -> forall v, adm v -> ltU (costf v + eps) (bb_U w) -> ~ inb b a v)).
Proof.
  intros St C. unfold calc_tmp. apply wlp_bind. eapply wlp_conseq; [apply (run_relax_spec _ _ b a w St C)|].
  intros [code w'] (Rn & St' & Rx). apply wlp_bind_eq. intros q Eq. apply wlp_ret.
  split; [auto|]. split; [auto|]. split; [auto|]. intros H v Hv HU Hb.
  destruct Rx as (G & Hu & Hn & _). destruct (usable_dec code) as [Us|Us].
  - destruct (Hu Us) as (x & Hx & _ & _ & Hm). specialize (Hm v (proj1 Hv) Hb).
    apply orb_true_iff in H as [H|H]; [apply infeasible_unusable in H; contradiction|].
    pose proof (wlp_elim _ _ _ (obj_spec w' x St' Hx) Eq) as ->.
    unfold ltU in HU. destruct (bb_U w) as [u| | |]; cbn in H; try discriminate; try contradiction.
    unfold Rltb in H. destruct (Rlt_dec u (costf x)); [lra|discriminate].
  - exact (Hn Us v (proj1 Hv) Hb).
Qed.

(* ------------------------------------------------- what the rules keep *)

Definition fixed (w : W) :=
  (bb_nb w, bb_ni w, bb_nodes w, bb_bidx w, bb_iidx w, (bb_x w, bb_y w, bb_z w, bb_s w, bb_kap w, bb_tau w, bb_info w),
   (bb_U w, bb_L w, bb_tmpb w, bb_tmpi w), (bb_iter w, bb_dive w, bb_stgs w)).

Lemma fixed_inv w w' : fixed w' = fixed w ->
  bb_nb w' = bb_nb w /\ bb_ni w' = bb_ni w /\ bb_nodes w' = bb_nodes w /\ bb_bidx w' = bb_bidx w /\ bb_iidx w' = bb_iidx w /\
  bb_x w' = bb_x w /\ bb_U w' = bb_U w /\ bb_L w' = bb_L w /\ bb_tmpb w' = bb_tmpb w /\ bb_tmpi w' = bb_tmpi w /\
  bb_iter w' = bb_iter w /\ bb_dive w' = bb_dive w /\ bb_stgs w' = bb_stgs w.
Proof. unfold fixed. intros H. injection H. intros. repeat (split; [assumption|]). assumption. Qed.

Lemma fixed_ran w w' : ran w w' -> fixed w' = fixed w.
Proof. intros (p & k & t & ->). reflexivity. Qed.

Lemma static_fixed w w' : static w -> fixed w' = fixed w -> good (bb_prob w') -> static w'.
Proof.
  intros (A & B & C & D & G) H G'. apply fixed_inv in H as (E1 & E2 & _ & E4 & E5 & _ & _ & _ & _ & _ & _ & _ & E13).
  split; [congruence|]. split; [congruence|]. split; [|split; [congruence|exact G']].
  intros j Hj. rewrite <- (C j Hj). unfold var_col. rewrite E1, E4, E5. reflexivity.
Qed.

Definition nodecells (w : W) (i : nat) (b : nat -> Z) (a : nat -> R) : Prop :=
  cells (fun j => get (bb_bids w) (nb * i + j)) (fun k => get (bb_iids w) (ni * i * 2 + k)) b a.

Definition others (w0 w : W) (idx : nat) : Prop := forall i, i <> idx ->
  (forall j, j < nb -> get (bb_bids w) (nb * i + j) = get (bb_bids w0) (nb * i + j)) /\
  (forall k, k < 2 * ni -> get (bb_iids w) (ni * i * 2 + k) = get (bb_iids w0) (ni * i * 2 + k)).

Definition SB (idx : nat) (b0 : nat -> Z) (a0 : nat -> R) (w0 w : W) (b : nat -> Z) (a : nat -> R) : Prop :=
  fixed w = fixed w0 /\ static w /\ nodecells w idx b a /\ cells (get (bb_tbb w)) (get (bb_tbi w)) b a /\ others w0 w idx /\
  (forall v, adm v -> ltU (costf v + eps) (bb_U w0) -> inb b0 a0 v -> inb b a v).

Definition updf {T} (f : nat -> T) (i : nat) (x : T) (j : nat) : T := if j =? i then x else f j.

Lemma inb_updb0 b a v i : i < nb -> adm v -> inb b a v -> v (col i) = 0%R -> inb (updf b i 0%Z) a v.
Proof.
  intros Hi Hv H E j Hj. specialize (H j Hj). unfold blo, bhi, updf in *. destruct (Nat.ltb_spec j nb); [|exact H].
  destruct (Nat.eqb_spec j i) as [->|]; [cbn; rewrite E; lra|exact H].
Qed.
Lemma inb_updb1 b a v i : i < nb -> adm v -> inb b a v -> v (col i) = 1%R -> inb (updf b i 1%Z) a v.
Proof.
  intros Hi Hv H E j Hj. specialize (H j Hj). unfold blo, bhi, updf in *. destruct (Nat.ltb_spec j nb); [|exact H].
  destruct (Nat.eqb_spec j i) as [->|]; [cbn; rewrite E; lra|exact H].
Qed.

Lemma cells_setb bid iid b a (t t' : arr Z) i x : legal x ->
  set t i x = Some t' -> cells (get t) iid b a -> bid = get t' -> cells bid iid (updf b i x) a.
Proof.
  intros Lx E [CB CI] ->. apply set_inv in E as (L & L2 & G). split; [|exact CI].
  intros j Hj. rewrite G. unfold updf. destruct (Nat.eqb_spec j i); auto.
Qed.

Lemma nodecells_setb w idx b a bids i x : i < nb -> legal x -> bb_nb w = nb ->
  set (bb_bids w) (nb * idx + i) x = Some bids -> nodecells w idx b a ->
  nodecells (set_bb_bids w bids) idx (updf b i x) a /\ others w (set_bb_bids w bids) idx.
Proof.
  intros Hi Lx En E [CB CI]. apply set_inv in E as (L & L2 & G). split; [split|].
  - bbc. intros j Hj. rewrite G. unfold updf.
    destruct (Nat.eqb_spec (nb * idx + j) (nb * idx + i)), (Nat.eqb_spec j i); try lia; auto.
  - bbc. exact CI.
  - intros k Hk. bbc. split; auto. intros j Hj. rewrite G. destruct (Nat.eqb_spec (nb * k + j) (nb * idx + i)) as [Q|]; auto.
    exfalso. assert (k < idx \/ idx < k) as [?|?] by lia; nia.
Qed.

Lemma others_trans w0 w1 w2 idx : others w0 w1 idx -> others w1 w2 idx -> others w0 w2 idx.
Proof.
  intros A B i Hi. destruct (A i Hi) as [A1 A2], (B i Hi) as [B1 B2].
  split; intros j Hj; [rewrite B1, A1|rewrite B2, A2]; auto.
Qed.

(* replacing the scratch copy of the node's entries *)
Lemma SB_ran idx b0 a0 w0 w b a w1 : SB idx b0 a0 w0 w b a -> ran w w1 -> static w1 -> SB idx b0 a0 w0 w1 b a.
Proof.
  intros (Fx & St & NC & TC & Ot & K) Rn St1. pose proof (fixed_ran _ _ Rn) as F1. destruct Rn as (p & k & t & ->).
  split; [congruence|]. split; [exact St1|]. split; [exact NC|]. split; [exact TC|]. split; [exact Ot|exact K].
Qed.

Definition split_after (sp sp' : @split EOps) (i : nat) (cur : E) : Prop := sp' = sp \/ (fst sp = -1)%Z /\ sp' = (Z.of_nat i, cur).

(* the node's entry of boolean i is fixed to x when the other value is impossible *)
Lemma SB_fix_bool idx b0 a0 w0 w b a i x y w1 q code sp cur t :
  SB idx b0 a0 w0 w b a -> i < nb -> ((x, y) = (1, 0) \/ (x, y) = (0, 1))%Z ->
  set (bb_tbb w) i y = Some t -> ran (set_bb_tbb w t) w1 -> static w1 ->
  ((is_infeasible code || flt (bb_U w) q)%bool = true -> forall v, adm v -> ltU (costf v + eps) (bb_U w) -> ~ inb (updf b i y) a v) ->
  wlp (check_infeasible_bool w1 code q idx x i sp cur) (fun '(inf, sp', w2) =>
    split_after sp sp' i cur /\
    if inf : bool then (exists b', SB idx b0 a0 w0 w2 b' a) /\ (fst sp' <> -1)%Z else sp' = sp /\ w2 = w1).
Proof.
  intros (Fx & St & NC & TC & Ot & K) Hi Hxy Et Rn St1 Pr. unfold check_infeasible_bool.
  assert (EU: bb_U w1 = bb_U w) by (destruct Rn as (p & k & t' & ->); reflexivity). rewrite EU.
  destruct (is_infeasible code || flt (bb_U w) q)%bool eqn:EP; [|apply wlp_ret; split; [left|]; auto].
  specialize (Pr eq_refl). pose proof St1 as (En1 & _ & _ & _ & Gd1). rewrite En1.
  apply wlp_bind_eq. intros bids Eb. apply wlp_bind_eq. intros tbb Etb. apply wlp_ret. split; [unfold split_after; destruct (Z.eqb_spec (fst sp) (-1)); auto|].
  split; [|destruct (Z.eqb_spec (fst sp) (-1)); cbn [fst]; lia].
  assert (Lx: legal x) by (destruct Hxy as [Q|Q]; injection Q as -> ->; [right; right|right; left]; reflexivity).
  exists (updf b i x). pose proof (fixed_ran _ _ Rn) as F1.
  assert (Q1: bb_bids w1 = bb_bids w /\ bb_iids w1 = bb_iids w /\ bb_tbb w1 = t /\ bb_tbi w1 = bb_tbi w)
    by (destruct Rn as (p & k & t' & ->); repeat split; reflexivity).
  destruct Q1 as (Q1 & Q2 & Q3 & Q4). rewrite Q1 in Eb. rewrite Q3 in Etb.
  pose proof (nodecells_setb w idx b a bids i x Hi Lx (proj1 St) Eb NC) as [NC' Ot'].
  assert (Fx2: fixed (set_bb_tbb (set_bb_bids w1 bids) tbb) = fixed w0).
  { transitivity (fixed w1); [reflexivity|]. rewrite F1. transitivity (fixed w); [reflexivity|exact Fx]. }
  split; [exact Fx2|]. split; [eapply static_fixed; [exact St1| |exact Gd1]; reflexivity|].
  split; [|split; [|split]].
  - destruct NC' as [X Y]. split; bbc; [exact X|]. rewrite Q2. exact Y.
  - bbc. rewrite Q4. apply set_inv in Et as (_ & _ & G1). apply set_inv in Etb as (_ & _ & G2). destruct TC as [X Y].
    split; [|exact Y]. intros j Hj. rewrite G2, G1. unfold updf. destruct (Nat.eqb_spec j i); auto.
  - eapply others_trans; [exact Ot|]. intros k Hk. destruct (Ot' k Hk) as [X Y]. bbc. bbc in X. bbc in Y. rewrite Q2. auto.
  - intros v Hv HU Hb. specialize (K v Hv HU Hb).
    assert (HU': ltU (costf v + eps) (bb_U w)) by (apply fixed_inv in Fx as (_ & _ & _ & _ & _ & _ & -> & _); exact HU).
    specialize (Pr v Hv HU'). pose proof (proj1 (proj2 Hv) i Hi) as V.
    destruct Hxy as [Q|Q]; injection Q as -> ->.
    + destruct V as [V|V]; [exfalso; apply Pr; apply inb_updb0; auto|apply inb_updb1; auto].
    + destruct V as [V|V]; [apply inb_updb0; auto|exfalso; apply Pr; apply inb_updb1; auto].
Qed.

Definition SBx idx b0 a0 w0 w : Prop := exists b a, SB idx b0 a0 w0 w b a.
Definition sb_post idx b0 a0 w0 (sp : @split EOps) i cur (r : option (E * E) * @split EOps * W) : Prop :=
  let '(res, sp', w') := r in
  SBx idx b0 a0 w0 w' /\ split_after sp sp' i cur /\ (res = None -> (fst sp' <> -1)%Z).

Lemma sb_bool idx b0 a0 w0 w sp i cur : SBx idx b0 a0 w0 w -> i < nb ->
  wlp (strong_branch_bool solver w sp idx i cur) (sb_post idx b0 a0 w0 sp i cur).
Proof.
  intros (b & a & S0) Hi. unfold strong_branch_bool. pose proof S0 as (Fx & St & NC & TC & Ot & K).
  destruct (proj1 TC i Hi) as [Eo Lo]. rewrite Eo. cbn [bind].
  apply wlp_bind_eq. intros t Et. apply wlp_bind.
  assert (TC0: cells (get (bb_tbb (set_bb_tbb w t))) (get (bb_tbi (set_bb_tbb w t))) (updf b i 0%Z) a).
  { bbc. eapply cells_setb; [|exact Et|exact TC|reflexivity]. right; left; reflexivity. }
  assert (St0: static (set_bb_tbb w t)) by (eapply static_fixed; [exact St|reflexivity|exact (proj2 (proj2 (proj2 (proj2 St))))]).
  eapply wlp_conseq; [apply (calc_tmp_spec _ _ _ St0 TC0)|]. intros [[qd code] w1] (Rn & St1 & _ & Pr).
  apply wlp_bind. eapply wlp_conseq; [eapply (SB_fix_bool idx b0 a0 w0 w b a i 1%Z 0%Z w1 qd code sp cur t); eauto|].
  intros [[inf sp1] w2] [SA H]. destruct inf.
  { destruct H as ((b' & Hb) & Hsp). apply wlp_ret. split; [exists b', a; exact Hb|]. auto. }
  destruct H as [-> ->]. clear SA.
  apply wlp_bind_eq. intros t2 Et2. apply wlp_bind.
  (* the state w1 with the scratch entry restored *)
  assert (Q1: bb_bids w1 = bb_bids w /\ bb_iids w1 = bb_iids w /\ bb_tbb w1 = t /\ bb_tbi w1 = bb_tbi w /\ bb_U w1 = bb_U w)
    by (destruct Rn as (p & k & t' & ->); repeat split; reflexivity).
  destruct Q1 as (Q1 & Q2 & Q3 & Q4 & Q5).
  pose proof (set_inv _ _ _ _ Et) as (Lt1 & Lt2 & Gt). rewrite Q3 in Et2. pose proof (set_inv _ _ _ _ Et2) as (_ & Lt3 & Gt2).
  set (wr := set_bb_tbb w1 (bb_tbb w)).
  assert (Sr: SB idx b0 a0 w0 wr b a).
  { pose proof (fixed_ran _ _ Rn) as F1. split; [transitivity (fixed w1); [reflexivity|rewrite F1; exact Fx]|].
    split; [eapply static_fixed; [exact St1|reflexivity|exact (proj2 (proj2 (proj2 (proj2 St1))))]|].
    split; [unfold wr, nodecells; bbc; rewrite Q1, Q2; exact NC|]. split; [unfold wr; bbc; rewrite Q4; exact TC|].
    split; [|exact K]. intros k Hk. unfold wr; bbc. rewrite Q1, Q2. exact (Ot k Hk). }
  assert (Er: set (bb_tbb wr) i 1%Z = Some t2).
  { unfold wr; bbc. rewrite set_ok by lia. f_equal. apply arr_ext.
    - rewrite upd_length. congruence.
    - intros j. rewrite Gt2, Gt. rewrite get_upd by lia. destruct (Nat.eqb_spec j i); auto. }
  assert (Wr: set_bb_tbb w1 t2 = set_bb_tbb wr t2) by reflexivity. rewrite Wr.
  pose proof Sr as (Fxr & Str & NCr & TCr & _ & _).
  assert (TC1: cells (get (bb_tbb (set_bb_tbb wr t2))) (get (bb_tbi (set_bb_tbb wr t2))) (updf b i 1%Z) a).
  { eapply cells_setb; [|exact Er|exact TCr|reflexivity]. right; right; reflexivity. }
  assert (St2: static (set_bb_tbb wr t2)) by (eapply static_fixed; [exact Str|reflexivity|exact (proj2 (proj2 (proj2 (proj2 Str))))]).
  eapply wlp_conseq; [apply (calc_tmp_spec _ _ _ St2 TC1)|]. intros [[qu code2] w3] (Rn2 & St3 & _ & Pr2).
  apply wlp_bind. eapply wlp_conseq; [eapply (SB_fix_bool idx b0 a0 w0 wr b a i 0%Z 1%Z w3 qu code2 sp cur t2); eauto|].
  intros [[inf sp1] w4] [SA H]. destruct inf.
  { destruct H as ((b' & Hb) & Hsp). apply wlp_ret. split; [exists b', a; exact Hb|]. auto. }
  destruct H as [-> ->].
  apply wlp_bind_eq. intros t3 Et3. apply wlp_ret. split; [|split; [left; reflexivity|discriminate]].
  exists b, a.
  assert (P3: bb_bids w3 = bb_bids wr /\ bb_iids w3 = bb_iids wr /\ bb_tbb w3 = t2 /\ bb_tbi w3 = bb_tbi wr)
    by (destruct Rn2 as (p & k & t' & ->); repeat split; reflexivity).
  destruct P3 as (P1 & P2 & P3 & P4). rewrite P3 in Et3. pose proof (set_inv _ _ _ _ Et3) as (_ & _ & Gt3).
  pose proof (fixed_ran _ _ Rn2) as F2. destruct Sr as (_ & _ & _ & _ & Otr & Kr).
  split; [transitivity (fixed w3); [reflexivity|rewrite F2; exact Fxr]|].
  split; [eapply static_fixed; [exact St3|reflexivity|exact (proj2 (proj2 (proj2 (proj2 St3))))]|].
  split; [unfold nodecells; bbc; rewrite P1, P2; exact NCr|]. split.
  { bbc. rewrite P4. destruct TCr as [X Y]. split; [|exact Y]. intros j Hj. rewrite Gt3, Gt2, Gt.
    destruct (Nat.eqb_spec j i) as [->|]; [auto|]. apply X; auto. }
  split; [|exact Kr]. intros k Hk. bbc. rewrite P1, P2. exact (Otr k Hk).
Qed.

Lemma floor_inv cur fl : pfloat_floor cur (Fin tol : E) = Some fl ->
  exists y, cur = Fin y /\ fl = Fin (IZR (Zfl tol y)).
Proof.
  intros H. destruct cur as [y| | |].
  - exists y. split; auto. pose proof (eq_trans (eq_sym (floor_E y tol)) H) as Q.
    destruct (to_int (Zfl tol y)) eqn:E1; [|discriminate]. apply to_int_inv in E1 as [-> _]. cbn in Q. injection Q as <-. reflexivity.
  - unfold pfloat_floor in H. rewrite f0_E', f1_E' in H. cbn in H. discriminate.
  - unfold pfloat_floor in H. rewrite f0_E', f1_E' in H. cbn in H. discriminate.
  - unfold pfloat_floor in H. rewrite f0_E', f1_E' in H. cbn in H. discriminate.
Qed.
Lemma ceil_inv cur ce : pfloat_ceil cur (Fin tol : E) = Some ce ->
  exists y, cur = Fin y /\ ce = Fin (IZR (Zce tol y)).
Proof.
  intros H. destruct cur as [y| | |].
  - exists y. split; auto. pose proof (eq_trans (eq_sym (ceil_E y tol)) H) as Q.
    destruct (to_int (Zce tol y)) eqn:E1; [|discriminate]. apply to_int_inv in E1 as [-> _]. cbn in Q. injection Q as <-. reflexivity.
  - unfold pfloat_ceil in H. rewrite f0_E', f1_E' in H. cbn in H. discriminate.
  - unfold pfloat_ceil in H. rewrite f0_E', f1_E' in H. cbn in H. discriminate.
  - unfold pfloat_ceil in H. rewrite f0_E', f1_E' in H. cbn in H. discriminate.
Qed.

Lemma cells_seti bid b a (t t' : arr E) k x :
  set t k (Fin x) = Some t' -> cells bid (get t) b a -> cells bid (get t') b (updf a k x).
Proof.
  intros E0 [CB CI]. apply set_inv in E0 as (L & L2 & G). split; [exact CB|].
  intros j Hj. rewrite G. unfold updf. destruct (Nat.eqb_spec j k); auto.
Qed.

Lemma nodecells_seti w idx b a iids k x : k < 2 * ni ->
  set (bb_iids w) (ni * idx * 2 + k) (Fin x) = Some iids -> nodecells w idx b a ->
  nodecells (set_bb_iids w iids) idx b (updf a k x) /\ others w (set_bb_iids w iids) idx.
Proof.
  intros Hk E0 [CB CI]. apply set_inv in E0 as (L & L2 & G). split; [split|].
  - bbc. exact CB.
  - bbc. intros j Hj. rewrite G. unfold updf.
    destruct (Nat.eqb_spec (ni * idx * 2 + j) (ni * idx * 2 + k)), (Nat.eqb_spec j k); try lia; auto.
  - intros i Hi. bbc. split; auto. intros j Hj. rewrite G. destruct (Nat.eqb_spec (ni * i * 2 + j) (ni * idx * 2 + k)) as [Q|]; auto.
    exfalso. assert (i < idx \/ idx < i) as [?|?] by lia; nia.
Qed.

(* an integer variable is at most floor y or at least ceil y *)
Lemma int_split v i y : adm v -> i < ni ->
  (v (col (nb + i)%nat) <= IZR (Zfl tol y) \/ IZR (Zce tol y) <= v (col (nb + i)%nat))%R.
Proof.
  intros Hv Hi. destruct (proj2 (proj2 Hv) (nb + i) ltac:(lia)) as (z & -> & _).
  pose proof (Zfl_Zce tol y ltac:(lra)) as [_ A].
  destruct (Z_le_gt_dec z (Zfl tol y)); [left; apply IZR_le; lia|right; apply IZR_le; lia].
Qed.
Lemma inb_upd_hi b a v i x : i < ni -> inb b a v -> (v (col (nb + i)%nat) <= x)%R -> inb b (updf a (2 * i + 1) x) v.
Proof.
  intros Hi H Hx j Hj. specialize (H j Hj). unfold blo, bhi, updf in *. destruct (Nat.ltb_spec j nb); [exact H|].
  destruct (Nat.eqb_spec (2 * (j - nb)) (2 * i + 1)); [lia|]. destruct (Nat.eqb_spec (2 * (j - nb) + 1) (2 * i + 1)); [|exact H].
  assert (j = nb + i) by lia. subst j. lra.
Qed.
Lemma inb_upd_lo b a v i x : i < ni -> inb b a v -> (x <= v (col (nb + i)%nat))%R -> inb b (updf a (2 * i) (- x)) v.
Proof.
  intros Hi H Hx j Hj. specialize (H j Hj). unfold blo, bhi, updf in *. destruct (Nat.ltb_spec j nb); [exact H|].
  destruct (Nat.eqb_spec (2 * (j - nb) + 1) (2 * i)); [lia|]. destruct (Nat.eqb_spec (2 * (j - nb)) (2 * i)); [|exact H].
  assert (j = nb + i) by lia. subst j. lra.
Qed.

Lemma SB_try_int idx b0 a0 w0 w b a k x t :
  SB idx b0 a0 w0 w b a -> k < 2 * ni -> set (bb_tbi w) k (Fin x) = Some t ->
  wlp (calc_tmp solver (set_bb_tbi w t)) (fun '(q, code, w1) =>
    (forall t2, set (bb_tbi w1) k (Fin (a k)) = Some t2 -> SB idx b0 a0 w0 (set_bb_tbi w1 t2) b a) /\
    ((is_infeasible code || flt (bb_U w1) q)%bool = true ->
       forall v, adm v -> ltU (costf v + eps) (bb_U w0) -> ~ inb b (updf a k x) v)).
Proof.
  intros (Fx & St & NC & TC & Ot & K) Hk Et.
  assert (TC0: cells (get (bb_tbb (set_bb_tbi w t))) (get (bb_tbi (set_bb_tbi w t))) b (updf a k x)).
  { bbc. eapply cells_seti; eauto. }
  assert (St0: static (set_bb_tbi w t)) by (eapply static_fixed; [exact St|reflexivity|exact (proj2 (proj2 (proj2 (proj2 St))))]).
  eapply wlp_conseq; [apply (calc_tmp_spec _ _ _ St0 TC0)|]. intros [[q code] w1] (Rn & St1 & _ & Pr).
  assert (Q1: bb_bids w1 = bb_bids w /\ bb_iids w1 = bb_iids w /\ bb_tbi w1 = t /\ bb_tbb w1 = bb_tbb w /\ bb_U w1 = bb_U w)
    by (destruct Rn as (p & k' & t' & ->); repeat split; reflexivity).
  destruct Q1 as (Q1 & Q2 & Q3 & Q4 & Q5).
  split.
  - intros t2 Et2. rewrite Q3 in Et2. pose proof (fixed_ran _ _ Rn) as F1.
    split; [transitivity (fixed w1); [reflexivity|rewrite F1; exact Fx]|].
    split; [eapply static_fixed; [exact St1|reflexivity|exact (proj2 (proj2 (proj2 (proj2 St1))))]|].
    split; [unfold nodecells; bbc; rewrite Q1, Q2; exact NC|]. split; [|split; [|exact K]].
    + bbc. rewrite Q4. destruct TC as [X Y]. split; [exact X|]. intros j Hj.
      apply set_inv in Et as (_ & _ & G1). apply set_inv in Et2 as (_ & _ & G2). rewrite G2, G1.
      destruct (Nat.eqb_spec j k); [subst; auto|auto].
    + intros i Hi. bbc. rewrite Q1, Q2. exact (Ot i Hi).
  - rewrite Q5. intros H v Hv HU. apply fixed_inv in Fx as (_ & _ & _ & _ & _ & _ & EU & _).
    apply (Pr H v Hv). bbc. rewrite EU. exact HU.
Qed.

Lemma SB_fix_int idx b0 a0 w0 w b a i (lb : bool) q code sp cur :
  SB idx b0 a0 w0 w b a -> i < ni ->
  ((is_infeasible code || flt (bb_U w) q)%bool = true -> forall y, cur = Fin y -> forall v, adm v -> ltU (costf v + eps) (bb_U w0) ->
     ~ inb b (if lb then updf a (2 * i + 1) (IZR (Zfl tol y)) else updf a (2 * i) (- IZR (Zce tol y))%R) v) ->
  wlp (check_infeasible_int w code q idx lb i sp cur) (fun '(inf, sp', w2) =>
    split_after sp sp' (i + nb) cur /\
    if inf : bool then SBx idx b0 a0 w0 w2 /\ (fst sp' <> -1)%Z else sp' = sp /\ w2 = w).
Proof.
  intros (Fx & St & NC & TC & Ot & K) Hi Pr. unfold check_infeasible_int.
  destruct (is_infeasible code || flt (bb_U w) q)%bool eqn:EP; [|apply wlp_ret; split; [left|]; auto].
  specialize (Pr eq_refl). pose proof St as (En & Ei & _ & Et & Gd). rewrite Ei, Et. rewrite ?En.
  apply wlp_bind_eq. intros x Ex. apply wlp_bind_eq. intros iids E1. apply wlp_bind_eq. intros tbi E2. apply wlp_ret.
  split; [unfold split_after; destruct (Z.eqb_spec (fst sp) (-1)); auto|].
  split; [|destruct (Z.eqb_spec (fst sp) (-1)); cbn [fst]; lia].
  assert (exists y, cur = Fin y /\ x = Fin (if lb then - IZR (Zce tol y) else IZR (Zfl tol y))%R) as (y & -> & ->).
  { destruct lb; [|apply floor_inv in Ex; exact Ex]. bd Ex as ce Ece. apply ceil_inv in Ece as (y & -> & ->). injection Ex as <-. exists y. auto. }
  set (k := 2 * i + (if lb then 0 else 1)) in *. set (r := (if lb then - IZR (Zce tol y) else IZR (Zfl tol y))%R) in *.
  assert (Hk: k < 2 * ni) by (unfold k; destruct lb; lia).
  exists b, (updf a k r).
  pose proof (nodecells_seti w idx b a iids k r Hk E1 NC) as [NC' Ot'].
  split; [exact Fx|]. split; [eapply static_fixed; [exact St|reflexivity|exact Gd]|].
  split; [exact NC'|]. split; [eapply cells_seti; eauto|]. split; [eapply others_trans; [exact Ot|exact Ot']|].
  intros v Hv HU Hb. specialize (K v Hv HU Hb). specialize (Pr y eq_refl v Hv HU).
  destruct (int_split v i y Hv Hi) as [V|V]; unfold k, r; destruct lb.
  - exfalso. apply Pr. apply inb_upd_hi; auto.
  - apply inb_upd_hi; auto.
  - rewrite Nat.add_0_r. apply inb_upd_lo; auto.
  - exfalso. apply Pr. apply inb_upd_lo; auto.
Qed.

Lemma sb_int idx b0 a0 w0 w sp i cur : SBx idx b0 a0 w0 w -> i < ni ->
  wlp (strong_branch_int solver w sp idx i cur) (sb_post idx b0 a0 w0 sp (i + nb) cur).
Proof.
  intros (b & a & S0) Hi. unfold strong_branch_int. pose proof S0 as (Fx & St & NC & TC & Ot & K).
  rewrite (proj2 TC (2 * i + 1) ltac:(lia)). cbn [bind].
  pose proof St as (_ & _ & _ & Et & _). rewrite Et.
  apply wlp_bind_eq. intros fl Efl. apply floor_inv in Efl as (y & -> & ->).
  apply wlp_bind_eq. intros t Et1. apply wlp_bind.
  eapply wlp_conseq; [apply (SB_try_int idx b0 a0 w0 w b a (2 * i + 1) _ t S0 ltac:(lia) Et1)|].
  intros [[qd code] w1] (Rs & Pr). apply wlp_bind_eq. intros t2 Et2. specialize (Rs t2 Et2).
  apply wlp_bind. eapply wlp_conseq; [eapply (SB_fix_int idx b0 a0 w0 _ b a i true qd code sp (Fin y) Rs Hi)|].
  { intros H y' Ey. injection Ey as <-. exact (Pr H). }
  intros [[inf sp1] w2] [SA H]. destruct inf.
  { destruct H as (Hb & Hsp). apply wlp_ret. split; auto. }
  destruct H as [-> ->]. clear SA Pr.
  set (wa := set_bb_tbi w1 t2) in *. pose proof Rs as (_ & _ & _ & TCa & _ & _).
  rewrite (proj2 TCa (2 * i) ltac:(lia)). cbn [bind].
  apply wlp_bind_eq. intros ce Ece. apply ceil_inv in Ece as (y' & Ey & ->). injection Ey as <-.
  apply wlp_bind_eq. intros t3 Et3. apply wlp_bind.
  eapply wlp_conseq; [apply (SB_try_int idx b0 a0 w0 wa b a (2 * i) _ t3 Rs ltac:(lia) Et3)|].
  intros [[qu code2] w3] (Rs2 & Pr). apply wlp_bind_eq. intros t4 Et4. specialize (Rs2 t4 Et4).
  apply wlp_bind. eapply wlp_conseq; [eapply (SB_fix_int idx b0 a0 w0 _ b a i false qu code2 sp (Fin y) Rs2 Hi)|].
  { intros H y' Ey. injection Ey as <-. exact (Pr H). }
  intros [[inf sp1] w4] [SA H]. destruct inf.
  { destruct H as (Hb & Hsp). apply wlp_ret. split; auto. }
  destruct H as [-> ->]. apply wlp_ret. split; [exists b, a; exact Rs2|]. split; [left; reflexivity|discriminate].
Qed.

Lemma sb_var idx b0 a0 w0 w sp i cur : SBx idx b0 a0 w0 w -> i < nv ->
  wlp (strong_branch_var solver w sp idx i cur) (sb_post idx b0 a0 w0 sp i cur).
Proof.
  intros S0 Hi. unfold strong_branch_var. assert (En: bb_nb w = nb) by (destruct S0 as (b & a & _ & St & _); apply St).
  rewrite En. destruct (Nat.ltb_spec i nb); [apply sb_bool; auto|].
  eapply wlp_conseq; [apply (sb_int idx b0 a0 w0 w sp (i - nb) cur S0); lia|]. replace (i - nb + nb) with i by lia. auto.
Qed.

(* ------------------------------------------------------------- the rules *)

Definition valid (sp : @split EOps) : Prop := (0 <= fst sp < Z.of_nat nv)%Z /\ exists y, snd sp = Fin y.

Definition NB idx b0 a0 (w0 w : W) : Prop := exists b a,
  fixed w = fixed w0 /\ static w /\ nodecells w idx b a /\ others w0 w idx /\
  (forall v, adm v -> ltU (costf v + eps) (bb_U w0) -> inb b0 a0 v -> inb b a v).

Lemma SBx_NB idx b0 a0 w0 w : SBx idx b0 a0 w0 w -> NB idx b0 a0 w0 w.
Proof. intros (b & a & A & B & C & _ & D & K). exists b, a. auto 10. Qed.

Definition same_tables (w w' : W) : Prop :=
  fixed w' = fixed w /\ bb_prob w' = bb_prob w /\ bb_bids w' = bb_bids w /\ bb_iids w' = bb_iids w /\
  bb_tbb w' = bb_tbb w /\ bb_tbi w' = bb_tbi w.

Lemma static_same w w' : static w -> same_tables w w' -> static w'.
Proof. intros St (F1 & P & _). eapply static_fixed; eauto. rewrite P. apply St. Qed.

Lemma SBx_same idx b0 a0 w0 w w' : SBx idx b0 a0 w0 w -> same_tables w w' -> SBx idx b0 a0 w0 w'.
Proof.
  intros (b & a & Fx & St & NC & TC & Ot & K) Sm. pose proof (static_same _ _ St Sm) as St'.
  destruct Sm as (F1 & P & B & I & T1 & T2). exists b, a.
  split; [congruence|]. split; [exact St'|]. split; [unfold nodecells; rewrite B, I; exact NC|].
  split; [rewrite T1, T2; exact TC|]. split; [|exact K]. intros k Hk. rewrite B, I. exact (Ot k Hk).
Qed.
Lemma NB_same idx b0 a0 w0 w w' : NB idx b0 a0 w0 w -> same_tables w w' -> NB idx b0 a0 w0 w'.
Proof.
  intros (b & a & Fx & St & NC & Ot & K) Sm. pose proof (static_same _ _ St Sm) as St'.
  destruct Sm as (F1 & P & B & I & T1 & T2). exists b, a.
  split; [congruence|]. split; [exact St'|]. split; [unfold nodecells; rewrite B, I; exact NC|].
  split; [|exact K]. intros k Hk. rewrite B, I. exact (Ot k Hk).
Qed.

Lemma observe_same (w w' : W) bv k v : observe w bv k v = Some w' -> same_tables w w'.
Proof.
  unfold observe. intros H. destruct bv; binv H; injection H as <-; repeat split; reflexivity.
Qed.

Lemma shuffle_spec m (w : W) : wlp (get_shuffled_array rnd m w) (fun '(ord, w') =>
  same_tables w w' /\ (forall r i, get ord r = Some i -> i < m) /\ (forall i, i < m -> exists r, r < m /\ get ord r = Some i)).
Proof.
  apply wp_wlp. eapply wp_conseq; [apply (shuffle_ok rnd m w Hrnd)|]. intros [a w'] ((l & -> & P) & k & ->).
  split; [repeat split; reflexivity|]. assert (L: length l = m) by (rewrite (Permutation_length P), seq_length; reflexivity). split.
  - intros r i H. rewrite get_arr_of in H. apply nth_error_In in H. apply (Permutation_in _ P) in H. apply in_seq in H. lia.
  - intros i Hi. assert (In i l) by (apply (Permutation_in _ (Permutation_sym P)); apply in_seq; lia).
    apply In_nth_error in H as (r & Hr). exists r. rewrite get_arr_of. split; auto. rewrite <- L. apply nth_error_Some. congruence.
Qed.

Lemma abs2_E x : @abs_2 EOps (Fin x) = Fin (Rabs x).
Proof.
  unfold abs_2. rewrite f0_E'. cbn. unfold Rltb. destruct (Rlt_dec x 0); cbn; f_equal; [rewrite Rabs_left; auto|rewrite Rabs_right; auto; lra].
Qed.
Lemma eqls_E x y t : @float_eqls EOps (Fin x) (Fin y) (Fin t) = true <-> (Rabs (x - y) < t)%R.
Proof.
  unfold float_eqls. change (@fsub EOps (Fin x) (Fin y)) with (Fin (x + - y)). rewrite abs2_E. cbn.
  unfold Rltb. unfold Rminus. destruct (Rlt_dec _ _); split; auto; try discriminate; lra.
Qed.
Lemma near_int_inv w y r : static w -> near_int w y = Some r ->
  exists yr, y = Fin yr /\ (fractional tol yr -> r = false).
Proof.
  intros (_ & _ & _ & Et & _) H. unfold near_int in H. rewrite Et in H. bd H as fl Efl. apply floor_inv in Efl as (yr & -> & ->).
  exists yr. split; auto. intros Fr.
  destruct (@float_eqls EOps (Fin yr) _ _) eqn:E1.
  - apply eqls_E in E1. specialize (Fr (Zfl tol yr)). lra.
  - bd H as ce Ece. apply ceil_inv in Ece as (y' & Ey & ->). injection Ey as <-.
    match type of H with Some ?b = Some _ => destruct b eqn:E2; [|congruence] end. apply eqls_E in E2. specialize (Fr (Zce tol yr)). lra.
Qed.

Lemma score_big d u : flt (NInf : E) (get_score d u) = true.
Proof.
  unfold get_score. set (e := fconst _). assert (Ee: exists r, (0 < r)%R /\ e = Fin r).
  { eexists. split; [|reflexivity]. unfold Q2R. cbn. lra. }
  destruct Ee as (r & Hr & ->).
  assert (P: forall x : E, (exists s, (0 < s)%R /\ (if flt (Fin r : E) x then x else Fin r) = Fin s) \/ (if flt (Fin r : E) x then x else Fin r) = PInf).
  { intros [x| | |]; cbn; [|right; reflexivity|left; exists r; auto|left; exists r; auto].
    unfold Rltb. destruct (Rlt_dec r x); left; [exists x|exists r]; split; auto; lra. }
  destruct (P d) as [(s & Hs & ->)| ->], (P u) as [(s' & Hs' & ->)| ->]; cbn; auto; unfold esgn.
  - destruct (Rlt_dec 0 s); [auto|lra].
  - destruct (Rlt_dec 0 s'); [auto|lra].
Qed.

Lemma init_sb idx b0 a0 w0 w : NB idx b0 a0 w0 w ->
  wlp (initialize_strong_branching w idx) (fun w' => SBx idx b0 a0 w0 w' /\ bb_prob w' = bb_prob w /\
    forall b a, nodecells w idx b a -> cells (get (bb_tbb w')) (get (bb_tbi w')) b a).
Proof.
  intros (b & a & Fx & St & NC & Ot & K). unfold initialize_strong_branching. pose proof St as (En & Ei & _). rewrite En, Ei.
  apply wlp_bind_eq. intros tb Eb. apply wlp_bind_eq. intros ti Et. apply wlp_ret.
  apply memcpy_inv in Eb as (_ & Gb & _). apply memcpy_inv in Et as (_ & Gi & _).
  assert (T: forall b a, nodecells w idx b a -> cells (get tb) (get ti) b a).
  { intros b' a' [X Y]. split; [intros j Hj; rewrite Gb by auto; exact (X j Hj)|intros k Hk; rewrite Gi by auto; exact (Y k Hk)]. }
  split; [|split; [reflexivity|exact T]]. exists b, a. split; [exact Fx|].
  split; [eapply static_fixed; [exact St|reflexivity|apply St]|]. split; [exact NC|]. split; [apply T; exact NC|]. split; [exact Ot|exact K].
Qed.

Definition rule_post idx b0 a0 w0 (r : @split EOps * W) : Prop := valid (fst r) /\ NB idx b0 a0 w0 (snd r).

Lemma cand (w : W) i : static w -> i < nv -> var_col w i = Some (col i).
Proof. intros (_ & _ & C & _) H. auto. Qed.
Lemma nvars_st w : static w -> nvars w = nv.
Proof. intros (A & B & _). unfold nvars. congruence. Qed.

Lemma rule_most idx b0 a0 w0 w sp x : NB idx b0 a0 w0 w -> holds (w_x (bb_prob w)) x -> valid sp ->
  wlp (most_infeasible w sp) (rule_post idx b0 a0 w0).
Proof.
  intros N Hx V. pose proof N as (b & a & _ & St & _). unfold most_infeasible. rewrite (nvars_st _ St). apply wlp_bind.
  apply wlp_for with (Inv := fun _ (s : @split EOps * E) => valid (fst s)).
  - lia.
  - exact V.
  - intros i [s d] Hi Vs. rewrite (cand w i St) by lia. cbn [bind]. rewrite (Hx (col i)) by (apply Hcol; lia). cbn [bind].
    apply wlp_bind_eq. intros xx _. destruct (flt _ d); apply wlp_ret; cbn [fst]; [|exact Vs].
    split; cbn [fst snd]; [lia|eauto].
  - intros [s d] Vs. apply wlp_ret. split; auto.
Qed.

Lemma rule_random idx b0 a0 w0 w : NB idx b0 a0 w0 w -> wlp (random_branching rnd rfuel w) (rule_post idx b0 a0 w0).
Proof.
  revert w. induction rfuel as [|fu IH]; intros w N; cbn [random_branching]; [exact I|].
  pose proof N as (b & a & _ & St & _). rewrite (nvars_st _ St).
  unfold guard. destruct (Nat.ltb_spec 0 nv); [|exact I]. cbn [bind].
  set (i := Z.to_nat _). set (w1 := set_bb_draws w _). assert (N1: NB idx b0 a0 w0 w1) by (eapply NB_same; [exact N|repeat split; reflexivity]).
  pose proof N1 as (_ & _ & _ & St1 & _).
  assert (Hi: i < nv) by (unfold i; pose proof (Z.mod_pos_bound (rnd (bb_draws w)) (Z.of_nat nv) ltac:(lia)); lia).
  rewrite (cand w1 i St1 Hi). cbn [bind]. apply wlp_bind_eq. intros y _. apply wlp_bind_eq. intros r Er.
  apply (near_int_inv _ _ _ St1) in Er as (yr & -> & _). destruct r; [apply IH; exact N1|].
  apply wlp_ret. split; [|exact N1]. split; cbn [fst snd]; [lia|eauto].
Qed.

Lemma rule_pseudo idx b0 a0 w0 w sp : NB idx b0 a0 w0 w -> valid sp -> wlp (pseudocost_branching rnd w sp) (rule_post idx b0 a0 w0).
Proof.
  intros N V. pose proof N as (b & a & _ & St & _). unfold pseudocost_branching. rewrite (nvars_st _ St). apply wlp_bind.
  eapply wlp_conseq; [apply shuffle_spec|]. intros [ord w1] (Sm & O1 & _). pose proof (NB_same _ _ _ _ _ _ N Sm) as N1.
  pose proof N1 as (_ & _ & _ & St1 & _). rewrite (nvars_st _ St1). apply wlp_bind.
  apply wlp_for with (Inv := fun _ (s : @split EOps * E) => valid (fst s)).
  - lia.
  - exact V.
  - intros r [s d] Hr Vs. apply wlp_bind_eq. intros i Ei. apply O1 in Ei. rewrite (cand w1 i St1 Ei). cbn [bind].
    apply wlp_bind_eq. intros y _. apply wlp_bind_eq. intros ni0 En. apply (near_int_inv _ _ _ St1) in En as (yr & -> & _).
    destruct ni0; [apply wlp_ret; exact Vs|]. apply wlp_bind_eq. intros sc _.
    destruct (flt d sc); apply wlp_ret; cbn [fst]; [|exact Vs]. split; cbn [fst snd]; [lia|eauto].
  - intros [s d] Vs. apply wlp_ret. split; auto.
Qed.

Lemma rule_reliability idx b0 a0 w0 w sp : NB idx b0 a0 w0 w -> valid sp ->
  wlp (reliability_branching solver rnd w sp idx) (rule_post idx b0 a0 w0).
Proof.
  intros N V. pose proof N as (b & a & _ & St & _). unfold reliability_branching. rewrite (nvars_st _ St). apply wlp_bind.
  eapply wlp_conseq; [apply shuffle_spec|]. intros [ord w1] (Sm & O1 & _). pose proof (NB_same _ _ _ _ _ _ N Sm) as N1.
  pose proof N1 as (_ & _ & _ & St1 & _). rewrite (nvars_st _ St1). apply wlp_bind.
  apply wlp_for with (Inv := fun _ (s : @split EOps * E * option (E * arr E) * W) =>
    let '(sp, _, st, w) := s in valid sp /\ NB idx b0 a0 w0 w /\ (st <> None -> SBx idx b0 a0 w0 w)).
  - lia.
  - split; [exact V|]. split; [exact N1|]. congruence.
  - intros r [[[s high] st] wr] Hr (Vs & Nr & Sr). pose proof Nr as (_ & _ & _ & Str & _).
    apply wlp_bind_eq. intros i Ei. apply O1 in Ei. rewrite (cand wr i Str Ei). cbn [bind].
    apply wlp_bind_eq. intros y _. apply wlp_bind_eq. intros ni0 En. apply (near_int_inv _ _ _ Str) in En as (yr & -> & _).
    destruct ni0; [apply wlp_ret; auto|]. apply wlp_bind_eq. intros rel _. apply wlp_bind.
    assert (V': valid (Z.of_nat i, Fin yr)) by (split; cbn [fst snd]; [lia|eauto]).
    apply wlp_conseq with (P := fun s' : option E * @split EOps * option (E * arr E) * W =>
      let '(_, sp, st, w) := s' in valid sp /\ NB idx b0 a0 w0 w /\ (st <> None -> SBx idx b0 a0 w0 w)).
    2:{ intros [[[sc s1] st1] w2] H. destruct sc as [sc|]; [|apply wlp_ret; exact H].
        destruct (flt high sc); apply wlp_ret; [|exact H]. destruct H as (_ & H); split; auto. }
    destruct rel.
    { apply wlp_bind_eq. intros sc _. apply wlp_ret. auto. }
    apply wlp_bind. apply wlp_conseq with (P := fun s' : E * arr E * W => SBx idx b0 a0 w0 (snd s')).
    + destruct st as [[q xs]|]; [apply wlp_ret; apply Sr; discriminate|].
      apply wlp_bind. eapply wlp_conseq; [apply (init_sb _ _ _ _ _ Nr)|]. intros w2 ((b2 & a2 & S2) & _ & _).
      apply wlp_bind. pose proof S2 as (_ & St2 & _ & TC2 & _). eapply wlp_conseq; [apply (calc_tmp_spec _ _ _ St2 TC2)|].
      intros [[q code] w3] (Rn & St3 & _ & _). apply wlp_bind_eq. intros xs _. apply wlp_ret. cbn [snd].
      exists b2, a2. eapply SB_ran; eauto.
    + intros [[q xs] w2] S2. cbn [snd] in S2. apply wlp_bind_eq. intros cur _. apply wlp_bind.
      eapply wlp_conseq; [apply (sb_var idx b0 a0 w0 w2 s i cur S2 Ei)|]. intros [[res s1] w3] (S3 & SA & _).
      assert (s1 = s) as -> by (destruct SA as [->|[Q _]]; [reflexivity|destruct Vs; lia]).
      destruct res as [[qd qu]|]; [|apply wlp_ret; split; [auto|split; [apply SBx_NB; auto|auto]]].
      apply wlp_bind_eq. intros ce _. apply wlp_bind_eq. intros fl _.
      apply wlp_bind_eq. intros w4 E4. apply wlp_bind_eq. intros w5 E5. apply wlp_ret.
      assert (S5: SBx idx b0 a0 w0 w5) by (eapply SBx_same; [eapply SBx_same; [exact S3|eapply observe_same; exact E4]|eapply observe_same; exact E5]).
      split; [auto|split; [apply SBx_NB; auto|auto]].
  - intros [[[s high] st] wr] (Vs & Nr & _). apply wlp_ret. split; auto.
Qed.

Lemma rule_strong idx b0 a0 w sp code x : repeatable nb ni col good solver ->
  NB idx b0 a0 w w -> nodecells w idx b0 a0 -> relaxed b0 a0 code (bb_prob w) -> usable_code code -> holds (w_x (bb_prob w)) x ->
  (exists j, j < nv /\ fractional tol (x (col j))) ->
  wlp (strong_branching solver rnd w sp idx) (rule_post idx b0 a0 w).
Proof.
  intros Rep N NC0 Rx Us Hx (jf & Hjf & Fr). pose proof N as (_ & _ & _ & St & _). unfold strong_branching. apply wlp_bind.
  eapply wlp_conseq; [apply (init_sb _ _ _ _ _ N)|]. intros w1 ((b1 & a1 & S1) & P1 & T1).
  specialize (T1 b0 a0 NC0). apply wlp_bind. pose proof S1 as (_ & St1 & _ & _ & _).
  eapply wlp_conseq; [apply (calc_tmp_spec _ _ _ St1 T1)|]. intros [[q c2] w2] (Rn & St2 & Rx2 & _).
  assert (S2: SBx idx b0 a0 w w2) by (exists b1, a1; eapply SB_ran; eauto).
  assert (Xc: forall j, j < nv -> get (w_x (bb_prob w2)) (col j) = Some (Fin (x (col j)))).
  { intros j Hj. destruct Rx as (_ & _ & _ & k0 & t0 & t1 & p0 & G0 & Po & So). destruct Rx2 as (_ & _ & _ & k2 & t2 & t3 & p2 & G2 & Po2 & So2).
    destruct (Rep _ _ _ _ _ _ _ _ _ _ _ _ _ _ G0 Po So Us G2 Po2 So2) as [_ Q]. etransitivity; [exact (Q j Hj)|]. apply Hx, Hcol, Hj. }
  apply wlp_bind_eq. intros xs Exs. apply memcpy_inv in Exs as (_ & Gx & _).
  assert (En: w_n (bb_prob w2) = n) by (apply (rs_dims _ _ _ _ _ _ _ _ _ _ _ SOLVER), St2). rewrite En in Gx.
  assert (Xs: forall j, j < nv -> get xs (col j) = Some (Fin (x (col j)))) by (intros j Hj; rewrite Gx by auto; exact (Xc j Hj)).
  rewrite (nvars_st _ St2). apply wlp_bind. eapply wlp_conseq; [apply shuffle_spec|]. intros [ord w3] (Sm & O1 & O2).
  pose proof (SBx_same _ _ _ _ _ _ S2 Sm) as S3. assert (St3: static w3) by (destruct S3 as (? & ? & _ & H & _); exact H).
  rewrite (nvars_st _ St3). apply wlp_bind.
  apply wlp_for with (Inv := fun r (s : @split EOps * E * W) => let '(sp, best, wr) := s in SBx idx b0 a0 w wr /\
     (valid sp \/ (fst sp = -1)%Z /\ best = NInf /\ forall r' i, r' < r -> get ord r' = Some i -> ~ fractional tol (x (col i)))).
  - lia.
  - split; [exact S3|]. right. split; [reflexivity|]. split; [reflexivity|]. intros; lia.
  - intros r [[s best] wr] Hr (Sr & D). assert (Str: static wr) by (destruct Sr as (? & ? & _ & H & _); exact H).
    apply wlp_bind_eq. intros i Ei. pose proof (O1 _ _ Ei) as Hi. rewrite (cand wr i Str Hi). cbn [bind]. rewrite (Xs i Hi). cbn [bind].
    apply wlp_bind_eq. intros ni0 En0. apply (near_int_inv _ _ _ Str) in En0 as (yr & Ey & Fy). injection Ey as <-.
    destruct ni0.
    { apply wlp_ret. split; [exact Sr|]. destruct D as [D|(D1 & D2 & D3)]; [left; exact D|right]. split; [auto|split; [auto|]].
      intros r' i' Hr' Ei'. destruct (Nat.eq_dec r' r) as [->|]; [|apply (D3 r' i'); auto; lia].
      assert (i' = i) by congruence. subst i'. intros K. specialize (Fy K). discriminate. }
    assert (V': valid (Z.of_nat i, Fin (x (col i)))) by (split; cbn [fst snd]; [lia|eauto]).
    apply wlp_bind. eapply wlp_conseq; [apply (sb_var idx b0 a0 w wr s i _ Sr Hi)|]. intros [[res s1] w4] (S4 & SA & Hn).
    assert (V1: valid s1 \/ s1 = s) by (destruct SA as [->|[_ ->]]; auto).
    destruct res as [[qd qu]|].
    + rewrite ?(eq_refl : best = best). destruct (flt best _) eqn:Eb; apply wlp_ret; (split; [exact S4|]); [left; exact V'|].
      destruct D as [D|(D1 & D2 & D3)]; [left; destruct V1 as [V1|V1]; [exact V1|rewrite V1; exact D]|].
      subst best. rewrite score_big in Eb. discriminate.
    + apply wlp_ret. split; [exact S4|]. left. destruct V1 as [V1|V1]; [exact V1|]. subst s1.
      destruct D as [D|(D1 & _)]; [exact D|]. specialize (Hn eq_refl). contradiction.
  - intros [[s best] wr] (Sr & D). apply wlp_ret. split; [|apply SBx_NB; exact Sr]. cbn [fst].
    destruct D as [D|(_ & _ & D3)]; [exact D|]. destruct (O2 jf Hjf) as (r & Hr & Er). exfalso. exact (D3 r jf Hr Er Fr).
Qed.

Lemma rules idx b0 a0 w sp code x :
  (bs_strategy (bb_stgs w) = StrongBranching -> repeatable nb ni col good solver) ->
  static w -> nodecells w idx b0 a0 -> relaxed b0 a0 code (bb_prob w) -> usable_code code -> holds (w_x (bb_prob w)) x ->
  (exists j, j < nv /\ fractional tol (x (col j))) -> valid sp ->
  wlp (choose_split solver rnd rfuel w sp idx) (rule_post idx b0 a0 w).
Proof.
  intros Rep St NC Rx Us Hx Fr V. assert (N: NB idx b0 a0 w w).
  { exists b0, a0. repeat (split; [solve [auto|intros i Hi; auto]|]). auto. }
  unfold choose_split. destruct (bs_strategy (bb_stgs w)).
  - eapply rule_most; eauto.
  - eapply rule_strong; eauto.
  - apply rule_pseudo; auto.
  - apply rule_reliability; auto.
  - apply rule_random; auto.
  - apply wlp_ret. split; auto.
Qed.

(* ------------------------------------------------------------ incumbents *)

Definition inc_ok (x : nat -> R) : Prop :=
  accepted x /\ (forall j, j < nv -> exists z : Z, (Rabs (x (col j) - IZR z) < tol)%R) /\
  (forall j, j < nb -> (- delta <= x (col j) <= 1 + delta)%R).
Definition inc (w : W) : Prop := forall u, bb_U w = Fin u -> exists x, holds (bb_x w) x /\ inc_ok x /\ costf x = u.
Definition Uok (w : W) : Prop := bb_U w = PInf \/ exists u, bb_U w = Fin u.
Definition stay (w : W) := (bb_iter w, bb_dive w, bb_stgs w, bb_L w).
Lemma fixed_stay w w' : fixed w' = fixed w -> stay w' = stay w.
Proof. intros H. apply fixed_inv in H as (_ & _ & _ & _ & _ & _ & _ & H1 & _ & _ & H2 & H3 & H4). unfold stay. congruence. Qed.
Definition validn (nd : node E) : Prop := 0 < nv -> valid (nd_split nd, nd_val nd).

Lemma store_spec (w : W) x : static w -> holds (w_x (bb_prob w)) x ->
  wlp (store_solution w) (fun w' => holds (bb_x w') x /\ static w' /\ stay w' = stay w /\ bb_bids w' = bb_bids w /\
    bb_iids w' = bb_iids w /\ bb_nodes w' = bb_nodes w /\ bb_U w' = bb_U w).
Proof.
  intros St Hx. unfold store_solution. apply wlp_bind_eq. intros xs Ex. do 3 (apply wlp_bind_eq; intros ? _). apply wlp_ret.
  assert (En: w_n (bb_prob w) = n) by (apply (rs_dims _ _ _ _ _ _ _ _ _ _ _ SOLVER), St).
  unfold copyN in Ex. rewrite En in Ex. apply memcpy_inv in Ex as (_ & G & _).
  split; [|split; [exact St|repeat split; reflexivity]]. bbc. intros i Hi. rewrite G by auto. apply Hx. exact Hi.
Qed.

Lemma finish_spec idx viable (w : W) nd : static w -> get (bb_nodes w) idx = Some nd -> Uok w -> inc w ->
  (nd_U nd = PInf \/ exists u x, nd_U nd = Fin u /\ holds (w_x (bb_prob w)) x /\ inc_ok x /\ costf x = u) ->
  wlp (finish_node idx viable w) (fun w' =>
    static w' /\ stay w' = stay w /\ bb_bids w' = bb_bids w /\ bb_iids w' = bb_iids w /\
    (forall i, i <> idx -> get (bb_nodes w') i = get (bb_nodes w) i) /\ Uok w' /\ inc w' /\
    bb_U w' = (if flt (nd_U nd) (bb_U w) then nd_U nd else bb_U w) /\
    exists nd', get (bb_nodes w') idx = Some nd' /\ nd_U nd' = (if viable : bool then PInf else nd_U nd) /\ nd_L nd' = nd_L nd /\
      nd_split nd' = nd_split nd /\ nd_val nd' = nd_val nd /\
      (nd_status nd' = nd_status nd \/ nd_status nd' = MI_SOLVED_NON_BRANCHABLE /\ flt (bb_U w') (nd_L nd) = true)).
Proof.
  intros St En Uo In HU. unfold finish_node. rewrite En. cbn [bind]. apply wlp_bind.
  apply wlp_conseq with (P := fun w' : W => static w' /\ stay w' = stay w /\ bb_bids w' = bb_bids w /\ bb_iids w' = bb_iids w /\
    bb_nodes w' = bb_nodes w /\ Uok w' /\ inc w' /\ bb_U w' = (if flt (nd_U nd) (bb_U w) then nd_U nd else bb_U w)).
  { destruct (flt (nd_U nd) (bb_U w)) eqn:EU; [|apply wlp_ret; repeat split; auto; apply St].
    destruct HU as [HU|(u & x & HU & Hx & Hok & Hc)]; [rewrite HU in EU; destruct (bb_U w); discriminate|].
    apply wlp_bind. eapply wlp_conseq; [apply (store_spec w x St Hx)|]. intros w1 (Sx & S1 & Sy & B & I0 & N & _).
    apply wlp_ret. bbc. split; [exact S1|]. split; [exact Sy|]. split; [exact B|]. split; [exact I0|]. split; [exact N|].
    split; [right; bbc; eauto|]. split; [|reflexivity].
    intros u' Eu'. bbc in Eu'. rewrite HU in Eu'. injection Eu' as <-. exists x. bbc. auto. }
  intros w1 (S1 & Sy & B & I0 & N & Uo1 & In1 & EU1).
  apply wlp_bind. apply wlp_conseq with (P := fun w' : W => exists ns, w' = set_bb_nodes w1 ns /\
    (forall i, i <> idx -> get ns i = get (bb_nodes w) i) /\ get ns idx = Some (if viable then set_nd_U nd PInf else nd)).
  { destruct viable.
    - apply wlp_intro. intros w2 E2. apply upd_node_inv in E2 as (nd1 & ns & E1 & -> & _ & G). rewrite N, En in E1. injection E1 as <-.
      exists ns. split; [reflexivity|]. split; [|rewrite G, Nat.eqb_refl; reflexivity].
      intros i Hi. rewrite G. destruct (Nat.eqb_spec i idx); [contradiction|rewrite N; reflexivity].
    - apply wlp_ret. exists (bb_nodes w1). split; [destruct w1; reflexivity|]. rewrite N. auto. }
  intros w2 (ns & -> & Go & Gi). bbc. rewrite Gi. cbn [bind].
  assert (EL: nd_L (if viable then set_nd_U nd PInf else nd) = nd_L nd) by (destruct viable; reflexivity). rewrite EL.
  destruct (flt (bb_U w1) (nd_L nd)) eqn:EF.
  - apply wlp_intro. intros w3 E3. apply upd_node_inv in E3 as (nd1 & ns1 & E1 & -> & _ & G1). bbc in E1. bbc in G1. rewrite Gi in E1. injection E1 as <-.
    bbc. split; [exact S1|]. split; [exact Sy|]. split; [exact B|]. split; [exact I0|].
    split; [intros i Hi; rewrite G1; destruct (Nat.eqb_spec i idx); [contradiction|auto]|].
    split; [exact Uo1|]. split; [exact In1|]. split; [exact EU1|].
    eexists. split; [rewrite G1, Nat.eqb_refl; reflexivity|]. ndc. destruct viable; ndc; auto 10.
  - apply wlp_ret. bbc. split; [exact S1|]. split; [exact Sy|]. split; [exact B|]. split; [exact I0|].
    split; [exact Go|]. split; [exact Uo1|]. split; [exact In1|]. split; [exact EU1|].
    eexists. split; [exact Gi|]. destruct viable; ndc; auto 10.
Qed.

Lemma update_pseudocost_same idx (w w' : W) : update_pseudocost idx w = Some w' -> same_tables w w'.
Proof.
  unfold update_pseudocost. intros H. bd H as nd En. destruct (0 <=? nd_psplit nd)%Z.
  - bd H as dv Ev. destruct (_ <? bb_nb w); apply observe_same in H; exact H.
  - injection H as <-. repeat split; reflexivity.
Qed.

Lemma round_inv x r : pfloat_round (Fin x : E) = Some r -> r = Fin (IZR (Zro x)).
Proof.
  intros H. pose proof (eq_trans (eq_sym (round_E x)) H) as Q.
  destruct (to_int (Zro x)) eqn:E1; [|discriminate]. apply to_int_inv in E1 as [-> _]. cbn in Q. injection Q as <-. reflexivity.
Qed.
Lemma Rtrunc_IZR z : Rtrunc (IZR z) = z.
Proof.
  destruct (Rle_or_lt 0 (IZR z)) as [P|N].
  - pose proof (Rtrunc_pos (IZR z) P) as [A B]. apply le_IZR in A. apply Z.le_antisymm; auto. apply IZR_lt_int; lra.
  - pose proof (Rtrunc_neg (IZR z) N) as [A B]. assert (z <= Rtrunc (IZR z))%Z by (apply le_IZR; lra).
    apply Z.le_antisymm; auto. apply IZR_lt_int. lra.
Qed.
Lemma ftochar_inv z k : ftochar (Fin (IZR z) : E) = Some k -> k = z.
Proof.
  unfold ftochar. intros H. bd H as z0 E0. change (@ftoi EOps EInt (Fin (IZR z))) with (to_int (Rtrunc (IZR z))) in E0.
  rewrite Rtrunc_IZR in E0. apply to_int_inv in E0 as [-> _]. destruct (_ && _)%bool; [|discriminate]. injection H as <-. reflexivity.
Qed.

Definition rb (x : nat -> R) (j : nat) : Z := Zro (x (col j)).
Definition ra (x : nat -> R) (k : nat) : R :=
  let r := IZR (Zro (x (col (nb + k / 2)%nat))) in if Nat.even k then Ropp r else r.

Lemma frac_round x : ~ (Rabs (x - IZR (Zro x)) < tol)%R -> fractional tol x.
Proof. intros H. apply frac_ro; lra. Qed.

Lemma half_odd i : (2 * i + 1) / 2 = i.
Proof. rewrite Nat.add_comm, Nat.mul_comm, Nat.div_add by discriminate. reflexivity. Qed.

Lemma round_x_spec (w : W) x : static w -> holds (w_x (bb_prob w)) x -> (forall j, j < nb -> (- delta <= x (col j) <= 1 + delta)%R) ->
  wlp (round_x w) (fun '(ok, w') => (exists tb ti, w' = set_bb_tmpi (set_bb_tmpb w tb) ti /\ cells (get tb) (get ti) (rb x) (ra x)) /\
    if ok : bool then forall j, j < nv -> exists z : Z, (Rabs (x (col j) - IZR z) < tol)%R
    else exists j, j < nv /\ fractional tol (x (col j))).
Proof.
  intros St Hx Hb. pose proof St as (En & Ei & C & Et & _). unfold round_x. rewrite En, Ei, Et.
  apply wlp_bind. apply wlp_for with (Inv := fun i (s : bool * arr Z) =>
    (forall j, j < i -> get (snd s) j = Some (rb x j)) /\
    if fst s then forall j, j < i -> exists z : Z, (Rabs (x (col j) - IZR z) < tol)%R
    else exists j, j < nv /\ fractional tol (x (col j))).
  - lia.
  - split; [intros; lia|]. cbn [fst]. intros; lia.
  - intros i [ok tb] Hi (G & Hok). cbn [fst snd] in *.
    assert (Ec: get (bb_bidx w) i = Some (col i)).
    { specialize (C i ltac:(lia)). unfold var_col in C. rewrite En in C. destruct (Nat.ltb_spec i nb); [exact C|lia]. }
    rewrite Ec. cbn [bind]. rewrite (Hx (col i)) by (apply Hcol; lia). cbn [bind].
    apply wlp_bind_eq. intros r Er. apply round_inv in Er as ->. apply wlp_bind_eq. intros k Ek. apply ftochar_inv in Ek as ->.
    apply wlp_bind_eq. intros tb' Etb. apply set_inv in Etb as (_ & _ & Gt). apply wlp_ret. cbn [fst snd]. split.
    + intros j Hj. rewrite Gt. destruct (Nat.eqb_spec j i); [subst; reflexivity|apply G; lia].
    + rewrite fofZ_E. destruct ok; cbn [andb]; [|exact Hok].
      destruct (@float_eqls EOps (Fin (x (col i))) _ _) eqn:Eq.
      * apply eqls_E in Eq. intros j Hj. destruct (Nat.eq_dec j i) as [->|]; [eauto|apply Hok; lia].
      * exists i. split; [lia|]. apply frac_round. intros K. apply eqls_E in K. rewrite K in Eq. discriminate.
  - intros [ok tb] (G & Hok). cbn [fst snd] in *. apply wlp_bind.
    apply wlp_for with (Inv := fun i (s : bool * arr E) =>
      (forall k, k < 2 * i -> get (snd s) k = Some (Fin (ra x k))) /\
      if fst s then forall j, j < nb + i -> exists z : Z, (Rabs (x (col j) - IZR z) < tol)%R
      else exists j, j < nv /\ fractional tol (x (col j))).
    + lia.
    + split; [intros; lia|]. cbn [fst]. rewrite Nat.add_0_r. exact Hok.
    + intros i [ok1 ti] Hi (G1 & Hok1). cbn [fst snd] in *.
      assert (Ec: get (bb_iidx w) i = Some (col (nb + i))).
      { specialize (C (nb + i) ltac:(lia)). unfold var_col in C. rewrite En in C. destruct (Nat.ltb_spec (nb + i) nb); [lia|].
        replace (nb + i - nb) with i in C by lia. exact C. }
      rewrite Ec. cbn [bind]. rewrite (Hx (col (nb + i))) by (apply Hcol; lia). cbn [bind].
      apply wlp_bind_eq. intros r Er. apply round_inv in Er as ->. apply wlp_bind_eq. intros t1 E1. apply set_inv in E1 as (_ & _ & H1).
      apply wlp_bind_eq. intros t2 E2. apply set_inv in E2 as (_ & _ & H2). apply wlp_ret. cbn [fst snd]. split.
      * intros k Hk. rewrite H2, H1. destruct (Nat.eqb_spec k (2 * i)) as [->|N1].
        { unfold ra. replace (2 * i / 2) with i by (rewrite Nat.mul_comm, Nat.div_mul; lia).
          rewrite Nat.even_mul. reflexivity. }
        destruct (Nat.eqb_spec k (2 * i + 1)) as [->|N2].
        { unfold ra. rewrite half_odd.
          rewrite Nat.add_1_r, Nat.even_succ, Nat.odd_mul. reflexivity. }
        apply G1. lia.
      * destruct ok1; cbn [andb]; [|exact Hok1].
        destruct (@float_eqls EOps (Fin (x (col (nb + i)%nat))) _ _) eqn:Eq.
        { apply eqls_E in Eq. intros j Hj. destruct (Nat.eq_dec j (nb + i)) as [->|]; [eauto|apply Hok1; lia]. }
        { exists (nb + i). split; [lia|]. apply frac_round. intros K. apply eqls_E in K. rewrite K in Eq. discriminate. }
    + intros [ok1 ti] (G1 & Hok1). cbn [fst snd] in *. apply wlp_ret. split.
      * exists tb, ti. split; [reflexivity|]. split.
        { intros j Hj. split; [apply G; auto|]. specialize (Hb j Hj). unfold rb, legal. pose proof (Zro_spec (x (col j))) as Z0.
          assert (-1 < Zro (x (col j)) < 2)%Z; [|lia]. split; apply lt_IZR; lra. }
        { intros k Hk. apply G1. lia. }
      * destruct ok1; auto.
Qed.

(* the box of the rounded point holds that point only *)
Lemma round_box x j : j < nv -> (forall j, j < nb -> (- delta <= x (col j) <= 1 + delta)%R) ->
  exists z : Z, blo (rb x) (ra x) j = IZR z /\ bhi (rb x) (ra x) j = IZR z /\ (j < nb -> z = 0%Z \/ z = 1%Z).
Proof.
  intros Hj Hb. exists (Zro (x (col j))). unfold blo, bhi. destruct (Nat.ltb_spec j nb) as [L|L].
  - specialize (Hb j L). pose proof (Zro_spec (x (col j))) as Z0. unfold rb.
    assert (Zro (x (col j)) = 0 \/ Zro (x (col j)) = 1)%Z as [E0|E0]; [|rewrite E0; cbn; auto..].
    assert (-1 < Zro (x (col j)) < 2)%Z; [|lia]. split; apply lt_IZR; lra.
  - assert (E1: ra x (2 * (j - nb)) = Ropp (IZR (Zro (x (col j))))).
    { unfold ra. replace (2 * (j - nb) / 2) with (j - nb) by (rewrite Nat.mul_comm, Nat.div_mul; lia).
      replace (nb + (j - nb)) with j by lia. rewrite Nat.even_mul. reflexivity. }
    assert (E2: ra x (2 * (j - nb) + 1) = IZR (Zro (x (col j)))).
    { unfold ra. rewrite half_odd.
      replace (nb + (j - nb)) with j by lia. rewrite Nat.add_1_r, Nat.even_succ, Nat.odd_mul. reflexivity. }
    rewrite E1, E2. split; [lra|]. split; [reflexivity|]. lia.
Qed.

(* ------------------------------------------------------------ get_bounds *)

Definition Lok (L : E) : Prop := L = PInf \/ exists l, L = Fin l.
Definition GB idx b0 a0 (w w' : W) : Prop :=
  static w' /\ stay w' = stay w /\
  (forall i, i <> idx -> get (bb_nodes w') i = get (bb_nodes w) i) /\ others w w' idx /\
  Uok w' /\ (forall r, ltU r (bb_U w') -> ltU r (bb_U w)) /\ inc w' /\
  exists nd b a, get (bb_nodes w') idx = Some nd /\ validn nd /\ nodecells w' idx b a /\ Lok (nd_L nd) /\
    (nd_U nd = PInf \/ exists q, nd_U nd = Fin q /\ bb_U w' = Fin q /\ nd_L nd = Fin q /\ nd_status nd = MI_SOLVED_NON_BRANCHABLE) /\
    (nd_status nd = MI_SOLVED_BRANCHABLE \/ nd_status nd = MI_SOLVED_NON_BRANCHABLE) /\
    (forall v, adm v -> inb b0 a0 v -> ltU (costf v + eps) (bb_U w) ->
      inb b a v /\ leL (nd_L nd) (costf v + eps) /\
      (nd_status nd = MI_SOLVED_BRANCHABLE \/ ~ ltU (costf v + eps) (bb_U w'))) /\
    (nd_status nd = MI_SOLVED_BRANCHABLE -> 0 < nv) /\
    (bb_U w = PInf -> nd_L nd <> PInf -> nd_U nd = PInf -> 0 < nv).

Lemma flt_U_Fin (w : W) q : Uok w -> flt (bb_U w) (Fin q : E) = true -> exists u, bb_U w = Fin u /\ (u < q)%R.
Proof.
  intros [H|[u H]] K; rewrite H in *; [discriminate|]. exists u. split; auto. cbn in K. unfold Rltb in K.
  destruct (Rlt_dec u q); [auto|discriminate].
Qed.
Lemma flt_Fin_U (w : W) q : Uok w -> flt (Fin q : E) (bb_U w) = true -> forall r, (r < q)%R -> ltU r (bb_U w).
Proof.
  intros [H|[u H]] K r Hr; rewrite H in *; [exact I|]. cbn in *. unfold Rltb in K. destruct (Rlt_dec q u); [lra|discriminate].
Qed.

Lemma others_refl w idx : others w w idx.
Proof. intros i Hi. split; reflexivity. Qed.

Lemma static_nodes w ns : static w -> static (set_bb_nodes w ns).
Proof. intros H. exact H. Qed.

Lemma branch_node_spec idx b0 a0 (w : W) code x nd l :
  (bs_strategy (bb_stgs w) = StrongBranching -> repeatable nb ni col good solver) ->
  static w -> nodecells w idx b0 a0 -> relaxed b0 a0 code (bb_prob w) -> usable_code code -> holds (w_x (bb_prob w)) x ->
  (exists j, j < nv /\ fractional tol (x (col j))) ->
  (exists xr, cells (get (bb_tmpb w)) (get (bb_tmpi w)) (rb xr) (ra xr) /\ forall j, j < nb -> (- delta <= xr (col j) <= 1 + delta)%R) ->
  Uok w -> inc w -> get (bb_nodes w) idx = Some nd -> validn nd -> nd_U nd = PInf -> nd_L nd = Fin l ->
  (forall v, adm v -> inb b0 a0 v -> (l <= costf v + eps)%R) ->
  wlp (branch_node solver rnd rfuel idx w) (GB idx b0 a0 w).
Proof.
  intros Rep St NC Rx Us Hx Fr (xr & CT & Hxr) Uo In En V HU HL Hl.
  unfold branch_node. rewrite En. cbn [bind]. apply wlp_bind.
  assert (nvp: 0 < nv) by (destruct Fr as (j & Hj & _); lia).
  eapply wlp_conseq; [apply (rules idx b0 a0 w _ code x Rep St NC Rx Us Hx Fr (V nvp))|].
  intros [sp w1] [V1 N1]. cbn [fst snd] in V1, N1. destruct N1 as (b & a & Fx & St1 & NC1 & Ot & K).
  pose proof (fixed_stay _ _ Fx) as Sy1. pose proof (fixed_inv _ _ Fx) as (_ & _ & Nn & _ & _ & Nx & NU & _ & Tb & Ti & _).
  apply wlp_bind_eq. intros w2 E2. apply upd_node_inv in E2 as (nd1 & ns & E1 & -> & _ & G). rewrite Nn, En in E1. injection E1 as <-.
  apply wlp_bind. eapply wlp_conseq; [apply (run_relax_spec _ _ (rb xr) (ra xr))|].
  { exact St1. }
  { bbc. rewrite Tb, Ti. exact CT. }
  intros [code2 w3] (Rn & St3 & Rx3). destruct Rn as (p & k & t & ->). bbc in Rx3.
  set (nd2 := set_nd_status (set_nd_val (set_nd_split nd (fst sp)) (snd sp)) MI_SOLVED_BRANCHABLE) in *.
  assert (G0: get ns idx = Some nd2) by (rewrite G, Nat.eqb_refl; reflexivity).
  assert (Go: forall i, i <> idx -> get ns i = get (bb_nodes w) i)
    by (intros i Hi; rewrite G; destruct (Nat.eqb_spec i idx); [contradiction|rewrite Nn; reflexivity]).
  (* the end of both branches *)
  assert (Fin: forall (w4 : W) nd4 viable, static w4 -> stay w4 = stay w -> bb_bids w4 = bb_bids w1 -> bb_iids w4 = bb_iids w1 ->
     (forall i, i <> idx -> get (bb_nodes w4) i = get (bb_nodes w) i) -> bb_U w4 = bb_U w -> bb_x w4 = bb_x w ->
     get (bb_nodes w4) idx = Some nd4 -> nd_L nd4 = Fin l -> nd_split nd4 = fst sp -> nd_val nd4 = snd sp -> nd_status nd4 = MI_SOLVED_BRANCHABLE ->
     (nd_U nd4 = PInf \/ viable = true /\ exists u x, nd_U nd4 = Fin u /\ holds (w_x (bb_prob w4)) x /\ inc_ok x /\ costf x = u) ->
     wlp (finish_node idx viable w4) (GB idx b0 a0 w)).
  { intros w4 nd4 viable S4 Y4 B4 I4 N4 U4 X4 E4 L4 P4 V4 T4 HU4.
    eapply wlp_conseq; [apply (finish_spec idx viable w4 nd4 S4 E4)|].
    - unfold Uok. rewrite U4. exact Uo.
    - unfold inc. rewrite U4, X4. exact In.
    - destruct HU4 as [?|[_ ?]]; auto.
    - intros w5 (S5 & Y5 & B5 & I5 & N5 & Uo5 & In5 & U5 & nd5 & E5 & HU5 & HL5 & P5 & V5 & T5).
      rewrite U4 in U5.
      assert (Ul: forall r, ltU r (bb_U w5) -> ltU r (bb_U w)).
      { intros r Hr. rewrite U5 in Hr. destruct (flt (nd_U nd4) (bb_U w)) eqn:EF; [|exact Hr].
        destruct HU4 as [HU4|(_ & u & x4 & HU4 & _)]; rewrite HU4 in *; [destruct (bb_U w); discriminate|].
        apply (flt_Fin_U w u Uo EF). exact Hr. }
      split; [exact S5|]. split; [congruence|]. split; [intros i Hi; rewrite N5, N4; auto|].
      split; [intros i Hi; rewrite B5, I5, B4, I4; apply Ot; exact Hi|]. split; [exact Uo5|]. split; [exact Ul|]. split; [exact In5|].
      exists nd5, b, a. split; [exact E5|].
      split; [intros _; rewrite P5, V5, P4, V4; destruct sp; exact V1|].
      split; [unfold nodecells; rewrite B5, I5, B4, I4; exact NC1|].
      split; [rewrite HL5, L4; right; eauto|].
      split; [left; destruct HU4 as [HU4|(-> & _)]; rewrite HU5; [destruct viable; auto|reflexivity]|].
      split; [rewrite T4 in T5; tauto|].
      split; [|split; intros; exact nvp].
      intros v Av Bv Cv. split; [apply K; auto|]. split; [rewrite HL5, L4; apply Hl; auto|].
      rewrite T4 in T5. destruct T5 as [T5|[T5 T6]]; [left; exact T5|right].
      rewrite L4 in T6. apply (flt_U_Fin w5 l Uo5) in T6 as (u & Hu & Hul). rewrite Hu. cbn. specialize (Hl v Av Bv). lra. }
  destruct (Z.eqb_spec code2 ECOS_OPTIMAL) as [Ec|Ec].
  - assert (Us2: usable_code code2) by (left; exact Ec).
    destruct Rx3 as (G3 & Hu3 & _). destruct (Hu3 Us2) as (x3 & Hx3 & Ax3 & Bx3 & _).
    apply wlp_bind_eq. intros u Eu.
    pose proof (wlp_elim _ _ _ (obj_spec _ x3 St3 Hx3) Eu) as ->.
    apply wlp_bind_eq. intros w4 E4. apply upd_node_inv in E4 as (nd3 & ns2 & E3 & -> & _ & G4). bbc in E3. bbc in G4. rewrite G0 in E3. injection E3 as <-.
    apply (Fin _ (set_nd_U nd2 (NumE.Fin (costf x3))) true).
    + apply static_nodes. exact St3.
    + exact Sy1.
    + reflexivity.
    + reflexivity.
    + bbc. intros i Hi. rewrite G4. destruct (Nat.eqb_spec i idx); [contradiction|apply Go; exact Hi].
    + exact NU.
    + exact Nx.
    + bbc. rewrite G4, Nat.eqb_refl. reflexivity.
    + exact HL.
    + reflexivity.
    + reflexivity.
    + reflexivity.
    + right. split; [reflexivity|]. exists (costf x3), x3. split; [reflexivity|]. split; [exact Hx3|]. split; [|reflexivity].
      split; [exact Ax3|]. split.
      * intros j Hj. destruct (round_box xr j Hj Hxr) as (z & R1 & R2 & _). exists z. specialize (Bx3 j Hj). rewrite R1, R2 in Bx3.
        apply Rabs_def1; lra.
      * intros j Hj. destruct (round_box xr j ltac:(lia) Hxr) as (z & R1 & R2 & Rz). specialize (Bx3 j ltac:(lia)). rewrite R1, R2 in Bx3.
        destruct (Rz Hj) as [->| ->]; lra.
  - apply (Fin _ nd2 false); try reflexivity; auto.
Qed.

Lemma get_bounds_spec idx b0 a0 (w : W) nd :
  (bs_strategy (bb_stgs w) = StrongBranching -> repeatable nb ni col good solver) ->
  static w -> nodecells w idx b0 a0 -> Uok w -> inc w ->
  get (bb_nodes w) idx = Some nd -> validn nd -> nd_U nd = PInf ->
  wlp (get_bounds solver rnd rfuel idx w) (GB idx b0 a0 w).
Proof.
  intros Rep St NC Uo In En V HU. unfold get_bounds. apply wlp_bind.
  pose proof St as (Enb & Eni & _).
  eapply wlp_conseq; [apply (run_relax_spec _ _ b0 a0 w St)|].
  { unfold node_bid, node_iid. rewrite Enb, Eni. exact NC. }
  intros [code w1] ((p & k & t & ->) & St1 & Rx). bbc in Rx.
  set (w1 := set_bb_ctrlc (set_bb_solves (set_bb_prob w p) k) t) in *.
  assert (Us: forall c0 : bool, ((code =? ECOS_OPTIMAL) || (code =? ECOS_OPTIMAL + ECOS_INACC_OFFSET) || (code =? ECOS_MAXIT) || (code =? ECOS_NUMERICS))%Z = c0 ->
      if c0 then usable_code code else ~ usable_code code).
  { intros [|] H; unfold usable_code.
    - repeat (apply orb_true_iff in H as [H|H]); apply Z.eqb_eq in H; auto.
    - apply orb_false_iff in H as [H H4]. apply orb_false_iff in H as [H H3]. apply orb_false_iff in H as [H1 H2].
      apply Z.eqb_neq in H1, H2, H3, H4. tauto. }
  specialize (Us _ eq_refl). match goal with |- wlp (if ?cc then _ else _) _ => destruct cc end; rename Us into Ec.
  2:{ (* no feasible point *)
    apply wlp_intro. intros w2 E2. apply upd_node_inv in E2 as (nd1 & ns & E1 & -> & _ & G). unfold w1 in E1, G. bbc in E1. bbc in G. rewrite En in E1. injection E1 as <-.
    destruct Rx as (_ & _ & Hn & _).
    split; [exact St1|]. split; [reflexivity|]. bbc.
    split; [intros i Hi; rewrite G; destruct (Nat.eqb_spec i idx); [contradiction|reflexivity]|].
    split; [intros i Hi; split; reflexivity|]. split; [exact Uo|]. split; [auto|]. split; [exact In|].
    eexists _, b0, a0. split; [rewrite G, Nat.eqb_refl; reflexivity|]. split; [exact V|]. split; [exact NC|]. split; [left; reflexivity|].
    split; [left; reflexivity|]. split; [right; reflexivity|].
    split; [|split; [discriminate|intros _ K; elim K; reflexivity]].
    intros v Av Bv _. exfalso. exact (Hn Ec v (proj1 Av) Bv). }
  destruct Rx as (Gp & Hu & Hn & Rk). destruct (Hu Ec) as (x & Hx & Ax & Bx & Mx).
  assert (Rx: relaxed b0 a0 code p) by (split; [exact Gp|]; split; [exact Hu|]; split; [exact Hn|exact Rk]).
  apply wlp_bind_eq. intros q Eq. pose proof (wlp_elim _ _ _ (obj_spec w1 x St1 Hx) Eq) as ->. clear Eq.
  apply wlp_bind_eq. intros w2 E2. apply upd_node_inv in E2 as (nd1 & ns & E1 & -> & _ & G). unfold w1 in E1, G. bbc in E1. bbc in G. rewrite En in E1. injection E1 as <-.
  bbc. change (bb_U w1) with (bb_U w).
  destruct (flt (bb_U w) (Fin (costf x) : E)) eqn:EU.
  { apply (flt_U_Fin w _ Uo) in EU as (u & Hu1 & Hu2).
    apply wlp_intro. intros w3 E3. apply upd_node_inv in E3 as (nd2 & ns2 & E3 & -> & _ & G2). bbc in E3. bbc in G2. rewrite G, Nat.eqb_refl in E3. injection E3 as <-.
    split; [exact St1|]. split; [reflexivity|]. bbc.
    split; [intros i Hi; rewrite G2, G; destruct (Nat.eqb_spec i idx); [contradiction|reflexivity]|].
    split; [intros i Hi; split; reflexivity|]. split; [exact Uo|]. split; [auto|]. split; [exact In|].
    eexists _, b0, a0. split; [rewrite G2, Nat.eqb_refl; reflexivity|]. split; [exact V|]. split; [exact NC|]. split; [right; ndc; eauto|].
    split; [left; exact HU|]. split; [right; reflexivity|].
    split; [|split; [discriminate|intros K; rewrite Hu1 in K; discriminate]].
    intros v Av Bv Cv. exfalso. rewrite Hu1 in Cv. cbn in Cv. specialize (Mx v (proj1 Av) Bv). lra. }
  apply wlp_bind_eq. intros w3 E3. apply upd_node_inv in E3 as (nd2 & ns2 & E3 & -> & _ & G2). bbc in E3. bbc in G2. rewrite G, Nat.eqb_refl in E3. injection E3 as <-.
  set (nd3 := set_nd_relax (set_nd_L nd (Fin (costf x) : E)) (Fin (costf x) : E)) in *.
  assert (G3: get ns2 idx = Some nd3) by (rewrite G2, Nat.eqb_refl; reflexivity).
  assert (G3o: forall i, i <> idx -> get ns2 i = get (bb_nodes w) i)
    by (intros i Hi; rewrite G2, G; destruct (Nat.eqb_spec i idx); [contradiction|reflexivity]).
  apply wlp_bind_eq. intros w4 E4. apply update_pseudocost_same in E4.
  match type of E4 with same_tables ?w0 _ => set (w3 := w0) in * end.
  assert (St3: static w3) by exact St1. pose proof (static_same _ _ St3 E4) as St4.
  destruct E4 as (Fx & Pb & B4 & I4 & _). pose proof (fixed_stay _ _ Fx) as Sy4.
  pose proof (fixed_inv _ _ Fx) as (_ & _ & Nn & _ & _ & Nx & NU & _ & Tb & Ti & _ & _ & Sg4).
  assert (Hx4: holds (w_x (bb_prob w4)) x) by (rewrite Pb; exact Hx).
  assert (Hb: forall j, j < nb -> (- delta <= x (col j) <= 1 + delta)%R).
  { intros j Hj. specialize (Bx j ltac:(lia)). unfold blo, bhi in Bx. destruct (Nat.ltb_spec j nb); [|lia].
    destruct (b0 j =? 1)%Z, (b0 j =? 0)%Z; lra. }
  apply wlp_bind. eapply wlp_conseq; [apply (round_x_spec w4 x St4 Hx4 Hb)|].
  intros [ok w5] ((tb & ti & -> & CT) & Hok).
  destruct ok.
  - apply wlp_bind_eq. intros w6 E6. apply upd_node_inv in E6 as (nd4 & ns3 & E6 & -> & _ & G6). bbc in E6. bbc in G6.
    rewrite Nn in E6, G6. change (bb_nodes w3) with ns2 in E6, G6. rewrite G3 in E6. injection E6 as <-.
    eapply wlp_conseq; [apply (finish_spec idx false _ (set_nd_U (set_nd_status nd3 MI_SOLVED_NON_BRANCHABLE) (Fin (costf x))))|].
    + exact St4.
    + bbc. rewrite G6, Nat.eqb_refl. reflexivity.
    + unfold Uok. bbc. rewrite NU. exact Uo.
    + unfold inc. bbc. rewrite NU, Nx. exact In.
    + right. exists (costf x), x. split; [reflexivity|]. split; [exact Hx4|]. split; [|reflexivity]. split; [exact Ax|]. split; [exact Hok|exact Hb].
    + intros w7 (S7 & Y7 & B7 & I7 & N7 & Uo7 & In7 & U7 & nd7 & E7 & HU7 & HL7 & P7 & V7 & T7).
      bbc in B7. bbc in I7. bbc in U7. rewrite NU in U7. change (bb_U w3) with (bb_U w) in U7. ndc in HU7. ndc in HL7. ndc in U7. ndc in P7. ndc in V7. ndc in T7.
      assert (Ueq: bb_U w7 = Fin (costf x)).
      { rewrite U7. destruct (flt (Fin (costf x) : E) (bb_U w)) eqn:EF; [reflexivity|].
        destruct Uo as [Uo|[u Uo]]; rewrite Uo in *; [discriminate|]. f_equal. cbn in EF, EU. unfold Rltb in *.
        destruct (Rlt_dec (costf x) u), (Rlt_dec u (costf x)); try discriminate; lra. }
      assert (Ul: forall r, ltU r (bb_U w7) -> ltU r (bb_U w)).
      { intros r Hr. rewrite U7 in Hr. destruct (flt (Fin (costf x) : E) (bb_U w)) eqn:EF; [|exact Hr]. apply (flt_Fin_U w _ Uo EF). exact Hr. }
      split; [exact S7|]. split; [rewrite Y7; exact Sy4|].
      split; [intros i Hi; rewrite N7 by auto; bbc; rewrite G6; destruct (Nat.eqb_spec i idx); [contradiction|apply G3o; exact Hi]|].
      split; [intros i Hi; rewrite B7, I7, B4, I4; split; reflexivity|]. split; [exact Uo7|]. split; [exact Ul|]. split; [exact In7|].
      exists nd7, b0, a0. split; [exact E7|]. split; [intros nvp; rewrite P7, V7; exact (V nvp)|].
      split; [unfold nodecells; rewrite B7, I7, B4, I4; exact NC|].
      split; [rewrite HL7; right; unfold nd3; ndc; eauto|].
      assert (T: nd_status nd7 = MI_SOLVED_NON_BRANCHABLE) by tauto.
      split; [right; exists (costf x); rewrite HU7, HL7; unfold nd3; ndc; auto|].
      split; [auto|].
      split; [|split; [rewrite T; discriminate|intros _ _ K; rewrite HU7 in K; discriminate]].
      intros v Av Bv Cv. specialize (Mx v (proj1 Av) Bv). split; [exact Bv|]. split; [rewrite HL7; unfold nd3; ndc; cbn; lra|].
      right. rewrite Ueq. cbn. lra.
  - apply wlp_intro. intros w7 E7. 
    assert (GB7: GB idx b0 a0 (set_bb_tmpi (set_bb_tmpb w4 tb) ti) w7).
    { refine (wlp_elim _ _ _ _ E7). apply (branch_node_spec idx b0 a0 _ code x nd3 (costf x)).
      - bbc. rewrite Sg4. exact Rep.
      - exact St4.
      - unfold nodecells. bbc. rewrite B4, I4. exact NC.
      - bbc. rewrite Pb. exact Rx.
      - exact Ec.
      - exact Hx4.
      - exact Hok.
      - exists x. bbc. split; [exact CT|exact Hb].
      - unfold Uok. bbc. rewrite NU. exact Uo.
      - unfold inc. bbc. rewrite NU, Nx. exact In.
      - bbc. rewrite Nn. exact G3.
      - exact V.
      - exact HU.
      - reflexivity.
      - intros v Av Bv. exact (Mx v (proj1 Av) Bv). }
    destruct GB7 as (S7 & Y7 & N7 & O7 & Uo7 & Ul & In7 & nd7 & b & a & E' & V' & NC' & L' & HU' & T' & K). bbc in N7. bbc in Ul. bbc in K.
    rewrite NU in Ul, K. change (bb_U w3) with (bb_U w) in Ul, K.
    split; [exact S7|]. split; [rewrite Y7; exact Sy4|].
    split; [intros i Hi; rewrite N7, Nn by auto; apply G3o; exact Hi|].
    split; [intros i Hi; specialize (O7 i Hi); bbc in O7; rewrite B4, I4 in O7; exact O7|].
    split; [exact Uo7|]. split; [exact Ul|]. split; [exact In7|]. exists nd7, b, a. auto 12.
Qed.

(* ----------------------------------------------------------------- branch *)

Lemma inb_cells bid iid b a b' a' v : cells bid iid b a -> cells bid iid b' a' -> inb b a v -> inb b' a' v.
Proof.
  intros [B I] [B' I'] H j Hj. specialize (H j Hj). unfold blo, bhi in *. destruct (Nat.ltb_spec j nb).
  - destruct (B j ltac:(auto)) as [E1 _]. destruct (B' j ltac:(auto)) as [E2 _]. rewrite E1 in E2. injection E2 as <-. exact H.
  - assert (forall k, k < 2 * ni -> a k = a' k).
    { intros k Hk. pose proof (eq_trans (eq_sym (I k Hk)) (I' k Hk)) as Q. injection Q as Q. exact Q. }
    rewrite <- !H1 by lia. exact H.
Qed.

Lemma nodecells_others w w' idx i b a : others w w' idx -> i <> idx -> nodecells w i b a -> nodecells w' i b a.
Proof.
  intros O N [B I]. destruct (O i N) as [OB OI]. split.
  - intros j Hj. rewrite OB by auto. auto.
  - intros k Hk. rewrite OI by auto. auto.
Qed.

Lemma branch_spec cur (w : W) nc b0 a0 :
  static w -> cur <> bb_iter w -> get (bb_nodes w) cur = Some nc -> nodecells w cur b0 a0 -> valid (nd_split nc, nd_val nc) ->
  wlp (branch cur w) (fun w' => static w' /\ stay w' = stay w /\ bb_U w' = bb_U w /\ bb_x w' = bb_x w /\
    (exists nd0, get (bb_nodes w) (bb_iter w) = Some nd0 /\
       forall i, get (bb_nodes w') i = if i =? cur then Some (left_child nc) else if i =? bb_iter w then Some (right_child nc nd0)
                          else get (bb_nodes w) i) /\
    (forall i b a, i <> cur -> i <> bb_iter w -> nodecells w i b a -> nodecells w' i b a) /\
    exists bl al br ar, nodecells w' cur bl al /\ nodecells w' (bb_iter w) br ar /\
      forall v, adm v -> inb b0 a0 v -> inb bl al v \/ inb br ar v).
Proof.
  intros St Ne En NC [Sp (y & Ey)]. cbn [fst snd] in Sp, Ey. pose proof St as (Enb & Eni & _ & Et & _).
  apply wlp_intro. intros w' HB.
  assert (Sp': (0 <= nd_split nc < Z.of_nat (bb_nb w + bb_ni w))%Z) by (rewrite Enb, Eni; exact Sp).
  destruct (branch_inv cur w w' nc HB Ne En Sp') as (ns & bids & iids & fl & ce & nd0 & -> & E0 & Hn & _ & _ & _ & B1 & B2 & B3 & Fc & I1 & I2 & I3).
  rewrite Enb, Eni in *. set (js := Z.to_nat (nd_split nc)) in *. assert (Hjs: js < nv) by (unfold js; lia).
  split; [exact St|]. split; [reflexivity|]. split; [reflexivity|]. split; [reflexivity|]. bbc.
  split; [exists nd0; auto|]. destruct NC as [NB0 NI0]. split.
  { intros i b a N1 N2 [B I]. split; bbc.
    - intros j Hj. rewrite B3 by auto. auto.
    - intros k Hk. rewrite I3 by (auto; lia). auto. }
  destruct (Nat.leb_spec nb js) as [L|L].
  - destruct (Fc L) as [F1 F2]. rewrite Et, Ey in F1, F2. apply floor_inv in F1 as (y1 & Y1 & ->). apply ceil_inv in F2 as (y2 & Y2 & ->).
    injection Y1 as <-. injection Y2 as <-. cbn [andb] in I1, I2. set (k0 := js - nb) in *. assert (Hk0: k0 < ni) by (unfold k0; lia).
    exists b0, (updf a0 (2 * k0 + 1) (IZR (Zfl tol y))), b0, (updf a0 (2 * k0) (- IZR (Zce tol y))).
    split; [|split].
    + split; bbc.
      * intros j Hj. rewrite B1 by auto. destruct (Nat.eqb_spec j js); [lia|]. auto.
      * intros k Hk. rewrite I1 by lia. unfold updf. destruct (Nat.eqb_spec k (2 * k0 + 1)); [reflexivity|]. auto.
    + split; bbc.
      * intros j Hj. rewrite B2 by auto. destruct (Nat.eqb_spec j js); [lia|]. auto.
      * intros k Hk. rewrite I2 by lia. unfold updf. destruct (Nat.eqb_spec k (2 * k0)); [reflexivity|]. auto.
    + intros v Av Bv. destruct (int_split v k0 y Av Hk0) as [H|H]; [left; apply inb_upd_hi; auto|right; apply inb_upd_lo; auto].
  - cbn [andb] in I1, I2. exists (updf b0 js 0%Z), a0, (updf b0 js 1%Z), a0. split; [|split].
    + split; bbc.
      * intros j Hj. rewrite B1 by auto. unfold updf. destruct (Nat.eqb_spec j js); [split; [reflexivity|unfold legal; auto]|]. auto.
      * intros k Hk. rewrite I1 by lia. auto.
    + split; bbc.
      * intros j Hj. rewrite B2 by auto. unfold updf. destruct (Nat.eqb_spec j js); [split; [reflexivity|unfold legal; auto]|]. auto.
      * intros k Hk. rewrite I2 by lia. auto.
    + intros v Av Bv. destruct (proj1 (proj2 Av) js L) as [H|H]; [left; apply inb_updb0; auto|right; apply inb_updb1; auto].
Qed.

(* --------------------------------------------------------- the search *)

Definition BR := MI_SOLVED_BRANCHABLE.
(* what is known of every node made so far *)
Definition nodes_ok (w : W) : Prop := forall i, i <= bb_iter w -> exists nd b a,
  get (bb_nodes w) i = Some nd /\ nodecells w i b a /\ Lok (nd_L nd) /\ (nd_status nd = BR -> nd_U nd = PInf /\ 0 < nv).
Definition covered (w : W) (P : nat -> node E -> Prop) : Prop := forall v, adm v -> ltU (costf v + eps) (bb_U w) ->
  exists i nd b a, i <= bb_iter w /\ get (bb_nodes w) i = Some nd /\ nodecells w i b a /\ inb b a v /\
    leL (nd_L nd) (costf v + eps) /\ P i nd.
Definition base (w : W) : Prop := static w /\ Uok w /\ inc w /\ (forall i nd, get (bb_nodes w) i = Some nd -> validn nd) /\
  nodes_ok w /\ (bb_dive w <= Z.of_nat (bb_iter w))%Z.

Definition head (cur : Z) (w : W) : Prop :=
  base w /\ Lok (bb_L w) /\
  (should_continue w cur = true -> exists c nd, cur = Z.of_nat c /\ c <= bb_iter w /\ get (bb_nodes w) c = Some nd /\ nd_U nd = PInf /\ 0 < nv) /\
  covered w (fun i nd => Z.of_nat i = cur \/ nd_status nd = BR) /\
  (forall v, adm v -> ltU (costf v + eps) (bb_U w) -> leL (bb_L w) (costf v + eps)) /\
  ((cur < 0)%Z -> forall v, adm v -> ~ ltU (costf v + eps) (bb_U w)).

(* between the passes *)
Definition mid (w : W) : Prop := base w /\ covered w (fun i nd => nd_status nd = BR).

Lemma stay_inv w w' : stay w' = stay w -> bb_iter w' = bb_iter w /\ bb_dive w' = bb_dive w /\ bb_stgs w' = bb_stgs w /\ bb_L w' = bb_L w.
Proof. unfold stay. intros H. injection H. intros. auto. Qed.

Definition expand (cur : nat) (w : W) : option W :=
  let w := set_bb_iter w (S (bb_iter w)) in
  w <- branch cur w ;; w <- get_bounds solver rnd rfuel cur w ;; get_bounds solver rnd rfuel (bb_iter w) w.

Lemma expand_spec cu nd (w : W) :
  (bs_strategy (bb_stgs w) = StrongBranching -> repeatable nb ni col good solver) ->
  base w -> cu <= bb_iter w -> get (bb_nodes w) cu = Some nd -> nd_U nd = PInf -> 0 < nv ->
  covered w (fun i nd => i = cu \/ nd_status nd = BR) ->
  wlp (expand cu w) (fun w' => mid w' /\ bb_stgs w' = bb_stgs w /\ bb_iter w' = S (bb_iter w)).
Proof.
  intros Rep (St & Uo & In & Va & No & Di) Hc En HU nvp Cov. unfold expand.
  destruct (No cu Hc) as (nd' & b0 & a0 & En' & NC & _). rewrite En in En'. injection En' as <-.
  set (it := S (bb_iter w)). set (w0 := set_bb_iter w it).
  apply wlp_bind. eapply wlp_conseq; [apply (branch_spec cu w0 nd b0 a0)|].
  - exact St.
  - unfold w0, it. bbc. lia.
  - exact En.
  - exact NC.
  - exact (Va _ _ En nvp).
  - intros w1 (S1 & Y1 & U1 & X1 & (nd0 & E0 & N1) & K1 & bl & al & br & ar & NCl & NCr & Sp).
    change (bb_iter w0) with it in *. change (bb_nodes w0) with (bb_nodes w) in *. change (bb_U w0) with (bb_U w) in *.
    apply stay_inv in Y1 as (It1 & Di1 & Sg1 & _). change (bb_iter w0) with it in It1. change (bb_dive w0) with (bb_dive w) in Di1. change (bb_stgs w0) with (bb_stgs w) in Sg1.
    assert (Nc: cu <> it) by (unfold it; lia).
    assert (Ec1: get (bb_nodes w1) cu = Some (left_child nd)) by (rewrite N1, Nat.eqb_refl; reflexivity).
    assert (Ei1: get (bb_nodes w1) it = Some (right_child nd nd0))
      by (rewrite N1; destruct (Nat.eqb_spec it cu); [lia|]; rewrite Nat.eqb_refl; reflexivity).
    apply wlp_bind. eapply wlp_conseq; [apply (get_bounds_spec cu bl al w1 (left_child nd))|].
    + rewrite Sg1. exact Rep.
    + exact S1.
    + exact NCl.
    + unfold Uok. rewrite U1. exact Uo.
    + unfold inc. rewrite U1, X1. exact In.
    + exact Ec1.
    + exact (Va _ _ En).
    + exact HU.
    + intros w2 (S2 & Y2 & N2 & O2 & Uo2 & Ul2 & In2 & nd2 & b2 & a2 & E2 & V2 & NC2 & L2 & HU2 & T2 & K2 & Z2 & Z2').
      apply stay_inv in Y2 as (It2 & Di2 & Sg2 & _). rewrite It2, It1.
      eapply wlp_conseq; [apply (get_bounds_spec it br ar w2 (right_child nd nd0))|].
      * rewrite Sg2, Sg1. exact Rep.
      * exact S2.
      * eapply nodecells_others; eauto.
      * exact Uo2.
      * exact In2.
      * rewrite N2 by auto. exact Ei1.
      * exact (Va _ _ E0).
      * exact HU.
      * intros w3 (S3 & Y3 & N3 & O3 & Uo3 & Ul3 & In3 & nd3 & b3 & a3 & E3 & V3 & NC3 & L3 & HU3 & T3 & K3 & Z3 & Z3').
        apply stay_inv in Y3 as (It3 & Di3 & Sg3 & _).
        assert (Oth: forall i, i <> cu -> i <> it -> get (bb_nodes w3) i = get (bb_nodes w) i).
        { intros i A B. rewrite N3, N2, N1 by auto. destruct (Nat.eqb_spec i cu); [contradiction|]. destruct (Nat.eqb_spec i it); [contradiction|reflexivity]. }
        assert (Oc: forall i b a, i <> cu -> i <> it -> nodecells w i b a -> nodecells w3 i b a).
        { intros i b a A B H. eapply nodecells_others; [exact O3|exact B|]. eapply nodecells_others; [exact O2|exact A|]. apply K1; auto. }
        assert (Ec3: get (bb_nodes w3) cu = Some nd2) by (rewrite N3 by auto; exact E2).
        assert (NCc: nodecells w3 cu b2 a2) by (eapply nodecells_others; eauto).
        assert (It: bb_iter w3 = it) by congruence.
        split; [|split; [congruence|exact It]]. split.
        { split; [exact S3|]. split; [exact Uo3|]. split; [exact In3|]. split; [|split].
          - intros i ndx Ex. destruct (Nat.eq_dec i cu) as [->|A]; [rewrite Ec3 in Ex; injection Ex as <-; exact V2|].
            destruct (Nat.eq_dec i it) as [->|B]; [rewrite E3 in Ex; injection Ex as <-; exact V3|].
            rewrite Oth in Ex by auto. eauto.
          - intros i Hi. rewrite It in Hi. destruct (Nat.eq_dec i cu) as [->|A].
            { exists nd2, b2, a2. split; [exact Ec3|]. split; [exact NCc|]. split; [exact L2|]. intros Hb. split; [|exact nvp].
              destruct HU2 as [?|(q & _ & _ & _ & Q)]; [auto|rewrite Q in Hb; discriminate]. }
            destruct (Nat.eq_dec i it) as [->|B].
            { exists nd3, b3, a3. split; [exact E3|]. split; [exact NC3|]. split; [exact L3|]. intros Hb. split; [|exact nvp].
              destruct HU3 as [?|(q & _ & _ & _ & Q)]; [auto|rewrite Q in Hb; discriminate]. }
            destruct (No i ltac:(unfold it in *; lia)) as (ndx & bx & ax & Q1 & Q2 & Q3). exists ndx, bx, ax. rewrite Oth by auto. auto.
          - rewrite It, Di3, Di2, Di1. unfold it. lia. }
        intros v Av Cv. pose proof (Ul3 _ Cv) as Cv2. pose proof (Ul2 _ Cv2) as Cv1. rewrite U1 in Cv1.
        destruct (Cov v Av Cv1) as (i & ndx & bx & ax & Hi & Ex & NCx & Bx & Lx & Px). rewrite It.
        destruct (Nat.eq_dec i cu) as [->|A].
        { destruct (Sp v Av (inb_cells _ _ _ _ _ _ _ NCx NC Bx)) as [Bl|Br].
          - destruct (K2 v Av Bl) as (R1 & R2 & R3); [rewrite U1; exact Cv1|]. exists cu, nd2, b2, a2.
            split; [unfold it; lia|]. repeat (split; [assumption|]). destruct R3; [assumption|contradiction].
          - destruct (K3 v Av Br Cv2) as (R1 & R2 & R3). exists it, nd3, b3, a3.
            split; [lia|]. repeat (split; [assumption|]). destruct R3; [assumption|contradiction]. }
        { exists i, ndx, bx, ax. assert (i <> it) by (unfold it; lia). rewrite Oth by auto.
          split; [unfold it; lia|]. split; [exact Ex|]. split; [apply Oc; auto|]. split; [exact Bx|]. split; [exact Lx|].
          destruct Px; [contradiction|assumption]. }
Qed.

Lemma global_L_spec (w : W) : nodes_ok w ->
  wlp (get_global_L w) (fun g => Lok g /\ forall i nd r, i <= bb_iter w -> get (bb_nodes w) i = Some nd -> leL (nd_L nd) r -> leL g r).
Proof.
  intros No. unfold get_global_L. apply wlp_for with (Inv := fun k (g : E) => Lok g /\
    forall i nd r, i < k -> get (bb_nodes w) i = Some nd -> leL (nd_L nd) r -> leL g r).
  - lia.
  - split; [left; reflexivity|]. intros; lia.
  - intros i g Hi [Lg Hg]. destruct (No i ltac:(lia)) as (nd & _ & _ & En & _ & Ln & _). rewrite En. cbn [bind]. apply wlp_ret.
    split; [destruct (flt g (nd_L nd)); auto|].
    intros k ndk r Hk Ek Lk. destruct (Nat.eq_dec k i) as [->|N].
    + rewrite En in Ek. injection Ek as <-. destruct (flt g (nd_L nd)) eqn:EF; [|exact Lk].
      destruct Lg as [->|[g' ->]]; [destruct (nd_L nd); discriminate|]. destruct Ln as [Ln|[l Ln]]; rewrite Ln in *; [destruct Lk|].
      cbn in *. unfold Rltb in EF. destruct (Rlt_dec g' l); [lra|discriminate].
    + specialize (Hg k ndk r ltac:(lia) Ek Lk). destruct (flt g (nd_L nd)) eqn:EF; [exact Hg|].
      destruct Lg as [->|[g' ->]]; [destruct Hg|]. destruct Ln as [Ln|[l Ln]]; rewrite Ln in *; [discriminate|].
      cbn in *. unfold Rltb in EF. destruct (Rlt_dec g' l); [discriminate|lra].
  - intros g [Lg Hg]. split; [exact Lg|]. intros i nd r Hi. apply Hg. lia.
Qed.

Lemma next_spec (w : W) : mid w -> Lok (bb_L w) ->
  (forall v, adm v -> ltU (costf v + eps) (bb_U w) -> leL (bb_L w) (costf v + eps)) ->
  wlp (get_next_node w) (fun '(cur, w') => head cur w' /\ bb_stgs w' = bb_stgs w /\ bb_iter w' = bb_iter w).
Proof.
  intros [Ba Cov] HL Hb. pose proof Ba as (St & Uo & In & Va & No & Di).
  assert (Mk: forall cu nd w', w' = w \/ w' = set_bb_dive w (Z.of_nat cu) -> cu <= bb_iter w -> get (bb_nodes w) cu = Some nd -> nd_status nd = BR ->
     head (Z.of_nat cu) w' /\ bb_stgs w' = bb_stgs w /\ bb_iter w' = bb_iter w).
  { intros cu nd w' Hw Hc En Hbr.
    assert (Hx: exists c0 nd, Z.of_nat cu = Z.of_nat c0 /\ c0 <= bb_iter w /\ get (bb_nodes w) c0 = Some nd /\ nd_U nd = PInf /\ 0 < nv).
    { destruct (No cu Hc) as (nd' & _ & _ & En' & _ & _ & Q). rewrite En in En'. injection En' as <-. destruct (Q Hbr). exists cu, nd. auto. }
    assert (Cv: covered w (fun i nd => Z.of_nat i = Z.of_nat cu \/ nd_status nd = BR)).
    { intros v Av Cv. destruct (Cov v Av Cv) as (i & ndx & bx & ax & Q). exists i, ndx, bx, ax. tauto. }
    destruct Hw as [-> | ->].
    - split; [|split; reflexivity]. split; [exact Ba|]. split; [exact HL|]. split; [intros _; exact Hx|]. split; [exact Cv|].
      split; [exact Hb|]. intros; lia.
    - split; [|split; reflexivity]. split; [|split; [exact HL|split; [intros _; exact Hx|split; [exact Cv|split; [exact Hb|intros; lia]]]]].
      split; [exact St|]. split; [exact Uo|]. split; [exact In|]. split; [exact Va|]. split; [exact No|]. bbc. lia. }
  unfold get_next_node. apply wlp_bind.
  apply wlp_conseq with (P := fun d : option Z => match d with None => True | Some z => exists cu nd, z = Z.of_nat cu /\ cu <= bb_iter w /\
     get (bb_nodes w) cu = Some nd /\ nd_status nd = BR end).
  { destruct (bs_select (bb_stgs w)).
    - exact I.
    - apply wlp_bind_eq. intros nd En. apply wlp_ret. destruct (Z.eqb_spec (nd_status nd) MI_SOLVED_BRANCHABLE) as [e|]; [|exact I].
      unfold getz in En. destruct (Z.ltb_spec (bb_dive w) 0); [discriminate|]. exists (Z.to_nat (bb_dive w)), nd.
      rewrite Z2Nat.id by auto. repeat split; auto. lia.
    - apply wlp_bind_eq. intros nd En. apply wlp_ret. destruct (Z.eqb_spec (nd_status nd) MI_SOLVED_BRANCHABLE) as [e|]; [|exact I].
      exists (bb_iter w), nd. auto. }
  intros [z|] Hz.
  { destruct Hz as (c0 & nd & -> & Hc & En & Hbr). apply wlp_ret. apply (Mk c0 nd w); auto. }
  apply wlp_bind. apply wlp_for with (Inv := fun k (s : Z * E) =>
    (fst s = (-1)%Z /\ snd s = PInf /\ forall i nd, i < k -> get (bb_nodes w) i = Some nd -> nd_status nd = BR -> Lok (nd_L nd) ->
        flt (nd_L nd) (PInf : E) = true -> flt (nd_L nd) (bb_U w) = false) \/
    exists cu nd, fst s = Z.of_nat cu /\ cu <= bb_iter w /\ get (bb_nodes w) cu = Some nd /\ nd_status nd = BR).
  - lia.
  - left. split; [reflexivity|]. split; [reflexivity|]. intros; lia.
  - intros i [next L] Hi Hs. cbn [fst snd] in Hs. destruct (No i ltac:(lia)) as (nd & _ & _ & En & _ & _). rewrite En. cbn [bind].
    destruct ((nd_status nd =? MI_SOLVED_BRANCHABLE)%Z && flt (nd_L nd) L && flt (nd_L nd) (bb_U w))%bool eqn:Et; apply wlp_ret; cbn [fst snd].
    + apply andb_true_iff in Et as [Et _]. apply andb_true_iff in Et as [Et _]. apply Z.eqb_eq in Et.
      right. exists i, nd. repeat split; auto; lia.
    + destruct Hs as [(-> & -> & Hs)|Hs]; [left|right; exact Hs]. split; [reflexivity|]. split; [reflexivity|].
      intros k ndk Hk Ek Bk Lk Fk. destruct (Nat.eq_dec k i) as [->|N]; [|apply (Hs k); auto; lia].
      rewrite En in Ek. injection Ek as <-. rewrite Fk in Et. unfold BR in Bk. rewrite Bk, Z.eqb_refl in Et. cbn [andb] in Et. exact Et.
  - intros [next L] Hs. cbn [fst snd] in Hs. apply wlp_ret. destruct Hs as [(-> & _ & Hs)|(c0 & nd & -> & Hc & En & Hbr)].
    + split; [|split; reflexivity].
      assert (Neg: forall v, adm v -> ~ ltU (costf v + eps) (bb_U w)).
      { intros v Av Cv. destruct (Cov v Av Cv) as (i & nd & b & a & Hi & En & _ & _ & Ll & Hbr).
        destruct (No i Hi) as (nd' & _ & _ & En' & _ & Ln & _). rewrite En in En'. injection En' as <-.
        destruct Ln as [Ln|[l Ln]]; [rewrite Ln in Ll; destruct Ll|].
        assert (Fk: flt (nd_L nd) (bb_U w) = false) by (apply (Hs i nd); auto; [lia|rewrite Ln; right; eauto|rewrite Ln; reflexivity]).
        rewrite Ln in Fk, Ll. cbn in Ll. destruct Uo as [Uo|[u Uo]]; rewrite Uo in *; [discriminate|].
        cbn in Fk, Cv. unfold Rltb in Fk. destruct (Rlt_dec l u); [discriminate|lra]. }
      split; [|split; [exact HL|split; [|split; [|split; [exact Hb|intros _; exact Neg]]]]].
      * split; [exact St|]. split; [exact Uo|]. split; [exact In|]. split; [exact Va|]. split; [exact No|]. bbc. lia.
      * intros H. unfold should_continue in H. cbn in H. rewrite andb_false_r in H. discriminate.
      * intros v Av Cv. exfalso. exact (Neg v Av Cv).
    + apply (Mk c0 nd); auto.
Qed.

Lemma step_spec cur (w : W) :
  (bs_strategy (bb_stgs w) = StrongBranching -> repeatable nb ni col good solver) ->
  head cur w -> should_continue w cur = true ->
  wlp (bb_step solver rnd rfuel cur w) (fun '(cur', w') => head cur' w' /\ bb_stgs w' = bb_stgs w /\ bb_iter w' = S (bb_iter w)).
Proof.
  intros Rep (Ba & _ & Hc & Cov & _) Sc. destruct (Hc Sc) as (c0 & nd & -> & Hc0 & En & HU & nvp).
  apply wlp_intro. intros [cur' w'] Hs.
  assert (Ex: exists w1, expand c0 w = Some w1 /\ (L <- get_global_L w1 ;; get_next_node (set_bb_L w1 L)) = Some (cur', w')).
  { unfold bb_step in Hs. rewrite Nat2Z.id in Hs. unfold expand.
    destruct (branch c0 _) as [wa|]; [cbn [bind] in *|discriminate].
    destruct (get_bounds _ _ _ c0 _) as [wb|]; [cbn [bind] in *|discriminate].
    destruct (get_bounds _ _ _ (bb_iter wb) _) as [wc|]; [cbn [bind] in *|discriminate]. eauto. }
  destruct Ex as (w1 & E1 & E2).
  assert (Cov': covered w (fun i nd => i = c0 \/ nd_status nd = BR)).
  { intros v Av Cv. destruct (Cov v Av Cv) as (i & ndx & bx & ax & A & B & C & D & F & [G|G]); exists i, ndx, bx, ax; repeat (split; [assumption|]); [left; lia|auto]. }
  destruct (wlp_elim _ _ _ (expand_spec c0 nd w Rep Ba Hc0 En HU nvp Cov') E1) as ((Ba1 & Cov1) & Sg & It).
  bd E2 as L EL. pose proof Ba1 as (_ & _ & _ & _ & No1 & _).
  destruct (wlp_elim _ _ _ (global_L_spec w1 No1) EL) as [Lg Hg].
  assert (M: mid (set_bb_L w1 L)) by exact (conj Ba1 Cov1).
  assert (Hb: forall v, adm v -> ltU (costf v + eps) (bb_U (set_bb_L w1 L)) -> leL (bb_L (set_bb_L w1 L)) (costf v + eps)).
  { bbc. intros v Av Cv. destruct (Cov1 v Av Cv) as (i & ndx & bx & ax & A & B & C & D & F & G). eapply Hg; eauto. }
  destruct (wlp_elim _ _ _ (next_spec _ M Lg Hb) E2) as (H1 & H2 & H3). bbc in H2. bbc in H3. split; [exact H1|]. split; congruence.
Qed.

Lemma wlp_while {S : Type} (Inv : S -> Prop) (test : S -> option bool) body :
  (forall s, Inv s -> test s = Some true -> wlp (body s) Inv) ->
  forall fuel s, Inv s -> wlp (while_ fuel test body s) (fun s => Inv s /\ test s = Some false).
Proof.
  intros Hb. induction fuel as [|k IH]; intros s Hs; cbn [while_]; [exact I|].
  apply wlp_bind_eq. intros b Eb. destruct b; [|apply wlp_ret; auto].
  apply wlp_bind. eapply wlp_conseq; [apply Hb; auto|]. intros s' Hs'. apply IH. exact Hs'.
Qed.

Lemma fill_b (m : nat) (z : Z) (t t' : arr Z) : for_ 0 m (fun i a => set a i z) t = Some t' -> forall j, j < m -> get t' j = Some z.
Proof.
  intros E0. refine (wlp_elim _ (fun t' => forall j, j < m -> get t' j = Some z) _ _ E0).
  apply wlp_for with (Inv := fun i (t' : arr Z) => forall j, j < i -> get t' j = Some z); try lia; auto.
  intros i a Hi H. apply wlp_intro. intros a' Ea. apply set_inv in Ea as (_ & _ & G). intros j Hj. rewrite G.
  destruct (Nat.eqb_spec j i); [reflexivity|apply H; lia].
Qed.
Lemma fill_i (m : nat) (z : E) (t t' : arr E) :
  for_ 0 m (fun i a => a <- set a (2 * i)%nat z ;; set a (2 * i + 1)%nat z) t = Some t' -> forall k, k < 2 * m -> get t' k = Some z.
Proof.
  intros E0. refine (wlp_elim _ (fun t' => forall k, k < 2 * m -> get t' k = Some z) _ _ E0).
  apply wlp_for with (Inv := fun i (t' : arr E) => forall k, k < 2 * i -> get t' k = Some z); try lia; auto.
  intros i a Hi H. apply wlp_bind_eq. intros a1 E1. apply set_inv in E1 as (_ & _ & G1).
  apply wlp_intro. intros a' Ea. apply set_inv in Ea as (_ & _ & G). intros j Hj. rewrite G, G1.
  destruct (Nat.eqb_spec j (2 * i + 1)); [reflexivity|]. destruct (Nat.eqb_spec j (2 * i)); [reflexivity|]. apply H; lia.
Qed.

Lemma big_E : (MAX_FLOAT_INT : E) = Fin 8388608.
Proof. unfold MAX_FLOAT_INT. change (Fin (Q2R (8388608 # 1)) = Fin 8388608). f_equal. unfold Q2R. cbn [Qnum Qden]. lra. Qed.

Definition ready (w : W) : Prop := static w /\ (forall i nd, get (bb_nodes w) i = Some nd -> validn nd) /\
  (bs_strategy (bb_stgs w) = StrongBranching -> repeatable nb ni col good solver) /\
  exists ab re, bs_abs (bb_stgs w) = Fin ab /\ bs_rel (bb_stgs w) = Fin re /\ (0 <= ab)%R /\ (0 <= re)%R.

Lemma root_spec (w : W) : ready w -> wlp (bb_root solver rnd rfuel w) (fun w' => head 0 w' /\ bb_stgs w' = bb_stgs w).
Proof.
  intros (St & Va & Rep & ab & re & Eab & Ere & Pab & Pre). unfold bb_root. apply wlp_bind.
  apply wlp_conseq with (P := fun w1 : W => static w1 /\ bb_stgs w1 = bb_stgs w /\ bb_iter w1 = 0 /\ bb_dive w1 = 0%Z /\ bb_U w1 = PInf /\
    nodecells w1 0 (fun _ => (-1)%Z) (fun _ => 8388608%R) /\ (forall i nd, get (bb_nodes w1) i = Some nd -> validn nd) /\
    exists nd, get (bb_nodes w1) 0 = Some nd /\ nd_U nd = PInf).
  { unfold initialize_root. apply wlp_bind_eq. intros w1 E1. apply upd_node_inv in E1 as (nd & ns & E1 & -> & _ & G). bbc in E1. bbc in G.
    apply wlp_bind_eq. intros bids Eb. apply wlp_bind_eq. intros iids Ei. bbc in Eb. bbc in Ei. apply wlp_ret.
    pose proof St as (Enb & Eni & _). rewrite Enb in Eb. rewrite Eni in Ei. rewrite big_E in Ei.
    pose proof (fill_b _ _ _ _ Eb) as Gb. pose proof (fill_i _ _ _ _ Ei) as Gi.
    split; [exact St|]. split; [reflexivity|]. split; [reflexivity|]. split; [reflexivity|]. split; [reflexivity|].
    split; [|split].
    - split; bbc.
      + intros j Hj. rewrite Nat.mul_0_r. split; [exact (Gb j Hj)|left; reflexivity].
      + intros k Hk. rewrite Nat.mul_0_r. exact (Gi k Hk).
    - bbc. intros i ndx Ex. rewrite G in Ex. destruct (Nat.eqb_spec i 0) as [->|]; [|eauto]. injection Ex as <-. exact (Va _ _ E1).
    - bbc. eexists. split; [rewrite G, Nat.eqb_refl; reflexivity|reflexivity]. }
  intros w1 (S1 & Sg1 & It1 & Di1 & U1 & NC1 & Va1 & nd1 & En1 & HU1).
  apply wlp_bind. eapply wlp_conseq; [apply (get_bounds_spec 0 (fun _ => (-1)%Z) (fun _ => 8388608%R) w1 nd1)|].
  - rewrite Sg1. exact Rep.
  - exact S1.
  - exact NC1.
  - left. exact U1.
  - intros u Eu. rewrite U1 in Eu. discriminate.
  - exact En1.
  - exact (Va1 _ _ En1).
  - exact HU1.
  - intros w2 (S2 & Y2 & N2 & O2 & Uo2 & Ul2 & In2 & nd2 & b2 & a2 & E2 & V2 & NC2 & L2 & HU2 & T2 & K2 & Z2 & Z2').
    apply stay_inv in Y2 as (It2 & Di2 & Sg2 & _). rewrite E2. cbn [bind]. apply wlp_ret. split; [|bbc; congruence].
    assert (Kv: forall v, adm v -> inb b2 a2 v /\ leL (nd_L nd2) (costf v + eps)).
    { intros v Av. destruct (K2 v Av) as (R1 & R2 & _); [|rewrite U1; exact I|auto].
      intros j Hj. unfold blo, bhi. cbn [Z.eqb]. destruct (Nat.ltb_spec j nb) as [L|L].
      - destruct (proj1 (proj2 Av) j L) as [-> | ->]; lra.
      - destruct (proj2 (proj2 Av) j ltac:(lia)) as (z & -> & Hz1 & Hz2). apply IZR_le in Hz1, Hz2. lra. }
    split; [|split; [|split; [|split; [|split]]]].
    + split; [exact S2|]. split; [|split; [|split; [|split]]].
      * unfold Uok. bbc. destruct HU2 as [H|(q & H & _)]; [left; exact H|right; eauto].
      * intros u Eu. bbc in Eu. bbc. destruct HU2 as [H|(q & H & Hq & _)]; [rewrite H in Eu; discriminate|].
        rewrite H in Eu. apply In2. congruence.
      * bbc. intros i ndx Ex. destruct (Nat.eq_dec i 0) as [->|N]; [rewrite E2 in Ex; injection Ex as <-; exact V2|]. rewrite N2 in Ex by auto. eauto.
      * intros i Hi. bbc in Hi. rewrite It2, It1 in Hi. assert (i = 0) by lia. subst i. exists nd2, b2, a2. bbc.
        split; [exact E2|]. split; [exact NC2|]. split; [exact L2|]. intros Hb. split; [|auto].
        destruct HU2 as [?|(q & _ & _ & _ & Q)]; [auto|rewrite Q in Hb; discriminate].
      * bbc. rewrite Di2, Di1. lia.
    + bbc. exact L2.
    + intros Sc. exists 0, nd2. bbc. split; [reflexivity|]. split; [lia|]. split; [exact E2|].
      destruct HU2 as [H|(q & H & _ & Hq & _)].
      * split; [exact H|]. apply Z2'; auto. intros K. unfold should_continue in Sc. bbc in Sc. rewrite H, K in Sc.
        rewrite Sg2, Sg1, Eab in Sc. cbn in Sc. discriminate.
      * exfalso. unfold should_continue in Sc. bbc in Sc. rewrite H, Hq in Sc. rewrite Sg2, Sg1, Eab in Sc.
        apply andb_true_iff in Sc as [Sc _]. apply andb_true_iff in Sc as [Sc _]. apply andb_true_iff in Sc as [Sc _].
        cbn in Sc. unfold Rltb in Sc. destruct (Rlt_dec ab (q + - q)); [lra|discriminate].
    + intros v Av _. destruct (Kv v Av). exists 0, nd2, b2, a2. bbc. split; [lia|]. repeat (split; [assumption|]). left. reflexivity.
    + intros v Av _. bbc. apply Kv. exact Av.
    + intros; lia.
Qed.

Lemma loop_spec fuel (w : W) : (bs_strategy (bb_stgs w) = StrongBranching -> repeatable nb ni col good solver) -> head 0 w ->
  wlp (bb_loop solver rnd rfuel fuel w) (fun '(cur, w') => head cur w' /\ bb_stgs w' = bb_stgs w /\ should_continue w' cur = false).
Proof.
  intros Rep H0. unfold bb_loop.
  eapply wlp_conseq; [apply (wlp_while (fun s : Z * W => head (fst s) (snd s) /\ bb_stgs (snd s) = bb_stgs w))|].
  - intros [cur w1] [Hh Sg] Ht. cbn [fst snd] in *. injection Ht as Ht.
    eapply wlp_conseq; [apply (step_spec cur w1); auto; rewrite Sg; exact Rep|].
    intros [cur2 w2] (A & B & _). cbn [fst snd]. split; [exact A|congruence].
  - split; [exact H0|reflexivity].
  - intros [cur w1] [[Hh Sg] Ht]. cbn [fst snd] in *. injection Ht as Ht. auto.
Qed.

(* the claim about the result *)
Definition result (w : W) (r : Z) (w' : W) : Prop :=
  let abs := match bs_abs (bb_stgs w) with Fin a => a | _ => 0%R end in
  let rel := match bs_rel (bb_stgs w) with Fin a => a | _ => 0%R end in
  let bound l := forall v, adm v -> leL l (costf v + eps) \/ ~ ltU (costf v + eps) (bb_U w') in
  bound (bb_L w') /\ Lok (bb_L w') /\
  ((exists x, bb_U w' = Fin (costf x) /\ holds (w_x (bb_prob w')) x /\ inc_ok x /\
     (r = MI_MAXITER_FEASIBLE_SOLN \/ r = MI_OPTIMAL_SOLN /\
        forall v, adm v -> (costf x <= costf v + eps + abs)%R \/ (exists l, l <= costf v + eps /\ Rabs (costf x - l) <= rel * Rabs l)%R)) \/
   (bb_U w' = PInf /\ (r = MI_MAXITER_NO_SOLN \/ r = MI_INFEASIBLE /\ forall v, ~ adm v))).

Lemma abs2_PInf : @abs_2 EOps PInf = PInf.
Proof. reflexivity. Qed.

Lemma solve_spec (w : W) : ready w -> wlp (ECOS_BB_solve solver rnd rfuel w) (fun '(r, w') => result w r w').
Proof.
  intros Rd. pose proof Rd as (St & Va & Rep & ab & re & Eab & Ere & Pab & Pre). unfold ECOS_BB_solve.
  apply wlp_bind. eapply wlp_conseq; [apply (root_spec w Rd)|]. intros w1 [H1 Sg1].
  apply wlp_bind. eapply wlp_conseq; [apply loop_spec; [rewrite Sg1; exact Rep|exact H1]|]. clear H1.
  intros [cur w2] (H2 & Sg2 & Sc). pose proof H2 as ((S2 & Uo2 & In2 & _) & L2 & _ & _ & Bd & Neg).
  apply wlp_bind_eq. intros w3 E3. apply wlp_ret.
  unfold load_solution in E3. bd E3 as xs Ex. bd E3 as ys Ey. bd E3 as zs Ez. bd E3 as ss Es. injection E3 as E3.
  assert (U3: bb_U w3 = bb_U w2) by (subst w3; reflexivity).
  assert (L3: bb_L w3 = bb_L w2) by (subst w3; reflexivity).
  assert (G3: bb_stgs w3 = bb_stgs w2) by (subst w3; reflexivity).
  assert (I3: bb_iter w3 = bb_iter w2) by (subst w3; reflexivity).
  assert (X3: w_x (bb_prob w3) = xs) by (subst w3; reflexivity). clear E3 Ey Ez Es.
  assert (En: w_n (bb_prob w2) = n) by (apply (rs_dims _ _ _ _ _ _ _ _ _ _ _ SOLVER), S2).
  unfold copyN in Ex. rewrite En in Ex. apply memcpy_inv in Ex as (_ & Gx & _).
  assert (Stop: (Z.of_nat (bb_iter w2) <? bs_maxit (bb_stgs w2) - 1)%Z = true ->
     flt (Fin ab : E) (fsub (bb_U w2) (bb_L w2)) = false \/ flt (Fin re : E) (@abs_2 EOps (fsub (fdiv (bb_U w2) (bb_L w2)) (Fin 1))) = false \/ (cur < 0)%Z).
  { intros Hm. unfold should_continue in Sc. rewrite Hm, Sg2, Sg1, Eab, Ere, f1_E', andb_true_r in Sc.
    apply andb_false_iff in Sc as [Sc|Sc]; [|right; right; apply Z.leb_gt; exact Sc].
    apply andb_false_iff in Sc as [Sc|Sc]; auto. }
  unfold result. rewrite Eab, Ere, L3, U3, X3. split; [|split; [exact L2|]].
  { intros v Av. destruct Uo2 as [Uo2|[u Uo2]].
    - left. apply Bd; auto. rewrite Uo2. exact I.
    - rewrite Uo2 in *. destruct (Rlt_dec (costf v + eps) u); [left; apply Bd; auto|right; exact n0]. }
  unfold get_ret_code. rewrite U3, G3, I3. rewrite f0_E'.
  destruct (Z.of_nat (bb_iter w2) <? bs_maxit (bb_stgs w2) - 1)%Z eqn:Em.
  - specialize (Stop eq_refl). destruct Uo2 as [Uo2|[u Uo2]].
    + right. rewrite Uo2 in *. split; [reflexivity|]. right. split; [reflexivity|].
      assert (No: forall v, adm v -> bb_L w2 = PInf \/ (cur < 0)%Z -> False).
      { intros v Av [K|K]; [|exact (Neg K v Av I)]. specialize (Bd v Av I). rewrite K in Bd. exact Bd. }
      intros v Av. destruct L2 as [L2|[l L2]]; [exact (No v Av (or_introl L2))|]. rewrite L2 in *.
      destruct Stop as [Stop|[Stop|Stop]]; [discriminate| |exact (No v Av (or_intror Stop))].
      cbn in Stop. destruct (Rlt_dec l 0); discriminate.
    + left. destruct (In2 u Uo2) as (x & Hx & Hok & Hc). exists x. rewrite Uo2 in *.
      split; [congruence|]. split; [intros i Hi; rewrite Gx by auto; apply Hx; exact Hi|]. split; [exact Hok|]. right. split; [reflexivity|].
      intros v Av. rewrite Hc. destruct (Rlt_dec (costf v + eps) u) as [Lt|Ge]; [|left; lra].
      specialize (Bd v Av Lt). destruct L2 as [L2|[l L2]]; [rewrite L2 in Bd; destruct Bd|]. rewrite L2 in *. cbn in Bd.
      destruct Stop as [Stop|[Stop|Stop]].
      * left. cbn in Stop. unfold Rltb in Stop. destruct (Rlt_dec ab (u + - l)); [discriminate|lra].
      * right. exists l. split; [exact Bd|]. change (@fdiv EOps (Fin u) (Fin l)) with (ediv (Fin u) (Fin l)) in Stop. unfold ediv in Stop.
        destruct (Req_EM_T l 0) as [->|Nl].
        { unfold esgn in Stop. destruct (Rlt_dec 0 u); [discriminate|]. destruct (Rlt_dec u 0); [discriminate|].
          assert (u = 0)%R by lra. subst. rewrite H. rewrite Rminus_0_r, Rabs_R0. lra. }
        { change (@fsub EOps (Fin (u / l)) (Fin 1)) with (Fin (u / l + - 1)) in Stop. rewrite abs2_E in Stop. cbn in Stop. unfold Rltb in Stop.
          destruct (Rlt_dec re (Rabs (u / l + - 1))); [discriminate|].
          replace (u - l)%R with ((u / l + - 1) * l)%R by (field; exact Nl). rewrite Rabs_mult.
          apply Rmult_le_compat_r; [apply Rabs_pos|lra]. }
      * exfalso. exact (Neg Stop v Av Lt).
  - destruct Uo2 as [Uo2|[u Uo2]].
    + right. rewrite Uo2. split; [reflexivity|]. left. reflexivity.
    + left. destruct (In2 u Uo2) as (x & Hx & Hok & Hc). exists x. rewrite Uo2.
      split; [congruence|]. split; [intros i Hi; rewrite Gx by auto; apply Hx; exact Hi|]. split; [exact Hok|]. left. reflexivity.
Qed.
End Opt.
