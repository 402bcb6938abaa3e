(* The backtracking search of src/ecos.c:761-942 against Spec/ExpSearch.v. *)
From Coq Require Import List Arith Bool ZArith QArith Lia.
From Verif Require Import Base Num.
From Verif.Model Require Import Spla Types Consts Expcone Cone Kkt Ecos.
From Verif.Spec Require Import ExpSearch.
From Verif.Proofs Require Import ExitP ExpP LoopLib.
Import ListNotations.
Open Scope nat_scope.

Ltac quiet := constructor; unfold prob_of, best_of, point_of, summ, st_core, set_info; wcbn; reflexivity.
Ltac destruct_all := repeat match goal with H : _ /\ _ |- _ => destruct H end.

Section Search.
Context `{O : Ops}.
Notation W := (pwork F).
Local Open Scope fl_scope.

(* the trial loop writes the moved point *)
Lemma trial_loop (s ds z dz : arr F) alpha m ws wz ws' wz' mu :
  for_ 0 m (fun j st =>
          let '(ws, wz, mu) := st in
          s <- get s j ;; ds <- get ds j ;;
          z <- get z j ;; dz <- get dz j ;;
          let a := s + alpha * ds in
          let b := z + alpha * dz in
          ws <- set ws j a ;;
          wz <- set wz j b ;;
          Some (ws, wz, mu + a * b)) (ws, wz, f0) = Some (ws', wz', mu) ->
  let P := moved (mkPoint (gd f0 s) (gd f0 z) f0 f0) (mkPoint (gd f0 ds) (gd f0 dz) f0 f0) alpha in
  (forall j, (j < m)%nat -> get ws' j = Some (p_s P j)) /\ (forall j, (j < m)%nat -> get wz' j = Some (p_z P j)) /\
  mu = fsum m (fun i => p_s P i * p_z P i).
Proof.
  intros H P. unfold for_ in H.
  apply (for_loop_pres (fun k st => let '(a, b, mu) := st in
    (forall j, (j < k)%nat -> get a j = Some (p_s P j)) /\ (forall j, (j < k)%nat -> get b j = Some (p_z P j)) /\
    mu = fsum k (fun i => p_s P i * p_z P i))) in H.
  - replace (0 + (m - 0))%nat with m in H by lia. exact H.
  - csplit; try lia. reflexivity.
  - intros i [[a b] mu0] s1 Hi (A & B & M) Hb. binv Hb. injection Hb as <- <- <-.
    apply set_inv in E3 as (La & _ & Ga). apply set_inv in E4 as (Lb & _ & Gb).
    cbn [p_s p_z moved P] in *. unfold P in *. cbn [p_s p_z moved] in *.
    csplit.
    + intros j Hj. destruct (Nat.eq_dec j i) as [->|Nj].
      * rewrite Ga, Nat.eqb_refl. rewrite (gd_get f0 s i v), (gd_get f0 ds i v0) by auto. reflexivity.
      * rewrite Ga. destruct (Nat.eqb_spec j i); [lia|]. apply A. lia.
    + intros j Hj. destruct (Nat.eq_dec j i) as [->|Nj].
      * rewrite Gb, Nat.eqb_refl. rewrite (gd_get f0 z i v1), (gd_get f0 dz i v2) by auto. reflexivity.
      * rewrite Gb. destruct (Nat.eqb_spec j i); [lia|]. apply B. lia.
    + cbn [fsum]. rewrite (gd_get f0 s i v), (gd_get f0 ds i v0), (gd_get f0 z i v1), (gd_get f0 dz i v2) by auto. rewrite M. reflexivity.
Qed.

Lemma mui_at_eq (ws wz : arr F) P m k : (forall j, (j < m)%nat -> get ws j = Some (p_s P j)) -> (forall j, (j < m)%nat -> get wz j = Some (p_z P j)) ->
  (k + 3 <= m)%nat -> mui_at ws wz k = Some (mu_at P k).
Proof. intros A B H. unfold mui_at. rewrite !A, !B by lia. reflexivity. Qed.

Lemma mui_while_eq (ws wz : arr F) P m f e lim : (forall j, (j < m)%nat -> get ws j = Some (p_s P j)) -> (forall j, (j < m)%nat -> get wz j = Some (p_z P j)) ->
  m = (f + 3 * e)%nat -> forall fuel i mui j', (i <= e)%nat -> ((i < e)%nat -> mui = mu_at P (f + 3 * i)%nat) ->
  mui_while fuel ws wz m lim mui (f + 3 * i)%nat = Some j' ->
  (j' = m <-> forall k, (i <= k < e)%nat -> flt lim (mu_at P (f + 3 * k)%nat) = true).
Proof.
  intros A B Hm. induction fuel as [|fuel IH]; intros i mui j' Hi Hmu H; [discriminate|]. cbn [mui_while] in H.
  destruct (Nat.ltb_spec (f + 3 * i + 2) m) as [L|L].
  - assert (Hie : (i < e)%nat) by lia. specialize (Hmu Hie). destruct (flt lim mui) eqn:T; cbn [andb] in H.
    + binv1 H. replace (f + 3 * i + 3)%nat with (f + 3 * S i)%nat in * by lia.
      apply IH in H; [|lia|].
      * rewrite H. split; intros K k Hk; [|apply K; lia]. destruct (Nat.eq_dec k i) as [->|N]; [congruence|apply K; lia].
      * intros L2. destruct (Nat.ltb_spec (f + 3 * S i) m); [|lia]. rewrite (mui_at_eq ws wz P m) in E by (auto; lia). congruence.
    + injection H as <-. split; intros K; [lia|]. rewrite Hmu in T. rewrite K in T by lia. discriminate.
  - rewrite andb_false_r in H. injection H as <-. split; intros K; [intros k Hk; lia|lia].
Qed.

(* ------------------------------------------------------------ the search *)
Definition dirn (w : W) (dtau dkap : F) : point := mkPoint (gd f0 (w_dsaff w)) (gd f0 (kk_dz2 (w_KKT w))) dtau dkap.

Definition tallied (i i' : stats F) (os : list outcome) : Prop :=
  st_db i' = (st_db i + count FailDual os)%Z /\ st_pb i' = (st_pb i + count FailPrimal os)%Z /\
  st_cob i' = (st_cob i + count FailBalance os)%Z /\ st_cb i' = (st_cb i + count FailCentral os)%Z.

Lemma forallb_seq0 (g : nat -> bool) n : forallb g (seq 0 n) = true <-> forall j, (j < n)%nat -> g j = true.
Proof.
  rewrite forallb_forall. split; intros H j Hj; apply H; rewrite ?in_seq in *; lia.
Qed.

Lemma bk_loop_spec w dtau dkap : w_m w = (co_fexv (w_C w) + 3 * nexc (w_C w))%nat -> (0 < nexc (w_C w))%nat ->
  let P := fun a => moved (here w) (dirn w dtau dkap) a in
  let J := judged (w_C w) (w_m w) (w_D w) (sg_centrality (w_stgs w)) in
  let al := fun a i => shrunk a (sg_bk_scale (w_stgs w)) i in
  forall fuel alpha ws wz i a ws' wz' i',
  bk_loop fuel w dtau dkap alpha ws wz i = Some (a, ws', wz', i') ->
  exists os, ~ In Passed os /\ (forall k o, nth_error os k = Some o -> J (P (al alpha k)) o) /\
    (length os = fuel /\ a = fconst (-1) \/
     (length os < fuel)%nat /\ J (P (al alpha (length os))) Passed /\ a = al alpha (length os) * sg_gamma (w_stgs w)) /\
    tallied i i' os.
Proof.
  intros Hm He P J al. induction fuel as [|fuel IH]; intros alpha ws wz i a ws' wz' i' H; cbn [bk_loop] in H.
  - injection H as <- _ _ <-. exists []. csplit; auto.
    + intros [|k] o; discriminate.
    + unfold tallied, count; cbn. lia.
  - binv1 H. apply trial_loop in E as (A & B & Mu).
    set (Q := P alpha).
    assert (A' : forall j, (j < w_m w)%nat -> get l j = Some (p_s Q j)) by exact A.
    assert (B' : forall j, (j < w_m w)%nat -> get l0 j = Some (p_z Q j)) by exact B.
    assert (EM : (f + (w_tau w + alpha * dtau) * (w_kap w + alpha * dkap)) / fofn (w_D w + 1) = mu_all (w_m w) (w_D w) Q).
    { rewrite Mu. reflexivity. }
    rewrite EM in H. clear EM Mu A B.
    assert (NX : forall i0 o, (o <> Passed) -> J Q o ->
      bk_loop fuel w dtau dkap (alpha * sg_bk_scale (w_stgs w)) l l0 i0 = Some (a, ws', wz', i') ->
      (forall os, tallied i0 i' os -> tallied i i' (o :: os)) ->
      exists os, ~ In Passed os /\ (forall k o, nth_error os k = Some o -> J (P (al alpha k)) o) /\
        (length os = S fuel /\ a = fconst (-1) \/
         (length os < S fuel)%nat /\ J (P (al alpha (length os))) Passed /\ a = al alpha (length os) * sg_gamma (w_stgs w)) /\
        tallied i i' os).
    { intros i0 o No Jo E T. apply IH in E as (os & N & Js & R & Ta). exists (o :: os). csplit.
      - intros [K|K]; [congruence|auto].
      - intros [|k] o'; cbn; [intros [= <-]; exact Jo|apply Js].
      - destruct R as [[R1 R2]|(R1 & R2 & R3)]; [left; cbn; lia || (split; [cbn; lia|auto])|right]. csplit; [cbn; lia|exact R2|exact R3].
      - apply T. exact Ta. }
    assert (TD : forall j, (j < nexc (w_C w))%nat -> (co_fexv (w_C w) + 3 * j + 2 < w_m w)%nat) by (intros; lia).
    rewrite (dualFeas_eq l0 (fun j => p_z Q (co_fexv (w_C w) + 3*j)%nat) (fun j => p_z Q (co_fexv (w_C w) + 3*j+1)%nat) (fun j => p_z Q (co_fexv (w_C w) + 3*j+2)%nat)) in H
      by (intros j Hj; specialize (TD j Hj); csplit; apply B'; lia).
    cbn [bind] in H. destruct (forallb _ _) eqn:FD in H.
    2:{ eapply (NX _ FailDual); [discriminate| |exact H|].
        - intros K. apply not_true_iff_false in FD. apply FD. apply forallb_seq0. exact K.
        - unfold tallied, count. intros os. wcbn. cbn [count_occ outcome_eq_dec]. intros; csplit; destruct_all; cbn; lia. }
    assert (JD : dual_ok (co_fexv (w_C w)) (nexc (w_C w)) Q) by (intros j; apply (proj1 (forallb_seq0 _ _) FD)).
    rewrite (primalFeas_eq l (fun j => p_s Q (co_fexv (w_C w) + 3*j)%nat) (fun j => p_s Q (co_fexv (w_C w) + 3*j+1)%nat) (fun j => p_s Q (co_fexv (w_C w) + 3*j+2)%nat)) in H
      by (intros j Hj; specialize (TD j Hj); csplit; apply A'; lia).
    cbn [bind] in H. destruct (forallb _ _) eqn:FP in H.
    2:{ eapply (NX _ FailPrimal); [discriminate| |exact H|].
        - split; [exact JD|]. intros K. apply not_true_iff_false in FP. apply FP. apply forallb_seq0. exact K.
        - unfold tallied, count. intros os. wcbn. cbn [count_occ outcome_eq_dec]. intros; csplit; destruct_all; cbn; lia. }
    assert (JP : primal_ok (co_fexv (w_C w)) (nexc (w_C w)) Q) by (intros j; apply (proj1 (forallb_seq0 _ _) FP)).
    rewrite (mui_at_eq l l0 Q (w_m w)) in H by (auto; lia). cbn [bind] in H. binv1 H.
    replace (co_fexv (w_C w)) with (co_fexv (w_C w) + 3 * 0)%nat in E at 2 by lia.
    eapply (mui_while_eq l l0 Q) in E; eauto; [|lia].
    assert (JB : v = w_m w <-> balanced (co_fexv (w_C w)) (nexc (w_C w)) (w_m w) (w_D w) Q).
    { rewrite E. unfold balanced. split; intros K k Hk; apply K; lia. }
    destruct (Nat.eqb_spec v (w_m w)) as [Ev|Ev].
    2:{ eapply (NX _ FailBalance); [discriminate| |exact H|].
        - unfold J, judged. csplit; auto. intros K. apply Ev. apply JB. exact K.
        - unfold tallied, count. intros os. wcbn. cbn [count_occ outcome_eq_dec]. intros; csplit; destruct_all; cbn; lia. }
    apply JB in Ev. binv H. cbv zeta in H.
    assert (CE : centrality (w_C w) (w_m w) (w_D w) Q (v0 + v1 + fofn (w_D w + 1) * flog (mu_all (w_m w) (w_D w) Q) + fofn (w_D w + 1))).
    { exists l, l0, v0, v1. csplit; auto. }
    match type of H with (if ?b then _ else _) = _ => destruct b eqn:T end.
    + injection H as <- _ _ <-. exists []. csplit; auto.
      * intros [|k] o; discriminate.
      * right. cbn. split; [lia|split; [|reflexivity]]. unfold J, judged. csplit; auto. eexists; split; eauto.
      * unfold tallied, count; cbn. lia.
    + eapply (NX _ FailCentral); [discriminate| |exact H|].
      * unfold J, judged. csplit; auto. eexists; split; eauto.
      * unfold tallied, count. intros os. wcbn. cbn [count_occ outcome_eq_dec]. intros; csplit; destruct_all; cbn; lia.
Qed.

Lemma expls_spec w dtau dkap aff a w' : w_m w = (co_fexv (w_C w) + 3 * nexc (w_C w))%nat -> (0 < nexc (w_C w))%nat ->
  expConeLineSearch w dtau dkap aff = Some (a, w') ->
  let g := w_stgs w in
  let P := fun i => moved (here w) (dirn w dtau dkap) (shrunk (if aff then st_step_aff (w_info w) else st_step (w_info w)) (sg_bk_scale g) i) in
  let J := judged (w_C w) (w_m w) (w_D w) (sg_centrality g) in
  exists os, ~ In Passed os /\ (forall k o, nth_error os k = Some o -> J (P k) o) /\
    (Z.of_nat (length os) = Z.max 0 (sg_max_bk_iter g) /\ a = fconst (-1) \/
     (Z.of_nat (length os) < sg_max_bk_iter g)%Z /\ J (P (length os)) Passed /\
       a = shrunk (if aff then st_step_aff (w_info w) else st_step (w_info w)) (sg_bk_scale g) (length os) * sg_gamma g) /\
    (st_db (w_info w'), st_pb (w_info w'), st_cob (w_info w'), st_cb (w_info w'))
      = (count FailDual os, count FailPrimal os, count FailBalance os, count FailCentral os) /\
    exists k1 k2 i, w' = set_w_info (set_w_KKT w (set_kk_work2 (set_kk_work1 (w_KKT w) k1) k2)) i.
Proof.
  intros Hm He H g P J. unfold expConeLineSearch in H. binv1 H. injection H as <- <-.
  apply bk_loop_spec in E; auto. destruct E as (os & N & Js & R & T). exists os.
  split; [exact N|]. split; [exact Js|]. split; [|split].
  - destruct R as [[R1 R2]|(R1 & R2 & R3)]; [left; split; [|exact R2]|right; split; [|split; [exact R2|exact R3]]].
    + unfold g. lia.
    + unfold g. lia.
  - unfold tallied in T. wcbn in T. wcbn. destruct T as (T1 & T2 & T3 & T4). rewrite T1, T2, T3, T4. reflexivity.
  - eauto.
Qed.

Lemma combined_exp_spec dtau dkap w w' : w_m w = (co_fexv (w_C w) + 3 * nexc (w_C w))%nat -> (0 < nexc (w_C w))%nat ->
  feq (fconst (-1)) (fconst (-1)) = true -> combined_exp dtau dkap w = Some (true, w') ->
  w_C w' = w_C w /\ w_KKT w' = set_kk_work2 (set_kk_work1 (w_KKT w) (kk_work1 (w_KKT w'))) (kk_work2 (w_KKT w')) /\
  exists k, (Z.of_nat k < sg_max_bk_iter (w_stgs w))%Z /\
    judged (w_C w) (w_m w) (w_D w) (sg_centrality (w_stgs w)) (moved (here w) (dirn w' dtau dkap) (shrunk (st_step (w_info w)) (sg_bk_scale (w_stgs w)) k)) Passed /\
    st_step (w_info w') = shrunk (st_step (w_info w)) (sg_bk_scale (w_stgs w)) k * sg_gamma (w_stgs w).
Proof.
  intros Hm He Q H. unfold combined_exp in H. binv1 H. cbv zeta in H. apply Nat.ltb_lt in He as He'.
  change (nexc (w_C (set_info (set_w_dsaff w v) (fun i : stats F => set_st_cmbBack i 0%Z)))) with (nexc (w_C w)) in H. rewrite He' in H.
  binv1 H. injection H as Hs <-. apply expls_spec in E0; [|exact Hm|exact He].
  destruct E0 as (os & N & Js & R & _ & k1 & k2 & i & ->).
  split; [reflexivity|]. split; [destruct w as []; reflexivity|].
  destruct R as [[_ ->]|(R1 & R2 & ->)].
  - unfold set_info in Hs. wcbn in Hs. rewrite Q in Hs. discriminate.
  - exists (length os). split; [exact R1|]. split; [exact R2|reflexivity].
Qed.

Lemma axpy_spec k a (x y y' : arr F) : axpy k a x y = Some y' ->
  length y' = length y /\ (forall i, (i < k)%nat -> get y' i = Some (gd f0 y i + a * gd f0 x i)) /\ (forall i, (k <= i)%nat -> get y' i = get y i).
Proof.
  unfold axpy, for_. intros H.
  apply (for_loop_pres (fun k y' => length y' = length y /\ (forall i, (i < k)%nat -> get y' i = Some (gd f0 y i + a * gd f0 x i)) /\ (forall i, (k <= i)%nat -> get y' i = get y i))) in H.
  - replace (0 + (k - 0))%nat with k in H by lia. exact H.
  - csplit; auto; intros; lia.
  - intros i s s1 Hi (L & A & B) Hb. binv Hb. apply set_inv in Hb as (Ls & L1 & G). csplit; [congruence| |].
    + intros j Hj. rewrite G. destruct (Nat.eqb_spec j i) as [->|Nj]; [|apply A; lia].
      rewrite B in E by lia. rewrite (gd_get f0 y i v), (gd_get f0 x i v0) by auto. reflexivity.
    + intros j Hj. rewrite G. destruct (Nat.eqb_spec j i) as [->|Nj]; [lia|]. apply B; lia.
Qed.

Lemma iter_step_exp w w' : iter_step w = Some (VGo, w') ->
  w_m w = (co_fexv (w_C w') + 3 * nexc (w_C w'))%nat -> (0 < nexc (w_C w'))%nat ->
  feq (fconst (-1)) (fconst (-1)) = true ->
  exists (d : point) a0 k, let a := shrunk a0 (sg_bk_scale (w_stgs w)) k in
    (Z.of_nat k < sg_max_bk_iter (w_stgs w))%Z /\
    judged (w_C w') (w_m w) (w_D w) (sg_centrality (w_stgs w)) (moved (here w) d a) Passed /\
    (let q := moved (here w) d (a * sg_gamma (w_stgs w)) in
     (forall i, (i < w_m w)%nat -> get (w_s w') i = Some (p_s q i) /\ get (w_z w') i = Some (p_z q i)) /\
     w_tau w' = p_tau q /\ w_kap w' = p_kap q).
Proof.
  unfold iter_step. intros H. binv1 H.
  set (w1 := set_w_lambda (set_w_C w c) l) in *.
  assert (Q1: Quiet w w1) by (subst w1; quiet).
  destruct b.
  { binv1 H. destruct (checkExitConditions v ECOS_INACC_OFFSET) as [code w2] eqn:EC. destruct (code =? _)%Z; discriminate. }
  binv1 H. binv1 H.
  match type of H with context [set_w_KKT w1 ?k] => set (w2 := set_w_KKT w1 k) in * end.
  assert (Q2: Quiet w1 w2) by (subst w2; quiet).
  destruct b; cbn [negb] in H; [|discriminate].
  binv1 H. apply solve1_quiet in E2.
  binv1 H. apply affine_dir_quiet in E3.
  binv1 H.
  destruct b; cbn [negb] in H.
  2:{ binv1 H. discriminate. }
  binv1 H. injection H as <-.
  unfold combined_dir in E4. binv1 E4. apply combined_solve_quiet in E6.
  binv1 E4. apply combined_newton_quiet in E7. binv1 E4. injection E4 as -> -> -> ->.
  match type of E8 with combined_exp ?a ?b ?x = Some (_, ?y) => rename a into dta, b into dka, x into wc, y into we end.
  assert (Q : Quiet w wc) by (do 5 (eapply Quiet_trans; [eassumption|]); assumption).
  intros Hm He HQ.
  unfold take_step in E5. binv E5. injection E5 as <-. wcbn in Hm. wcbn in He.
  pose proof (combined_exp_quiet _ _ _ _ _ E8) as Qe.
  assert (EC : w_C we = w_C wc). { unfold combined_exp in E8. binv1 E8. cbv zeta in E8. destruct (0 <? _)%nat in E8; [binv1 E8; injection E8 as _ <-|injection E8 as <-]; auto.
    match goal with X : expConeLineSearch _ _ _ _ = _ |- _ => unfold expConeLineSearch in X; binv1 X; injection X as _ <-; reflexivity end. }
  rewrite EC in *.
  destruct Q as [QP _ Qpt _ _]. unfold prob_of in QP. injection QP as. unfold point_of in Qpt. injection Qpt as.
  destruct Qe as [QeP _ Qept _ _]. unfold prob_of in QeP. injection QeP as. unfold point_of in Qept. injection Qept as.
  apply combined_exp_spec in E8; auto; [|congruence].
  destruct E8 as (_ & EK & j & Hk & HJ & HS).
  assert (Eh : here wc = here w) by (unfold here; congruence).
  exists (dirn we dta dka), (st_step (w_info wc)), j. cbv zeta.
  split; [congruence|]. split; [rewrite <- Eh; wcbn; rewrite EC; congruence|].
  match goal with X : axpy _ _ _ (w_z we) = _ |- _ => apply axpy_spec in X as (_ & Az & _) end.
  match goal with X : axpy _ _ _ (w_s we) = _ |- _ => apply axpy_spec in X as (_ & As & _) end.
  wcbn. rewrite HS in *.
  split; [|split; unfold moved, here, dirn; cbn [p_tau p_kap]; congruence].
  intros i Hi. split; unfold moved, here, dirn; cbn [p_s p_z].
  - rewrite As by congruence. f_equal. f_equal; congruence.
  - rewrite Az by congruence. f_equal. f_equal; congruence.
Qed.
End Search.
