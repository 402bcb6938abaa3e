(* C31: splitting a node loses no integer point. *)
From Coq Require Import Reals Lra ZArith Bool Lia List Arith.
From Verif Require Import Base Num NumE NumI.
From Verif.Model Require Import Consts Bb BbTypes.
From Verif.Spec Require Import Integer Tree.
From Verif.Proofs Require Import BbNum BbP.
Import ListNotations.
Open Scope R_scope.

Notation BW := (bbwork ext).

(* what node idx of the workspace allows *)
Definition node_allows (w : BW) (idx : nat) (u : nat -> R) : Prop :=
  within (bb_nb w) (bb_ni w) (bb_bids w) (bb_iids w) idx u.

(* [splits w cur js y tol w']: the module splits node cur of w on its js-th
   integer variable (booleans first) at the value y, with tolerance tol; the right
   child is the new node number bb_iter w. *)
Definition splits (w : BW) (cur js : nat) (y tol : R) (w' : BW) : Prop :=
  @branch EOps EInt cur w = Some w' /\ cur <> bb_iter w /\ (js < bb_nb w + bb_ni w)%nat /\
  bs_itol (bb_stgs w) = Fin tol /\ 0 < tol < 1 /\
  exists nc, get (bb_nodes w) cur = Some nc /\ nd_split nc = Z.of_nat js /\ nd_val nc = Fin y.

Lemma bool_ok_star b u : bool_ok b u -> (exists z, u = IZR z) -> u = 0 \/ u = 1.
Proof.
  unfold bool_ok. destruct (b =? 1)%Z; [auto|]. destruct (b =? 0)%Z; [auto|]. destruct (b =? -1)%Z; [|tauto].
  intros [A B] (z & ->). assert (z = 0 \/ z = 1)%Z as [-> | ->]; auto.
  apply le_IZR in A, B. lia.
Qed.

(* the result of a split, in plain terms *)
Lemma splits_spec w cur js y tol w' : splits w cur js y tol w' ->
  let nb := bb_nb w in let ni := bb_ni w in let it := bb_iter w in
  bb_nb w' = nb /\ bb_ni w' = ni /\
  (forall j, (j < nb)%nat -> get (bb_bids w') (nb * cur + j) = if (j =? js)%nat then Some 0%Z else get (bb_bids w) (nb * cur + j)) /\
  (forall j, (j < nb)%nat -> get (bb_bids w') (nb * it + j) = if (j =? js)%nat then Some 1%Z else get (bb_bids w) (nb * cur + j)) /\
  (forall i j, i <> cur -> i <> it -> (j < nb)%nat -> get (bb_bids w') (nb * i + j) = get (bb_bids w) (nb * i + j)) /\
  (forall i, (i < ni * 2)%nat -> get (bb_iids w') (ni * cur * 2 + i) =
     if ((nb <=? js) && (i =? 2 * (js - nb) + 1))%nat then Some (Fin (IZR (Zfl tol y))) else get (bb_iids w) (ni * cur * 2 + i)) /\
  (forall i, (i < ni * 2)%nat -> get (bb_iids w') (ni * it * 2 + i) =
     if ((nb <=? js) && (i =? 2 * (js - nb)))%nat then Some (Fin (- IZR (Zce tol y))) else get (bb_iids w) (ni * cur * 2 + i)) /\
  (forall i j, i <> cur -> i <> it -> (j < ni * 2)%nat -> get (bb_iids w') (ni * i * 2 + j) = get (bb_iids w) (ni * i * 2 + j)).
Proof.
  intros (HB & Ne & Hj & Et & T & nc & En & Es & Ev) nb ni it.
  assert (Sp: (0 <= nd_split nc < Z.of_nat (bb_nb w + bb_ni w))%Z) by (rewrite Es; lia).
  destruct (@branch_inv EOps EInt cur w w' nc HB Ne En Sp) as (ns & bids & iids & fl & ce & nd0 & -> & _ & _ & _ & _ & _ & B1 & B2 & B3 & Fc & I1 & I2 & I3).
  change (@F EOps) with ext in *. rewrite Es, Nat2Z.id in B1, B2, Fc, I1, I2. fold nb ni it in B1, B2, B3, Fc, I1, I2, I3. bbc.
  split; [reflexivity|]. split; [reflexivity|]. split; [exact B1|]. split; [exact B2|]. split; [exact B3|].
  assert (K: (nb <= js)%nat -> fl = Fin (IZR (Zfl tol y)) /\ @fneg EOps ce = Fin (- IZR (Zce tol y))).
  { intros L. destruct (Fc L) as [A B]. rewrite Ev, Et in A, B.
    assert (A' := eq_trans (eq_sym (floor_E y tol)) A). assert (B' := eq_trans (eq_sym (ceil_E y tol)) B).
    destruct (to_int (Zfl tol y)) eqn:E1; [|discriminate]. destruct (to_int (Zce tol y)) eqn:E2; [|discriminate].
    apply to_int_inv in E1 as [-> _]. apply to_int_inv in E2 as [-> _].
    cbn in A', B'. injection A' as <-. injection B' as <-. split; reflexivity. }
  split; [|split; [|exact I3]].
  - intros i Hi. specialize (I1 i Hi). etransitivity; [exact I1|]. destruct (Nat.leb_spec nb js) as [L|L]; cbn [andb]; [|reflexivity].
    destruct (i =? 2 * (js - nb) + 1)%nat; [|reflexivity]. f_equal. apply K; auto.
  - intros i Hi. specialize (I2 i Hi). etransitivity; [exact I2|]. destruct (Nat.leb_spec nb js) as [L|L]; cbn [andb]; [|reflexivity].
    destruct (i =? 2 * (js - nb))%nat; [|reflexivity]. f_equal. apply K; auto.
Qed.

(* Every integer assignment allowed by the parent is allowed by a child. *)
Theorem C31_covers w cur js y tol w' u :
  splits w cur js y tol w' ->
  integer_valued (bb_nb w + bb_ni w) u -> node_allows w cur u ->
  node_allows w' cur u \/ node_allows w' (bb_iter w) u.
Proof.
  intros S IV [PB PI]. pose proof (splits_spec _ _ _ _ _ _ S) as (En & Ei & B1 & B2 & _ & I1 & I2 & _).
  destruct S as (_ & Ne & Hj & _ & T & _). unfold node_allows, within. rewrite En, Ei.
  destruct (Nat.leb_spec (bb_nb w) js) as [L|L]; cbn [andb] in *.
  - set (k := (js - bb_nb w)%nat) in *. assert (Hk: (k < bb_ni w)%nat) by (unfold k; lia).
    assert (Pb: forall j, (j < bb_nb w)%nat -> (j =? js)%nat = false) by (intros; apply Nat.eqb_neq; lia).
    destruct (IV (bb_nb w + k)%nat ltac:(lia)) as (z & Ez).
    pose proof (Zfl_Zce tol y ltac:(lra)) as [F1 F2].
    destruct (Z_le_gt_dec z (Zfl tol y)) as [Lz|Lz]; [left|right]; (split; [intros j Hj2|intros j Hj2]).
    + rewrite B1 by auto. rewrite Pb by auto. apply PB; auto.
    + destruct (PI j Hj2) as (a & b & A1 & A2 & A3). exists a. rewrite !I1 by lia.
      destruct (Nat.eqb_spec (2 * j) (2 * k + 1)); [lia|]. destruct (Nat.eqb_spec (2 * j + 1) (2 * k + 1)).
      * exists (IZR (Zfl tol y)). assert (j = k) by lia. subst j. repeat split; auto; [lra|]. rewrite Ez. apply IZR_le; auto.
      * exists b. auto.
    + rewrite B2 by auto. rewrite Pb by auto. apply PB; auto.
    + destruct (PI j Hj2) as (a & b & A1 & A2 & A3). rewrite !I2 by lia.
      destruct (Nat.eqb_spec (2 * j + 1) (2 * k)); [lia|]. destruct (Nat.eqb_spec (2 * j) (2 * k)).
      * exists (- IZR (Zce tol y)), b. assert (j = k) by lia. subst j. repeat split; auto; [|lra].
        rewrite Ez. assert (IZR (Zce tol y) <= IZR z) by (apply IZR_le; lia). lra.
      * exists a, b. auto.
  - assert (Ov: u js = 0 \/ u js = 1).
    { destruct (PB js L) as (b & _ & Hb). eapply bool_ok_star; eauto. }
    destruct Ov as [O0|O1]; [left|right]; split; intros j Hj2.
    + rewrite B1 by auto. destruct (Nat.eqb_spec j js) as [->|N]; [|apply PB; auto].
      exists 0%Z. split; auto.
    + destruct (PI j Hj2) as (a & b & A1 & A2 & A3). exists a, b. rewrite !I1 by lia. auto.
    + rewrite B2 by auto. destruct (Nat.eqb_spec j js) as [->|N]; [|apply PB; auto].
      exists 1%Z. split; auto.
    + destruct (PI j Hj2) as (a & b & A1 & A2 & A3). exists a, b. rewrite !I2 by lia. auto.
Qed.

(* Nothing is allowed by both children (for an integer variable: when the value
   split on is farther than the tolerance from every integer). *)
Theorem C31_disjoint w cur js y tol w' u :
  splits w cur js y tol w' -> ((js < bb_nb w)%nat \/ fractional tol y) ->
  ~ (node_allows w' cur u /\ node_allows w' (bb_iter w) u).
Proof.
  intros S Fr [[PB1 PI1] [PB2 PI2]]. pose proof (splits_spec _ _ _ _ _ _ S) as (En & Ei & B1 & B2 & _ & I1 & I2 & _).
  destruct S as (_ & Ne & Hj & _ & T & _). rewrite En, Ei in *.
  destruct (Nat.leb_spec (bb_nb w) js) as [L|L]; cbn [andb] in *.
  - destruct Fr as [|Fr]; [lia|]. pose proof (frac_lt tol y ltac:(lra) Fr) as [Z1 _].
    set (k := (js - bb_nb w)%nat) in *. assert (Hk: (k < bb_ni w)%nat) by (unfold k; lia).
    destruct (PI1 k Hk) as (a & b & A1 & A2 & A3). destruct (PI2 k Hk) as (a' & b' & A1' & A2' & A3').
    rewrite I1, Nat.eqb_refl in A2 by lia. rewrite I2, Nat.eqb_refl in A1' by lia.
    injection A2 as <-. injection A1' as <-. rewrite Z1, plus_IZR in A3'. lra.
  - destruct (PB1 js L) as (b & A1 & A2). destruct (PB2 js L) as (b' & A1' & A2').
    rewrite B1, Nat.eqb_refl in A1 by auto. rewrite B2, Nat.eqb_refl in A1' by auto.
    injection A1 as <-. injection A1' as <-. cbn in A2, A2'. lra.
Qed.

(* No child allows anything the parent did not, when the parent left the split
   variable free: a free boolean, or an integer variable whose (integer) bounds
   have the split value between them. *)
Theorem C31_narrows w cur js y tol w' u :
  splits w cur js y tol w' ->
  ((js < bb_nb w)%nat -> get (bb_bids w) (bb_nb w * cur + js) = Some (-1)%Z) ->
  ((bb_nb w <= js)%nat -> fractional tol y /\ exists zl zu : Z,
     get (bb_iids w) (bb_ni w * cur * 2 + 2 * (js - bb_nb w)) = Some (Fin (- IZR zl)) /\
     get (bb_iids w) (bb_ni w * cur * 2 + (2 * (js - bb_nb w) + 1)) = Some (Fin (IZR zu)) /\ IZR zl <= y <= IZR zu) ->
  node_allows w' cur u \/ node_allows w' (bb_iter w) u -> node_allows w cur u.
Proof.
  intros S HB HI. pose proof (splits_spec _ _ _ _ _ _ S) as (En & Ei & B1 & B2 & _ & I1 & I2 & _).
  destruct S as (_ & Ne & Hj & _ & T & _). unfold node_allows, within. rewrite En, Ei.
  destruct (Nat.leb_spec (bb_nb w) js) as [L|L]; cbn [andb] in *.
  - assert (Pb: forall j, (j < bb_nb w)%nat -> (j =? js)%nat = false) by (intros; apply Nat.eqb_neq; lia).
    destruct (HI L) as (Fr & zl & zu & Y1 & Y2 & Y3). clear HB HI.
    pose proof (frac_lt tol y ltac:(lra) Fr) as [Z1 Z2].
    set (k := (js - bb_nb w)%nat) in *. assert (Hk: (k < bb_ni w)%nat) by (unfold k; lia).
    intros [[PB PI]|[PB PI]]; split; intros j Hj2.
    + specialize (PB j Hj2). rewrite B1, Pb in PB by auto. auto.
    + destruct (PI j Hj2) as (a & b & A1 & A2 & A3). rewrite I1 in A1, A2 by lia.
      destruct (Nat.eqb_spec (2 * j) (2 * k + 1)); [lia|]. destruct (Nat.eqb_spec (2 * j + 1) (2 * k + 1)); [|eauto].
      assert (j = k) by lia. subst j. injection A2 as <-. exists a, (IZR zu). repeat split; auto; [lra|].
      assert (Zfl tol y < zu)%Z; [|assert (IZR (Zfl tol y) <= IZR zu) by (apply IZR_le; lia); lra].
      apply lt_IZR. lra.
    + specialize (PB j Hj2). rewrite B2, Pb in PB by auto. auto.
    + destruct (PI j Hj2) as (a & b & A1 & A2 & A3). rewrite I2 in A1, A2 by lia.
      destruct (Nat.eqb_spec (2 * j + 1) (2 * k)); [lia|]. destruct (Nat.eqb_spec (2 * j) (2 * k)); [|eauto].
      assert (j = k) by lia. subst j. injection A1 as <-. exists (- IZR zl), b. repeat split; auto; [|lra].
      assert (zl < Zce tol y)%Z; [apply lt_IZR; lra|assert (IZR zl <= IZR (Zce tol y)) by (apply IZR_le; lia); lra].
  - specialize (HB L). intros [[PB PI]|[PB PI]]; split; intros j Hj2.
    + specialize (PB j Hj2). rewrite B1 in PB by auto. destruct (Nat.eqb_spec j js) as [e|n]; [|exact PB]. rewrite e.
      exists (-1)%Z. split; auto. destruct PB as (b & Q1 & Q2). injection Q1 as <-. rewrite <- e. cbn in Q2 |- *. lra.
    + destruct (PI j Hj2) as (a & b & A1 & A2 & A3). rewrite I1 in A1, A2 by lia. eauto.
    + specialize (PB j Hj2). rewrite B2 in PB by auto. destruct (Nat.eqb_spec j js) as [e|n]; [|exact PB]. rewrite e.
      exists (-1)%Z. split; auto. destruct PB as (b & Q1 & Q2). injection Q1 as <-. rewrite <- e. cbn in Q2 |- *. lra.
    + destruct (PI j Hj2) as (a & b & A1 & A2 & A3). rewrite I2 in A1, A2 by lia. eauto.
Qed.

(* The point split on is excluded from both children. *)
Theorem C31_excludes w cur js y tol w' u :
  splits w cur js y tol w' -> fractional tol y -> u js = y ->
  ~ node_allows w' cur u /\ ~ node_allows w' (bb_iter w) u.
Proof.
  intros S Fr Eu. pose proof (splits_spec _ _ _ _ _ _ S) as (En & Ei & B1 & B2 & _ & I1 & I2 & _).
  destruct S as (_ & Ne & Hj & _ & T & _). unfold node_allows, within. rewrite En, Ei.
  pose proof (frac_lt tol y ltac:(lra) Fr) as [Z1 Z2].
  destruct (Nat.leb_spec (bb_nb w) js) as [L|L]; cbn [andb] in *.
  - set (k := (js - bb_nb w)%nat) in *. assert (Hk: (k < bb_ni w)%nat) by (unfold k; lia).
    replace js with (bb_nb w + k)%nat in Eu by (unfold k; lia).
    split; intros [_ PI]; destruct (PI k Hk) as (a & b & A1 & A2 & A3).
    + rewrite I1, Nat.eqb_refl in A2 by lia. injection A2 as <-. lra.
    + rewrite I2, Nat.eqb_refl in A1 by lia. injection A1 as <-. lra.
  - pose proof (Fr 0%Z) as F0. pose proof (Fr 1%Z) as F1'.
    split; intros [PB _]; destruct (PB js L) as (b & A1 & A2).
    + rewrite B1, Nat.eqb_refl in A1 by auto. injection A1 as <-. cbn in A2.
      rewrite <- Eu, A2, Rminus_diag_eq, Rabs_R0 in F0 by auto. lra.
    + rewrite B2, Nat.eqb_refl in A1 by auto. injection A1 as <-. cbn in A2.
      rewrite <- Eu, A2, Rminus_diag_eq, Rabs_R0 in F1' by auto. lra.
Qed.

(* Every other node is left as it was. *)
Theorem C31_others w cur js y tol w' i u :
  splits w cur js y tol w' -> i <> cur -> i <> bb_iter w ->
  (node_allows w' i u <-> node_allows w i u).
Proof.
  intros S N1 N2. pose proof (splits_spec _ _ _ _ _ _ S) as (En & Ei & _ & _ & B3 & _ & _ & I3).
  unfold node_allows, within. rewrite En, Ei. split; intros [PB PI]; split; intros j Hj.
  - specialize (PB j Hj). rewrite B3 in PB by auto. auto.
  - specialize (PI j Hj). rewrite !I3 in PI by lia. auto.
  - rewrite B3 by auto. auto.
  - rewrite !I3 by lia. auto.
Qed.

(* Without the proviso of C31_narrows the claim fails: strong branching may fix a
   boolean to one in the parent and then still split on it, and the left child
   then allows zero. *)
Theorem C31_refuted_refixed w cur js y tol w' u :
  splits w cur js y tol w' -> (js < bb_nb w)%nat ->
  get (bb_bids w) (bb_nb w * cur + js) = Some 1%Z ->
  node_allows w cur u ->
  let u' := fun j => if (j =? js)%nat then 0 else u j in
  node_allows w' cur u' /\ ~ node_allows w cur u'.
Proof.
  intros S L E1 [PB PI] u'. pose proof (splits_spec _ _ _ _ _ _ S) as (En & Ei & B1 & B2 & _ & I1 & I2 & _).
  unfold node_allows, within. rewrite En, Ei. split; [split; intros j Hj|].
  - rewrite B1 by auto. unfold u'. destruct (Nat.eqb_spec j js); [exists 0%Z; split; auto; reflexivity|auto].
  - rewrite !I1 by lia. destruct (Nat.leb_spec (bb_nb w) js); [lia|]. cbn [andb]. unfold u'.
    destruct (Nat.eqb_spec (bb_nb w + j) js); [lia|auto].
  - intros [PB' _]. destruct (PB' js L) as (b & A1 & A2). rewrite E1 in A1. injection A1 as <-.
    unfold u' in A2. rewrite Nat.eqb_refl in A2. cbn in A2. lra.
Qed.

(* A split always goes through: the tables hold the parent's entries and have room
   for the new node, and the value split on fits an int. *)
Theorem C31_defined (w : BW) cur js y tol nc nd :
  cur <> bb_iter w -> get (bb_nodes w) cur = Some nc -> get (bb_nodes w) (bb_iter w) = Some nd ->
  (forall j, (j < bb_nb w)%nat -> exists v, get (bb_bids w) (bb_nb w * cur + j) = Some v) ->
  (forall j, (j < bb_ni w * 2)%nat -> exists v, get (bb_iids w) (bb_ni w * cur * 2 + j) = Some v) ->
  (bb_nb w * S (bb_iter w) <= length (bb_bids w))%nat ->
  (bb_ni w * S (bb_iter w) * 2 <= length (bb_iids w))%nat ->
  (js < bb_nb w + bb_ni w)%nat -> nd_split nc = Z.of_nat js -> nd_val nc = Fin y ->
  bs_itol (bb_stgs w) = Fin tol -> 0 < tol < 1 -> -2147483648 < y < 2147483647 ->
  exists w', splits w cur js y tol w'.
Proof.
  intros Ne En Ed Vb Vi Lb Li Hj Es Ev Et T Y.
  destruct (@branch_ok EOps EInt cur w nc nd Ne En Ed Vb Lb Vi Li) as (w' & E).
  - change (@F EOps) with ext in *. rewrite Es. lia.
  - intros _. change (@F EOps) with ext in *. rewrite Ev, Et.
    pose proof (Zfl_range tol y ltac:(lra) ltac:(lra)) as Hf. pose proof (Zce_range tol y ltac:(lra) ltac:(lra)) as Hc.
    split; intros K; [rewrite floor_E in K|rewrite ceil_E in K]; rewrite to_int_ok in K by auto; discriminate.
  - exists w'. unfold splits. repeat split; auto; try lra. exists nc. auto.
Qed.

(* A workspace with one boolean and one integer variable whose root is split on
   the integer variable at 5/2: the bounds become [-8388608, 2] and [3, 8388608]. *)
Definition ex_root : node ext := mkNode 2 (Fin 0) PInf (Fin 0) 1 (Fin (5/2)) (-1) (Fin 0) (Fin 0) false.
Definition ex_free : node ext := mkNode 0 (Fin 0) (Fin 0) (Fin 0) 0 (Fin 0) 0 (Fin 0) (Fin 0) false.
Definition ex_big : ext := Fin 8388608.
Definition ex_ws (w0 : BW) : BW :=
  let w := set_bb_iter (set_bb_ni (set_bb_nb w0 1) 1) 1 in
  let w := set_bb_nodes w (arr_of [ex_root; ex_free; ex_free]) in
  let w := set_bb_bids w [Some (-1)%Z; None; None] in
  let w := set_bb_iids w [Some ex_big; Some ex_big; None; None; None; None] in
  set_bb_stgs w (mkBs 3 (Fin 0) (Fin 0) (Fin (1/2000)) MostInfeasible 6 DiveLower).

Lemma ex_fractional : fractional (1/2000) (5/2).
Proof.
  intros z. unfold Rabs. destruct (Rcase_abs _).
  - destruct (Z_le_gt_dec z 2) as [L|L]; [apply IZR_le in L; lra|]. assert (3 <= z)%Z by lia. apply IZR_le in H. lra.
  - destruct (Z_le_gt_dec z 2) as [L|L]; [apply IZR_le in L; lra|]. assert (3 <= z)%Z by lia. apply IZR_le in H. lra.
Qed.

Theorem C31_example w0 :
  (exists w', splits (ex_ws w0) 0 1 (5/2) (1/2000) w') /\ fractional (1/2000) (5/2) /\
  (exists zl zu : Z, get (bb_iids (ex_ws w0)) 0 = Some (Fin (- IZR zl)) /\ get (bb_iids (ex_ws w0)) 1 = Some (Fin (IZR zu)) /\
     IZR zl <= 5/2 <= IZR zu) /\
  node_allows (ex_ws w0) 0 (fun j => match j with 0%nat => 1 | _ => 7 end).
Proof.
  split; [|split; [|split]].
  - eapply C31_defined with (nc := ex_root) (nd := ex_free); try reflexivity; try (cbn; lra); try (cbn; lia).
    + cbn. intros j Hj. assert (j = 0)%nat as -> by lia. eexists; reflexivity.
    + cbn. intros j Hj. assert (j = 0 \/ j = 1)%nat as [-> | ->] by lia; eexists; reflexivity.
  - apply ex_fractional.
  - exists (-8388608)%Z, 8388608%Z. cbn. unfold ex_big. repeat split; try reflexivity; try lra.
    f_equal. f_equal. lra.
  - split; cbn.
    + intros j Hj. assert (j = 0)%nat as -> by lia. exists (-1)%Z. split; [reflexivity|]. cbn. lra.
    + intros j Hj. assert (j = 0)%nat as -> by lia. exists 8388608, 8388608. repeat split; lra.
Qed.

Print Assumptions C31_covers.
Print Assumptions C31_disjoint.
Print Assumptions C31_narrows.
Print Assumptions C31_excludes.
Print Assumptions C31_others.
Print Assumptions C31_refuted_refixed.
Print Assumptions C31_defined.
