(* The conic block of the KKT matrix as an operator: it is minus the squared
   scaling (what scale2add adds), minus the static regularisation. *)
From Coq Require Import List Arith Bool ZArith Reals Lia Lra.
From Verif Require Import Base Num.
From Verif.Model Require Import Spla Types Consts Expcone Cone Kkt.
From Verif.Spec Require Import Matrix Conic KktSpec KktMatrix Shape.
From Verif.Proofs Require Import SplaP LoopLib ConeP ScalP Scal2P ConeR KernR KktUpd.
Import ListNotations.
Open Scope R_scope.

Definition sym (f : nat -> nat -> R) (i j : nat) : R := f (Nat.min i j) (Nat.max i j).
Definition act (N : nat) (f : nat -> nat -> R) (x : nat -> R) (i : nat) : R := Rsum N (fun j => sym f i j * x j).

Lemma act_ext N f x y i : (forall j, (j < N)%nat -> x j = y j) -> act N f x i = act N f y i.
Proof. intros H. apply Rsum_ext. intros j Hj. rewrite H; auto. Qed.

(* ---- one second-order cone ---- *)
Lemma delta_l N i g x : (i < N)%nat -> Rsum N (fun j => (if Nat.eqb i j then g j else 0) * x j) = g i * x i.
Proof.
  intros H. rewrite (Rsum_ext _ _ (fun j => if Nat.eqb j i then g j * x j else 0)).
  - rewrite Rsum_delta. rewrite (proj2 (Nat.ltb_lt _ _) H). auto.
  - intros j _. rewrite (Nat.eqb_sym i j). destruct (Nat.eqb j i); lra.
Qed.

Lemma block_act q v x i : (1 <= q)%nat -> (i < q + 2)%nat ->
  act (q + 2) (blockmat q v) x i =
  if Nat.ltb i q then sv_D v i * x i + (if Nat.eqb i 0 then 0 else sv_v v (i - 1)) * x q + sv_u v i * x (q + 1)%nat
  else if Nat.eqb i q then Rsum (q - 1) (fun j => sv_v v j * x (1 + j)%nat) + sv_vd v * x q
  else sv_u v 0%nat * x 0%nat + Rsum (q - 1) (fun j => sv_u v (1 + j)%nat * x (1 + j)%nat) + sv_ud v * x (q + 1)%nat.
Proof.
  intros Hq Hi. unfold act. rewrite Rsum_split. cbn [Rsum]. rewrite Nat.add_0_r.
  assert (B : forall j, sym (blockmat q v) i j = blockmat q v (Nat.min i j) (Nat.max i j)) by reflexivity.
  destruct (Nat.ltb_spec i q) as [H|H]; [|destruct (Nat.eqb_spec i q) as [E|E]].
  - rewrite (Rsum_ext q _ (fun j => (if Nat.eqb i j then sv_D v j else 0) * x j)).
    + rewrite delta_l by auto. rewrite !B. rewrite !Nat.min_l, !Nat.max_r by lia. unfold blockmat.
      rewrite Nat.ltb_irrefl, Nat.eqb_refl. rewrite (proj2 (Nat.ltb_ge (q + 1) q)) by lia.
      rewrite (proj2 (Nat.eqb_neq (q + 1) q)) by lia. rewrite (proj2 (Nat.eqb_neq i q)) by lia.
      rewrite (proj2 (Nat.eqb_neq i (q + 1))) by lia. rewrite (proj2 (Nat.ltb_lt _ _) H). lra.
    + intros j Hj. rewrite B. unfold blockmat. rewrite (proj2 (Nat.ltb_lt (Nat.max i j) q)) by lia.
      destruct (Nat.eqb_spec i j) as [->|N]; [rewrite Nat.min_id, Nat.max_id, Nat.eqb_refl; auto|].
      destruct (Nat.eqb_spec (Nat.min i j) (Nat.max i j)); [lia|auto].
  - subst i. replace q with (1 + (q - 1))%nat at 1 by lia. rewrite Rsum_split. cbn [Rsum].
    rewrite !B, Nat.min_id, Nat.max_id. rewrite (Nat.min_l q (q + 1)), (Nat.max_r q (q + 1)) by lia.
    rewrite (Nat.min_r q 0), (Nat.max_l q 0) by lia. unfold blockmat at 1 3 4.
    rewrite Nat.ltb_irrefl, Nat.eqb_refl. rewrite (proj2 (Nat.ltb_ge (q + 1) q)) by lia.
    rewrite (proj2 (Nat.eqb_neq (q + 1) q)) by lia. rewrite (proj2 (Nat.eqb_neq q (q + 1))) by lia.
    rewrite (proj2 (Nat.eqb_neq 0 q)) by lia. cbn [Nat.eqb].
    rewrite (Rsum_ext (q - 1) _ (fun j => sv_v v j * x (1 + j)%nat)); [lra|].
    intros j Hj. rewrite B, Nat.min_r, Nat.max_l by lia. unfold blockmat.
    rewrite Nat.ltb_irrefl, Nat.eqb_refl. rewrite (proj2 (Nat.eqb_neq (1 + j) q)) by lia. cbn [Nat.eqb Nat.add].
    replace (S j - 1)%nat with j by lia. auto.
  - assert (Ei : i = (q + 1)%nat) by lia. subst i. rewrite !B.
    rewrite (Nat.min_r (q + 1) q), (Nat.max_l (q + 1) q) by lia. rewrite Nat.min_id, Nat.max_id.
    assert (X : forall r, (r <= q + 1)%nat -> blockmat q v r (q + 1) = if Nat.eqb r (q + 1) then sv_ud v else if Nat.ltb r q then sv_u v r else 0).
    { intros r Hr. unfold blockmat. rewrite (proj2 (Nat.ltb_ge (q + 1) q)) by lia. rewrite (proj2 (Nat.eqb_neq (q + 1) q)) by lia. auto. }
    rewrite !X by lia. rewrite Nat.eqb_refl, Nat.ltb_irrefl. rewrite (proj2 (Nat.eqb_neq q (q + 1))) by lia.
    replace q with (1 + (q - 1))%nat at 1 by lia. rewrite Rsum_split. cbn [Rsum].
    rewrite B, (Nat.min_r (q + 1) 0), (Nat.max_l (q + 1) 0), X by lia.
    rewrite (proj2 (Nat.eqb_neq 0 (q + 1))) by lia. rewrite (proj2 (Nat.ltb_lt 0 q)) by lia.
    rewrite (Rsum_ext (q - 1) _ (fun j => sv_u v (1 + j)%nat * x (1 + j)%nat)); [lra|].
    intros j Hj. rewrite B, Nat.min_r, Nat.max_l, X by lia. rewrite (proj2 (Nat.eqb_neq (1 + j) (q + 1))) by lia.
    rewrite (proj2 (Nat.ltb_lt (1 + j) q)) by lia. auto.
Qed.

(* the regularisation on row i of the expanded block of a cone of dimension q *)
Definition rsoc1 (q i : nat) : R := if Nat.ltb i q then 1 else if Nat.eqb i q then 0 else -1.

Lemma sum_lin N g k f : (forall j, (j < N)%nat -> f j = k * g j) -> Rsum N f = k * Rsum N g.
Proof. intros H. rewrite <- Rsum_scal. apply Rsum_ext. auto. Qed.

Lemma soc_scaled_act (c : socone R) x i : (1 <= so_p c)%nat -> (i < so_p c + 2)%nat ->
  act (so_p c + 2) (blockmat (so_p c) (@soc_scaled ROps c)) x i =
  - @s2_f ROps c x i - @DELTASTAT ROps * (rsoc1 (so_p c) i * x i).
Proof.
  intros Hq Hi. rewrite block_act by auto. unfold s2_f, soc_scaled, soc_written. cbn [sv_D sv_v sv_vd sv_u sv_ud].
  rewrite !qtx_R. unfold rsoc1, dotp. 
  change (@oget ROps) with (@osc ROps). 
  set (es := @osc ROps (so_eta_square c)). set (u0 := @osc ROps (so_u0 c)). set (u1 := @osc ROps (so_u1 c)). set (v1 := @osc ROps (so_v1 c)).
  set (d1 := @osc ROps (so_d1 c)). set (ds := @DELTASTAT ROps). unR. change (@F ROps) with R in *.
  destruct (Nat.ltb_spec i (so_p c)) as [H|H]; [destruct (Nat.eqb_spec i 0) as [->|N]|destruct (Nat.eqb_spec i (so_p c)) as [E|E]].
  - unfold ds, es, u0, d1 in *. lra.
  - lra.
  - subst i. rewrite (proj2 (Nat.eqb_neq (so_p c) 0)) by lia.
    rewrite (sum_lin (so_p c - 1) (fun j => qv c j * from 1 x j) (- es * v1)).
    + unfold es, v1, qv. ring.
    + intros j Hj. unfold es, v1, qv, from. unR. cbn [Nat.add]. ring.
  - assert (Ei : i = (so_p c + 1)%nat) by lia. subst i.
    rewrite (proj2 (Nat.eqb_neq (so_p c + 1) 0)) by lia. cbn [Nat.eqb].
    rewrite (sum_lin (so_p c - 1) (fun j => qv c j * from 1 x j) (- es * u1)).
    + unfold es, u1, u0, ds, qv. ring.
    + intros j Hj. cbn [Nat.add Nat.eqb]. replace (S j - 1)%nat with j by lia. unfold es, u1, qv, from. unR. cbn [Nat.add]. ring.
Qed.

(* ---- block diagonal matrices ---- *)
Definition bdiag (N : nat) (f g : nat -> nat -> R) (r c : nat) : R :=
  if Nat.ltb c N then f r c else if Nat.ltb r N then 0 else g (r - N)%nat (c - N)%nat.

Lemma act_mat_ext N f g x i : (i < N)%nat -> (forall r c, (r <= c)%nat -> (c < N)%nat -> f r c = g r c) -> act N f x i = act N g x i.
Proof. intros Hi H. apply Rsum_ext. intros j Hj. unfold sym. rewrite H by lia. auto. Qed.

Lemma act_bdiag N M f g x i : (i < N + M)%nat ->
  act (N + M) (bdiag N f g) x i = if Nat.ltb i N then act N f x i else act M g (@sh ROps N x) (i - N).
Proof.
  intros Hi. unfold act. rewrite Rsum_split. unfold sym, bdiag, sh.
  destruct (Nat.ltb_spec i N) as [H|H].
  - rewrite (Rsum_ext M _ (fun _ => 0)).
    + rewrite (Rsum_0 M) by auto. rewrite Rplus_0_r. apply Rsum_ext. intros j Hj.
      rewrite (proj2 (Nat.ltb_lt (Nat.max i j) N)) by lia. auto.
    + intros j Hj. rewrite (proj2 (Nat.ltb_ge (Nat.max i (N + j)) N)) by lia.
      rewrite (proj2 (Nat.ltb_lt (Nat.min i (N + j)) N)) by lia. lra.
  - rewrite (Rsum_ext N _ (fun _ => 0)).
    + rewrite (Rsum_0 N) by auto. rewrite Rplus_0_l. apply Rsum_ext. intros j Hj.
      rewrite (proj2 (Nat.ltb_ge (Nat.max i (N + j)) N)) by lia.
      rewrite (proj2 (Nat.ltb_ge (Nat.min i (N + j)) N)) by lia. f_equal. f_equal; lia.
    + intros j Hj. rewrite (proj2 (Nat.ltb_ge (Nat.max i j) N)) by lia.
      rewrite (proj2 (Nat.ltb_lt (Nat.min i j) N)) by lia. lra.
Qed.

Lemma soc_list_act (l : list (socone R)) : forall k0 x, (forall c, In c l -> (1 <= so_p c)%nat) ->
  forall k c i, In (k, c) (lay (@esz ROps) k0 l) -> (i < @esz ROps c)%nat ->
  act (tot (@esz ROps) l) (socmat (map (fun c => (so_p c, @soc_scaled ROps c)) l)) (@sh ROps k0 x) (k - k0 + i) =
  - @s2_f ROps c (@sh ROps k x) i - @DELTASTAT ROps * (rsoc1 (so_p c) i * x (k + i)%nat).
Proof.
  induction l as [|a t IH]; intros k0 x H1 k c i Hin Hi; [destruct Hin|].
  pose proof (lay_bounds _ _ _ _ _ Hin) as B. cbn [lay tot map] in *.
  rewrite (act_mat_ext _ _ (bdiag (@esz ROps a) (blockmat (so_p a) (@soc_scaled ROps a)) (socmat (map (fun c => (so_p c, @soc_scaled ROps c)) t)))) by (try lia; reflexivity).
  rewrite act_bdiag by lia. destruct Hin as [E|Hin].
  - inversion E; subst. rewrite Nat.sub_diag. cbn [Nat.add]. rewrite (proj2 (Nat.ltb_lt _ _) Hi).
    unfold esz in *. rewrite soc_scaled_act by (auto; apply H1; left; auto). reflexivity.
  - pose proof (lay_bounds _ _ _ _ _ Hin) as B'. rewrite (proj2 (Nat.ltb_ge _ _)) by lia.
    rewrite <- (IH (k0 + @esz ROps a)%nat x (fun c Hc => H1 c (or_intror Hc)) k c i Hin Hi).
    replace (k - k0 + i - @esz ROps a)%nat with (k - (k0 + @esz ROps a) + i)%nat by lia.
    apply act_ext. intros j Hj. unfold sh. f_equal. lia.
Qed.

Lemma exp_scaled_act (e : expcone R) x i : (i < 3)%nat ->
  act 3 (@exp_scaled ROps e) x i = - @s2e_f ROps e x i - @DELTASTAT ROps * (1 * x i).
Proof.
  intros Hi. unfold act, sym, exp_scaled, s2e_f. destruct i as [|[|[|i]]]; [| | |lia]; cbn [Rsum Nat.min Nat.max Nat.eqb]; unfold tri; cbn; unR; ring.
Qed.

Lemma exp_list_act (l : list (expcone R)) : forall k0 x k c i, In (k, c) (lay (fun _ => 3%nat) k0 l) -> (i < 3)%nat ->
  act (tot (fun _ => 3%nat) l) (expmat (map (@exp_scaled ROps) l)) (@sh ROps k0 x) (k - k0 + i) =
  - @s2e_f ROps c (@sh ROps k x) i - @DELTASTAT ROps * (1 * x (k + i)%nat).
Proof.
  induction l as [|a t IH]; intros k0 x k c i Hin Hi; [destruct Hin|].
  pose proof (lay_bounds _ _ _ _ _ Hin) as B. cbn [lay map] in *. cbn [tot] in *.
  rewrite (act_mat_ext _ _ (bdiag 3 (@exp_scaled ROps a) (expmat (map (@exp_scaled ROps) t)))) by (try lia; reflexivity).
  rewrite act_bdiag by lia. destruct Hin as [E|Hin].
  - inversion E; subst. rewrite Nat.sub_diag. cbn [Nat.add]. rewrite (proj2 (Nat.ltb_lt _ _) Hi).
    rewrite exp_scaled_act by auto. reflexivity.
  - pose proof (lay_bounds _ _ _ _ _ Hin) as B'. rewrite (proj2 (Nat.ltb_ge _ _)) by lia.
    rewrite <- (IH (k0 + 3)%nat x k c i Hin Hi).
    replace (k - k0 + i - 3)%nat with (k - (k0 + 3) + i)%nat by lia.
    apply act_ext. intros j Hj. unfold sh. f_equal. lia.
Qed.

Definition diagmat (v : nat -> R) (r c : nat) : R := if Nat.eqb r c then v c else 0.

Lemma diag_act N v x i : (i < N)%nat -> act N (diagmat v) x i = v i * x i.
Proof.
  intros H. unfold act. rewrite (Rsum_ext _ _ (fun j => (if Nat.eqb i j then v j else 0) * x j)).
  - apply delta_l; auto.
  - intros j Hj. unfold sym, diagmat. destruct (Nat.eqb_spec i j) as [->|N']; [rewrite Nat.min_id, Nat.max_id, Nat.eqb_refl; auto|].
    destruct (Nat.eqb_spec (Nat.min i j) (Nat.max i j)); [lia|auto].
Qed.

(* ---- the whole conic part ---- *)
Definition vmat_of (C : cone R) : nat -> nat -> R :=
  vmat (@lpp ROps C) (@lp_scaled ROps C) (map (fun c => (so_p c, @soc_scaled ROps c)) (co_soc C)) (map (@exp_scaled ROps) (co_expc C)).

Lemma tot_esz (l : list (socone R)) : tot (@esz ROps) l = (list_sum (map so_p l) + 2 * length l)%nat.
Proof.
  induction l as [|a t IH]; [reflexivity|]. cbn [tot map length]. change (list_sum (so_p a :: map so_p t)) with (so_p a + list_sum (map so_p t))%nat.
  rewrite IH. unfold esz. change (@F ROps) with R. lia.
Qed.

Lemma vmat_bdiag (C : cone R) r c : vmat_of C r c =
  bdiag (@lpp ROps C) (diagmat (@lp_scaled ROps C))
    (bdiag (tot (@esz ROps) (co_soc C)) (socmat (map (fun c => (so_p c, @soc_scaled ROps c)) (co_soc C))) (expmat (map (@exp_scaled ROps) (co_expc C)))) r c.
Proof.
  unfold vmat_of, vmat, bdiag, diagmat. rewrite map_map, map_length. cbn [fst].
  change (map (fun x : socone R => so_p x) (co_soc C)) with (map so_p (co_soc C)). rewrite <- tot_esz. set (T := tot _ _).
  destruct (Nat.ltb_spec c (@lpp ROps C)) as [H|H]; [auto|].
  destruct (Nat.ltb_spec c (@lpp ROps C + T)) as [H'|H']; destruct (Nat.ltb_spec (c - @lpp ROps C) T) as [H2|H2]; try lia; auto.
  destruct (Nat.ltb_spec r (@lpp ROps C)) as [H3|H3]; destruct (Nat.ltb_spec r (@lpp ROps C + T)) as [H4|H4]; try lia; auto;
  destruct (Nat.ltb_spec (r - @lpp ROps C) T) as [H5|H5]; try lia; auto. f_equal; lia.
Qed.

Record conic_acts (C : cone R) (x : nat -> R) : Prop := {
  ca_lp : forall i, (i < @lpp ROps C)%nat -> act (@xsize ROps C) (vmat_of C) x i =
    - (gd 0 (lp_v (co_lpc C)) i * x i) - @DELTASTAT ROps * (1 * x i);
  ca_soc : forall k c i, In (k, c) (@xblocks ROps C) -> (i < @esz ROps c)%nat ->
    act (@xsize ROps C) (vmat_of C) x (k + i) = - @s2_f ROps c (@sh ROps k x) i - @DELTASTAT ROps * (rsoc1 (so_p c) i * x (k + i)%nat);
  ca_exp : forall k e i, In (k, e) (@xeblocks ROps C) -> (i < 3)%nat ->
    act (@xsize ROps C) (vmat_of C) x (k + i) = - @s2e_f ROps e (@sh ROps k x) i - @DELTASTAT ROps * (1 * x (k + i)%nat)
}.

Theorem conic_act C x : (forall c, In c (co_soc C) -> (1 <= so_p c)%nat) -> conic_acts C x.
Proof.
  intros H1. assert (XS : @xsize ROps C = (@lpp ROps C + (tot (@esz ROps) (co_soc C) + tot (fun _ => 3%nat) (co_expc C)))%nat).
  { unfold xsize, xsoc, nexc. rewrite tot3. exact (eq_sym (Nat.add_assoc _ _ _)). }
  set (B0 := bdiag (@lpp ROps C) (diagmat (@lp_scaled ROps C))
    (bdiag (tot (@esz ROps) (co_soc C)) (socmat (map (fun c => (so_p c, @soc_scaled ROps c)) (co_soc C))) (expmat (map (@exp_scaled ROps) (co_expc C))))).
  assert (VA : forall i, (i < @lpp ROps C + (tot (@esz ROps) (co_soc C) + tot (fun _ => 3%nat) (co_expc C)))%nat -> act (@xsize ROps C) (vmat_of C) x i =
    act (@lpp ROps C + (tot (@esz ROps) (co_soc C) + tot (fun _ => 3%nat) (co_expc C))) B0 x i).
  { intros i Hi. rewrite XS. apply act_mat_ext; auto. intros r c _ _. apply vmat_bdiag. }
  unfold B0 in VA. clear B0.
  constructor.
  - intros i Hi. rewrite VA, act_bdiag by lia.
    rewrite (proj2 (Nat.ltb_lt _ _) Hi), diag_act by auto. unfold lp_scaled. unR. ring.
  - intros k c i Hin Hi. pose proof (lay_bounds _ _ _ _ _ Hin) as B. change (@F ROps) with R in *.
    rewrite VA, act_bdiag by lia.
    rewrite (proj2 (Nat.ltb_ge _ _)) by lia. rewrite act_bdiag by lia. rewrite (proj2 (Nat.ltb_lt _ _)) by lia.
    refine (eq_trans _ (soc_list_act (co_soc C) (@lpp ROps C) x H1 k c i Hin Hi)). f_equal. lia.
  - intros k c i Hin Hi. pose proof (lay_bounds _ _ _ _ _ Hin) as B. change (@F ROps) with R in *. rewrite tot3 in B. unfold xsoc in B. rewrite !tot3 in VA. change (@F ROps) with R in *.
    rewrite VA, act_bdiag by lia.
    rewrite (proj2 (Nat.ltb_ge _ _)) by lia. rewrite act_bdiag by lia. rewrite (proj2 (Nat.ltb_ge _ _)) by lia.
    refine (eq_trans _ (exp_list_act (co_expc C) (@xsoc ROps C) x k c i Hin Hi)). unfold xsoc. rewrite tot3. change (@F ROps) with R in *.
    match goal with |- act _ _ _ ?a = act _ _ _ ?b => replace b with a by lia end.
    apply act_ext. intros j Hj. unfold sh. f_equal. lia.
Qed.

(* ---- in terms of positions ---- *)
Lemma rsoc_block (l : list (socone R)) : forall k0 k c i, In (k, c) (lay (@esz ROps) k0 l) -> (i < @esz ROps c)%nat ->
  rsoc (map so_p l) (k - k0 + i) = rsoc1 (so_p c) i.
Proof.
  induction l as [|a t IH]; intros k0 k c i H Hi; [destruct H|]. cbn [lay map rsoc] in *. destruct H as [E|H].
  - inversion E; subst. rewrite Nat.sub_diag. cbn [Nat.add]. unfold rsoc1, esz in *. change (@F ROps) with R in *.
    destruct (Nat.ltb_spec i (so_p c)); auto. destruct (Nat.eqb_spec i (so_p c)); auto.
    destruct (Nat.eqb_spec i (so_p c + 1)); [auto|lia].
  - pose proof (lay_bounds _ _ _ _ _ H) as B. unfold esz in B. unfold esz in Hi, IH, H. change (@F ROps) with R in *.
    rewrite (proj2 (Nat.ltb_ge _ _)), (proj2 (Nat.eqb_neq _ _)), (proj2 (Nat.eqb_neq _ _)) by lia.
    rewrite <- (IH _ _ _ _ H Hi). f_equal. unfold esz. lia.
Qed.
Lemma rsoc_beyond q t : (list_sum q + 2 * length q <= t)%nat -> rsoc q t = 1.
Proof.
  revert t. induction q as [|d q IH]; intros t H; cbn [rsoc]; auto.
  change (list_sum (d :: q)) with (d + list_sum q)%nat in H. cbn [length] in H.
  rewrite (proj2 (Nat.ltb_ge _ _)), (proj2 (Nat.eqb_neq _ _)), (proj2 (Nat.eqb_neq _ _)) by lia. apply IH. lia.
Qed.

(* scale2add on any vector: the conic block, negated, without its regularisation *)
Theorem conic_scale2add C l q e x y xf yf : @cone_of ROps C l q e -> @ConeP.scaled ROps C ->
  vec x (l + list_sum q + 3 * e + 2 * length q) xf -> vec y (l + list_sum q + 3 * e + 2 * length q) yf ->
  (l + list_sum q + 3 * e + 2 * length q <= length y)%nat ->
  exists y', @scale2add ROps x y C = Some y' /\
    vec y' (l + list_sum q + 3 * e + 2 * length q)
      (fun r => yf r - act (l + list_sum q + 3 * e + 2 * length q) (vmat_of C) xf r - @DELTASTAT ROps * vreg l q r * xf r).
Proof.
  intros [SH EL EQ EE] SC Hx Hy Ly.
  assert (XS : (l + list_sum q + 3 * e + 2 * length q)%nat = @xsize ROps C).
  { unfold xsize, xsoc. pose proof (tot_esz (co_soc C)) as T. rewrite EL, EE, <- EQ, map_length. change (@F ROps) with R in *. lia. }
  rewrite XS in Hx, Hy, Ly |- *. pose proof (@sh_pos ROps C SH) as H1.
  destruct (@scale2add_eq ROps C x xf y yf H1 SC Hx Hy Ly) as (y' & E & L & [A B D] & _).
  destruct (conic_act C xf H1) as [A' B' D']. exists y'. split; [auto|].
  intros r Hr. assert (XT : @xsize ROps C = (@lpp ROps C + tot (@esz ROps) (co_soc C) + 3 * @nexc ROps C)%nat) by reflexivity.
  destruct (Nat.lt_ge_cases r (@lpp ROps C)) as [H|H]; [|destruct (Nat.lt_ge_cases r (@lpp ROps C + tot (@esz ROps) (co_soc C))%nat) as [H'|H']].
  - rewrite A by auto. f_equal. rewrite A' by auto. unfold vreg. rewrite <- EL. rewrite (proj2 (Nat.ltb_lt _ _) H). unR. ring.
  - destruct (lay_cover (@esz ROps) (@lpp ROps C) (co_soc C) r) as (k & c & Hin & Hb); [lia|].
    pose proof (lay_bounds _ _ _ _ _ Hin) as LB.
    assert (V : vreg l q r = rsoc1 (so_p c) (r - k)).
    { unfold vreg. rewrite <- EL, <- EQ. rewrite (proj2 (Nat.ltb_ge _ _)) by lia.
      rewrite <- (rsoc_block (co_soc C) _ k c (r - k)%nat Hin) by lia. f_equal. lia. }
    specialize (B k c (r - k)%nat Hin ltac:(lia)). specialize (B' k c (r - k)%nat Hin ltac:(lia)).
    replace (k + (r - k))%nat with r in * by lia. refine (eq_trans B _). f_equal. rewrite B', V. unR. ring.
  - destruct (lay_cover (fun _ => 3%nat) (@xsoc ROps C) (co_expc C) r) as (k & c & Hin & Hb).
    { unfold xsoc. rewrite tot3. unfold nexc in XT. change (@F ROps) with R in *. lia. }
    pose proof (lay_bounds _ _ _ _ _ Hin) as LB. unfold xsoc in LB.
    assert (V : vreg l q r = 1).
    { unfold vreg. rewrite <- EL, <- EQ. rewrite (proj2 (Nat.ltb_ge _ _)) by lia. apply rsoc_beyond.
      pose proof (tot_esz (co_soc C)) as T. rewrite map_length. change (@F ROps) with R in *. lia. }
    specialize (D k c (r - k)%nat Hin ltac:(lia)). specialize (D' k c (r - k)%nat Hin ltac:(lia)).
    replace (k + (r - k))%nat with r in * by lia. refine (eq_trans D _). f_equal. rewrite D', V. unR. ring.
Qed.
