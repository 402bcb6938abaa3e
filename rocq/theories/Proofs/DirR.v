(* An iteration over the reals: the residuals it starts from, the direction it
   computes and the step it takes. *)
From Coq Require Import List Arith Bool ZArith Reals Lia Lra.
From Verif Require Import Base Num.
From Verif.Model Require Import Spla Splamm Types Consts Expcone Cone Ldl Kkt Equil Preproc Ecos.
From Verif.Spec Require Import Matrix Fill Conic Jordan KktSpec KktMatrix Shape SetupSpec Direction.
From Verif.Proofs Require Import SplaP LoopLib SplammP LdlSym LdlNum KktAsm KktMat ConeP ScalP Scal2P RotP ConeR NtR LineP KktUpd Layout EquilP Work WorkUpd
  SafeLib Stretch SafeK KktErr SafeE SafeW SafeV ExitP LoopP SafeU IterP Wlp DirP DirT.
From Verif.Properties Require Import Kkt Sparse Cone Exp.
Import ListNotations.
Open Scope R_scope.

Tactic Notation "bd" hyp(H) "as" simple_intropattern(p) ident(E) :=
  match type of H with bind ?m _ = Some _ => destruct m as [p|] eqn:E; [cbn [bind] in H|discriminate H] end.

Section DirR.
Variable L : @lay ROps.
Notation n := (@ly_n ROps L).
Notation p := (@ly_p ROps L).
Notation m := (@ly_m ROps L).
Notation N := (@ly_nK ROps L).
Notation W := (pwork R).

Record resid_at (w : W) (u : spot) (wr : W) : Prop := {
  ra_x : vec (w_rx wr) n (hom_x (prog_of w) u); ra_y : vec (w_ry wr) p (hom_y (prog_of w) u);
  ra_z : vec (w_rz wr) m (hom_z (prog_of w) u); ra_t : w_rt wr = hom_t (prog_of w) u
}.

Lemma vec_full (a : arr R) k f : vec a k f -> @full R a k.
Proof. intros V i Hi. eexists. apply V; auto. Qed.
Lemma gdv (a : arr R) k f i : vec a k f -> (i < k)%nat -> gd 0 a i = f i.
Proof. intros V Hi. apply gd_get. apply V; auto. Qed.
Lemma fullR (a : arr R) k : @full R a k -> vec a k (gd 0 a).
Proof. intros V i Hi. destruct (V i Hi) as [x E]. rewrite E. f_equal. symmetry. apply gd_get; auto. Qed.
Lemma eddotR k (a b : arr R) r : @full R a k -> @full R b k -> @eddot ROps k a b = Some r -> r = dotp k (gd 0 a) (gd 0 b).
Proof.
  intros A B E. pose proof (eddot_spec k _ _ _ _ (fullR _ _ A) (fullR _ _ B)) as X. change (@F ROps) with R in *. rewrite E in X. injection X as ->. reflexivity.
Qed.

Lemma MtV (A : spmat R) (x y y' : arr R) (b : bool) : wf_sp A -> @full R x (sp_m A) -> (sp_n A <= length y)%nat -> (b = false -> @full R y (sp_n A)) ->
  @sparseMtVm ROps A x y (if b then 1 else 0) false = Some y' ->
  length y' = length y /\ vec y' (sp_n A) (fun j => (if b then 0 else gd 0 y j) - mulvT (sp_m A) (dense A) (gd 0 x) j).
Proof.
  intros Wf Fx Ly Fy E. destruct (C01_sparseMtVm A (gd 0 x) x y (if b then 1 else 0) false Wf (fullR _ _ Fx) Ly) as (y1 & E1 & L1 & V1 & _).
  { intros Hb i Hi. destruct b; [exfalso; cbv iota in Hb; lia|]. apply (Fy eq_refl i Hi). }
  change (@F ROps) with R in *. rewrite E in E1. injection E1 as <-. split; [exact L1|]. intros j Hj. rewrite (V1 j Hj). f_equal. destruct b; reflexivity.
Qed.
Lemma MV (A : spmat R) (x y y' : arr R) : wf_sp A -> @full R x (sp_n A) -> (sp_m A <= length y)%nat ->
  @sparseMV ROps A x y 1 1 = Some y' -> length y' = length y /\ vec y' (sp_m A) (mulv (sp_n A) (dense A) (gd 0 x)).
Proof.
  intros Wf Fx Ly E. destruct (C01_sparseMV A (gd 0 x) x y 1 1 Wf (fullR _ _ Fx) Ly ltac:(intros; lia)) as (y1 & E1 & L1 & V1 & _).
  change (@F ROps) with R in *. rewrite E in E1. injection E1 as <-. split; [exact L1|]. intros j Hj. rewrite (V1 j Hj). f_equal. unfold mulv.
  replace (1 >? 0)%Z with true by reflexivity. ring.
Qed.
Lemma Vsub k a (x y y' : arr R) yf : @full R x k -> vec y k yf -> @vsubscale ROps k a x y = Some y' ->
  vec y' k (fun i => yf i - a * gd 0 x i).
Proof.
  intros Fx Vy E. destruct (C01_vectors k a _ _ _ _ (fullR _ _ Fx) Vy) as (_ & (y1 & E1 & V1 & _) & _).
  change (@F ROps) with R in *. rewrite E in E1. injection E1 as <-. exact V1.
Qed.
Lemma Vadd k (x y y' : arr R) yf : @full R x k -> vec y k yf -> @vadd ROps k x y = Some y' ->
  vec y' k (fun i => yf i + gd 0 x i).
Proof.
  intros Fx Vy E. destruct (C01_vectors k 0 _ _ _ _ (fullR _ _ Fx) Vy) as ((y1 & E1 & V1 & _) & _).
  change (@F ROps) with R in *. rewrite E in E1. injection E1 as <-. exact V1.
Qed.

Lemma computeResiduals_R lpv soc ex w wr : @ws ROps L lpv soc ex w -> @at_pt ROps L w -> @computeResiduals ROps w = Some wr ->
  resid_at w (spot_of w) wr /\ w_D wr = w_D w /\ w_m wr = w_m w /\ w_s wr = w_s w /\ w_z wr = w_z w /\ w_kap wr = w_kap w /\ w_tau wr = w_tau w.
Proof.
  intros WS PT E. pose proof PT as [FX FY FZ FS]. pose proof WS as WS'. destruct WS'. unfold computeResiduals in E. cbv zeta in E.
  destruct (@ws_G ROps L lpv soc ex w WS) as (G1 & G2 & G3). pose proof (@ws_HA ROps L lpv soc ex w WS) as HA.
  rewrite ws_n, ws_m, ws_p in E.
  change (@F ROps) with R in *.
  bd E as rx E0. bd E as hx E1. bd E as rx' E2. bd E as ryh E3. destruct ryh as [ry hy]. bd E as rz E4. bd E as rz' E5. bd E as hz' E6. bd E as rz'' E7.
  bd E as cx E8. bd E as by' E9. bd E as hz E10. bd E as nx E11. bd E as ny E12. bd E as ns E13. bd E as nz E14. injection E as <-. wcbn.
  split; [|csplit; auto]. 
  assert (V0 : vec rx n (fun j => - mulvT p (g_A (prog_of w)) (gd 0 (w_y w)) j - mulvT m (dense (w_G w)) (gd 0 (w_z w)) j)).
  { destruct (Nat.ltb_spec 0 p) as [Hp|Hp].
    - unfold prog_of; cbn [g_A]. destruct (w_A w) as [A|] eqn:EA; [|discriminate]. destruct HA as (A1 & A2 & A3). cbn [bind] in E0. bd E0 as r0 E00.
      apply (MtV A _ _ _ true) in E00 as [L0 V0]; auto; [|rewrite A3; auto|rewrite A2; lia|discriminate].
      apply (MtV (w_G w) _ _ _ false) in E0 as [L1 V1]; auto; [|rewrite G3; auto|rewrite G2; lia|intros _; rewrite G2; rewrite A2 in V0; eapply vec_full; exact V0].
      rewrite G2, G3 in V1. rewrite A2, A3 in V0. intros j Hj. rewrite (V1 j Hj). f_equal. rewrite (gdv _ _ _ _ V0 Hj). change (fun i j0 : nat => dense A i j0) with (dense A). cbv iota. ring.
    - apply (MtV (w_G w) _ _ _ true) in E0 as [L1 V1]; auto; [|rewrite G3; auto|rewrite G2; lia|discriminate].
      rewrite G2, G3 in V1. intros j Hj. rewrite (V1 j Hj). f_equal. assert (p = 0%nat) as -> by lia. unfold mulvT at 2. cbn [Rsum]. ring. }
  constructor; wcbn.
  - pose proof (Vsub _ _ _ _ _ _ ws_c V0 E2) as V. intros j Hj. rewrite (V j Hj). f_equal. unfold hom_x, prog_of, spot_of. cbn [g_p g_m g_A g_G g_c t_y t_z t_tau].
    rewrite ws_p, ws_m. reflexivity.
  - destruct (Nat.ltb_spec 0 p) as [Hp|Hp]; [|intros j Hj; lia].
    destruct (w_A w) as [A|] eqn:EA; [|discriminate]. destruct HA as (A1 & A2 & A3). cbn [bind] in E3. bd E3 as r0 E30. bd E3 as h0 E31. bd E3 as r1 E32. injection E3 as <- <-.
    apply (MV A) in E30 as [L0 V1]; auto; [|rewrite A2; auto|rewrite A3; lia]. rewrite A2, A3 in V1. pose proof (Vsub _ _ _ _ _ _ ws_b V1 E32) as V.
    intros j Hj. rewrite (V j Hj). f_equal. unfold hom_y, prog_of, spot_of. cbn [g_n g_A g_b t_x t_tau]. rewrite ws_n, EA. reflexivity.
  - apply (MV (w_G w)) in E4 as [L0 V1]; auto; [|rewrite G2; auto|rewrite G3; lia]. rewrite G2, G3 in V1.
    pose proof (Vadd _ _ _ _ _ FS V1 E5) as V2. pose proof (Vsub _ _ _ _ _ _ ws_h V2 E7) as V.
    intros j Hj. rewrite (V j Hj). f_equal. unfold hom_z, prog_of, spot_of. cbn [g_n g_G g_h t_x t_s t_tau]. rewrite ws_n. ring.
  - unfold hom_t, prog_of, spot_of. cbn [g_n g_p g_m g_c g_b g_h t_x t_y t_z t_kap]. rewrite ws_n, ws_p, ws_m.
    apply eddotR in E8; auto. apply eddotR in E10; auto. subst cx hz.
    assert (by' = dotp p (gd 0 (w_b w)) (gd 0 (w_y w))) as ->; [|reflexivity].
    destruct (Nat.ltb_spec 0 p) as [Hp|Hp]; [apply eddotR in E9; auto|]. injection E9 as <-. assert (p = 0%nat) as -> by lia. unfold dotp. cbn [Rsum]. apply f0_R.
Qed.

(* the residuals and mu survive the rest of the pass *)
Definition rests {T} (w : pwork T) := (w_rx w, w_ry w, w_rz w, w_rt w, st_mu (w_info w)).
Lemma check_rests (w w' : W) c k : @checkExitConditions ROps w k = (c, w') -> rests w' = rests w.
Proof.
  unfold checkExitConditions. intros E. repeat match type of E with (if ?t then _ else _) = _ => destruct t end; injection E as <- <-; reflexivity.
Qed.
Lemma save_rests (w w' : W) : @iter_save ROps w = Some w' -> rests w' = rests w.
Proof.
  assert (X : forall w w', @saveIterateAsBest ROps w = Some w' -> rests w' = rests w).
  { clear w w'. intros w w' E. unfold saveIterateAsBest in E. binv E. injection E as <-. reflexivity. }
  unfold iter_save. intros E. match type of E with (if ?t then _ else _) = _ => destruct t end; [apply X; auto|].
  bd E as b E0. destruct b; [apply X; auto|]. injection E as <-. reflexivity.
Qed.
Lemma exit_rests intr pp (w w' : W) pp' : @iter_exit ROps intr pp w = Some (VGo, pp', w') ->
  exists w1 w2, @computeResiduals ROps w = Some w1 /\ @updateStatistics ROps w1 = Some w2 /\ rests w' = rests w2.
Proof.
  unfold iter_exit. intros E. bd E as w1 E1. bd E as w2 E2. exists w1, w2. split; [reflexivity|]. split; [exact E2|]. cbv zeta in E.
  match type of E with (if ?t then _ else _) = _ => destruct t end; [binv E; discriminate|].
  destruct (checkExitConditions w2 0) as [code w3] eqn:EC. apply check_rests in EC.
  repeat match type of E with (if ?t then _ else _) = _ => destruct t end; try (binv E; discriminate); try discriminate.
  injection E as _ <-. exact EC.
Qed.

Lemma updateStatistics_R w w' : @full R (w_s w) (w_m w) -> @full R (w_z w) (w_m w) -> @updateStatistics ROps w = Some w' ->
  (w_rx w', w_ry w', w_rz w', w_rt w') = (w_rx w, w_ry w, w_rz w, w_rt w) /\
  st_mu (w_info w') = (dotp (w_m w) (gd 0 (w_s w)) (gd 0 (w_z w)) + w_kap w * w_tau w) / INR (w_D w + 1).
Proof.
  intros Fs Fz E. unfold updateStatistics in E. change (@F ROps) with R in *. bd E as gap E0. apply eddotR in E0; auto. bd E as ny E1. bd E as nz E2. bd E as nx E3. injection E as <-.
  split; [reflexivity|]. wcbn. subst gap. rewrite <- fofn_R. reflexivity.
Qed.

Lemma pass_R lpv soc ex intr pp k w pp' w2 w3 : @ws ROps L lpv soc ex w -> @at_pt ROps L w ->
  @iter_exit ROps intr pp (set_info w (fun i => set_st_iter i k)) = Some (VGo, pp', w2) -> @iter_save ROps w2 = Some w3 ->
  resid_at w (spot_of w) w3 /\ st_mu (w_info w3) = (dotp (w_m w) (gd 0 (w_s w)) (gd 0 (w_z w)) + w_kap w * w_tau w) / INR (w_D w + 1).
Proof.
  intros WS PT E1 E2. apply save_rests in E2. destruct (exit_rests _ _ _ _ _ E1) as (wa & wb & Ea & Eb & Er).
  assert (WS0 : @ws ROps L lpv soc ex (set_info w (fun i => set_st_iter i k))) by (unfold set_info; destruct WS; constructor; wcbn; assumption).
  assert (PT0 : @at_pt ROps L (set_info w (fun i => set_st_iter i k))) by (destruct PT; constructor; auto).
  destruct (computeResiduals_R lpv soc ex _ _ WS0 PT0 Ea) as (RA & D1 & D2 & D3 & D4 & D5 & D6).
  change (spot_of (@set_info ROps w (fun i => set_st_iter i k))) with (spot_of w) in RA.
  pose proof PT as [FX FY FZ FS]. pose proof (ws_m _ _ _ _ _ WS) as EM.
  change (@F ROps) with R in *. destruct (updateStatistics_R wa wb) as (Rb & Mu).
  - rewrite D3, D2. unfold set_info; wcbn. unR. rewrite EM. exact FS.
  - rewrite D4, D2. unfold set_info; wcbn. unR. rewrite EM. exact FZ.
  - exact Eb.
  - rewrite Er in E2. unfold rests in E2. injection E2 as A1 A2 A3 A4 A5. injection Rb as B1 B2 B3 B4. split.
    + destruct RA as [R1 R2 R3 R4]. constructor; [rewrite A1, B1; exact R1|rewrite A2, B2; exact R2|rewrite A3, B3; exact R3|rewrite A4, B4; exact R4].
    + etransitivity; [exact A5|]. etransitivity; [exact Mu|]. rewrite D1, D2, D3, D4, D5, D6. reflexivity.
Qed.

(* ------------------------------------------------------------ the operators *)
(* the conic block of the KKT matrix *)
Definition Vop (C : cone R) (x : nat -> R) (i : nat) : R :=
  let h := @hsize ROps C in
  if (i <? h)%nat then Wop C (Wop C x) i
  else match nth_error (co_expc C) ((i - h) / 3) with
       | Some e => Rsum 3 (fun j => sym3 (gd 0 (ex_v e)) ((i - h) mod 3) j * x (h + 3 * ((i - h) / 3) + j)%nat)
       | None => 0
       end.
Definition Gop (C : cone R) (u s : nat -> R) (sm : R) (i : nat) : R :=
  let h := @hsize ROps C in
  if (i <? h)%nat then Wop C u i
  else match nth_error (co_expc C) ((i - h) / 3) with
       | Some e => s i + sm * gd 0 (ex_g e) ((i - h) mod 3)
       | None => 0
       end.

Lemma Wop_lin C c x y i : good C -> Wop C (fun j => x j + c * y j) i = Wop C x i + c * Wop C y i.
Proof.
  intros G. pose proof (sc_lin _ _ _ _ _ (Wop_scaling C G) c y x i) as E.
  rewrite <- Rplus_comm, <- E. unfold Wop. destruct (i <? _)%nat; [ring|].
  apply f_equal with (f := fun f => piece so_p f (@lpp ROps C) (co_soc C) i). apply FunctionalExtensionality.functional_extensionality. intros k.
  apply FunctionalExtensionality.functional_extensionality. intros c0. apply FunctionalExtensionality.functional_extensionality. intros j.
  f_equal. apply f_equal with (f := fun f => rot (so_p c0) (oscR (so_a c0)) (qv c0) f j). unfold from. apply FunctionalExtensionality.functional_extensionality. intros; ring.
Qed.
Lemma Wop_ext C x y i : good C -> (forall j, (j < @hsize ROps C)%nat -> x j = y j) -> (i < @hsize ROps C)%nat -> Wop C x i = Wop C y i.
Proof. intros G. apply (lin_ext _ _ _ _ _ (Wop_scaling C G)). Qed.
Lemma Vop_lin C c x y i : good C -> Vop C (fun j => x j + c * y j) i = Vop C x i + c * Vop C y i.
Proof.
  intros G. unfold Vop. destruct (Nat.ltb_spec i (@hsize ROps C)) as [Hi|Hi].
  - rewrite (Wop_ext C (Wop C (fun j => x j + c * y j)) (fun j => Wop C x j + c * Wop C y j)); auto; [|intros; apply Wop_lin; auto]. apply Wop_lin; auto.
  - destruct (nth_error _ _) as [e|]; [|ring]. rewrite <- Rsum_scal, <- Rsum_plus. apply Rsum_ext. intros; ring.
Qed.

Lemma Wop_cone C l x i : Wop (set_co_expc C l) x i = Wop C x i.
Proof. reflexivity. Qed.
Lemma good_cone C l : good C -> good (set_co_expc C l).
Proof. intros [A B D]. constructor; [|exact B|exact D]. destruct A; constructor; auto. Qed.

Lemma Vop_cone C l x i : map ex_v l = map ex_v (co_expc C) -> Vop (set_co_expc C l) x i = Vop C x i.
Proof.
  intros E. unfold Vop. change (@hsize ROps (set_co_expc C l)) with (@hsize ROps C). destruct (i <? _)%nat; [reflexivity|].
  change (co_expc (set_co_expc C l)) with l.
  pose proof (f_equal (fun r => nth_error r ((i - @hsize ROps C) / 3)) E) as X. cbv beta in X. rewrite !nth_error_map in X.
  destruct (nth_error l _), (nth_error (co_expc C) _); cbn [option_map] in X; try discriminate; auto. injection X as ->. reflexivity.
Qed.

(* ------------------------------------------------ the slack direction unscaled *)
Lemma fill_val {T} (c : T) a b (x y : arr T) : (a <= b)%nat -> for_ a b (fun i d => set d i c) x = Some y ->
  length y = length x /\ (forall i, (a <= i < b)%nat -> get y i = Some c) /\ (forall i, (i < a)%nat -> get y i = get x i).
Proof.
  intros Hab E. refine (wlp_elim _ (fun y => _) _ _ E). clear E y.
  apply wlp_for with (Inv := fun k (y : arr T) => length y = length x /\ (forall i, (a <= i < k)%nat -> get y i = Some c) /\ (forall i, (i < a)%nat -> get y i = get x i)); auto.
  - csplit; auto. intros; lia.
  - intros k y Hk (A & B & D). apply wlp_intro. intros y' E. apply set_inv in E as (Lt & L2 & G2). csplit.
    + congruence.
    + intros i Hi. rewrite G2. destruct (Nat.eqb_spec i k) as [->|]; auto. apply B; lia.
    + intros i Hi. rewrite G2. destruct (Nat.eqb_spec i k); [lia|]. auto.
Qed.
Lemma maps_val (f : R -> R -> R) (base : nat -> option R) a b (x y : arr R) xf bf : (a <= b)%nat -> vec x b xf -> (forall i, (i < b - a)%nat -> base i = Some (bf i)) ->
  for_ a b (fun i d => v <- get d i ;; u <- base (i - a)%nat ;; set d i (f v u)) x = Some y ->
  vec y b (fun i => if (i <? a)%nat then xf i else f (xf i) (bf (i - a)%nat)).
Proof.
  intros Hab Vx Vb E. refine (wlp_elim _ (fun y => _) _ _ E). clear E y.
  apply wlp_for with (Inv := fun k (y : arr R) => (forall i, (a <= i < k)%nat -> get y i = Some (f (xf i) (bf (i - a)%nat))) /\ (forall i, (i < a \/ k <= i)%nat -> get y i = get x i)); auto.
  - split; auto. intros; lia.
  - intros k y Hk (A & B). apply wlp_bind_eq. intros v Ev. apply wlp_bind_eq. intros u Eu. apply wlp_intro. intros y' E. apply set_inv in E as (Lt & L2 & G2).
    rewrite B in Ev by lia. rewrite Vx in Ev by lia. injection Ev as <-. rewrite Vb in Eu by lia. injection Eu as <-. split.
    + intros i Hi. rewrite G2. destruct (Nat.eqb_spec i k) as [->|]; auto. apply A; lia.
    + intros i Hi. rewrite G2. destruct (Nat.eqb_spec i k); [lia|]. apply B. lia.
  - intros y (A & B) i Hi. destruct (Nat.ltb_spec i a); [rewrite B by lia; apply Vx; auto|apply A; lia].
Qed.

Lemma div3 h i : (h <= i)%nat -> (h + 3 * ((i - h) / 3) + (i - h) mod 3 = i /\ (i - h) mod 3 < 3)%nat.
Proof. intros H. pose proof (Nat.div_mod (i - h) 3). pose proof (Nat.mod_upper_bound (i - h) 3). lia. Qed.

Lemma ds_unscale_R (wd : W) base bf ds dwf dzf : let C := w_C wd in let h := @hsize ROps C in
  good C -> co_fexv C = h -> (forall e, In e (co_expc C) -> vec (ex_v e) 6 (gd 0 (ex_v e))) ->
  (w_m wd = h + 3 * @nexc ROps C)%nat -> vec (w_dsaff_by_W wd) h dwf -> vec (kk_dz2 (w_KKT wd)) (w_m wd) dzf -> length (w_dsaff wd) = w_m wd ->
  (forall i, (i < 3 * @nexc ROps C)%nat -> base i = Some (bf i)) ->
  @ds_unscale ROps wd base = Some ds ->
  vec ds (w_m wd) (fun i => if (i <? h)%nat then Wop C dwf i else - Vop C dzf i - bf (i - h)%nat).
Proof.
  intros C h G EF FV EM Vd Vz Lw Vb E. unfold ds_unscale in E. cbv zeta in E. change (@F ROps) with R in *. change (w_C wd) with C in E.
  rewrite EF in E.
  assert (HL : (h <= length (w_dsaff wd))%nat) by (rewrite Lw, EM; apply Nat.le_add_r).
  destruct (scale_op C G _ _ (w_dsaff wd) Vd) as (r & E1 & L1 & V1 & _); [exact HL|]. change (@F ROps) with R in *. rewrite E1 in E. cbn [bind] in E.
  bd E as r2 E2. bd E as r3 E3. apply fill_val in E2 as (L2 & A2 & B2); [|lia].
  assert (V2 : vec r2 (w_m wd) (fun i => if (i <? h)%nat then Wop C dwf i else 0)).
  { intros i Hi. destruct (Nat.ltb_spec i h); [rewrite B2 by auto; apply V1; auto|]. rewrite A2 by lia. f_equal. apply f0_R. }
  destruct (C27_times r2 (kk_dz2 (w_KKT wd)) (co_expc C) h (w_m wd) dzf _ (fun t => match nth_error (co_expc C) t with Some e => gd 0 (ex_v e) | None => fun _ => 0 end) ltac:(unfold nexc in EM; change (@F ROps) with R in EM; lia) Vz V2) as (r3' & E3' & L3 & A3 & B3).
  { intros t e He. rewrite He. apply FV. eapply nth_error_In; eauto. }
  change (@F ROps) with R in *. rewrite E3 in E3'. injection E3' as <-.
  assert (V3 : vec r3 (w_m wd) (fun i => if (i <? h)%nat then Wop C dwf i else Vop C dzf i)).
  { intros i Hi. destruct (Nat.ltb_spec i h) as [Hh|Hh].
    - rewrite B3 by lia. rewrite (V2 i Hi). destruct (Nat.ltb_spec i h); [reflexivity|lia].
    - destruct (div3 h i Hh) as [D1 D2]. assert (Ht : ((i - h) / 3 < length (co_expc C))%nat) by (unfold nexc in EM; change (@F ROps) with R in EM; lia).
      pose proof (A3 _ _ Ht D2) as X. rewrite D1 in X. rewrite X. f_equal. unfold Vop. fold h. destruct (Nat.ltb_spec i h); [lia|].
      destruct (nth_error (co_expc C) ((i - h) / 3)) as [e|] eqn:Ee; [ring|]. apply nth_error_None in Ee. lia. }
  pose proof (maps_val (fun v u => - v - u) base h (w_m wd) r3 ds _ bf ltac:(lia) V3) as X.
  assert (V4 : vec ds (w_m wd) (fun i => if (i <? h)%nat then (if (i <? h)%nat then Wop C dwf i else Vop C dzf i) else - (if (i <? h)%nat then Wop C dwf i else Vop C dzf i) - bf (i - h)%nat)).
  { apply X; auto. intros i Hi. apply Vb. lia. }
  intros i Hi. rewrite (V4 i Hi). destruct (i <? h)%nat; reflexivity.
Qed.

(* ----------------------------------------------------- the iteration as a whole *)
Lemma unzsoc_lt q : forall t j m', (list_sum q <= m')%nat -> (t < m' + 2 * length q)%nat -> unzsoc q t = Some j -> (j < m')%nat.
Proof.
  induction q as [|d q IH]; intros t j m' Hs Ht E; cbn [unzsoc] in E; [injection E as <-; cbn in Ht; lia|].
  change (list_sum (d :: q)) with (d + list_sum q)%nat in Hs. cbn [length] in Ht.
  destruct (Nat.ltb_spec t d); [injection E as <-; lia|]. destruct (Nat.ltb_spec t (d + 2)); [discriminate|].
  destruct (unzsoc q (t - (d + 2))) as [i|] eqn:Ei; [|discriminate]. injection E as <-. apply (IH _ _ (m' - d)%nat) in Ei; lia.
Qed.
Lemma unz_lt l q t j m' : (l + list_sum q <= m')%nat -> (t < m' + 2 * length q)%nat -> unz l q t = Some j -> (j < m')%nat.
Proof.
  intros Hs Ht E. unfold unz in E. destruct (Nat.ltb_spec t l); [injection E as <-; lia|].
  destruct (unzsoc q (t - l)) as [i|] eqn:Ei; [|discriminate]. injection E as <-. apply (unzsoc_lt _ _ _ (m' - l)%nat) in Ei; lia.
Qed.
Lemma rhs_is_ext (R0 : arr R) fx fy fz gx gy gz : (forall i, (i < n)%nat -> fx i = gx i) -> (forall i, (i < p)%nat -> fy i = gy i) ->
  (forall i, (i < m)%nat -> fz i = gz i) -> @rhs_is ROps L R0 fx fy fz -> @rhs_is ROps L R0 gx gy gz.
Proof.
  intros X Y Z (A & B & D). split; [|split].
  - intros i Hi. rewrite <- X by auto. auto.
  - intros i Hi. rewrite <- Y by auto. auto.
  - intros i Hi. rewrite (D i Hi). f_equal. unfold stretch. destruct (unz _ _ i) as [j|] eqn:E; auto. apply Z.
    apply (unz_lt _ _ _ _ m) in E; auto. unfold ly_m. lia.
Qed.

Definition tri (x y z : arr R) : triple := mkTriple (gd 0 x) (gd 0 y) (gd 0 z).

Record direction_R (w w' : W) (t : @trace ROps) (da d : spot) (u p1 p2 : nat -> R) : Prop := {
  dr_good : good (tc_C t); dr_h : @hsize ROps (tc_C t) = (@ly_l ROps L + list_sum (@ly_q ROps L))%nat;
  dr_cone : @cone_of ROps (tc_C t) (@ly_l ROps L) (@ly_q ROps L) (@ly_e ROps L);
  dr_upd : @updated ROps (gd 0 (w_s w)) (gd 0 (w_z w)) (st_mu (w_info w)) (tc_C t);
  dr_meet : forall i, (i < @hsize ROps (tc_C t))%nat -> Wop (tc_C t) (gd 0 (w_z w)) i = Wiop (tc_C t) (gd 0 (w_s w)) i;
  dr_Ra : let r := rhs_newton (prog_of w) 0 (spot_of w) (gd 0 (w_s w)) in @rhs_is ROps L (tc_Ra t) (q_x r) (q_y r) (q_z r);
  dr_Rc : let r := rhs_newton (prog_of w) (tc_sigma t) (spot_of w) (Gop (tc_C t) u (gd 0 (w_s w)) (tc_sigma t * st_mu (w_info w))) in
    @rhs_is ROps L (tc_Rc t) (q_x r) (q_y r) (q_z r);
  dr_da : da = let q := comb (tc_dta t) (tri (tc_x1 t) (tc_y1 t) (tc_z1 t)) (tri (tc_xa t) (tc_ya t) (tc_za t)) in
    mkSpot (q_x q) (q_y q) (q_z q) (fun i => - gd 0 (w_s w) i - Vop (tc_C t) (q_z q) i) (tc_dta t) (tc_dka t);
  dr_d : exists ds, d = let q := comb (tc_dtau t) (tri (tc_x1 t) (tc_y1 t) (tc_z1 t)) (tri (tc_xc t) (tc_yc t) (tc_zc t)) in
    mkSpot (q_x q) (q_y q) (q_z q) ds (tc_dtau t) (tc_dkap t);
  dr_aff : pivot (prog_of w) (spot_of w) (tri (tc_x1 t) (tc_y1 t) (tc_z1 t)) <> 0 ->
    newton (prog_of w) (Vop (tc_C t)) 0 (spot_of w) (gd 0 (w_s w)) (w_kap w * w_tau w) (tri (tc_x1 t) (tc_y1 t) (tc_z1 t)) (tri (tc_xa t) (tc_ya t) (tc_za t)) da;
  dr_new : pivot (prog_of w) (spot_of w) (tri (tc_x1 t) (tc_y1 t) (tc_z1 t)) <> 0 ->
    newton (prog_of w) (Vop (tc_C t)) (tc_sigma t) (spot_of w) (Gop (tc_C t) u (gd 0 (w_s w)) (tc_sigma t * st_mu (w_info w)))
      (w_kap w * w_tau w + t_kap da * t_tau da - tc_sigma t * st_mu (w_info w)) (tri (tc_x1 t) (tc_y1 t) (tc_z1 t)) (tri (tc_xc t) (tc_yc t) (tc_zc t)) d;
  dr_p1 : is_jprod (@ly_l ROps L) (@ly_q ROps L) (Wop (tc_C t) (gd 0 (w_z w))) (Wop (tc_C t) (gd 0 (w_z w))) p1;
  dr_p2 : is_jprod (@ly_l ROps L) (@ly_q ROps L) (Wiop (tc_C t) (t_s da)) (Wop (tc_C t) (t_z da)) p2;
  dr_u : inner (@ly_l ROps L) (@ly_q ROps L) (Wop (tc_C t) (gd 0 (w_z w))) ->
    is_jprod (@ly_l ROps L) (@ly_q ROps L) (Wop (tc_C t) (gd 0 (w_z w))) u
      (fun i => p1 i + (if unit_at (@ly_l ROps L) (@ly_q ROps L) i then p2 i - tc_sigma t * st_mu (w_info w) else p2 i));
  dr_x : forall i, (i < n)%nat -> t_x (spot_of w') i = t_x (along (tc_a t) (spot_of w) d) i;
  dr_y : forall i, (i < p)%nat -> t_y (spot_of w') i = t_y (along (tc_a t) (spot_of w) d) i;
  dr_z : forall i, (i < m)%nat -> t_z (spot_of w') i = t_z (along (tc_a t) (spot_of w) d) i;
  dr_s : forall i, (i < m)%nat -> t_s (spot_of w') i = t_s (along (tc_a t) (spot_of w) d) i;
  dr_tau : t_tau (spot_of w') = t_tau (along (tc_a t) (spot_of w) d);
  dr_kap : t_kap (spot_of w') = t_kap (along (tc_a t) (spot_of w) d)
}.

Lemma axpyR k a (x y y' : arr R) : @axpy ROps k a x y = Some y' -> vec y' k (fun i => gd 0 y i + a * gd 0 x i).
Proof.
  intros E. apply (@axpy_val ROps) in E as (_ & _ & _ & V). unR. exact V.
Qed.

Lemma Wop_neg C x y i : good C -> (i < @hsize ROps C)%nat -> Wop C (fun j => - (x j + y j)) i = - (Wop C x i + Wop C y i).
Proof.
  intros G Hi. rewrite (Wop_ext C _ (fun j => (fun j => x j + 1 * y j) j + -2 * (fun j => x j + 1 * y j) j) i G); auto; [|intros; ring].
  rewrite !Wop_lin by auto. ring.
Qed.
Lemma Wiop_ext C x y i : good C -> (forall j, (j < @hsize ROps C)%nat -> x j = y j) -> (i < @hsize ROps C)%nat -> Wiop C x i = Wiop C y i.
Proof. intros G. apply (lini_ext _ _ _ _ _ (Wop_scaling C G)). Qed.

(* the scaled affine slack direction *)
Lemma Wi_dsa C s dz i : good C -> (i < @hsize ROps C)%nat ->
  Wiop C (fun j => - s j - Vop C dz j) i = - Wop C dz i - Wiop C s i.
Proof.
  intros G Hi. pose proof (Wop_scaling C G) as SC.
  rewrite (Wiop_ext C _ (Wop C (fun j => - (Wop C dz j + Wiop C s j))) i G); auto.
  - rewrite (sc_inv1 _ _ _ _ _ SC) by auto. ring.
  - intros j Hj. rewrite Wop_neg by auto. rewrite (sc_inv2 _ _ _ _ _ SC) by auto. unfold Vop. destruct (Nat.ltb_spec j (@hsize ROps C)); [|lia]. ring.
Qed.

Lemma jprod_ext2 l q u v v' r : (forall i, (i < l + list_sum q)%nat -> v i = v' i) -> is_jprod l q u v r -> is_jprod l q u v' r.
Proof.
  intros E [A B]. constructor.
  - intros i Hi. rewrite <- E by lia. auto.
  - intros k pp i Hin Hi. pose proof (layout_bounds _ _ _ _ Hin). rewrite (B k pp i Hin Hi).
    assert (X : forall a, (a < pp)%nat -> from k v a = from k v' a) by (intros; unfold from; apply E; lia).
    unfold jprod. destruct i as [|i]; [apply dotp_ext; auto|]. rewrite !X by lia. reflexivity.
Qed.

Lemma is_jprod_res l q u v r r' : (forall i, (i < l + list_sum q)%nat -> r i = r' i) -> is_jprod l q u v r -> is_jprod l q u v r'.
Proof.
  intros E [A B]. constructor.
  - intros i Hi. rewrite <- E by lia. auto.
  - intros k pp i Hin Hi. pose proof (layout_bounds _ _ _ _ Hin). rewrite <- E by lia. auto.
Qed.

Lemma division_vec C l q e u w v v' uf wf : @cone_of ROps C l q e -> vec u (l + list_sum q) uf -> vec w (l + list_sum q) wf -> (l + list_sum q <= length v)%nat ->
  @conicDivision ROps u w C v = Some v' -> vec v' (l + list_sum q) (gd 0 v') /\ (inner l q uf -> is_jprod l q uf (gd 0 v') wf).
Proof.
  intros H Hu Hw Hl E. assert (V : vec v' (l + list_sum q) (gd 0 v')).
  { pose proof (hsize_of C l q e H) as HS. rewrite <- HS in *. destruct H as [SH EL EQ EE].
    destruct (@conicDivision_eq ROps C u w uf wf v (@sh_pos ROps C SH) Hu Hw Hl) as (v1 & E1 & FI). change (@F ROps) with R in *. rewrite E in E1. injection E1 as <-.
    rewrite <- f0_R; eapply (@filled_vec ROps C); exact FI. }
  split; [exact V|]. intros IN. destruct (C18_division C l q e u w v uf wf H IN Hu Hw Hl) as (v1 & vf & E1 & V1 & J & _).
  change (@F ROps) with R in *. rewrite E in E1. injection E1 as <-. eapply jprod_ext2; [|exact J]. intros i Hi. symmetry. apply (gdv _ _ _ _ V1 Hi).
Qed.

Notation l := (@ly_l ROps L).
Notation q := (@ly_q ROps L).
Notation h := (@ly_l ROps L + list_sum (@ly_q ROps L))%nat.

Record scaled_R (w : W) (C : cone R) (la : arr R) : Prop := {
  sr_good : good C; sr_cone : @cone_of ROps C l q (@ly_e ROps L); sr_h : @hsize ROps C = h; sr_m : (h + 3 * @nexc ROps C = m)%nat;
  sr_upd : @updated ROps (gd 0 (w_s w)) (gd 0 (w_z w)) (st_mu (w_info w)) C;
  sr_la : vec la h (Wop C (gd 0 (w_z w)));
  sr_meet : forall i, (i < h)%nat -> Wop C (gd 0 (w_z w)) i = Wiop C (gd 0 (w_s w)) i
}.

Lemma traced_scaled lpv soc ex w C la o : @ws ROps L lpv soc ex w -> @at_pt ROps L w -> margin EPSR l q (gd 0 (w_s w)) (gd 0 (w_z w)) ->
  @updateScalings ROps (w_C w) (w_s w) (w_z w) (w_lambda w) (st_mu (w_info w)) = Some (o, C, la) -> o = false /\ scaled_R w C la.
Proof.
  intros WS [FX FY FZ FS] MG E. pose proof (@ws_C ROps L lpv soc ex w WS) as CO.
  pose proof (ws_msize L WS) as EM. pose proof (ws_hm L WS) as HM. pose proof (hsize_of _ _ _ _ CO) as HS.
  change (@F ROps) with R in *.
  destruct (updateScalings_good (w_C w) l q (@ly_e ROps L) (w_s w) (w_z w) (w_lambda w) (st_mu (w_info w)) _ _ CO MG) as (C1 & la1 & E1 & G & SIM & UP & _ & VL & MT & _).
  - rewrite EM. apply fullR; auto.
  - rewrite EM. apply fullR; auto.
  - destruct WS. change (@F ROps) with R in *. lia.
  - change (@F ROps) with R in *. rewrite E in E1. injection E1 as <- <- <-. split; [reflexivity|].
    pose proof (csim_fits _ _ SIM (co_shape _ _ _ _ CO)) as FT.
    assert (CO' : @cone_of ROps C l q (@ly_e ROps L)).
    { pose proof (ws_cone L lpv soc ex w C WS SIM) as WC. exact (ws_C _ _ _ _ _ WC). }
    assert (EH : @hsize ROps C = h) by (exact (hsize_of _ _ _ _ CO')).
    constructor; auto.
    + pose proof (co_e _ _ _ _ CO') as E1. pose proof (co_e _ _ _ _ CO) as E2. change (@F ROps) with R in *. rewrite HS in HM. rewrite E1. rewrite E2 in HM. exact HM.
    + rewrite <- HS. exact VL.
    + intros i Hi. apply MT. rewrite HS. exact Hi.
Qed.

Lemma scaleR C (x xb y : arr R) xf k : good C -> @hsize ROps C = h -> vec x h xf -> length xb = k -> (h <= k)%nat -> @scale ROps x C xb = Some y -> vec y h (Wop C xf).
Proof.
  intros G EH V Lx Hk E. rewrite <- EH in *. destruct (scale_op C G x xf xb V ltac:(change (@F ROps) with R; rewrite Lx; exact Hk)) as (r & E1 & _ & V1 & _). change (@F ROps) with R in *. rewrite E in E1. injection E1 as <-. exact V1.
Qed.
Lemma vec_le (a : arr R) j k f : vec a k f -> (j <= k)%nat -> vec a j f.
Proof. intros V Hj i Hi. apply V. lia. Qed.
Lemma vec_ext (a : arr R) k f g : vec a k f -> (forall i, (i < k)%nat -> f i = g i) -> vec a k g.
Proof. intros V X i Hi. rewrite <- X by auto. auto. Qed.
Lemma h_m : (h <= m)%nat.
Proof. unfold ly_m. lia. Qed.
Lemma cell2R (f : R -> R -> R) (x y d d' : arr R) xf yf : @cell2 ROps f m x y d = Some d' -> vec x h xf -> vec y h yf -> vec d' h (fun i => f (xf i) (yf i)).
Proof.
  intros E X Y. apply (@cell2_val ROps f m h) in E as (_ & V); [|apply h_m|exact (vec_full _ _ _ X)|exact (vec_full _ _ _ Y)].
  apply (vec_ext _ _ _ _ V). intros i Hi. unR. rewrite (gdv _ _ _ _ X Hi), (gdv _ _ _ _ Y Hi). reflexivity.
Qed.

Lemma aff_R w C la (za z1 dza d0 wdz d1 dwa : arr R) dta : scaled_R w C la -> w_m w = m ->
  @axpy ROps (w_m w) dta z1 za = Some dza -> @scale ROps dza C d0 = Some wdz -> length d0 = m -> @cell2 ROps (fun x y => @fsub ROps (@fneg ROps x) y) (w_m w) wdz la d1 = Some dwa ->
  let dzf := fun i => gd 0 za i + dta * gd 0 z1 i in
  vec wdz h (Wop C dzf) /\ vec dwa h (Wiop C (fun i => - gd 0 (w_s w) i - Vop C dzf i)).
Proof.
  intros SR EM E1 E2 Ld E3 dzf. destruct SR. rewrite EM in *. apply axpyR in E1. fold dzf in E1. pose proof h_m as HM.
  pose proof (scaleR C dza d0 wdz dzf m sr_good0 sr_h0 (vec_le _ _ _ _ E1 HM) Ld HM E2) as V1. split; [exact V1|].
  pose proof (cell2R _ _ _ _ _ _ _ E3 V1 sr_la0) as V2. apply (vec_ext _ _ _ _ V2). intros i Hi. unR. rewrite Wi_dsa by (auto; rewrite sr_h0; auto). rewrite sr_meet0 by auto. reflexivity.
Qed.

Lemma conic_R w C la (wdz dwa k1 k2 d1 d2 d4 d5 u g : arr R) a b sm dsf dzf : scaled_R w C la -> vec wdz h (Wop C dzf) -> vec dwa h (Wiop C dsf) ->
  @conicProduct ROps la la C k1 = Some (a, d1) -> @conicProduct ROps dwa wdz C k2 = Some (b, d2) ->
  (forall i, (i < h)%nat -> get d4 i = Some (gd 0 d1 i + (if unit_at l q i then gd 0 d2 i - sm else gd 0 d2 i))) ->
  @conicDivision ROps la d4 C d5 = Some u -> @scale ROps u C d4 = Some g -> (h <= length k1)%nat -> (h <= length k2)%nat -> (h <= length d5)%nat ->
  exists p1 p2, is_jprod l q (Wop C (gd 0 (w_z w))) (Wop C (gd 0 (w_z w))) p1 /\ is_jprod l q (Wiop C dsf) (Wop C dzf) p2 /\
    vec u h (gd 0 u) /\ (inner l q (Wop C (gd 0 (w_z w))) -> is_jprod l q (Wop C (gd 0 (w_z w))) (gd 0 u) (fun i => p1 i + (if unit_at l q i then p2 i - sm else p2 i))) /\
    vec g h (Wop C (gd 0 u)).
Proof.
  intros SR V1 V2 E1 E2 G4 E5 E6 L1 L2 L5. destruct SR.
  destruct (C18_product C l q (@ly_e ROps L) la la k1 _ _ sr_cone0 sr_la0 sr_la0 L1) as (d1' & p1 & X1 & Y1 & Z1). change (@F ROps) with R in *. rewrite E1 in X1. injection X1 as _ <-.
  destruct (C18_product C l q (@ly_e ROps L) dwa wdz k2 _ _ sr_cone0 V2 V1 L2) as (d2' & p2 & X2 & Y2 & Z2). change (@F ROps) with R in *. rewrite E2 in X2. injection X2 as _ <-.
  exists p1, p2. split; [exact Z1|]. split; [exact Z2|].
  assert (V4 : vec d4 h (fun i => p1 i + (if unit_at l q i then p2 i - sm else p2 i))).
  { intros i Hi. rewrite (G4 i Hi), (gdv _ _ _ _ Y1 Hi), (gdv _ _ _ _ Y2 Hi). reflexivity. }
  destruct (division_vec C l q (@ly_e ROps L) la d4 d5 u _ _ sr_cone0 sr_la0 V4 L5 E5) as [VU DU]. split; [exact VU|]. split; [exact DU|].
  apply (scaleR C u d4 g (gd 0 u) (length d4)); auto. pose proof (full_len _ _ (vec_full _ _ _ V4)) as X. exact X.
Qed.

Lemma ds_R w C Cc la l' (wd : W) (z1 zc dz d0 wdz u d1 dw ds : arr R) dtau sm : scaled_R w C la -> w_m w = m ->
  Cc = set_co_expc C l' -> map ex_v l' = map ex_v (co_expc C) ->
  (forall j e e', nth_error (co_expc C) j = Some e -> nth_error l' j = Some e' -> vec (ex_g e') 3 (fun i => gd 0 (w_s w) (h + 3 * j + i)%nat + sm * gd 0 (ex_g e) i)) ->
  @axpy ROps (w_m w) dtau z1 zc = Some dz -> @scale ROps dz Cc d0 = Some wdz -> length d0 = m -> @cell2 ROps (fun x y => @fneg ROps (@fadd ROps x y)) (w_m w) u wdz d1 = Some dw ->
  vec u h (gd 0 u) -> w_C wd = Cc -> w_m wd = w_m w -> w_dsaff_by_W wd = dw -> kk_dz2 (w_KKT wd) = dz -> length (w_dsaff wd) = m -> @ds_unscale ROps wd (@expg ROps Cc) = Some ds ->
  let dzf := fun i => gd 0 zc i + dtau * gd 0 z1 i in
  vec ds m (fun i => - Gop C (gd 0 u) (gd 0 (w_s w)) sm i - Vop C dzf i).
Proof.
  intros SR EM EC EV EG E1 E2 Ld E3 VU WC WM WD WZ WL E4 dzf. destruct SR. pose proof h_m as HM. rewrite EM in *. apply axpyR in E1. fold dzf in E1.
  assert (GC : good Cc) by (subst Cc; apply good_cone; auto). assert (HC : @hsize ROps Cc = h) by (subst Cc; exact sr_h0).
  pose proof (scaleR Cc dz d0 wdz dzf m GC HC (vec_le _ _ _ _ E1 HM) Ld HM E2) as V1.
  pose proof (cell2R _ _ _ _ _ _ _ E3 VU V1) as V2.
  assert (LL : length l' = length (co_expc C)) by (rewrite <- (map_length ex_v l'), EV, map_length; reflexivity).
  assert (NX : @nexc ROps Cc = @nexc ROps C) by (subst Cc; exact LL).
  set (bf := fun i => match nth_error l' (i / 3) with Some e => gd 0 (ex_g e) (i mod 3) | None => 0 end).
  assert (SV : forall e, In e (co_expc C) -> vec (ex_v e) 6 (gd 0 (ex_v e))).
  { intros e He. destruct (lay_of_in (fun _ => 3%nat) _ (co_fexv C) e He) as (k & Hk). pose proof (eu_v _ _ _ (up_exp _ _ _ _ sr_upd0 k e Hk)) as X. apply fullR. exact (vec_full _ _ _ X). }
  assert (SH : co_fexv Cc = h) by (subst Cc; rewrite <- sr_h0; exact (sh_fexv _ (co_shape _ _ _ _ sr_cone0))).
  assert (V3 : vec ds m (fun i => if (i <? h)%nat then Wop Cc (fun i => - (gd 0 u i + Wop Cc dzf i)) i else - Vop Cc dzf i - bf (i - h)%nat)).
  { pose proof (ds_unscale_R wd (@expg ROps Cc) bf ds (fun i => - (gd 0 u i + Wop Cc dzf i)) dzf) as X. cbv zeta in X. rewrite WC, WM, WD, WZ, HC, NX in X. apply X; auto.
    - intros e He. subst Cc. change (In e l') in He. apply In_nth_error in He as (j & Hj). pose proof (f_equal (fun r => nth_error r j) EV) as Y. cbv beta in Y. rewrite !nth_error_map, Hj in Y.
      destruct (nth_error (co_expc C) j) as [e0|] eqn:Ej; [|discriminate]. injection Y as ->. apply SV. eapply nth_error_In; eauto.
    - intros i Hi. unfold expg. subst Cc. change (co_expc (set_co_expc C l')) with l'. unfold bf. change (@F ROps) with R in *.
      assert (Hj : (i / 3 < length l')%nat) by (rewrite LL; unfold nexc in Hi; change (@F ROps) with R in Hi; apply Nat.div_lt_upper_bound; lia).
      destruct (nth_error l' (i / 3)) as [e'|] eqn:Ee; [|apply nth_error_None in Ee; lia]. cbn [bind].
      destruct (nth_error (co_expc C) (i / 3)) as [e|] eqn:Ee0; [|apply nth_error_None in Ee0; lia]. pose proof (EG _ _ _ Ee0 Ee) as X0.
      pose proof (Nat.mod_upper_bound i 3 ltac:(lia)) as Hm. rewrite (gdv _ _ _ _ X0 Hm). apply X0. exact Hm. }
  apply (vec_ext _ _ _ _ V3). intros i Hi. unfold Gop. rewrite sr_h0. destruct (Nat.ltb_spec i h) as [Hh|Hh].
  - rewrite Wop_neg by (auto; rewrite HC; auto). unfold Vop. rewrite sr_h0. destruct (Nat.ltb_spec i h); [|lia]. subst Cc.
    rewrite !Wop_cone. rewrite (Wop_ext C (Wop (set_co_expc C l') dzf) (Wop C dzf)); auto; [ring|rewrite sr_h0; auto].
  - subst Cc. rewrite Vop_cone by auto. unfold bf.
    assert (Hj : ((i - h) / 3 < length l')%nat) by (rewrite LL; unfold nexc in sr_m0; change (@F ROps) with R in sr_m0; apply Nat.div_lt_upper_bound; lia).
    destruct (nth_error l' ((i - h) / 3)) as [e'|] eqn:Ee; [|apply nth_error_None in Ee; lia].
    destruct (nth_error (co_expc C) ((i - h) / 3)) as [e|] eqn:Ee0; [|apply nth_error_None in Ee0; lia]. pose proof (EG _ _ _ Ee0 Ee) as X0.
    pose proof (Nat.mod_upper_bound (i - h) 3 ltac:(lia)) as Hm. rewrite (gdv _ _ _ _ X0 Hm). destruct (div3 h i Hh) as [D1 D2]. rewrite D1. ring.
Qed.

Lemma dotsR lpv soc ex w (dx dy dz : arr R) a b c : @ws ROps L lpv soc ex w -> @full R dx n -> @full R dy p -> @full R dz m -> @dots ROps w dx dy dz a b c ->
  a = dotp (w_n w) (gd 0 (w_c w)) (gd 0 dx) /\ b = dotp (w_p w) (gd 0 (w_b w)) (gd 0 dy) /\ c = dotp (w_m w) (gd 0 (w_h w)) (gd 0 dz).
Proof.
  intros WS FX FY FZ (A & B & D). destruct WS. change (@F ROps) with R in *. rewrite ws_n in *. rewrite ws_p in *. rewrite ws_m in *.
  csplit; eapply eddotR; eauto.
Qed.

Lemma point_R k a (x y y' : arr R) : @axpy ROps k a x y = Some y' -> forall i, (i < k)%nat -> gd 0 y' i = gd 0 y i + a * gd 0 x i.
Proof. intros E i Hi. apply axpyR in E. exact (gdv _ _ _ _ E Hi). Qed.

Lemma traced_R lpv soc ex w w' t : @ws ROps L lpv soc ex w -> @at_pt ROps L w -> resid_at w (spot_of w) w -> w_tau w <> 0 ->
  margin EPSR l q (gd 0 (w_s w)) (gd 0 (w_z w)) -> @traced ROps L w w' t -> exists da d u p1 p2, direction_R w w' t da d u p1 p2.
Proof.
  intros WS PT RA T0 MG T. pose proof (traced_scaled lpv soc ex w _ _ _ WS PT MG (tr_scal _ _ _ _ T)) as (_ & SR).
  pose proof PT as [FX FY FZ FS]. pose proof (ws_n _ _ _ _ _ WS) as En. pose proof (ws_p _ _ _ _ _ WS) as Ep. pose proof (ws_m _ _ _ _ _ WS) as Em.
  destruct (tr_wdz _ _ _ _ T) as (d0 & E1 & Ld0). destruct (tr_dwa _ _ _ _ T) as (d0' & E2).
  destruct (aff_R w (tc_C t) (tc_la t) _ _ _ _ _ _ _ _ SR Em (tr_dza _ _ _ _ T) E1 Ld0 E2) as [V1 V2].
  destruct (tr_conic _ _ _ _ T) as (a & b & k1 & k2 & d1 & d2 & d4 & d5 & g & l' & Q1 & Q2 & Q3 & Q4 & Q5 & Q6 & Q7 & Q8 & Q9 & Q10 & Q11 & Q12).
  pose proof (sr_h _ _ _ SR) as EH. unR. rewrite EH in Q3, Q9, Q10, Q11, Q12.
  destruct (conic_R w (tc_C t) (tc_la t) _ _ k1 k2 d1 d2 d4 d5 (tc_u t) g a b (tc_sigma t * st_mu (w_info w)) _ _ SR V1 V2 Q1 Q2 Q3 Q4 Q5 Q10 Q11 Q12) as (p1 & p2 & J1 & J2 & VU & JU & VG).
  destruct (tr_dw _ _ _ _ T) as (e0 & wdz & e1 & D1 & D2 & D3). destruct (tr_ds _ _ _ _ T) as (wd & B1 & B2 & B3 & B4 & B5 & B6).
  pose proof (ds_R w (tc_C t) (tc_Cc t) (tc_la t) l' wd _ _ _ _ _ _ _ _ _ _ (tc_sigma t * st_mu (w_info w)) SR Em Q7 Q8 Q9 (tr_dz _ _ _ _ T) D1 D2 D3 VU B1 B2 B3 B4 B5 B6) as VS.
  cbv zeta in *.
  set (t1 := tri (tc_x1 t) (tc_y1 t) (tc_z1 t)). set (ta := tri (tc_xa t) (tc_ya t) (tc_za t)). set (t2 := tri (tc_xc t) (tc_yc t) (tc_zc t)).
  destruct (tr_full1 _ _ _ _ T) as (Fx1 & Fy1 & Fz1). destruct (tr_fulla _ _ _ _ T) as (Fxa & Fya & Fza). destruct (tr_fullc _ _ _ _ T) as (Fxc & Fyc & Fzc).
  destruct (tr_den _ _ _ _ T) as (a1 & b1 & c1 & N1 & EN). destruct (tr_dta _ _ _ _ T) as (aa & ba & ca & Na & Ea). destruct (tr_dtau _ _ _ _ T) as (ac & bc & cc & Nc & Ec).
  apply (dotsR lpv soc ex) in N1 as (-> & -> & ->); auto. apply (dotsR lpv soc ex) in Na as (-> & -> & ->); auto. apply (dotsR lpv soc ex) in Nc as (-> & -> & ->); auto.
  pose proof (tr_dka _ _ _ _ T) as Eka. pose proof (tr_dkap _ _ _ _ T) as Ekp. unR. destruct RA as [Rx Ry Rz Rt].
  assert (EP : pivot (prog_of w) (spot_of w) t1 = tc_den t) by (rewrite EN; reflexivity).
  set (da := let q := comb (tc_dta t) t1 ta in mkSpot (q_x q) (q_y q) (q_z q) (fun i => - gd 0 (w_s w) i - Vop (tc_C t) (q_z q) i) (tc_dta t) (tc_dka t)).
  set (d := let q := comb (tc_dtau t) t1 t2 in mkSpot (q_x q) (q_y q) (q_z q) (gd 0 (tc_ds t)) (tc_dtau t) (tc_dkap t)).
  pose proof (sr_good _ _ _ SR) as GC.
  exists da, d, (gd 0 (tc_u t)), p1, p2.
  constructor; auto.
  - apply (sr_cone _ _ _ SR).
  - apply (sr_upd _ _ _ SR).
  - rewrite EH. apply (sr_meet _ _ _ SR).
  - cbv zeta. refine (rhs_is_ext _ _ _ _ _ _ _ _ _ _ (tr_Ra _ _ _ _ T)).
    + intros i Hi. unR. rewrite (gdv _ _ _ _ Rx Hi). cbn [rhs_newton q_x]. ring.
    + intros i Hi. unR. rewrite (gdv _ _ _ _ Ry Hi). cbn [rhs_newton q_y]. ring.
    + intros i Hi. unR. rewrite (gdv _ _ _ _ Rz Hi). cbn [rhs_newton q_z]. ring.
  - cbv zeta. refine (rhs_is_ext _ _ _ _ _ _ _ _ _ _ Q6).
    + intros i Hi. unR. rewrite (gdv _ _ _ _ Rx Hi). cbn [rhs_newton q_x]. ring.
    + intros i Hi. unR. rewrite (gdv _ _ _ _ Ry Hi). cbn [rhs_newton q_y]. ring.
    + intros i Hi. unR. unfold comb_zz, Gop. unR. cbn [rhs_newton q_z]. rewrite EH. rewrite (gdv _ _ _ _ Rz Hi). destruct (Nat.ltb_spec i h) as [Hh|Hh].
      * rewrite (gdv _ _ _ _ VG Hh). ring.
      * pose proof (sr_m _ _ _ SR) as SM. change (@F ROps) with R in *. match goal with |- context [nth_error ?x ?y] => destruct (nth_error x y) eqn:Ee end; [ring|].
        apply nth_error_None in Ee. unfold nexc in SM. change (@F ROps) with R in SM. exfalso. apply (Nat.lt_irrefl ((i - h) / 3)). eapply Nat.lt_le_trans; [|exact Ee]. apply Nat.div_lt_upper_bound; lia.
  - exists (gd 0 (tc_ds t)). reflexivity.
  - intros PV. change (w_kap w * w_tau w) with (t_kap (spot_of w) * t_tau (spot_of w)).
    apply combine_newton; auto.
    + intros. apply Vop_lin; auto.
    + rewrite EP. rewrite Ea. rewrite Rt. unR. cbn [t_tau t_kap spot_of prog_of g_n g_p g_m g_c g_b g_h q_x q_y q_z ta tri]. f_equal.
      assert (w_kap w * w_tau w / w_tau w = w_kap w) as -> by (field; auto). ring.
    + cbn [t_tau t_kap spot_of]. rewrite Eka. unR. field. auto.
  - intros PV. apply combine_newton; auto.
    + intros. apply Vop_lin; auto.
    + rewrite EP. rewrite Ec. rewrite Rt. unR. reflexivity.
    + cbn [g_m prog_of]. intros i Hi. rewrite (gdv _ _ _ _ VS); [reflexivity|]. rewrite <- Em. exact Hi.
  - intros i Hi. rewrite <- En in Hi. cbn [spot_of along t_x]. etransitivity; [exact (point_R _ _ _ _ _ (tr_x _ _ _ _ T) i Hi)|]. apply f_equal2; [reflexivity|]. apply f_equal2; [reflexivity|]. exact (point_R _ _ _ _ _ (tr_dx _ _ _ _ T) i Hi).
  - intros i Hi. rewrite <- Ep in Hi. cbn [spot_of along t_y]. etransitivity; [exact (point_R _ _ _ _ _ (tr_y _ _ _ _ T) i Hi)|]. apply f_equal2; [reflexivity|]. apply f_equal2; [reflexivity|]. exact (point_R _ _ _ _ _ (tr_dy _ _ _ _ T) i Hi).
  - intros i Hi. rewrite <- Em in Hi. cbn [spot_of along t_z]. etransitivity; [exact (point_R _ _ _ _ _ (tr_z _ _ _ _ T) i Hi)|]. apply f_equal2; [reflexivity|]. apply f_equal2; [reflexivity|]. exact (point_R _ _ _ _ _ (tr_dz _ _ _ _ T) i Hi).
  - intros i Hi. rewrite <- Em in Hi. cbn [spot_of along t_s]. etransitivity; [exact (point_R _ _ _ _ _ (tr_ss _ _ _ _ T) i Hi)|]. reflexivity.
  - apply (tr_tau _ _ _ _ T).
  - apply (tr_kap _ _ _ _ T).
Qed.

Lemma det_scal pp c f : det pp (fun i => c * f i) = c * c * det pp f.
Proof. unfold det. rewrite Rmult_minus_distr_l, <- Rsum_scal. f_equal; [ring|]. apply Rsum_ext. intros; ring. Qed.
Lemma det_ext pp f g : (1 <= pp)%nat -> (forall i, (i < pp)%nat -> f i = g i) -> det pp f = det pp g.
Proof. intros Hp X. unfold det. rewrite X by lia. f_equal. apply Rsum_ext. intros i Hi. rewrite X by lia. reflexivity. Qed.
Lemma det_W C k c x : good C -> In (k, c) (@blocks ROps C) -> det (so_p c) (from k (Wop C x)) = oscR (so_eta c) * oscR (so_eta c) * det (so_p c) (from k x).
Proof.
  intros G Hin. destruct (blk C G k c Hin) as [P A E H].
  rewrite (det_ext _ _ (fun i => oscR (so_eta c) * rot (so_p c) (oscR (so_a c)) (qv c) (from k x) i)); auto; [|intros i Hi; unfold from at 1; apply Wop_soc; auto].
  rewrite det_scal, rot_det by auto. reflexivity.
Qed.
Lemma det_Wi C k c x : good C -> In (k, c) (@blocks ROps C) -> oscR (so_eta c) * oscR (so_eta c) * det (so_p c) (from k (Wiop C x)) = det (so_p c) (from k x).
Proof.
  intros G Hin. destruct (blk C G k c Hin) as [P A E H]. pose proof EPS_pos as EP.
  rewrite (det_ext _ _ (fun i => / oscR (so_eta c) * rot (so_p c) (oscR (so_a c)) (fun j => - qv c j) (from k x) i)); auto; [|intros i Hi; unfold from at 1; rewrite (Wiop_soc C x k c) by auto; unfold Rdiv; ring].
  rewrite det_scal, rot_det by (auto; apply rot_opp_hyp; auto). field. unR. lra.
Qed.

Lemma inner_of w C la : scaled_R w C la -> margin EPSR l q (gd 0 (w_s w)) (gd 0 (w_z w)) -> apart EPSR l q (gd 0 (w_s w)) (gd 0 (w_z w)) ->
  inner l q (Wop C (gd 0 (w_z w))).
Proof.
  intros SR MG [AL AS]. destruct SR. pose proof (mg_z _ _ _ _ _ MG) as IZ. set (s := gd 0 (w_s w)) in *. set (z := gd 0 (w_z w)) in *.
  pose proof (Wop_scaling C sr_good0) as SC. pose proof EPS_pos as EP. destruct sr_cone0 as [SH EL EQ EE]. change (@F ROps) with R in *. rewrite EL, EQ in SC.
  pose proof (sc_int _ _ _ _ _ SC z IZ) as [LL LS]. assert (EU : eps = EPSR) by (unfold eps; rewrite EPS_R; reflexivity).
  constructor.
  - intros i Hi. rewrite EU. assert (X : Wop C z i * Wop C z i = s i * z i).
    { rewrite (sr_meet0 i) at 1 by lia. rewrite Wop_lp, Wiop_lp by (unfold lpp in *; change (@F ROps) with R in *; lia).
      pose proof (gd_lp C sr_good0 i ltac:(unfold lpp in *; change (@F ROps) with R in *; lia)). field. lra. }
    specialize (AL i Hi). specialize (LL i Hi). rewrite <- X in AL. apply Rsqr_incr_0; unfold Rsqr; lra.
  - intros k pp Hin. rewrite EU. assert (Hin' : In (k, pp) (layout (@lpp ROps C) (map so_p (co_soc C)))) by (rewrite EL, EQ; exact Hin).
    apply layout_blocks in Hin'. destruct Hin' as (c & Hc & <-). destruct (blk C sr_good0 k c Hc) as [P A E H].
    specialize (LS _ _ Hin). apply int_soc_det in LS as [L0 L1]. change (from k (Wop C z) 0) with (Wop C z (k + 0)%nat) in L0. rewrite Nat.add_0_r in L0.
    specialize (AS _ _ Hin). pose proof (layout_bounds _ _ _ _ Hin) as LB.
    assert (X : det (so_p c) (from k (Wop C z)) * det (so_p c) (from k (Wop C z)) = det (so_p c) (from k s) * det (so_p c) (from k z)).
    { rewrite <- (det_Wi C k c s sr_good0 Hc). rewrite (det_ext _ (from k (Wiop C s)) (from k (Wop C z))); auto; [|intros i Hi; unfold from; symmetry; apply sr_meet0; lia].
      rewrite (det_W C k c z sr_good0 Hc) at 1. ring. }
    assert (D : EPSR <= det (so_p c) (from k (Wop C z))) by (rewrite <- X in AS; apply Rsqr_incr_0; unfold Rsqr; lra).
    split; [|exact D]. assert (E1 : EPSR < 1) by (rewrite EPS_R; lra).
    assert (D2 : det (so_p c) (from k (Wop C z)) <= Wop C z k * Wop C z k).
    { unfold det. unfold from at 1 2. rewrite !Nat.add_0_r.
      assert (0 <= Rsum (so_p c - 1) (fun i => from k (Wop C z) (1 + i)%nat * from k (Wop C z) (1 + i)%nat)) by (apply Rsum_nonneg; intros; nra). lra. }
    apply Rsqr_incr_0; unfold Rsqr; [|lra|lra]. assert (EPSR * EPSR <= EPSR) by nra. lra.
Qed.
End DirR.
