(* C33, C34: branch and bound stops within its pass limit without undefined
   behaviour, and the solution it keeps only improves. *)
From Coq Require Import List Arith Bool ZArith Lia Reals Lra Relations.
From Verif Require Import Base Num NumE NumI.
From Verif.Model Require Import Consts Types Ecos BbTypes Bb.
From Verif.Spec Require Import Solver.
From Verif.Proofs Require Import ExitP Wlp BbNum BbP BbSafe BbKeep.
Import ListNotations.
Open Scope nat_scope.

(* the exit codes documented in include/ecos_bb.h:53-60 *)
Definition documented (r : Z) : Prop :=
  In r [MI_OPTIMAL_SOLN; MI_INFEASIBLE; MI_UNBOUNDED; MI_MAXITER_FEASIBLE_SOLN; MI_MAXITER_NO_SOLN; MI_MAXITER_UNBOUNDED].

Section Passes.
Context {O : Ops} {TI : ToInt O}.
Local Notation W := (bbwork F).
Variables (solver : nat -> ctrlc -> pwork F -> option (Z * ctrlc * pwork F)) (rnd : nat -> Z) (rfuel : nat).

(* all cells [0, k) are initialised *)
Definition filled {T} (a : arr T) (k : nat) : Prop := forall i, i < k -> exists v, get a i = Some v.

(* the workspace of a problem with n variables, pe equalities and m inequalities
   (bounds included), as setup allocates it *)
Record allocated (n pe m : nat) (col : nat -> nat) (good : pwork F -> Prop) (w : W) : Prop := {
  al_b : forall j, j < bb_nb w -> get (bb_bidx w) j = Some (col j);
  al_i : forall j, j < bb_ni w -> get (bb_iidx w) j = Some (col (bb_nb w + j));
  al_nodes : forall i, i < Z.to_nat (bs_maxit (bb_stgs w)) -> exists nd, get (bb_nodes w) i = Some nd /\
    (0 <= nd_split nd < Z.of_nat (bb_nb w + bb_ni w))%Z /\ convertible (bs_itol (bb_stgs w)) (nd_val nd) /\
    (nd_psplit nd < Z.of_nat (bb_nb w + bb_ni w))%Z /\ convertible (bs_itol (bb_stgs w)) (nd_pval nd);
  al_bids : bb_nb w * Z.to_nat (bs_maxit (bb_stgs w)) <= length (bb_bids w);
  al_iids : 2 * bb_ni w * Z.to_nat (bs_maxit (bb_stgs w)) <= length (bb_iids w);
  al_tmp : bb_nb w <= length (bb_tmpb w) /\ 2 * bb_ni w <= length (bb_tmpi w) /\
           bb_nb w <= length (bb_tbb w) /\ 2 * bb_ni w <= length (bb_tbi w);
  al_pseudo : filled (bb_psb w) (2 * bb_nb w) /\ filled (bb_psi w) (2 * bb_ni w) /\
              filled (bb_pcb w) (2 * bb_nb w) /\ filled (bb_pci w) (2 * bb_ni w);
  al_best : n <= length (bb_x w) /\ pe <= length (bb_y w) /\ m <= length (bb_z w) /\ m <= length (bb_s w);
  al_good : good (bb_prob w)
}.

Lemma allocated_fresh n pe m col good w : allocated n pe m col good w -> fresh n pe m (bb_nb w) (bb_ni w) col good (bb_stgs w) w.
Proof.
  intros []. destruct al_tmp0 as (?&?&?&?). destruct al_pseudo0 as (?&?&?&?). destruct al_best0 as (?&?&?&?).
  constructor; auto; try tauto; try (intros; lia).
  intros i Hi. destruct (al_nodes0 i Hi) as (nd & A & B & C & D & E). exists nd. split; [exact A|]. split; [split; auto|].
  intros Hp. split; [lia|exact E].
Qed.

Lemma documented_ret (w : W) : documented (get_ret_code w).
Proof. unfold get_ret_code, documented. destruct (_ <? _)%Z, (isinf (bb_U w)), (fle f0 (bb_U w)); cbn; auto 10. Qed.

(* Branch and bound returns, with a documented code, after fewer than maxit passes.
   No array access is out of bounds and no number is converted out of range. *)
Theorem C33_terminates n pe m col good (w : W) :
  total_solver n pe m (bb_nb w) (bb_ni w) col (bs_itol (bb_stgs w)) good solver ->
  allocated n pe m col good w ->
  0 < bb_nb w + bb_ni w -> (forall j, j < bb_nb w + bb_ni w -> col j < n) ->
  (forall k, (0 <= rnd k <= RAND_MAX)%Z) -> (1 <= bs_maxit (bb_stgs w))%Z ->
  bs_strategy (bb_stgs w) <> StrongBranching -> bs_strategy (bb_stgs w) <> RandomBranching ->
  exists r w', ECOS_BB_solve solver rnd rfuel w = Some (r, w') /\ documented r /\
    (Z.of_nat (bb_iter w') < bs_maxit (bb_stgs w))%Z.
Proof.
  intros S A Nv C R Mx S1 S2.
  destruct (wp_elim _ _ (solve_ok solver rnd rfuel n pe m _ _ col good _ S Nv C R (conj S1 S2) w (allocated_fresh _ _ _ _ _ _ A) ltac:(lia)))
    as ([r w'] & E & H).
  exists r, w'. split; [exact E|]. split; [|lia].
  unfold ECOS_BB_solve in E. bd E as w1 E1. bd E as cw E2. destruct cw as [cur w2]. bd E as w3 E3. injection E as <- <-. apply documented_ret.
Qed.

(* The bound that the model puts on the number of passes never cuts a run short:
   any larger one gives the same result. *)
Theorem C33_no_cutoff n pe m col good (w w1 : W) :
  total_solver n pe m (bb_nb w) (bb_ni w) col (bs_itol (bb_stgs w)) good solver ->
  allocated n pe m col good w ->
  0 < bb_nb w + bb_ni w -> (forall j, j < bb_nb w + bb_ni w -> col j < n) ->
  (forall k, (0 <= rnd k <= RAND_MAX)%Z) -> (1 <= bs_maxit (bb_stgs w))%Z ->
  bs_strategy (bb_stgs w) <> StrongBranching -> bs_strategy (bb_stgs w) <> RandomBranching ->
  bb_root solver rnd rfuel w = Some w1 ->
  exists r, forall fuel, Z.to_nat (bs_maxit (bb_stgs w)) < fuel -> bb_loop solver rnd rfuel fuel w1 = Some r.
Proof.
  intros S A Nv C R Mx S1 S2 E.
  destruct (wp_elim _ _ (root_ok solver rnd rfuel n pe m _ _ col good _ S Nv C R (conj S1 S2) w (allocated_fresh _ _ _ _ _ _ A) ltac:(lia)))
    as (w1' & E' & B & I0). rewrite E in E'. injection E' as <-.
  assert (Es: bb_stgs w1 = bb_stgs w) by (destruct B as (? & ? & Sh & _); exact (sh_stgs _ _ _ _ _ _ _ _ _ _ _ _ _ Sh)).
  destruct (wp_elim _ _ (loop_ok solver rnd rfuel n pe m _ _ col good _ S Nv C R (conj S1 S2) (Datatypes.S (Z.to_nat (bs_maxit (bb_stgs w)))) w1 B ltac:(lia) Es))
    as (r & Er & _).
  exists r. intros fuel Hf. unfold bb_loop in *. eapply while_more; [exact Er|lia].
Qed.

(* Setup allocates such a workspace. *)
Theorem C33_setup amd junk jL jk jt ji t n m p l q nexc Gd Ad c h b nb bidx ni iidx stgs (col : nat -> nat) (good : pwork F -> Prop) w :
  ECOS_BB_setup amd junk jL jk jt ji t n m p l q nexc Gd Ad c h b nb bidx ni iidx stgs = Some w ->
  good (bb_prob w) -> 0 < nb + ni ->
  (forall j, j < nb -> get bidx j = Some (col j)) -> (forall j, j < ni -> get iidx j = Some (col (nb + j))) ->
  convertible (bs_itol (bb_stgs w)) f0 ->
  allocated n p (m + 2 * (nb + ni)) col good w.
Proof.
  intros E G Nv Hb Hi C0. unfold ECOS_BB_setup in E. destruct Gd as [[Gpr Gjc] Gir].
  bd E as nnz E0. bd E as r4 E1. destruct r4 as [[[Gp Gj] Gi] h']. bd E as r E2. destruct r as [pw|]; [|discriminate]. injection E as <-.
  assert (Fl: forall T (v : T) k, filled (arr_of (repeat v k)) k).
  { intros T v k i Hk. exists v. rewrite BbNum.get_arr_of. rewrite (nth_error_nth' _ v) by (rewrite repeat_length; exact Hk). rewrite nth_repeat. reflexivity. }
  constructor; bbc; rewrite ?alloc_length; auto; try lia.
  intros i Hk. exists zero_node. split; [|unfold zero_node; ndc; repeat split; try lia; apply C0].
    rewrite BbNum.get_arr_of. rewrite (nth_error_nth' _ zero_node) by (rewrite repeat_length; exact Hk). rewrite nth_repeat. reflexivity.
Qed.

(* ------------------------------------------------------ what is excluded *)

Lemma round_undefined (w : W) j y : get (bb_bidx w) 0 = Some j -> 0 < bb_nb w -> get (w_x (bb_prob w)) j = Some y -> pfloat_round y = None ->
  round_x w = None.
Proof.
  intros Hb Hn Hx Hy. unfold round_x. unfold for_. rewrite Nat.sub_0_r. destruct (bb_nb w) as [|nb']; [lia|]. cbn [for_loop].
  rewrite Hb. cbn [bind]. rewrite Hx. cbn [bind]. rewrite Hy. reflexivity.
Qed.

Lemma upd_same (w w' : W) i f : upd_node w i f = Some w' -> bb_bidx w' = bb_bidx w /\ bb_nb w' = bb_nb w /\ bb_prob w' = bb_prob w /\ bb_U w' = bb_U w.
Proof. intros H. apply upd_node_inv in H as (? & ? & _ & -> & _). repeat split. Qed.
Lemma observe_same (w w' : W) b k v : observe w b k v = Some w' -> bb_bidx w' = bb_bidx w /\ bb_nb w' = bb_nb w /\ bb_prob w' = bb_prob w.
Proof. unfold observe. intros H. destruct b; binv H; injection H as <-; repeat split. Qed.
Lemma pseudo_same idx (w w' : W) : update_pseudocost idx w = Some w' -> bb_bidx w' = bb_bidx w /\ bb_nb w' = bb_nb w /\ bb_prob w' = bb_prob w.
Proof.
  unfold update_pseudocost. intros H. bd H as nd En. destruct (_ <=? _)%Z; [|injection H as <-; auto].
  bd H as dv Ed. destruct (_ <? _); exact (observe_same _ _ _ _ _ H).
Qed.

(* A relaxation that is used (whatever the code) with a value that cannot be rounded
   to an int, such as a NaN, is undefined behaviour. *)
Theorem C33_refuted_nan (w : W) j y :
  (forall a, flt finf a = false) ->
  get (bb_bidx w) 0 = Some j -> 0 < bb_nb w -> pfloat_round y = None ->
  (forall k t p s, solver k t p = Some s -> fst (fst s) = ECOS_NUMERICS /\ get (w_x (snd s)) j = Some y) ->
  ECOS_BB_solve solver rnd rfuel w = None.
Proof.
  intros Hinf Hb Hn Hy Hs. destruct (ECOS_BB_solve solver rnd rfuel w) as [[r w']|] eqn:E; [exfalso|reflexivity].
  unfold ECOS_BB_solve in E. bd E as w1 E1. clear E. unfold bb_root in E1. bd E1 as w2 E2. bd E1 as w3 E3. clear E1.
  assert (Q: bb_U w2 = finf /\ bb_bidx w2 = bb_bidx w /\ bb_nb w2 = bb_nb w).
  { unfold initialize_root in E2. bd E2 as wa Ea. apply upd_same in Ea as (A1 & A2 & _ & _). bd E2 as b1 Eb. bd E2 as b2 Ec.
    injection E2 as <-. bbc. auto. }
  clear E2. destruct Q as (QU & Qb & Qn). unfold get_bounds in E3. bd E3 as cw Er. destruct cw as [code w4].
  assert (Q4: code = ECOS_NUMERICS /\ bb_U w4 = bb_U w2 /\ bb_bidx w4 = bb_bidx w2 /\ bb_nb w4 = bb_nb w2 /\ get (w_x (bb_prob w4)) j = Some y).
  { unfold run_relax in Er. bd Er as p1 Ep. bd Er as sr Es. destruct (Hs _ _ _ _ Es) as [Hc Hx]. destruct sr as [[code' t'] p']. injection Er as <- <-. auto. }
  clear Er. destruct Q4 as (-> & U4 & B4 & N4 & X4).
  match type of E3 with (if ?b then _ else _) = _ => change b with true in E3 end. cbv match in E3.
  bd E3 as q Eq. clear Eq. bd E3 as w5 E5. apply upd_same in E5 as (B5 & N5 & P5 & U5). rewrite U5, U4, QU, Hinf in E3.
  bd E3 as w6 E6. apply upd_same in E6 as (B6 & N6 & P6 & _). bd E3 as w7 E7. apply pseudo_same in E7 as (B7 & N7 & P7).
  rewrite (round_undefined w7 j y) in E3; [discriminate E3|congruence|rewrite N7, N6, N5, N4, Qn; exact Hn|congruence|exact Hy].
Qed.

(* Random branching never returns when the draws keep hitting an integral variable. *)
Theorem C33_refuted_random (w : W) i j y fuel :
  (forall k, Z.to_nat (rnd k mod Z.of_nat (nvars w)) = i) ->
  var_col w i = Some j -> get (w_x (bb_prob w)) j = Some y -> near_int w y = Some true ->
  random_branching rnd fuel w = None.
Proof.
  intros Hr Hv Hx Hn. assert (G: forall f d, random_branching rnd f (set_bb_draws w d) = None).
  { induction f as [|f IH]; intros d; cbn [random_branching]; [reflexivity|].
    destruct (guard _); [cbn [bind]|reflexivity]. change (nvars (set_bb_draws w d)) with (nvars w). rewrite (Hr (bb_draws (set_bb_draws w d))).
    change (var_col (set_bb_draws (set_bb_draws w d) _) i) with (var_col w i). rewrite Hv. cbn [bind].
    change (bb_prob (set_bb_draws (set_bb_draws w d) _)) with (bb_prob w). rewrite Hx. cbn [bind].
    change (near_int (set_bb_draws (set_bb_draws w d) _) y) with (near_int w y). rewrite Hn. cbn [bind]. apply IH. }
  destruct fuel as [|f]; [reflexivity|]. specialize (G (S f) (bb_draws w)). destruct w. exact G.
Qed.


(* --------------------------------------------------------------- C34 *)

(* the best integer solution kept so far, and its cost *)
Definition incumbent (w : W) := (bb_x w, bb_y w, bb_z w, bb_s w, bb_kap w, bb_tau w, bb_info w).

(* states at the end of some further passes *)
Inductive later (cur : Z) (w : W) : Z -> W -> Prop :=
| later_now : later cur w cur w
| later_pass c1 w1 c2 w2 : later cur w c1 w1 -> bb_step solver rnd rfuel c1 w1 = Some (c2, w2) -> later cur w c2 w2.

(* After the root, whatever the relaxations do, the kept solution and its cost either
   stay, or the cost strictly decreases and what is kept is the complete result of one
   call of the solver: x, y, z, s, kappa, tau and the statistics belong together. *)
Theorem C34_improves cur w cur' w' :
  (forall a b c, flt a b = true -> flt b c = true -> flt a c = true) ->
  later cur w cur' w' ->
  (bb_U w' = bb_U w /\ incumbent w' = incumbent w) \/
  (flt (bb_U w') (bb_U w) = true /\
   exists k ctl p code ctl' p', solver k ctl p = Some (code, ctl', p') /\
     same_cells (w_n p') (bb_x w') (w_x p') /\ same_cells (w_p p') (bb_y w') (w_y p') /\
     same_cells (w_m p') (bb_z w') (w_z p') /\ same_cells (w_m p') (bb_s w') (w_s p') /\
     bb_kap w' = w_kap p' /\ bb_tau w' = w_tau p' /\ bb_info w' = w_info p').
Proof.
  intros Tr L.
  assert (I: improves solver (kept w) (kept w')).
  { induction L as [|c1 w1 c2 w2 L IH S]; [apply rt_refl|]. eapply rt_trans; [exact IH|]. eapply step_keep. exact S. }
  assert (G: forall a b : kept_t, improves solver a b -> b = a \/ better solver a b).
  { clear -Tr. intros a b H. induction H as [a b H|a|a b c _ [A|A] _ [B|B]]; [right; exact H|left; reflexivity| | | |].
    - left; congruence. - right; subst; exact B. - right; subst; exact A. - right. split; [eapply Tr; [exact (proj1 B)|exact (proj1 A)]|exact (proj2 B)]. }
  destruct (G _ _ I) as [E|E]; [left|right; exact E]. unfold kept in E. injection E. intros. unfold incumbent. split; congruence.
Qed.

(* What the caller finds in the workspace afterwards is the solution kept at the end, in
   all its parts. *)
Theorem C34_delivered w r w' : ECOS_BB_solve solver rnd rfuel w = Some (r, w') ->
  exists w1 cur w2, bb_root solver rnd rfuel w = Some w1 /\ later 0 w1 cur w2 /\
    bb_U w' = bb_U w2 /\ bb_L w' = bb_L w2 /\ incumbent w' = incumbent w2 /\
    same_cells (w_n (bb_prob w')) (w_x (bb_prob w')) (bb_x w2) /\ same_cells (w_p (bb_prob w')) (w_y (bb_prob w')) (bb_y w2) /\
    same_cells (w_m (bb_prob w')) (w_z (bb_prob w')) (bb_z w2) /\ same_cells (w_m (bb_prob w')) (w_s (bb_prob w')) (bb_s w2) /\
    w_kap (bb_prob w') = bb_kap w2 /\ w_tau (bb_prob w') = bb_tau w2 /\ w_info (bb_prob w') = bb_info w2.
Proof.
  unfold ECOS_BB_solve. intros E. bd E as w1 E1. bd E as cw E2. destruct cw as [cur w2]. bd E as w3 E3. injection E as <- <-.
  exists w1, cur, w2. split; [first [exact E1|reflexivity]|]. split.
  - revert E2. unfold bb_loop. generalize (S (Z.to_nat (bs_maxit (bb_stgs w1)))) as fuel.
    assert (G: forall fuel c0 w0, later 0 w1 c0 w0 -> while_ fuel (fun '(cur, w) => Some (should_continue w cur)) (fun '(cur, w) => bb_step solver rnd rfuel cur w) (c0, w0) = Some (cur, w2) -> later 0 w1 cur w2).
    { induction fuel as [|f IH]; intros c0 w0 L E; cbn [while_] in E; [discriminate|].
      cbn [bind] in E. destruct (should_continue w0 c0); [|injection E as <- <-; exact L].
      bd E as r E4. destruct r as [c1 w4]. eapply IH; [|exact E]. eapply later_pass; [exact L|exact E4]. }
    intros fuel E2. eapply G; [apply later_now|exact E2].
  - unfold load_solution in E3. bd E3 as x Ex. bd E3 as y Ey. bd E3 as z Ez. bd E3 as s Es. injection E3 as <-. bbc.
    repeat split; eapply copy_cells; eassumption.
Qed.

(* The root does not keep what it found: once its relaxation is fractional, the cost
   kept is infinite again, whatever rounding found ... *)
Theorem C34_refuted_root (w w1 : W) nd :
  bb_root solver rnd rfuel w = Some w1 ->
  get (bb_nodes w1) 0 = Some nd -> nd_status nd = MI_SOLVED_BRANCHABLE ->
  bb_U w1 = finf.
Proof. apply root_U. Qed.

(* ... so that a run limited to the root reports that there is no solution. *)
Theorem C34_refuted_code (w w1 w' : W) nd r :
  isinf finf = true -> fle f0 finf = true ->
  bs_maxit (bb_stgs w) = 1%Z ->
  bb_root solver rnd rfuel w = Some w1 -> bb_stgs w1 = bb_stgs w ->
  get (bb_nodes w1) 0 = Some nd -> nd_status nd = MI_SOLVED_BRANCHABLE ->
  ECOS_BB_solve solver rnd rfuel w = Some (r, w') -> r = MI_MAXITER_NO_SOLN.
Proof.
  intros I Z M R Sg Hd Hs E. pose proof (root_U _ _ _ _ _ _ R Hd Hs) as U.
  unfold ECOS_BB_solve in E. rewrite R in E. cbn [bind] in E. bd E as cw E2.
  assert (cw = (0%Z, w1)) as ->.
  { unfold bb_loop in E2. cbn [while_] in E2. unfold should_continue in E2. rewrite Sg, M in E2.
    replace (Z.of_nat (bb_iter w1) <? 1 - 1)%Z with false in E2 by (symmetry; apply Z.ltb_ge; lia). rewrite andb_false_r in E2. injection E2 as <-. reflexivity. }
  bd E as w3 E3. injection E as <- <-. unfold load_solution in E3. bd E3 as a1 Q1. bd E3 as a2 Q2. bd E3 as a3 Q3. bd E3 as a4 Q4. injection E3 as <-.
  unfold get_ret_code. bbc. rewrite Sg, M, U, I, Z. replace (Z.of_nat (bb_iter w1) <? 1 - 1)%Z with false by (symmetry; apply Z.ltb_ge; lia). reflexivity.
Qed.

End Passes.

(* The order is transitive over the reals with infinities and NaN, and in binary64. *)
Theorem C34_order_E : forall a b c : ext, @flt EOps a b = true -> @flt EOps b c = true -> @flt EOps a c = true.
Proof.
  intros [a| | |] [b| | |] [c| | |]; cbn; try discriminate; auto. unfold Rltb.
  destruct (Rlt_dec a b), (Rlt_dec b c), (Rlt_dec a c); try discriminate; auto. lra.
Qed.

From Coq Require Import Floats.SpecFloat.

Theorem C34_order_F : forall a b c : spec_float, @flt FOps a b = true -> @flt FOps b c = true -> @flt FOps a c = true.
Proof.
  assert (P: forall m n, Pos.compare_cont Eq m n = Pos.compare m n) by reflexivity.
  intros a b c. change (@flt FOps) with SFltb. unfold SFltb, SFcompare.
  destruct a as [[]|[]| |[] ma ea], b as [[]|[]| |[] mb eb], c as [[]|[]| |[] mc ec]; cbn; try discriminate; auto; rewrite ?(P ma mb), ?(P mb mc), ?(P ma mc);
    destruct (Z.compare_spec ea eb), (Z.compare_spec eb ec), (Z.compare_spec ea ec), (Pos.compare_spec ma mb), (Pos.compare_spec mb mc), (Pos.compare_spec ma mc);
    cbn; try discriminate; auto; intros; try discriminate; exfalso; lia.
Qed.

(* --------------------------------------------- the solver's contract, C33 *)

(* Values of less than 2^31 - 1 can be rounded, and booleans between -127 and 127 are
   chars once rounded. *)
Theorem C33_convertible x tol : (0 <= tol < 1)%R -> (- 2147483648 < x < 2147483647)%R ->
  @convertible EOps EInt (Fin tol) (Fin x) /\ ((- 127 <= x <= 127)%R -> @char_sized EOps EInt (Fin x)).
Proof.
  intros T X. split; [split; [|split]|].
  - rewrite floor_E, to_int_ok by (apply Zfl_range; lra). discriminate.
  - rewrite ceil_E, to_int_ok by (apply Zce_range; lra). discriminate.
  - rewrite round_E, to_int_ok by (apply Zro_range; lra). discriminate.
  - intros C. exists (Fin (IZR (Zro x))), (Zro x). split; [rewrite round_E, to_int_ok by (apply Zro_range; lra); reflexivity|].
    pose proof (Zro_spec x) as S. assert (-128 <= Zro x <= 127)%Z by (split; apply IZR_lt_int; lra).
    unfold ftochar. change (@ftoi EOps EInt (Fin (IZR (Zro x)))) with (to_int (Rtrunc (IZR (Zro x)))).
    assert (Rtrunc (IZR (Zro x)) = Zro x) as ->.
    { unfold Rtrunc. destruct (Rle_dec 0 (IZR (Zro x))); [apply Int_part_unique; lra|].
      assert (Int_part (- IZR (Zro x)) = (- Zro x)%Z) as ->; [|lia]. apply Int_part_unique. rewrite opp_IZR. lra. }
    rewrite to_int_ok by lia. cbn [bind]. destruct (Z.leb_spec (-128) (Zro x)); [|lia]. destruct (Z.leb_spec (Zro x) 127); [reflexivity|lia].
Qed.

(* A NaN cannot be rounded, nor can an infinity. *)
Theorem C33_nan : @pfloat_round EOps EInt NaN = None /\ @pfloat_round EOps EInt PInf = None /\ (forall a, @flt EOps finf a = false).
Proof. split; [reflexivity|]. split; [reflexivity|]. intros []; reflexivity. Qed.

Print Assumptions C33_terminates.
Print Assumptions C33_no_cutoff.
Print Assumptions C33_setup.
Print Assumptions C33_refuted_nan.
Print Assumptions C33_refuted_random.
Print Assumptions C33_convertible.
Print Assumptions C34_improves.
Print Assumptions C34_delivered.
Print Assumptions C34_refuted_root.
Print Assumptions C34_refuted_code.
Print Assumptions C34_order_F.
