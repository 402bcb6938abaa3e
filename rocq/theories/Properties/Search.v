(* C32: what branch and bound returns, given a solver for the relaxations. *)
From Coq Require Import Reals Lra ZArith Bool Lia List Arith.
From Verif Require Import Base Num NumE NumI.
From Verif.Model Require Import Consts Types Ecos BbTypes Bb.
From Verif.Spec Require Import Integer MixedInteger.
From Verif.Proofs Require Import Wlp BbNum BbP BbOpt.
Import ListNotations.
Open Scope R_scope.

Notation BW := (bbwork ext).
Notation oracle := (nat -> ctrlc -> pwork ext -> option (Z * ctrlc * pwork ext)).

Section Search.
(* the problem: n variables, nb boolean and ni integer ones, the j-th of which is
   variable col j; cost c; [feas] holds of the points meeting the constraints *)
Variables (n nb ni : nat) (col : nat -> nat) (c : nat -> R) (feas : (nat -> R) -> Prop).
(* the solver: its feasibility test, its accuracy in cost (eps) and in the bounds
   (delta); the integer tolerance, and the gap tolerances of the search *)
Variables (solver : oracle) (good : pwork ext -> Prop) (accepted : (nat -> R) -> Prop) (eps delta tol abs rel : R).
Variables (rnd : nat -> Z) (rfuel : nat).

Notation feasible_integer := (admissible nb ni col feas).
Notation value := (cost n c).

(* a workspace as setup leaves it: the variable lists, the tolerances, and nodes
   whose split index is in range *)
Definition prepared (w : BW) : Prop :=
  bb_nb w = nb /\ bb_ni w = ni /\
  (forall j, (j < nb)%nat -> get (bb_bidx w) j = Some (col j)) /\
  (forall j, (j < ni)%nat -> get (bb_iidx w) j = Some (col (nb + j)%nat)) /\
  bs_itol (bb_stgs w) = Fin tol /\ bs_abs (bb_stgs w) = Fin abs /\ bs_rel (bb_stgs w) = Fin rel /\ 0 <= abs /\ 0 <= rel /\
  good (bb_prob w) /\
  (forall i nd, get (bb_nodes w) i = Some nd -> (0 < nb + ni)%nat ->
     (0 <= nd_split nd < Z.of_nat (nb + ni))%Z /\ exists y, nd_val nd = Fin y) /\
  (bs_strategy (bb_stgs w) = StrongBranching -> repeatable nb ni col good solver).

Definition assumptions : Prop :=
  relaxation_solver n nb ni col c feas good accepted eps delta solver /\
  0 <= delta < tol /\ tol < / 2 /\ (forall j, (j < nb + ni)%nat -> (col j < n)%nat) /\
  (forall k, (0 <= rnd k <= RAND_MAX)%Z).

(* x is acceptable and integral up to the tolerance *)
Definition nearly_integer (x : nat -> R) : Prop :=
  accepted x /\ (forall j, (j < nb + ni)%nat -> integral tol (x (col j))) /\
  (forall j, (j < nb)%nat -> - delta <= x (col j) <= 1 + delta).

(* the caller finds x in the solver's workspace *)
Definition returned (w : BW) (x : nat -> R) : Prop :=
  forall i, (i < n)%nat -> get (w_x (bb_prob w)) i = Some (Fin (x i)).

(* workspaces at the end of the passes of the search, with the node chosen next *)
Inductive passes (w : BW) : Z -> BW -> Prop :=
| passes_root w1 : @bb_root EOps EInt solver rnd rfuel w = Some w1 -> passes w 0 w1
| passes_step cur w1 cur' w2 : passes w cur w1 -> @should_continue EOps w1 cur = true ->
    @bb_step EOps EInt solver rnd rfuel cur w1 = Some (cur', w2) -> passes w cur' w2.

(* v cannot be better than lo or than hi *)
Definition bounded_by (lo hi : ext) (v : nat -> R) : Prop :=
  (match lo with Fin l => l <= value v + eps | _ => False end) \/
  (match hi with Fin u => u <= value v + eps | _ => False end).

Hypothesis A : assumptions.

Lemma prepared_ready w : prepared w -> ready solver nb ni col good tol w.
Proof using A.
  intros (E1 & E2 & E3 & E4 & E5 & E6 & E7 & Pa & Pr & G & V & R).
  split; [|split; [|split]].
  - split; [exact E1|]. split; [exact E2|]. split; [|split; [exact E5|exact G]].
    intros j Hj. unfold var_col. change (@F EOps) with ext. rewrite E1. destruct (Nat.ltb_spec j nb); [auto|].
    rewrite E4 by lia. f_equal. f_equal. lia.
  - intros i nd En Hv. exact (V i nd En Hv).
  - exact R.
  - exists abs, rel. auto.
Qed.

Lemma solved w r w' : prepared w -> @ECOS_BB_solve EOps EInt solver rnd rfuel w = Some (r, w') ->
  result n nb ni col c feas accepted eps delta tol w r w'.
Proof using A.
  intros P E. pose proof A as (S & D & T & C & R).
  exact (wlp_elim _ _ _ (solve_spec solver rnd rfuel n nb ni col c feas accepted good eps delta tol S (conj D T) C R w (prepared_ready w P)) E).
Qed.

(* Optimal: the point returned is acceptable and integral up to the tolerance, and
   its cost is within one of the two gap tolerances of every feasible integer
   point's cost, up to the accuracy of the relaxations. *)
Theorem C32_optimal w w' : prepared w ->
  @ECOS_BB_solve EOps EInt solver rnd rfuel w = Some (MI_OPTIMAL_SOLN, w') ->
  exists x, returned w' x /\ nearly_integer x /\
    forall v, feasible_integer v ->
      value x <= value v + eps + abs \/
      exists l, l <= value v + eps /\ Rabs (value x - l) <= rel * Rabs l.
Proof using A.
  intros P E. pose proof (solved w _ w' P E) as (_ & _ & R). destruct P as (_ & _ & _ & _ & _ & Ea & Er & _).
  change (@F EOps) with ext in R. rewrite Ea, Er in R.
  destruct R as [(x & _ & H & I & [K|[_ O]])|(_ & [K|[K _]])]; try discriminate.
  exists x. split; [exact H|]. split; [exact I|exact O].
Qed.

(* Infeasible: there is no feasible integer point. *)
Theorem C32_infeasible w w' : prepared w ->
  @ECOS_BB_solve EOps EInt solver rnd rfuel w = Some (MI_INFEASIBLE, w') -> forall v, ~ feasible_integer v.
Proof using A.
  intros P E. pose proof (solved w _ w' P E) as (_ & _ & R).
  destruct R as [(x & _ & _ & _ & [K|[K _]])|(_ & [K|[_ K]])]; try discriminate. exact K.
Qed.

(* Iteration limit with a solution: as for the optimal status, without the gap. *)
Theorem C32_feasible w w' : prepared w ->
  @ECOS_BB_solve EOps EInt solver rnd rfuel w = Some (MI_MAXITER_FEASIBLE_SOLN, w') ->
  exists x, returned w' x /\ nearly_integer x.
Proof using A.
  intros P E. pose proof (solved w _ w' P E) as (_ & _ & R).
  destruct R as [(x & _ & H & I & _)|(_ & [K|[K _]])]; try discriminate. exists x. split; [exact H|exact I].
Qed.

(* No other code is returned but the one for the iteration limit without solution. *)
Theorem C32_codes w r w' : prepared w -> @ECOS_BB_solve EOps EInt solver rnd rfuel w = Some (r, w') ->
  r = MI_OPTIMAL_SOLN \/ r = MI_INFEASIBLE \/ r = MI_MAXITER_FEASIBLE_SOLN \/ r = MI_MAXITER_NO_SOLN.
Proof using A.
  intros P E. pose proof (solved w _ w' P E) as (_ & _ & R).
  destruct R as [(x & _ & _ & _ & [K|[K _]])|(_ & [K|[K _]])]; auto.
Qed.

Lemma passes_head w cur w' : prepared w -> passes w cur w' ->
  head n nb ni col c feas accepted good eps delta tol cur w' /\ bb_stgs w' = bb_stgs w.
Proof using A.
  intros P. pose proof A as (S & D & T & C & R). induction 1 as [w1 E|cur w1 cur' w2 H IH Sc E].
  - exact (wlp_elim _ _ _ (root_spec solver rnd rfuel n nb ni col c feas accepted good eps delta tol S (conj D T) C R w (prepared_ready w P)) E).
  - destruct IH as [Hh Sg].
    assert (Rep: bs_strategy (bb_stgs w1) = StrongBranching -> repeatable nb ni col good solver) by (rewrite Sg; apply P).
    destruct (wlp_elim _ _ _ (step_spec solver rnd rfuel n nb ni col c feas accepted good eps delta tol S (conj D T) C R cur w1 Rep Hh Sc) E) as (A1 & A2 & _).
    split; [exact A1|exact (eq_trans A2 Sg)].
Qed.

(* After every pass the global lower bound is below the cost of every feasible
   integer point that is better than the incumbent. *)
Theorem C32_lower_bound w cur w' v : prepared w -> passes w cur w' -> feasible_integer v ->
  bounded_by (bb_L w') (bb_U w') v.
Proof using A.
  intros P H V. destruct (passes_head w cur w' P H) as (((_ & U & _) & L & _ & _ & B & _) & _).
  unfold bounded_by. specialize (B v V).
  destruct U as [U|[u U]]; change (@F EOps) with ext in *; rewrite U in *.
  - left. specialize (B I). destruct L as [L|[l L]]; change (@F EOps) with ext in *; rewrite L in *; [destruct B|exact B].
  - destruct (Rle_dec u (value v + eps)) as [Le|Gt]; [right; exact Le|left].
    specialize (B ltac:(cbn; lra)). destruct L as [L|[l L]]; change (@F EOps) with ext in *; rewrite L in *; [destruct B|exact B].
Qed.

(* After every pass the incumbent, if there is one, is acceptable, integral up to
   the tolerance, and has the upper bound as its cost. *)
Theorem C32_incumbent w cur w' u : prepared w -> passes w cur w' -> bb_U w' = Fin u ->
  exists x, (forall i, (i < n)%nat -> get (bb_x w') i = Some (Fin (x i))) /\ nearly_integer x /\ value x = u.
Proof using A.
  intros P H E. destruct (passes_head w cur w' P H) as (((_ & _ & Inc & _) & _) & _).
  destruct (Inc u E) as (x & X & Y & Z). exists x. split; [exact X|]. split; [exact Y|exact Z].
Qed.
End Search.

(* The contract of the solver cannot be weakened to allow unbounded relaxations: the
   code for those is taken for infeasibility, whatever the feasible points are. *)
Theorem C32_refuted_unbounded (solver : oracle) rnd rfuel w r w' :
  (forall k t p s, solver k t p = Some s -> fst (fst s) = ECOS_DINF) ->
  (1 < bs_maxit (bb_stgs w))%Z ->
  @ECOS_BB_solve EOps EInt solver rnd rfuel w = Some (r, w') -> r = MI_INFEASIBLE.
Proof.
  intros H Mx E. unfold ECOS_BB_solve in E. bd E as w1 E1.
  assert (Q: bb_U w1 = PInf /\ bb_L w1 = PInf /\ bb_iter w1 = 0%nat /\ bb_stgs w1 = bb_stgs w).
  { unfold bb_root in E1. bd E1 as w2 E2. bd E1 as w3 E3. bd E1 as nd En. injection E1 as <-.
    assert (Q2: bb_iter w2 = 0%nat /\ bb_stgs w2 = bb_stgs w).
    { unfold initialize_root in E2. bd E2 as wa Ea. apply upd_node_inv in Ea as (? & ? & _ & -> & _). bd E2 as b1 Eb. bd E2 as b2 Ec.
      injection E2 as <-. split; reflexivity. }
    unfold get_bounds in E3. bd E3 as cw Er. destruct cw as [code w4].
    unfold run_relax in Er. bd Er as p1 Ep. bd Er as sr Es. destruct sr as [[code' t'] p']. injection Er as <- <-.
    specialize (H _ _ _ _ Es). cbn [fst] in H. subst code'. cbn [Z.eqb orb ECOS_DINF ECOS_OPTIMAL ECOS_MAXIT ECOS_NUMERICS ECOS_INACC_OFFSET Z.add Pos.eqb] in E3.
    apply upd_node_inv in E3 as (nd0 & ns & _ & -> & _ & G). bbc in En. rewrite G, Nat.eqb_refl in En. injection En as <-.
    bbc. ndc. split; [reflexivity|]. split; [reflexivity|]. exact Q2. }
  destruct Q as (QU & QL & QI & QS).
  assert (Sc: @should_continue EOps w1 0 = false).
  { unfold should_continue. change (@F EOps) with ext in *. rewrite QU, QL. cbn. destruct (bs_abs (bb_stgs w1)); reflexivity. }
  assert (El: @bb_loop EOps EInt solver rnd rfuel (S (Z.to_nat (bs_maxit (bb_stgs w1)))) w1 = Some (0%Z, w1)).
  { unfold bb_loop. cbn [while_]. rewrite Sc. reflexivity. }
  rewrite El in E. cbn [bind] in E. bd E as w2 E2. injection E as <- <-.
  assert (Q2: bb_U w2 = PInf /\ bb_iter w2 = 0%nat /\ bb_stgs w2 = bb_stgs w).
  { unfold load_solution in E2. do 4 (match type of E2 with bind ?m _ = _ => destruct m; [cbn [bind] in E2|discriminate] end).
    injection E2 as <-. auto. }
  destruct Q2 as (QU2 & QI2 & QS2). unfold get_ret_code. change (@F EOps) with ext in *. rewrite QU2, QI2, QS2.
  destruct (Z.ltb_spec (Z.of_nat 0) (bs_maxit (bb_stgs w) - 1)); [|lia]. rewrite f0_E'. reflexivity.
Qed.

Print Assumptions C32_optimal.
Print Assumptions C32_infeasible.
Print Assumptions C32_feasible.
Print Assumptions C32_codes.
Print Assumptions C32_lower_bound.
Print Assumptions C32_incumbent.
Print Assumptions C32_refuted_unbounded.
