(* C33, C34: two complete runs.  The relaxations of a problem with one boolean x and
   cost -x: the first has the solution 2/5, all later ones 0. *)
From Coq Require Import Reals Lra ZArith Bool Lia List Arith QArith_base Qreals.
From Verif Require Import Base Num NumE NumI.
From Verif.Model Require Import Consts Types Spla Ecos BbTypes Bb.
From Verif.Proofs Require Import Wlp BbNum BbP BbOpt BbKeep.
From Verif.Spec Require Import Solver.
From Verif.Properties Require Import SearchEx Passes.
Import ListNotations.
Open Scope R_scope.

Ltac to S := eapply (bind_eq _ _ S); [reflexivity|].

Section Runs.
Variables (t0 : ctrlc) (sg : bbset ext).
Hypothesis Htol : bs_itol sg = Fin (/ 1000).
Notation BW := (bbwork ext).

Definition seq_solver (k : nat) (t : ctrlc) (p : pwork ext) : option (Z * ctrlc * pwork ext) :=
  Some (ECOS_OPTIMAL, t, set_w_x p [Some (Fin (if Nat.eqb k 0 then 2 / 5 else 0))]).

Definition sv (nodes : arr (node ext)) (bids : arr Z) (p : pwork ext) (bx bz bs : arr ext) (k tau : ext) (inf : stats ext) (U L : ext) (tmpb : arr Z)
  (it : nat) (dive : Z) (tbb : arr Z) (solves : nat) : BW :=
  mkBb 1 0 nodes bids [] [Some 0%nat] [] p bx [] bz bs k tau inf U L tmpb [] it dive tbb [] (arr_of [Fin 0; Fin 0]) []
    (arr_of [0; 0]%Z) [] sg 0 solves t0.

Lemma run_seq nodes bids p bx bz bs k tau inf U L tmpb it dive tbb solves bid iid b :
  PP p -> bid 0%nat = Some b -> (b = -1 \/ b = 0 \/ b = 1)%Z ->
  exists p', PP p' /\ w_x p' = [Some (Fin (if Nat.eqb solves 0 then 2 / 5 else 0))] /\
  @run_relax EOps seq_solver bid iid (sv nodes bids p bx bz bs k tau inf U L tmpb it dive tbb solves) =
  Some (ECOS_OPTIMAL, sv nodes bids p' bx bz bs k tau inf U L tmpb it dive tbb (S solves)).
Proof.
  intros (P1 & P2 & P3 & P4 & P5 & (h0 & h1 & P6) & P7 & P8 & P9 & P10) Eb Hb. unfold run_relax.
  assert (Up: forall (q : pwork ext) i u, w_Gequil q = [Some (Fin 1); Some (Fin 1)] -> (i < 2)%nat -> length (w_h q) = 2%nat ->
     exists h, length h = 2%nat /\ @ecos_updateDataEntry_h EOps q i u = Some (set_w_h q h)).
  { intros q i u G Hi Hl. unfold ecos_updateDataEntry_h. change (@F EOps) with ext. rewrite G.
    assert (get [Some (Fin 1); Some (Fin 1)] i = Some (Fin 1)) as -> by (destruct i as [|[|]]; [reflexivity|reflexivity|lia]).
    cbn [bind]. unfold set. change (@F EOps) with ext. rewrite Hl. destruct (Nat.ltb_spec i 2); [|lia]. cbn [bind].
    eexists. split; [|reflexivity]. rewrite upd_length. exact Hl. }
  assert (Ep: exists h h', length h' = 2%nat /\ @set_prob EOps 1 0 bid iid p = Some (set_w_h (set_w_h p h) h')).
  { unfold set_prob. cbn [for_ for_loop Nat.sub]. rewrite Eb. cbn [bind]. rewrite f0_E', f1_E', m1_E.
    destruct Hb as [->|[-> | ->]]; cbn [Z.eqb Pos.eqb MI_ONE MI_ZERO MI_STAR]; change (2 * 0)%nat with 0%nat; change (0 + 1)%nat with 1%nat.
    all: lazymatch goal with |- context [@ecos_updateDataEntry_h EOps ?q0 0 ?u] => destruct (Up q0 0%nat u P5 ltac:(lia) ltac:(rewrite P6; reflexivity)) as (h & Lh & ->) end.
    all: cbn [bind].
    all: lazymatch goal with |- context [@ecos_updateDataEntry_h EOps ?q 1 ?u] => destruct (Up q 1%nat u P5 ltac:(lia) Lh) as (h' & Lh' & ->) end.
    all: exists h, h'; split; [exact Lh'|reflexivity]. }
  destruct Ep as (h & h' & Lh & Ep).
  change (bb_prob (sv nodes bids p bx bz bs k tau inf U L tmpb it dive tbb solves)) with p.
  change (bb_nb (sv nodes bids p bx bz bs k tau inf U L tmpb it dive tbb solves)) with 1%nat.
  change (bb_ni (sv nodes bids p bx bz bs k tau inf U L tmpb it dive tbb solves)) with 0%nat.
  change (bb_solves (sv nodes bids p bx bz bs k tau inf U L tmpb it dive tbb solves)) with solves.
  rewrite Ep. cbn [bind]. unfold seq_solver. cbn [bind].
  eexists. split; [|split; [|reflexivity]]; [|reflexivity].
  split; [exact P1|]. split; [exact P2|]. split; [exact P3|]. split; [exact P4|]. split; [exact P5|].
  split. { change (exists a b, h' = [a; b]). destruct h' as [|a [|c [|]]]; try discriminate Lh. eauto. }
  split; [eexists; reflexivity|]. split; [exact P8|]. split; [exact P9|exact P10].
Qed.

Lemma obj_seq nodes bids p bx bz bs k tau inf U L tmpb it dive tbb solves x : PP p -> w_x p = [Some (Fin x)] ->
  @obj EOps (sv nodes bids p bx bz bs k tau inf U L tmpb it dive tbb solves) = Some (Fin (- x)).
Proof.
  intros (P1 & _ & _ & P4 & _) Hx. unfold obj.
  change (bb_prob (sv nodes bids p bx bz bs k tau inf U L tmpb it dive tbb solves)) with p.
  unfold eddot. change (@F EOps) with ext. rewrite P1, P4, Hx. cbn [for_ for_loop Nat.sub get nth_error bind].
  rewrite f0_E'. cbn. f_equal. f_equal. lra.
Qed.

Lemma round_seq nodes bids p bx bz bs k tau inf U L t it dive tbb solves x z : PP p -> w_x p = [Some (Fin x)] ->
  0 <= x -> IZR z <= x + / 2 < IZR z + 1 -> (0 <= z <= 1)%Z ->
  @round_x EOps EInt (sv nodes bids p bx bz bs k tau inf U L [t] it dive tbb solves) =
  Some (if Rlt_dec (Rabs (x - IZR z)) (/ 1000) then true else false, sv nodes bids p bx bz bs k tau inf U L [Some z] it dive tbb solves).
Proof.
  intros Pp Hx X0 Hz Zb. unfold round_x.
  change (bb_prob (sv nodes bids p bx bz bs k tau inf U L [t] it dive tbb solves)) with p.
  change (bb_nb (sv nodes bids p bx bz bs k tau inf U L [t] it dive tbb solves)) with 1%nat.
  change (bb_ni (sv nodes bids p bx bz bs k tau inf U L [t] it dive tbb solves)) with 0%nat.
  change (bb_stgs (sv nodes bids p bx bz bs k tau inf U L [t] it dive tbb solves)) with sg.
  change (bb_bidx (sv nodes bids p bx bz bs k tau inf U L [t] it dive tbb solves)) with [Some 0%nat].
  change (bb_tmpb (sv nodes bids p bx bz bs k tau inf U L [t] it dive tbb solves)) with [t].
  change (@F EOps) with ext. rewrite Hx, Htol. cbn [for_ for_loop Nat.sub get nth_error bind].
  assert (Zr: Zro x = z). { unfold Zro. destruct (Rle_dec 0 x); [|lra]. apply trunc_is; lra. }
  change (@F EOps) with ext. cbn [get nth_error bind].
  rewrite (round_E x), Zr. rewrite to_int_ok by lia. cbn [bind].
  assert (Fc: @ftochar EOps EInt (Fin (IZR z)) = Some z).
  { unfold ftochar. change (@ftoi EOps EInt (Fin (IZR z))) with (to_int (Rtrunc (IZR z))). rewrite Rtrunc_IZR, to_int_ok by lia. cbn [bind].
    destruct (Z.leb_spec (-128) z); [|lia]. destruct (Z.leb_spec z 127); [reflexivity|lia]. }
  change (@F EOps) with ext in *. cbn [option_map bind].
  rewrite Fc. cbn [bind]. cbn [set length Nat.ltb Nat.leb upd bind]. rewrite (fofZ_E z). rewrite eqls_ex. cbn [andb]. reflexivity.
Qed.

(* the root once its split is known to be sp *)
Definition nrooted (sp : Z * ext) : node ext :=
  mkNode MI_SOLVED_BRANCHABLE (Fin (- (2 / 5))) PInf (Fin (- (2 / 5))) (fst sp) (snd sp) (-1) (Fin 0) (Fin 0) false.

(* what happens once a rule has chosen sp *)
Lemma after_choice N bids p z0 z1 s0 s1 k tau inf dive tbb solves sp L :
  PP p -> solves <> 0%nat -> length N = 3%nat -> exists p' bz bs k' tau' inf', PP p' /\ length bz = 2%nat /\ length bs = 2%nat /\
  (' w <- @upd_node EOps (sv (Some (set_nd_relax (set_nd_L nroot (Fin (- (2 / 5)))) (Fin (- (2 / 5)))) :: N) bids p [None] [z0; z1] [s0; s1] k tau inf PInf L [Some 0%Z] 0 dive tbb solves) 0
     (fun nd => set_nd_status (set_nd_val (set_nd_split nd (fst sp)) (snd sp)) MI_SOLVED_BRANCHABLE) ;;
   ' cw <- @run_relax EOps seq_solver (get (bb_tmpb w)) (get (bb_tmpi w)) w ;;
   let '(code, w) := cw in
   if (code =? ECOS_OPTIMAL)%Z then
     u <- @obj EOps w ;; w <- @upd_node EOps w 0 (fun nd => set_nd_U nd u) ;; @finish_node EOps 0 true w
   else @finish_node EOps 0 false w) =
  Some (sv (Some (nrooted sp) :: N) bids p' [Some (Fin 0)] bz bs k' tau' inf' (Fin (- 0)) L [Some 0%Z] 0 dive tbb (S solves)).
Proof.
  intros Pp Ns LN. destruct N as [|nb0 [|nc0 [|nd0 [|]]]]; try discriminate LN.
  destruct (run_seq [Some (nrooted sp); nb0; nc0; nd0] bids p [None] [z0; z1] [s0; s1] k tau inf PInf L [Some 0%Z] 0 dive tbb solves (get [Some 0%Z]) (get []) 0 Pp eq_refl ltac:(auto))
    as (p1 & P1 & X1 & R1).
  destruct (Nat.eqb_spec solves 0) as [E|_]; [contradiction|].
  pose proof P1 as (Q1 & Q2 & Q3 & _ & _ & _ & _ & Q8 & (pz0 & pz1 & Q9) & (ps0 & ps1 & Q10)).
  exists p1, [pz0; pz1], [ps0; ps1], (w_kap p1), (w_tau p1), (w_info p1).
  split; [exact P1|]. split; [reflexivity|]. split; [reflexivity|].
  to (sv [Some (nrooted sp); nb0; nc0; nd0] bids p [None] [z0; z1] [s0; s1] k tau inf PInf L [Some 0%Z] 0 dive tbb solves).
  eapply bind_eq; [exact R1|]. cbn [Z.eqb ECOS_OPTIMAL]. cbn match.
  eapply bind_eq; [exact (obj_seq _ _ p1 _ _ _ _ _ _ _ _ _ _ _ _ _ 0 P1 X1)|].
  to (sv [Some (set_nd_U (nrooted sp) (Fin (- 0))); nb0; nc0; nd0] bids p1 [None] [z0; z1] [s0; s1] k tau inf PInf L [Some 0%Z] 0 dive tbb (S solves)).
  unfold finish_node. eapply (bind_eq _ _ (set_nd_U (nrooted sp) (Fin (- 0)))); [reflexivity|].
  match goal with |- context [@flt EOps ?x ?y] => change (@flt EOps x y) with true end. cbn match.
  eapply (bind_eq _ _ (sv [Some (set_nd_U (nrooted sp) (Fin (- 0))); nb0; nc0; nd0] bids p1 [Some (Fin 0)] [pz0; pz1] [ps0; ps1] (w_kap p1) (w_tau p1) (w_info p1) (Fin (- 0)) L [Some 0%Z] 0 dive tbb (S solves))).
  { eapply bind_eq.
    - unfold store_solution.
      match goal with |- context [bb_prob (sv ?A ?B ?C ?D ?E ?FF ?G ?H ?I ?J ?K ?LL ?M ?N ?P ?Q)] => change (bb_prob (sv A B C D E FF G H I J K LL M N P Q)) with C end.
      change (@F EOps) with ext. rewrite Q1, Q2, Q3, Q8, Q9, Q10, X1. reflexivity.
    - reflexivity. }
  to (sv [Some (nrooted sp); nb0; nc0; nd0] bids p1 [Some (Fin 0)] [pz0; pz1] [ps0; ps1] (w_kap p1) (w_tau p1) (w_info p1) (Fin (- 0)) L [Some 0%Z] 0 dive tbb (S solves)).
  eapply (bind_eq _ _ (nrooted sp)); [reflexivity|].
  match goal with |- context [@flt EOps ?x ?y] => change (@flt EOps x y) with (@flt EOps (Fin (- 0)) (Fin (- (2 / 5)))) end.
  rewrite elt_N by lra. reflexivity.
Qed.

(* the root, once the rule [choose_split] is known to choose sp after j solves *)
Lemma root_run p z0 z1 s0 s1 k tau inf U L it dive rnd sp j tbb tbb' :
  PP p ->
  (forall p1 dive, PP p1 -> w_x p1 = [Some (Fin (2 / 5))] -> exists p2, PP p2 /\
    @choose_split EOps EInt seq_solver rnd 0
      (sv [Some (set_nd_relax (set_nd_L nroot (Fin (- (2 / 5)))) (Fin (- (2 / 5)))); Some zn; Some zn; Some zn] [Some (-1)%Z; None; None; None] p1 [None] [z0; z1] [s0; s1] k tau inf PInf NInf [Some 0%Z] 0 dive tbb 1) (0%Z, Fin 0) 0 =
    Some (sp, sv [Some (set_nd_relax (set_nd_L nroot (Fin (- (2 / 5)))) (Fin (- (2 / 5)))); Some zn; Some zn; Some zn] [Some (-1)%Z; None; None; None] p2 [None] [z0; z1] [s0; s1] k tau inf PInf NInf [Some 0%Z] 0 dive tbb' (S j))) ->
  exists p' bz bs k' tau' inf', PP p' /\ length bz = 2%nat /\ length bs = 2%nat /\
    @get_bounds EOps EInt seq_solver rnd 0 0
      (sv [Some nroot; Some zn; Some zn; Some zn] [Some (-1)%Z; None; None; None] p [None] [z0; z1] [s0; s1] k tau inf PInf NInf [None] 0 0 tbb 0) =
    Some (sv [Some (nrooted sp); Some zn; Some zn; Some zn] [Some (-1)%Z; None; None; None] p' [Some (Fin 0)] bz bs k' tau' inf' (Fin (- 0)) NInf [Some 0%Z] 0 0 tbb' (S (S j))) /\
    @bb_root EOps EInt seq_solver rnd 0
      (sv [Some zn; Some zn; Some zn; Some zn] [None; None; None; None] p [None] [z0; z1] [s0; s1] k tau inf U L [None] it dive tbb 0) =
    Some (sv [Some (nrooted sp); Some zn; Some zn; Some zn] [Some (-1)%Z; None; None; None] p' [Some (Fin 0)] bz bs k' tau' inf' PInf (Fin (- (2 / 5))) [Some 0%Z] 0 0 tbb' (S (S j))).
Proof.
  intros Pp Ch.
  destruct (run_seq [Some nroot; Some zn; Some zn; Some zn] [Some (-1)%Z; None; None; None] p [None] [z0; z1] [s0; s1] k tau inf PInf NInf [None] 0 0 tbb 0
    (fun i => get [Some (-1)%Z; None; None; None] (0 + i)) (fun i => get [] (0 + i)) (-1) Pp eq_refl ltac:(auto)) as (p1 & P1 & X1 & R1).
  cbn [Nat.eqb] in X1. destruct (Ch p1 0%Z P1 X1) as (p2 & P2 & C2).
  destruct (after_choice [Some zn; Some zn; Some zn] [Some (-1)%Z; None; None; None] p2 z0 z1 s0 s1 k tau inf 0 tbb' (S j) sp NInf P2 ltac:(lia) eq_refl)
    as (p3 & bz & bs & k' & tau' & inf' & P3 & Lz & Ls & A3).
  exists p3, bz, bs, k', tau', inf'. split; [exact P3|]. split; [exact Lz|]. split; [exact Ls|].
  assert (G: @get_bounds EOps EInt seq_solver rnd 0 0
      (sv [Some nroot; Some zn; Some zn; Some zn] [Some (-1)%Z; None; None; None] p [None] [z0; z1] [s0; s1] k tau inf PInf NInf [None] 0 0 tbb 0) =
    Some (sv [Some (nrooted sp); Some zn; Some zn; Some zn] [Some (-1)%Z; None; None; None] p3 [Some (Fin 0)] bz bs k' tau' inf' (Fin (- 0)) NInf [Some 0%Z] 0 0 tbb' (S (S j)))).
  { unfold get_bounds. eapply bind_eq; [exact R1|]. cbn [Z.eqb ECOS_OPTIMAL orb]. cbn match.
    eapply bind_eq; [exact (obj_seq _ _ p1 _ _ _ _ _ _ _ _ _ _ _ _ _ (2 / 5) P1 X1)|].
    to (sv [Some (set_nd_L nroot (Fin (- (2 / 5)))); Some zn; Some zn; Some zn] [Some (-1)%Z; None; None; None] p1 [None] [z0; z1] [s0; s1] k tau inf PInf NInf [None] 0 0 tbb 1).
    match goal with |- context [@flt EOps ?x ?y] => change (@flt EOps x y) with false end. cbn match.
    to (sv [Some (set_nd_relax (set_nd_L nroot (Fin (- (2 / 5)))) (Fin (- (2 / 5)))); Some zn; Some zn; Some zn] [Some (-1)%Z; None; None; None] p1 [None] [z0; z1] [s0; s1] k tau inf PInf NInf [None] 0 0 tbb 1).
    to (sv [Some (set_nd_relax (set_nd_L nroot (Fin (- (2 / 5)))) (Fin (- (2 / 5)))); Some zn; Some zn; Some zn] [Some (-1)%Z; None; None; None] p1 [None] [z0; z1] [s0; s1] k tau inf PInf NInf [None] 0 0 tbb 1).
    eapply bind_eq; [refine (round_seq _ _ _ _ _ _ _ _ _ _ _ _ _ _ _ _ (2 / 5) 0 P1 X1 _ _ _); try lra; lia|].
    destruct (Rlt_dec (Rabs (2 / 5 - IZR 0)) (/ 1000)) as [Hl|_]; [rewrite Rabs_right in Hl; lra|]. cbn match.
    unfold branch_node.
    eapply (bind_eq _ _ (set_nd_relax (set_nd_L nroot (Fin (- (2 / 5)))) (Fin (- (2 / 5))))); [reflexivity|].
    eapply bind_eq; [exact C2|]. cbn match. exact A3. }
  split; [exact G|]. unfold bb_root. eapply bind_eq; [|eapply bind_eq; [exact G|reflexivity]]. reflexivity.
Qed.
End Runs.

(* --------------------------------------------------------------- C34 *)
Definition once : bbset ext := mkBs 1 (Fin 0) (Fin 0) (Fin (/ 1000)) MostInfeasible 6 BreadthFirst.

Lemma most_once t0 nodes bids p bx bz bs k tau inf U L tmpb it dive tbb solves sp x : PP p -> w_x p = [Some (Fin x)] -> 0 < x < 1 ->
  @most_infeasible EOps EInt (sv t0 once nodes bids p bx bz bs k tau inf U L tmpb it dive tbb solves) sp =
  Some ((0%Z, Fin x), sv t0 once nodes bids p bx bz bs k tau inf U L tmpb it dive tbb solves).
Proof.
  intros Pp Hx X. unfold most_infeasible.
  change (bb_prob (sv t0 once nodes bids p bx bz bs k tau inf U L tmpb it dive tbb solves)) with p.
  change (bb_nb (sv t0 once nodes bids p bx bz bs k tau inf U L tmpb it dive tbb solves)) with 1%nat.
  change (@nvars EOps (sv t0 once nodes bids p bx bz bs k tau inf U L tmpb it dive tbb solves)) with 1%nat.
  unfold var_col.
  change (bb_nb (sv t0 once nodes bids p bx bz bs k tau inf U L tmpb it dive tbb solves)) with 1%nat.
  change (bb_bidx (sv t0 once nodes bids p bx bz bs k tau inf U L tmpb it dive tbb solves)) with [Some 0%nat].
  change (@F EOps) with ext. rewrite Hx. cbn [for_ for_loop Nat.sub get nth_error bind Nat.ltb Nat.leb].
  unfold abs_2. rewrite f0_E', half_E, f1_E'. change (@fsub EOps (Fin x) (Fin (/ 2))) with (Fin (x - / 2)).
  destruct (Rlt_dec (x - / 2) 0) as [N|N].
  - rewrite (elt_T (x - / 2) 0) by lra. change (@fneg EOps (Fin (x - / 2))) with (Fin (- (x - / 2))). rewrite elt_T by lra. reflexivity.
  - rewrite (elt_N (x - / 2) 0) by lra. rewrite elt_T by lra. reflexivity.
Qed.

(* A run limited to the root whose rounding finds the integer solution 0, stores it,
   forgets its value, and reports that there is none. *)
Theorem C34_refuted_discarded : forall t0 p z0 z1 s0 s1 k tau inf U L it dive tbb, PP p ->
  exists w1 w',
    @initialize_root EOps (set_bb_dive (set_bb_iter (sv t0 once [Some zn; Some zn; Some zn; Some zn] [None; None; None; None] p [None] [z0; z1] [s0; s1] k tau inf U L [None] it dive tbb 0) 0) 0) = Some w1 /\
    (exists w2, @get_bounds EOps EInt seq_solver (fun _ => 0%Z) 0 0 w1 = Some w2 /\ bb_U w2 = Fin (- 0) /\ get (bb_x w2) 0 = Some (Fin 0)) /\
    @ECOS_BB_solve EOps EInt seq_solver (fun _ => 0%Z) 0
      (sv t0 once [Some zn; Some zn; Some zn; Some zn] [None; None; None; None] p [None] [z0; z1] [s0; s1] k tau inf U L [None] it dive tbb 0) = Some (MI_MAXITER_NO_SOLN, w') /\
    get (w_x (bb_prob w')) 0 = Some (Fin 0) /\ bb_U w' = PInf.
Proof.
  intros t0 p z0 z1 s0 s1 k tau inf U L it dive tbb Pp.
  destruct (root_run t0 once eq_refl p z0 z1 s0 s1 k tau inf U L it dive (fun _ => 0%Z) (0%Z, Fin (2 / 5)) 0 tbb tbb Pp) as (p' & bz & bs & k' & tau' & inf' & P' & Lz & Ls & G & R).
  { intros p1 dv P1 X1. exists p1. split; [exact P1|]. unfold choose_split. change (bs_strategy _) with MostInfeasible at 1. cbn match.
    apply most_once; [exact P1|exact X1|lra]. }
  destruct bz as [|bz0 [|bz1 [|]]]; try discriminate Lz. destruct bs as [|bs0 [|bs1 [|]]]; try discriminate Ls.
  pose proof P' as (Q1 & Q2 & Q3 & _ & _ & _ & (x0 & Q7) & Q8 & (pz0 & pz1 & Q9) & (ps0 & ps1 & Q10)).
  set (w3 := sv t0 once [Some (nrooted (0%Z, Fin (2 / 5))); Some zn; Some zn; Some zn] [Some (-1)%Z; None; None; None] p' [Some (Fin 0)] [bz0; bz1] [bs0; bs1] k' tau' inf' PInf (Fin (- (2 / 5))) [Some 0%Z] 0 0 tbb 2) in *.
  assert (Ld: exists w' : bbwork ext, @load_solution EOps w3 = Some w' /\ get (w_x (bb_prob w')) 0 = Some (Fin 0) /\ bb_U w' = PInf /\ bb_iter w' = 0%nat /\ bb_stgs w' = once).
  { unfold load_solution. change (bb_prob w3) with p'. unfold copyN. change (@F EOps) with ext. rewrite Q1, Q2, Q3, Q7, Q8, Q9, Q10.
    eexists. split; [reflexivity|]. split; [reflexivity|]. split; [reflexivity|]. split; reflexivity. }
  destruct Ld as (w' & Ld & Xw & Uw & Iw & Sw).
  assert (Rc: @get_ret_code EOps w' = MI_MAXITER_NO_SOLN). { unfold get_ret_code. change (@F EOps) with ext. rewrite Iw, Sw, Uw. reflexivity. }
  assert (Sc: @should_continue EOps w3 0 = false). { unfold should_continue. change (bb_iter w3) with 0%nat. change (bs_maxit (bb_stgs w3)) with 1%Z. apply andb_false_r. }
  exists (sv t0 once [Some nroot; Some zn; Some zn; Some zn] [Some (-1)%Z; None; None; None] p [None] [z0; z1] [s0; s1] k tau inf PInf NInf [None] 0 0 tbb 0), w'. split; [reflexivity|]. split.
  { eexists. split; [exact G|]. split; reflexivity. }
  split; [|split; [exact Xw|exact Uw]].
  unfold ECOS_BB_solve. eapply bind_eq; [exact R|].
  eapply (bind_eq _ _ (0%Z, w3)).
  - unfold bb_loop. generalize (Z.to_nat (bs_maxit (bb_stgs w3))). intros f. cbn [while_]. rewrite Sc. reflexivity.
  - eapply bind_eq; [exact Ld|]. rewrite Rc. reflexivity.
Qed.

(* --------------------------------------------------------------- C33 *)
Definition strong : bbset ext := mkBs 4 (Fin 0) (Fin 0) (Fin (/ 1000)) StrongBranching 6 BreadthFirst.

Lemma near_zero t0 nodes bids p bx bz bs k tau inf U L tmpb it dive tbb solves :
  @near_int EOps EInt (sv t0 strong nodes bids p bx bz bs k tau inf U L tmpb it dive tbb solves) (Fin 0) = Some true.
Proof.
  unfold near_int. change (bs_itol _) with (Fin (/ 1000)).
  rewrite floor_E. assert (Zfl (/ 1000) 0 = 0%Z) as ->. { unfold Zfl. destruct (Rlt_dec 0 0); [lra|]. apply trunc_is; lra. }
  rewrite to_int_ok by lia. cbn [bind option_map]. rewrite eqls_ex. destruct (Rlt_dec _ _) as [_|N]; [reflexivity|].
  exfalso. apply N. rewrite Rminus_0_r, Rabs_R0. lra.
Qed.

Theorem C33_refuted_strong : forall t0 p z0 z1 s0 s1 k tau inf U L it dive, PP p ->
  @ECOS_BB_solve EOps EInt seq_solver (fun _ => 0%Z) 0
    (sv t0 strong [Some zn; Some zn; Some zn; Some zn] [None; None; None; None] p [None] [z0; z1] [s0; s1] k tau inf U L [None] it dive [None] 0) = None.
Proof.
  intros t0 p z0 z1 s0 s1 k tau inf U L it dive Pp.
  destruct (root_run t0 strong eq_refl p z0 z1 s0 s1 k tau inf U L it dive (fun _ => 0%Z) ((-1)%Z, Fin 0) 1 [None] [Some (-1)%Z] Pp) as (p' & bz & bs & k' & tau' & inf' & P' & Lz & Ls & G & R).
  { intros p1 dv P1 X1. unfold choose_split. change (bs_strategy _) with StrongBranching at 1. cbn match. unfold strong_branching.
    destruct (run_seq t0 strong [Some (set_nd_relax (set_nd_L nroot (Fin (- (2 / 5)))) (Fin (- (2 / 5)))); Some zn; Some zn; Some zn] [Some (-1)%Z; None; None; None] p1 [None] [z0; z1] [s0; s1] k tau inf PInf NInf [Some 0%Z] 0 dv [Some (-1)%Z] 1
      (get [Some (-1)%Z]) (get []) (-1) P1 eq_refl ltac:(auto)) as (p2 & P2 & X2 & R2). cbn [Nat.eqb] in X2.
    exists p2. split; [exact P2|].
    eapply bind_eq; [reflexivity|].
    eapply bind_eq. { unfold calc_tmp. eapply bind_eq; [exact R2|]. eapply bind_eq; [exact (obj_seq _ _ _ _ p2 _ _ _ _ _ _ _ _ _ _ _ _ _ 0 P2 X2)|reflexivity]. }
    cbn match. match goal with |- context [bb_prob (sv ?T ?S ?A ?B ?C ?D ?E ?FF ?G ?H ?I ?J ?K ?LL ?M ?N ?P ?Q)] => change (bb_prob (sv T S A B C D E FF G H I J K LL M N P Q)) with C end.
    pose proof P2 as (Q1 & _). change (@F EOps) with ext. rewrite Q1, X2.
    eapply (bind_eq _ _ [Some (Fin 0)]); [reflexivity|].
    eapply bind_eq; [reflexivity|]. cbn match.
    match goal with |- context [for_ 0 ?n _ _] => change n with 1%nat end. cbn [for_ for_loop Nat.sub].
    eapply (bind_eq _ _ ((-1)%Z, Fin 0, NInf, sv t0 strong [Some (set_nd_relax (set_nd_L nroot (Fin (- (2 / 5)))) (Fin (- (2 / 5)))); Some zn; Some zn; Some zn] [Some (-1)%Z; None; None; None] p2 [None] [z0; z1] [s0; s1] k tau inf PInf NInf [Some 0%Z] 0 dv [Some (-1)%Z] 2)); [|reflexivity].
    eapply (bind_eq _ _ ((-1)%Z, Fin 0, NInf, sv t0 strong [Some (set_nd_relax (set_nd_L nroot (Fin (- (2 / 5)))) (Fin (- (2 / 5)))); Some zn; Some zn; Some zn] [Some (-1)%Z; None; None; None] p2 [None] [z0; z1] [s0; s1] k tau inf PInf NInf [Some 0%Z] 0 dv [Some (-1)%Z] 2)); [|reflexivity].
    eapply (bind_eq _ _ 0%nat); [reflexivity|]. eapply (bind_eq _ _ 0%nat); [reflexivity|]. eapply (bind_eq _ _ (Fin 0)); [reflexivity|].
    eapply bind_eq; [exact (near_zero _ _ _ _ _ _ _ _ _ _ _ _ _ _ _ _ _)|]. reflexivity. }
  unfold ECOS_BB_solve. eapply bind_eq; [exact R|].
  unfold bb_loop. match goal with |- context [while_ (S (Z.to_nat ?m))] => change (Z.to_nat m) with 4%nat end. cbn [while_].
  match goal with |- context [@should_continue EOps ?w ?i] => change (@should_continue EOps w i) with
      (@flt EOps (Fin 0) PInf && @flt EOps (Fin 0) (@abs_2 EOps (@fsub EOps (@fdiv EOps PInf (Fin (- (2 / 5)))) (@f1 EOps))) && true && true)%bool end.
  assert (H: @flt EOps (Fin 0) (@abs_2 EOps (@fsub EOps (@fdiv EOps PInf (Fin (- (2 / 5)))) (@f1 EOps))) = true).
  { cbn [fdiv EOps]. cbn [ediv]. destruct (Rlt_dec (- (2 / 5)) 0); [|lra]. reflexivity. }
  rewrite H. change (@flt EOps (Fin 0) PInf) with true. cbn [bind andb]. reflexivity.
Qed.
(* The same relaxations meet the contract of Properties/Passes.v, and with another
   rule the run ends. *)
Definition plain : bbset ext := mkBs 4 (Fin 0) (Fin 0) (Fin (/ 1000)) Reliability 6 DiveUpper.

Theorem C33_example : forall t0 p z0 z1 s0 s1 k tau inf U L it dive, PP p ->
  let w := sv t0 plain [Some zn; Some zn; Some zn; Some zn] [None; None; None; None] p [None] [z0; z1] [s0; s1] k tau inf U L [None] it dive [None] 0 in
  @total_solver EOps EInt 1 0 2 1 0 (fun _ => 0%nat) (Fin (/ 1000)) PP seq_solver /\
  @allocated EOps EInt 1 0 2 (fun _ => 0%nat) PP w /\
  exists r w', @ECOS_BB_solve EOps EInt seq_solver (fun _ => 0%Z) 0 w = Some (r, w') /\ documented r /\ (Z.of_nat (bb_iter w') < 4)%Z.
Proof.
  intros t0 p z0 z1 s0 s1 k tau inf U L it dive Pp w.
  assert (T: @total_solver EOps EInt 1 0 2 1 0 (fun _ => 0%nat) (Fin (/ 1000)) PP seq_solver).
  { split.
    - intros q (P1 & P2 & P3 & P4 & P5 & (h0 & h1 & P6) & (x0 & P7) & P8 & (a & b & P9) & (c & d & P10)). change (@F EOps) with ext.
      rewrite P1, P2, P3, P4, P5, P6, P7, P8, P9, P10. repeat (split; [reflexivity|]).
      split. { intros i Hi. exists (Fin 1). destruct i as [|[|]]; [reflexivity|reflexivity|lia]. }
      split. { intros i Hi. exists (Fin (-1)). destruct i; [reflexivity|lia]. }
      cbn; lia.
    - intros q h (P1 & P2 & P3 & P4 & P5 & (h0 & h1 & P6) & P7 & P8 & P9 & P10) Lh. change (@F EOps) with ext in Lh. rewrite P6 in Lh.
      split; [exact P1|]. split; [exact P2|]. split; [exact P3|]. split; [exact P4|]. split; [exact P5|].
      split. { change (exists a b, h = [a; b]). destruct h as [|a [|c [|]]]; try discriminate Lh. eauto. }
      split; [exact P7|]. split; [exact P8|]. split; [exact P9|exact P10].
    - intros j t q (P1 & P2 & P3 & P4 & P5 & P6 & P7 & P8 & P9 & P10). unfold seq_solver. do 3 eexists. split; [reflexivity|].
      split. { split; [exact P1|]. split; [exact P2|]. split; [exact P3|]. split; [exact P4|]. split; [exact P5|]. split; [exact P6|].
        split; [eexists; reflexivity|]. split; [exact P8|]. split; [exact P9|exact P10]. }
      split. { intros i Hi. eexists. destruct i; [reflexivity|lia]. }
      intros i y Hi Hy. injection Hy as <-.
      destruct (C33_convertible (if Nat.eqb j 0 then 2 / 5 else 0) (/ 1000) ltac:(lra)) as [C1 C2]; [destruct (Nat.eqb j 0); lra|].
      split; [exact C1|]. intros _. apply C2. destruct (Nat.eqb j 0); lra. }
  assert (Z0: @convertible EOps EInt (Fin (/ 1000)) (Fin 0)) by (apply C33_convertible; lra).
  assert (A: @allocated EOps EInt 1 0 2 (fun _ => 0%nat) PP w).
  { constructor; try (cbn; lia).
    - intros j Hj. change (bb_nb w) with 1%nat in Hj. assert (j = 0)%nat as -> by lia. reflexivity.
    - intros i Hi. change (Z.to_nat (bs_maxit (bb_stgs w))) with 4%nat in Hi. exists zn.
      split; [destruct i as [|[|[|[|]]]]; [reflexivity|reflexivity|reflexivity|reflexivity|lia]|].
      split; [cbn; lia|]. split; [exact Z0|]. split; [cbn; lia|exact Z0].
    - assert (Fi: forall A (v : A) i, (i < 2)%nat -> exists u, get (arr_of [v; v]) i = Some u).
      { intros A v i Hi. exists v. destruct i as [|[|]]; [reflexivity|reflexivity|lia]. }
      split; [intros i Hi; exact (Fi _ (Fin 0) i Hi)|]. split; [intros i Hi; cbn in Hi; lia|].
      split; [intros i Hi; exact (Fi _ 0%Z i Hi)|]. intros i Hi. cbn in Hi. lia.
    - exact Pp. }
  split; [exact T|]. split; [exact A|].
  apply (@C33_terminates EOps EInt seq_solver (fun _ => 0%Z) 0 1 0 2 (fun _ => 0%nat) PP w T A); try (cbn; lia); try discriminate.
  - intros j. unfold RAND_MAX. lia.
Qed.
Print Assumptions C33_example.
Print Assumptions C34_refuted_discarded.
Print Assumptions C33_refuted_strong.
