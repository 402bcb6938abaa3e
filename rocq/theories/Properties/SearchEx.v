(* C32: a search meeting the hypotheses of Properties/Search.v, carried out in full:
   the root is fractional, rounding fails, one branch is integral and the other
   infeasible. *)
From Coq Require Import Reals Lra ZArith Bool Lia List Arith QArith_base Qreals.
From Verif Require Import Base Num NumE NumI.
From Verif.Model Require Import Consts Types Spla Ecos BbTypes Bb.
From Verif.Spec Require Import Integer MixedInteger.
From Verif.Proofs Require Import Wlp BbNum BbP BbOpt.
From Verif.Properties Require Import Search.
Import ListNotations.
Open Scope R_scope.

(* Minimise -x for a boolean x with x <= 1/2: the relaxation is fractional, the
   best integer point is 0. *)
Section Example.
Variable (t0 : ctrlc).
Definition ex_solver : oracle := fun k t p =>
  a <- get (w_h p) 0 ;; b <- get (w_h p) 1 ;;
  match a, b with
  | Fin a, Fin b => if Rle_dec (- a) (Rmin b (/ 2)) then Some (ECOS_OPTIMAL, t, set_w_x p [Some (Fin (Rmin b (/ 2)))])
                    else Some (ECOS_PINF, t, p)
  | _, _ => None
  end.
Definition ex_good (p : pwork ext) : Prop := w_n p = 1%nat /\ get (w_c p) 0 = Some (Fin (-1)) /\
  w_Gequil p = [Some (Fin 1); Some (Fin 1)].
Definition ex_feas (v : nat -> R) : Prop := v 0%nat <= / 2.

Lemma ex_contract : relaxation_solver 1 1 0 (fun _ => 0%nat) (fun _ => -1) ex_feas ex_good ex_feas 0 0 ex_solver.
Proof.
  split.
  - intros p (A & B & C). split; [exact A|]. split.
    + intros i Hi. assert (i = 0)%nat as -> by lia. exact B.
    + intros i Hi. rewrite C. assert (i = 0 \/ i = 1)%nat as [-> | ->] by lia; exists 1; split; try reflexivity; lra.
  - intros p h (A & B & C) _ _. exact (conj A (conj B C)).
  - intros k t p lo hi code t' p' (A & B & C) P S. destruct (P 0%nat ltac:(lia)) as (a & b & ea & eb & Ha & Ga & Ea & Hb & Gb & Eb).
    cbn in Ha, Hb, Ga, Gb. rewrite C in Ga, Gb. injection Ga as <-. injection Gb as <-.
    unfold ex_solver in S. rewrite Ha, Hb in S. cbn [bind] in S.
    assert (Elo: lo 0%nat = - a) by lra. assert (Ehi: hi 0%nat = b) by lra.
    pose proof (Rmin_l b (/ 2)) as M1. pose proof (Rmin_r b (/ 2)) as M2.
    destruct (Rle_dec (- a) (Rmin b (/ 2))) as [L|L]; injection S as <- <- <-.
    + split; [exact (conj A (conj B C))|]. split; [|intros U; elim U; left; reflexivity].
      intros _. exists (fun _ => Rmin b (/ 2)). split; [|split; [|split]].
      * intros i Hi. assert (i = 0)%nat as -> by lia. reflexivity.
      * unfold ex_feas. lra.
      * intros j Hj. assert (j = 0)%nat as -> by lia. rewrite Elo, Ehi. lra.
      * intros v Fv Bv. specialize (Bv 0%nat ltac:(lia)). unfold ex_feas in Fv. unfold cost, dotp. cbn [Rsum].
        rewrite Ehi in Bv. pose proof (Rmin_glb _ _ (v 0%nat) (proj2 Bv) Fv). lra.
    + split; [exact (conj A (conj B C))|]. split.
      * intros [U|[U|[U|U]]]; discriminate U.
      * intros _ v Fv Bv. specialize (Bv 0%nat ltac:(lia)). unfold ex_feas in Fv. rewrite Elo, Ehi in Bv.
        pose proof (Rmin_glb _ _ (v 0%nat) (proj2 Bv) Fv). lra.
Qed.


Definition PP (p : pwork ext) : Prop := w_n p = 1%nat /\ w_p p = 0%nat /\ w_m p = 2%nat /\ w_c p = [Some (Fin (-1))] /\
  w_Gequil p = [Some (Fin 1); Some (Fin 1)] /\ (exists h0 h1, w_h p = [h0; h1]) /\
  (exists x0, w_x p = [x0]) /\ w_y p = [] /\ (exists z0 z1, w_z p = [z0; z1]) /\ (exists s0 s1, w_s p = [s0; s1]).

Definition st (nodes : arr (node ext)) (bids : arr Z) (p : pwork ext) (bx bz bs : arr ext) (k tau : ext) (inf : stats ext) (U L : ext) (tmpb : arr Z)
  (it : nat) (dive : Z) (psb : arr ext) (pcb : arr Z) (solves : nat) : BW :=
  mkBb 1 0 nodes bids [] [Some 0%nat] [] p bx [] bz bs k tau inf U L tmpb [] it dive [None] [] psb []
    pcb [] (mkBs 4 (Fin 0) (Fin 0) (Fin (/ 1000)) MostInfeasible 6 BreadthFirst) 0 solves t0.

Lemma run_ex nodes bids p bx bz bs k tau inf U L tmpb it dive psb pcb solves bid iid b :
  PP p -> bid 0%nat = Some b -> (b = -1 \/ b = 0 \/ b = 1)%Z ->
  exists p', PP p' /\ (b = 1%Z \/ w_x p' = [Some (Fin (if (b =? -1)%Z then / 2 else 0))]) /\
  @run_relax EOps ex_solver bid iid (st nodes bids p bx bz bs k tau inf U L tmpb it dive psb pcb solves) =
  Some (if (b =? 1)%Z then ECOS_PINF else ECOS_OPTIMAL, st nodes bids p' bx bz bs k tau inf U L tmpb it dive psb pcb (S solves)).
Proof.
  intros (P1 & P2 & P3 & P4 & P5 & (h0 & h1 & P6) & P7 & P8 & P9 & P10) Eb Hb. unfold run_relax.
  assert (D: forall u, ediv (Fin u) (Fin 1) = Fin u).
  { intros u. unfold ediv. destruct (Req_EM_T 1 0); [lra|]. f_equal. field. }
  assert (Up: forall (q : pwork ext) i u, w_Gequil q = [Some (Fin 1); Some (Fin 1)] -> (i < 2)%nat -> length (w_h q) = 2%nat ->
     @ecos_updateDataEntry_h EOps q i (Fin u) = Some (set_w_h q (upd (w_h q) i (Some (Fin u))))).
  { intros q i u G Hi Hl. unfold ecos_updateDataEntry_h. change (@F EOps) with ext. rewrite G.
    assert (get [Some (Fin 1); Some (Fin 1)] i = Some (Fin 1)) as -> by (destruct i as [|[|]]; [reflexivity|reflexivity|lia]).
    cbn [bind]. unfold set. change (@F EOps) with ext. rewrite Hl. destruct (Nat.ltb_spec i 2); [|lia]. cbn [bind].
    unfold fdiv; cbn [EOps]. rewrite D. reflexivity. }
  assert (Ep: @set_prob EOps 1 0 bid iid p = Some (set_w_h (set_w_h p (upd (w_h p) 0 (Some (Fin (if (b =? 1)%Z then -1 else 0)))))
     (upd (upd (w_h p) 0 (Some (Fin (if (b =? 1)%Z then -1 else 0)))) 1 (Some (Fin (if (b =? 0)%Z then 0 else 1)))))).
  { unfold set_prob. cbn [for_ for_loop Nat.sub]. rewrite Eb. cbn [bind]. rewrite f0_E', f1_E', m1_E.
    destruct Hb as [->|[-> | ->]]; cbn [Z.eqb Pos.eqb MI_ONE MI_ZERO MI_STAR]; change (2 * 0)%nat with 0%nat; change (0 + 1)%nat with 1%nat.
    all: rewrite (Up p) by (auto; rewrite P6; reflexivity). all: cbn [bind].
    all: rewrite (Up (set_w_h _ _)) by (try exact P5; auto; change (w_h (set_w_h p ?h)) with h; rewrite P6; reflexivity). all: reflexivity. }

  change (bb_prob (st nodes bids p bx bz bs k tau inf U L tmpb it dive psb pcb solves)) with p.
  change (bb_nb (st nodes bids p bx bz bs k tau inf U L tmpb it dive psb pcb solves)) with 1%nat.
  change (bb_ni (st nodes bids p bx bz bs k tau inf U L tmpb it dive psb pcb solves)) with 0%nat.
  change (bb_solves (st nodes bids p bx bz bs k tau inf U L tmpb it dive psb pcb solves)) with solves.
  rewrite Ep. clear Ep Up. rewrite P6. cbn [upd bind].
  match goal with |- context [set_w_h (set_w_h p ?a) ?hh] => set (h := hh); set (ph := set_w_h (set_w_h p a) h) end.
  assert (G: forall x, (exists x0, x = [x0]) -> PP (set_w_x ph x)).
  { intros x Hx. split; [exact P1|]. split; [exact P2|]. split; [exact P3|]. split; [exact P4|]. split; [exact P5|].
    split; [exists (Some (Fin (if (b =? 1)%Z then -1 else 0))), (Some (Fin (if (b =? 0)%Z then 0 else 1))); reflexivity|].
    split; [exact Hx|]. split; [exact P8|]. split; [exact P9|exact P10]. }
  assert (G': PP ph).
  { split; [exact P1|]. split; [exact P2|]. split; [exact P3|]. split; [exact P4|]. split; [exact P5|].
    split; [exists (Some (Fin (if (b =? 1)%Z then -1 else 0))), (Some (Fin (if (b =? 0)%Z then 0 else 1))); reflexivity|].
    split; [exact P7|]. split; [exact P8|]. split; [exact P9|exact P10]. }
  unfold ex_solver. change (w_h ph) with h. unfold h. cbn [get nth_error bind].
  destruct Hb as [->|[-> | ->]]; cbn [Z.eqb Pos.eqb].
  - rewrite Rmin_right by lra. destruct (Rle_dec (- 0) (/ 2)); [|lra].
    exists (set_w_x ph [Some (Fin (/ 2))]). split; [apply G; eauto|]. split; [right; reflexivity|reflexivity].
  - rewrite Rmin_left by lra. destruct (Rle_dec (- 0) 0); [|lra].
    exists (set_w_x ph [Some (Fin 0)]). split; [apply G; eauto|]. split; [right; reflexivity|reflexivity].
  - rewrite Rmin_right by lra. destruct (Rle_dec (- -1) (/ 2)); [lra|]. exists ph. split; [exact G'|]. split; [left; reflexivity|reflexivity].
Qed.

Lemma obj_ex nodes bids p bx bz bs k tau inf U L tmpb it dive psb pcb solves x : PP p -> w_x p = [Some (Fin x)] ->
  @obj EOps (st nodes bids p bx bz bs k tau inf U L tmpb it dive psb pcb solves) = Some (Fin (- x)).
Proof.
  intros (P1 & _ & _ & P4 & _) Hx. unfold obj.
  change (bb_prob (st nodes bids p bx bz bs k tau inf U L tmpb it dive psb pcb solves)) with p.
  unfold eddot. change (@F EOps) with ext. rewrite P1, P4, Hx. cbn [for_ for_loop Nat.sub get nth_error bind].
  rewrite f0_E'. cbn. f_equal. f_equal. lra.
Qed.

Definition zn : node ext := mkNode 0 (Fin 0) (Fin 0) (Fin 0) 0 (Fin 0) 0 (Fin 0) (Fin 0) false.
Definition nroot : node ext := mkNode MI_NOT_SOLVED NInf PInf (Fin 0) 0 (Fin 0) (-1) (Fin 0) (Fin 0) false.
Definition nA : node ext := mkNode MI_SOLVED_BRANCHABLE (Fin (- / 2)) PInf (Fin (- / 2)) 0 (Fin (/ 2)) (-1) (Fin 0) (Fin 0) false.

Lemma half_trunc : Rtrunc (/ 2 + / 2) = 1%Z.
Proof. replace (/ 2 + / 2) with (IZR 1) by lra. apply Rtrunc_IZR. Qed.


Lemma bind_eq {A B} (m : option A) (k : A -> option B) (a : A) (r : option B) : m = Some a -> k a = r -> bind m k = r.
Proof. intros -> H. exact H. Qed.
Ltac to S := eapply (bind_eq _ _ S); [reflexivity|].

Lemma trunc_is x z : IZR z <= x < IZR z + 1 -> 0 <= x -> Rtrunc x = z.
Proof. intros H P. unfold Rtrunc. destruct (Rle_dec 0 x); [|lra]. apply Int_part_unique. exact H. Qed.
Lemma elt_T a b : a < b -> @flt EOps (Fin a) (Fin b) = true.
Proof. intros H. cbn. unfold Rltb. destruct (Rlt_dec a b); [reflexivity|lra]. Qed.
Lemma elt_N a b : b <= a -> @flt EOps (Fin a) (Fin b) = false.
Proof. intros H. cbn. unfold Rltb. destruct (Rlt_dec a b); [lra|reflexivity]. Qed.
Lemma eqls_ex a b : @float_eqls EOps (Fin a) (Fin b) (Fin (/ 1000)) = if Rlt_dec (Rabs (a - b)) (/ 1000) then true else false.
Proof.
  unfold float_eqls, abs_2. rewrite f0_E'. change (@fsub EOps (Fin a) (Fin b)) with (Fin (a - b)).
  destruct (Rle_dec 0 (a - b)) as [P|P].
  - rewrite elt_N by exact P. rewrite Rabs_right by lra. cbn. unfold Rltb. destruct (Rlt_dec _ _); reflexivity.
  - rewrite elt_T by lra. rewrite Rabs_left by lra. cbn. unfold Rltb. destruct (Rlt_dec _ _); reflexivity.
Qed.

Lemma round_ex nodes bids p bx bz bs k tau inf U L t it dive psb pcb solves x z : PP p -> w_x p = [Some (Fin x)] ->
  0 <= x -> IZR z <= x + / 2 < IZR z + 1 -> (0 <= z <= 1)%Z ->
  @round_x EOps EInt (st nodes bids p bx bz bs k tau inf U L [t] it dive psb pcb solves) =
  Some (if Rlt_dec (Rabs (x - IZR z)) (/ 1000) then true else false, st nodes bids p bx bz bs k tau inf U L [Some z] it dive psb pcb solves).
Proof.
  intros Pp Hx X0 Hz Zb. unfold round_x.
  change (bb_prob (st nodes bids p bx bz bs k tau inf U L [t] it dive psb pcb solves)) with p.
  change (bb_nb (st nodes bids p bx bz bs k tau inf U L [t] it dive psb pcb solves)) with 1%nat.
  change (bb_ni (st nodes bids p bx bz bs k tau inf U L [t] it dive psb pcb solves)) with 0%nat.
  change (bs_itol (bb_stgs (st nodes bids p bx bz bs k tau inf U L [t] it dive psb pcb solves))) with (Fin (/ 1000)).
  change (bb_bidx (st nodes bids p bx bz bs k tau inf U L [t] it dive psb pcb solves)) with [Some 0%nat].
  change (bb_tmpb (st nodes bids p bx bz bs k tau inf U L [t] it dive psb pcb solves)) with [t].
  change (@F EOps) with ext. rewrite Hx. cbn [for_ for_loop Nat.sub get nth_error bind].
  assert (Zr: Zro x = z). { unfold Zro. destruct (Rle_dec 0 x); [|lra]. apply trunc_is; lra. }
  change (@F EOps) with ext. cbn [get nth_error bind].
  rewrite (round_E x), Zr. rewrite to_int_ok by lia. cbn [bind].
  assert (Fc: @ftochar EOps EInt (Fin (IZR z)) = Some z).
  { unfold ftochar. change (@ftoi EOps EInt (Fin (IZR z))) with (to_int (Rtrunc (IZR z))). rewrite Rtrunc_IZR, to_int_ok by lia. cbn [bind].
    destruct (Z.leb_spec (-128) z); [|lia]. destruct (Z.leb_spec z 127); [reflexivity|lia]. }
  change (@F EOps) with ext in *. cbn [option_map bind].
  rewrite Fc. cbn [bind]. cbn [set length Nat.ltb Nat.leb upd bind]. rewrite (fofZ_E z). rewrite eqls_ex. cbn [andb]. reflexivity.
Qed.

Lemma most_ex nodes bids p bx bz bs k tau inf U L tmpb it dive psb pcb solves sp : PP p -> w_x p = [Some (Fin (/ 2))] ->
  @most_infeasible EOps EInt (st nodes bids p bx bz bs k tau inf U L tmpb it dive psb pcb solves) sp =
  Some ((0%Z, Fin (/ 2)), st nodes bids p bx bz bs k tau inf U L tmpb it dive psb pcb solves).
Proof.
  intros Pp Hx. unfold most_infeasible.
  change (bb_prob (st nodes bids p bx bz bs k tau inf U L tmpb it dive psb pcb solves)) with p.
  change (bb_nb (st nodes bids p bx bz bs k tau inf U L tmpb it dive psb pcb solves)) with 1%nat.
  change (@nvars EOps (st nodes bids p bx bz bs k tau inf U L tmpb it dive psb pcb solves)) with 1%nat.
  unfold var_col.
  change (bb_nb (st nodes bids p bx bz bs k tau inf U L tmpb it dive psb pcb solves)) with 1%nat.
  change (bb_bidx (st nodes bids p bx bz bs k tau inf U L tmpb it dive psb pcb solves)) with [Some 0%nat].
  change (@F EOps) with ext. rewrite Hx. cbn [for_ for_loop Nat.sub get nth_error bind Nat.ltb Nat.leb].
  unfold abs_2. rewrite f0_E', half_E, f1_E'. change (@fsub EOps (Fin (/ 2)) (Fin (/ 2))) with (Fin (/ 2 - / 2)).
  rewrite (elt_N (/ 2 - / 2) 0) by lra. rewrite (elt_T (/ 2 - / 2) 1) by lra. reflexivity.
Qed.

Lemma root_bounds bids p bx bz bs k tau inf dive psb pcb solves : PP p -> get bids 0 = Some (-1)%Z ->
  exists p', PP p' /\
    @get_bounds EOps EInt ex_solver (fun _ => 0%Z) 0 0 (st [Some nroot; Some zn; Some zn; Some zn] bids p bx bz bs k tau inf PInf NInf [None] 0 dive psb pcb solves) =
    Some (st [Some nA; Some zn; Some zn; Some zn] bids p' bx bz bs k tau inf PInf NInf [Some 1%Z] 0 dive psb pcb (S (S solves))).
Proof.
  intros Pp Eb. unfold get_bounds.
  match goal with |- context [run_relax ex_solver ?bid ?iid (st ?nodes bids p bx bz bs k tau inf ?U ?L ?tmpb ?it dive psb pcb solves)] =>
    destruct (run_ex nodes bids p bx bz bs k tau inf U L tmpb it dive psb pcb solves bid iid (-1) Pp Eb ltac:(auto)) as (p1 & P1 & [X1|X1] & R1); [discriminate|] end.
  destruct (run_ex [Some nA; Some zn; Some zn; Some zn] bids p1 bx bz bs k tau inf PInf NInf [Some 1%Z] 0 dive psb pcb (S solves) (get [Some 1%Z]) (get []) 1 P1 eq_refl ltac:(auto)) as (p2 & P2 & _ & R2).
  exists p2. split; [exact P2|].
  cbn [Z.eqb Pos.eqb] in R1, X1. rewrite R1. clear R1. cbn [bind]. cbn [Z.eqb ECOS_OPTIMAL orb].
  rewrite (obj_ex _ _ p1 _ _ _ _ _ _ _ _ _ _ _ _ _ _ (/ 2) P1 X1). cbn [bind].
  to (st [Some (set_nd_L nroot (Fin (- / 2))); Some zn; Some zn; Some zn] bids p1 bx bz bs k tau inf PInf NInf [None] 0 dive psb pcb (S solves)).
  change (@flt EOps (bb_U (st [Some (set_nd_L nroot (Fin (- / 2))); Some zn; Some zn; Some zn] bids p1 bx bz bs k tau inf PInf NInf [None] 0 dive psb pcb (S solves))) (Fin (- / 2))) with false. cbn match.
  to (st [Some (set_nd_relax (set_nd_L nroot (Fin (- / 2))) (Fin (- / 2))); Some zn; Some zn; Some zn] bids p1 bx bz bs k tau inf PInf NInf [None] 0 dive psb pcb (S solves)).
  to (st [Some (set_nd_relax (set_nd_L nroot (Fin (- / 2))) (Fin (- / 2))); Some zn; Some zn; Some zn] bids p1 bx bz bs k tau inf PInf NInf [None] 0 dive psb pcb (S solves)).
  rewrite (round_ex _ _ _ _ _ _ _ _ _ _ _ _ _ _ _ _ _ (/ 2) 1 P1 X1) by (try lra; lia). cbn [bind].
  destruct (Rlt_dec (Rabs (/ 2 - IZR 1)) (/ 1000)) as [Hl|_]; [rewrite Rabs_left in Hl; lra|].
  unfold branch_node.
  eapply (bind_eq _ _ (set_nd_relax (set_nd_L nroot (Fin (- / 2))) (Fin (- / 2)))); [reflexivity|].
  eapply bind_eq; [exact (most_ex _ _ _ _ _ _ _ _ _ _ _ _ _ _ _ _ _ _ P1 X1)|]. cbn beta match.
  to (st [Some nA; Some zn; Some zn; Some zn] bids p1 bx bz bs k tau inf PInf NInf [Some 1%Z] 0 dive psb pcb (S solves)).
  eapply bind_eq; [exact R2|]. cbn [Z.eqb Pos.eqb ECOS_PINF ECOS_OPTIMAL fst snd]. reflexivity.
Qed.

Lemma root_ex p bx bz bs k tau inf U L it dive psb pcb solves : PP p ->
  exists p', PP p' /\
    @bb_root EOps EInt ex_solver (fun _ => 0%Z) 0 (st [Some zn; Some zn; Some zn; Some zn] [None; None; None; None] p bx bz bs k tau inf U L [None] it dive psb pcb solves) =
    Some (st [Some nA; Some zn; Some zn; Some zn] [Some (-1)%Z; None; None; None] p' bx bz bs k tau inf PInf (Fin (- / 2)) [Some 1%Z] 0 0 psb pcb (S (S solves))).
Proof.
  intros Pp. destruct (root_bounds [Some (-1)%Z; None; None; None] p bx bz bs k tau inf 0 psb pcb solves Pp eq_refl) as (p' & P' & R).
  exists p'. split; [exact P'|]. unfold bb_root.
  eapply bind_eq; [|eapply bind_eq; [exact R|reflexivity]]. reflexivity.
Qed.

Definition n0 : node ext := mkNode MI_NOT_SOLVED (Fin (- / 2)) PInf (Fin (- / 2)) 0 (Fin (/ 2)) 0 (Fin (/ 2)) (Fin (- / 2)) false.
Definition n1 : node ext := mkNode MI_NOT_SOLVED (Fin (- / 2)) PInf (Fin 0) 0 (Fin 0) 0 (Fin (/ 2)) (Fin (- / 2)) true.
Definition n0' : node ext := mkNode MI_SOLVED_NON_BRANCHABLE (Fin (- 0)) (Fin (- 0)) (Fin (- 0)) 0 (Fin (/ 2)) 0 (Fin (/ 2)) (Fin (- / 2)) false.
Definition n1' : node ext := mkNode MI_SOLVED_NON_BRANCHABLE PInf PInf (Fin 0) 0 (Fin 0) 0 (Fin (/ 2)) (Fin (- / 2)) true.

Lemma branch_ex p bx bz bs k tau inf L tmpb psb pcb solves :
  @branch EOps EInt 0 (st [Some nA; Some zn; Some zn; Some zn] [Some (-1)%Z; None; None; None] p bx bz bs k tau inf PInf L tmpb 1 0 psb pcb solves) =
  Some (st [Some n0; Some n1; Some zn; Some zn] [Some 0%Z; Some 1%Z; None; None] p bx bz bs k tau inf PInf L tmpb 1 0 psb pcb solves).
Proof. reflexivity. Qed.

Lemma floor_half : @pfloat_floor EOps EInt (Fin (/ 2)) (Fin (/ 1000)) = Some (Fin 0).
Proof.
  rewrite floor_E. assert (Zfl (/ 1000) (/ 2) = 0%Z) as ->. { unfold Zfl. destruct (Rlt_dec (/ 2) 0); [lra|]. apply trunc_is; lra. }
  rewrite to_int_ok by lia. reflexivity.
Qed.

Lemma down_ex p z0 z1 s0 s1 k tau inf L t dive a b u v solves : PP p ->
  exists p' bx bz bs k' tau' inf' a' u', PP p' /\ bx = [Some (Fin 0)] /\ length bz = 2%nat /\ length bs = 2%nat /\
    @get_bounds EOps EInt ex_solver (fun _ => 0%Z) 0 0 (st [Some n0; Some n1; Some zn; Some zn] [Some 0%Z; Some 1%Z; None; None] p [None] [z0; z1] [s0; s1] k tau inf PInf L [t] 1 dive
      [Some a; b] [Some u; v] solves) =
    Some (st [Some n0'; Some n1; Some zn; Some zn] [Some 0%Z; Some 1%Z; None; None] p' bx bz bs k' tau' inf' (Fin (- 0)) L [Some 0%Z] 1 dive [Some a'; b] [Some u'; v] (S solves)).
Proof.
  intros Pp.
  destruct (run_ex [Some n0; Some n1; Some zn; Some zn] [Some 0%Z; Some 1%Z; None; None] p [None] [z0; z1] [s0; s1] k tau inf PInf L [t] 1 dive [Some a; b] [Some u; v] solves
    (fun i => get [Some 0%Z; Some 1%Z; None; None] (0 + i)) (fun i => get [] (0 + i)) 0 Pp eq_refl ltac:(auto)) as (p1 & P1 & [X1|X1] & R1); [discriminate|].
  cbn [Z.eqb] in X1, R1.
  pose proof P1 as (Q1 & Q2 & Q3 & _ & _ & _ & _ & Q8 & (pz0 & pz1 & Q9) & (ps0 & ps1 & Q10)).
  exists p1, [Some (Fin 0)], [pz0; pz1], [ps0; ps1], (w_kap p1), (w_tau p1), (w_info p1).
  exists (@fadd EOps a (@fdiv EOps (@fsub EOps (Fin (- 0)) (Fin (- / 2))) (@fsub EOps (Fin (/ 2)) (Fin 0)))), (u + 1)%Z.
  split; [exact P1|]. split; [reflexivity|]. split; [reflexivity|]. split; [reflexivity|].
  unfold get_bounds. eapply bind_eq; [exact R1|]. cbn [Z.eqb ECOS_OPTIMAL orb].
  rewrite (obj_ex _ _ p1 _ _ _ _ _ _ _ _ _ _ _ _ _ _ 0 P1 X1). cbn [bind].
  to (st [Some (set_nd_L n0 (Fin (- 0))); Some n1; Some zn; Some zn] [Some 0%Z; Some 1%Z; None; None] p1 [None] [z0; z1] [s0; s1] k tau inf PInf L [t] 1 dive [Some a; b] [Some u; v] (S solves)).
  change (@flt EOps (bb_U (st [Some (set_nd_L n0 (Fin (- 0))); Some n1; Some zn; Some zn] [Some 0%Z; Some 1%Z; None; None] p1 [None] [z0; z1] [s0; s1] k tau inf PInf L [t] 1 dive [Some a; b] [Some u; v] (S solves)))
    (Fin (- 0))) with false. cbn match.
  to (st [Some (set_nd_relax (set_nd_L n0 (Fin (- 0))) (Fin (- 0))); Some n1; Some zn; Some zn] [Some 0%Z; Some 1%Z; None; None] p1 [None] [z0; z1] [s0; s1] k tau inf PInf L [t] 1 dive [Some a; b] [Some u; v] (S solves)).
  eapply (bind_eq _ _ (st [Some (set_nd_relax (set_nd_L n0 (Fin (- 0))) (Fin (- 0))); Some n1; Some zn; Some zn] [Some 0%Z; Some 1%Z; None; None] p1 [None] [z0; z1] [s0; s1] k tau inf PInf L [t] 1 dive
    [Some (@fadd EOps a (@fdiv EOps (@fsub EOps (Fin (- 0)) (Fin (- / 2))) (@fsub EOps (Fin (/ 2)) (Fin 0)))); b] [Some (u + 1)%Z; v] (S solves))).
  { unfold update_pseudocost. eapply (bind_eq _ _ (set_nd_relax (set_nd_L n0 (Fin (- 0))) (Fin (- 0)))); [reflexivity|].
    eapply (bind_eq _ _ (@fsub EOps (Fin (/ 2)) (Fin 0))).
    - eapply bind_eq; [exact floor_half|reflexivity].
    - reflexivity. }
  rewrite (round_ex _ _ _ _ _ _ _ _ _ _ _ _ _ _ _ _ _ 0 0 P1 X1) by (try lra; lia). cbn [bind].
  destruct (Rlt_dec (Rabs (0 - IZR 0)) (/ 1000)) as [_|Hl]; [|exfalso; apply Hl; rewrite Rminus_0_r, Rabs_R0; lra].
  to (st [Some n0'; Some n1; Some zn; Some zn] [Some 0%Z; Some 1%Z; None; None] p1 [None] [z0; z1] [s0; s1] k tau inf PInf L [Some 0%Z] 1 dive
    [Some (@fadd EOps a (@fdiv EOps (@fsub EOps (Fin (- 0)) (Fin (- / 2))) (@fsub EOps (Fin (/ 2)) (Fin 0)))); b] [Some (u + 1)%Z; v] (S solves)).
  set (a' := @fadd EOps a _). unfold finish_node.
  eapply (bind_eq _ _ n0'); [reflexivity|].
  match goal with |- context [@flt EOps ?x ?y] => change (@flt EOps x y) with true end. cbn match.
  eapply (bind_eq _ _ (st [Some n0'; Some n1; Some zn; Some zn] [Some 0%Z; Some 1%Z; None; None] p1 [Some (Fin 0)] [pz0; pz1] [ps0; ps1] (w_kap p1) (w_tau p1) (w_info p1) (Fin (- 0)) L [Some 0%Z] 1 dive
    [Some a'; b] [Some (u + 1)%Z; v] (S solves))).
  { eapply bind_eq.
    - unfold store_solution.
      match goal with |- context [bb_prob (st ?A ?B ?C ?D ?E ?FF ?G ?H ?I ?J ?K ?LL ?M ?N ?OO ?P ?Q)] => change (bb_prob (st A B C D E FF G H I J K LL M N OO P Q)) with C end.
      change (@F EOps) with ext. rewrite Q1, Q2, Q3, Q8, Q9, Q10, X1. reflexivity.
    - reflexivity. }
  eapply bind_eq; [reflexivity|]. eapply (bind_eq _ _ n0'); [reflexivity|].
  match goal with |- context [@flt EOps ?x ?y] => change (@flt EOps x y) with (@flt EOps (Fin (- 0)) (Fin (- 0))) end.
  rewrite elt_N by lra. reflexivity.
Qed.

Lemma up_ex p bx bz bs k tau inf U L t dive psb pcb solves : PP p ->
  exists p', PP p' /\
    @get_bounds EOps EInt ex_solver (fun _ => 0%Z) 0 1 (st [Some n0'; Some n1; Some zn; Some zn] [Some 0%Z; Some 1%Z; None; None] p bx bz bs k tau inf U L t 1 dive psb pcb solves) =
    Some (st [Some n0'; Some n1'; Some zn; Some zn] [Some 0%Z; Some 1%Z; None; None] p' bx bz bs k tau inf U L t 1 dive psb pcb (S solves)).
Proof.
  intros Pp.
  destruct (run_ex [Some n0'; Some n1; Some zn; Some zn] [Some 0%Z; Some 1%Z; None; None] p bx bz bs k tau inf U L t 1 dive psb pcb solves
    (fun i => get [Some 0%Z; Some 1%Z; None; None] (1 + i)) (fun i => get [] (0 + i)) 1 Pp eq_refl ltac:(auto)) as (p1 & P1 & _ & R1).
  cbn [Z.eqb Pos.eqb] in R1. exists p1. split; [exact P1|]. unfold get_bounds. eapply bind_eq; [exact R1|]. reflexivity.
Qed.

Lemma solve_ex p z0 z1 s0 s1 k tau inf U L it dive a b u v solves : PP p ->
  exists w', @ECOS_BB_solve EOps EInt ex_solver (fun _ => 0%Z) 0
    (st [Some zn; Some zn; Some zn; Some zn] [None; None; None; None] p [None] [z0; z1] [s0; s1] k tau inf U L [None] it dive [Some a; b] [Some u; v] solves) =
    Some (MI_OPTIMAL_SOLN, w') /\ get (w_x (bb_prob w')) 0 = Some (Fin 0).
Proof.
  intros Pp.
  destruct (root_ex p [None] [z0; z1] [s0; s1] k tau inf U L it dive [Some a; b] [Some u; v] solves Pp) as (p1 & P1 & R1).
  destruct (down_ex p1 z0 z1 s0 s1 k tau inf (Fin (- / 2)) (Some 1%Z) 0 a b u v (S (S solves)) P1) as (p2 & bx & bz & bs & k' & tau' & inf' & a' & u' & P2 & -> & Lz & Ls & R2).
  destruct bz as [|bz0 [|bz1 [|]]]; try discriminate Lz. destruct bs as [|bs0 [|bs1 [|]]]; try discriminate Ls.
  destruct (up_ex p2 [Some (Fin 0)] [bz0; bz1] [bs0; bs1] k' tau' inf' (Fin (- 0)) (Fin (- / 2)) [Some 0%Z] 0 [Some a'; b] [Some u'; v] (S (S (S solves))) P2) as (p3 & P3 & R3).
  pose proof P3 as (Q1 & Q2 & Q3 & _ & _ & _ & (x0 & Q7) & Q8 & (pz0 & pz1 & Q9) & (ps0 & ps1 & Q10)).
  set (w3 := st [Some n0'; Some n1'; Some zn; Some zn] [Some 0%Z; Some 1%Z; None; None] p3 [Some (Fin 0)] [bz0; bz1] [bs0; bs1] k' tau' inf' (Fin (- 0)) (Fin (- 0)) [Some 0%Z] 1 (-1) [Some a'; b] [Some u'; v] (S (S (S (S solves))))).
  assert (Ld: exists w' : bbwork ext, @load_solution EOps w3 = Some w' /\ get (w_x (bb_prob w')) 0 = Some (Fin 0) /\ @get_ret_code EOps w' = MI_OPTIMAL_SOLN).
  { unfold load_solution. change (bb_prob w3) with p3. unfold copyN. change (@F EOps) with ext. rewrite Q1, Q2, Q3, Q7, Q8, Q9, Q10.
    eexists. split; [reflexivity|]. split; [reflexivity|]. unfold get_ret_code.
    match goal with |- context [isinf ?x] => change (isinf x) with (isinf (Fin (- 0) : @F EOps)) end. reflexivity. }
  destruct Ld as (w' & Ld & Xw & Rc). exists w'. split; [|exact Xw].
  unfold ECOS_BB_solve. eapply bind_eq; [exact R1|].
  eapply (bind_eq _ _ ((-1)%Z, w3)).
  - unfold bb_loop.
    match goal with |- while_ (S (Z.to_nat ?m)) _ _ _ = _ => change (Z.to_nat m) with 4%nat end.
    cbn [while_].
    match goal with |- context [@should_continue EOps ?w ?i] => change (@should_continue EOps w i) with
      (@flt EOps (Fin 0) PInf && @flt EOps (Fin 0) (@abs_2 EOps (@fsub EOps (@fdiv EOps PInf (Fin (- / 2))) (@f1 EOps))) && true && true)%bool end.
    assert (H: @flt EOps (Fin 0) (@abs_2 EOps (@fsub EOps (@fdiv EOps PInf (Fin (- / 2))) (@f1 EOps))) = true).
    { cbn [fdiv EOps]. cbn [ediv]. destruct (Rlt_dec (- / 2) 0); [|lra]. reflexivity. }
    rewrite H. cbn [bind andb]. change (@flt EOps (Fin 0) PInf) with true. cbn match.
    eapply (bind_eq _ _ ((-1)%Z, w3)).
    { unfold bb_step. eapply bind_eq; [exact (branch_ex p1 _ _ _ _ _ _ _ _ _ _ _)|]. eapply bind_eq; [exact R2|]. eapply bind_eq; [exact R3|].
      eapply (bind_eq _ _ (Fin (- 0))); [reflexivity|]. reflexivity. }
    change (@should_continue EOps w3 (-1)) with (@flt EOps (Fin 0) (@fsub EOps (Fin (- 0)) (Fin (- 0))) &&
      @flt EOps (Fin 0) (@abs_2 EOps (@fsub EOps (@fdiv EOps (Fin (- 0)) (Fin (- 0))) (@f1 EOps))) && false && true)%bool.
    change (@fsub EOps (Fin (- 0)) (Fin (- 0))) with (Fin (- 0 + - - 0)). rewrite (elt_N 0 (- 0 + - - 0)) by lra. reflexivity.
  - eapply bind_eq; [exact Ld|]. rewrite Rc. reflexivity.
Qed.
End Example.

Definition ex_start (p : pwork ext) (k tau L : ext) (inf : stats ext) (t : ctrlc) : BW :=
  mkBb 1 0 (arr_of (repeat (@zero_node EOps) 4)) (alloc 4) (alloc 0) [Some 0%nat] [] p (alloc 1) (alloc 0) (alloc 2) (alloc 2) k tau inf PInf L (alloc 1) (alloc 0)
    0 0 (alloc 1) (alloc 0) (arr_of [Fin 0; Fin 0]) [] (arr_of [0; 0]%Z) []
    (mkBs 4 (Fin 0) (Fin 0) (Fin (/ 1000)) MostInfeasible 6 BreadthFirst) 0 0 t.

Theorem C32_example (p : pwork ext) k tau L inf t :
  w_n p = 1%nat -> w_p p = 0%nat -> w_m p = 2%nat -> w_c p = [Some (Fin (-1))] -> w_Gequil p = [Some (Fin 1); Some (Fin 1)] ->
  length (w_h p) = 2%nat -> length (w_x p) = 1%nat -> length (w_y p) = 0%nat -> length (w_z p) = 2%nat -> length (w_s p) = 2%nat ->
  assumptions 1 1 0 (fun _ => 0%nat) (fun _ => -1) ex_feas ex_solver ex_good ex_feas 0 0 (/ 1000) (fun _ => 0%Z) /\
  prepared 1 0 (fun _ => 0%nat) ex_solver ex_good (/ 1000) 0 0 (ex_start p k tau L inf t) /\
  exists w', @ECOS_BB_solve EOps EInt ex_solver (fun _ => 0%Z) 0 (ex_start p k tau L inf t) = Some (MI_OPTIMAL_SOLN, w') /\
    get (w_x (bb_prob w')) 0 = Some (Fin 0).
Proof.
  intros P1 P2 P3 P4 P5 P6 P7 P8 P9 P10.
  split; [|split].
  - split; [exact ex_contract|]. split; [lra|]. split; [lra|]. split; [intros; lia|]. intros _. unfold RAND_MAX. lia.
  - split; [reflexivity|]. split; [reflexivity|]. split; [intros j Hj; assert (j = 0)%nat as -> by lia; reflexivity|]. split; [intros j Hj; lia|].
    split; [reflexivity|]. split; [reflexivity|]. split; [reflexivity|]. split; [lra|]. split; [lra|]. split; [|split].
    + split; [exact P1|]. split; [cbn [ex_start bb_prob]; rewrite P4; reflexivity|exact P5].
    + intros i nd H _. change (bb_nodes (ex_start p k tau L inf t)) with (arr_of (repeat (@zero_node EOps) 4)) in H.
      assert (nd = @zero_node EOps) as ->.
      { destruct i as [|[|[|[|i]]]]; cbn in H; try (injection H as <-; reflexivity). destruct i; discriminate. }
      split; [cbn; lia|]. exists 0. exact f0_E'.
    + discriminate.
  - assert (Z: @zero_node EOps = zn) by (unfold zero_node, zn; rewrite f0_E'; reflexivity).
    unfold ex_start. cbn [repeat arr_of map]. rewrite Z.
    apply (solve_ex t p None None None None k tau inf PInf L 0 0 (Fin 0) (Some (Fin 0)) 0 (Some 0%Z) 0).
    destruct (w_h p) as [|h0 [|h1 [|]]] eqn:E6; try discriminate. destruct (w_x p) as [|x0 [|]] eqn:E7; try discriminate.
    destruct (w_y p) eqn:E8; try discriminate. destruct (w_z p) as [|z0 [|z1 [|]]] eqn:E9; try discriminate.
    destruct (w_s p) as [|s0 [|s1 [|]]] eqn:E10; try discriminate.
    repeat split; auto. all: eauto.
Qed.

Print Assumptions C32_example.
