(* Which functions of the mixed-integer module touch the best solution, for every
   arithmetic, solver and branching rule. *)
From Coq Require Import List Arith Bool ZArith Lia Relations.
From Verif Require Import Base Num NumI.
From Verif.Model Require Import Consts Types Ecos BbTypes Bb.
From Verif.Proofs Require Import ExitP Wlp BbNum BbP.
Import ListNotations.
Open Scope nat_scope.

Section Keep.
Context {O : Ops} {TI : ToInt O}.
Local Notation W := (bbwork F).
Variables (solver : nat -> ctrlc -> pwork F -> option (Z * ctrlc * pwork F)) (rnd : nat -> Z) (rfuel : nat).

(* what a branching rule leaves alone *)
Definition held (w : W) :=
  (bb_nb w, bb_ni w, bb_nodes w, bb_bidx w, bb_iidx w, (bb_x w, bb_y w, bb_z w, bb_s w, bb_kap w, bb_tau w, bb_info w),
   (bb_U w, bb_L w, bb_tmpb w, bb_tmpi w), (bb_iter w, bb_dive w, bb_stgs w)).

Lemma run_held bid iid w : wlp (run_relax solver bid iid w) (fun r => held (snd r) = held w).
Proof.
  apply wlp_intro. intros [c w'] E. unfold run_relax in E. bd E as p Ep. bd E as s Es. destruct s as [[code t] p']. injection E as <- <-. reflexivity.
Qed.
Lemma calc_held w : wlp (calc_tmp solver w) (fun r => held (snd r) = held w).
Proof.
  apply wlp_intro. intros [[q c] w'] E. unfold calc_tmp in E. bd E as s Es. destruct s as [c' w1]. bd E as q' Eq. injection E as <- <- <-.
  exact (wlp_elim _ _ _ (run_held _ _ _) Es).
Qed.
Lemma observe_held w b k v : wlp (observe w b k v) (fun w' => held w' = held w).
Proof. apply wlp_intro. intros w' H. unfold observe in H. destruct b; binv H; injection H as <-; reflexivity. Qed.
Lemma shuffle_held n w : wlp (get_shuffled_array rnd n w) (fun r => held (snd r) = held w).
Proof. apply wlp_intro. intros [a w'] H. unfold get_shuffled_array in H. bd H as a1 E1. bd H as r E2. destruct r. injection H as <- <-. reflexivity. Qed.
Lemma init_sb_held w i : wlp (initialize_strong_branching w i) (fun w' => held w' = held w).
Proof. apply wlp_intro. intros w' H. unfold initialize_strong_branching in H. bd H as a E1. bd H as b E2. injection H as <-. reflexivity. Qed.
Lemma cib_held w code q idx o i sp cur : wlp (check_infeasible_bool w code q idx o i sp cur) (fun r => held (snd r) = held w).
Proof.
  apply wlp_intro. intros [[a b] w'] H. unfold check_infeasible_bool in H. destruct (_ || _)%bool; [|injection H as <- <- <-; reflexivity].
  bd H as x E1. bd H as y E2. injection H as <- <- <-. reflexivity.
Qed.
Lemma cii_held w code q idx o i sp cur : wlp (check_infeasible_int w code q idx o i sp cur) (fun r => held (snd r) = held w).
Proof.
  apply wlp_intro. intros [[a b] w'] H. unfold check_infeasible_int in H. destruct (_ || _)%bool; [|injection H as <- <- <-; reflexivity].
  bd H as v E0. bd H as x E1. bd H as y E2. injection H as <- <- <-. reflexivity.
Qed.
Lemma sbb_held w sp idx i cur : wlp (strong_branch_bool solver w sp idx i cur) (fun r => held (snd r) = held w).
Proof.
  apply wlp_intro. intros [[a b] w'] H. unfold strong_branch_bool in H. bd H as orig E0. bd H as t E1. bd H as r E2. destruct r as [[qd code] w1].
  apply (wlp_elim _ _ _ (calc_held _)) in E2. cbn [snd] in E2. change (held (set_bb_tbb w t)) with (held w) in E2.
  bd H as r E3. destruct r as [[inf sp1] w2]. apply (wlp_elim _ _ _ (cib_held _ _ _ _ _ _ _ _)) in E3. cbn [snd] in E3.
  destruct inf; [injection H as <- <- <-; cbn [snd]; congruence|]. bd H as t2 E4. bd H as r E5. destruct r as [[qu code2] w3].
  apply (wlp_elim _ _ _ (calc_held _)) in E5. cbn [snd] in E5. change (held (set_bb_tbb w2 t2)) with (held w2) in E5.
  bd H as r E6. destruct r as [[inf2 sp2] w4]. apply (wlp_elim _ _ _ (cib_held _ _ _ _ _ _ _ _)) in E6. cbn [snd] in E6.
  destruct inf2; [injection H as <- <- <-; cbn [snd]; congruence|]. bd H as t3 E7. injection H as <- <- <-. cbn [snd]. change (held (set_bb_tbb w4 t3)) with (held w4). congruence.
Qed.
Lemma sbi_held w sp idx i cur : wlp (strong_branch_int solver w sp idx i cur) (fun r => held (snd r) = held w).
Proof.
  apply wlp_intro. intros [[a b] w'] H. unfold strong_branch_int in H. bd H as orig E0. bd H as fl Ef. bd H as t E1. bd H as r E2. destruct r as [[qd code] w1].
  apply (wlp_elim _ _ _ (calc_held _)) in E2. cbn [snd] in E2. change (held (set_bb_tbi w t)) with (held w) in E2. bd H as t1 Et.
  bd H as r E3. destruct r as [[inf sp1] w2]. apply (wlp_elim _ _ _ (cii_held _ _ _ _ _ _ _ _)) in E3. cbn [snd] in E3.
  change (held (set_bb_tbi w1 t1)) with (held w1) in E3.
  destruct inf; [injection H as <- <- <-; cbn [snd]; congruence|]. bd H as o2 Eo. bd H as ce Ec. bd H as t2 E4. bd H as r E5. destruct r as [[qu code2] w3].
  apply (wlp_elim _ _ _ (calc_held _)) in E5. cbn [snd] in E5. change (held (set_bb_tbi w2 t2)) with (held w2) in E5. bd H as t3 E7.
  bd H as r E6. destruct r as [[inf2 sp2] w4]. apply (wlp_elim _ _ _ (cii_held _ _ _ _ _ _ _ _)) in E6. cbn [snd] in E6.
  change (held (set_bb_tbi w3 t3)) with (held w3) in E6.
  destruct inf2; injection H as <- <- <-; cbn [snd]; congruence.
Qed.
Lemma sbv_held w sp idx i cur : wlp (strong_branch_var solver w sp idx i cur) (fun r => held (snd r) = held w).
Proof. unfold strong_branch_var. destruct (_ <? _); [apply sbb_held|apply sbi_held]. Qed.

Lemma strong_held w sp idx : wlp (strong_branching solver rnd w sp idx) (fun r => held (snd r) = held w).
Proof.
  apply wlp_intro. intros [sp' w'] H. unfold strong_branching in H. bd H as w1 E1. apply (wlp_elim _ _ _ (init_sb_held _ _)) in E1.
  bd H as r E2. destruct r as [[q c] w2]. apply (wlp_elim _ _ _ (calc_held _)) in E2. cbn [snd] in E2. bd H as xs Ex.
  bd H as r E3. destruct r as [ord w3]. apply (wlp_elim _ _ _ (shuffle_held _ _)) in E3. cbn [snd] in E3.
  bd H as r E4. destruct r as [[spf bestf] wf]. injection H as <- <-. cbn [snd].
  enough (held wf = held w3) by congruence. clear -E4.
  refine (wlp_elim _ (fun r => held (snd r) = held w3) _ _ E4). clear E4. try clear sp.
  apply wlp_for with (Inv := fun _ r => held (snd r) = held w3); [lia|reflexivity| |intros s Hs; exact Hs]. intros r [[sp0 best] w] _ IH. cbn [snd] in IH. apply wlp_intro. intros [[a b] w'] H. cbn [snd]. bd H as i Ei. bd H as col Ec. bd H as cur Eu. bd H as ni En.
  destruct ni; [injection H as <- <- <-; exact IH|]. bd H as r1 E1. destruct r1 as [[res sp1] w1]. apply (wlp_elim _ _ _ (sbv_held _ _ _ _ _)) in E1. cbn [snd] in E1.
  destruct res as [[qd qu]|]; [destruct (flt _ _)|]; injection H as <- <- <-; congruence.
Qed.

Lemma rel_held w sp idx : wlp (reliability_branching solver rnd w sp idx) (fun r => held (snd r) = held w).
Proof.
  apply wlp_intro. intros [sp' w'] H. unfold reliability_branching in H.
  bd H as r E3. destruct r as [ord w3]. apply (wlp_elim _ _ _ (shuffle_held _ _)) in E3. cbn [snd] in E3.
  bd H as r E4. destruct r as [[[spf bestf] stf] wf]. injection H as <- <-. cbn [snd].
  enough (held wf = held w3) by congruence. clear -E4.
  refine (wlp_elim _ (fun r => held (snd r) = held w3) _ _ E4). clear E4. try clear sp.
  apply wlp_for with (Inv := fun _ r => held (snd r) = held w3); [lia|reflexivity| |intros s Hs; exact Hs]. intros r [[[sp0 best] st] w] _ IH. cbn [snd] in IH. apply wlp_intro. intros [[[a b] c] w'] H. cbn [snd]. bd H as i Ei. bd H as col Ec. bd H as y Eu. bd H as ni En.
  destruct ni; [injection H as <- <- <- <-; exact IH|]. bd H as rel Er. bd H as r1 E1. destruct r1 as [[[score sp1] st1] w1].
  assert (held w1 = held w).
  { clear H. destruct rel; [bd E1 as s Es; injection E1 as <- <- <- <-; reflexivity|].
    bd E1 as r2 E2. destruct r2 as [[q xs] w2]. assert (H2: held w2 = held w).
    { destruct st as [[q' xs']|]; [injection E2 as <- <- <-; reflexivity|]. bd E2 as w4 E4. apply (wlp_elim _ _ _ (init_sb_held _ _)) in E4.
      bd E2 as r5 E5. destruct r5 as [[q5 c5] w5]. apply (wlp_elim _ _ _ (calc_held _)) in E5. cbn [snd] in E5. bd E2 as x6 E6. injection E2 as <- <- <-. congruence. }
    bd E1 as cur Ecu. bd E1 as r3 E3. destruct r3 as [[res sp3] w3']. apply (wlp_elim _ _ _ (sbv_held _ _ _ _ _)) in E3. cbn [snd] in E3.
    destruct res as [[qd qu]|]; [|injection E1 as <- <- <- <-; congruence].
    bd E1 as ce E7. bd E1 as fl E8. bd E1 as w9 E9. apply (wlp_elim _ _ _ (observe_held _ _ _ _)) in E9. bd E1 as w10 E10.
    apply (wlp_elim _ _ _ (observe_held _ _ _ _)) in E10. injection E1 as <- <- <- <-. congruence. }
  destruct score; [destruct (flt _ _)|]; injection H as <- <- <- <-; congruence.
Qed.

Lemma random_held fuel : forall w, wlp (random_branching rnd fuel w) (fun r => held (snd r) = held w).
Proof.
  induction fuel as [|f IH]; intros w; cbn [random_branching]; [exact I|]. apply wlp_intro. intros [sp w'] H. bd H as g Eg. bd H as col Ec. bd H as y Ey. bd H as ni En.
  destruct ni; [exact (wlp_elim _ _ _ (IH _) H)|injection H as <- <-; reflexivity].
Qed.

Lemma choose_held w sp idx : wlp (choose_split solver rnd rfuel w sp idx) (fun r => held (snd r) = held w).
Proof.
  unfold choose_split. destruct (bs_strategy (bb_stgs w)).
  - apply wlp_intro. intros [a b] H. unfold most_infeasible in H. bd H as r E. destruct r. injection H as <- <-. reflexivity.
  - apply strong_held.
  - apply wlp_intro. intros [a b] H. unfold pseudocost_branching in H. bd H as r E. destruct r as [ord w1]. apply (wlp_elim _ _ _ (shuffle_held _ _)) in E.
    bd H as r E2. destruct r. injection H as <- <-. exact E.
  - apply rel_held.
  - apply random_held.
  - apply wlp_ret. reflexivity.
Qed.

(* ----------------------------------------------------- the best solution *)
Definition kept (w : W) := (bb_U w, (bb_x w, bb_y w, bb_z w, bb_s w, bb_kap w, bb_tau w, bb_info w)).
Definition kept_t := (F * (arr F * arr F * arr F * arr F * F * F * stats F))%type.

(* the first k cells of a and b are the same *)
Definition same_cells {T} (k : nat) (a b : arr T) : Prop := forall i, i < k -> get a i = get b i.

(* a complete result of the solver: all its parts come from the same call *)
Definition whole (t : arr F * arr F * arr F * arr F * F * F * stats F) : Prop :=
  let '(x, y, z, s, kap, tau, info) := t in
  exists k ctl p code ctl' p', solver k ctl p = Some (code, ctl', p') /\
    same_cells (w_n p') x (w_x p') /\ same_cells (w_p p') y (w_y p') /\ same_cells (w_m p') z (w_z p') /\ same_cells (w_m p') s (w_s p') /\
    kap = w_kap p' /\ tau = w_tau p' /\ info = w_info p'.

Definition solved (w : W) : Prop := exists k ctl p code ctl', solver k ctl p = Some (code, ctl', bb_prob w).
Definition better (a b : kept_t) : Prop := flt (fst b) (fst a) = true /\ whole (snd b).
Definition improves : kept_t -> kept_t -> Prop := clos_refl_trans _ better.

Lemma held_kept w w' : held w' = held w -> kept w' = kept w.
Proof. unfold held, kept. intros H. injection H. intros. congruence. Qed.

Lemma upd_kept w i f w' : upd_node w i f = Some w' -> kept w' = kept w.
Proof. intros H. apply upd_node_inv in H as (? & ? & _ & -> & _). reflexivity. Qed.

Lemma run_solved bid iid w c w' : run_relax solver bid iid w = Some (c, w') -> solved w'.
Proof.
  unfold run_relax. intros E. bd E as p Ep. bd E as s Es. destruct s as [[code t] p']. injection E as <- <-. exists (bb_solves w), (bb_ctrlc w), p, code, t. exact Es.
Qed.
Lemma upd_prob w i f w' : upd_node w i f = Some w' -> bb_prob w' = bb_prob w.
Proof. intros H. apply upd_node_inv in H as (? & ? & _ & -> & _). reflexivity. Qed.
Lemma solved_prob w w' : bb_prob w' = bb_prob w -> solved w -> solved w'.
Proof. unfold solved. intros ->. auto. Qed.

Lemma copy_cells {T} k (a b c : arr T) : copyN k a b = Some c -> same_cells k c a.
Proof. unfold copyN. intros E. apply memcpy_inv in E as (_ & G & _). intros i Hi. exact (G i Hi). Qed.

Lemma store_whole w w' : store_solution w = Some w' -> solved w -> whole (snd (kept w')).
Proof.
  unfold store_solution. intros E (k & ctl & p & code & ctl' & S). bd E as x Ex. bd E as y Ey. bd E as z Ez. bd E as s Es. injection E as <-.
  exists k, ctl, p, code, ctl', (bb_prob w). split; [exact S|]. bbc. repeat split; eapply copy_cells; eassumption.
Qed.

Lemma finish_keep idx v w w' : finish_node idx v w = Some w' -> solved w -> improves (kept w) (kept w').
Proof.
  unfold finish_node. intros H Sv. bd H as nd En. bd H as w1 E1. bd H as w2 E2. bd H as nd2 En2.
  assert (kept w2 = kept w1) by (destruct v; [exact (upd_kept _ _ _ _ E2)|injection E2 as <-; reflexivity]).
  assert (kept w' = kept w2) by (destruct (flt (bb_U w2) _); [exact (upd_kept _ _ _ _ H)|injection H as <-; reflexivity]).
  replace (kept w') with (kept w1) by congruence.
  destruct (flt (nd_U nd) (bb_U w)) eqn:L; [|injection E1 as <-; apply rt_refl].
  bd E1 as w3 E3. injection E1 as <-. apply rt_step. split; [exact L|]. exact (store_whole _ _ E3 Sv).
Qed.

Lemma branch_node_keep idx w w' : branch_node solver rnd rfuel idx w = Some w' -> improves (kept w) (kept w').
Proof.
  unfold branch_node. intros H. bd H as nd En. bd H as r E1. destruct r as [sp w1]. apply (wlp_elim _ _ _ (choose_held _ _ _)) in E1. cbn [snd] in E1.
  bd H as w2 E2. apply upd_kept in E2. bd H as r E3. destruct r as [code w3]. pose proof (run_solved _ _ _ _ _ E3) as Sv. apply (wlp_elim _ _ _ (run_held _ _ _)) in E3. cbn [snd] in E3.
  replace (kept w) with (kept w3) by (apply held_kept in E1, E3; congruence).
  destruct (code =? ECOS_OPTIMAL)%Z; [|exact (finish_keep _ _ _ _ H Sv)].
  bd H as u Eu. bd H as w4 E4. pose proof (solved_prob _ _ (upd_prob _ _ _ _ E4) Sv) as Sv4. apply upd_kept in E4. rewrite <- E4. exact (finish_keep _ _ _ _ H Sv4).
Qed.

Lemma pseudo_kept idx w w' : update_pseudocost idx w = Some w' -> held w' = held w.
Proof.
  unfold update_pseudocost. intros H. bd H as nd En. destruct (_ <=? _)%Z; [|injection H as <-; reflexivity].
  bd H as dv Ed. destruct (_ <? _); exact (wlp_elim _ _ _ (observe_held _ _ _ _) H).
Qed.

Lemma round_kept w b w' : round_x w = Some (b, w') -> kept w' = kept w /\ bb_nodes w' = bb_nodes w.
Proof.
  unfold round_x. intros H. bd H as r E1. destruct r. bd H as r E2. destruct r. injection H as <- <-. split; reflexivity.
Qed.
Lemma round_prob w b w' : round_x w = Some (b, w') -> bb_prob w' = bb_prob w.
Proof.
  unfold round_x. intros H. bd H as r E1. destruct r. bd H as r E2. destruct r. injection H as <- <-. reflexivity.
Qed.
Lemma pseudo_prob idx w w' : update_pseudocost idx w = Some w' -> bb_prob w' = bb_prob w.
Proof.
  unfold update_pseudocost. intros H. bd H as nd En. destruct (_ <=? _)%Z; [|injection H as <-; reflexivity].
  bd H as dv Ed. destruct (_ <? _); unfold observe in H; binv H; injection H as <-; reflexivity.
Qed.

Lemma get_bounds_keep idx w w' : get_bounds solver rnd rfuel idx w = Some w' -> improves (kept w) (kept w').
Proof.
  unfold get_bounds. intros H. bd H as r E1. destruct r as [code w1]. pose proof (run_solved _ _ _ _ _ E1) as Sv. apply (wlp_elim _ _ _ (run_held _ _ _)) in E1. cbn [snd] in E1. apply held_kept in E1.
  rewrite <- E1. destruct (_ || _)%bool; [|rewrite (upd_kept _ _ _ _ H); apply rt_refl].
  bd H as q Eq. bd H as w2 E2. destruct (flt _ _); [rewrite (upd_kept _ _ _ _ H), (upd_kept _ _ _ _ E2); apply rt_refl|].
  bd H as w3 E3. bd H as w4 E4. bd H as r E5. destruct r as [b w5].
  pose proof (solved_prob _ _ (upd_prob _ _ _ _ E2) Sv) as Sv2. pose proof (solved_prob _ _ (upd_prob _ _ _ _ E3) Sv2) as Sv3.
  pose proof (solved_prob _ _ (pseudo_prob _ _ _ E4) Sv3) as Sv4. pose proof (solved_prob _ _ (round_prob _ _ _ E5) Sv4) as Sv5. apply upd_kept in E2. rewrite <- E2.
  apply upd_kept in E3. apply pseudo_kept, held_kept in E4. apply round_kept in E5 as [E5 _].
  replace (kept w2) with (kept w5) by congruence.
  destruct b; [|exact (branch_node_keep _ _ _ H)]. bd H as w6 E6. pose proof (solved_prob _ _ (upd_prob _ _ _ _ E6) Sv5) as Sv6. apply upd_kept in E6. rewrite <- E6. exact (finish_keep _ _ _ _ H Sv6).
Qed.

Lemma branch_kept cur w w' : branch cur w = Some w' -> kept w' = kept w.
Proof.
  unfold branch. intros H. bd H as nc En. bd H as w1 E1. bd H as w2 E2. bd H as b1 Eb. bd H as i1 Ei. bd H as r Er. destruct r as [b2 i2].
  apply upd_kept in H, E1, E2. rewrite H. change (kept (set_bb_iids (set_bb_bids w2 b2) i2)) with (kept w2). congruence.
Qed.

Lemma next_kept w c w' : get_next_node w = Some (c, w') -> kept w' = kept w.
Proof.
  unfold get_next_node. intros H. bd H as d Ed. destruct d; [injection H as <- <-; reflexivity|]. bd H as r Er. destruct r. injection H as <- <-. reflexivity.
Qed.

Lemma step_keep cur w cur' w' : bb_step solver rnd rfuel cur w = Some (cur', w') -> improves (kept w) (kept w').
Proof.
  unfold bb_step. intros H. bd H as w1 E1. apply branch_kept in E1. bd H as w2 E2. bd H as w3 E3. bd H as L EL. apply next_kept in H.
  change (kept w) with (kept (set_bb_iter w (S (bb_iter w)))). rewrite <- E1, H. change (kept (set_bb_L w3 L)) with (kept w3).
  eapply rt_trans; eapply get_bounds_keep; eassumption.
Qed.

(* ------------------------------------------------------------ the root *)
(* after a root with a fractional relaxation the bound is infinite again, whether or
   not rounding found a solution *)
Lemma finish_U idx v w w' : finish_node idx v w = Some w' -> (v = true \/ forall nd, get (bb_nodes w) idx = Some nd -> nd_U nd = finf) ->
  forall nd, get (bb_nodes w') idx = Some nd -> nd_U nd = finf.
Proof.
  unfold finish_node. intros H V. bd H as nd En. bd H as w1 E1. bd H as w2 E2. bd H as nd2 En2.
  assert (N1: bb_nodes w1 = bb_nodes w).
  { destruct (flt (nd_U nd) _); [|injection E1 as <-; reflexivity]. bd E1 as w3 E3. injection E1 as <-. unfold store_solution in E3.
    bd E3 as x Ex. bd E3 as y Ey. bd E3 as z Ez. bd E3 as s Es. injection E3 as <-. reflexivity. }
  assert (N2: forall nd, get (bb_nodes w2) idx = Some nd -> nd_U nd = finf).
  { destruct v.
    - apply upd_node_inv in E2 as (? & ? & _ & -> & _ & G). bbc. intros nd' Hd. rewrite G, Nat.eqb_refl in Hd. injection Hd as <-. reflexivity.
    - injection E2 as <-. rewrite N1. destruct V as [V|V]; [discriminate V|rewrite En; exact V]. }
  destruct (flt (bb_U w2) _); [|injection H as <-; exact N2].
  apply upd_node_inv in H as (nd3 & ? & Hd & -> & _ & G). bbc. intros nd' Hd'. rewrite G, Nat.eqb_refl in Hd'. injection Hd' as <-. exact (N2 _ Hd).
Qed.

Lemma held_nodes w w' : held w' = held w -> bb_nodes w' = bb_nodes w.
Proof. unfold held. intros H. injection H. intros. assumption. Qed.

Lemma finish_status idx v w w' nd0 nd : finish_node idx v w = Some w' -> get (bb_nodes w) idx = Some nd0 -> get (bb_nodes w') idx = Some nd ->
  nd_status nd = nd_status nd0 \/ nd_status nd = MI_SOLVED_NON_BRANCHABLE.
Proof.
  unfold finish_node. intros H E0 E. bd H as ndx En. bd H as w1 E1. bd H as w2 E2. bd H as nd2 En2.
  assert (N1: bb_nodes w1 = bb_nodes w).
  { destruct (flt (nd_U ndx) _); [|injection E1 as <-; reflexivity]. bd E1 as w3 E3. injection E1 as <-. unfold store_solution in E3.
    bd E3 as x Ex. bd E3 as y Ey. bd E3 as z Ez. bd E3 as s Es. injection E3 as <-. reflexivity. }
  assert (N2: nd_status nd2 = nd_status nd0).
  { destruct v.
    - apply upd_node_inv in E2 as (nd3 & ? & E3 & -> & _ & G). bbc in En2. rewrite G, Nat.eqb_refl in En2. injection En2 as <-. ndc. congruence.
    - injection E2 as <-. congruence. }
  destruct (flt (bb_U w2) _); [|injection H as <-; left; congruence].
  apply upd_node_inv in H as (nd3 & ? & Hd & -> & _ & G). bbc in E. rewrite G, Nat.eqb_refl in E. injection E as <-. right. reflexivity.
Qed.

Lemma get_bounds_U idx w w' : get_bounds solver rnd rfuel idx w = Some w' ->
  (forall nd, get (bb_nodes w) idx = Some nd -> nd_U nd = finf /\ nd_status nd <> MI_SOLVED_BRANCHABLE) ->
  forall nd, get (bb_nodes w') idx = Some nd -> nd_status nd = MI_SOLVED_BRANCHABLE -> nd_U nd = finf.
Proof.
  unfold get_bounds. intros H V. bd H as r E1. destruct r as [code w1]. apply (wlp_elim _ _ _ (run_held _ _ _)) in E1. cbn [snd] in E1. apply held_nodes in E1.
  rewrite <- E1 in V. clear w E1. destruct (_ || _)%bool.
  2:{ apply upd_node_inv in H as (nd0 & ? & Hd & -> & _ & G). bbc. intros nd Hd'. rewrite G, Nat.eqb_refl in Hd'. injection Hd' as <-. intros Hs. discriminate Hs. }
  bd H as q Eq. bd H as w2 E2. assert (V2: forall nd, get (bb_nodes w2) idx = Some nd -> nd_U nd = finf /\ nd_status nd <> MI_SOLVED_BRANCHABLE).
  { apply upd_node_inv in E2 as (nd0 & ? & Hd & -> & _ & G). bbc. intros nd Hd'. rewrite G, Nat.eqb_refl in Hd'. injection Hd' as <-. exact (V _ Hd). }
  clear V E2. destruct (flt _ _).
  { apply upd_node_inv in H as (nd0 & ? & Hd & -> & _ & G). bbc. intros nd Hd'. rewrite G, Nat.eqb_refl in Hd'. injection Hd' as <-. intros Hs. discriminate Hs. }
  bd H as w3 E3. assert (V3: forall nd, get (bb_nodes w3) idx = Some nd -> nd_U nd = finf /\ nd_status nd <> MI_SOLVED_BRANCHABLE).
  { apply upd_node_inv in E3 as (nd0 & ? & Hd & -> & _ & G). bbc. intros nd Hd'. rewrite G, Nat.eqb_refl in Hd'. injection Hd' as <-. exact (V2 _ Hd). }
  clear V2 E3. bd H as w4 E4. apply pseudo_kept, held_nodes in E4. bd H as r E5. destruct r as [b w5]. apply round_kept in E5 as [_ E5].
  rewrite <- E4, <- E5 in V3. clear E4 E5. destruct b.
  - bd H as w6 E6. apply upd_node_inv in E6 as (nd0 & ? & Hd & -> & _ & G). intros nd Hd' Hs.
    destruct (finish_status _ _ _ _ _ nd H ltac:(bbc; rewrite G, Nat.eqb_refl; reflexivity) Hd') as [A|A]; rewrite A in Hs; discriminate Hs.
  - unfold branch_node in H. bd H as nd0 En. bd H as r E1. destruct r as [sp w6]. apply (wlp_elim _ _ _ (choose_held _ _ _)) in E1. cbn [snd] in E1. apply held_nodes in E1.
    rewrite <- En, <- E1 in V3. bd H as w7 E7. assert (V7: forall nd, get (bb_nodes w7) idx = Some nd -> nd_U nd = finf).
    { apply upd_node_inv in E7 as (nd1 & ? & Hd & -> & _ & G). bbc. intros nd Hd'. rewrite G, Nat.eqb_refl in Hd'. injection Hd' as <-. exact (proj1 (V3 _ Hd)). }
    bd H as r E8. destruct r as [code2 w8]. apply (wlp_elim _ _ _ (run_held _ _ _)) in E8. cbn [snd] in E8. apply held_nodes in E8. rewrite <- E8 in V7.
    destruct (code2 =? ECOS_OPTIMAL)%Z.
    + bd H as u Eu. bd H as w9 E9. intros nd Hd Hs. exact (finish_U _ _ _ _ H (or_introl eq_refl) nd Hd).
    + intros nd Hd Hs. exact (finish_U _ _ _ _ H (or_intror V7) nd Hd).
Qed.

Lemma root_U w w1 nd : bb_root solver rnd rfuel w = Some w1 -> get (bb_nodes w1) 0 = Some nd -> nd_status nd = MI_SOLVED_BRANCHABLE -> bb_U w1 = finf.
Proof.
  unfold bb_root. intros E Hd Hs. bd E as w2 E2. bd E as w3 E3. bd E as nd3 E4. injection E as <-. bbc. bbc in Hd. rewrite Hd in E4. injection E4 as <-.
  refine (get_bounds_U _ _ _ E3 _ nd Hd Hs). intros nd0 H0.
  unfold initialize_root in E2. bd E2 as wa Ea. apply upd_node_inv in Ea as (? & ? & _ & -> & _ & Ga). bd E2 as b1 Eb. bd E2 as b2 Ec. injection E2 as <-.
  bbc in H0. rewrite Ga in H0. cbn [Nat.eqb] in H0. injection H0 as <-. split; [reflexivity|intros A; discriminate A].
Qed.
End Keep.
