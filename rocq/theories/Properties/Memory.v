(* C37: every block a setup allocates is freed by the matching cleanup exactly once,
   except the solution arrays the caller asks to keep; nothing else is freed, and nothing
   is touched after it was freed. *)
From Coq Require Import List Arith Bool Lia.
From Verif.Model Require Import Heap.
From Verif.Spec Require Import HeapSpec.
From Verif.Proofs Require Import HeapP HeapBb.
Import ListNotations.
Open Scope nat_scope.

Lemma wf_st h : wf_heap h -> st h [] (cnt h).
Proof. intros (N & L). split; [reflexivity|exact L]. Qed.

Lemma kept_in w keep b : In (Some b) (kept w keep) <-> 0 < occ (kept w keep) b.
Proof.
  split; [intros I; pose proof (ind_le _ _ b I) as Lk; rewrite ind_self in Lk; lia|]. induction (kept w keep) as [|p l IH]; cbn [occ]; [lia|]. intros X. destruct p as [x|]; cbn [ind] in X.
  - destruct (Nat.eqb_spec x b) as [->|N]; [left; reflexivity|right; apply IH; lia].
  - right. apply IH. lia.
Qed.
Lemma kept_le w keep b : occ (kept w keep) b <= occ (core w) b.
Proof.
  assert (X: occ (kept w keep) b <= occ [mw_x w; mw_y w; mw_s w; mw_z w] b). { unfold kept. rewrite <- (firstn_skipn keep [mw_x w; mw_y w; mw_s w; mw_z w]) at 2. rewrite occ_app. lia. }
  unfold core. cbv zeta. cbn [occ] in *. lia.
Qed.

(* Setup with sensible arguments never runs into undefined behaviour, frees nothing of the
   caller's, and returns a workspace exactly if the cones match the rows of G and the
   ordering succeeds. *)
Theorem C37_setup : forall sh u h0, wf_heap h0 -> arguments h0 sh u ->
  exists r h1, ECOS_setup sh u h0 = Some (r, h1) /\ wf_heap h1 /\ incl (hp_live h0) (hp_live h1) /\ (r <> None <-> consistent sh /\ sh_amd sh = true) /\
    forall w, r = Some w -> array h1 (sh_n sh) (mw_x w) /\ array h1 (sh_p sh) (mw_y w) /\ array h1 (sh_m sh) (mw_s w) /\ array h1 (sh_m sh) (mw_z w).
Proof.
  intros sh u h0 W AR. destruct (setup_ok sh u h0 h0 (cnt h0) (wf_st _ W) AR) as (r & h1 & E & P).
  { intros b I. apply in_cnt. exact I. }
  exists r, h1. split; [exact E|]. split; [exact (proj1 (k_setup _ _ _ _ _ W E))|]. destruct r as [w|]; cbn [after_setup] in P.
  - destruct P as (C & A & H & OK & _ & X & Y & Z). split.
    { intros b I. apply in_cnt. apply in_cnt in I. rewrite (proj1 H). lia. }
    split; [split; [auto|discriminate]|]. intros w' Ew. injection Ew as <-.
    assert (U: forall k p, In p (core w) -> (k <> 0 -> p <> None) -> array h1 k p).
    { intros k p I N. destruct (Nat.eq_dec k 0) as [->|K]; [left; reflexivity|right]. apply (own_in _ _ _ _ H I). auto. }
    repeat split; apply U; auto; try (unfold core; cbv zeta; isin; fail); intros N; destruct (Z N); assumption.
  - destruct P as (N & b & L). split; [|split; [split; [congruence|intros X; destruct (N X)]|discriminate]].
    intros x I. apply in_cnt. apply in_cnt in I. specialize (L x). lia.
Qed.

(* A rejected problem costs memory: the blocks allocated so far stay live, and the caller
   is given no pointer to free them by. *)
Theorem C37_refuted_rejected : forall sh u h0 h1, wf_heap h0 -> arguments h0 sh u -> ECOS_setup sh u h0 = Some (None, h1) -> exists b, made h0 h1 b.
Proof.
  intros sh u h0 h1 W AR E. destruct (setup_ok sh u h0 h0 (cnt h0) (wf_st _ W) AR) as (r & h1' & E' & P).
  { intros b I. apply in_cnt. exact I. }
  rewrite E in E'. injection E' as <- <-. destruct P as (_ & b & L). exists b. specialize (L b). rewrite ind_self in L. split; [apply in_cnt; lia|].
  intros I. apply in_cnt in I. pose proof (wf_cnt h1 b (proj1 (k_setup _ _ _ _ _ W E))). lia.
Qed.

(* At any later moment at which the blocks of the workspace and the caller's arrays are
   still there, cleanup (with or without solves before it: they may only set the pointer
   to the equality residual to NULL) succeeds.  Of the blocks of the workspace exactly the
   arrays to be kept survive; every other block is left alone. *)
Theorem C37_cleanup : forall sh u h0 w h1 h w' keep,
  wf_heap h0 -> arguments h0 sh u -> ECOS_setup sh u h0 = Some (Some w, h1) ->
  wf_heap h -> (forall b, made h0 h1 b -> In b (hp_live h)) -> arguments h sh u -> w' = w \/ w' = solve_ry w ->
  exists h2, ECOS_cleanup w' keep h = Some (tt, h2) /\ wf_heap h2 /\
    forall b, In b (hp_live h2) <-> In b (hp_live h) /\ (made h0 h1 b -> In (Some b) (firstn keep [mw_x w; mw_y w; mw_s w; mw_z w])).
Proof.
  intros sh u h0 w h1 h w' keep W0 AR0 E W IN AR Ew.
  assert (W1 := proj1 (k_setup _ _ _ _ _ W0 E)).
  destruct (setup_ok sh u h0 h0 (cnt h0) (wf_st _ W0) AR0) as (r & h1' & E' & P); [intros b I; apply in_cnt; exact I|].
  rewrite E in E'. injection E' as <- <-. destruct P as (_ & _ & H & OK & R & _).
  assert (w' = w) by (destruct Ew as [->| ->]; [reflexivity|apply solve_ry_id; exact OK]). subst w'. clear Ew.
  set (own := fun b => occ (core w) b + occ (socs_of w) b).
  assert (O: forall b, own b <= cnt h b).
  { intros b. unfold own. pose proof (proj1 H b) as C. cbv beta in C. pose proof (wf_cnt h1 b W1). destruct (Nat.eq_dec (occ (core w) b + occ (socs_of w) b) 0) as [Z|Z]; [lia|].
    enough (0 < cnt h b) by lia. apply in_cnt, IN. split; [apply in_cnt; lia|]. intros I. apply in_cnt in I. lia. }
  assert (MO: forall b, made h0 h1 b <-> own b = 1).
  { intros b. unfold made, own. rewrite !in_cnt. pose proof (proj1 H b) as C. cbv beta in C. pose proof (wf_cnt h1 b W1). pose proof (wf_cnt h0 b W0). split; [intros (A & B); lia|intros; lia]. }
  set (f := fun b => cnt h b - own b).
  assert (LF: forall b, In b (hp_live h0) -> In b (hp_live h) -> 0 < f b).
  { intros b I0 I. unfold f. apply in_cnt in I0. apply in_cnt in I. assert (own b = 0); [|lia]. unfold own. pose proof (proj1 H b) as C. cbv beta in C. pose proof (wf_cnt h1 b W1). lia. }
  assert (HH: st h (core w) (fun b => occ (socs_of w) b + f b)).
  { split; [|exact (proj2 W)]. intros b. unfold f. specialize (O b). unfold own in *. lia. }
  assert (RR: data_readable f w).
  { assert (AL: forall k p, readable (cnt h0) k p -> readable (cnt h) k p -> readable f k p).
    { intros k p [Z|(x & -> & L0)] R2; [left; exact Z|]. destruct R2 as [Z|(x' & Ex & L)]; [left; exact Z|]. injection Ex as <-. right. exists x. split; [reflexivity|]. apply LF; apply in_cnt; assumption. }
    assert (R': data_readable (cnt h) w).
    { assert (LH: forall b, In b (hp_live h) -> 0 < cnt h b) by (intros b; apply in_cnt).
      exact (refers_readable sh u h _ w R AR LH). }
    assert (R0: data_readable (cnt h0) w) by (apply (refers_readable sh u h0 _ w R AR0); intros b; apply in_cnt).
    destruct R0 as (Ra & Rb & Rc), R' as (Qa & Qb & Qc). split; [|split].
    - intros M. destruct (Ra M) as (? & ? & ?), (Qa M) as (? & ? & ?). auto.
    - auto.
    - intros A EA. destruct (Rc A EA) as (? & ? & ? & ?), (Qc A EA) as (? & ? & ? & ?). auto. }
  destruct (cleanup_ok w keep h f OK HH RR) as ([] & h2 & E2 & S2). exists h2. split; [exact E2|]. assert (W2 := proj1 (k_cleanup _ _ _ _ _ W E2)). split; [exact W2|].
  intros b. rewrite !in_cnt, MO. pose proof (proj1 S2 b) as C2. pose proof (wf_cnt h2 b W2) as L2. pose proof (wf_cnt h b W) as L. specialize (O b). unfold f in C2.
  pose proof (kept_in w keep b) as K1. assert (K2: occ (kept w keep) b <= own b) by (pose proof (kept_le w keep b); unfold own; lia).
  unfold kept in *. rewrite K1. split; [intros X; split; [lia|]; intros Y; lia|]. intros (X & Y). destruct (Nat.eq_dec (own b) 1) as [Z|Z]; [specialize (Y Z); lia|lia].
Qed.

(* ---- mixed-integer problems ---- *)
(* With sensible arguments the mixed-integer setup works exactly if the setup of the
   relaxation does; otherwise it reads through the NULL it got. *)
Theorem C37_bb_setup : forall sh u nb ni maxit nnz stgs h0, wf_heap h0 -> bb_arguments h0 sh u nb ni nnz stgs -> consistent sh -> sh_amd sh = true ->
  exists b h1, ECOS_BB_setup sh u nb ni maxit nnz stgs h0 = Some (b, h1) /\ wf_heap h1 /\ incl (hp_live h0) (hp_live h1).
Proof.
  intros sh u nb ni maxit nnz stgs h0 W AR C A.
  destruct (bb_setup_ok sh u nb ni maxit nnz stgs h0 h0 (cnt h0) (wf_st _ W) AR) as [(_ & _ & b & h1 & E & _ & H)|(N & _)]; [intros b; apply in_cnt| |destruct N; auto].
  exists b, h1. split; [exact E|]. split; [exact (proj1 (k_bbsetup _ _ _ _ _ _ _ _ _ _ W E))|]. intros x I. apply in_cnt. apply in_cnt in I. rewrite (proj1 H). lia.
Qed.
Theorem C37_refuted_bb_rejected : forall sh u nb ni maxit nnz stgs h0, wf_heap h0 -> bb_arguments h0 sh u nb ni nnz stgs -> ~ (consistent sh /\ sh_amd sh = true) ->
  ECOS_BB_setup sh u nb ni maxit nnz stgs h0 = None.
Proof.
  intros sh u nb ni maxit nnz stgs h0 W AR N.
  destruct (bb_setup_ok sh u nb ni maxit nnz stgs h0 h0 (cnt h0) (wf_st _ W) AR) as [(C & A & _)|(_ & E)]; [intros b; apply in_cnt|destruct N; auto|exact E].
Qed.

(* with the relaxation's workspace replaced by what solves make of it *)
Definition set_prob (b : mbb) (w : mwork) : mbb :=
  mkMbb (mb_self b) (mb_default b) (mb_stgs b) (mb_Gpr b) (mb_Gjc b) (mb_Gir b) (mb_h b) (mb_nodes b) (mb_bids b) (mb_iids b) (mb_tb b) (mb_ti b) (mb_tbb b) (mb_tbi b)
    (mb_pbc b) (mb_pbs b) (mb_pic b) (mb_pis b) (mb_x b) (mb_y b) (mb_z b) (mb_s b) (mb_info b) w.

(* The mixed-integer cleanup likewise; settings the caller passed in are the caller's, and
   stay. *)
Theorem C37_bb_cleanup : forall sh u nb ni maxit nnz stgs h0 b h1 h b' keep,
  wf_heap h0 -> bb_arguments h0 sh u nb ni nnz stgs -> ECOS_BB_setup sh u nb ni maxit nnz stgs h0 = Some (b, h1) ->
  wf_heap h -> (forall x, made h0 h1 x -> In x (hp_live h)) -> bb_arguments h sh u nb ni nnz stgs -> b' = b \/ b' = set_prob b (solve_ry (mb_prob b)) ->
  exists h2, ECOS_BB_cleanup b' keep h = Some (tt, h2) /\ wf_heap h2 /\
    forall x, In x (hp_live h2) <-> In x (hp_live h) /\ (made h0 h1 x -> In (Some x) (firstn keep [mw_x (mb_prob b); mw_y (mb_prob b); mw_s (mb_prob b); mw_z (mb_prob b)])).
Proof.
  intros sh u nb ni maxit nnz stgs h0 b h1 h b' keep W0 AR0 E W IN AR Eb.
  assert (W1 := proj1 (k_bbsetup _ _ _ _ _ _ _ _ _ _ W0 E)).
  destruct (bb_setup_ok sh u nb ni maxit nnz stgs h0 h0 (cnt h0) (wf_st _ W0) AR0) as [(_ & _ & b0 & h1' & E' & OK & H)|(_ & E')]; [intros x; apply in_cnt| |congruence].
  rewrite E in E'. injection E' as <- <-.
  assert (b' = b) by (destruct Eb as [->| ->]; [reflexivity|]; rewrite (solve_ry_id _ (kb_prob _ _ _ _ OK)); destruct b; reflexivity). subst b'. clear Eb.
  set (w := mb_prob b) in *. set (own := fun x => occ (core w) x + occ (socs_of w) x + occ (bbptrs b) x).
  assert (C: forall x, cnt h1 x = own x + cnt h0 x) by (intros x; rewrite (proj1 H); unfold own; lia).
  assert (O: forall x, own x <= cnt h x).
  { intros x. specialize (C x). pose proof (wf_cnt h1 x W1). destruct (Nat.eq_dec (own x) 0) as [Z|Z]; [lia|].
    enough (0 < cnt h x) by lia. apply in_cnt, IN. split; [apply in_cnt; lia|]. intros I. apply in_cnt in I. lia. }
  assert (MO: forall x, made h0 h1 x <-> own x = 1).
  { intros x. unfold made. rewrite !in_cnt. specialize (C x). pose proof (wf_cnt h1 x W1). pose proof (wf_cnt h0 x W0). split; [intros (A & B); lia|intros; lia]. }
  set (f := fun x => cnt h x - own x).
  assert (HH: st h (core w) (fun x => occ (socs_of w) x + (occ (bbptrs b) x + f x))).
  { split; [|exact (proj2 W)]. intros x. unfold f. specialize (O x). unfold own in *. lia. }
  assert (RR: data_readable (fun x => occ (bbptrs b) x + f x) w).
  { pose (hc := mkHeap (filter (fun x => if in_dec Nat.eq_dec x (hp_live h0) then true else false) (hp_live h)) 0 (hp_zero h)).
    assert (HC: forall x, In x (hp_live hc) <-> In x (hp_live h) /\ In x (hp_live h0)).
    { intros x. cbn [hc hp_live]. rewrite filter_In. destruct (in_dec Nat.eq_dec x (hp_live h0)); intuition discriminate. }
    assert (OB: forall p, owned h0 p -> owned h p -> owned hc p).
    { intros p (x & -> & I0) (x' & Ex & I). injection Ex as <-. exists x. split; [reflexivity|]. apply HC. auto. }
    assert (OA: forall k p, array h0 k p -> array h k p -> array hc k p) by (intros k p [Z|A] [Z'|B]; try (left; assumption); right; auto).
    assert (ARC: bb_arguments hc sh u nb ni nnz stgs).
    { destruct AR0 as [(G1 & G2 & G3) B1 B2 B3 B4 B5 B6 B7], AR as [(D1 & D2 & D3) _ _ E3 E4 E5 _ _]. constructor; auto.
      intros GA. destruct (B4 GA) as ((X1 & X2 & X3) & X4), (E4 GA) as ((Y1 & Y2 & Y3) & Y4). split; [split; [auto|auto]|auto]. }
    pose (hh := mkHeap (flat_map (fun x => if Nat.eqb (own x) 0 then [x] else repeat x (occ (bbptrs b) x)) (hp_live h)) (hp_next h) (hp_zero h)).
    apply (bb_readable hc hh f sh u nb ni nnz stgs b OK ARC).
    - intros x I. apply HC in I. destruct I as (I & I0). apply in_cnt in I. apply in_cnt in I0. unfold f. specialize (C x). pose proof (wf_cnt h1 x W1). lia.
    - split.
      + intros x. unfold cnt at 1. cbn [hh hp_live occ]. assert (NL := proj1 W).
        assert (CF: forall l, NoDup l -> count_occ Nat.eq_dec (flat_map (fun x => if Nat.eqb (own x) 0 then [x] else repeat x (occ (bbptrs b) x)) l) x =
                  count_occ Nat.eq_dec l x * (if Nat.eqb (own x) 0 then 1 else occ (bbptrs b) x)).
        { clear. intros l. induction l as [|y l IH]; intros N; [reflexivity|]. inversion N; subst. cbn [flat_map]. rewrite count_occ_app, IH; [|assumption]. cbn [count_occ].
          destruct (Nat.eq_dec y x) as [->|Ny].
          - destruct (own x =? 0); [cbn [count_occ]; destruct (Nat.eq_dec x x); [lia|congruence]|rewrite count_occ_repeat_eq by reflexivity; lia].
          - destruct (own y =? 0); [cbn [count_occ]; destruct (Nat.eq_dec y x); [congruence|lia]|rewrite count_occ_repeat_neq by congruence; lia]. }
        rewrite CF by exact NL. fold (cnt h x). unfold f. pose proof (wf_cnt h x W) as L. specialize (O x). destruct (Nat.eqb_spec (own x) 0) as [Z|Z]; unfold own in *; nia.
      + intros x I. cbn [hh hp_live hp_next] in *. apply in_flat_map in I. destruct I as (y & Iy & Ix). apply (proj2 W). destruct (own y =? 0); [destruct Ix as [<-|[]]; exact Iy|apply repeat_spec in Ix; subst; exact Iy]. }
  destruct (bb_cleanup_ok b keep h f (kb_prob _ _ _ _ OK) (kb_self _ _ _ _ OK) HH RR) as ([] & h2 & E2 & S2). exists h2. split; [exact E2|].
  assert (W2 := proj1 (k_bbcleanup _ _ _ _ _ W E2)). split; [exact W2|].
  intros x. rewrite !in_cnt, MO. pose proof (proj1 S2 x) as C2. pose proof (wf_cnt h2 x W2) as L2. pose proof (wf_cnt h x W) as L. specialize (O x). unfold f in C2.
  fold w in C2. pose proof (kept_in w keep x) as K1. pose proof (kept_le w keep x) as K2. unfold own in *.
  unfold kept in *. rewrite K1. split; [intros X; split; [lia|]; intros Y; lia|]. intros (X & Y).
  match type of Y with ?a = 1 -> _ => destruct (Nat.eq_dec a 1) as [Z|Z]; [specialize (Y Z); lia|lia] end.
Qed.

(* The branching rules free every temporary they allocate. *)
Theorem C37_branching : forall m h, wf_heap h ->
  (exists n nv, m = strong_branching n nv) \/ (exists nv, m = pseudocost_branching nv) \/ (exists n nv rounds, m = reliability_branching n nv rounds) ->
  exists h', m h = Some (tt, h') /\ forall b, In b (hp_live h') <-> In b (hp_live h).
Proof.
  intros m h W D. assert (X: wpm m h (fun _ h' => st h' [] (cnt h))).
  { destruct D as [(n & nv & ->)|[(nv & ->)|(n & nv & rounds & ->)]]; [apply strong_ok|apply pseudo_ok|apply reliab_ok]; apply wf_st; exact W. }
  destruct X as ([] & h' & E & H). exists h'. split; [exact E|]. apply (same_live h h' W H).
Qed.

(* ---- examples ---- *)
(* four variables, one equality, five inequalities: two linear ones and a cone of
   dimension three; the caller's arrays are blocks 0 to 8 *)
Definition ex_heap : heap := mkHeap [8; 7; 6; 5; 4; 3; 2; 1; 0] 9 (fun b => Nat.even b).
Definition ex_user : muser := mkUser (Some 0) (Some 1) (Some 2) (Some 3) (Some 4) (Some 5) (Some 6) (Some 7) (Some 8).
Definition ex_shape : shape := mkShape 4 5 1 2 [3] 0 2 6 10 20 30 true.
Lemma ex_wf : wf_heap ex_heap.
Proof. split; [repeat constructor; cbn; intuition discriminate|]. cbn. intros b I. repeat (destruct I as [<-|I]; [lia|]). destruct I. Qed.
Lemma ex_arguments sh : sh_n sh <> 0 -> sh_m sh <> 0 -> sh_p sh <> 0 -> arguments ex_heap sh ex_user.
Proof.
  intros Hn Hm Hp. constructor; unfold ex_user; cbn [mu_Gpr mu_Gjc mu_Gir mu_Apr mu_Ajc mu_Air mu_c mu_h mu_b].
  - intros _. unfold matrix, array, owned. cbn. repeat split; try right; eauto 20.
  - intros N. destruct N. repeat split; discriminate.
  - right. exists 7. cbn. auto.
  - intros _. unfold matrix, array, owned. cbn. repeat split; try right; eauto 20.
  - auto. - auto.
Qed.
(* the whole history: set up, solve, clean up keeping x and y *)
Theorem C37_example : exists w h1 h2,
  wf_heap ex_heap /\ arguments ex_heap ex_shape ex_user /\ consistent ex_shape /\
  ECOS_setup ex_shape ex_user ex_heap = Some (Some w, h1) /\ length (hp_live h1) = 80 /\
  ECOS_cleanup (solve_ry w) 2 h1 = Some (tt, h2) /\ hp_live h2 = [11; 10; 8; 7; 6; 5; 4; 3; 2; 1; 0] /\ mw_x w = Some 10 /\ mw_y w = Some 11.
Proof.
  assert (C: match ECOS_setup ex_shape ex_user ex_heap with
             | Some (Some w, h1) => length (hp_live h1) = 80 /\ mw_x w = Some 10 /\ mw_y w = Some 11 /\
                 match ECOS_cleanup (solve_ry w) 2 h1 with Some (tt, h2) => hp_live h2 = [11; 10; 8; 7; 6; 5; 4; 3; 2; 1; 0] | None => False end
             | _ => False end).
  { vm_compute. repeat split. }
  destruct (ECOS_setup ex_shape ex_user ex_heap) as [[[w|] h1]|] eqn:E; try (destruct C; fail). destruct C as (L & X & Y & C).
  destruct (ECOS_cleanup (solve_ry w) 2 h1) as [[[] h2]|] eqn:E2; [|destruct C]. exists w, h1, h2.
  split; [exact ex_wf|]. split; [apply ex_arguments; discriminate|]. split; [reflexivity|]. auto 10.
Qed.
(* the caller's arrays must outlive the workspace: freeing Gpr first makes cleanup write
   to a freed block *)
Theorem C37_refuted_data_freed : exists w h1 h, ECOS_setup ex_shape ex_user ex_heap = Some (Some w, h1) /\ free (mu_Gpr ex_user) h1 = Some (tt, h) /\ ECOS_cleanup w 0 h = None.
Proof.
  assert (C: match ECOS_setup ex_shape ex_user ex_heap with
             | Some (Some w, h1) => match free (mu_Gpr ex_user) h1 with Some (tt, h) => ECOS_cleanup w 0 h = None | None => False end
             | _ => False end) by (vm_compute; reflexivity).
  destruct (ECOS_setup ex_shape ex_user ex_heap) as [[[w|] h1]|] eqn:E; try (destruct C; fail).
  destruct (free (mu_Gpr ex_user) h1) as [[[] h]|] eqn:E1; [|destruct C]. exists w, h1, h. auto.
Qed.
(* cleaning up twice frees freed blocks *)
Theorem C37_refuted_twice : exists w h1 h2, ECOS_setup ex_shape ex_user ex_heap = Some (Some w, h1) /\ ECOS_cleanup w 0 h1 = Some (tt, h2) /\ ECOS_cleanup w 0 h2 = None.
Proof.
  assert (C: match ECOS_setup ex_shape ex_user ex_heap with
             | Some (Some w, h1) => match ECOS_cleanup w 0 h1 with Some (tt, h2) => ECOS_cleanup w 0 h2 = None | None => False end
             | _ => False end) by (vm_compute; reflexivity).
  destruct (ECOS_setup ex_shape ex_user ex_heap) as [[[w|] h1]|] eqn:E; try (destruct C; fail).
  destruct (ECOS_cleanup w 0 h1) as [[[] h2]|] eqn:E1; [|destruct C]. exists w, h1, h2. auto.
Qed.
(* a mixed-integer problem with one boolean variable and the default settings: seven
   inequalities of which two are the bounds *)
Definition ex_bb_shape : shape := mkShape 4 7 1 4 [3] 0 2 8 12 24 40 true.
Theorem C37_bb_example : exists b h1 h2,
  bb_arguments ex_heap ex_bb_shape ex_user 1 0 6 None /\ consistent ex_bb_shape /\
  ECOS_BB_setup ex_bb_shape ex_user 1 0 100 6 None ex_heap = Some (b, h1) /\ length (hp_live h1) = 101 /\
  ECOS_BB_cleanup b 0 h1 = Some (tt, h2) /\ hp_live h2 = hp_live ex_heap.
Proof.
  assert (C: match ECOS_BB_setup ex_bb_shape ex_user 1 0 100 6 None ex_heap with
             | Some (b, h1) => length (hp_live h1) = 101 /\ match ECOS_BB_cleanup b 0 h1 with Some (tt, h2) => hp_live h2 = hp_live ex_heap | None => False end
             | _ => False end) by (vm_compute; repeat split).
  destruct (ECOS_BB_setup ex_bb_shape ex_user 1 0 100 6 None ex_heap) as [[b h1]|] eqn:E; try (destruct C; fail). destruct C as (L & C).
  destruct (ECOS_BB_cleanup b 0 h1) as [[[] h2]|] eqn:E2; [|destruct C]. exists b, h1, h2.
  split; [|split; [reflexivity|auto]].
  constructor; unfold ex_user, ex_bb_shape; cbn [mu_Gpr mu_Gjc mu_Gir mu_Apr mu_Ajc mu_Air mu_c mu_h mu_b sh_n sh_m sh_p sh_nnzG sh_nnzA]; try lia.
  - unfold array, owned. cbn. repeat split; try right; eauto 20.
  - right. exists 7. cbn. auto.
  - intros _. unfold matrix, array, owned. cbn. repeat split; try right; eauto 20.
  - congruence.
Qed.
(* a rejected problem, by the same numbers: rows that the cones do not cover *)
Theorem C37_refuted_rejected_example : exists h1, arguments ex_heap (mkShape 4 6 1 2 [3] 0 2 6 11 20 30 true) ex_user /\
  ECOS_setup (mkShape 4 6 1 2 [3] 0 2 6 11 20 30 true) ex_user ex_heap = Some (None, h1) /\ length (hp_live h1) = 36.
Proof.
  eexists. split; [apply ex_arguments; discriminate|]. vm_compute. split; reflexivity.
Qed.

Print Assumptions C37_setup. Print Assumptions C37_cleanup. Print Assumptions C37_refuted_rejected. Print Assumptions C37_bb_setup. Print Assumptions C37_bb_cleanup.
Print Assumptions C37_branching. Print Assumptions C37_bb_example.
