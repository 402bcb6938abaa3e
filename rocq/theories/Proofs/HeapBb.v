(* The blocks of a mixed-integer workspace. *)
From Coq Require Import List Arith Bool Lia.
From Verif.Model Require Import Heap.
From Verif.Spec Require Import HeapSpec.
From Verif.Proofs Require Import HeapP.
Import ListNotations.
Open Scope nat_scope.
Open Scope heap_scope.

Definition bbptrs (b : mbb) : list ptr :=
  [mb_self b; if mb_default b then mb_stgs b else None; mb_Gpr b; mb_Gjc b; mb_Gir b; mb_h b; mb_nodes b; mb_bids b; mb_iids b; mb_tb b; mb_ti b; mb_tbb b; mb_tbi b;
   mb_pbc b; mb_pbs b; mb_pic b; mb_pis b; mb_x b; mb_y b; mb_z b; mb_s b; mb_info b].

Lemma bb_cleanup_ok b keep h f : okw (mb_prob b) -> mb_self b <> None ->
  st h (core (mb_prob b)) (fun x => occ (socs_of (mb_prob b)) x + (occ (bbptrs b) x + f x)) -> data_readable (fun x => occ (bbptrs b) x + f x) (mb_prob b) ->
  wpm (ECOS_BB_cleanup b keep) h (fun _ h' => st h' (kept (mb_prob b) keep) f).
Proof.
  intros OK NB H R. unfold ECOS_BB_cleanup. cbv zeta. step.
  destruct (mb_self b) as [B|] eqn:EB; [|congruence].
  apply w_use. { rewrite (proj1 H). unfold bbptrs. cbn [occ]. rewrite EB, ind_self. lia. }
  step. refine (w_conseq _ _ _ _ (cleanup_ok _ keep _ _ OK H R) _). clear H. intros _ h1 H0.
  set (kp := kept (mb_prob b) keep) in *. clearbody kp.
  assert (H: st h1 (bbptrs b) (fun x => occ kp x + f x)) by (apply (st_eq _ _ _ _ _ H0); intros; lia). clear H0 R OK NB.
  unfold bbptrs in H. rewrite EB in H. destruct b as [sf df stg g1 g2 g3 hn nd bi ii tb ti tbb tbi pbc pbs pic pis x y z s info prob].
  cbn [mb_self mb_default mb_stgs mb_Gpr mb_Gjc mb_Gir mb_h mb_nodes mb_bids mb_iids mb_tb mb_ti mb_tbb mb_tbi mb_pbc mb_pbs mb_pic mb_pis mb_x mb_y mb_z mb_s mb_info mb_prob] in *.
  repeat step. destruct df; cbn [when]; repeat step; (apply (st_eq _ _ _ _ _ H); intros; cbn [occ ind]; lia).
Qed.

(* what a computation does, undefined or not *)
Definition wpr {A} (m : M A) (h : heap) (Q : option (A * heap) -> Prop) : Prop := Q (m h).
Lemma r_bind {A B} (m : M A) (k : A -> M B) h Q : wpm m h (fun a h' => wpr (k a) h' Q) -> wpr (mbind m k) h Q.
Proof. intros (a & h' & E & H). unfold wpr, mbind. rewrite E. exact H. Qed.
Ltac rstep := first [apply r_bind; step; lazymatch goal with |- wpr _ _ _ => idtac end].

Definition inner (u : muser) (Gpr Gjc Gir hn : ptr) : muser := mkUser Gpr Gjc Gir (mu_Apr u) (mu_Ajc u) (mu_Air u) (mu_c u) hn (mu_b u).
Lemma bb_pre sh u nb ni maxit nnz stgs hc h f Q : st h [] f -> bb_arguments hc sh u nb ni nnz stgs -> (forall b, In b (hp_live hc) -> 0 < f b) ->
  (forall self st_ Gpr Gjc Gir hn nodes bids iids tb ti tbb tbi pbc pbs pic pis x y z s info h',
     st h' [Some self; if isNull stgs then st_ else None; Gpr; Some Gjc; Gir; hn; nodes; bids; iids; tb; ti; tbb; tbi; pbc; pbs; pic; pis; x; y; z; s; info] f ->
     (isNull stgs = true -> st_ <> None) -> (isNull stgs = false -> st_ = stgs) ->
     (sh_nnzG sh <> 0 -> Gpr <> None /\ Gir <> None) -> (sh_m sh <> 0 -> hn <> None) ->
     wpr (w <~ ECOS_setup sh (inner u Gpr (Some Gjc) Gir hn) ;;
          match w with None => through_null | Some w => use (mw_stgs w) ;;; ret (mkMbb (Some self) (isNull stgs) st_ Gpr (Some Gjc) Gir hn nodes bids iids tb ti tbb tbi pbc pbs pic pis x y z s info w) end) h' Q) ->
  wpr (ECOS_BB_setup sh u nb ni maxit nnz stgs) h Q.
Proof.
  intros H AR LV K. unfold ECOS_BB_setup. cbv zeta. apply r_bind. step. apply r_bind.
  match goal with H : st ?hh ?ps f |- _ => apply (w_conseq _ hh (fun p h' => st h' ((if isNull stgs then p else None) :: ps) f /\ (isNull stgs = true -> p <> None) /\ (isNull stgs = false -> p = stgs))) end.
  { destruct (isNull stgs) eqn:E; [step; split; [exact H|split; [discriminate|discriminate]]|]. step. split; [|split; [discriminate|auto]]. apply (st_eq _ _ _ _ _ H). intros. cbn [occ ind]. lia. }
  clear H. intros st_ h1 (H & S1 & S2).
  destruct (ba_G _ _ _ _ _ _ _ AR) as ((gb & EGb & IGb) & R1 & R2).
  apply r_bind. match goal with H : st ?hh ?ps ?g |- _ => apply (w_touch hh ps g _ _ _ H) end. { right. exists gb. auto. }
  do 4 (apply r_bind; step).
  apply r_bind. match goal with H : st ?hh ?ps ?g |- _ => apply (w_touch hh ps g _ _ _ H) end. { eapply array_readable; eassumption. }
  apply r_bind. match goal with H : st ?hh ?ps ?g |- _ => apply (w_touch hh ps g _ _ _ H) end. { eapply array_readable; eassumption. }
  apply r_bind. match goal with H : st ?hh ?ps ?g |- _ => apply (w_touch hh ps g _ _ _ H) end. { eapply array_readable; [exact (ba_h _ _ _ _ _ _ _ AR)|exact LV]. }
  apply r_bind. match goal with H : st ?hh ?ps ?g |- wpm _ _ ?R => assert (X: R tt hh) end.
  2:{ destruct (isNull stgs) eqn:E.
      - destruct st_ as [sb|]; [|destruct (S1 eq_refl eq_refl)]. match goal with H : st ?hh ?ps ?g |- _ => apply (w_use_in hh ps g _ _ H) end; [isin; fail|exact X].
      - assert (N: stgs <> None) by (intros ->; discriminate). destruct (ba_stgs _ _ _ _ _ _ _ AR N) as (sb & Es & Is). rewrite (S2 eq_refl), Es in *.
        apply w_use; [|exact X]. rewrite (proj1 H). specialize (LV sb Is). lia. }
  do 16 (apply r_bind; step).
  pose proof (ba_nnz _ _ _ _ _ _ _ AR) as EN.
  eapply K; auto; [|]; [apply (st_eq _ _ _ _ _ H); intros; cbn [occ]; lia|].
  rewrite EN. auto.
Qed.

Lemma own_in h ps f p : st h ps f -> In p ps -> p <> None -> owned h p.
Proof.
  intros H I N. destruct p as [x|]; [|congruence]. exists x. split; [reflexivity|]. apply in_cnt. rewrite (proj1 H). pose proof (ind_le _ _ x I) as L. rewrite ind_self in L. lia.
Qed.
Lemma owned_up hc h ps f p : st h ps f -> (forall b, In b (hp_live hc) -> 0 < f b) -> owned hc p -> owned h p.
Proof. intros H LV (b & E & I). exists b. split; [exact E|]. apply in_cnt. rewrite (proj1 H). specialize (LV b I). lia. Qed.
Lemma inner_args hc h ps f sh u nb ni nnz stgs Gpr Gjc Gir hn : st h ps f -> bb_arguments hc sh u nb ni nnz stgs -> (forall b, In b (hp_live hc) -> 0 < f b) ->
  In Gpr ps -> In (Some Gjc) ps -> In Gir ps -> In hn ps -> (sh_nnzG sh <> 0 -> Gpr <> None /\ Gir <> None) -> (sh_m sh <> 0 -> hn <> None) ->
  arguments h sh (inner u Gpr (Some Gjc) Gir hn).
Proof.
  intros H AR LV I1 I2 I3 I4 N1 N2. constructor; cbn [inner mu_Gpr mu_Gjc mu_Gir mu_h mu_Apr mu_Ajc mu_Air mu_b].
  - intros (P1 & _ & P3). split; [apply (own_in h ps f); auto; discriminate|]. split; right; apply (own_in h ps f); auto.
  - intros NG. destruct (Nat.eq_dec (sh_nnzG sh) 0) as [Z|Z].
    + split; [exact Z|]. split; [intros _; apply (own_in h ps f); auto; discriminate|discriminate].
    + destruct NG. destruct (N1 Z). repeat split; auto. discriminate.
  - destruct (Nat.eq_dec (sh_m sh) 0) as [Z|Z]; [left; exact Z|right]. apply (own_in h ps f); auto.
  - intros GA. destruct (ba_A _ _ _ _ _ _ _ AR GA) as ((O & A1 & A2) & A3).
    assert (U: forall k p, array hc k p -> array h k p) by (intros k p [E|O']; [left; exact E|right; apply (owned_up hc h ps f); auto]).
    split; [split; [apply (owned_up hc h ps f); auto|auto]|auto].
  - exact (ba_sizeG _ _ _ _ _ _ _ AR).
  - exact (ba_sizeA _ _ _ _ _ _ _ AR).
Qed.

Record okb (sh : shape) (u : muser) (stgs : ptr) (b : mbb) : Prop := mkOkb {
  kb_prob : okw (mb_prob b); kb_refers : refers sh (inner u (mb_Gpr b) (mb_Gjc b) (mb_Gir b) (mb_h b)) (mb_prob b); kb_self : mb_self b <> None; kb_default : mb_default b = isNull stgs;
  kb_Gjc : mb_Gjc b <> None; kb_G : sh_nnzG sh <> 0 -> mb_Gpr b <> None /\ mb_Gir b <> None; kb_h : sh_m sh <> 0 -> mb_h b <> None;
  kb_x : sh_n sh <> 0 -> mw_x (mb_prob b) <> None; kb_y : sh_p sh <> 0 -> mw_y (mb_prob b) <> None; kb_sz : sh_m sh <> 0 -> mw_s (mb_prob b) <> None /\ mw_z (mb_prob b) <> None }.
Lemma bb_setup_ok sh u nb ni maxit nnz stgs hc h f : st h [] f -> bb_arguments hc sh u nb ni nnz stgs -> (forall b, In b (hp_live hc) -> 0 < f b) ->
  wpr (ECOS_BB_setup sh u nb ni maxit nnz stgs) h (fun r =>
    (consistent sh /\ sh_amd sh = true /\ exists b h1, r = Some (b, h1) /\ okb sh u stgs b /\
       st h1 (core (mb_prob b)) (fun x => occ (socs_of (mb_prob b)) x + (occ (bbptrs b) x + f x))) \/
    (~ (consistent sh /\ sh_amd sh = true) /\ r = None)).
Proof.
  intros H AR LV. apply (bb_pre _ _ _ _ _ _ _ hc _ f _ H AR LV). clear H.
  intros self st_ Gpr Gjc Gir hn nodes bids iids tb ti tbb tbi pbc pbs pic pis x y z s info h' H S1 S2 N1 N2. apply r_bind.
  assert (AI: arguments h' sh (inner u Gpr (Some Gjc) Gir hn)) by (eapply (inner_args hc h'); eauto; isin; fail).
  match type of H with st _ ?l _ => set (ps := l) in * end.
  assert (H': st h' [] (fun b => occ ps b + f b)) by (apply (st_eq _ _ _ _ _ H); intros; cbn [occ]; lia).
  refine (w_conseq _ _ _ _ (setup_ok sh _ h' h' _ H' AI _) _).
  { intros b I. apply in_cnt in I. rewrite (proj1 H) in I. exact I. }
  intros [w|] h1 X; [|right; split; [exact (proj1 X)|reflexivity]].
  destruct X as (C & E & Hs & OK & R & X1 & X2 & X3). left. split; [exact C|]. split; [exact E|].
  eexists _, h1. split.
  { pose proof (ok_stgs w OK) as NS. destruct (mw_stgs w) as [sb|] eqn:ES; [|congruence]. unfold mbind at 1. unfold use.
    assert (L: is_live h1 sb = true). { apply live_cnt. rewrite (proj1 Hs). assert (I: In (Some sb) (core w)) by (rewrite <- ES; unfold core; cbv zeta; isin). pose proof (ind_le _ _ sb I) as L. rewrite ind_self in L. lia. }
    rewrite L. reflexivity. }
  split; [|exact Hs]. constructor; cbn [mb_prob mb_self mb_default mb_Gpr mb_Gjc mb_Gir mb_h]; auto; discriminate.
Qed.
Lemma bb_readable hc h f sh u nb ni nnz stgs b : okb sh u stgs b -> bb_arguments hc sh u nb ni nnz stgs -> (forall x, In x (hp_live hc) -> 0 < f x) ->
  st h [] (fun x => occ (bbptrs b) x + f x) -> data_readable (fun x => occ (bbptrs b) x + f x) (mb_prob b).
Proof.
  intros OK AR LV H. assert (H': st h (bbptrs b) f) by (apply (st_eq _ _ _ _ _ H); intros; cbn [occ]; lia).
  pose proof (kb_Gjc _ _ _ _ OK) as NJ. pose proof (kb_refers _ _ _ _ OK) as RF. destruct (mb_Gjc b) as [gj|] eqn:EJ; [|congruence].
  assert (AI: arguments h sh (inner u (mb_Gpr b) (Some gj) (mb_Gir b) (mb_h b))).
  { apply (inner_args hc h (bbptrs b) f sh u nb ni nnz stgs); auto; try (rewrite <- EJ; unfold bbptrs; isin; fail); try (unfold bbptrs; isin; fail); [exact (kb_G _ _ _ _ OK)|exact (kb_h _ _ _ _ OK)]. }
  apply (refers_readable _ _ h _ _ RF AI). intros x I. apply in_cnt in I. rewrite (proj1 H') in I. exact I.
Qed.

(* temporaries *)
Lemma same_live h h' : wf_heap h -> st h' [] (cnt h) -> forall b, In b (hp_live h') <-> In b (hp_live h).
Proof. intros W H b. rewrite !in_cnt, (proj1 H). cbn [occ]. lia. Qed.
Lemma strong_ok n nv h f : st h [] f -> wpm (strong_branching n nv) h (fun _ h' => st h' [] f).
Proof. intros H. unfold strong_branching. repeat step. exact H. Qed.
Lemma pseudo_ok nv h f : st h [] f -> wpm (pseudocost_branching nv) h (fun _ h' => st h' [] f).
Proof. intros H. unfold pseudocost_branching. repeat step. exact H. Qed.
Lemma rounds_ok n rounds : forall xv h ps f (Q : bool * ptr -> heap -> Prop) (c : bool), st h (xv :: ps) f -> (c = false -> xv = None) ->
  (forall c' xv' h', st h' (xv' :: ps) f -> Q (c', xv') h') -> wpm (reliability_rounds n rounds (c, xv)) h Q.
Proof.
  induction rounds as [|r rounds IH]; intros xv h ps f Q c H N K; cbn [reliability_rounds].
  - step. apply (K c xv). exact H.
  - step. cbn [fst]. destruct (r && negb c)%bool eqn:E.
    + apply andb_true_iff in E. destruct E as (_ & E). apply negb_true_iff in E. specialize (N E). subst xv.
      assert (H': st h ps f) by (apply (st_eq _ _ _ _ _ H); intros; cbn [occ ind]; lia). clear H. rename H' into H. step. step. step. eapply (IH _ _ ps f); [exact H|discriminate|exact K].
    + step. apply (IH _ _ ps f); auto.
Qed.
Lemma reliab_ok n nv rounds h f : st h [] f -> wpm (reliability_branching n nv rounds) h (fun _ h' => st h' [] f).
Proof.
  intros H. unfold reliability_branching. step. step. step.
  match goal with H : st ?hh ?ps ?g |- _ => assert (H': st hh (None :: ps) g) by (apply (st_eq _ _ _ _ _ H); intros; cbn [occ ind]; lia); clear H; apply (rounds_ok n rounds None hh ps g _ false H' (fun _ => eq_refl)) end.
  clear H'. intros c xv h2 H. cbn [snd]. repeat step. exact H.
Qed.
