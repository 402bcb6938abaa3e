(* C33 in IEEE double precision: the workspace that setup makes for one boolean x with
   cost -x, the default settings, and relaxations that always answer 1/2. *)
From Coq Require Import List Arith Bool ZArith QArith Reals Lia Lra.
From Flocq Require Import Core BinarySingleNaN.
From Verif Require Import Base Num NumI.
From Verif.Model Require Import Consts Types Ecos BbTypes Bb.
From Verif.Spec Require Import Solver.
From Verif.Proofs Require Import RoundB BbP.
From Verif.Properties Require Import Passes PassesB PassesBT.
From Verif.Examples Require Import RunB.
Import ListNotations.
Open Scope nat_scope.

Definition halfB : b64 := @half B0.
Definition half_solver (k : nat) (t : ctrlc) (p : pwork b64) : option (Z * ctrlc * pwork b64) :=
  Some (ECOS_OPTIMAL, t, set_w_x p [Some halfB]).

Definition bbB (t : ctrlc) : option (bbwork b64) :=
  @ECOS_BB_setup B0 idamdB junkB bz bz bz stB t 1 0 0 0 [] 0 ([], arr_of [0; 0], []) None
    (arr_of [zB (-1)]) [] [] 1 (arr_of [0]) 0 [] None.

Lemma half_bounded : bounded_solver 1 0 2 1 0 (fun _ => 0) half_solver.
Proof.
  constructor. intros k t p (H1 & H2 & H3 & H4 & H5 & H6 & H7 & H8 & H9 & H10).
  exists ECOS_OPTIMAL, t, (set_w_x p [Some halfB]). split; [reflexivity|]. split.
  - refine (conj H1 (conj H2 (conj H3 (conj H4 (conj H5 (conj H6 (conj _ (conj H8 (conj H9 H10))))))))). exact (le_n 1).
  - split.
    + intros i Hi. exists halfB. destruct i; [reflexivity|lia].
    + intros j y _ E. assert (y = halfB) as -> by (injection E as <-; reflexivity).
      destruct (val_half nanf nanf) as [V1 V2].
      assert (A: Rabs (B2R halfB) = (/ 2)%R) by (eapply eq_trans; [exact (f_equal Rabs V2)|apply Rabs_pos_eq; lra]).
      split; [exact V1|]. split; [|intros _]; eapply Rle_trans; try (apply Req_le; exact A); lra.
Qed.

(* what the check below decides about the workspace *)
Definition shape (w : bbwork b64) : bool :=
  let p := bb_prob w in
  ((w_n p =? 1) && (w_p p =? 0) && (w_m p =? 2) && (2 <=? length (w_h p)) &&
  match w_Gequil p with Some _ :: Some _ :: _ => true | _ => false end &&
  match w_c p with Some _ :: _ => true | _ => false end &&
  (1 <=? length (w_x p)) && (2 <=? length (w_z p)) && (2 <=? length (w_s p)))%bool.

Definition t0 : ctrlc := mkCtrlc None None.

Lemma setup_ok : match bbB t0 with Some w => shape w | None => false end = true.
Proof. vm_compute. reflexivity. Qed.

Lemma setup_sets w : bbB t0 = Some w -> bb_stgs w = @default_bb_settings B0 /\ bb_nb w = 1 /\ bb_ni w = 0.
Proof.
  unfold bbB, ECOS_BB_setup. intros E. bd E as nnz E0. bd E as r4 E1. destruct r4 as [[[Gp Gj] Gi] h'].
  bd E as r E2. destruct r as [pw|]; [|discriminate]. injection E as <-. repeat split.
Qed.

Lemma shape_sized w : shape w = true -> sized 1 0 2 1 (bb_prob w).
Proof.
  unfold shape. intros H. repeat (apply andb_prop in H as [H ?]).
  repeat match goal with E : (_ =? _) = true |- _ => apply Nat.eqb_eq in E | E : (_ <=? _) = true |- _ => apply Nat.leb_le in E end.
  unfold sized. repeat split; auto; try lia.
  - intros i Hi. destruct (w_Gequil (bb_prob w)) as [|[a|] [|[b|] l]]; try discriminate. destruct i as [|[|]]; [exists a; reflexivity|exists b; reflexivity|lia].
  - intros i Hi. destruct (w_c (bb_prob w)) as [|[a|] l]; try discriminate. destruct i; [exists a; reflexivity|lia].
Qed.

Lemma default_tol : is_finite (bs_itol (@default_bb_settings B0)) = true /\ (0 <= B2R (bs_itol (@default_bb_settings B0)) <= 1)%R.
Proof.
  destruct (C35_binary64_example nanf nanf) as (A & [D1 D2] & _). split; [exact A|].
  split; [|exact D2]. eapply Rle_trans; [|apply Rlt_le; exact D1]. apply bpow_ge_0.
Qed.

(* It meets the hypotheses of C33_binary64_terminates, so the run returns. *)
Theorem C33_binary64_run : exists w, bbB t0 = Some w /\ bounded_solver 1 0 2 (bb_nb w) (bb_ni w) (fun _ => 0) half_solver /\
  @allocated B0 (BInt nanf nanf) 1 0 2 (fun _ => 0) (sized 1 0 2 (bb_nb w + bb_ni w)) w /\
  exists r w', @ECOS_BB_solve B0 (BInt nanf nanf) half_solver (fun _ => 0%Z) 0 w = Some (r, w') /\ documented r /\
    (Z.of_nat (bb_iter w') < 1000)%Z.
Proof.
  pose proof setup_ok as K. destruct (bbB t0) as [w|] eqn:E; [|discriminate K].
  destruct (setup_sets w E) as (Es & En & Ei). destruct default_tol as [T1 T2].
  assert (Hb: bounded_solver 1 0 2 (bb_nb w) (bb_ni w) (fun _ => 0) half_solver) by (rewrite En, Ei; exact half_bounded).
  assert (Ha: @allocated B0 (BInt nanf nanf) 1 0 2 (fun _ => 0) (sized 1 0 2 (bb_nb w + bb_ni w)) w).
  { refine (@C33_setup B0 (BInt nanf nanf) _ _ _ _ _ _ _ _ _ _ _ _ _ _ _ _ _ _ _ _ _ _ _ (fun _ => 0) _ w E _ _ _ _ _).
    - rewrite En, Ei. apply shape_sized, K.
    - lia.
    - intros j Hj. destruct j; [reflexivity|lia].
    - intros j Hj. lia.
    - refine (eq_ind_r (fun s : bbset b64 => @convertible B0 (BInt nanf nanf) (bs_itol s) (@f0 B0)) _ Es). refine (proj1 (C33_binary64_convertible nanf nanf (@f0 B0) _ T1 T2 _ _)); [vm_compute; reflexivity|].
      assert (Z0: B2SF (@f0 B0 : b64) = SpecFloat.S754_zero false) by (vm_compute; reflexivity).
      rewrite <- SF2R_B2SF. eapply eq_ind_r with (P := fun v => (Rabs (SF2R radix2 v) <= _)%R); [|exact Z0]. cbn. rewrite Rabs_R0. lra. }
  exists w. split; [reflexivity|]. split; [exact Hb|]. split; [exact Ha|].
  destruct (C33_binary64_terminates nanf nanf 1 0 2 (fun _ => 0) w half_solver (fun _ => 0%Z) 0 Hb Ha) as (r & w' & Q1 & Q2 & Q3).
  - rewrite Es. exact T1.
  - rewrite Es. exact T2.
  - rewrite En, Ei. lia.
  - intros; lia.
  - intros _. unfold RAND_MAX. lia.
  - rewrite Es. cbn. lia.
  - rewrite Es. discriminate.
  - rewrite Es. discriminate.
  - exists r, w'. split; [exact Q1|]. split; [exact Q2|]. rewrite Es in Q3. exact Q3.
Qed.
Print Assumptions C33_binary64_run.
