(* Running the model in IEEE binary64 (BOps, Flocq's numbers), and deciding by
   computation that a run meets the hypotheses of C47_optimal_moderate. *)
From Coq Require Import List Arith Bool ZArith QArith Reals Lia Lra.
From Flocq Require Import Core BinarySingleNaN.
From Verif Require Import Base Num NumX.
From Verif.Model Require Import Spla Types Consts Cone Kkt Ecos Preproc.
From Verif.Spec Require Import Matrix Conic Certificate Rounding.
From Verif.Proofs Require Import SplaP PhiP RoundB.
From Verif.Properties Require Import Certificate Rounding.
Import ListNotations.
Open Scope nat_scope.

(* exp and log are not used by the examples, which have no exponential cones *)
Definition nanf : b64 -> b64 := fun _ => B754_nan.
Definition B0 : Ops := BOps nanf nanf.
Definition bz : b64 := B754_zero false.
(* what malloc returned for the fields setup does not write *)
Definition stB : stats b64 := mkStats bz bz bz bz bz bz bz bz bz bz bz bz bz bz bz
  0%Z 0%Z 0%Z 0%Z 0%Z 0%Z 0%Z 0%Z 0%Z 0%Z 0%Z bz.
Definition spB : spmat b64 := mkSp [] [] [] 0 0 0.
Definition junkB : pwork b64 := mkW 0 0 0 0 [] [] [] [] [] bz bz [] [] [] [] None [] [] []
  (@new_cone B0 0 [] 0) None spB [] [] [] [] [] [] [] [] bz bz bz [] [] []
  bz bz bz bz bz bz bz bz bz bz bz (mkKkt spB spB [] [] [] [] [] [] [] [] [] [] [] [] [] [] [] [] [] [] [] [] [] [] [] bz) stB (@default_settings B0).
Definition idamdB : amd_oracle := fun n _ _ => Some (arr_of (seq 0 n)).
Definition zB : Z -> b64 := b64_ofZ.
Definition setupB n m p l q nexc G A c h b : option (pwork b64) :=
  match @ECOS_setup B0 idamdB junkB n m p l q nexc G A (arr_of c) (arr_of h) (arr_of b) with
  | Some (Some w) => Some w
  | _ => None
  end.

(* ------------------------------------------------------------------- checks *)
(* 2^60 and 2^-60 *)
Definition big : b64 := @B754_finite 53 1024 false 4503599627370496 8 eq_refl.
Definition lit : b64 := @B754_finite 53 1024 false 4503599627370496 (-112) eq_refl.
Definition DB : R := bpow radix2 60.

Lemma big_val : B2R big = DB.
Proof. unfold big, DB, B2R, F2R. cbn. lra. Qed.
Lemma lit_val : B2R lit = (/ DB)%R.
Proof. unfold lit, DB, B2R, F2R. cbn. lra. Qed.

Definition small (v : b64) : bool := is_finite v && Bleb (Babs v) big.
Definition scal (v : b64) : bool := small v && Bleb lit v.
Definition nneg (v : b64) : bool := is_finite v && Bleb bz v.
Definition bnum (v : b64) : R := B2R v.

Lemma small_spec v : small v = true -> bval v = Some (bnum v) /\ (Rabs (bnum v) <= DB)%R.
Proof.
  unfold small. intros H. apply andb_prop in H as [F L]. split; [apply bval_some; auto|].
  rewrite Bleb_correct in L; [|rewrite is_finite_Babs; exact F|reflexivity].
  rewrite B2R_Babs, big_val in L. unfold bnum. destruct (Rle_bool_spec (Rabs (B2R v)) DB); [auto|discriminate].
Qed.
Lemma scal_spec v : scal v = true -> bval v = Some (bnum v) /\ (/ DB <= bnum v <= DB)%R.
Proof.
  unfold scal. intros H. apply andb_prop in H as [S L]. pose proof S as S'. unfold small in S'. apply andb_prop in S' as [F _].
  apply small_spec in S as [S1 S2]. split; [exact S1|].
  rewrite Bleb_correct in L by auto. rewrite lit_val in L. unfold bnum in *.
  destruct (Rle_bool_spec (/ DB) (B2R v)); [|discriminate].
  split; [auto|]. eapply Rle_trans; [apply Rle_abs|exact S2].
Qed.
Lemma nneg_spec v : nneg v = true -> bval v = Some (bnum v) /\ (0 <= bnum v)%R.
Proof.
  unfold nneg. intros H. apply andb_prop in H as [F L]. split; [apply bval_some; auto|].
  rewrite Bleb_correct in L by auto. unfold bnum. cbn [bz B2R] in L.
  destruct (Rle_bool_spec 0 (B2R v)); [auto|discriminate].
Qed.

Definition allb (f : b64 -> bool) (a : arr b64) (n : nat) : bool :=
  forallb (fun i => match get a i with Some h => f h | None => false end) (seq 0 n).
Definition bfun (a : arr b64) (i : nat) : R := match get a i with Some h => bnum h | None => 0%R end.

Lemma allb_spec f a n : allb f a n = true -> forall i, i < n -> exists h, get a i = Some h /\ f h = true.
Proof.
  unfold allb. rewrite forallb_forall. intros H i Hi. specialize (H i ltac:(apply in_seq; lia)).
  destruct (get a i); [eauto|discriminate].
Qed.
Lemma allb_small a n : allb small a n = true -> @holds B0 bval a n (bfun a) /\ forall i, i < n -> (Rabs (bfun a i) <= DB)%R.
Proof.
  intros H. split; intros i Hi; destruct (allb_spec _ _ _ H i Hi) as (h & E & Q); apply small_spec in Q as [Q1 Q2]; unfold bfun; rewrite E; eauto.
Qed.
Lemma allb_scal a n : allb scal a n = true -> @holds B0 bval a n (bfun a) /\ forall i, i < n -> (/ DB <= bfun a i <= DB)%R.
Proof.
  intros H. split; intros i Hi; destruct (allb_spec _ _ _ H i Hi) as (h & E & Q); apply scal_spec in Q as [Q1 Q2]; unfold bfun; rewrite E; eauto.
Qed.

Definition wfbB (M : spmat b64) : bool :=
  forallb (fun j => match get (sp_jc M) j with Some _ => true | None => false end) (seq 0 (sp_n M + 1)) &&
  (gd 0 (sp_jc M) 0 =? 0)%nat &&
  forallb (fun j => (gd 0 (sp_jc M) j <=? gd 0 (sp_jc M) (j + 1))%nat) (seq 0 (sp_n M)) &&
  (gd 0 (sp_jc M) (sp_n M) =? sp_nnz M)%nat &&
  forallb (fun k => match get (sp_ir M) k with Some r => (r <? sp_m M)%nat | None => false end) (seq 0 (sp_nnz M)) &&
  allb small (sp_pr M) (sp_nnz M).

Lemma wfbB_spec M : wfbB M = true -> wf_sp (mmapf bnum M) /\ @holds_mat B0 bval M (mmapf bnum M) /\
  forall k, k < sp_nnz M -> (Rabs (gd 0%R (sp_pr (mmapf bnum M)) k) <= DB)%R.
Proof.
  unfold wfbB. intros H. do 5 (apply andb_prop in H as [H ?]).
  rewrite forallb_forall in *. apply Nat.eqb_eq in H2, H4.
  assert (V : forall k, k < sp_nnz M -> exists v, get (sp_pr M) k = Some v /\ bval v = Some (bnum v) /\ (Rabs (bnum v) <= DB)%R /\ gd 0%R (sp_pr (mmapf bnum M)) k = bnum v).
  { intros k Hk. destruct (allb_spec _ _ _ H0 k Hk) as (h & E & Q). apply small_spec in Q as [Q1 Q2].
    exists h. repeat split; auto. unfold gd. cbn [mmapf sp_pr]. rewrite get_amapf, E. reflexivity. }
  split; [|split].
  - constructor; cbn [mmapf sp_jc sp_n sp_nnz sp_ir sp_m sp_pr]; auto.
    + intros i Hi. specialize (H i ltac:(apply in_seq; lia)). unfold gd. destruct (get (sp_jc M) i); [auto|discriminate].
    + intros j Hj. specialize (H3 j ltac:(apply in_seq; lia)). apply Nat.leb_le; auto.
    + intros i Hi. specialize (H1 i ltac:(apply in_seq; lia)). unfold gd. destruct (get (sp_ir M) i); [auto|discriminate].
    + intros i Hi. specialize (H1 i ltac:(apply in_seq; lia)). unfold gd. destruct (get (sp_ir M) i); [|discriminate].
      apply Nat.ltb_lt; auto.
    + intros k Hk. destruct (V k Hk) as (h & E & _). rewrite get_amapf, E. exists (bnum h). reflexivity.
  - constructor; cbn [mmapf sp_jc sp_n sp_nnz sp_ir sp_m]; auto.
    intros k Hk. destruct (V k Hk) as (h & E & E1 & _ & E2). exists h. split; [exact E|]. rewrite E1. f_equal. symmetry. exact E2.
  - intros k Hk. destruct (V k Hk) as (h & E & E1 & E3 & E2). rewrite E2. exact E3.
Qed.

(* the problem a workspace holds, in the solver's units *)
Definition cB (w : pwork b64) (i : nat) : R :=
  match get (w_c w) i, get (w_xequil w) i with Some c, Some e => bnum (@fdiv B0 c e) | _, _ => 0%R end.
Definition AB (w : pwork b64) : spmat R := match w_A w with Some A => mmapf bnum A | None => mmapf bnum spB end.
Definition probB (l : nat) (q : list nat) (e : nat) (w : pwork b64) : problem :=
  mkProb (w_n w) (w_p w) l q e (dense (AB w)) (dense (mmapf bnum (w_G w))) (bfun (w_b w)) (bfun (w_h w)) (cB w).

Definition check_wsB (l : nat) (q : list nat) (e K : nat) (w : pwork b64) : bool :=
  (w_m w =? cdim l q e)%nat && wfbB (w_G w) && (sp_n (w_G w) =? w_n w)%nat && (sp_m (w_G w) =? w_m w)%nat &&
  (match w_A w with Some A => wfbB A && (sp_n A =? w_n w)%nat && (sp_m A =? w_p w)%nat && (sp_nnz A <=? K)%nat | None => (w_p w =? 0)%nat end) &&
  forallb (fun i => match get (w_c w) i, get (w_xequil w) i with Some c, Some e => small (@fdiv B0 c e) | _, _ => false end) (seq 0 (w_n w)) &&
  allb small (w_b w) (w_p w) && allb small (w_h w) (w_m w) &&
  allb scal (w_xequil w) (w_n w) && allb scal (w_Aequil w) (w_p w) && allb scal (w_Gequil w) (w_m w) &&
  (1 <=? K)%nat && (w_n w <=? K)%nat && (w_p w <=? K)%nat && (w_m w <=? K)%nat && (sp_nnz (w_G w) <=? K)%nat.
Definition check_retB (w w' : pwork b64) : bool :=
  allb small (w_x w') (w_n w) && allb small (w_y w') (w_p w) && allb small (w_z w') (w_m w) && allb small (w_s w') (w_m w) &&
  scal (w_tau w').
Definition check_runB (l : nat) (q : list nat) (e K : nat) (code : Z) (w : pwork b64) : bool :=
  match @ECOS_solve B0 (fun _ => false) (mkCtrlc (Some 7%nat) None) w with
  | Some (c, _, w') =>
      (c =? code)%Z && check_wsB l q e K w && check_retB w w' && (0 <=? sg_maxit (w_stgs w))%Z &&
      match w_best w with None => true | Some _ => false end &&
      nneg (sg_feastol (w_stgs w)) && nneg (sg_abstol (w_stgs w)) && nneg (sg_reltol (w_stgs w)) &&
      nneg (sg_feastol_inacc (w_stgs w)) && nneg (sg_abstol_inacc (w_stgs w)) && nneg (sg_reltol_inacc (w_stgs w))
  | None => false
  end.

Lemma check_wsB_spec l q e K w w' : check_wsB l q e K w = true -> check_retB w w' = true ->
  @rheld B0 bval w (probB l q e w) (AB w) (mmapf bnum (w_G w)) /\
  @moderate B0 bval w w' (probB l q e w) (AB w) (mmapf bnum (w_G w)) K DB (bfun (w_xequil w)) (bfun (w_Aequil w)) (bfun (w_Gequil w))
    (bfun (w_x w')) (bfun (w_y w')) (bfun (w_z w')) (bfun (w_s w')) (bnum (w_tau w')).
Proof.
  unfold check_wsB, check_retB. intros H R.
  do 4 (apply andb_prop in R as [R ?]). apply allb_small in R, H1, H2, H3. apply scal_spec in H0.
  do 15 (apply andb_prop in H as [H ?]).
  repeat match goal with E : (_ =? _)%nat = true |- _ => apply Nat.eqb_eq in E | E : (_ <=? _)%nat = true |- _ => apply Nat.leb_le in E end.
  repeat match goal with E : allb small _ _ = true |- _ => apply allb_small in E | E : allb scal _ _ = true |- _ => apply allb_scal in E end.
  match goal with E : wfbB (w_G w) = true |- _ => apply wfbB_spec in E as (W1 & W2 & W3) end.
  match goal with E : match w_A w with _ => _ end = true |- _ => rename E into HA end.
  assert (C : forall i, i < w_n w -> exists c e, get (w_c w) i = Some c /\ get (w_xequil w) i = Some e /\ bval (@fdiv B0 c e) = Some (cB w i) /\ (Rabs (cB w i) <= DB)%R).
  { match goal with E : forallb _ (seq 0 (w_n w)) = true |- _ => rewrite forallb_forall in E; rename E into E0 end.
    intros i Hi. specialize (E0 i ltac:(apply in_seq; lia)). unfold cB.
    destruct (get (w_c w) i) as [c|]; [|discriminate]. destruct (get (w_xequil w) i) as [e0|]; [|discriminate].
    apply small_spec in E0 as [E1 E2]. exists c, e0. auto. }
  assert (Am : 0 < w_p w -> exists A0, w_A w = Some A0 /\ wf_sp (AB w) /\ @holds_mat B0 bval A0 (AB w) /\ sp_n (AB w) = w_n w /\ sp_m (AB w) = w_p w /\
     sp_nnz (AB w) <= K /\ forall k, k < sp_nnz (AB w) -> (Rabs (gd 0%R (sp_pr (AB w)) k) <= DB)%R).
  { intros Hp. unfold AB. destruct (w_A w) as [A0|].
    - do 3 (apply andb_prop in HA as [HA ?]). apply wfbB_spec in HA as (V1 & V2 & V3).
      repeat match goal with E : (_ =? _)%nat = true |- _ => apply Nat.eqb_eq in E | E : (_ <=? _)%nat = true |- _ => apply Nat.leb_le in E end.
      exists A0. csplit; auto.
    - apply Nat.eqb_eq in HA. lia. }
  assert (Em: pb_m (probB l q e w) = w_m w) by (unfold pb_m; cbn; auto).
  split; constructor; cbn [probB pb_n pb_p pb_A pb_G pb_b pb_h pb_c]; rewrite ?Em; auto; try tauto.
  - intros Hp. destruct (Am Hp) as (A0 & Q1 & Q2 & Q3 & Q4 & Q5 & _). exists A0. repeat (split; [assumption|]). reflexivity.
  - intros i Hi. destruct (C i Hi) as (c & e0 & C1 & C2 & C3 & _). exists c, e0. auto.
  - repeat (split; [assumption|]). intros Hp. destruct (Am Hp) as (A0 & Q). tauto.
  - intros Hp. destruct (Am Hp) as (A0 & Q). tauto.
  - intros i Hi. destruct (C i Hi) as (c & e0 & C1 & C2 & C3 & C4). exact C4.
Qed.

Definition tolB (f : settings b64 -> b64) (w : pwork b64) : R := bnum (f (w_stgs w)).

(* a run that passes the check meets all hypotheses of C47_optimal_moderate *)
Theorem check_runB_spec l q e K code w : check_runB l q e K code w = true ->
  exists w' t',
    @ECOS_solve B0 (fun _ => false) (mkCtrlc (Some 7%nat) None) w = Some (code, t', w') /\
    @rheld B0 bval w (probB l q e w) (AB w) (mmapf bnum (w_G w)) /\ (0 <= sg_maxit (w_stgs w))%Z /\ w_best w = None /\
    tolerances (settings_mapf bval (w_stgs w)) (tolB sg_feastol w) (tolB sg_abstol w) (tolB sg_reltol w)
      (tolB sg_feastol_inacc w) (tolB sg_abstol_inacc w) (tolB sg_reltol_inacc w) /\
    (0 <= tolB sg_feastol w /\ 0 <= tolB sg_abstol w /\ 0 <= tolB sg_reltol w /\
     0 <= tolB sg_feastol_inacc w /\ 0 <= tolB sg_abstol_inacc w /\ 0 <= tolB sg_reltol_inacc w)%R /\
    @moderate B0 bval w w' (probB l q e w) (AB w) (mmapf bnum (w_G w)) K DB (bfun (w_xequil w)) (bfun (w_Aequil w)) (bfun (w_Gequil w))
      (bfun (w_x w')) (bfun (w_y w')) (bfun (w_z w')) (bfun (w_s w')) (bnum (w_tau w')).
Proof.
  unfold check_runB. destruct (@ECOS_solve B0 _ _ w) as [[[c t'] w']|] eqn:E; [|discriminate].
  intros H. do 10 (apply andb_prop in H as [H ?]). apply Z.eqb_eq in H. subst c.
  repeat match goal with K : nneg _ = true |- _ => apply nneg_spec in K as [? ?] end.
  match goal with K1 : check_wsB _ _ _ _ _ = true, K2 : check_retB _ _ = true |- _ => destruct (check_wsB_spec _ _ _ _ _ _ K1 K2) as [Q1 Q2] end.
  exists w', t'. split; [reflexivity|]. split; [exact Q1|]. split; [apply Z.leb_le; assumption|].
  split; [destruct (w_best w); [discriminate|reflexivity]|].
  split; [|split; [repeat split; assumption|exact Q2]].
  unfold tolB. clear E Q1 Q2. destruct (w_stgs w). constructor; assumption.
Qed.

(* min x0 + 2 x1  s.t.  x0 + x1 = 1, x >= 0, x0 <= 2 *)
Definition exB_lp : option (pwork b64) :=
  setupB 2 3 1 3 [] 0 (arr_of [zB (-1); zB 1; zB (-1)], arr_of [0;2;3], arr_of [0;2;1])
    (Some (arr_of [zB 1; zB 1], arr_of [0;1;2], arr_of [0;0])) [zB 1; zB 2] [zB 0; zB 0; zB 2] [zB 1].
(* min x  s.t.  |3 - x| <= 1 + 2x *)
Definition exB_soc : option (pwork b64) :=
  setupB 1 2 0 0 [2] 0 (arr_of [zB (-2); zB 1], arr_of [0;2], arr_of [0;1]) None [zB 1] [zB 1; zB 3] [].
Definition ok_runB (l : nat) (q : list nat) (r : option (pwork b64)) : bool :=
  match r with Some w => check_runB l q 0 8 0 w | None => false end.
Lemma exB_lp_ok : ok_runB 3 [] exB_lp = true. Proof. vm_compute. reflexivity. Qed.
Lemma exB_soc_ok : ok_runB 0 [2] exB_soc = true. Proof. vm_compute. reflexivity. Qed.

(* the two runs above meet the hypotheses of C47_binary64_optimal, and so its conclusion *)
Definition run_in_C47 (l : nat) (q : list nat) (w : pwork b64) : Prop :=
  exists w' t',
    @ECOS_solve B0 (fun _ => false) (mkCtrlc (Some 7%nat) None) w = Some (0%Z, t', w') /\
    @rheld B0 bval w (probB l q 0 w) (AB w) (mmapf bnum (w_G w)) /\ (0 <= sg_maxit (w_stgs w))%Z /\ w_best w = None /\
    @moderate B0 bval w w' (probB l q 0 w) (AB w) (mmapf bnum (w_G w)) 8 (b2 60) (bfun (w_xequil w)) (bfun (w_Aequil w)) (bfun (w_Gequil w))
      (bfun (w_x w')) (bfun (w_y w')) (bfun (w_z w')) (bfun (w_s w')) (bnum (w_tau w')) /\
    exists X Y Z S,
      (forall i, i < w_n w -> near (b2 (-53)) (b2 (-1075)) (b2 60) (X i) (bfun (w_x w') i) (bfun (w_xequil w) i * bnum (w_tau w'))) /\
      rounded_optimal (probB l q 0 w) (AB w) (mmapf bnum (w_G w)) (b2 (-21)) (b2 (-500))
        (tolB sg_feastol w) (tolB sg_abstol w) (tolB sg_reltol w) (bnum (w_tau w')) X Y Z S.

Lemma run_in_C47_ok l q w : check_runB l q 0 8 0 w = true -> run_in_C47 l q w.
Proof.
  intros H. apply check_runB_spec in H as (w' & t' & E & RH & Mi & Be & TL & (T1 & T2 & T3 & T4 & T5 & T6) & MD).
  exists w', t'. repeat (split; [assumption|]).
  destruct (C47_binary64_optimal nanf nanf 8 w w' _ _ _ _ _ _ _ _ _ _ _ _ _ _ _ _ _ _ _ _ _ ltac:(cbn; lra) E RH Mi (or_introl Be) TL T1 T2 T3 T4 T5 T6 MD (or_introl eq_refl))
    as (X & Y & Z & S & N1 & _ & _ & _ & Op & _).
  exists X, Y, Z, S. split; [exact N1|apply Op; reflexivity].
Qed.

Lemma ok_in_C47 l q r : ok_runB l q r = true -> exists w, r = Some w /\ run_in_C47 l q w.
Proof. destruct r as [w|]; cbn [ok_runB]; intros H; [|discriminate]. exists w. split; [reflexivity|]. apply run_in_C47_ok. exact H. Qed.

Theorem C47_examples :
  (exists w, exB_lp = Some w /\ run_in_C47 3 [] w) /\ (exists w, exB_soc = Some w /\ run_in_C47 0 [2] w).
Proof. exact (conj (ok_in_C47 _ _ _ exB_lp_ok) (ok_in_C47 _ _ _ exB_soc_ok)). Qed.
Print Assumptions C47_examples.
