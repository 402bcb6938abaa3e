(* Running the model exactly (HOps), and deciding by computation that a
   workspace meets the hypotheses of the certificate theorems. *)
From Coq Require Import List Arith Bool ZArith QArith Qreals Reals Lia Lra.
From Verif Require Import Base Num NumX NumH.
From Verif.Model Require Import Spla Splamm Types Consts Cone Kkt Ecos Preproc.
From Verif.Spec Require Import Matrix Conic Certificate.
From Verif.Proofs Require Import SplaP ExitP XEvalP PhiP CertP.
From Verif.Properties Require Import Certificate.
Import ListNotations.
Open Scope nat_scope.

(* an arbitrary workspace: what malloc returned for the fields setup does not write *)
Definition hz_ := HQ 0.
Definition st0 : stats hnum := mkStats hz_ hz_ hz_ hz_ hz_ hz_ hz_ hz_ hz_ hz_ hz_ hz_ hz_ hz_ hz_
  0%Z 0%Z 0%Z 0%Z 0%Z 0%Z 0%Z 0%Z 0%Z 0%Z 0%Z hz_.
Definition spz : spmat hnum := mkSp [] [] [] 0 0 0.
Definition junkH : pwork hnum := mkW 0 0 0 0 [] [] [] [] [] hz_ hz_ [] [] [] [] None [] [] []
  (@new_cone HOps 0 [] 0) None spz [] [] [] [] [] [] [] [] hz_ hz_ hz_ [] [] []
  hz_ hz_ hz_ hz_ hz_ hz_ hz_ hz_ hz_ hz_ hz_ (junk_kkt hz_) st0 (@default_settings HOps).
(* the identity ordering *)
Definition idamd : amd_oracle := fun n _ _ => Some (arr_of (seq 0 n)).

Definition with_tols (f a r : Q) (w : pwork hnum) : pwork hnum :=
  set_w_stgs w (set_sg_reltol (set_sg_abstol (set_sg_feastol (w_stgs w) (HQ f)) (HQ a)) (HQ r)).

Definition zH (z : Z) : hnum := HQ (inject_Z z).

Definition setupH (f a r : Q) n m p l q nexc G A c h b : option (pwork hnum) :=
  match @ECOS_setup HOps idamd junkH n m p l q nexc G A (arr_of c) (arr_of h) (arr_of b) with
  | Some (Some w) => Some (with_tols f a r w)
  | _ => None
  end.

(* ------------------------------------------------------------------- checks *)
Definition hval (h : hnum) : R := match hphi h with Some r => r | None => 0%R end.
Definition isq (h : hnum) : bool := match h with HQ _ => true | _ => false end.
Definition qpos (h : hnum) : bool := match h with HQ q => negb (Qle_bool q 0) | _ => false end.
Definition allq (f : hnum -> bool) (a : arr hnum) (n : nat) : bool :=
  forallb (fun i => match get a i with Some h => f h | None => false end) (seq 0 n).
Definition hfun (a : arr hnum) (i : nat) : R := match get a i with Some h => hval h | None => 0%R end.

Lemma allq_spec f a n : allq f a n = true -> forall i, i < n -> exists h, get a i = Some h /\ f h = true.
Proof.
  unfold allq. rewrite forallb_forall. intros H i Hi. specialize (H i ltac:(apply in_seq; lia)).
  destruct (get a i); [eauto|discriminate].
Qed.

Lemma isq_val h : isq h = true -> hphi h = Some (hval h).
Proof. destruct h; try discriminate. reflexivity. Qed.

Lemma allq_xvec a n : allq isq a n = true -> xvec (amapf hphi a) n (hfun a).
Proof.
  intros H i Hi. destruct (allq_spec _ _ _ H i Hi) as (h & E & Q).
  rewrite get_amapf, E. unfold hfun. rewrite E. cbn [option_map]. rewrite <- isq_val by auto. reflexivity.
Qed.

Lemma allq_pos a n : allq qpos a n = true -> xvec (amapf hphi a) n (hfun a) /\ forall i, i < n -> (0 < hfun a i)%R.
Proof.
  intros H. split.
  - apply allq_xvec. unfold allq in *. rewrite forallb_forall in *. intros i Hi. specialize (H i Hi).
    destruct (get a i) as [h|]; auto. destruct h; auto.
  - intros i Hi. destruct (allq_spec _ _ _ H i Hi) as (h & E & Q). unfold hfun. rewrite E.
    destruct h; try discriminate. cbn. cbn in Q. rewrite Qle_bool_R in Q.
    destruct (Rleb_spec (Q2R q) (Q2R 0)) as [|N]; [discriminate|].
    unfold Q2R at 2 in N. cbn in N. lra.
Qed.

Definition wfb (M : spmat hnum) : bool :=
  forallb (fun j => match get (sp_jc M) j with Some _ => true | None => false end) (seq 0 (sp_n M + 1)) &&
  (gd 0 (sp_jc M) 0 =? 0)%nat &&
  forallb (fun j => (gd 0 (sp_jc M) j <=? gd 0 (sp_jc M) (j + 1))%nat) (seq 0 (sp_n M)) &&
  (gd 0 (sp_jc M) (sp_n M) =? sp_nnz M)%nat &&
  forallb (fun k => match get (sp_ir M) k with Some r => (r <? sp_m M)%nat | None => false end) (seq 0 (sp_nnz M)) &&
  (length (sp_pr M) =? sp_nnz M)%nat && allq isq (sp_pr M) (sp_nnz M).

Lemma wfb_spec M : wfb M = true -> wf_sp (mmapf hval M) /\ mmapf hphi M = xmat (mmapf hval M).
Proof.
  unfold wfb. intros H. repeat (apply andb_prop in H as [H ?]).
  rewrite forallb_forall in *. apply Nat.eqb_eq in H1, H3, H5.
  split.
  - constructor; cbn [mmapf sp_jc sp_n sp_nnz sp_ir sp_m sp_pr]; auto.
    + intros i Hi. specialize (H i ltac:(apply in_seq; lia)). unfold gd. destruct (get (sp_jc M) i); [auto|discriminate].
    + intros j Hj. specialize (H4 j ltac:(apply in_seq; lia)). apply Nat.leb_le; auto.
    + intros i Hi. specialize (H2 i ltac:(apply in_seq; lia)). unfold gd. destruct (get (sp_ir M) i); [auto|discriminate].
    + intros i Hi. specialize (H2 i ltac:(apply in_seq; lia)). unfold gd. destruct (get (sp_ir M) i); [|discriminate].
      apply Nat.ltb_lt; auto.
    + intros k Hk. destruct (allq_spec _ _ _ H0 k Hk) as (h & E & _). rewrite get_amapf, E. exists (hval h). reflexivity.
  - unfold mmapf, xmat. cbn [sp_jc sp_n sp_nnz sp_ir sp_m sp_pr]. f_equal.
    apply arr_ext; [rewrite xlift_length, !amapf_length; auto|].
    intros i. rewrite get_xlift, !get_amapf. destruct (get (sp_pr M) i) as [h|] eqn:E; auto.
    assert (Hi: i < sp_nnz M) by (rewrite <- H1; eapply get_lt; eauto).
    destruct (allq_spec _ _ _ H0 i Hi) as (h' & E' & Q). rewrite E in E'. injection E' as <-.
    cbn [option_map]. rewrite isq_val by auto. reflexivity.
Qed.

(* the problem a workspace holds, in the solver's units *)
Definition probH (l : nat) (q : list nat) (e : nat) (w : pwork hnum) : problem :=
  mkProb (w_n w) (w_p w) l q e
    (match w_A w with Some A => dense (mmapf hval A) | None => fun _ _ => 0%R end) (dense (mmapf hval (w_G w)))
    (hfun (w_b w)) (hfun (w_h w)) (fun i => hfun (w_c w) i / hfun (w_xequil w) i)%R.

Definition check_ws (l : nat) (q : list nat) (e : nat) (w : pwork hnum) : bool :=
  (w_m w =? cdim l q e)%nat && wfb (w_G w) && (sp_n (w_G w) =? w_n w)%nat && (sp_m (w_G w) =? w_m w)%nat &&
  (match w_A w with Some A => wfb A && (sp_n A =? w_n w)%nat && (sp_m A =? w_p w)%nat | None => (w_p w =? 0)%nat end) &&
  allq isq (w_c w) (w_n w) && allq isq (w_b w) (w_p w) && allq isq (w_h w) (w_m w) &&
  allq qpos (w_xequil w) (w_n w) && allq qpos (w_Aequil w) (w_p w) && allq qpos (w_Gequil w) (w_m w) &&
  (length (w_rx w) =? w_n w)%nat && (length (w_ry w) =? w_p w)%nat && (length (w_rz w) =? w_m w)%nat.

Lemma check_ws_spec l q e w : check_ws l q e w = true ->
  numeric (pwork_mapf hphi None w) (probH l q e w)
    (match w_A w with Some A => mmapf hval A | None => mmapf hval spz end) (mmapf hval (w_G w))
    (hfun (w_xequil w)) (hfun (w_Aequil w)) (hfun (w_Gequil w)).
Proof.
  unfold check_ws. intros H. repeat (apply andb_prop in H as [H ?]).
  repeat match goal with E : (_ =? _)%nat = true |- _ => apply Nat.eqb_eq in E end.
  apply allq_pos in H3, H4, H5. destruct H3 as [X1 X2], H4 as [Y1 Y2], H5 as [Z1 Z2].
  apply allq_xvec in H6, H7, H8.
  apply wfb_spec in H12 as [W1 W2].
  assert (Em: pb_m (probH l q e w) = w_m w) by (unfold pb_m; cbn; auto).
  constructor; cbn [pwork_mapf probH pb_n pb_p pb_A pb_G pb_b pb_h pb_c w_n w_m w_p w_G w_A w_c w_b w_h w_xequil w_Aequil w_Gequil w_rx w_ry w_rz];
    rewrite ?Em, ?amapf_length; auto.
  - intros Hp. destruct (w_A w) as [A|].
    + do 2 (apply andb_prop in H9 as [H9 ?]). apply wfb_spec in H9 as [V1 V2].
      repeat match goal with E : (_ =? _)%nat = true |- _ => apply Nat.eqb_eq in E end.
      cbn [option_map]. rewrite V2. auto.
    + apply Nat.eqb_eq in H9. lia.
  - intros i Hi. rewrite H8 by auto. do 2 f_equal. field. pose proof (Z2 i Hi). lra.
Qed.

Definition check_ret (w : pwork hnum) : bool :=
  allq isq (w_x w) (w_n w) && allq isq (w_y w) (w_p w) && allq isq (w_z w) (w_m w) && allq isq (w_s w) (w_m w) &&
  qpos (w_tau w).
Lemma check_ret_spec l q e w0 w : check_ret w = true -> w_n w0 = w_n w -> w_p w0 = w_p w -> w_m w = cdim l q e ->
  returned (pwork_mapf hphi None w) (probH l q e w0) (hfun (w_x w)) (hfun (w_y w)) (hfun (w_z w)) (hfun (w_s w))
    (hval (w_tau w)) /\ (0 < hval (w_tau w))%R.
Proof.
  unfold check_ret. intros H En Ep Em. repeat (apply andb_prop in H as [H ?]).
  apply allq_xvec in H, H1, H2, H3.
  assert (Em': pb_m (probH l q e w0) = w_m w) by (unfold pb_m; cbn; auto).
  destruct (w_tau w) as [t|t|] eqn:Et; try discriminate.
  split.
  - constructor; cbn [pwork_mapf probH pb_n pb_p w_x w_y w_z w_s w_tau]; rewrite ?Em', ?En, ?Ep, ?Et; auto.
  - cbn. cbn in H0. rewrite Qle_bool_R in H0. destruct (Rleb_spec (Q2R t) (Q2R 0)) as [|N]; [discriminate|].
    unfold Q2R at 2 in N. cbn in N. lra.
Qed.

(* run the solver and check everything *)
Definition check_run (l : nat) (q : list nat) (e : nat) (code : Z) (w : pwork hnum) : bool :=
  match @ECOS_solve HOps (fun _ => false) (mkCtrlc (Some 7%nat) None) w with
  | Some (c, _, w') =>
      (c =? code)%Z && check_ws l q e w && check_ret w' && (w_n w =? w_n w')%nat && (w_p w =? w_p w')%nat &&
      (w_m w' =? cdim l q e)%nat && (0 <=? sg_maxit (w_stgs w))%Z &&
      match w_best w with None => true | Some _ => false end &&
      isq (sg_feastol (w_stgs w)) && isq (sg_abstol (w_stgs w)) && isq (sg_reltol (w_stgs w)) &&
      isq (sg_feastol_inacc (w_stgs w)) && isq (sg_abstol_inacc (w_stgs w)) && isq (sg_reltol_inacc (w_stgs w))
  | None => false
  end.

Opaque check_ws check_ret.
Theorem check_run_spec l q e code w : check_run l q e code w = true ->
  exists w' t', situation (O := HOps) hphi w w' (fun _ => false) (mkCtrlc (Some 7%nat) None) t' code (probH l q e w)
     (match w_A w with Some A => mmapf hval A | None => mmapf hval spz end) (mmapf hval (w_G w))
     (hfun (w_xequil w)) (hfun (w_Aequil w)) (hfun (w_Gequil w))
     (hfun (w_x w')) (hfun (w_y w')) (hfun (w_z w')) (hfun (w_s w')) (hval (w_tau w'))
     (hval (sg_feastol (w_stgs w))) (hval (sg_abstol (w_stgs w))) (hval (sg_reltol (w_stgs w)))
     (hval (sg_feastol_inacc (w_stgs w))) (hval (sg_abstol_inacc (w_stgs w))) (hval (sg_reltol_inacc (w_stgs w))).
Proof.
  unfold check_run. destruct (@ECOS_solve HOps _ _ w) as [[[c t'] w']|] eqn:E; [|discriminate].
  intros H. repeat (apply andb_prop in H as [H ?]).
  repeat match goal with K : isq _ = true |- _ => apply isq_val in K end.
  repeat match goal with K : (_ =? _)%nat = true |- _ => apply Nat.eqb_eq in K end.
  apply Z.eqb_eq in H. subst c.
  match goal with K : check_ret _ = true |- _ => destruct (check_ret_spec l q e w w' K) as [R1 R2]; auto end.
  exists w', t'. constructor; auto.
  - apply check_ws_spec; auto.
  - apply Z.leb_le; auto.
  - left. change (@F HOps) with hnum. destruct (w_best w); [discriminate|auto].
  - constructor; cbn [settings_mapf sg_feastol sg_abstol sg_reltol sg_feastol_inacc sg_abstol_inacc sg_reltol_inacc]; auto.
Qed.

Transparent check_ws check_ret.

(* min x s.t. x >= 1; one inequality.  With tolerances 1/2, 2, 1/10: optimal. *)
Definition ex_opt : option (pwork hnum) :=
  setupH (1#2) (2#1) (1#10) 1 1 0 1 [] 0 (arr_of [zH (-1)], arr_of [0;1]%nat, arr_of [0]%nat) None [zH 1] [zH (-1)] [].
(* x = 0 and x >= 1: primal infeasible, found in iteration 1 *)
Definition ex_pinf : option (pwork hnum) :=
  setupH (1#2) (1#100000000) (1#1000) 1 1 1 1 [] 0 (arr_of [zH (-1)], arr_of [0;1]%nat, arr_of [0]%nat)
    (Some (arr_of [zH 1], arr_of [0;1]%nat, arr_of [0]%nat)) [zH 0] [zH (-1)] [zH 0].
(* min -x s.t. x >= 0: unbounded, found in iteration 1 *)
Definition ex_dinf : option (pwork hnum) :=
  setupH (1#2) (1#100000000) (1#1000) 1 1 0 1 [] 0 (arr_of [zH (-1)], arr_of [0;1]%nat, arr_of [0]%nat) None [zH (-1)] [zH 0] [].

Definition ok_run (code : Z) (r : option (pwork hnum)) : bool :=
  match r with Some w => check_run 1 [] 0 code w | None => false end.
Example ex_opt_ok : ok_run 0 ex_opt = true. Proof. vm_compute. reflexivity. Qed.
Example ex_pinf_ok : ok_run 1 ex_pinf = true. Proof. vm_compute. reflexivity. Qed.
Example ex_dinf_ok : ok_run 2 ex_dinf = true. Proof. vm_compute. reflexivity. Qed.
