(* Two problems given in IEEE binary64 numbers meet the hypotheses of
   C49_binary64_setup and C49_binary64_cleanup. *)
From Coq Require Import List Arith Bool ZArith QArith Reals Lia Lra.
From Flocq Require Import Core BinarySingleNaN.
From Verif Require Import Base Num NumX.
From Verif.Model Require Import Spla Types Consts Cone Kkt Equil Ecos Preproc.
From Verif.Spec Require Import Matrix Conic Certificate Scaling SetupSpec User Rounding Nearby.
From Verif.Proofs Require Import SplaP PhiP RoundB.
From Verif.Properties Require Import Certificate Rounding RoundingData.
From Verif.Examples Require Import RunB.
Import ListNotations.
Open Scope nat_scope.

Definition matA (A : option (spmat b64)) : nat -> nat -> R := match A with Some M => dense (mmapf bnum M) | None => fun _ _ => 0%R end.
(* the problem the caller's arrays hold *)
Definition userB (l : nat) (q : list nat) (n p : nat) (MA : option (spmat b64)) (MG : spmat b64) (c h b : arr b64) : problem :=
  mkProb n p l q 0 (matA MA) (dense (mmapf bnum MG)) (bfun b) (bfun h) (bfun c).

Definition check_givenB (l : nat) (q : list nat) (n p : nat) (MA : option (spmat b64)) (MG : spmat b64) (c h b : arr b64) : bool :=
  wfbB MG && (sp_n MG =? n)%nat && (sp_m MG =? cdim l q 0)%nat &&
  (match MA with Some A => wfbB A && (sp_n A =? n)%nat && (sp_m A =? p)%nat | None => (p =? 0)%nat end) &&
  allb small c n && allb small h (cdim l q 0) && allb small b p.

Definition solveB (w : pwork b64) := @ECOS_solve B0 (fun _ => false) (mkCtrlc (Some 7%nat) None) w.
Definition setupM (l : nat) (q : list nat) (n p : nat) (MA : option (spmat b64)) (MG : spmat b64) (c h b : arr b64) :=
  @ECOS_setup B0 idamdB junkB n (cdim l q 0) p l q 0 (data_of MG) (option_map data_of MA) c h b.

Definition check_dataB (l : nat) (q : list nat) (n p : nat) (MA : option (spmat b64)) (MG : spmat b64) (c h b : arr b64) : bool :=
  check_givenB l q n p MA MG c h b &&
  match setupM l q n p MA MG c h b with
  | Some (Some w) => (w_n w =? n)%nat && (w_p w =? p)%nat && (w_m w =? cdim l q 0)%nat && check_runB l q 0 8 0 w
  | _ => false
  end.

Definition in_C49 (l : nat) (q : list nat) (n p : nat) (MA : option (spmat b64)) (MG : spmat b64) (c h b : arr b64) : Prop :=
  exists U A0 w w' t', U = userB l q n p MA MG c h b /\
    @given B0 bval U A0 (mmapf bnum MG) MA MG c h b /\ setupM l q n p MA MG c h b = Some (Some w) /\
    @rheld B0 bval w (probB l q 0 w) (AB w) (mmapf bnum (w_G w)) /\
    @scalings B0 bval w U (bfun (w_xequil w)) (bfun (w_Aequil w)) (bfun (w_Gequil w)) /\
    fits (b2 1021) U A0 (mmapf bnum MG) (bfun (w_xequil w)) (bfun (w_Aequil w)) (bfun (w_Gequil w)) /\
    solveB w = Some (0%Z, t', w') /\ @after_solves B0 w w' /\
    (exists U' A1 G1, user U' A1 G1 /\ scaled_by U' (probB l q 0 w) (bfun (w_xequil w)) (bfun (w_Aequil w)) (bfun (w_Gequil w)) /\
       nearby (b2 (-49)) (b2 (-1000)) (bfun (w_xequil w)) (bfun (w_Aequil w)) (bfun (w_Gequil w)) U U' A0 A1 (mmapf bnum MG) G1) /\
    exists A' G' b' h', @ECOS_cleanup_data B0 w' = Some (A', G', b', h') /\
      back_mat64 (bfun (w_Gequil w)) (bfun (w_xequil w)) MG G' (mmapf bnum MG).

Lemma given_ok l q n p MA MG c h b : check_givenB l q n p MA MG c h b = true ->
  @given B0 bval (userB l q n p MA MG c h b) (option_map (mmapf bnum) MA) (mmapf bnum MG) MA MG c h b /\
  (forall k, k < sp_nnz MG -> (Rabs (gd 0%R (sp_pr (mmapf bnum MG)) k) <= DB)%R) /\
  match MA with Some A => forall k, k < sp_nnz A -> (Rabs (gd 0%R (sp_pr (mmapf bnum A)) k) <= DB)%R | None => True end /\
  (forall i, i < p -> (Rabs (bfun b i) <= DB)%R) /\ (forall i, i < cdim l q 0 -> (Rabs (bfun h i) <= DB)%R).
Proof.
  unfold check_givenB. intros H. do 6 (apply andb_prop in H as [H ?]).
  repeat match goal with E : allb small _ _ = true |- _ => apply allb_small in E as [? ?] | E : (_ =? _)%nat = true |- _ => apply Nat.eqb_eq in E end.
  apply wfbB_spec in H as (W1 & W2 & W3).
  assert (A: match option_map (mmapf bnum) MA with Some A => wf_sp A /\ sp_n A = n /\ sp_m A = p /\ matA MA = dense A | None => p = 0 end /\
    match MA, option_map (mmapf bnum) MA with Some M, Some N => @holds_mat B0 bval M N | None, None => True | _, _ => False end /\
    match MA with Some A => forall k, k < sp_nnz A -> (Rabs (gd 0%R (sp_pr (mmapf bnum A)) k) <= DB)%R | None => True end).
  { destruct MA as [A|]; cbn [option_map matA].
    - match goal with E : _ && _ && _ = true |- _ => do 2 (apply andb_prop in E as [E ?]); apply wfbB_spec in E as (V1 & V2 & V3) end.
      repeat match goal with E : (_ =? _)%nat = true |- _ => apply Nat.eqb_eq in E end. csplit; auto.
    - csplit; auto. apply Nat.eqb_eq; auto. }
  destruct A as (A1 & A2 & A3). csplit; auto. constructor; auto. constructor; auto.
Qed.

Lemma DB_Om : (1 <= DB /\ DB <= b2 1021 /\ DB * DB <= b2 1021)%R.
Proof.
  assert (K: (DB * DB)%R = b2 120) by (symmetry; exact (bpow_plus radix2 60 60)).
  rewrite K. split; [|split].
  - exact (bpow_le radix2 0 60 ltac:(lia)).
  - exact (bpow_le radix2 60 1021 ltac:(lia)).
  - exact (bpow_le radix2 120 1021 ltac:(lia)).
Qed.

Lemma check_dataB_ok l q n p MA MG c h b : check_dataB l q n p MA MG c h b = true -> in_C49 l q n p MA MG c h b.
Proof.
  unfold check_dataB. intros H. apply andb_prop in H as [G H]. apply given_ok in G as (GV & BG & BA & Bb & Bh).
  destruct (setupM l q n p MA MG c h b) as [[w|]|] eqn:E; try discriminate.
  do 3 (apply andb_prop in H as [H ?]). repeat match goal with E : (_ =? _)%nat = true |- _ => apply Nat.eqb_eq in E end.
  match goal with K : check_runB _ _ _ _ _ _ = true |- _ => rename K into CK end. apply check_runB_spec in CK as (w' & t' & ES & RH & Mi & _ & _ & _ & MD).
  set (U := userB l q n p MA MG c h b) in *. set (A0 := option_map (mmapf bnum) MA) in *.
  assert (Pn: pb_n (probB l q 0 w) = n) by (cbn; auto). assert (Pp: pb_p (probB l q 0 w) = p) by (cbn; auto).
  assert (Pm: pb_m (probB l q 0 w) = cdim l q 0) by reflexivity.
  pose proof (md_xe _ _ _ _ _ _ _ _ _ _ _ _ _ _ _ _ MD) as [X1 X2]. pose proof (md_Ae _ _ _ _ _ _ _ _ _ _ _ _ _ _ _ _ MD) as [A1 A2].
  pose proof (md_Ge _ _ _ _ _ _ _ _ _ _ _ _ _ _ _ _ MD) as [G1 G2]. rewrite Pn in X1, X2. rewrite Pp in A1, A2. rewrite Pm in G1, G2.
  assert (SL: @scalings B0 bval w U (bfun (w_xequil w)) (bfun (w_Aequil w)) (bfun (w_Gequil w))) by (constructor; assumption).
  destruct DB_Om as (D1 & D2 & D3).
  assert (DI: (0 < / DB)%R) by (apply Rinv_0_lt_compat; lra).
  assert (MU: forall a b0, (/ DB <= a <= DB -> / DB <= b0 <= DB -> a * b0 <= b2 1021)%R).
  { intros a b0 Ha Hb. apply Rle_trans with (DB * DB)%R; [|exact D3]. apply Rmult_le_compat; lra. }
  assert (FT: fits (b2 1021) U A0 (mmapf bnum MG) (bfun (w_xequil w)) (bfun (w_Aequil w)) (bfun (w_Gequil w))).
  { constructor.
    - intros k Hk. apply Rle_trans with DB; [apply BG; exact Hk|exact D2].
    - unfold A0. destruct MA as [M|]; cbn [option_map]; [|exact I]. intros k Hk. apply Rle_trans with DB; [apply BA; exact Hk|exact D2].
    - intros i Hi. split; [apply Rle_trans with DB; [apply Bb; exact Hi|exact D2]|]. apply Rle_trans with DB; [apply A2; exact Hi|exact D2].
    - intros i Hi. split; [apply Rle_trans with DB; [apply Bh; exact Hi|exact D2]|]. apply Rle_trans with DB; [apply G2; exact Hi|exact D2].
    - intros i j Hi Hj. apply MU; [apply G2; exact Hi|apply X2; exact Hj].
    - intros i j Hi Hj. apply MU; [apply A2; exact Hi|apply X2; exact Hj]. }
  assert (SV: @after_solves B0 w w') by (eapply (@as_solve B0 w w); [apply as_refl|exact Mi|exact ES]).
  destruct (C49_binary64_setup nanf nanf idamdB junkB U A0 (mmapf bnum MG) MA MG c h b w (probB l q 0 w) (AB w) (mmapf bnum (w_G w))
    _ _ _ GV E RH eq_refl eq_refl eq_refl SL) as (U' & A1' & G1' & N1 & N2 & N3).
  destruct (C49_binary64_cleanup nanf nanf idamdB junkB U A0 (mmapf bnum MG) MA MG c h b w w' (probB l q 0 w) (AB w) (mmapf bnum (w_G w))
    _ _ _ GV E RH eq_refl eq_refl eq_refl SL FT SV) as (A' & G' & b' & h' & EC & BK & _).
  exists U, A0, w, w', t'.
  split; [reflexivity|]. split; [exact GV|]. split; [exact E|]. split; [exact RH|]. split; [exact SL|]. split; [exact FT|].
  split; [exact ES|]. split; [exact SV|]. split; [exists U', A1', G1'; auto|exists A', G', b', h'; auto].
Qed.

(* min x0 + 2 x1  s.t.  x0 + x1 = 1, x >= 0, x0 <= 2;  and  min x  s.t.  |3 - x| <= 1 + 2x *)
Definition lpA : spmat b64 := mkSp (arr_of [0;1;2]) (arr_of [0;0]) (arr_of [zB 1; zB 1]) 2 1 2.
Definition lpG : spmat b64 := mkSp (arr_of [0;2;3]) (arr_of [0;2;1]) (arr_of [zB (-1); zB 1; zB (-1)]) 2 3 3.
Definition socG : spmat b64 := mkSp (arr_of [0;2]) (arr_of [0;1]) (arr_of [zB (-2); zB 1]) 1 2 2.

Lemma lp_dataB : check_dataB 3 [] 2 1 (Some lpA) lpG (arr_of [zB 1; zB 2]) (arr_of [zB 0; zB 0; zB 2]) (arr_of [zB 1]) = true.
Proof. vm_compute. reflexivity. Qed.
Lemma soc_dataB : check_dataB 0 [2] 1 0 None socG (arr_of [zB 1]) (arr_of [zB 1; zB 3]) [] = true.
Proof. vm_compute. reflexivity. Qed.

Theorem C49_examples :
  in_C49 3 [] 2 1 (Some lpA) lpG (arr_of [zB 1; zB 2]) (arr_of [zB 0; zB 0; zB 2]) (arr_of [zB 1]) /\
  in_C49 0 [2] 1 0 None socG (arr_of [zB 1]) (arr_of [zB 1; zB 3]) [].
Proof. exact (conj (check_dataB_ok 3 [] 2 1 (Some lpA) lpG (arr_of [zB 1; zB 2]) (arr_of [zB 0; zB 0; zB 2]) (arr_of [zB 1]) lp_dataB) (check_dataB_ok 0 [2] 1 0 None socG (arr_of [zB 1]) (arr_of [zB 1; zB 3]) [] soc_dataB)). Qed.
Print Assumptions C49_examples.
