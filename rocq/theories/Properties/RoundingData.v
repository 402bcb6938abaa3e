(* C49: what setup and cleanup do to the caller's numbers when the arithmetic rounds.

   The theorems hold for every arithmetic that satisfies the rounding laws
   [rounds] (Spec/Rounding.v) and [fine] (Spec/Nearby.v); IEEE double precision
   does (C47_binary64, C49_binary64_fine).  phi is the real number a
   floating-point number stands for. *)
From Coq Require Import List Arith Bool ZArith QArith Reals Lia Lra Psatz.
From Flocq Require Core BinarySingleNaN.
From Verif Require Import Base Num NumX.
From Verif.Model Require Import Spla Types Consts Cone Equil Ecos Preproc.
From Verif.Spec Require Import Matrix Conic Jordan Shape SetupSpec Certificate Scaling User Rounding Nearby.
From Verif.Proofs Require Import SplaP LoopLib ConeP ExitP EquilP EquilX SetupP PhiP RoundE RoundF RoundB.
From Verif.Properties Require Import Exit Rounding.
Import ListNotations.
Open Scope R_scope.

Section Rounded.
Context {O : Ops} (phi : F -> option R).

(* the arrays the caller passes hold the numbers of the problem U, whose
   matrices are A0 and G0 *)
Record given (U : problem) (A0 : option (spmat R)) (G0 : spmat R) (MA : option (spmat F)) (MG : spmat F) (c h b : arr F) : Prop := {
  gv_user : user U A0 G0;
  gv_G : holds_mat phi MG G0;
  gv_A : match MA, A0 with Some M, Some N => holds_mat phi M N | None, None => True | _, _ => False end;
  gv_c : holds phi c (pb_n U) (pb_c U); gv_h : holds phi h (pb_m U) (pb_h U); gv_b : holds phi b (pb_p U) (pb_b U) }.

(* the scalings in the workspace are numbers *)
Record scalings (w : pwork F) (U : problem) (xe Ae Ge : nat -> R) : Prop := {
  sl_x : holds phi (w_xequil w) (pb_n U) xe; sl_A : holds phi (w_Aequil w) (pb_p U) Ae; sl_G : holds phi (w_Gequil w) (pb_m U) Ge }.

Variables (u eta Om : R) (H : rounds O phi u eta Om) (FI : fine O phi u eta).
Let u1 := u + 2 ^ 80 * eta.

Lemma holds_vec (a : arr F) n f g : vec a n f -> holds phi a n g -> forall i, (i < n)%nat -> phi (f i) = Some (g i).
Proof. intros V X i Hi. destruct (X i Hi) as (v & E & P). rewrite (V i Hi) in E. injection E as <-. exact P. Qed.
Lemma holds_vec_get (a : arr F) n g : holds phi a n g -> exists f, vec a n f /\ forall i, (i < n)%nat -> phi (f i) = Some (g i).
Proof.
  intros X. exists (gd f0 a). split; intros i Hi; destruct (X i Hi) as (v & E & P); [eapply get_gd; eauto|].
  rewrite (gd_get _ _ _ _ E). exact P.
Qed.

(* what setup computes, for any arithmetic *)
Lemma setup_factors amd junk U A0 G0 MA MG c h b w : given U A0 G0 MA MG c h b ->
  ECOS_setup amd junk (pb_n U) (pb_m U) (pb_p U) (pb_l U) (pb_q U) (pb_e U) (data_of MG) (option_map data_of MA) c h b = Some (Some w) ->
  exists bf hf x1 x2 x3 a1 a2 a3 g1 g2 g3,
    vec b (pb_p U) bf /\ vec h (pb_m U) hf /\ w_c w = c /\
    rescaledA (ruiz_scale a1 x1 a2 x2 a3 x3) MA (w_A w) /\ rescaled (ruiz_scale g1 x1 g2 x2 g3 x3) MG (w_G w) /\
    vec (w_xequil w) (pb_n U) (ruiz_prod x1 x2 x3) /\ vec (w_Aequil w) (pb_p U) (ruiz_prod a1 a2 a3) /\ vec (w_Gequil w) (pb_m U) (ruiz_prod g1 g2 g3) /\
    vec (w_b w) (pb_p U) (fun i => fdiv (bf i) (ruiz_prod a1 a2 a3 i)) /\ vec (w_h w) (pb_m U) (fun i => fdiv (hf i) (ruiz_prod g1 g2 g3 i)) /\
    (forall i, (i < pb_n U)%nat -> is_fac (x1 i) /\ is_fac (x2 i) /\ is_fac (x3 i)) /\
    (forall i, (i < pb_p U)%nat -> is_fac (a1 i) /\ is_fac (a2 i) /\ is_fac (a3 i)) /\
    (forall i, (i < pb_m U)%nat -> is_fac (g1 i) /\ is_fac (g2 i) /\ is_fac (g3 i)) /\
    conic (new_cone (pb_l U) (pb_q U) (pb_e U)) (ruiz_prod g1 g2 g3) /\
    (length (w_b w) = length b /\ forall i, (pb_p U <= i)%nat -> get (w_b w) i = get b i) /\
    (length (w_h w) = length h /\ forall i, (pb_m U <= i)%nat -> get (w_h w) i = get h i).
Proof.
  intros [[UG UA] GG GA Gc Gh Gb] E. destruct UG as (WG & EGn & EGm & EGd).
  apply setup_inv in E as (Em & A & G & A' & G' & b' & h' & xe & Ae & Ge & EA & EG & ES & W1 & W2 & W3 & W4 & W5 & W6 & W7 & W8 & _).
  pose proof (holds_mat_wf phi _ _ GG WG) as WMG.
  assert (NG: sp_n MG = pb_n U) by (rewrite (hm_n _ _ _ GG); auto). assert (MGm: sp_m MG = pb_m U) by (rewrite (hm_m _ _ _ GG); auto).
  rewrite (mkG_ok _ _ MG WMG NG MGm) in EG. injection EG as <-.
  assert (EA': mkA (pb_n U) (pb_p U) (option_map data_of MA) = Some MA /\ wfA MA (pb_n U) /\ rowsA MA = pb_p U).
  { destruct MA as [MA|], A0 as [A0|]; try contradiction; cbn [option_map mkA wfA rowsA]; [|csplit; auto].
    destruct UA as (WA & EAn & EAm & _). pose proof (holds_mat_wf phi _ _ GA WA) as WMA.
    assert (N1: sp_n MA = pb_n U) by (rewrite (hm_n _ _ _ GA); auto). assert (N2: sp_m MA = pb_p U) by (rewrite (hm_m _ _ _ GA); auto).
    pose proof (mkG_ok _ _ MA WMA N1 N2) as K. unfold mkG, data_of in K. unfold data_of.
    destruct (get (sp_jc MA) (pb_n U)) as [z|]; [|discriminate]. cbn [bind] in *. rewrite K. csplit; auto. }
  destruct EA' as (EA' & WMA & RA). rewrite EA' in EA. injection EA as <-.
  destruct (holds_vec_get _ _ _ Gb) as (bf & Vb & _). destruct (holds_vec_get _ _ _ Gh) as (hf & Vh & _).
  destruct (set_equilibration_eq (fun _ => True) is_fac (fun _ => True) (fun _ _ _ _ => I) (fun _ _ _ _ => I) I (fun _ _ _ _ => I) (fun v _ => ex_intro _ v eq_refl)
    (new_cone (pb_l U) (pb_q U) (pb_e U)) MA MG b h (alloc (pb_n U)) (alloc (pb_p U)) (alloc (pb_m U)) bf hf WMG)
    as (A1 & G1 & b1 & h1 & xe1 & Ae1 & Ge1 & x1 & x2 & x3 & a1 & a2 & a3 & g1 & g2 & g3 & ES' & _ & _ & _ & RA' & RG' & VX & VA & VG & (Lb & Vb' & Ob) & (Lh & Vh' & Oh) & FX & FA & FG & C1 & C2 & C3);
    rewrite ?alloc_length, ?NG, ?MGm, ?RA, ?new_msize; auto.
  { intros k v _ _. exact I. }
  { destruct MA; cbn; auto. intros k v _ _. exact I. }
  rewrite ES' in ES. injection ES as <- <- <- <- <- <- <-.
  rewrite ?NG, ?MGm, ?RA in *.
  exists bf, hf, x1, x2, x3, a1, a2, a3, g1, g2, g3. rewrite W1, W2, W3, W4, W5, W6, W7, W8.
  csplit; auto. split.
  - intros k cc i Hin Hi. destruct C1 as [C1 _], C2 as [C2 _], C3 as [C3 _]. unfold ruiz_prod. rewrite (C1 k cc i Hin Hi), (C2 k cc i Hin Hi), (C3 k cc i Hin Hi). auto.
  - intros k cc i Hin Hi. destruct C1 as [_ C1], C2 as [_ C2], C3 as [_ C3]. unfold ruiz_prod. rewrite (C1 k cc i Hin Hi), (C2 k cc i Hin Hi), (C3 k cc i Hin Hi). auto.
Qed.

(* C49: the problem P the solver works on is, exactly, a problem U' with rows and
   columns divided by the scalings; and U' is the caller's problem U but for a
   relative error of 12 roundings in each number.  The hypotheses on w say that
   it holds numbers, no infinities or NaN. *)
Theorem C49_setup amd junk U A0 G0 MA MG c h b w P A G xe Ae Ge : given U A0 G0 MA MG c h b ->
  ECOS_setup amd junk (pb_n U) (pb_m U) (pb_p U) (pb_l U) (pb_q U) (pb_e U) (data_of MG) (option_map data_of MA) c h b = Some (Some w) ->
  rheld phi w P A G -> pb_l P = pb_l U -> pb_q P = pb_q U -> pb_e P = pb_e U -> scalings w U xe Ae Ge ->
  exists U' A0' G0', user U' A0' G0' /\ scaled_by U' P xe Ae Ge /\
    nearby ((1 + u1) ^ 12 - 1) (2 ^ 63 * eta) xe Ae Ge U U' A0 A0' G0 G0'.
Proof.
  intros GV E RH Pl Pq Pe SL.
  destruct (setup_factors _ _ _ _ _ _ _ _ _ _ _ GV E) as (bf & hf & x1 & x2 & x3 & a1 & a2 & a3 & g1 & g2 & g3 & Vb & Vh & Wc & RA & RG & VX & VA & VG & Vb' & Vh' & FX & FA & FG & [CS CE] & _ & _).
  assert (Dim: pb_n P = pb_n U /\ pb_p P = pb_p U /\ pb_m P = pb_m U).
  { apply setup_inv in E as (_ & ? & ? & ? & ? & ? & ? & ? & ? & ? & _ & _ & _ & _ & _ & _ & _ & _ & _ & _ & _ & W9 & W10 & W11 & _).
    rewrite <- (rh_n _ _ _ _ _ RH), <- (rh_p _ _ _ _ _ RH), <- (rh_m _ _ _ _ _ RH). auto. }
  destruct Dim as (Dn & Dp & Dm). destruct SL as [SX SA SG]. destruct GV as [[UG UA] GG GA Gc Gh Gb]. destruct UG as (WG & EGn & EGm & EGd).
  pose proof (holds_vec _ _ _ _ VX SX) as HX. pose proof (holds_vec _ _ _ _ VA SA) as HA. pose proof (holds_vec _ _ _ _ VG SG) as HG.
  assert (PX: forall i, (i < pb_n U)%nat -> 0 < xe i) by (intros i Hi; eapply prod_pos; eauto).
  assert (PA: forall i, (i < pb_p U)%nat -> 0 < Ae i) by (intros i Hi; eapply prod_pos; eauto).
  assert (PG: forall i, (i < pb_m U)%nat -> 0 < Ge i) by (intros i Hi; eapply prod_pos; eauto).
  destruct (mat_near phi u eta Om H FI _ _ _ _ _ _ Ge xe _ _ FG FX HG HX MG (w_G w) G0 G WG EGm EGn GG RG (rh_G _ _ _ _ _ RH) (rh_wfG _ _ _ _ _ RH)) as (G1 & NG & WG1 & DG).
  assert (XA: exists A1, (match A1 with Some A1 => wf_sp A1 /\ sp_n A1 = pb_n U /\ sp_m A1 = pb_p U | None => pb_p U = 0%nat end) /\
     match A0, A1 with Some A, Some A' => near_mat ((1 + u1) ^ 12 - 1) (2 ^ 63 * eta) Ae xe A A' | None, None => True | _, _ => False end /\
     forall i j, (i < pb_p U)%nat -> (j < pb_n U)%nat -> pb_A P i j = match A1 with Some A1 => dense A1 i j | None => 0 end / (Ae i * xe j)).
  { destruct MA as [MA|], A0 as [A0|]; try contradiction.
    - destruct UA as (WA & EAn & EAm & EAd). destruct (w_A w) as [wA|] eqn:EwA; [|contradiction].
      destruct (Nat.eq_dec (pb_p U) 0) as [Z|Z].
      + exists (Some A0). split; [auto|]. split; [|intros; lia]. constructor; auto.
        intros j k Hk. pose proof (wf_row A0 WA k (in_col_nnz _ _ _ WA Hk)). lia.
      + destruct (rh_A _ _ _ _ _ RH ltac:(lia)) as (wA' & EwA' & HwA & WA' & _ & _ & DA). rewrite EwA in EwA'. injection EwA' as <-.
        destruct (mat_near phi u eta Om H FI _ _ _ _ _ _ Ae xe _ _ FA FX HA HX MA wA A0 A WA EAm EAn GA RA HwA WA') as (A1 & NA & WA1 & DA1).
        exists (Some A1). split; [|split; auto].
        * split; [auto|]. rewrite (nm_n _ _ _ _ _ _ NA), (nm_m _ _ _ _ _ _ NA). auto.
        * intros i j Hi Hj. rewrite DA. auto.
    - exists None. csplit; auto. intros; lia. }
  destruct XA as (A1 & WA1 & NA & DA).
  set (U' := mkProb (pb_n U) (pb_p U) (pb_l U) (pb_q U) (pb_e U) (match A1 with Some A1 => dense A1 | None => fun _ _ => 0 end) (dense G1)
    (fun i => pb_b P i * Ae i) (fun i => pb_h P i * Ge i) (fun j => pb_c P j * xe j)).
  exists U', A1, G1. split; [|split].
  - constructor.
    + cbn. rewrite (nm_n _ _ _ _ _ _ NG), (nm_m _ _ _ _ _ _ NG). auto.
    + destruct A1; cbn; auto. destruct WA1 as (Q1 & Q2 & Q3). auto.
  - constructor; cbn; auto.
    + intros k p i Hin Hi. pose proof (lay_new_soc _ _ _ _ Hin) as Hin'. pose proof (CS k (new_soc p) i Hin' Hi) as K.
      assert (B: (k + p <= pb_m U)%nat). { pose proof (layout_bounds _ _ _ _ Hin). unfold pb_m, cdim. lia. }
      assert (X: Some (Ge (k + i)%nat) = Some (Ge k)) by (rewrite <- !HG by lia; congruence). congruence.
    + intros k i Hk Hi. assert (Hin: In ((pb_l U + list_sum (pb_q U) + 3 * k)%nat, new_exp) (lay (fun _ => 3%nat) (hsize (new_cone (pb_l U) (pb_q U) (pb_e U))) (co_expc (new_cone (pb_l U) (pb_q U) (pb_e U))))).
      { rewrite new_hsize. apply lay_repeat. auto. }
      pose proof (CE _ _ i Hin Hi) as K.
      assert (B: (pb_l U + list_sum (pb_q U) + 3 * k + 3 <= pb_m U)%nat) by (unfold pb_m, cdim; lia).
      change (Ge (pb_l U + list_sum (pb_q U) + 3 * k + i)%nat = Ge (pb_l U + list_sum (pb_q U) + 3 * k)%nat).
      match goal with |- ?a = ?b => assert (X: Some a = Some b) by (rewrite <- !HG by lia; congruence) end. congruence.
    + intros i j Hi Hj. rewrite DA by auto. destruct A1; auto.
    + intros i j Hi Hj. rewrite (rh_dG _ _ _ _ _ RH). auto.
    + intros i Hi. pose proof (PA i Hi). field. lra.
    + intros i Hi. pose proof (PG i Hi). field. lra.
    + intros i Hi. pose proof (PX i Hi). field. lra.
  - constructor; cbn; auto.
    + intros j Hj. destruct (rh_c _ _ _ _ _ RH j ltac:(lia)) as (cv & ev & E1 & E2 & E3). rewrite Wc in E1.
      destruct (Gc j Hj) as (cv' & E4 & E5). rewrite E1 in E4. injection E4 as <-. destruct (SX j Hj) as (ev' & E6 & E7). rewrite E2 in E6. injection E6 as <-.
      apply (near_weak phi u eta Om H FI); auto. apply (quot_near phi u eta Om H cv ev); auto.
    + intros j Hj. destruct (rh_b _ _ _ _ _ RH j ltac:(lia)) as (v & E1 & E2). rewrite (Vb' j Hj) in E1. injection E1 as <-.
      apply (near_weak phi u eta Om H FI); auto. eapply (quot_near phi u eta Om H); eauto. apply (holds_vec _ _ _ _ Vb Gb); auto.
    + intros j Hj. destruct (rh_h _ _ _ _ _ RH j ltac:(lia)) as (v & E1 & E2). rewrite (Vh' j Hj) in E1. injection E1 as <-.
      apply (near_weak phi u eta Om H FI); auto. eapply (quot_near phi u eta Om H); eauto. apply (holds_vec _ _ _ _ Vh Gh); auto.
Qed.

(* w' is reached from w by any number of calls to ECOS_solve, whatever they
   return, with settings changed at will in between *)
Inductive after_solves (w : pwork F) : pwork F -> Prop :=
| as_refl : after_solves w w
| as_settings w' g : after_solves w w' -> after_solves w (set_w_stgs w' g)
| as_solve w' sig t code t' w'' : after_solves w w' -> (0 <= sg_maxit (w_stgs w'))%Z ->
    ECOS_solve sig t w' = Some (code, t', w'') -> after_solves w w''.

(* the caller's numbers and the scalings, multiplied, are not near overflow *)
Record fits (U : problem) (A0 : option (spmat R)) (G0 : spmat R) (xe Ae Ge : nat -> R) : Prop := {
  ft_G : forall k, (k < sp_nnz G0)%nat -> Rabs (gd 0 (sp_pr G0) k) <= Om;
  ft_A : match A0 with Some A => forall k, (k < sp_nnz A)%nat -> Rabs (gd 0 (sp_pr A) k) <= Om | None => True end;
  ft_b : forall i, (i < pb_p U)%nat -> Rabs (pb_b U i) <= Om /\ Ae i <= Om;
  ft_h : forall i, (i < pb_m U)%nat -> Rabs (pb_h U i) <= Om /\ Ge i <= Om;
  ft_Gx : forall i j, (i < pb_m U)%nat -> (j < pb_n U)%nat -> Ge i * xe j <= Om;
  ft_Ax : forall i j, (i < pb_p U)%nat -> (j < pb_n U)%nat -> Ae i * xe j <= Om }.

(* the caller's array of matrix values holds, after cleanup, numbers M1 near
   those, M0, it held before setup; beyond the entries it is as it was *)
Definition back_mat (re ce : nat -> R) (M M' : spmat F) (M0 : spmat R) : Prop :=
  exists M1, holds_mat phi M' M1 /\ near_mat ((1 + u1) ^ 14 - 1) (2 ^ 72 * eta) re ce M0 M1 /\
    length (sp_pr M') = length (sp_pr M) /\ forall k, (sp_nnz M0 <= k)%nat -> get (sp_pr M') k = get (sp_pr M) k.
Definition back_vec (n : nat) (e : nat -> R) (a a' : arr F) (v : nat -> R) : Prop :=
  exists v', holds phi a' n v' /\ near_vec ((1 + u1) ^ 14 - 1) (2 ^ 72 * eta) n e v v' /\
    length a' = length a /\ forall i, (n <= i)%nat -> get a' i = get a i.

Definition rd (v : F) : R := match phi v with Some r => r | None => 0 end.

Lemma mat_back (a1 x1 a2 x2 a3 x3 : nat -> F) (g x : nat -> R) m n (M M' M'' : spmat F) (M0 N : spmat R) :
  (forall i, (i < m)%nat -> is_fac (a1 i) /\ is_fac (a2 i) /\ is_fac (a3 i)) ->
  (forall i, (i < n)%nat -> is_fac (x1 i) /\ is_fac (x2 i) /\ is_fac (x3 i)) ->
  (forall i, (i < m)%nat -> phi (ruiz_prod a1 a2 a3 i) = Some (g i)) ->
  (forall i, (i < n)%nat -> phi (ruiz_prod x1 x2 x3 i) = Some (x i)) ->
  wf_sp M0 -> sp_m M0 = m -> sp_n M0 = n -> holds_mat phi M M0 ->
  rescaled (ruiz_scale a1 x1 a2 x2 a3 x3) M M' -> holds_mat phi M' N ->
  rescaled (fun r c v => fmul v (fmul (ruiz_prod a1 a2 a3 r) (ruiz_prod x1 x2 x3 c))) M' M'' ->
  (forall k, (k < sp_nnz M0)%nat -> Rabs (gd 0 (sp_pr M0) k) <= Om) -> (forall i j, (i < m)%nat -> (j < n)%nat -> g i * x j <= Om) ->
  back_mat g x M M'' M0.
Proof.
  intros Fa Fx Ga Gx W Em En HM R HN R2 BM BQ.
  assert (K: forall j k, in_col M0 j k -> exists v r, get (sp_pr M'') k = Some v /\ phi v = Some r /\
    Rabs (r - gd 0 (sp_pr M0) k) <= ((1 + u1) ^ 14 - 1) * Rabs (gd 0 (sp_pr M0) k) + 2 ^ 72 * eta * (g (gd 0%nat (sp_ir M0) k) * x j)).
  { intros j k Hk. pose proof (in_col_nnz M0 j k W Hk) as Hn.
    destruct (mat_entry phi u eta Om H FI _ _ _ _ _ _ g x m n Fa Fx Ga Gx M M' M0 N j k W Em En HM R HN Hk) as (P1 & P2 & P3 & P4).
    set (r := gd 0%nat (sp_ir M0) k) in *.
    assert (EN: sp_nnz N = sp_nnz M0). { rewrite <- (hm_nnz _ _ _ HN), (rs_nnz _ _ _ R), (hm_nnz _ _ _ HM). auto. }
    destruct (hm_pr _ _ _ HN k ltac:(lia)) as (v' & E2 & Pv').
    assert (Hk': in_col M' j k). { unfold in_col in *. rewrite (rs_jc _ _ _ R), (rs_n _ _ _ R), (hm_jc _ _ _ HM), (hm_n _ _ _ HM). auto. }
    pose proof (rs_in _ _ _ R2 j k v' Hk' E2) as E3. rewrite (rs_ir _ _ _ R), (hm_ir _ _ _ HM) in E3. fold r in E3.
    assert (Hr: (r < m)%nat) by (rewrite <- Em; apply (wf_row M0 W k Hn)). assert (Hj: (j < n)%nat) by (rewrite <- En; apply Hk).
    destruct (restore_near phi u eta Om H FI _ _ _ _ _ _ _ Pv' (Ga r Hr) (Gx j Hj) P1 P2 P3 (BQ r j Hr Hj) (BM k Hn) P4) as (q & Eq & Bq).
    eauto. }
  assert (S1: sp_jc M'' = sp_jc M0) by (rewrite (rs_jc _ _ _ R2), (rs_jc _ _ _ R), (hm_jc _ _ _ HM); auto).
  assert (S2: sp_ir M'' = sp_ir M0) by (rewrite (rs_ir _ _ _ R2), (rs_ir _ _ _ R), (hm_ir _ _ _ HM); auto).
  assert (S3: sp_n M'' = sp_n M0) by (rewrite (rs_n _ _ _ R2), (rs_n _ _ _ R), (hm_n _ _ _ HM); auto).
  assert (S4: sp_m M'' = sp_m M0) by (rewrite (rs_m _ _ _ R2), (rs_m _ _ _ R), (hm_m _ _ _ HM); auto).
  assert (S5: sp_nnz M'' = sp_nnz M0) by (rewrite (rs_nnz _ _ _ R2), (rs_nnz _ _ _ R), (hm_nnz _ _ _ HM); auto).
  exists (mmapf rd M''). csplit.
  - constructor; auto. intros k Hk. cbn [mmapf sp_nnz] in Hk. destruct (in_col_exists M0 k W ltac:(lia)) as (j & Hj). destruct (K j k Hj) as (v & r & E1 & E2 & _).
    exists v. split; [auto|]. cbn [mmapf sp_pr]. rewrite E2. f_equal. symmetry. apply gd_get. rewrite get_amapf, E1. cbn. unfold rd. rewrite E2. auto.
  - constructor; auto. intros j k Hj. destruct (K j k Hj) as (v & r & E1 & E2 & B). cbn [mmapf sp_pr].
    rewrite (gd_get 0 (amapf rd (sp_pr M'')) k r); [exact B|]. rewrite get_amapf, E1. cbn. unfold rd. rewrite E2. auto.
  - rewrite (rs_len _ _ _ R2), (rs_len _ _ _ R). auto.
  - intros k Hk. rewrite (rs_out _ _ _ R2), (rs_out _ _ _ R); auto.
    + rewrite (hm_nnz _ _ _ HM). auto.
    + rewrite (rs_nnz _ _ _ R), (hm_nnz _ _ _ HM). auto.
Qed.

Lemma vec_back n (a1 a2 a3 bf : nat -> F) (e v bv : nat -> R) (a a1' a' : arr F) :
  (forall i, (i < n)%nat -> is_fac (a1 i) /\ is_fac (a2 i) /\ is_fac (a3 i)) ->
  (forall i, (i < n)%nat -> phi (ruiz_prod a1 a2 a3 i) = Some (e i)) ->
  vec a n bf -> holds phi a n v -> vec a1' n (fun i => fdiv (bf i) (ruiz_prod a1 a2 a3 i)) -> holds phi a1' n bv ->
  (length a1' = length a /\ forall i, (n <= i)%nat -> get a1' i = get a i) ->
  (length a' = length a1' /\ vec a' n (fun i => fmul (fdiv (bf i) (ruiz_prod a1 a2 a3 i)) (ruiz_prod a1 a2 a3 i)) /\ forall i, (n <= i)%nat -> get a' i = get a1' i) ->
  (forall i, (i < n)%nat -> Rabs (v i) <= Om /\ e i <= Om) ->
  back_vec n e a a' v.
Proof.
  intros Fa Ge Va Ha V1 H1 (L1 & O1) (L2 & V2 & O2) B.
  assert (K: forall i, (i < n)%nat -> exists r, phi (fmul (fdiv (bf i) (ruiz_prod a1 a2 a3 i)) (ruiz_prod a1 a2 a3 i)) = Some r /\
    Rabs (r - v i) <= ((1 + u1) ^ 14 - 1) * Rabs (v i) + 2 ^ 72 * eta * e i).
  { intros i Hi. destruct (B i Hi) as (B1 & B2). pose proof (holds_vec _ _ _ _ V1 H1 i Hi) as E1. cbn beta in E1. pose proof (holds_vec _ _ _ _ Va Ha i Hi) as E2.
    apply (rhs_near phi u eta Om H FI (bv i)); auto.
    - apply (prod_low phi u eta Om H FI _ _ _ _ _ (Fa i Hi) (Ge i Hi)).
    - apply (quot_near phi u eta Om H _ _ _ _ _ E1 (Ge i Hi) E2). apply (prod_pos phi u eta Om H FI _ _ _ _ _ (Fa i Hi) (Ge i Hi)). }
  exists (fun i => rd (fmul (fdiv (bf i) (ruiz_prod a1 a2 a3 i)) (ruiz_prod a1 a2 a3 i))). csplit.
  - intros i Hi. destruct (K i Hi) as (r & E & _). eexists. split; [apply V2; auto|]. unfold rd. rewrite E. auto.
  - intros i Hi. destruct (K i Hi) as (r & E & Bd). unfold rd. rewrite E. exact Bd.
  - congruence.
  - intros i Hi. rewrite O2, O1; auto.
Qed.

(* C49: after setup, any number of solves and cleanup, the caller's arrays hold
   numbers that differ from those before by a relative error of 14 roundings *)
Theorem C49_cleanup amd junk U A0 G0 MA MG c h b w w' P A G xe Ae Ge : given U A0 G0 MA MG c h b ->
  ECOS_setup amd junk (pb_n U) (pb_m U) (pb_p U) (pb_l U) (pb_q U) (pb_e U) (data_of MG) (option_map data_of MA) c h b = Some (Some w) ->
  rheld phi w P A G -> scalings w U xe Ae Ge -> fits U A0 G0 xe Ae Ge -> after_solves w w' ->
  exists A' G' b' h', ECOS_cleanup_data w' = Some (A', G', b', h') /\
    back_mat Ge xe MG G' G0 /\
    match MA, A', A0 with Some M, Some M', Some M0 => back_mat Ae xe M M' M0 | None, None, None => True | _, _, _ => False end /\
    back_vec (pb_p U) Ae b b' (pb_b U) /\ back_vec (pb_m U) Ge h h' (pb_h U).
Proof.
  intros GV E RH SL FT SV.
  assert (Fr: w_A w' = w_A w /\ w_G w' = w_G w /\ w_b w' = w_b w /\ w_h w' = w_h w /\
    w_xequil w' = w_xequil w /\ w_Aequil w' = w_Aequil w /\ w_Gequil w' = w_Gequil w).
  { clear - SV. induction SV as [|w1 g SV IH|w1 sig t code t' w2 SV IH M S]; [csplit; auto|exact IH|].
    apply C26_data_untouched in S as (A1 & A2 & A3 & A4 & _ & _ & _ & A5 & A6 & A7 & _); auto.
    destruct IH as (B1 & B2 & B3 & B4 & B5 & B6 & B7). csplit; etransitivity; eassumption. }
  destruct Fr as (F1 & F2 & F3 & F4 & F5 & F6 & F7). unfold ECOS_cleanup_data. rewrite F1, F2, F3, F4, F5, F6, F7. clear F1 F2 F3 F4 F5 F6 F7 SV w'.
  destruct (setup_factors _ _ _ _ _ _ _ _ _ _ _ GV E) as (bf & hf & x1 & x2 & x3 & a1 & a2 & a3 & g1 & g2 & g3 & Vb & Vh & Wc & RA & RG & VX & VA & VG & Vb' & Vh' & FX & FA & FG & _ & Ob & Oh).
  assert (Dim: pb_n P = pb_n U /\ pb_p P = pb_p U /\ pb_m P = pb_m U).
  { apply setup_inv in E as (_ & ? & ? & ? & ? & ? & ? & ? & ? & ? & _ & _ & _ & _ & _ & _ & _ & _ & _ & _ & _ & W9 & W10 & W11 & _).
    rewrite <- (rh_n _ _ _ _ _ RH), <- (rh_p _ _ _ _ _ RH), <- (rh_m _ _ _ _ _ RH). auto. }
  destruct Dim as (Dn & Dp & Dm). destruct SL as [SX SA SG]. destruct GV as [[UG UA] GG GA Gc Gh Gb]. destruct UG as (WG & EGn & EGm & EGd).
  pose proof (holds_vec _ _ _ _ VX SX) as HX. pose proof (holds_vec _ _ _ _ VA SA) as HA. pose proof (holds_vec _ _ _ _ VG SG) as HG.
  pose proof (holds_mat_wf phi _ _ GG WG) as WMG. pose proof (rescaled_wf _ _ _ RG WMG) as WG'.
  assert (NG: sp_n (w_G w) = pb_n U) by (rewrite (rs_n _ _ _ RG), (hm_n _ _ _ GG); auto).
  assert (MGm: sp_m (w_G w) = pb_m U) by (rewrite (rs_m _ _ _ RG), (hm_m _ _ _ GG); auto).
  assert (XA: wfA (w_A w) (pb_n U) /\ rowsA (w_A w) = pb_p U).
  { destruct MA as [MA|], A0 as [A0|], (w_A w) as [wA|]; cbn [rescaledA wfA rowsA] in *; try contradiction; auto.
    destruct UA as (WA & EAn & EAm & EAd). split; [split|].
    - eapply rescaled_wf; eauto. eapply holds_mat_wf; eauto.
    - rewrite (rs_n _ _ _ RA), (hm_n _ _ _ GA). auto.
    - rewrite (rs_m _ _ _ RA), (hm_m _ _ _ GA). auto. }
  destruct XA as (WA' & RwA).
  destruct (unset_equilibration_eq (w_A w) (w_G w) (w_b w) (w_h w) (w_xequil w) (w_Aequil w) (w_Gequil w) (ruiz_prod x1 x2 x3) (ruiz_prod a1 a2 a3) (ruiz_prod g1 g2 g3)
    (fun i => fdiv (bf i) (ruiz_prod a1 a2 a3 i)) (fun i => fdiv (hf i) (ruiz_prod g1 g2 g3 i)) WG')
    as (A2 & G2 & b2 & h2 & E2 & RA2 & RG2 & Xb & Xh); rewrite ?NG, ?MGm, ?RwA; auto.
  rewrite !RwA in Xb. rewrite !MGm in Xh.
  assert (Hb: holds phi (w_b w) (pb_p U) (pb_b P)) by (rewrite <- Dp; apply (rh_b _ _ _ _ _ RH)).
  assert (Hh: holds phi (w_h w) (pb_m U) (pb_h P)) by (rewrite <- Dm; apply (rh_h _ _ _ _ _ RH)).
  exists A2, G2, b2, h2. split; [exact E2|]. split; [|split; [|split]].
  - eapply (mat_back _ _ _ _ _ _ Ge xe _ _ MG (w_G w) G2 G0 G FG FX HG HX WG EGm EGn GG RG (rh_G _ _ _ _ _ RH) RG2 (ft_G _ _ _ _ _ _ FT)). apply (ft_Gx _ _ _ _ _ _ FT).
  - destruct MA as [MA|], A0 as [A0|], (w_A w) as [wA|] eqn:EwA, A2 as [A2|]; cbn [rescaledA] in *; try contradiction; auto.
    destruct UA as (WA & EAn & EAm & EAd). pose proof (ft_A _ _ _ _ _ _ FT) as BA. cbn in BA.
    assert (HN: exists N, holds_mat phi wA N).
    { destruct (Nat.eq_dec (pb_p U) 0) as [Z|Z].
      - assert (sp_nnz wA = 0%nat).
        { destruct (Nat.eq_dec (sp_nnz wA) 0); auto. destruct WA' as [WA' _]. pose proof (wf_row wA WA' 0%nat ltac:(lia)) as X. cbn in RwA. lia. }
        exists (mmapf rd wA). constructor; auto. cbn [mmapf sp_nnz]. intros k Hk. lia.
      - destruct (rh_A _ _ _ _ _ RH ltac:(lia)) as (wA' & EwA' & HwA & _). rewrite EwA in EwA'. injection EwA' as <-. eauto. }
    destruct HN as (N & HN).
    eapply (mat_back _ _ _ _ _ _ Ae xe _ _ MA wA A2 A0 N FA FX HA HX WA EAm EAn GA RA HN RA2 BA). apply (ft_Ax _ _ _ _ _ _ FT).
  - eapply (vec_back _ _ _ _ bf Ae (pb_b U) (pb_b P) b (w_b w) b2 FA HA Vb Gb Vb' Hb Ob Xb). apply (ft_b _ _ _ _ _ _ FT).
  - eapply (vec_back _ _ _ _ hf Ge (pb_h U) (pb_h P) h (w_h w) h2 FG HG Vh Gh Vh' Hh Oh Xh). apply (ft_h _ _ _ _ _ _ FT).
Qed.
End Rounded.

(* ------------------------------------------------ IEEE double precision *)
Notation b2 := (Core.Raux.bpow Core.Zaux.radix2).

Theorem C49_binary64_fine ex lg : fine (BOps ex lg) bval (b2 (-53)) (b2 (-1075)).
Proof.
  assert (PP : forall a b, b2 a * b2 b = b2 (a + b)%Z) by (intros; symmetry; apply Core.Raux.bpow_plus).
  assert (PL : forall a b, (a <= b)%Z -> b2 a <= b2 b) by (intros; apply Core.Raux.bpow_le; auto).
  assert (E10 : / 2 ^ 10 = b2 (-10)%Z) by (cbn; lra).
  constructor.
  - intros a x. cbn [fabs BOps]. unfold bval. rewrite BinarySingleNaN.is_finite_Babs, BinarySingleNaN.B2R_Babs.
    destruct (BinarySingleNaN.is_finite a); [|discriminate]. intros E. injection E as <-. auto.
  - set (x := @fconst (BOps ex lg) (1 # 1000000)).
    assert (E: BinarySingleNaN.B2SF x = SpecFloat.S754_finite false 4722366482869645 (-72)) by (vm_compute; reflexivity).
    exists (BinarySingleNaN.B2R x). split.
    + unfold bval. rewrite <- BinarySingleNaN.is_finite_SF_B2SF, E. reflexivity.
    + rewrite <- BinarySingleNaN.SF2R_B2SF, E. unfold BinarySingleNaN.SF2R, Core.Defs.F2R. cbn. lra.
  - rewrite E10. apply PL. lia.
  - rewrite E10. replace (2 ^ 80) with (b2 80%Z) by (cbn; lra). rewrite PP. apply PL. lia.
Qed.

Lemma b2_u1 : let u1 := b2 (-53) + 2 ^ 80 * b2 (-1075) in (1 + u1) ^ 12 - 1 <= b2 (-49) /\ (1 + u1) ^ 14 - 1 <= b2 (-49).
Proof.
  intros u1.
  assert (PP : forall a b, b2 a * b2 b = b2 (a + b)%Z) by (intros; symmetry; apply Core.Raux.bpow_plus).
  assert (PL : forall a b, (a <= b)%Z -> b2 a <= b2 b) by (intros; apply Core.Raux.bpow_le; auto).
  assert (PG : forall a, 0 < b2 a) by (intros; apply Core.Raux.bpow_gt_0).
  set (d := b2 (-53)) in *. assert (Pd: 0 < d) by apply PG.
  assert (Ed: b2 (-49) = 16 * d). { unfold d. replace 16 with (b2 4%Z) by (cbn; lra). rewrite PP. reflexivity. }
  assert (Ld: d <= b2 (-20)) by (apply PL; lia). assert (E20: b2 (-20) = / 1048576) by (cbn; lra).
  assert (U: 0 <= u1 <= 17 / 16 * d).
  { unfold u1. replace (2 ^ 80) with (b2 80%Z) by (cbn; lra). rewrite PP. pose proof (PG (80 + -1075)%Z).
    assert (b2 (80 + -1075) <= b2 (-57)) by (apply PL; lia). assert (E57: d = 16 * b2 (-57)). { unfold d. replace 16 with (b2 4%Z) by (cbn; lra). rewrite PP. reflexivity. }
    lra. }
  rewrite Ed. clearbody d u1. clear PP PL PG. rewrite E20 in Ld.
  assert (K: (1 + u1) ^ 14 - 1 <= 16 * d).
  { assert (S2: (1 + u1) ^ 2 <= 1 + 2.01 * u1) by (cbn; nra).
    assert (S4: (1 + u1) ^ 4 <= 1 + 4.03 * u1). { replace ((1 + u1) ^ 4) with ((1 + u1) ^ 2 * (1 + u1) ^ 2) by ring. assert (0 <= (1 + u1) ^ 2) by (apply pow_le; lra).
      apply Rle_trans with ((1 + 2.01 * u1) * (1 + 2.01 * u1)); [apply Rmult_le_compat; lra|nra]. }
    assert (S8: (1 + u1) ^ 8 <= 1 + 8.07 * u1). { replace ((1 + u1) ^ 8) with ((1 + u1) ^ 4 * (1 + u1) ^ 4) by ring. assert (0 <= (1 + u1) ^ 4) by (apply pow_le; lra).
      apply Rle_trans with ((1 + 4.03 * u1) * (1 + 4.03 * u1)); [apply Rmult_le_compat; lra|nra]. }
    assert (S6: (1 + u1) ^ 6 <= 1 + 6.05 * u1). { replace ((1 + u1) ^ 6) with ((1 + u1) ^ 4 * (1 + u1) ^ 2) by ring.
      assert (0 <= (1 + u1) ^ 4) by (apply pow_le; lra). assert (0 <= (1 + u1) ^ 2) by (apply pow_le; lra).
      apply Rle_trans with ((1 + 4.03 * u1) * (1 + 2.01 * u1)); [apply Rmult_le_compat; lra|nra]. }
    assert (S14: (1 + u1) ^ 14 <= 1 + 14.2 * u1). { replace ((1 + u1) ^ 14) with ((1 + u1) ^ 8 * (1 + u1) ^ 6) by ring.
      assert (0 <= (1 + u1) ^ 8) by (apply pow_le; lra). assert (0 <= (1 + u1) ^ 6) by (apply pow_le; lra).
      apply Rle_trans with ((1 + 8.07 * u1) * (1 + 6.05 * u1)); [apply Rmult_le_compat; lra|nra]. }
    lra. }
  split; [|exact K]. assert ((1 + u1) ^ 12 <= (1 + u1) ^ 14) by (apply Rle_pow; [lra|lia]). lra.
Qed.

Lemma near_mat_mono d1 d2 t1 t2 re ce M M' : d1 <= d2 -> t1 <= t2 -> wf_sp M ->
  (forall i j, (i < sp_m M)%nat -> (j < sp_n M)%nat -> 0 <= re i * ce j) -> near_mat d1 t1 re ce M M' -> near_mat d2 t2 re ce M M'.
Proof.
  intros Hd Ht W P [N1 N2 N3 N4 N5 N6]. constructor; auto. intros j k Hk. eapply Rle_trans; [apply N6; exact Hk|].
  apply Rplus_le_compat; apply Rmult_le_compat_r; auto using Rabs_pos. apply P; [apply (wf_row M W k); eapply in_col_nnz; eauto|apply Hk].
Qed.
Lemma near_vec_mono d1 d2 t1 t2 n e v v' : d1 <= d2 -> t1 <= t2 -> (forall i, (i < n)%nat -> 0 <= e i) -> near_vec d1 t1 n e v v' -> near_vec d2 t2 n e v v'.
Proof.
  intros Hd Ht P N i Hi. eapply Rle_trans; [apply N; exact Hi|]. apply Rplus_le_compat; apply Rmult_le_compat_r; auto using Rabs_pos.
Qed.
Lemma b2_tiny : 2 ^ 63 * b2 (-1075) <= b2 (-1000) /\ 2 ^ 72 * b2 (-1075) <= b2 (-1000).
Proof.
  assert (PP : forall a b, b2 a * b2 b = b2 (a + b)%Z) by (intros; symmetry; apply Core.Raux.bpow_plus).
  replace (2 ^ 63) with (b2 63%Z) by (cbn; lra). replace (2 ^ 72) with (b2 72%Z) by (cbn; lra). rewrite !PP. split; apply Core.Raux.bpow_le; lia.
Qed.

(* C49 for IEEE double precision: the problem that is solved is, exactly, the
   scaling of a problem whose every number agrees with the caller's up to a
   relative error 2^-49 (8 units in the last place) *)
Theorem C49_binary64_setup ex lg amd junk U A0 G0 MA MG c h b w P A G xe Ae Ge : @given (BOps ex lg) bval U A0 G0 MA MG c h b ->
  @ECOS_setup (BOps ex lg) amd junk (pb_n U) (pb_m U) (pb_p U) (pb_l U) (pb_q U) (pb_e U) (data_of MG) (option_map data_of MA) c h b = Some (Some w) ->
  @rheld (BOps ex lg) bval w P A G -> pb_l P = pb_l U -> pb_q P = pb_q U -> pb_e P = pb_e U -> @scalings (BOps ex lg) bval w U xe Ae Ge ->
  exists U' A0' G0', user U' A0' G0' /\ scaled_by U' P xe Ae Ge /\
    nearby (b2 (-49)) (b2 (-1000)) xe Ae Ge U U' A0 A0' G0 G0'.
Proof.
  intros GV E RH Pl Pq Pe SL.
  destruct (@C49_setup (BOps ex lg) bval (b2 (-53)) (b2 (-1075)) (b2 1021) (C47_binary64 ex lg) (C49_binary64_fine ex lg)
    _ _ _ _ _ _ _ _ _ _ _ _ _ _ _ _ _ GV E RH Pl Pq Pe SL) as (U' & A1 & G1 & US & SB & NB).
  exists U', A1, G1. split; [auto|]. split; [auto|]. destruct b2_u1 as [D _]. destruct b2_tiny as [T _].
  destruct NB as [N1 N2 N3 N4 N5 NG NA Nc Nb Nh].
  assert (Nm: pb_m U' = pb_m U) by (unfold pb_m; congruence).
  pose proof (sb_xe _ _ _ _ _ SB) as PX. pose proof (sb_Ae _ _ _ _ _ SB) as PA. pose proof (sb_Ge _ _ _ _ _ SB) as PG.
  rewrite N1 in PX. rewrite N2 in PA. rewrite Nm in PG. destruct GV as [[(WG & En & Em & _) UA] _ _ _ _ _].
  constructor; auto.
  - eapply near_mat_mono; eauto. intros i j Hi Hj. apply Rmult_le_pos; left; [apply PG|apply PX]; lia.
  - destruct A0 as [A0|], A1 as [A1|]; auto. destruct UA as (WA & EAn & EAm & _). eapply near_mat_mono; eauto. intros i j Hi Hj. apply Rmult_le_pos; left; [apply PA|apply PX]; lia.
  - eapply near_vec_mono; eauto. intros; left; auto.
  - eapply near_vec_mono; eauto. intros; left; auto.
  - eapply near_vec_mono; eauto. intros; left; auto.
Qed.

(* ... and after cleanup the caller's numbers are back up to the same error *)
Definition back_mat64 (re ce : nat -> R) (M M' : spmat b64) (M0 : spmat R) : Prop :=
  exists M1, @holds_mat (BOps (fun x => x) (fun x => x)) bval M' M1 /\ near_mat (b2 (-49)) (b2 (-1000)) re ce M0 M1 /\
    length (sp_pr M') = length (sp_pr M) /\ forall k, (sp_nnz M0 <= k)%nat -> get (sp_pr M') k = get (sp_pr M) k.
Definition back_vec64 (n : nat) (e : nat -> R) (a a' : arr b64) (v : nat -> R) : Prop :=
  exists v', @holds (BOps (fun x => x) (fun x => x)) bval a' n v' /\ near_vec (b2 (-49)) (b2 (-1000)) n e v v' /\
    length a' = length a /\ forall i, (n <= i)%nat -> get a' i = get a i.

Theorem C49_binary64_cleanup ex lg amd junk U A0 G0 MA MG c h b w w' P A G xe Ae Ge : @given (BOps ex lg) bval U A0 G0 MA MG c h b ->
  @ECOS_setup (BOps ex lg) amd junk (pb_n U) (pb_m U) (pb_p U) (pb_l U) (pb_q U) (pb_e U) (data_of MG) (option_map data_of MA) c h b = Some (Some w) ->
  @rheld (BOps ex lg) bval w P A G -> pb_l P = pb_l U -> pb_q P = pb_q U -> pb_e P = pb_e U -> @scalings (BOps ex lg) bval w U xe Ae Ge ->
  fits (b2 1021) U A0 G0 xe Ae Ge -> @after_solves (BOps ex lg) w w' ->
  exists A' G' b' h', @ECOS_cleanup_data (BOps ex lg) w' = Some (A', G', b', h') /\
    back_mat64 Ge xe MG G' G0 /\
    match MA, A', A0 with Some M, Some M', Some M0 => back_mat64 Ae xe M M' M0 | None, None, None => True | _, _, _ => False end /\
    back_vec64 (pb_p U) Ae b b' (pb_b U) /\ back_vec64 (pb_m U) Ge h h' (pb_h U).
Proof.
  intros GV E RH Pl Pq Pe SL FT SV.
  destruct (@C49_setup (BOps ex lg) bval (b2 (-53)) (b2 (-1075)) (b2 1021) (C47_binary64 ex lg) (C49_binary64_fine ex lg)
    _ _ _ _ _ _ _ _ _ _ _ _ _ _ _ _ _ GV E RH Pl Pq Pe SL) as (U' & A1 & G1 & US & SB & NB).
  pose proof (nb_n _ _ _ _ _ _ _ _ _ _ _ NB) as N1. pose proof (nb_p _ _ _ _ _ _ _ _ _ _ _ NB) as N2.
  assert (Nm: pb_m U' = pb_m U). { unfold pb_m. rewrite (nb_l _ _ _ _ _ _ _ _ _ _ _ NB), (nb_q _ _ _ _ _ _ _ _ _ _ _ NB), (nb_e _ _ _ _ _ _ _ _ _ _ _ NB). auto. }
  pose proof (sb_xe _ _ _ _ _ SB) as PX. pose proof (sb_Ae _ _ _ _ _ SB) as PA. pose proof (sb_Ge _ _ _ _ _ SB) as PG.
  rewrite N1 in PX. rewrite N2 in PA. rewrite Nm in PG. clear U' A1 G1 US SB NB N1 N2 Nm.
  destruct (@C49_cleanup (BOps ex lg) bval (b2 (-53)) (b2 (-1075)) (b2 1021) (C47_binary64 ex lg) (C49_binary64_fine ex lg)
    _ _ _ _ _ _ _ _ _ _ _ _ _ _ _ _ _ _ GV E RH SL FT SV) as (A' & G' & b' & h' & EC & BG & BA & Bb & Bh).
  exists A', G', b', h'. split; [exact EC|]. destruct b2_u1 as [_ D]. destruct b2_tiny as [_ T].
  destruct GV as [[(WG & En & Em & _) UA] _ _ _ _ _].
  split; [|split; [|split]].
  - destruct BG as (M1 & HM & NM & LM & OM). exists M1. split; [destruct HM; constructor; auto|]. split; [|auto].
    eapply near_mat_mono; eauto. intros i j Hi Hj. apply Rmult_le_pos; left; [apply PG|apply PX]; lia.
  - destruct MA as [MA|], A' as [A'|], A0 as [A0|]; auto. destruct UA as (WA & EAn & EAm & _).
    destruct BA as (M1 & HM & NM & LM & OM). exists M1. split; [destruct HM; constructor; auto|]. split; [|auto].
    eapply near_mat_mono; eauto. intros i j Hi Hj. apply Rmult_le_pos; left; [apply PA|apply PX]; lia.
  - destruct Bb as (v' & HV & NV & LV & OV). exists v'. split; [exact HV|]. split; [|auto]. eapply near_vec_mono; eauto. intros; left; auto.
  - destruct Bh as (v' & HV & NV & LV & OV). exists v'. split; [exact HV|]. split; [|auto]. eapply near_vec_mono; eauto. intros; left; auto.
Qed.
Print Assumptions C49_setup.
Print Assumptions C49_cleanup.
Print Assumptions C49_binary64_fine.
Print Assumptions C49_binary64_setup.
Print Assumptions C49_binary64_cleanup.
