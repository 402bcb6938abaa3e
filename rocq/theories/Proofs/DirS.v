(* The two operators of an iteration in mathematical terms: the conic block of the
   KKT matrix is the scaling metric, the conic right-hand side the wanted force. *)
From Coq Require Import List Arith Bool ZArith Reals Lia Lra.
From Verif Require Import Base Num.
From Verif.Model Require Import Spla Splamm Types Consts Expcone Cone Ldl Kkt Equil Preproc Ecos.
From Verif.Spec Require Import Matrix Fill Conic Exp Jordan KktSpec KktMatrix Shape SetupSpec Direction.
From Verif.Proofs Require Import SplaP LoopLib SplammP LdlSym LdlNum KktAsm KktMat ConeP ScalP Scal2P RotP ConeR NtR LineP KktUpd Layout EquilP Work WorkUpd
  SafeLib Stretch SafeK KktErr SafeE SafeW SafeV ExitP LoopP SafeU IterP Wlp DirP DirT ExpP DirR.
From Verif.Properties Require Import Kkt Sparse Cone Exp.
Import ListNotations.
Open Scope R_scope.

Section Bar.
Variables u v w : R.
Let l := ln (- v / u).
Let r := w - u - u * l.
Definition bh : nat -> R := fun i => match i with
  | O => 1 / (u * u) - 1 / (r * u) + l * l / (r * r) | S O => 1 / (r * v) + l * u / (r * r * v)
  | S (S O) => 1 / (v * v) - u / (r * v * v) + u * u / (r * r * v * v)  | S (S (S O)) => - l / (r * r) | S (S (S (S O))) => - u / (r * r * v) | _ => 1 / (r * r) end.
Definition bg : nat -> R := fun i => match i with 0 => gr1 u v w | 1 => gr2 u v w | _ => gr3 u v w end%nat.
Hypothesis I : exp_dual_int u v w.

Lemma bar_model : barrier_model u v w bg (sym3 bh).
Proof.
  exists gr1, gr2, gr3. split; [intros; apply barrier_grad; auto|]. cbn [bg sym3 bh]. repeat (split; [reflexivity|]).
  split; [exact (grad1_partials u v w I)|]. split; [exact (grad2_partials u v w I)|]. exact (grad3_partials u v w I).
Qed.

Lemma bar_psd x : 0 <= Rsum 3 (fun i => x i * Rsum 3 (fun k => sym3 bh i k * x k)).
Proof.
  assert (E : Rsum 3 (fun i => x i * Rsum 3 (fun k => sym3 bh i k * x k)) =
    bh 0%nat * x 0%nat * x 0%nat + bh 2%nat * x 1%nat * x 1%nat + bh 5%nat * x 2%nat * x 2%nat + 2 * bh 1%nat * x 0%nat * x 1%nat + 2 * bh 3%nat * x 0%nat * x 2%nat + 2 * bh 4%nat * x 1%nat * x 2%nat)
    by (cbn [Rsum sym3]; ring).
  rewrite E. cbn [bh]. pose proof (hess_form u v w I (x 0%nat) (x 1%nat) (x 2%nat)) as HF. pose proof (hess_pos u v w I (x 0%nat) (x 1%nat) (x 2%nat)) as HP.
  cbv zeta in HF, HP. fold l in HF, HP. fold r in HF, HP. eapply Rle_trans; [|right; symmetry; exact HF].
  destruct (Req_dec (x 0%nat) 0) as [X0|X0]; [destruct (Req_dec (x 1%nat) 0) as [X1|X1]; [destruct (Req_dec (x 2%nat) 0) as [X2|X2]|]|];
    try (apply Rlt_le, HP; injection 1; congruence).
  rewrite X0, X1, X2. unfold Rsqr. right. field. pose proof (int_r _ _ _ I) as X. fold l in X. fold r in X. destruct I as (A & B & _). repeat split; lra.
Qed.

Lemma expGrad_R i : (i < 3)%nat -> list_fun (@expGrad ROps u v w) i = bg i.
Proof.
  intros Hi. pose proof (int_r _ _ _ I) as X. fold l in X. destruct I as (A & B & _).
  unfold expGrad. unfold list_fun. cbn [fneg fmul fadd fsub fdiv flog ROps]. fold l.
  rewrite ?f1_R. change (@F ROps) with R in *.
  destruct i as [|[|[|i]]]; [| | |lia]; cbn [nth nth_default bg]; unfold gr1, gr2, gr3; fold l; replace (- u * l - u + w) with r by (unfold r; ring); fold r; field; repeat split; unfold r; lra.
Qed.
Lemma expHess_R mu i : (i < 6)%nat -> list_fun (@expHess ROps u v w mu) i = mu * bh i.
Proof.
  intros Hi. pose proof (int_r _ _ _ I) as X. fold l in X. destruct I as (A & B & _).
  unfold expHess. unfold list_fun. cbn [fneg fmul fadd fsub fdiv flog ROps]. fold l. rewrite ?f1_R. change (@F ROps) with R in *.
  replace (- u * l - u + w) with r by (unfold r; ring). fold r in X. assert (Ew : w - u = r + u * l) by (unfold r; ring).
  destruct i as [|[|[|[|[|[|i]]]]]]; [| | | | | |lia]; cbn [nth nth_default bh]; rewrite ?Ew; field; repeat split; lra.
Qed.
End Bar.

Section Ops.
Variables (C : cone R) (l : nat) (q : list nat) (e : nat) (s z : nat -> R) (mu : R).
Hypothesis G : good C.
Hypothesis CO : @cone_of ROps C l q e.
Hypothesis EH : @hsize ROps C = (l + list_sum q)%nat.
Hypothesis UP : @updated ROps s z mu C.
Notation h := (l + list_sum q)%nat.

Lemma block_e j : (j < e)%nat -> exists c, nth_error (co_expc C) j = Some c /\ @exp_upd ROps (expz l q z j) mu c.
Proof.
  intros Hj. pose proof (co_e _ _ _ _ CO) as E. unfold nexc in E.
  destruct (nth_error (co_expc C) j) as [c|] eqn:En; [|apply nth_error_None in En; change (@F ROps) with R in *; lia].
  exists c. split; auto. pose proof (lay3_nth _ (co_fexv C) _ _ En) as HI. pose proof (sh_fexv _ (co_shape _ _ _ _ CO)) as FX.
  pose proof (up_exp _ _ _ _ UP (h + 3 * j)%nat c) as U. unfold eblocks in U. change (@F ROps) with R in *. rewrite EH in FX. rewrite FX in HI, U.
  destruct (U HI) as [U1 U2]. constructor; [exact U1|exact U2].
Qed.

Lemma divmod j i : (i < 3)%nat -> ((h + 3 * j + i - h) / 3 = j /\ (h + 3 * j + i - h) mod 3 = i)%nat.
Proof.
  intros Hi. replace (h + 3 * j + i - h)%nat with (i + j * 3)%nat by lia. rewrite Nat.div_add, Nat.mod_add by lia.
  rewrite Nat.div_small, Nat.mod_small by lia. lia.
Qed.

Lemma Vop_exp x j i : (j < e)%nat -> (i < 3)%nat -> exp_dual_int (expz l q z j 0) (expz l q z j 1) (expz l q z j 2) ->
  Vop C x (h + 3 * j + i)%nat = mu * Rsum 3 (fun k => sym3 (bh (expz l q z j 0) (expz l q z j 1) (expz l q z j 2)) i k * expz l q x j k).
Proof.
  intros Hj Hi I. destruct (block_e j Hj) as (c & En & U). unfold Vop. rewrite EH. destruct (Nat.ltb_spec (h + 3 * j + i) h); [lia|].
  destruct (divmod j i Hi) as [-> ->]. rewrite En. rewrite <- Rsum_scal. apply Rsum_ext. intros k Hk.
  assert (V6 : forall t, (t < 6)%nat -> gd 0 (ex_v c) t = mu * bh (expz l q z j 0) (expz l q z j 1) (expz l q z j 2) t).
  { intros t Ht. rewrite <- (expHess_R _ _ _ I) by auto. apply gd_get. exact (eu_v _ _ _ U t Ht). }
  unfold expz at 4. rewrite <- Rmult_assoc. f_equal. destruct i as [|[|[|i]]]; [| | |lia]; destruct k as [|[|[|k]]]; try lia; cbn [sym3]; apply V6; lia.
Qed.

Lemma Vop_metric : metric l q e (Wop C) z mu (Vop C).
Proof.
  split.
  - intros x i Hi. unfold Vop. rewrite EH. destruct (Nat.ltb_spec i h); [reflexivity|lia].
  - intros j Hj I. eexists _, _. split; [apply bar_model; exact I|]. intros x i Hi. apply Vop_exp; auto.
Qed.

Lemma Gop_force sm v : force l q e (Wop C) s z sm v (Gop C v s sm).
Proof.
  split.
  - intros i Hi. unfold Gop. rewrite EH. destruct (Nat.ltb_spec i h); [reflexivity|lia].
  - intros j Hj I. eexists _, _. split; [apply bar_model; exact I|]. intros i Hi. destruct (block_e j Hj) as (c & En & U).
    unfold Gop. rewrite EH. destruct (Nat.ltb_spec (h + 3 * j + i) h); [lia|]. destruct (divmod j i Hi) as [-> ->]. rewrite En. unfold expz at 1. f_equal. f_equal.
    rewrite <- (expGrad_R _ _ _ I) by auto. apply gd_get. exact (eu_g _ _ _ U i Hi).
Qed.

Lemma Rsum_blocks k f : Rsum (3 * k) f = Rsum k (fun j => Rsum 3 (fun i => f (3 * j + i)%nat)).
Proof.
  induction k as [|k IH]; [reflexivity|]. replace (3 * S k)%nat with (3 * k + 3)%nat by lia. rewrite Rsum_split, IH. reflexivity.
Qed.

Lemma Vop_psd x : exp_inside l q e z -> 0 <= mu -> 0 <= dotp (h + 3 * e) x (Vop C x).
Proof.
  intros EI M. pose proof (Wop_scaling C G) as SC. rewrite EH in SC. unfold dotp. rewrite Rsum_split. apply Rplus_le_le_0_compat.
  - rewrite (Rsum_ext _ _ (fun i => x i * Wop C (Wop C x) i)) by (intros i Hi; unfold Vop; rewrite EH; destruct (Nat.ltb_spec i h); [reflexivity|lia]).
    pose proof (sc_sym _ _ _ _ _ SC (Wop C x) x) as E. unfold dotp in E. rewrite E. apply Rsum_sq_nonneg.
  - rewrite Rsum_blocks. apply Rsum_nonneg. intros j Hj. pose proof (EI j Hj) as I.
    rewrite (Rsum_ext _ _ (fun i => mu * (expz l q x j i * Rsum 3 (fun k => sym3 (bh (expz l q z j 0) (expz l q z j 1) (expz l q z j 2)) i k * expz l q x j k)))).
    + rewrite Rsum_scal. apply Rmult_le_pos; auto. apply bar_psd. exact I.
    + intros i Hi. rewrite Nat.add_assoc, (Vop_exp x j i) by auto. unfold expz at 5. ring.
Qed.
End Ops.
