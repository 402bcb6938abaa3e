(* The definedness order on the KKT structure: src/kkt.c. *)
From Coq Require Import List Arith Bool ZArith QArith Lia.
From Verif Require Import Base Num.
From Verif.Model Require Import Spla Types Consts Expcone Cone Ldl Kkt.
From Verif.Proofs Require Import Mono.
Import ListNotations.
Open Scope nat_scope.

Lemma get_firstn {T} (a : arr T) k i : get (firstn k a) i = if i <? k then get a i else None.
Proof.
  unfold get. destruct (Nat.ltb_spec i k) as [H|H].
  - revert a i H. induction k as [|k IH]; intros [|x a] [|i] H; cbn; try lia; auto. apply IH. lia.
  - replace (nth_error (firstn k a) i) with (@None (option T)); auto. symmetry. apply nth_error_None. rewrite firstn_length. lia.
Qed.
Lemma get_skipn {T} (a : arr T) k i : get (skipn k a) i = get a (k + i).
Proof. unfold get. revert a. induction k as [|k IH]; intros a; auto. destruct a; cbn; auto. destruct i; reflexivity. Qed.
Lemma get_app {T} (a b : arr T) i : get (a ++ b) i = if i <? length a then get a i else get b (i - length a).
Proof.
  unfold get. destruct (Nat.ltb_spec i (length a)); [rewrite nth_error_app1 by auto|rewrite nth_error_app2 by auto]; auto.
Qed.

Lemma le_sect `{O : Ops} (e e' : arr F) off len : le e e' -> le (sect e off len) (sect e' off len).
Proof.
  intros [L S]. split; [unfold sect; rewrite !firstn_length, !skipn_length; lia|]. intros i v. unfold sect. rewrite !get_firstn, !get_skipn.
  destruct (i <? len); auto.
Qed.
Lemma le_unsect `{O : Ops} (e e' x x' : arr F) off : le e e' -> le x x' -> le (unsect e off x) (unsect e' off x').
Proof.
  intros [L S] [Lx Sx]. split; [unfold unsect; rewrite !app_length, !firstn_length, !skipn_length; lia|]. intros i v. unfold unsect.
  rewrite !get_app, !get_firstn, !get_skipn, !firstn_length, L, Lx. destruct (i <? _); [destruct (i <? off); auto|]. destruct (_ <? length x'); auto.
Qed.
#[global] Hint Resolve le_sect le_unsect : mono.

Section MonoK.
Context `{O : Ops}.
Notation A := (arr F).

(* all of the KKT structure but the values of its matrix, which are rewritten
   before they are read *)
Record leK (K K' : kkt F) : Prop := {
  lk_jc : sp_jc (kk_PKPt K) = sp_jc (kk_PKPt K'); lk_ir : sp_ir (kk_PKPt K) = sp_ir (kk_PKPt K');
  lk_n : sp_n (kk_PKPt K) = sp_n (kk_PKPt K');
  lk_Lp : sp_jc (kk_L K) = sp_jc (kk_L K'); lk_Li : le (sp_ir (kk_L K)) (sp_ir (kk_L K')); lk_Lx : le (sp_pr (kk_L K)) (sp_pr (kk_L K'));
  lk_D : le (kk_D K) (kk_D K');
  lk_w1 : le (kk_work1 K) (kk_work1 K'); lk_w2 : le (kk_work2 K) (kk_work2 K'); lk_w3 : le (kk_work3 K) (kk_work3 K');
  lk_w4 : le (kk_work4 K) (kk_work4 K'); lk_w5 : le (kk_work5 K) (kk_work5 K'); lk_w6 : le (kk_work6 K) (kk_work6 K');
  lk_r1 : le (kk_RHS1 K) (kk_RHS1 K'); lk_r2 : le (kk_RHS2 K) (kk_RHS2 K');
  lk_dx1 : le (kk_dx1 K) (kk_dx1 K'); lk_dx2 : le (kk_dx2 K) (kk_dx2 K');
  lk_dy1 : le (kk_dy1 K) (kk_dy1 K'); lk_dy2 : le (kk_dy2 K) (kk_dy2 K');
  lk_dz1 : le (kk_dz1 K) (kk_dz1 K'); lk_dz2 : le (kk_dz2 K) (kk_dz2 K');
  lk_Pinv : kk_Pinv K = kk_Pinv K'; lk_PK : kk_PK K = kk_PK K'; lk_Parent : kk_Parent K = kk_Parent K'; lk_Sign : kk_Sign K = kk_Sign K';
  lk_Pat : le (kk_Pattern K) (kk_Pattern K'); lk_Fl : le (kk_Flag K) (kk_Flag K'); lk_Lnz : le (kk_Lnz K) (kk_Lnz K')
}.

(* what no routine of kkt.c changes *)
Definition symK (K : kkt F) := (kk_PKPt K, sp_jc (kk_L K), sp_n (kk_L K), sp_m (kk_L K), sp_nnz (kk_L K), kk_P K, kk_PK K, kk_Pinv K, kk_Parent K, kk_Sign K).

Lemma kkt_factor_mono K K' eps delta : leK K K' -> sub (sp_pr (kk_PKPt K)) (sp_pr (kk_PKPt K')) ->
  rel (fun r r' => fst r = fst r' /\ leK (snd r) (snd r') /\ symK (snd r) = symK K /\ symK (snd r') = symK K') (kkt_factor K eps delta) (kkt_factor K' eps delta).
Proof.
  intros [] S. cbv beta delta [kkt_factor]. cbv zeta. rewrite lk_n0, lk_jc0, lk_ir0, lk_Lp0, lk_Parent0, lk_Sign0.
  eapply (rel_bind le); [apply LDL_numeric2_mono; auto|intros; lehyp]. apply rel_ret. cbn [fst snd]. split; [|split; [|split]].
  - wcbn. rewrite !Nat.eqb_refl; auto.
  - constructor; wcbn; auto.
  - unfold symK; wcbn. cbn. congruence.
  - unfold symK; wcbn. reflexivity.
Qed.

Lemma ldl_solve_mono K K' (b b' x x' : A) : leK K K' -> le b b' -> le x x' -> rel le (ldl_solve K b x) (ldl_solve K' b' x').
Proof.
  intros [] ? ?. cbv beta delta [ldl_solve]. cbv zeta. rewrite lk_Lp0, lk_n0. mono.
Qed.
Hint Resolve ldl_solve_mono : mono.

Lemma kkt_error_mono M G (Pb Pb' : A) Pinv (dx dx' dy dy' dz dz' : A) n p m C C' ii (Px Px' e e' tz tz' Gx Gx' : A) :
  le Pb Pb' -> le dx dx' -> le dy dy' -> le dz dz' -> le C C' -> le Px Px' -> le e e' -> le tz tz' -> le Gx Gx' ->
  rel le (kkt_error M G Pb Pinv dx dy dz n p m C ii Px e tz Gx) (kkt_error M G Pb' Pinv dx' dy' dz' n p m C' ii Px' e' tz' Gx').
Proof.
  intros. cbv beta delta [kkt_error]. rewrite <- (le_nsoc C C'), <- (le_lpp C C') by auto. replace (length e') with (length e) by (destruct H5; auto).
  assert (HS : Forall2 le (co_soc C) (co_soc C')) by apply H3. assert (HE : Forall2 le (co_expc C) (co_expc C')) by apply H3.
  destruct M as [M|]; mono.
Qed.
Hint Resolve kkt_error_mono : mono.

Lemma kkt_refine_mono nitref K K' M G (Pb Pb' : A) n p m C C' ii thr : leK K K' -> le Pb Pb' -> le C C' ->
  forall fuel kIt np st st', le st st' ->
  rel le (kkt_refine fuel kIt nitref K M G Pb n p m C ii thr np st) (kkt_refine fuel kIt nitref K' M G Pb' n p m C' ii thr np st').
Proof.
  intros HK HP HC. induction fuel as [|fuel IH]; intros kIt np st st' Hs; cbn [kkt_refine]; [mono|]. unfold ir_state in *. lehyp.
  cbv zeta. rewrite (lk_Pinv K K' HK), (lk_n K K' HK).
  mono.
Qed.

Lemma kkt_solve_mono K K' M G (Pb Pb' dx dx' dy dy' dz dz' : A) n p m C C' ii nitref :
  leK K K' -> le Pb Pb' -> le C C' -> le dx dx' -> le dy dy' -> le dz dz' ->
  rel (fun r r' => let '(i, K1, x, y, z) := r in let '(i', K1', x', y', z') := r' in
        i = i' /\ leK K1 K1' /\ symK K1 = symK K /\ symK K1' = symK K' /\ le x x' /\ le y y' /\ le z z')
    (kkt_solve K M G Pb dx dy dz n p m C ii nitref) (kkt_solve K' M G Pb' dx' dy' dz' n p m C' ii nitref).
Proof.
  intros HK HP HC HX HY HZ. pose proof HK as []. cbv beta delta [kkt_solve]. rewrite <- (le_nsoc C C' HC), lk_Pinv0.
  mono1; [mono|]. cbv zeta. mono1; [mono|].
  eapply (rel_bind (@le (Z * ir_state) (Le_prod _ _))).
  { apply kkt_refine_mono; auto. unfold ir_state. cbv beta iota. letac. }
  intros [k st] [k' st'] Hr. apply le_pair_inv in Hr as [Hk Hr]. unfold ir_state in *. lehyp. mono1; [mono|].
  apply rel_ret. csplit; auto; try (unfold symK; wcbn; congruence). constructor; wcbn; auto.
Qed.

Lemma setK_mono P (pr pr' : A) k v : le pr pr' -> rel le (setK P pr k v) (setK P pr' k v).
Proof. intros. cbv beta delta [setK]. mono. Qed.
Hint Resolve setK_mono : mono.
Lemma kkt_write_soc_mono P p Di c c' D0 D1 v v' vd u0 u u' ud (pr pr' : A) : so_p c = p -> so_Didx c = Di -> so_p c' = p -> so_Didx c' = Di ->
  (forall k, rel le (v k) (v' k)) -> (forall k, rel le (u k) (u' k)) -> le pr pr' ->
  rel le (kkt_write_soc P c D0 D1 v vd u0 u ud pr) (kkt_write_soc P c' D0 D1 v' vd u0 u' ud pr').
Proof. intros E1 E2 E3 E4 HV HU HP. cbv beta delta [kkt_write_soc]. rewrite E1, E2, E3, E4. mono. Qed.
Lemma kkt_update_mono P C C' (pr pr' : A) : le C C' -> le pr pr' -> rel le (kkt_update pr P C) (kkt_update pr' P C').
Proof.
  intros HC HP. cbv beta delta [kkt_update lpp]. lerec. mono. eapply kkt_write_soc_mono; try reflexivity; auto; intros; mono.
Qed.
Lemma kkt_init_mono P C C' (pr pr' : A) : le C C' -> le pr pr' -> rel le (kkt_init pr P C) (kkt_init pr' P C').
Proof.
  intros HC HP. cbv beta delta [kkt_init lpp]. lerec. mono. eapply kkt_write_soc_mono; try reflexivity; auto; intros; mono.
Qed.
End MonoK.
#[global] Hint Resolve ldl_solve_mono : mono.
