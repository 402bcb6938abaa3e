(* The constant right-hand side (-c, b, h): written by the start of a solve, kept
   by every pass.  Arithmetic is arbitrary. *)
From Coq Require Import List Arith Bool ZArith Lia.
From Verif Require Import Base Num.
From Verif.Model Require Import Spla Splamm Types Consts Expcone Cone Ldl Kkt Equil Preproc Ecos.
From Verif.Spec Require Import Matrix Fill KktSpec KktMatrix Shape SetupSpec Direction.
From Verif.Proofs Require Import SplaP LoopLib SplammP LdlSym LdlNum KktAsm KktMat ConeP ScalP Scal2P LineP KktUpd Layout EquilP Work WorkUpd
  SafeLib Stretch SafeK KktErr SafeE SafeW SafeV ExitP LoopP SafeU IterP Wlp DirP DirT.
From Verif.Properties Require Import Kkt.
Import ListNotations.
Open Scope nat_scope.

Section DirI.
Context `{O : Ops}.
Notation W := (pwork F).
Variable L : lay.
Hypothesis H1 : forall d, In d (ly_q L) -> 1 <= d.
Notation n := (ly_n L).
Notation p := (ly_p L).
Notation m := (ly_m L).
Notation N := (ly_nK L).
Notation pf := (ly_pf L).

Definition const_rhs (w : W) : Prop :=
  rhs_is L (kk_RHS1 (w_KKT w)) (fun i => - gd f0 (w_c w) i)%fl (gd f0 (w_b w)) (gd f0 (w_h w)).

Definition pdata (w : W) := (w_n w, w_p w, w_m w, w_c w, w_b w, w_h w).

Lemma prob_pdata w w' : prob_of w' = prob_of w -> pdata w' = pdata w.
Proof. unfold prob_of, pdata. intros E. injection E. intros. congruence. Qed.

Lemma init_rhs_R1 lpv soc ex w w' : ws L lpv soc ex w -> init_rhs w = Some w' ->
  rhs_is L (kk_RHS1 (w_KKT w')) (fun _ => f0) (gd f0 (w_b w)) (gd f0 (w_h w)) /\ length (kk_RHS1 (w_KKT w')) = N /\
  kk_Pinv (w_KKT w') = kk_Pinv (w_KKT w) /\ pdata w' = pdata w.
Proof.
  intros WS E. unfold init_rhs in E. cbv zeta in E. pose proof (ws_K _ _ _ _ _ WS) as KW. pose proof (kws_dim _ _ _ _ _ KW) as (PP & _). pose proof (kw_Pinv _ _ _ _ _ KW) as VP.
  pose proof (ws_N L WS) as NN. assert (LR1 : length (kk_RHS1 (w_KKT w)) = N) by (destruct KW; auto).
  destruct (kkt_init _ _ _) as [pr|]; [cbn [bind] in E|discriminate].
  change (kk_Pinv (set_kk_PKPt (set_kk_delta (w_KKT w) (sg_delta (w_stgs w))) (with_pr (kk_PKPt (set_kk_delta (w_KKT w) (sg_delta (w_stgs w)))) pr))) with (kk_Pinv (w_KKT w)) in E.
  change (kk_RHS1 (set_kk_PKPt (set_kk_delta (w_KKT w) (sg_delta (w_stgs w))) (with_pr (kk_PKPt (set_kk_delta (w_KKT w) (sg_delta (w_stgs w)))) pr))) with (kk_RHS1 (w_KKT w)) in E.
  rewrite (ws_n _ _ _ _ _ WS), (ws_p _ _ _ _ _ WS) in E.
  destruct (scatter _ 0 n _ (kk_RHS1 _)) as [a|] eqn:Ea; [cbn [bind] in E|discriminate].
  assert (U1 : put N pf 0 n (fun _ => f0) (kk_RHS1 (w_KKT w)) a) by (apply (wp_get _ _ (put N pf 0 n (fun _ => f0) (kk_RHS1 (w_KKT w))) Ea), (scatter_wp N pf _ VP PP 0 n _ (fun _ => f0)); auto; lia).
  destruct (scatter _ n p _ a) as [b|] eqn:Eb; [cbn [bind] in E|discriminate].
  assert (La : length a = N) by (destruct U1; congruence).
  assert (U2 : put N pf n p (gd f0 (w_b w)) a b).
  { apply (wp_get _ _ (put N pf n p (gd f0 (w_b w)) a) Eb), (scatter_wp N pf _ VP PP n p _ (gd f0 (w_b w))); auto; [lia|lia|]. intros i Hi. apply (full_vecd _ _ (ws_b _ _ _ _ _ WS)); auto. }
  assert (Lb : length b = N) by (destruct U2; congruence).
  destruct (rhs_conic _ _ _ _ b) as [d|] eqn:Ed; [cbn [bind] in E|discriminate].
  assert (U3 : put N pf (n + p) (m + 2 * length (ly_q L)) (stretch (ly_l L) (ly_q L) (gd f0 (w_h w))) b d).
  { apply (wp_get _ _ (put N pf (n + p) (m + 2 * length (ly_q L)) (stretch (ly_l L) (ly_q L) (gd f0 (w_h w))) b) Ed).
    apply (rhs_conic_wp N pf _ VP PP (w_C w) (n + p) _ (gd f0 (w_h w))); [lia|lia| |].
    - intros i Hi. rewrite (ws_msize L WS) in Hi. apply (full_vecd _ _ (ws_h _ _ _ _ _ WS) i Hi).
    - intros x U. rewrite (ws_msize L WS), (ws_nsoc L WS) in U. destruct (ws_cq L _ _ _ _ WS) as (E1 & E2 & _). rewrite E1, E2 in U. exact U. }
  binv E. injection E as <-. wcbn. csplit.
  - eapply put3; eauto.
  - destruct U3; congruence.
  - reflexivity.
  - reflexivity.
Qed.

Definition keptR (w w' : W) : Prop := kk_RHS1 (w_KKT w') = kk_RHS1 (w_KKT w) /\ kk_Pinv (w_KKT w') = kk_Pinv (w_KKT w) /\ pdata w' = pdata w.

Lemma kkt_factor_keep K eps delta ok K' : kkt_factor K eps delta = Some (ok, K') -> kk_RHS1 K' = kk_RHS1 K /\ kk_Pinv K' = kk_Pinv K.
Proof. unfold kkt_factor. intros E. cbv zeta in E. destruct (LDL_numeric2 _ _ _ _ _ _ _ _ _ _ _ _ _ _ _ _) as [[[[[[[? ?] ?] ?] ?] ?] ?]|]; [|discriminate]. cbn [bind] in E. injection E as <- <-. auto. Qed.

Lemma init_mehrotra_keep w w' : init_mehrotra w = Some (true, w') -> keptR w w'.
Proof.
  unfold init_mehrotra, set_info. intros E. cbv zeta in E. destruct (kkt_factor _ _ _) as [[ok K]|] eqn:Ef; [cbn [bind] in E|discriminate]. destruct ok; cbn [negb] in E; [|discriminate].
  apply kkt_factor_keep in Ef as (A1 & A2).
  destruct (kkt_solve _ _ _ _ _ _ _ _ _ _ _ _ _) as [[[[[it K1] dx] dy] dz]|] eqn:E1; [cbn [bind] in E|discriminate].
  apply kkt_solve_keep in E1 as (B & _).
  destruct (copy _ _ _) as [x|]; [cbn [bind] in E|discriminate]. destruct (for_ _ _ _ _) as [w1|]; [cbn [bind] in E|discriminate].
  destruct (bring2cone _ _ _) as [s|]; [cbn [bind] in E|discriminate].
  destruct (kkt_solve _ _ _ _ _ _ _ _ _ _ _ _ _) as [[[[[it2 K2] dx2] dy2] dz2]|] eqn:E2; [cbn [bind] in E|discriminate].
  apply kkt_solve_keep in E2 as (B2 & _).
  destruct (copy _ _ _) as [y|]; [cbn [bind] in E|discriminate]. destruct (bring2cone _ _ _) as [z|]; [cbn [bind] in E|discriminate]. injection E as <-.
  unfold kcore in B, B2. injection B. intros X1 _ X2 _ _ _ _. injection B2. wcbn. intros Y1 _ Y2 _ _ _ _.
  split; [|split]; wcbn; try congruence. reflexivity.
Qed.

Lemma init_unit_keep w w' : init_unit w = Some w' -> keptR w w'.
Proof. unfold init_unit, set_info. intros E. binv E. injection E as <-. split; [|split]; reflexivity. Qed.

Lemma init_const lpv soc ex w w' : ws L lpv soc ex w -> init w = Some (true, w') -> const_rhs w' /\ pdata w' = pdata w.
Proof.
  intros WS E. unfold init in E. destruct (init_rhs w) as [w1|] eqn:E1; [cbn [bind] in E|discriminate].
  destruct (init_rhs_R1 _ _ _ _ _ WS E1) as (R1 & LR & EP & PD).
  pose proof (ws_K _ _ _ _ _ WS) as KW. pose proof (kws_dim _ _ _ _ _ KW) as (PP & _). pose proof (kw_Pinv _ _ _ _ _ KW) as VP. pose proof (ws_N L WS) as NN.
  match type of E with bind ?mm _ = _ => destruct mm as [[ok w2]|] eqn:E2; [cbn [bind] in E|discriminate] end.
  destruct ok; cbn [negb] in E; [|discriminate].
  assert (K2 : keptR w1 w2).
  { destruct (Nat.eqb _ 0); [apply init_mehrotra_keep; auto|]. destruct (init_unit w1) as [wu|] eqn:Eu; [cbn [bind] in E2|discriminate]. injection E2 as <-. apply init_unit_keep; auto. }
  destruct K2 as (Q1 & Q2 & Q3). cbv zeta in E. rewrite PD in Q3.
  destruct (scatter _ _ _ _ _) as [R|] eqn:Es; [cbn [bind] in E|discriminate].
  unfold pdata in Q3. injection Q3 as D1 D2 D3 D4 D5 D6.
  rewrite Q1, Q2, EP, D1, D4, (ws_n _ _ _ _ _ WS) in Es.
  assert (U : put N pf 0 n (fun i => - gd f0 (w_c w) i)%fl (kk_RHS1 (w_KKT w1)) R).
  { apply (wp_get _ _ (put N pf 0 n (fun i => - gd f0 (w_c w) i)%fl (kk_RHS1 (w_KKT w1))) Es), (scatter_wp N pf _ VP PP 0 n _ (fun i => - gd f0 (w_c w) i)%fl); auto; [lia|lia|].
    intros i Hi. pose proof (full_vecd _ _ (ws_c _ _ _ _ _ WS) i Hi) as X. rewrite X. reflexivity. }
  injection E as <-. unfold set_info. split; [|unfold pdata; wcbn; congruence].
  unfold const_rhs. wcbn. rewrite D4, D5, D6. destruct U as (U1 & U2 & U3). destruct R1 as (A & B & D).
  assert (NE : N = n + p + (m + 2 * length (ly_q L))) by (unfold ly_nK, ly_mt; lia). split; [|split].
  - intros i Hi. apply (U2 i Hi).
  - intros i Hi. rewrite U3 by lia. apply B; auto.
  - intros i Hi. rewrite U3 by lia. apply D; auto.
Qed.

Lemma const_kept w w' : kk_RHS1 (w_KKT w') = kk_RHS1 (w_KKT w) -> pdata w' = pdata w -> const_rhs w -> const_rhs w'.
Proof. unfold const_rhs, pdata. intros E P. injection P as _ _ _ -> -> ->. rewrite E. auto. Qed.

Lemma iterates_const sig w k pp w' : usable L w -> iterates sig w k pp w' -> const_rhs w'.
Proof.
  intros US. induction 1 as [c w1 Ec Ei|k pp w1 pp' w2 w3 w4 HI IH E1 E2 E3].
  - destruct US as [(lpv & soc & ex & WS) BO].
    destruct (wp_elim _ _ (scale_loop_full (ly_n L) (fun v e => v / e)%fl (w_c w) (w_xequil w) (fun d => full d (ly_n L)) (ws_c _ _ _ _ _ WS) (ws_xe _ _ _ _ _ WS) (fun d _ F => F)))
      as (c' & Ec' & Fc). unfold scaled_c in Ec. rewrite (ws_n _ _ _ _ _ WS) in Ec. rewrite Ec in Ec'. injection Ec' as <-.
    assert (WSc : ws L lpv soc ex (set_w_c w c)) by (clear - WS Fc; destruct WS; constructor; wcbn; assumption).
    apply (init_const _ _ _ _ _ WSc Ei).
  - destruct (iterates_ok L H1 _ _ _ _ _ US HI) as (LO & Hk & NB).
    destruct (pass_ok L sig w k pp w1 pp' w2 w3 LO NB E1 E2) as (lpv & soc & ex & WS & PT & RE & BO & WB & RH & SG & EC & EK & EP).
    destruct (iter_step_trace L H1 lpv soc ex w3 w4 WS PT RE RH E3) as (t & T).
    apply iter_exit_frame in E1 as (P1 & _). apply iter_save_frame in E2 as (P2 & _).
    pose proof (tr_prob _ _ _ _ T) as P3. pose proof (tr_core _ _ _ _ T) as Q. unfold kcore in Q. injection Q. intros X _ _ _ _ _ _.
    apply (const_kept w1); auto.
    + rewrite X, (tr_rhs1 _ _ _ _ T), EK. reflexivity.
    + rewrite (prob_pdata _ _ P3), (prob_pdata _ _ P2), (prob_pdata _ _ P1). reflexivity.
Qed.
End DirI.
