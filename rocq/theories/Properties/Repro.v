(* C44: what solve returns is determined by the problem and the settings the
   workspace holds when it is called. *)
From Coq Require Import List Arith Bool ZArith Reals QArith Lia Lra.
From Verif Require Import Base Num.
From Verif.Model Require Import Spla Splamm Types Consts Expcone Cone Ldl Kkt Equil Preproc Ecos.
From Verif.Spec Require Import Matrix Fill KktSpec KktMatrix Shape SetupSpec UpdateSpec ReproSpec.
From Verif.Proofs Require Import SplaP LoopLib EquilP EquilX Work SetupP WorkUpd SafeLib SafeW SafeV SafeU ExitP UpdP Mono Mono2 Mono3 Mono4 Mono5 ReproPat ReproP.
From Verif.Properties Require Import Kkt Exit Solve Update.
From Verif.Examples Require Import RunF.
Import ListNotations.
Open Scope nat_scope.

Lemma setup_struc `{O : Ops} amd junk1 junk2 n m p l q e G1 A1 c1 h1 b1 G2 A2 c2 h2 b2 w1 w2 :
  valid_data n m p q G1 A1 c1 h1 b1 -> valid_data n m p q G2 A2 c2 h2 b2 -> same_pattern G1 G2 -> same_patternA A1 A2 ->
  ECOS_setup amd junk1 n m p l q e (data_of G1) (option_map data_of A1) c1 h1 b1 = Some (Some w1) ->
  ECOS_setup amd junk2 n m p l q e (data_of G2) (option_map data_of A2) c2 h2 b2 = Some (Some w2) -> struc w1 w2.
Proof.
  intros V1 V2 PG PA E1 E2. destruct (setup_pat amd junk1 junk2 n m p l q e _ _ _ _ _ _ _ _ _ _ w1 V1 V2 PG PA E1) as (w & E & X).
  rewrite E2 in E. injection E as <-. destruct X as (X1 & X2 & X3 & X4 & X5 & X6 & X7 & X8 & X9 & X10 & X11 & X12 & X13). constructor; auto.
Qed.

(* Two workspaces are set up with the same sizes, cones and ordering from matrices
   with the same pattern, in memory with any two contents; their values may differ.
   Each then goes through a history of its own.  If in the end both hold the same
   problem and the same settings, solve answers the same, to the last bit, in every
   arithmetic: the same exit flag, the same x, y, z, s, the same iteration count and
   the same figures. *)
Theorem C44_reproducible : forall `{O : Ops} amd junk1 junk2 n m p l q e G1 A1 c1 h1 b1 G2 A2 c2 h2 b2 w1 w2 u1 u2 sig t,
  valid_data n m p q G1 A1 c1 h1 b1 -> valid_data n m p q G2 A2 c2 h2 b2 -> same_pattern G1 G2 -> same_patternA A1 A2 -> amd_ok amd ->
  ECOS_setup amd junk1 n m p l q e (data_of G1) (option_map data_of A1) c1 h1 b1 = Some (Some w1) ->
  ECOS_setup amd junk2 n m p l q e (data_of G2) (option_map data_of A2) c2 h2 b2 = Some (Some w2) ->
  since w1 u1 -> since w2 u2 -> same_problem u1 u2 -> ~ abandoned_in_first_pass sig u1 ->
  same_result sig t u1 u2.
Proof.
  intros O amd junk1 junk2 n m p l q e G1 A1 c1 h1 b1 G2 A2 c2 h2 b2 w1 w2 u1 u2 sig t V1 V2 PG PA AM E1 E2 S1 S2 SP NA.
  pose proof (setup_struc _ _ _ _ _ _ _ _ _ _ _ _ _ _ _ _ _ _ _ _ _ V1 V2 PG PA E1 E2) as ST.
  assert (SE1 : session w1) by (eapply ss_setup; [exact V1|exact AM|exact E1]). assert (SE2 : session w2) by (eapply ss_setup; [exact V2|exact AM|exact E2]).
  pose proof (since_struc _ _ SE1 (session_sized _ SE1) S1) as [T1 _]. pose proof (since_struc _ _ SE2 (session_sized _ SE2) S2) as [T2 _].
  apply repro_struc; auto; [exact (since_session _ _ SE1 S1)|exact (since_session _ _ SE2 S2)|].
  eapply struc_trans; [apply struc_sym; exact T1|]. eapply struc_trans; [exact ST|exact T2].
Qed.
Print Assumptions C44_reproducible.

(* In particular the contents of the memory setup got do not matter: setup succeeds
   alike, and the solves agree. *)
Theorem C44_memory : forall `{O : Ops} amd junk1 junk2 n m p l q e G A c h b w1 sig t,
  valid_data n m p q G A c h b -> amd_ok amd ->
  ECOS_setup amd junk1 n m p l q e (data_of G) (option_map data_of A) c h b = Some (Some w1) ->
  exists w2, ECOS_setup amd junk2 n m p l q e (data_of G) (option_map data_of A) c h b = Some (Some w2) /\ same_problem w1 w2 /\
    (~ abandoned_in_first_pass sig w1 -> same_result sig t w1 w2).
Proof.
  intros O amd junk1 junk2 n m p l q e G A c h b w1 sig t V AM E1. destruct (setup_sized _ _ _ _ _ _ _ _ _ _ _ _ _ _ E1) as (_ & _ & _ & X).
  destruct (X junk2) as (w2 & E2 & SM & Ec). exists w2. split; [exact E2|].
  assert (SP : same_problem w1 w2) by (destruct SM; constructor; congruence). split; [exact SP|]. intros NA.
  exact (C44_reproducible amd junk1 junk2 n m p l q e G A c h b G A c h b w1 w2 w1 w2 sig t V V (pat_refl _) (patA_refl _) AM E1 E2 (si_here _) (si_here _) SP NA).
Qed.
Print Assumptions C44_memory.

(* Whatever was done with a workspace, after updateData it solves like a workspace
   freshly set up with the new values: setup with these succeeds, and with the same
   settings on both sides the answers are the same. *)
Theorem C44_update : forall `{O : Ops} amd junk1 junk2 n m p l q e G A c h b w1 u1 ap Gpr Apr c' h' b' u2 old,
  valid_data n m p q G A c h b -> amd_ok amd ->
  ECOS_setup amd junk1 n m p l q e (data_of G) (option_map data_of A) c h b = Some (Some w1) ->
  since w1 u1 -> new_values u1 Gpr Apr c' h' b' -> ECOS_updateData u1 ap Gpr Apr c' h' b' = Some (u2, old) ->
  exists w2, ECOS_setup amd junk2 n m p l q e (data_of (new_G u1 Gpr)) (option_map data_of (new_A (w_A u1) Apr)) c' h' (new_b u1 b') = Some (Some w2) /\
    forall g sig t, ~ abandoned_in_first_pass sig (set_w_stgs u2 g) -> same_result sig t (set_w_stgs u2 g) (set_w_stgs w2 g).
Proof.
  intros O amd junk1 junk2 n m p l q e G A c h b w1 u1 ap Gpr Apr c' h' b' u2 old V AM E S NV EU.
  assert (SE : session w1) by (eapply ss_setup; [exact V|exact AM|exact E]). pose proof (since_session _ _ SE S) as SU.
  destruct (setup_inv _ _ _ _ _ _ _ _ _ _ _ _ _ _ V AM E) as (L & En & Ep & El & Eq & Ee & Em & (WS & _) & PG & PA).
  pose proof (since_struc _ _ SE (session_sized _ SE) S) as [[T1 T2 T3 T4 T5 T6 T7 T8 T9 T10 T11 T12 T13] _].
  destruct (session_layout _ SU) as (L' & H1 & (lpv' & soc' & ex' & WS') & _).
  pose proof (fresh_valid L' lpv' soc' ex' u1 Gpr Apr c' h' b' H1 WS' NV) as V'.
  assert (D : w_n u1 = n /\ w_m u1 = m /\ w_p u1 = p /\ lpp (w_C u1) = l /\ map so_p (co_soc (w_C u1)) = q /\ nexc (w_C u1) = e).
  { unfold symC in T7. injection T7 as Q1 Q2 Q3 Q4 Q5. destruct (ws_C _ _ _ _ _ WS) as [_ C1 C2 C3].
    assert (QQ : map so_p (co_soc (w_C u1)) = map so_p (co_soc (w_C w1))).
    { rewrite <- (map_map (fun c => (so_p c, so_Didx c)) fst (co_soc (w_C u1))) at 1. rewrite Q3, map_map. reflexivity. }
    assert (QE : nexc (w_C u1) = nexc (w_C w1)). { unfold nexc. rewrite <- (map_length ex_colstart), Q4, map_length. reflexivity. }
    rewrite T1, T2, T3, QQ, QE, (ws_n _ _ _ _ _ WS), (ws_m _ _ _ _ _ WS), (ws_p _ _ _ _ _ WS).
    csplit; auto; try congruence. unfold lpp in *. congruence. }
  destruct D as (D1 & D2 & D3 & D4 & D5 & D6). rewrite D1, D2, D3, D5 in V'.
  assert (PG' : same_pattern G (new_G u1 Gpr)). { eapply pat_trans; [exact PG|]. eapply pat_trans; [exact T10|]. repeat split. }
  assert (PA' : same_patternA A (new_A (w_A u1) Apr)).
  { eapply patA_trans; [exact PA|]. eapply patA_trans; [exact T9|]. unfold new_A. destruct NV as (_ & NA & _). destruct (w_A u1); cbn; auto. destruct NA as (pr & -> & _). repeat split. }
  destruct (setup_pat amd junk1 junk2 n m p l q e _ _ _ _ _ _ _ _ _ _ w1 V V' PG' PA' E) as (w2 & E2 & _). exists w2. split; [exact E2|].
  intros g sig t NA.
  eapply (C44_reproducible amd junk1 junk2 n m p l q e G A c h b (new_G u1 Gpr) (new_A (w_A u1) Apr) c' h' (new_b u1 b') w1 w2); eauto.
  - apply si_settings. eapply si_update; eauto.
  - apply si_settings. apply si_here.
  - assert (HA : ap_G ap = true -> w_A u1 <> None) by (intros; eapply updateData_needs; eauto).
    destruct (C07_update u1 ap Gpr Apr c' h' b' SU NV HA) as (u3 & old3 & E3 & _ & F & _). rewrite EU in E3. injection E3 as <- <-.
    destruct (F amd junk2 w2) as (F1 & F2 & F3 & F4 & F5 & F6 & F7 & F8); [unfold fresh; rewrite D1, D2, D3, D4, D5, D6; exact E2|].
    constructor; wcbn; auto.
Qed.
Print Assumptions C44_update.

(* -------------------------------------------------- solving twice in a row *)

Section Real.
Open Scope R_scope.
Existing Instance ROps.

Lemma nn_sqv_R v : 0 <= v -> 0 < @sqv ROps v.
Proof.
  intros Hr. unfold sqv. change (@flt ROps (@fabs ROps v) (@fconst ROps (1 # 1000000)%Q)) with (Rltb (Rabs v) (Q2R (1 # 1000000))).
  unfold Rltb. destruct (Rlt_dec _ _) as [L|L]; [change (@f1 ROps) with (Q2R 1); unfold Q2R; cbn; lra|].
  cbn. apply sqrt_lt_R0. rewrite Rabs_pos_eq in L by auto. unfold Q2R in L. cbn in L. lra.
Qed.
Lemma equil_pos C A G b h xe Ae Ge A' G' b' h' xe' Ae' Ge' : wf_sp G -> wfA A (sp_n G) -> sp_m G = @msize ROps C ->
  (sp_n G <= length xe)%nat -> (rowsA A <= length Ae)%nat -> (sp_m G <= length Ge)%nat -> full b (rowsA A) -> full h (sp_m G) ->
  @set_equilibration ROps C A G b h (xe, Ae, Ge) = Some (A', G', b', h', (xe', Ae', Ge')) ->
  forall i, (i < sp_n G)%nat -> exists v, get xe' i = Some v /\ 0 < v.
Proof.
  intros WG WA HM H1 H2 H3 FB FH E.
  destruct (@set_equilibration_eq ROps (fun v => 0 <= v) (fun v => 0 < v) (fun _ => True)) with (C := C) (A := A) (G := G) (b := b) (h := h) (xe := xe) (Ae := Ae) (Ge := Ge) (bf := gd 0 b) (hf := gd 0 h)
    as (A2 & G2 & b2 & h2 & xe2 & Ae2 & Ge2 & x1 & x2 & x3 & a1 & a2 & a3 & g1 & g2 & g3 & ES & Lx & La & Lg & SA & SG & Vx & _ & _ & _ & _ & Px & _); auto.
  - intros v e _ He. unfold fmax. cbn. destruct (Rltb _ _); [auto|apply Rabs_pos].
  - change (@f0 ROps) with (Q2R 0). unfold Q2R. cbn. lra.
  - intros a c0 Ha Hc. cbn. lra.
  - apply nn_sqv_R.
  - intros ? ? ? ?; exact I.
  - destruct A; cbn; auto. intros ? ? ? ?; exact I.
  - apply full_vec; auto.
  - apply full_vec; auto.
  - rewrite E in ES. injection ES as <- <- <- <- <- <- <-. intros i Hi. exists (@ruiz_prod ROps x1 x2 x3 i). split; [apply Vx; auto|].
    destruct (Px i Hi) as (P1 & P2 & P3).
    unfold ruiz_prod. assert (F1 : 0 < @f1 ROps) by (change (@f1 ROps) with (Q2R 1); unfold Q2R; cbn; lra).
    exact (Rmult_lt_0_compat _ _ (Rmult_lt_0_compat _ _ (Rmult_lt_0_compat _ _ F1 P1) P2) P3).
Qed.

Lemma session_pos (w : pwork R) : @session ROps w -> forall i, (i < w_n w)%nat -> exists v, get (w_xequil w) i = Some v /\ 0 < v.
Proof.
  induction 1 as [amd junk n m p l q e G0 A0 c h b w V AM E|w sig t code t' w' S IH E|w g S IH|w idx v w' S IH Hi E|w idx v w' S IH Hi E|w ap Gpr Apr c h b w' old S IH NV E].
  - destruct (@setup_inv ROps _ _ _ _ _ _ _ _ _ _ _ _ _ _ V AM E) as (L & En & Ep & El & Eq & Ee & Em & (WS & _) & _).
    destruct V as [V1 V2 V3 V4 V5 V6 V7 V8 V9]. destruct (@setup_data ROps _ _ _ _ _ _ _ _ _ _ _ _ _ _ V1 V2 V3 V5 E) as [D _].
    assert (RA : rowsA A0 = p /\ wfA A0 n) by (unfold okA in V5; destruct A0; cbn; intuition).
    destruct RA as [RA WA]. change (@F ROps) with R in *. subst n m. rewrite <- RA in V9.
    assert (Enw : w_n w = sp_n G0) by (rewrite <- En; exact (ws_n _ _ _ _ _ WS)). intros i Hi. rewrite Enw in Hi. revert i Hi.
    eapply equil_pos; [exact V1|exact WA| | | | |exact V9|exact V8|exact D]; rewrite ?alloc_length; auto; [|rewrite RA; auto].
    transitivity (ly_m L); [symmetry; exact Em|]. unfold ly_m. rewrite El, Eq, Ee, (@new_msize ROps). lia.
  - destruct (@session_layout ROps _ S) as (L & H1 & US). pose proof (@solve_same ROps L sig t w code t' w' H1 (@session_sized ROps _ S) US E) as SM.
    pose proof (sm_n _ _ SM) as X1. pose proof (sm_xe _ _ SM) as X2. change (@F ROps) with R in *. rewrite X1, X2. exact IH.
  - exact IH.
  - unfold ecos_updateDataEntry_h in E. binv E. injection E as <-. exact IH.
  - unfold ecos_updateDataEntry_c in E. binv E. injection E as <-. exact IH.
  - destruct (@update_struc ROps _ _ _ _ _ _ _ _ _ S NV E) as (ST & _ & _ & _ & b' & Hb & Hb' & D).
    destruct (@session_layout ROps _ S) as (L & H1 & (lpv & soc & ex & WS) & _).
    pose proof (@fresh_valid ROps L lpv soc ex w Gpr Apr c h b H1 WS NV) as [V1 V2 V3 V4 V5 V6 V7 V8 V9].
    assert (EB : b' = @new_b ROps w b). { unfold new_b. destruct (w_A w); [apply Hb; discriminate|apply Hb'; auto]. } subst b'.
    assert (RA : rowsA (@new_A ROps (w_A w) Apr) = w_p w /\ wfA (@new_A ROps (w_A w) Apr) (w_n w)) by (unfold okA in V5; destruct (@new_A ROps (w_A w) Apr); cbn; intuition).
    destruct RA as [RA WA]. change (@F ROps) with R in *. rewrite <- RA in V9. rewrite <- V2 in WA. rewrite <- V3 in V8.
    pose proof (st_n _ _ ST) as Enw. change (@F ROps) with R in *. intros i Hi. rewrite Enw, <- V2 in Hi. revert i Hi.
    eapply equil_pos; [exact V1|exact WA| | | | |exact V9|exact V8|exact D]; [transitivity (w_m w); [exact V3|]|transitivity (w_n w); [apply Nat.eq_le_incl; exact V2|]|transitivity (w_p w); [apply Nat.eq_le_incl; exact RA|]|transitivity (w_m w); [apply Nat.eq_le_incl; exact V3|]].
    + rewrite (ws_m _ _ _ _ _ WS : w_m w = ly_m L). destruct (ws_C _ _ _ _ _ WS) as [_ E1 E2 E3]. unfold msize, hsize, ly_m. rewrite <- E1, <- E2, <- E3. reflexivity.
    + apply Nat.eq_le_incl. exact (eq_trans (ws_n _ _ _ _ _ WS) (eq_sym (ws_lxe _ _ _ _ _ WS))).
    + apply Nat.eq_le_incl. exact (eq_trans (ws_p _ _ _ _ _ WS) (eq_sym (ws_lAe _ _ _ _ _ WS))).
    + apply Nat.eq_le_incl. exact (eq_trans (ws_m _ _ _ _ _ WS) (eq_sym (ws_lGe _ _ _ _ _ WS))).
Qed.

(* In exact arithmetic a solve that ends normally leaves the problem as it was, so
   the next solve of the same workspace answers what the first one would have
   answered in its place: in particular, with the same interrupts, what it did answer. *)
Theorem C44_again : forall (w w' : pwork R) sig1 t1 code t1' sig t,
  @session ROps w -> @ECOS_solve ROps sig1 t1 w = Some (code, t1', w') -> (0 <= sg_maxit (w_stgs w))%Z -> code <> ECOS_OUTCONE -> code <> ECOS_FATAL ->
  same_problem w w' /\ (~ @abandoned_in_first_pass ROps sig w -> @same_result ROps sig t w w').
Proof.
  intros w w' sig1 t1 code t1' sig t S E MI N1 N2. destruct (@session_layout ROps _ S) as (L & H1 & US).
  pose proof (@solve_same ROps L sig1 t1 w code t1' w' H1 (@session_sized ROps _ S) US E) as SM.
  assert (EC : w_c w' = w_c w).
  { destruct (@solve_c ROps sig1 t1 w code t1' w' E MI N1 N2) as (Cl & Cc & Co). apply arr_ext; [exact Cl|]. intros i. destruct (Nat.lt_ge_cases i (w_n w)) as [Hi|Hi]; [|apply Co; exact Hi].
    destruct (Cc i Hi) as (v & e & G1 & G2 & G3). destruct (session_pos _ S i Hi) as (e1 & G7 & Pos). change (@F ROps) with R in *. rewrite G3, G1. rewrite G2 in G7. injection G7 as <-.
    f_equal. cbn. field. lra. }
  pose proof (@same_prob ROps w w' SM EC) as SP. split; [exact SP|]. intros NA.
  apply (@repro_struc ROps); auto; [eapply (@ss_solve ROps); eauto|apply (@same_struc ROps); exact SM].
Qed.
Print Assumptions C44_again.
End Real.

(* The hypotheses are met: a mixed problem (a linear row, a second-order cone of
   size 3, an exponential cone, an equality), with no interrupt before the first
   pass, whatever the memory held and whatever is done with the workspace. *)
Theorem C44_example : forall junk1 junk2 : pwork R, exists w1 w2 : pwork R,
  valid_data 2 7 1 [3] exG (Some exA) (arr_of [1; 1]%R) (arr_of [1; 1; 1; 1; 1; 1; 1]%R) (arr_of [1%R]) /\ amd_ok natural /\
  @ECOS_setup ROps natural junk1 2 7 1 1 [3] 1 (data_of exG) (Some (data_of exA)) (arr_of [1; 1]%R) (arr_of [1; 1; 1; 1; 1; 1; 1]%R) (arr_of [1%R]) = Some (Some w1) /\
  @ECOS_setup ROps natural junk2 2 7 1 1 [3] 1 (data_of exG) (Some (data_of exA)) (arr_of [1; 1]%R) (arr_of [1; 1; 1; 1; 1; 1; 1]%R) (arr_of [1%R]) = Some (Some w2) /\
  @same_problem ROps w1 w2 /\ forall sig t, sig 0%Z = false -> ~ @abandoned_in_first_pass ROps sig w1 /\ @same_result ROps sig t w1 w2.
Proof.
  intros junk1 junk2. destruct (exG_setup junk1) as [w1 E1].
  destruct (@C44_memory ROps natural junk1 junk2 2 7 1 1 [3] 1 exG (Some exA) _ _ _ w1 (fun _ => false) (mkCtrlc None None) exG_valid natural_ok E1) as (w2 & E2 & SP & _).
  exists w1, w2. split; [exact exG_valid|]. split; [exact natural_ok|]. split; [exact E1|]. split; [exact E2|]. split; [exact SP|].
  intros sig t Hs. assert (NA : ~ @abandoned_in_first_pass ROps sig w1).
  { intros (_ & w & _ & _ & X).
    destruct (@setup_inv ROps _ _ _ _ _ _ _ _ _ _ _ _ _ _ exG_valid natural_ok E1) as (L & _ & _ & _ & _ & _ & _ & (_ & _ & SG) & _).
    rewrite Hs, SG in X. destruct X as [X|[X|X]]; discriminate. }
  split; [exact NA|].
  destruct (@C44_memory ROps natural junk1 junk2 2 7 1 1 [3] 1 exG (Some exA) _ _ _ w1 sig t exG_valid natural_ok E1) as (w3 & E3 & _ & X).
  rewrite E2 in E3. injection E3 as <-. auto.
Qed.

(* The exception is real: in binary64 two histories of one workspace, one with a
   full solve and one with a solve cut off after one iteration, end with the same
   problem and settings; with the iteration limit at 0 the next call is abandoned in
   its first pass and returns a different x after each. *)
Definition after (k : Z) (e : option (pwork SpecFloat.spec_float)) : option (pwork SpecFloat.spec_float) :=
  match e with
  | Some w => match @ECOS_solve FOps quiet_ user_ (set_maxit k w) with Some (_, _, w') => Some (set_maxit 0 w') | None => None end
  | None => None
  end.

Lemma after_since k w u : after k (Some w) = Some u -> @since FOps w u.
Proof.
  intros H. cbn [after] in H. destruct (@ECOS_solve FOps quiet_ user_ (set_maxit k w)) as [[[code t'] w']|] eqn:ES; [|discriminate].
  injection H as <-. unfold set_maxit at 1. apply (@si_settings FOps). eapply (@si_solve FOps); [|exact ES]. apply (@si_settings FOps). apply (@si_here FOps).
Qed.

Definition differ (e : option (pwork SpecFloat.spec_float)) : Prop :=
  match e, after 100 e, after 1 e with
  | Some w, Some u1, Some u2 =>
      (w_A u2 = w_A u1 /\ w_G u2 = w_G u1 /\ w_c u2 = w_c u1 /\ w_h u2 = w_h u1 /\ w_b u2 = w_b u1 /\
      w_xequil u2 = w_xequil u1 /\ w_Aequil u2 = w_Aequil u1 /\ w_Gequil u2 = w_Gequil u1 /\ w_stgs u2 = w_stgs u1) /\
      match @ECOS_solve FOps quiet_ user_ u1, @ECOS_solve FOps quiet_ user_ u2 with Some r1, Some r2 => w_x (snd r1) <> w_x (snd r2) | _, _ => False end
  | _, _, _ => False end.

Lemma differ_ex e : differ e -> exists w u1 u2 r1 r2,
  e = Some w /\ @since FOps w u1 /\ @since FOps w u2 /\ @same_problem FOps u1 u2 /\
  @ECOS_solve FOps quiet_ user_ u1 = Some r1 /\ @ECOS_solve FOps quiet_ user_ u2 = Some r2 /\ w_x (snd r1) <> w_x (snd r2).
Proof.
  unfold differ. destruct e as [w|]; [|intros []].
  destruct (after 100 (Some w)) as [u1|] eqn:E1; [|intros []]. destruct (after 1 (Some w)) as [u2|] eqn:E2; [|intros []].
  intros [(C1 & C2 & C3 & C4 & C5 & C6 & C7 & C8 & C9) D].
  destruct (@ECOS_solve FOps quiet_ user_ u1) as [r1|] eqn:S1; [|destruct D]. destruct (@ECOS_solve FOps quiet_ user_ u2) as [r2|] eqn:S2; [|destruct D].
  exists w, u1, u2, r1, r2. split; [reflexivity|]. split; [exact (after_since 100 w u1 E1)|]. split; [exact (after_since 1 w u2 E2)|].
  split; [constructor; assumption|]. split; [exact S1|]. split; [exact S2|exact D].
Qed.

Theorem C44_exception : exists w u1 u2 r1 r2,
  ex_soc = Some w /\ @since FOps w u1 /\ @since FOps w u2 /\ @same_problem FOps u1 u2 /\
  @ECOS_solve FOps quiet_ user_ u1 = Some r1 /\ @ECOS_solve FOps quiet_ user_ u2 = Some r2 /\ w_x (snd r1) <> w_x (snd r2).
Proof. apply differ_ex. vm_compute. repeat split. discriminate. Qed.
Print Assumptions C44_exception.
