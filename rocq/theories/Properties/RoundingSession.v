(* C50, continued: any solve in the life of a workspace.  Whatever was solved,
   updated or changed before, the exit codes are true of the problem made of the
   arrays last given, with the cost the caller's array holds when the call begins
   (for what solving does to that array, see C49_cost). *)
From Coq Require Import List Arith Bool ZArith QArith Reals Lia Lra Psatz.
From Flocq Require Core BinarySingleNaN.
From Verif Require Import Base Num NumX.
From Verif.Model Require Import Spla Types Consts Cone Equil Ecos Preproc.
From Verif.Spec Require Import Matrix Conic Jordan Shape SetupSpec UpdateSpec Certificate Scaling User Rounding Nearby.
From Verif.Proofs Require Import SplaP LoopLib ConeP Layout PhiP Work SetupP WorkUpd SafeLib SafeU UpdP RoundB.
From Verif.Proofs Require EquilX.
From Verif.Properties Require Import Kkt Exit Solve Update Certificate Rounding RoundingInf RoundingData RoundingUser.
Import ListNotations.
Open Scope R_scope.

Section Any.
Context {O : Ops}.
Variables (n m p l : nat) (q : list nat) (e : nat).

(* w is a workspace for n variables, m conic rows (l linear ones, second-order
   cones of sizes q, e exponential cones) and p equalities.  The arrays the caller
   has given it last are MG, MA, c, h and b, in the caller's units; c is read and
   written by solve in place. *)
Inductive loaded : pwork F -> option (spmat F) -> spmat F -> arr F -> arr F -> arr F -> Prop :=
| ld_setup amd junk MA MG c h b w : valid_data n m p q MG MA c h b -> amd_ok amd ->
    ECOS_setup amd junk n m p l q e (data_of MG) (option_map data_of MA) c h b = Some (Some w) -> loaded w MA MG c h b
| ld_settings w MA MG c h b g : loaded w MA MG c h b -> loaded (set_w_stgs w g) MA MG c h b
| ld_solve w MA MG c h b sig t code t' w' : loaded w MA MG c h b -> (0 <= sg_maxit (w_stgs w))%Z ->
    ECOS_solve sig t w = Some (code, t', w') -> loaded w' MA MG (w_c w') h b
| ld_c w MA MG c h b idx v c2 w' : loaded w MA MG c h b -> (idx < n)%nat ->
    ecos_updateDataEntry_c w idx v = Some w' -> set c idx v = Some c2 -> loaded w' MA MG c2 h b
| ld_h w MA MG c h b idx v h2 w' : loaded w MA MG c h b -> (idx < m)%nat ->
    ecos_updateDataEntry_h w idx v = Some w' -> set h idx v = Some h2 -> loaded w' MA MG c h2 b
| ld_update w MA MG c h b ap Gpr Apr c2 h2 b2 w' old : loaded w MA MG c h b -> new_values w Gpr Apr c2 h2 b2 ->
    ECOS_updateData w ap Gpr Apr c2 h2 b2 = Some (w', old) -> loaded w' (new_A (w_A w) Apr) (new_G w Gpr) c2 h2 (new_b w b2).

Definition same_data (w w' : pwork F) : Prop :=
  w_A w' = w_A w /\ w_G w' = w_G w /\ w_c w' = w_c w /\ w_b w' = w_b w /\ w_h w' = w_h w /\
  w_n w' = w_n w /\ w_m w' = w_m w /\ w_p w' = w_p w /\ w_xequil w' = w_xequil w /\ w_Aequil w' = w_Aequil w /\ w_Gequil w' = w_Gequil w.

Definition id_amd : amd_oracle := fun n _ _ => Some (arr_of (seq 0 n)).
Lemma id_amd_ok : amd_ok id_amd.
Proof.
  intros N jc ir Pm Q. injection Q as <-. exists (fun i => i). split.
  - split; auto.
  - intros i Hi. unfold arr_of, get. rewrite nth_error_map, nth_error_nth' with (d := 0%nat) by (rewrite seq_length; auto).
    cbn. rewrite seq_nth by auto. auto.
Qed.

Lemma setup_exists junk MA MG c h b : valid_data n m p q MG MA c h b -> (l + list_sum q + 3 * e)%nat = m ->
  exists w, ECOS_setup id_amd junk n m p l q e (data_of MG) (option_map data_of MA) c h b = Some (Some w) /\ w_n w = n /\ w_m w = m /\ w_p w = p.
Proof.
  intros V Em. destruct (C05_accepts id_amd junk n m p l q e MG MA c h b V id_amd_ok Em) as ([w|] & E & M).
  - exists w. destruct M as (M1 & M2 & M3 & _). auto.
  - destruct M as (jc & ir & M). discriminate.
Qed.

(* the data of w are those that setup computes from the arrays *)
Definition eq_data (w : pwork F) MA MG (c h b : arr F) : Prop :=
  set_equilibration (new_cone l q e) MA MG b h (alloc n, alloc p, alloc m) = Some (w_A w, w_G w, w_b w, w_h w, (w_xequil w, w_Aequil w, w_Gequil w)) /\
  w_c w = c /\ w_n w = n /\ w_m w = m /\ w_p w = p.

Lemma fresh_of w MA MG c h b : valid_data n m p q MG MA c h b -> (l + list_sum q + 3 * e)%nat = m -> eq_data w MA MG c h b ->
  exists w0, ECOS_setup id_amd w n m p l q e (data_of MG) (option_map data_of MA) c h b = Some (Some w0) /\ same_data w0 w.
Proof.
  intros V Em (D1 & D2 & D3 & D4 & D5). destruct (setup_exists w MA MG c h b V Em) as (w0 & E & M1 & M2 & M3). exists w0. split; [exact E|].
  apply setup_data in E; try apply V. destruct E as [E Ec]. rewrite E in D1. injection D1 as Q1 Q2 Q3 Q4 Q5 Q6 Q7. unfold same_data. csplit; congruence.
Qed.

Definition laid (w : pwork F) : Prop :=
  exists L, (forall d, In d (ly_q L) -> (1 <= d)%nat) /\ usable L w /\ ly_l L = l /\ ly_q L = q /\ ly_e L = e.

Lemma loaded_inv w MA MG c h b : loaded w MA MG c h b ->
  session w /\ valid_data n m p q MG MA c h b /\ (l + list_sum q + 3 * e)%nat = m /\ laid w /\ eq_data w MA MG c h b.
Proof.
  induction 1 as [amd junk MA MG c h b w V AM E|w MA MG c h b g LD IH|w MA MG c h b sig t code t' w' LD IH M E|w MA MG c h b idx v c2 w' LD IH Hi E ES|w MA MG c h b idx v h2 w' LD IH Hi E ES|w MA MG c h b ap Gpr Apr c2 h2 b2 w' old LD IH NV E].
  - split; [eapply ss_setup; eauto|]. split; [exact V|].
    assert (Em: (l + list_sum q + 3 * e)%nat = m). { destruct (Nat.eq_dec (l + list_sum q + 3 * e) m) as [Em|Ne]; auto. rewrite C05_refuses in E by auto. discriminate. }
    split; [exact Em|]. destruct (setup_inv _ _ _ _ _ _ _ _ _ _ _ _ _ _ V AM E) as (L & Ln & Lp & Ll & Lq & Le & Lm & (WS & NB & _) & _). split.
    + exists L. split; [rewrite Lq; apply (vd_q _ _ _ _ _ _ _ _ _ V)|]. split; [|auto]. split; [eexists _, _, _; eauto|]. intros HB. congruence.
    + apply setup_data in E; try apply V. destruct E as [E Ec]. unfold eq_data. rewrite (ws_n _ _ _ _ _ WS), (ws_m _ _ _ _ _ WS), (ws_p _ _ _ _ _ WS). csplit; auto.
  - destruct IH as (SE & V & Em & (L & H1 & ((lpv & soc & ex & WS) & BO) & LL) & ED). split; [apply ss_settings; auto|]. split; [exact V|]. split; [exact Em|]. split; [|exact ED].
    exists L. split; auto. split; [|exact LL]. split; [|exact BO]. exists lpv, soc, ex. destruct WS; constructor; wcbn; assumption.
  - destruct IH as (SE & V & Em & (L & H1 & US & LL) & (D1 & D2 & D3 & D4 & D5)). split; [eapply ss_solve; eauto|].
    destruct (solve_total L sig t w H1 US (ECOS_solve_needs _ _ _ _ E)) as (c1 & t1 & w1 & E1 & US1 & _).
    assert (W1: w1 = w') by congruence. subst w1.
    destruct (C26_data_untouched _ _ _ _ _ _ E M) as (A1 & A2 & A3 & A4 & A5 & A6 & A7 & A8 & A9 & A10 & _).
    assert (FC: full (w_c w') n). { destruct US1 as ((lpv & soc & ex & WS) & _). pose proof (ws_c _ _ _ _ _ WS) as Q. rewrite <- (ws_n _ _ _ _ _ WS), A5, D3 in Q. exact Q. }
    split; [destruct V; constructor; assumption|]. split; [exact Em|]. split; [exists L; auto|].
    unfold eq_data. rewrite A1, A2, A3, A4, A5, A6, A7, A8, A9, A10. csplit; auto.
  - destruct IH as (SE & V & Em & (L & H1 & ((lpv & soc & ex & WS) & BO) & LL) & (D1 & D2 & D3 & D4 & D5)).
    assert (SE': session w') by (eapply ss_c; eauto; lia). split; [exact SE'|].
    unfold ecos_updateDataEntry_c in E. rewrite D2, ES in E. cbn [bind] in E. injection E as <-.
    assert (FC: full c2 n). { apply set_inv in ES as (_ & _ & G). exact (full_set _ _ _ _ _ (vd_c _ _ _ _ _ _ _ _ _ V) G). }
    split; [destruct V; constructor; assumption|]. split; [exact Em|]. split; [|unfold eq_data; wcbn; csplit; auto].
    exists L. split; auto. split; [|exact LL]. split; [|exact BO]. exists lpv, soc, ex.
    rewrite <- D3, (ws_n _ _ _ _ _ WS) in FC. clear - WS FC. destruct WS; constructor; wcbn; assumption.
  - destruct IH as (SE & V & Em & (L & H1 & ((lpv & soc & ex & WS) & BO) & LL) & ED). pose proof ED as (D1 & D2 & D3 & D4 & D5).
    assert (SE': session w') by (eapply ss_h; eauto; lia). split; [exact SE'|].
    assert (FH: full h2 m). { apply set_inv in ES as (_ & _ & G). exact (full_set _ _ _ _ _ (vd_h _ _ _ _ _ _ _ _ _ V) G). }
    assert (V2: valid_data n m p q MG MA c h2 b) by (destruct V; constructor; assumption).
    split; [exact V2|]. split; [exact Em|].
    destruct (fresh_of _ _ _ _ _ _ V Em ED) as (w0 & E0 & S1 & S2 & S3 & S4 & S5 & S6 & S7 & S8 & S9 & S10 & S11).
    destruct (setup_exists w MA MG c h2 b V2 Em) as (w2 & E2 & M1 & M2 & M3).
    destruct (C39_entry_h _ _ _ _ _ _ _ _ _ _ _ _ _ _ _ _ _ _ _ V id_amd_ok Hi E0 ES E2) as (w3 & E3 & EW3 & B1 & B2 & B3 & B4 & B5 & B6 & B7).
    subst w3. unfold ecos_updateDataEntry_h in E, E3. rewrite S11, S5 in E.
    destruct (get (w_Gequil w0) idx) as [g|]; [|discriminate]. cbn [bind] in E, E3.
    destruct (set (w_h w0) idx (v / g)%fl) as [hh|] eqn:EG; [|discriminate]. cbn [bind] in E, E3. injection E as <-. injection E3 as E3.
    subst hh.
    repeat match goal with K : _ (set_w_h w0 _) = _ |- _ => wcbn in K end.
    split.
    + exists L. split; auto. split; [|exact LL]. split; [|exact BO]. exists lpv, soc, ex.
      apply set_inv in EG as (_ & _ & G). pose proof (ws_h _ _ _ _ _ WS) as F0. rewrite S5 in F0. pose proof (full_set _ _ _ _ _ F0 G) as FG.
      clear - WS FG. destruct WS; constructor; wcbn; assumption.
    + apply setup_data in E2; try apply V. destruct E2 as [E2 Ec2]. unfold eq_data. wcbn. rewrite S1, S2, S4, S9, S10, S11, B1, B2, B4, B5, B6, B7. csplit; auto.
  - destruct IH as (SE & V & Em & (L & H1 & ((lpv & soc & ex & WS) & BO) & (L1 & L2 & L3)) & (D1 & D2 & D3 & D4 & D5)).
    destruct (C07_update w ap Gpr Apr c2 h2 b2 SE NV (updateData_needs _ _ _ _ _ _ _ _ E)) as (w1 & old1 & E1 & SE1 & FR & _ & N1 & N2 & N3 & _).
    rewrite E in E1. injection E1 as <- <-. split; [exact SE1|].
    pose proof (fresh_valid L lpv soc ex w Gpr Apr c2 h2 b2 H1 WS NV) as V2. pose proof (ws_C _ _ _ _ _ WS) as [_ C1 C2 C3].
    rewrite C2, L2, D3, D4, D5 in V2. split; [exact V2|]. split; [exact Em|]. split.
    + pose proof (updateData_wp L lpv soc ex w ap Gpr Apr c2 h2 b2 (fun r => laid (fst r)) WS NV (updateData_needs _ _ _ _ _ _ _ _ E)) as X.
      unfold wp in X. rewrite E in X. cbn [fst] in X. refine (X _). clear X. intros At Gt A' G' b' h' xe Ae Ge pr _ _ WS1. exists (relay L At Gt). split; [exact H1|]. split; [|auto].
      split; [eexists _, _, _; exact WS1|]. exact BO.
    + destruct (setup_exists w _ _ _ _ _ V2 Em) as (w2 & E2 & M1 & M2 & M3).
      assert (FE: fresh w id_amd w Gpr Apr c2 h2 b2 = Some (Some w2)). { unfold fresh. rewrite C1, C2, C3, L1, L2, L3, D3, D4, D5. exact E2. }
      destruct (FR _ _ _ FE) as (Q1 & Q2 & Q3 & Q4 & Q5 & Q6 & Q7 & Q8). apply setup_data in E2; try apply V2. destruct E2 as [E2 Ec2].
      unfold eq_data. rewrite Q1, Q2, Q3, Q4, Q5, Q6, Q7, Q8. csplit; auto; congruence.
Qed.

(* at any time the data in the workspace are those of a fresh setup *)
Lemma loaded_fresh w MA MG c h b : loaded w MA MG c h b ->
  exists w0, ECOS_setup id_amd w n m p l q e (data_of MG) (option_map data_of MA) c h b = Some (Some w0) /\ same_data w0 w.
Proof. intros LD. destruct (loaded_inv _ _ _ _ _ _ LD) as (_ & V & Em & _ & ED). apply fresh_of; assumption. Qed.

Lemma rheld_same (phi : F -> option R) w w' P A G : same_data w w' -> rheld phi w' P A G -> rheld phi w P A G.
Proof.
  intros (S1 & S2 & S3 & S4 & S5 & S6 & S7 & S8 & S9 & S10 & S11) [R1 R2 R3 R4 R5 R6 R7 R8 R9 R10 R11 R12].
  rewrite S1 in R9. rewrite S2 in R4. rewrite S3, S9 in R10. rewrite S4 in R11. rewrite S5 in R12. rewrite S6 in R1. rewrite S8 in R2. rewrite S7 in R3.
  constructor; assumption.
Qed.
Lemma scalings_same (phi : F -> option R) w w' U xe Ae Ge : same_data w w' -> scalings phi w' U xe Ae Ge -> scalings phi w U xe Ae Ge.
Proof.
  intros (S1 & S2 & S3 & S4 & S5 & S6 & S7 & S8 & S9 & S10 & S11) [R1 R2 R3]. rewrite S9 in R1. rewrite S10 in R2. rewrite S11 in R3. constructor; assumption.
Qed.
End Any.

Section Run.
Variables (ex lg : b64 -> b64).
Variables (U : problem) (A0 : option (spmat R)) (G0 : spmat R) (MA : option (spmat b64)) (MG : spmat b64) (c h b : arr b64).
Variables (w w' : pwork b64) (sig : Z -> bool) (t t' : ctrlc) (code : Z).
Variables (P : problem) (A G : spmat R) (K : nat) (xe Ae Ge x y z s : nat -> R) (tau ft at_ rt ft' at' rt' : R).

(* at some time in the life of a workspace the arrays it was given hold the
   problem U; then solve is called and returns code *)
Record any_run : Prop := {
  ar_loaded : @loaded (BOps ex lg) (pb_n U) (pb_m U) (pb_p U) (pb_l U) (pb_q U) (pb_e U) w MA MG c h b;
  ar_given : @given (BOps ex lg) bval U A0 G0 MA MG c h b;
  ar_solve : @ECOS_solve (BOps ex lg) sig t w = Some (code, t', w');
  ar_maxit : (0 <= sg_maxit (w_stgs w))%Z;
  ar_best : w_best w = None \/ st_iter (w_info w') <> 0%Z;
  ar_tol : tolerances (settings_mapf bval (w_stgs w)) ft at_ rt ft' at' rt';
  ar_pos : 0 <= ft /\ 0 <= at_ /\ 0 <= rt /\ 0 <= ft' /\ 0 <= at' /\ 0 <= rt';
  ar_held : @rheld (BOps ex lg) bval w P A G;
  ar_cones : pb_l P = pb_l U /\ pb_q P = pb_q U /\ pb_e P = pb_e U;
  ar_size : INR K <= 2 ^ 20;
  ar_mod : @moderate (BOps ex lg) bval w w' P A G K (b2 60) xe Ae Ge x y z s tau }.

Lemma any_data : any_run -> pb_n P = pb_n U /\ pb_p P = pb_p U /\ pb_m P = pb_m U /\ 0 < tau /\
  exists U' A1 G1, user U' A1 G1 /\ scaled_by U' P xe Ae Ge /\ nearby (b2 (-49)) (b2 (-1000)) xe Ae Ge U U' A0 A1 G0 G1.
Proof.
  intros [LD GV SO MI BE TL TP RH (Pl & Pq & Pe) SZ MD].
  destruct (@loaded_inv (BOps ex lg) _ _ _ _ _ _ _ _ _ _ _ _ LD) as (_ & _ & _ & _ & (_ & _ & Wn & Wm & Wp)).
  pose proof (eq_trans (eq_sym (rh_n _ _ _ _ _ RH)) Wn) as Dn. pose proof (eq_trans (eq_sym (rh_p _ _ _ _ _ RH)) Wp) as Dp.
  pose proof (eq_trans (eq_sym (rh_m _ _ _ _ _ RH)) Wm) as Dm. split; [auto|]. split; [auto|]. split; [auto|]. split.
  { destruct (md_tau _ _ _ _ _ _ _ _ _ _ _ _ _ _ _ _ MD) as [_ TT]. pose proof (Rinv_0_lt_compat _ (b2_pos 60)). lra. }
  destruct (md_xe _ _ _ _ _ _ _ _ _ _ _ _ _ _ _ _ MD) as [X1 _]. destruct (md_Ae _ _ _ _ _ _ _ _ _ _ _ _ _ _ _ _ MD) as [A1 _].
  destruct (md_Ge _ _ _ _ _ _ _ _ _ _ _ _ _ _ _ _ MD) as [G1 _]. rewrite Dn in X1. rewrite Dp in A1. rewrite Dm in G1.
  assert (SL: @scalings (BOps ex lg) bval w U xe Ae Ge) by (constructor; assumption).
  destruct (@loaded_fresh (BOps ex lg) _ _ _ _ _ _ _ _ _ _ _ _ LD) as (w0 & E & SD).
  exact (C49_binary64_setup ex lg _ _ U A0 G0 MA MG c h b w0 P A G xe Ae Ge GV E (rheld_same _ _ _ _ _ _ SD RH) Pl Pq Pe (scalings_same _ _ _ _ _ _ _ SD SL)).
Qed.

(* C50: optimal, at any time *)
Theorem C50_binary64_session_optimal : any_run -> code = 0%Z \/ code = 10%Z ->
  exists U' A1 G1 X Y Z S, user U' A1 G1 /\ scaled_by U' P xe Ae Ge /\ nearby (b2 (-49)) (b2 (-1000)) xe Ae Ge U U' A0 A1 G0 G1 /\
    answers U xe Ae Ge tau X Y Z S x y z s /\
    (code = 0%Z -> user_optimal U' P A G (b2 (-21)) (b2 (-500)) xe Ae Ge ft at_ rt tau X Y Z S) /\
    (code = 10%Z -> user_optimal U' P A G (b2 (-21)) (b2 (-500)) xe Ae Ge ft' at' rt' tau X Y Z S).
Proof.
  intros RN HC. destruct (any_data RN) as (En & Ep & Em & T & U' & A1 & G1 & US & SB & NB).
  destruct RN as [LD GV SO MI BE TL (P1 & P2 & P3 & P4 & P5 & P6) RH (Pl & Pq & Pe) SZ MD].
  destruct (C47_binary64_optimal ex lg K w w' sig t t' code P A G xe Ae Ge x y z s tau ft at_ rt ft' at' rt' SZ SO RH MI BE TL P1 P2 P3 P4 P5 P6 MD HC)
    as (X & Y & Z & S & N1 & N2 & N3 & N4 & O1 & O2).
  exists U', A1, G1, X, Y, Z, S. split; [auto|]. split; [auto|]. split; [auto|]. split; [eapply answers_of; eauto|].
  split; intros Hc; apply user_of_rounded; auto.
Qed.

(* C50: infeasible, at any time *)
Theorem C50_binary64_session_infeasible : any_run -> In code [1; 2; 11; 12]%Z ->
  exists U' A1 G1 X Y Z S, user U' A1 G1 /\ scaled_by U' P xe Ae Ge /\ nearby (b2 (-49)) (b2 (-1000)) xe Ae Ge U U' A0 A1 G0 G1 /\
    answers U xe Ae Ge tau X Y Z S x y z s /\
    (code = 1%Z -> user_pinf U' P A G (b2 (-21)) (b2 (-500)) xe Ae Ge ft rt tau Y Z) /\
    (code = 11%Z -> user_pinf U' P A G (b2 (-21)) (b2 (-500)) xe Ae Ge ft' rt tau Y Z \/ user_pinf U' P A G (b2 (-21)) (b2 (-500)) xe Ae Ge ft rt tau Y Z) /\
    (code = 2%Z -> user_dinf U' P A G (b2 (-21)) (b2 (-500)) xe Ae Ge ft rt tau X S) /\
    (code = 12%Z -> user_dinf U' P A G (b2 (-21)) (b2 (-500)) xe Ae Ge ft' rt tau X S) /\
    rounded_infeasible code P A G (b2 (-21)) (b2 (-500)) ft ft' rt X Y Z S.
Proof.
  intros RN HC. destruct (any_data RN) as (En & Ep & Em & T & U' & A1 & G1 & US & SB & NB).
  destruct RN as [LD GV SO MI BE TL (P1 & P2 & P3 & P4 & P5 & P6) RH (Pl & Pq & Pe) SZ MD].
  destruct (C48_binary64_infeasible ex lg K w w' sig t t' code P A G xe Ae Ge x y z s tau ft at_ rt ft' at' rt' SZ SO RH MI BE TL P1 P3 P4 MD HC)
    as (X & Y & Z & S & N1 & N2 & N3 & N4 & O1).
  exists U', A1, G1, X, Y, Z, S. split; [auto|]. split; [auto|]. split; [auto|]. split; [eapply answers_of; eauto|].
  pose proof O1 as (I1 & I2 & I3 & I4).
  split; [intros Hc; apply user_of_pinf; auto|]. split; [intros Hc; destruct (I2 Hc); [left|right]; apply user_of_pinf; auto|].
  split; [intros Hc; apply user_of_dinf; auto|]. split; [intros Hc; apply user_of_dinf; auto|exact O1].
Qed.
End Run.

Print Assumptions C50_binary64_session_optimal.
Print Assumptions C50_binary64_session_infeasible.
