(* C36: interrupts. *)
From Coq Require Import List Arith Bool ZArith Reals Lra Lia.
From Verif Require Import Base Num NumI NumE.
From Verif.Model Require Import Consts Types Ctrlc Ecos BbTypes Bb.
From Verif.Proofs Require Import Wlp BbNum BbP.
From Verif.Spec Require Import Integer MixedInteger.
From Verif.Properties Require Import Exit Search SearchEx.
Import ListNotations.
Open Scope nat_scope.

(* how many signals, how many checks a history contains *)
Fixpoint signals (tr : list event) : nat := match tr with [] => 0 | Sig :: tr => S (signals tr) | Do _ :: tr => signals tr end.
Fixpoint checks (tr : list event) : nat :=
  match tr with [] => 0 | Do Check :: tr => S (checks tr) | _ :: tr => checks tr end.

(* ---- histories ---- *)
Lemma run_app a b p : run (a ++ b) p = (fst (run b (fst (run a p))), snd (run a p) ++ snd (run b (fst (run a p)))).
Proof.
  revert p. induction a as [|[|x] a IH]; intros p; cbn [app run]; [cbn [fst snd app]; destruct (run b p); reflexivity|apply IH|].
  rewrite (IH (act x p)). destruct (run a (act x p)) as [q bs]. cbn [fst snd]. destruct (run b q) as [r cs]. cbn [fst snd]. destruct x; reflexivity.
Qed.
Lemma accesses_app a b : accesses (a ++ b) = accesses a ++ accesses b.
Proof. induction a as [|[|x] a IH]; cbn; rewrite ?IH; reflexivity. Qed.
Lemma acc_cons tr a l : accesses tr = a :: l -> exists n tr', tr = repeat Sig n ++ Do a :: tr' /\ accesses tr' = l.
Proof.
  induction tr as [|[|x] tr IH]; cbn; intros H; [discriminate| |].
  - destruct (IH H) as (n & tr' & -> & E). exists (S n), tr'. auto.
  - injection H as -> <-. exists 0, tr. auto.
Qed.
Lemma acc_nil tr : accesses tr = [] -> tr = repeat Sig (signals tr).
Proof. induction tr as [|[|x] tr IH]; cbn; intros H; [reflexivity|f_equal; auto|discriminate]. Qed.
Lemma run_sigs_app n h p : pr_disp p = App h -> run (repeat Sig n) p = (mkProc (App h) (pr_oact p) (pr_flag p) (repeat h n ++ pr_told p), []).
Proof.
  revert p. induction n as [|n IH]; intros p E; cbn [repeat run]; [destruct p; cbn in *; subst; reflexivity|].
  unfold deliver. rewrite E. rewrite IH by reflexivity. cbn [pr_oact pr_flag pr_told]. f_equal. f_equal.
  change (h :: pr_told p) with ([h] ++ pr_told p). rewrite app_assoc. f_equal. rewrite <- repeat_cons. reflexivity.
Qed.
(* with the library's handler in place a signal and a check only concern the flag *)
Lemma run_lib tr : forall p, pr_disp p = Lib -> (exists k, accesses tr = repeat Check k) ->
  fst (run tr p) = mkProc Lib (pr_oact p) (if signals tr =? 0 then pr_flag p else 2%Z) (pr_told p).
Proof.
  induction tr as [|[|x] tr IH]; intros p D (k & K); cbn [run signals accesses] in *.
  - destruct p; cbn in *; subst; reflexivity.
  - unfold deliver. rewrite D. rewrite IH; [|reflexivity|eauto]. cbn [pr_oact pr_flag pr_told]. cbn [Nat.eqb]. destruct (signals tr =? 0); reflexivity.
  - destruct k as [|k]; [discriminate|]. injection K as -> K. specialize (IH p D (ex_intro _ k K)).
    change (act Check p) with p. destruct (run tr p) as [q bs]. cbn [fst] in *. exact IH.
Qed.
Lemma run_len tr : forall p, length (snd (run tr p)) = checks tr.
Proof.
  induction tr as [|[|x] tr IH]; intros p; cbn [run checks]; [reflexivity|apply IH|].
  specialize (IH (act x p)). destruct (run tr (act x p)) as [q bs]. cbn [snd] in *. destruct x; cbn [length]; auto.
Qed.

(* the start of a call, from any disposition *)
Lemma open_call a b p : exists q, run (repeat Sig a ++ Do Clear :: repeat Sig b ++ [Do Install]) p = (q, []) /\
  pr_disp q = Lib /\ pr_oact q = pr_disp p /\ (forall h, pr_disp p = App h -> pr_flag q = 0%Z /\ pr_told q = repeat h (a + b) ++ pr_told p).
Proof.
  destruct (pr_disp p) as [h|] eqn:D.
  - rewrite run_app, (run_sigs_app a h p D). cbn [fst snd]. change (Do Clear :: repeat Sig b ++ [Do Install]) with ([Do Clear] ++ repeat Sig b ++ [Do Install]).
    rewrite run_app. cbn [run fst snd act app pr_oact pr_flag pr_told pr_disp]. rewrite run_app, (run_sigs_app b h) by reflexivity. cbn [run fst snd act app pr_oact pr_flag pr_told pr_disp].
    eexists. split; [reflexivity|]. cbn. split; [reflexivity|]. split; [reflexivity|]. intros h' E. injection E as <-. split; [reflexivity|].
    rewrite app_assoc, <- repeat_app, Nat.add_comm. reflexivity.
  - assert (L: forall n q, pr_disp q = Lib -> exists f, run (repeat Sig n) q = (mkProc Lib (pr_oact q) f (pr_told q), [])).
    { induction n as [|n IH]; intros q Dq; cbn [repeat run]; [exists (pr_flag q); destruct q; cbn in *; subst; reflexivity|]. unfold deliver. rewrite Dq.
      destruct (IH (mkProc Lib (pr_oact q) 2 (pr_told q)) eq_refl) as (f & E). exists f. exact E. }
    rewrite run_app. destruct (L a p D) as (f & ->). cbn [fst snd]. change (Do Clear :: repeat Sig b ++ [Do Install]) with ([Do Clear] ++ repeat Sig b ++ [Do Install]).
    rewrite run_app. cbn [run fst snd act app pr_oact pr_flag pr_told pr_disp]. rewrite run_app. destruct (L b (mkProc Lib (pr_oact p) 0 (pr_told p)) eq_refl) as (f' & ->).
    cbn [run fst snd act app pr_oact pr_flag pr_told pr_disp]. eexists. split; [reflexivity|]. cbn. split; [reflexivity|]. split; [reflexivity|]. discriminate.
Qed.

Lemma call_split tr k e : accesses tr = solve_accesses k e -> exists a b tr', tr = (repeat Sig a ++ Do Clear :: repeat Sig b ++ [Do Install]) ++ tr' /\
  accesses tr' = repeat Check k ++ (if e then [] else [Remove]).
Proof.
  intros H. unfold solve_accesses in H. cbn [app] in H. apply acc_cons in H as (a & t1 & -> & H). apply acc_cons in H as (b & t2 & -> & H).
  exists a, b, t2. split; [|exact H]. rewrite <- app_assoc. cbn [app]. rewrite <- app_assoc. reflexivity.
Qed.

(* The application's disposition is back when the call has ended normally, whenever
   signals arrived. *)
Theorem C36_restored : forall tr k p, accesses tr = solve_accesses k false -> pr_disp (fst (run tr p)) = pr_disp p.
Proof.
  intros tr k p H. destruct (call_split _ _ _ H) as (a & b & t & -> & Ht). rewrite run_app. cbn [fst].
  destruct (open_call a b p) as (q & -> & Dq & Oq & _). cbn [fst].
  assert (X: exists m n, t = m ++ Do Remove :: repeat Sig n /\ accesses m = repeat Check k).
  { clear - Ht. revert t Ht. induction k as [|k IH]; intros t Ht; cbn [repeat app] in Ht.
    - apply acc_cons in Ht as (n & t' & -> & E). apply acc_nil in E. rewrite E. exists (repeat Sig n), (signals t'). split; [reflexivity|].
      clear. induction n; cbn; auto.
    - apply acc_cons in Ht as (n & t' & -> & E). destruct (IH _ E) as (m & n' & -> & A). exists (repeat Sig n ++ Do Check :: m), n'. split; [rewrite <- app_assoc; reflexivity|].
      rewrite accesses_app. cbn [accesses]. rewrite A. clear. induction n; cbn; auto. }
  destruct X as (m & n & -> & Hm). rewrite run_app. cbn [fst]. rewrite (run_lib m q Dq) by eauto.
  change (Do Remove :: repeat Sig n) with ([Do Remove] ++ repeat Sig n). rewrite run_app. cbn [run fst act pr_disp pr_oact pr_flag pr_told]. rewrite Oq.
  destruct (pr_disp p) as [h|]; [rewrite (run_sigs_app n h) by reflexivity; reflexivity|].
  rewrite run_lib; [reflexivity|reflexivity|]. exists 0. clear. induction n; cbn; auto.
Qed.
Print Assumptions C36_restored.

(* Between installation and the end of the call, a check answers yes exactly if a
   signal has arrived since installation: none is missed, none is invented, and one
   that was seen stays seen. *)
Theorem C36_seen : forall a b c k e p h, accesses (a ++ Do Install :: b ++ Do Check :: c) = solve_accesses k e -> pr_disp p = App h ->
  nth_error (snd (run (a ++ Do Install :: b ++ Do Check :: c) p)) (checks b) = Some (0 <? signals b).
Proof.
  intros a b c k e p h H D. destruct (call_split _ _ _ H) as (a' & b' & t & E & Ht).
  assert (Ea: a = repeat Sig a' ++ Do Clear :: repeat Sig b' /\ t = b ++ Do Check :: c).
  { rewrite accesses_app in H. cbn [accesses] in H.
    assert (Aa: accesses a = [Clear]).
    { unfold solve_accesses in H. destruct (accesses a) as [|x [|y l]]; cbn [app] in H; [discriminate|injection H as -> _; reflexivity|].
      injection H as -> -> H. exfalso. clear - H. assert (In Install (repeat Check k ++ (if e then [] else [Remove]))) as I by (rewrite <- H; apply in_app_iff; right; left; reflexivity).
      apply in_app_iff in I as [I|I]; [apply repeat_spec in I; discriminate|]. destruct e; [destruct I|destruct I as [I|[]]; discriminate]. }
    apply acc_cons in Aa as (n & t1 & -> & Aa). apply acc_nil in Aa. rewrite Aa in E |- *. clear - E. generalize dependent (signals t1). intros m E.
    rewrite <- !app_assoc in E. cbn [app] in E.
    assert (Q: forall n n' x x' (y y' : list event), x <> Sig -> x' <> Sig -> repeat Sig n ++ x :: y = repeat Sig n' ++ x' :: y' -> n = n' /\ x = x' /\ y = y').
    { clear. induction n as [|n IH]; intros [|n'] x x' y y' N N' E; cbn in E.
      - injection E. auto. - injection E as -> _. contradiction. - injection E as <- _. contradiction.
      - injection E as E. apply IH in E as (-> & -> & ->); auto. }
    apply Q in E as (-> & _ & E); try discriminate. rewrite <- app_assoc in E. cbn [app] in E. apply Q in E as (-> & _ & E); try discriminate. auto. }
  destruct Ea as (-> & ->). clear E. destruct (open_call a' b' p) as (q & R & Dq & _ & F). destruct (F h D) as [F0 _].
  replace ((repeat Sig a' ++ Do Clear :: repeat Sig b') ++ Do Install :: b ++ Do Check :: c) with ((repeat Sig a' ++ Do Clear :: repeat Sig b' ++ [Do Install]) ++ b ++ Do Check :: c)
    by (rewrite <- !app_assoc; cbn [app]; rewrite <- app_assoc; reflexivity).
  rewrite run_app, R. cbn [fst snd app]. rewrite run_app. cbn [snd].
  assert (Kb: exists k', accesses b = repeat Check k').
  { rewrite accesses_app in Ht. cbn [accesses] in Ht. clear - Ht. revert k Ht. induction (accesses b) as [|x l IH]; intros k Ht; [exists 0; reflexivity|].
    destruct k as [|k]; cbn [repeat app] in Ht.
    - exfalso. destruct e; [discriminate|]. injection Ht as _ Ht. destruct l; discriminate.
    - injection Ht as -> Ht. destruct (IH _ Ht) as (k' & ->). exists (S k'). reflexivity. }
  rewrite (run_lib b q Dq Kb). rewrite nth_error_app2 by (rewrite run_len; lia). rewrite run_len, Nat.sub_diag.
  cbn [run act]. destruct (run c _) as [r bs]. cbn [snd nth_error pr_flag]. rewrite F0. f_equal. destruct (signals b); reflexivity.
Qed.
Print Assumptions C36_seen.

(* Signals before installation and after removal go to the application, those in
   between do not. *)
Theorem C36_delivered : forall a b c k p h, accesses (a ++ Do Install :: b ++ Do Remove :: c) = solve_accesses k false -> pr_disp p = App h ->
  accesses b = repeat Check k -> accesses c = [] ->
  pr_told (fst (run (a ++ Do Install :: b ++ Do Remove :: c) p)) = repeat h (signals a + signals c) ++ pr_told p.
Proof.
  intros a b c k p h H D Hb Hc.
  assert (Aa: accesses a = [Clear]).
  { rewrite accesses_app in H. cbn [accesses] in H. rewrite accesses_app, Hb in H. cbn [accesses] in H. rewrite Hc in H. unfold solve_accesses in H.
    change ([Clear; Install] ++ repeat Check k ++ [Remove]) with ([Clear] ++ (Install :: repeat Check k ++ [Remove])) in H. apply app_inv_tail in H. exact H. }
  apply acc_cons in Aa as (n & t1 & -> & Aa). apply acc_nil in Aa. rewrite Aa. apply acc_nil in Hc. rewrite Hc.
  destruct (open_call n (signals t1) p) as (q & R & Dq & Oq & F). destruct (F h D) as [F0 T].
  replace ((repeat Sig n ++ Do Clear :: repeat Sig (signals t1)) ++ Do Install :: b ++ Do Remove :: repeat Sig (signals c))
    with ((repeat Sig n ++ Do Clear :: repeat Sig (signals t1) ++ [Do Install]) ++ b ++ Do Remove :: repeat Sig (signals c))
    by (rewrite <- !app_assoc; cbn [app]; rewrite <- app_assoc; reflexivity).
  rewrite run_app, R. cbn [fst]. rewrite run_app. cbn [fst]. rewrite (run_lib b q Dq) by eauto.
  change (Do Remove :: repeat Sig (signals c)) with ([Do Remove] ++ repeat Sig (signals c)). rewrite run_app. cbn [run fst act pr_disp pr_oact pr_flag pr_told].
  rewrite Oq, D, (run_sigs_app _ h) by reflexivity. cbn [fst pr_told]. rewrite T.
  assert (S1: forall m, signals (repeat Sig m) = m) by (induction m; cbn; auto).
  assert (S2: forall x y, signals (x ++ y) = signals x + signals y) by (induction x as [|[|z] x IH]; intros y; cbn; rewrite ?IH; reflexivity).
  rewrite S2, S1. cbn [signals]. rewrite !S1. rewrite app_assoc, <- repeat_app. f_equal. f_equal. lia.
Qed.
Print Assumptions C36_delivered.

(* A signal that arrives after the last check of a call is swallowed: neither the
   application nor any answer shows it. *)
Theorem C36_refuted_lost : forall a b c p, pr_disp (fst (run (a ++ [Do Check]) p)) = Lib -> accesses b = [] -> accesses c = [] ->
  let with_it := run (a ++ Do Check :: b ++ Do Remove :: c) p in
  let without := run (a ++ Do Check :: Do Remove :: c) p in
  snd with_it = snd without /\ pr_disp (fst with_it) = pr_disp (fst without) /\
  (pr_disp (fst without) <> Lib -> pr_told (fst with_it) = pr_told (fst without)).
Proof.
  intros a b c p D Hb Hc. cbv zeta.
  change (a ++ Do Check :: b ++ Do Remove :: c) with (a ++ [Do Check] ++ b ++ [Do Remove] ++ c). change (a ++ Do Check :: Do Remove :: c) with (a ++ [Do Check] ++ [Do Remove] ++ c).
  rewrite !(app_assoc a). rewrite (run_app (a ++ [Do Check]) (b ++ _)), (run_app (a ++ [Do Check]) ([Do Remove] ++ c)). cbn [fst snd].
  set (q := fst (run (a ++ [Do Check]) p)) in *. rewrite (run_app b). rewrite (run_lib b q D) by (exists 0; exact Hb).
  apply acc_nil in Hc. rewrite Hc.
  assert (S0: forall n p, snd (run (repeat Sig n) p) = []) by (induction n; intros; cbn; auto).
  assert (Sb: snd (run b q) = []) by (rewrite (acc_nil b Hb); apply S0). rewrite Sb, !(run_app [Do Remove]). cbn [app fst snd run act]. set (f := if signals b =? 0 then pr_flag q else 2%Z). clearbody f. clear - q S0. cbn [fst snd pr_oact pr_flag pr_told].
  rewrite !S0. split; [reflexivity|]. destruct (pr_oact q) as [h|] eqn:E.
  - rewrite !(run_sigs_app _ h) by (cbn; reflexivity). cbn. split; reflexivity.
  - rewrite !run_lib; try reflexivity; try (exists 0; clear; induction (signals c); cbn; auto). cbn. split; [reflexivity|]. intros X. destruct (X eq_refl).
Qed.
Print Assumptions C36_refuted_lost.

(* After an early return, which skips removal, the library's handler stays; and since
   the next call saves that one as the previous handler, the application's never comes
   back: no call, however it ends, and no signal reaches the application any more. *)
Theorem C36_refuted_abandoned : forall calls tr p, pr_disp p = Lib ->
  accesses tr = flat_map (fun '(k, e) => solve_accesses k e) calls ->
  pr_disp (fst (run tr p)) = Lib /\ pr_told (fst (run tr p)) = pr_told p.
Proof.
  intros calls tr p D H.
  assert (Y: forall tr q, pr_disp q = Lib -> pr_oact q = Lib -> pr_disp (fst (run tr q)) = Lib /\ pr_told (fst (run tr q)) = pr_told q).
  { clear. induction tr as [|[|x] tr IH]; intros q D Oq; cbn [run fst]; [auto| |].
    - assert (deliver q = mkProc Lib (pr_oact q) 2 (pr_told q)) as -> by (unfold deliver; rewrite D; reflexivity). destruct (IH (mkProc Lib (pr_oact q) 2 (pr_told q)) eq_refl Oq) as [A B]. auto.
    - destruct (IH (act x q)) as [A B].
      + destruct x; cbn; auto. + destruct x; cbn; auto.
      + destruct (run tr (act x q)) as [r bs]. cbn [fst] in *. split; [exact A|]. rewrite B. destruct x; reflexivity. }
  destruct calls as [|[k e] calls]; cbn [flat_map] in H.
  - apply acc_nil in H. rewrite H. rewrite run_lib; [auto|exact D|]. exists 0. clear. induction (signals tr); cbn; auto.
  - unfold solve_accesses in H. cbn [app] in H. apply acc_cons in H as (n & t1 & -> & H). apply acc_cons in H as (n2 & t2 & -> & _).
    replace (repeat Sig n ++ Do Clear :: repeat Sig n2 ++ Do Install :: t2) with ((repeat Sig n ++ Do Clear :: repeat Sig n2 ++ [Do Install]) ++ t2)
      by (rewrite <- !app_assoc; cbn [app]; rewrite <- app_assoc; reflexivity).
    assert (Z: forall m q, pr_disp q = Lib -> exists f, fst (run (repeat Sig m) q) = mkProc Lib (pr_oact q) f (pr_told q)).
    { intros m q Dq. rewrite run_lib; [eauto|exact Dq|]. exists 0. clear. induction m; cbn; auto. }
    rewrite run_app. cbn [fst]. rewrite (run_app (repeat Sig n)). cbn [fst].
    change (Do Clear :: repeat Sig n2 ++ [Do Install]) with ([Do Clear] ++ repeat Sig n2 ++ [Do Install]). destruct (Z n p D) as (f & ->).
    rewrite run_app. cbn [fst run act pr_disp pr_oact pr_flag pr_told]. rewrite run_app. cbn [fst].
    destruct (Z n2 (mkProc Lib (pr_oact p) 0 (pr_told p)) eq_refl) as (f2 & ->). cbn [fst run act pr_disp pr_oact pr_flag pr_told].
    destruct (Y t2 (mkProc Lib Lib f2 (pr_told p)) eq_refl eq_refl) as [A B]. split; [exact A|exact B].
Qed.
Print Assumptions C36_refuted_abandoned.

(* The state of the model of ECOS_solve agrees with the process. *)
Definition of_disp (d : disposition) : option nat := match d with App h => Some h | Lib => None end.
Theorem C36_consistent : forall tr k e p t, accesses tr = solve_accesses k e -> cc_handler t = of_disp (pr_disp p) ->
  cc_handler (if e then init_ctrlc t else remove_ctrlc (init_ctrlc t)) = of_disp (pr_disp (fst (run tr p))).
Proof.
  intros tr k e p t H E. destruct e.
  - destruct (call_split _ _ _ H) as (a & b & t' & -> & Ht). rewrite app_nil_r in Ht. rewrite run_app. cbn [fst]. destruct (open_call a b p) as (q & -> & Dq & _ & _). cbn [fst].
    rewrite run_lib by eauto. reflexivity.
  - rewrite (C36_restored tr k p H). cbn. exact E.
Qed.
Print Assumptions C36_consistent.

(* A run in which all of this happens: one signal for the application before the call,
   one during the second pass, seen by the check, one after the call. *)
Theorem C36_example : let tr := [Sig; Do Clear; Do Install; Do Check; Sig; Do Check; Do Remove; Sig] in
  accesses tr = solve_accesses 2 false /\ run tr (mkProc (App 7) Lib 0 []) = (mkProc (App 7) (App 7) 2 [7; 7], [false; true]).
Proof. split; reflexivity. Qed.

(* ---- solving ---- *)
Section Solve.
Context `{O : Ops}.
Notation W := (pwork F).

(* the codes for a solution or certificate at reduced precision *)
Definition inaccurate (code : Z) : Prop := In code [ECOS_OPTIMAL + ECOS_INACC_OFFSET; ECOS_PINF + ECOS_INACC_OFFSET; ECOS_DINF + ECOS_INACC_OFFSET]%Z.
Lemma recover_codes w restore fb code w' : recover w restore fb = Some (code, w') -> code = fb \/ inaccurate code.
Proof.
  unfold recover. intros H. destruct (if restore then restoreBestIterate w else Some w) as [w0|]; [cbn [bind] in H|discriminate].
  unfold checkExitConditions in H. unfold inaccurate. destruct (test_optimal w0 _); [injection H as <- <-; right; left; reflexivity|].
  destruct (test_dinf w0 _); [injection H as <- <-; right; right; right; left; reflexivity|].
  destruct (test_pinf w0 _); [injection H as <- <-; right; right; left; reflexivity|]. injection H as <- <-. left. reflexivity.
Qed.

Lemma exit_interrupted pp w v pp' w' : iter_exit true pp w = Some (v, pp', w') -> exists code, v = VBreak code.
Proof.
  unfold iter_exit. intros H. bd H as w1 E1. bd H as w2 E2.
  destruct (_ && _)%bool in H.
  - bd H as cw Ec. destruct cw. injection H as <- <- <-. eauto.
  - destruct (checkExitConditions w2 0) as [c w3]. destruct (negb _); [injection H as <- <- <-; eauto|]. destruct (_ && _)%bool in H.
    + bd H as cw Ec. destruct cw. injection H as <- <- <-. eauto.
    + cbn [orb] in H. bd H as b Eb. bd H as cw Ec. destruct cw. injection H as <- <- <-. eauto.
Qed.

(* Once a check has answered yes the loop ends in that very pass: no later answer, and
   no further iteration, has any influence on the result. *)
Theorem C36_stops sig sig' t (w : W) k : (0 <= k)%Z -> sig k = true -> (forall j, (0 <= j <= k)%Z -> sig' j = sig j) ->
  ECOS_solve sig' t w = ECOS_solve sig t w.
Proof.
  intros Hk Sk Ag.
  assert (L: forall fuel iter pp ec w, (0 <= iter <= k)%Z -> ipm_loop fuel sig' iter pp ec w = ipm_loop fuel sig iter pp ec w).
  { clear w. induction fuel as [|fuel IH]; intros iter pp ec w Hi; cbn [ipm_loop]; [reflexivity|].
    rewrite (Ag iter Hi). destruct (iter_exit (sig iter) pp _) as [[[v pp'] w1]|] eqn:E; [cbn [bind]|reflexivity].
    destruct v; try reflexivity. destruct (Z.eq_dec iter k) as [->|N].
    - rewrite Sk in E. destruct (exit_interrupted _ _ _ _ _ E) as (c & X). discriminate.
    - destruct (iter_save w1) as [w2|]; [cbn [bind]|reflexivity]. destruct (iter_step w2) as [[v w3]|]; [cbn [bind]|reflexivity].
      destruct v; try reflexivity. apply IH. lia. }
  unfold ECOS_solve. destruct (for_ _ _ _ _) as [c|]; [cbn [bind]|reflexivity]. destruct (init _) as [[ok w1]|]; [cbn [bind]|reflexivity].
  destruct ok; cbn [negb]; [|reflexivity]. rewrite L by lia. reflexivity.
Qed.
Print Assumptions C36_stops.

(* An interrupt either changes nothing, or the call ends with the code for "interrupted",
   or with one of the reduced-precision codes. *)
Theorem C36_codes sig t (w : W) code t' w' : ECOS_solve sig t w = Some (code, t', w') ->
  ECOS_solve (fun _ => false) t w = Some (code, t', w') \/ code = ECOS_SIGINT \/ inaccurate code.
Proof.
  assert (X: forall pp w v pp' w', iter_exit true pp w = Some (v, pp', w') -> iter_exit false pp w = Some (v, pp', w') \/
     exists code, v = VBreak code /\ (code = ECOS_SIGINT \/ inaccurate code)).
  { clear. unfold iter_exit. intros pp w v pp' w' H. bd H as w1 E1. cbn [bind]. bd H as w2 E2. cbn [bind].
    destruct (_ && _)%bool; [left; exact H|]. destruct (checkExitConditions w2 0) as [c w3]. destruct (negb _); [left; exact H|].
    destruct (_ && _)%bool; [left; exact H|]. right. cbn [orb] in H. bd H as b Eb. bd H as cw Ec. destruct cw as [cd w4]. injection H as <- <- <-.
    exists cd. split; [reflexivity|]. exact (recover_codes _ _ _ _ _ Ec). }
  assert (L: forall fuel iter pp ec w r code w', ipm_loop fuel sig iter pp ec w = Some (r, code, w') ->
     ipm_loop fuel (fun _ => false) iter pp ec w = Some (r, code, w') \/ code = ECOS_SIGINT \/ inaccurate code).
  { clear w code w' t t'. induction fuel as [|fuel IH]; intros iter pp ec w r code w' H; cbn [ipm_loop] in *; [auto|].
    destruct (iter_exit (sig iter) pp _) as [[[v pp'] w1]|] eqn:E; [cbn [bind] in H|discriminate].
    assert (Q: iter_exit false pp (set_info w (fun i => set_st_iter i iter)) = Some (v, pp', w1) \/ exists code, v = VBreak code /\ (code = ECOS_SIGINT \/ inaccurate code)).
    { destruct (sig iter); [exact (X _ _ _ _ _ E)|left; exact E]. }
    destruct Q as [Q|(c & -> & Q)]; [|injection H as <- <- <-; right; exact Q].
    rewrite Q. cbn [bind]. destruct v; [|left; exact H|left; exact H]. bd H as w2 E2. cbn [bind]. bd H as vw E3. destruct vw as [v w3]. cbn [bind].
    destruct v; [|left; exact H|left; exact H]. exact (IH _ _ _ _ _ _ _ H). }
  unfold ECOS_solve. intros H. destruct (for_ _ _ _ _) as [c|]; [cbn [bind] in *|discriminate]. destruct (init _) as [[ok w1]|]; [cbn [bind] in *|discriminate].
  destruct ok; cbn [negb] in *; [|auto]. bd H as rcw E. destruct rcw as [[r cd] w2]. specialize (L _ _ _ _ _ _ _ _ E).
  destruct L as [L|L].
  - rewrite L. cbn [bind]. left. exact H.
  - right. destruct r; [injection H as <- <- <-; exact L|]. bd H as w3 E3. injection H as <- <- <-. exact L.
Qed.
Print Assumptions C36_codes.

(* Without an interrupt the code for "interrupted" is never returned. *)
Theorem C36_not_invented t (w : W) code t' w' : ECOS_solve (fun _ => false) t w = Some (code, t', w') -> code <> ECOS_SIGINT.
Proof.
  intros H -> . destruct (C23_exit_flags _ _ _ _ _ _ H) as (_ & B & _). destruct (B eq_refl) as (k & _ & X). discriminate.
Qed.
Print Assumptions C36_not_invented.
End Solve.

(* ---- mixed-integer problems ---- *)
(* An interrupt during the relaxation of the root is taken for infeasibility: the call
   reports a problem as infeasible although its relaxation was merely not finished. *)
Theorem C36_refuted_mixed_integer (solver : nat -> ctrlc -> pwork ext -> option (Z * ctrlc * pwork ext)) rnd rfuel w r w' :
  (forall t p s, solver (bb_solves w) t p = Some s -> fst (fst s) = ECOS_SIGINT) ->
  (1 < bs_maxit (bb_stgs w))%Z ->
  @ECOS_BB_solve EOps EInt solver rnd rfuel w = Some (r, w') -> r = MI_INFEASIBLE.
Proof.
  intros H Mx E. unfold ECOS_BB_solve in E. bd E as w1 E1.
  assert (Q: bb_U w1 = PInf /\ bb_L w1 = PInf /\ bb_iter w1 = 0%nat /\ bb_stgs w1 = bb_stgs w).
  { unfold bb_root in E1. bd E1 as w2 E2. bd E1 as w3 E3. bd E1 as nd En. injection E1 as <-.
    assert (Q2: bb_solves w2 = bb_solves w /\ bb_iter w2 = 0%nat /\ bb_stgs w2 = bb_stgs w).
    { unfold initialize_root in E2. bd E2 as wa Ea. apply upd_node_inv in Ea as (? & ? & _ & -> & _). bd E2 as b1 Eb. bd E2 as b2 Ec.
      injection E2 as <-. repeat split; reflexivity. }
    destruct Q2 as (Qs & Q2).
    unfold get_bounds in E3. bd E3 as cw Er. destruct cw as [code w4].
    unfold run_relax in Er. bd Er as p1 Ep. bd Er as sr Es. destruct sr as [[code' t'] p']. injection Er as <- <-.
    rewrite Qs in Es. specialize (H _ _ _ Es). cbn [fst] in H. subst code'. cbn [Z.eqb orb ECOS_SIGINT ECOS_OPTIMAL ECOS_MAXIT ECOS_NUMERICS ECOS_INACC_OFFSET Z.add Pos.eqb] in E3.
    apply upd_node_inv in E3 as (nd0 & ns & _ & -> & _ & G). bbc in En. rewrite G, Nat.eqb_refl in En. injection En as <-.
    bbc. ndc. split; [reflexivity|]. split; [reflexivity|]. exact Q2. }
  destruct Q as (QU & QL & QI & QS).
  assert (Sc: @should_continue EOps w1 0 = false).
  { unfold should_continue. change (@F EOps) with ext in *. rewrite QU, QL. cbn. destruct (bs_abs (bb_stgs w1)); reflexivity. }
  assert (El: @bb_loop EOps EInt solver rnd rfuel (S (Z.to_nat (bs_maxit (bb_stgs w1)))) w1 = Some (0%Z, w1)).
  { unfold bb_loop. cbn [while_]. rewrite Sc. reflexivity. }
  rewrite El in E. cbn [bind] in E. bd E as w2 E2. injection E as <- <-.
  assert (Q2: bb_U w2 = PInf /\ bb_iter w2 = 0%nat /\ bb_stgs w2 = bb_stgs w).
  { unfold load_solution in E2. do 4 (match type of E2 with bind ?m _ = _ => destruct m; [cbn [bind] in E2|discriminate] end).
    injection E2 as <-. auto. }
  destruct Q2 as (QU2 & QI2 & QS2). unfold get_ret_code. change (@F EOps) with ext in *. rewrite QU2, QI2, QS2.
  destruct (Z.ltb_spec (Z.of_nat 0) (bs_maxit (bb_stgs w) - 1)); [|lia]. rewrite f0_E'. reflexivity.
Qed.
Print Assumptions C36_refuted_mixed_integer.

(* The search of C32_example again, interrupted: reported infeasible, though x = 0 is a
   feasible integer point. *)
Definition interrupted : oracle := fun k t p => match ex_solver k t p with Some (_, t, p) => Some (ECOS_SIGINT, t, p) | None => None end.
Lemma run_interrupted bid iid w c w1 : @run_relax EOps ex_solver bid iid w = Some (c, w1) -> @run_relax EOps interrupted bid iid w = Some (ECOS_SIGINT, w1).
Proof.
  unfold run_relax. destruct (set_prob _ _ _ _ _) as [p|]; [cbn [bind]|discriminate]. unfold interrupted.
  destruct (ex_solver _ _ p) as [[[c' t] p']|]; [cbn [bind]|discriminate]. intros H. injection H as _ <-. reflexivity.
Qed.
Definition ex_w0 p k tau L inf t := st t [Some zn; Some zn; Some zn; Some zn] [None; None; None; None] p [None] [None; None] [None; None] k tau inf PInf L [None] 0 0
       [Some (Fin 0); Some (Fin 0)] [Some 0%Z; Some 0%Z] 0.
Lemma root_interrupted p k tau L inf t : PP p ->
  exists p1, PP p1 /\ @bb_root EOps EInt interrupted (fun _ => 0%Z) 0 (ex_w0 p k tau L inf t) =
    Some (st t [Some (set_nd_status (set_nd_U (set_nd_L nroot PInf) PInf) MI_SOLVED_NON_BRANCHABLE); Some zn; Some zn; Some zn] [Some (-1)%Z; None; None; None] p1 [None] [None; None] [None; None] k tau inf PInf PInf [None] 0 0
       [Some (Fin 0); Some (Fin 0)] [Some 0%Z; Some 0%Z] 1).
Proof.
  intros Pp.
  destruct (run_ex t [Some nroot; Some zn; Some zn; Some zn] [Some (-1)%Z; None; None; None] p [None] [None; None] [None; None] k tau inf PInf NInf [None] 0 0 [Some (Fin 0); Some (Fin 0)] [Some 0%Z; Some 0%Z] 0
      (fun i => get [Some (-1)%Z; None; None; None] (0 + i)) (fun i => get [] (0 + i)) (-1) Pp eq_refl ltac:(auto)) as (p1 & P' & _ & R1).
  apply run_interrupted in R1. exists p1. split; [exact P'|]. unfold bb_root.
  eapply (bind_eq _ _ (st t [Some nroot; Some zn; Some zn; Some zn] [Some (-1)%Z; None; None; None] p [None] [None; None] [None; None] k tau inf PInf NInf [None] 0 0 [Some (Fin 0); Some (Fin 0)] [Some 0%Z; Some 0%Z] 0)); [reflexivity|].
  eapply bind_eq; [unfold get_bounds; eapply bind_eq; [exact R1|]; reflexivity|]. reflexivity.
Qed.
Lemma solve_interrupted p k tau L inf t : PP p ->
  exists r w', @ECOS_BB_solve EOps EInt interrupted (fun _ => 0%Z) 0 (ex_w0 p k tau L inf t) = Some (r, w').
Proof.
  intros Pp. destruct (root_interrupted p k tau L inf t Pp) as (p1 & P' & R).
  pose proof P' as (Q1 & Q2 & Q3 & _ & _ & _ & (y0 & Q7) & Q8 & (pz0 & pz1 & Q9) & (ps0 & ps1 & Q10)).
  match type of R with _ = Some ?w => set (w1 := w) in * end.
  assert (Sc: @should_continue EOps w1 0 = false) by reflexivity.
  assert (El: @bb_loop EOps EInt interrupted (fun _ => 0%Z) 0 (S (Z.to_nat (bs_maxit (bb_stgs w1)))) w1 = Some (0%Z, w1)).
  { unfold bb_loop. cbn [while_]. rewrite Sc. reflexivity. }
  assert (Ld: exists w', @load_solution EOps w1 = Some w').
  { unfold load_solution. change (bb_prob w1) with p1. change (bb_x w1) with [@None ext]. change (bb_y w1) with (@nil (option ext)).
    change (bb_z w1) with [@None ext; None]. change (bb_s w1) with [@None ext; None]. unfold copyN. change (@F EOps) with ext in *.
    rewrite Q1, Q2, Q3, Q7, Q8, Q9, Q10. eexists. reflexivity. }
  destruct Ld as (w' & Ld). exists (@get_ret_code EOps w'), w'.
  unfold ECOS_BB_solve. eapply bind_eq; [exact R|]. eapply bind_eq; [exact El|]. eapply bind_eq; [exact Ld|]. reflexivity.
Qed.
Theorem C36_refuted_mixed_integer_example (p : pwork ext) k tau L inf t :
  w_n p = 1%nat -> w_p p = 0%nat -> w_m p = 2%nat -> w_c p = [Some (Fin (-1))] -> w_Gequil p = [Some (Fin 1); Some (Fin 1)] ->
  length (w_h p) = 2%nat -> length (w_x p) = 1%nat -> length (w_y p) = 0%nat -> length (w_z p) = 2%nat -> length (w_s p) = 2%nat ->
  (exists w', @ECOS_BB_solve EOps EInt interrupted (fun _ => 0%Z) 0 (ex_start p k tau L inf t) = Some (MI_INFEASIBLE, w')) /\
  admissible 1 0 (fun _ => 0%nat) ex_feas (fun _ => 0%R).
Proof.
  intros P1 P2 P3 P4 P5 P6 P7 P8 P9 P10. split.
  - assert (Z: @zero_node EOps = zn) by (unfold zero_node, zn; rewrite f0_E'; reflexivity).
    assert (E: ex_start p k tau L inf t = ex_w0 p k tau L inf t) by (unfold ex_start; cbn [repeat arr_of map]; rewrite Z; reflexivity). rewrite E.
    destruct (w_h p) as [|h0 [|h1 [|]]] eqn:E6; try discriminate. destruct (w_x p) as [|x0 [|]] eqn:E7; try discriminate.
    destruct (w_y p) eqn:E8; try discriminate. destruct (w_z p) as [|z0 [|z1 [|]]] eqn:E9; try discriminate.
    destruct (w_s p) as [|s0 [|s1 [|]]] eqn:E10; try discriminate.
    assert (Pp: PP p) by (repeat split; auto; eauto).
    destruct (solve_interrupted p k tau L inf t Pp) as (r & w' & X). exists w'. rewrite X.
    apply (C36_refuted_mixed_integer interrupted _ _ _ _ _) in X; [rewrite X; reflexivity| |unfold ex_w0, st; cbn [bb_stgs bs_maxit]; lia].
    intros t' q s H. unfold interrupted in H. destruct (ex_solver _ _ q) as [[[c' t2] p']|]; [injection H as <-; reflexivity|discriminate].
  - split; [unfold ex_feas; lra|]. split; [auto|]. intros j Hj. lia.
Qed.
Print Assumptions C36_refuted_mixed_integer_example.
