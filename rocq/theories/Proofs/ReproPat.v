(* What setup computes besides numbers depends on the pattern of the matrices only. *)
From Coq Require Import List Arith Bool ZArith QArith Lia.
From Verif Require Import Base Num.
From Verif.Model Require Import Spla Splamm Types Consts Cone Ldl Kkt Equil Preproc Ecos.
From Verif.Spec Require Import Matrix Shape Fill SetupSpec.
From Verif.Proofs Require Import SplaP LoopLib EquilP EquilX Work SetupP SafeLib ExitP UpdP Mono Mono2 Mono3 Mono4 Mono5.
Import ListNotations.
Open Scope nat_scope.

Section Pat.
Context `{O : Ops}.

(* the same cells have been written *)
Definition sh (a b : arr F) : Prop := length a = length b /\ forall i v, get a i = Some v -> exists v', get b i = Some v'.
Definition shM (M M' : spmat F) : Prop := same_pattern M M' /\ sh (sp_pr M) (sp_pr M').

Lemma sh_refl a : sh a a. Proof. split; eauto. Qed.
Lemma rel_get_sh a a' i : sh a a' -> rel (fun _ _ => True) (get a i) (get a' i).
Proof. intros [_ H] v E. destruct (H i v E) as [v' E']. eauto. Qed.
Lemma rel_set_sh a a' i v v' : sh a a' -> rel sh (set a i v) (set a' i v').
Proof.
  intros [L H] x E. apply set_inv in E as E'. destruct E' as (Lt & Lx & G). exists (upd a' i (Some v')). split; [apply set_ok; lia|].
  split; [rewrite upd_length; congruence|]. intros j w. rewrite G, get_upd by lia. destruct (j =? i); eauto.
Qed.
Lemma rel_eq {T} (m : option T) : rel eq m m.
Proof. intros x E. eauto. Qed.

Lemma rel_range {St} (R : St -> St -> Prop) n : forall lo body body' s s',
  (forall i s s', lo <= i < lo + n -> R s s' -> rel R (body i s) (body' i s')) -> R s s' -> rel R (for_loop lo n body s) (for_loop lo n body' s').
Proof.
  induction n as [|n IH]; intros lo body body' s s' H Rs; cbn [for_loop]; [apply rel_ret; auto|].
  eapply rel_bind; [apply H; [lia|eauto]|]. intros; apply IH; auto. intros; apply H; auto. lia.
Qed.
Lemma rel_for_range {St} (R : St -> St -> Prop) lo hi body body' s s' :
  (forall i s s', lo <= i < hi -> R s s' -> rel R (body i s) (body' i s')) -> R s s' -> rel R (for_ lo hi body s) (for_ lo hi body' s').
Proof. intros H. apply rel_range. intros; apply H; auto; lia. Qed.

Ltac eqb := eapply rel_bind; [apply rel_eq|intros ? ? <-].

Definition sh4 (s s' : arr nat * arr nat * arr F * arr nat) : Prop :=
  let '(w, ir, pr, mp) := s in let '(w', ir', pr', mp') := s' in w' = w /\ ir' = ir /\ sh pr pr' /\ mp' = mp.

Lemma sh4_intro w ir pr pr' mp : sh pr pr' -> sh4 (w, ir, pr, mp) (w, ir, pr', mp).
Proof. intros H. unfold sh4. csplit; auto. Qed.

Lemma transpose_pat M M' mp : wf_sp M -> wf_sp M' -> same_pattern M M' ->
  rel (fun r r' => shM (fst r) (fst r') /\ snd r' = snd r) (transposeSparseMatrix M mp) (transposeSparseMatrix M' mp).
Proof.
  intros W W' (E1 & E2 & E3 & E4 & E5). unfold transposeSparseMatrix. rewrite E2, E3, E4, E5. eqb.
  destruct (Nat.eqb (sp_nnz M) 0); [apply rel_ret; split; [split; [repeat split|apply sh_refl]|reflexivity]|].
  eqb. eqb. eqb. destruct x2 as [jc w]. eapply rel_bind with (R := sh4).
  - apply rel_for_range; [|apply sh4_intro, sh_refl].
    intros j s s' Hj Hs. unfold col_loop. rewrite E1. intros r. 
    destruct (get (sp_jc M) j) as [lo|] eqn:El; [|discriminate]. destruct (get (sp_jc M) (j + 1)) as [hi|] eqn:Eh; [|discriminate]. cbn [bind]. revert r.
    apply rel_for_range; [|exact Hs].
    intros k [[[w1 ir1] pr1] mp1] [[[w2 ir2] pr2] mp2] Hk (-> & -> & Hpr & ->). eqb. eqb. eqb. eqb.
    destruct (wf_pr M' W' k) as [v' Ev].
    { rewrite E5. apply (in_col_nnz M j k W). unfold in_col. rewrite (gd_get _ _ _ _ El), (gd_get _ _ _ _ Eh). lia. }
    rewrite Ev. intros r. destruct (get (sp_pr M) k) as [v|]; [|discriminate]. cbn [bind]. revert r.
    eapply rel_bind; [apply rel_set_sh; exact Hpr|]. intros p p' Hp. eqb. apply rel_ret. apply sh4_intro; auto.
  - intros [[[w1 ir1] pr1] mp1] [[[w2 ir2] pr2] mp2] (-> & -> & Hpr & ->). apply rel_ret. split; [|reflexivity]. split; [repeat split|exact Hpr].
Qed.

Lemma permute_pat M M' pinv C C' PK : shM M M' -> shM C C' ->
  rel (fun r r' => shM (fst r) (fst r') /\ snd r' = snd r) (permuteSparseSymmetricMatrix M pinv C PK) (permuteSparseSymmetricMatrix M' pinv C' PK).
Proof.
  intros [(E1 & E2 & E3 & E4 & E5) EP] [(D1 & D2 & D3 & D4 & D5) DP]. unfold permuteSparseSymmetricMatrix. rewrite E2, E3, D1, D2, D3, D4, D5. unfold col_loop. rewrite E1.
  eqb. eqb. eqb. destruct x1 as [jc w]. eapply rel_bind with (R := sh4).
  - apply rel_for_range; [|apply sh4_intro; auto].
    intros j s s' Hj Hs. eqb. eqb. eqb. apply rel_for_range; [|exact Hs].
    intros k [[[w1 ir1] pr1] mp1] [[[w2 ir2] pr2] mp2] Hk (-> & -> & Hpr & ->). eqb. destruct (j <? x4); [apply rel_ret, sh4_intro; auto|]. eqb. cbv zeta. eqb. eqb. eqb.
    eapply rel_bind; [apply rel_get_sh; exact EP|]. intros v v' _.
    eapply rel_bind; [apply rel_set_sh; exact Hpr|]. intros p p' Hp. eqb. apply rel_ret. apply sh4_intro; auto.
  - intros [[[w1 ir1] pr1] mp1] [[[w2 ir2] pr2] mp2] (-> & -> & Hpr & ->). apply rel_ret. split; [|reflexivity]. split; [repeat split; auto|exact Hpr].
Qed.

(* the matrix under construction *)
Definition shk (s s' : kst) : Prop := ks_jc s' = ks_jc s /\ ks_ir s' = ks_ir s /\ ks_k s' = ks_k s /\ sh (ks_pr s) (ks_pr s').
Definition sh3 (s s' : kst * nat * arr nat) : Prop :=
  let '(st, i, toK) := s in let '(st', i', toK') := s' in shk st st' /\ i' = i /\ toK' = toK.
Lemma kput_pat s s' r v v' : shk s s' -> rel shk (kput s r v) (kput s' r v').
Proof.
  intros (E1 & E2 & E3 & E4). unfold kput. rewrite E1, E2, E3. eqb. eapply rel_bind; [apply rel_set_sh; exact E4|]. intros p p' Hp. apply rel_ret. repeat (split; auto).
Qed.
Lemma kopen_pat s s' c : shk s s' -> rel shk (kopen s c) (kopen s' c).
Proof. intros (E1 & E2 & E3 & E4). unfold kopen. rewrite E1, E2, E3. eqb. apply rel_ret. repeat (split; auto). Qed.
Lemma kcol_pat M M' j col s s' : shM M M' -> sh3 s s' -> rel sh3 (kcol M j col s) (kcol M' j col s').
Proof.
  intros [(E1 & E2 & E3 & E4 & E5) EP]. destruct s as [[st i] toK], s' as [[st' i'] toK']. intros (Hs & -> & ->). unfold kcol. rewrite E1, E2. eqb. eqb.
  destruct (_ <=? _)%nat; [|apply rel_ret; repeat (split; auto)]. eapply rel_bind; [apply kopen_pat; exact Hs|]. intros st1 st1' H1.
  apply rel_for_range; [|repeat (split; auto)]. clear - E1 E2 EP. intros k [[st i] toK] [[st' i'] toK'] _ (Hs & -> & ->). eqb.
  eapply rel_bind; [apply rel_get_sh; exact EP|]. intros v v' _. pose proof Hs as (_ & _ & Ek & _). rewrite Ek. eqb.
  eapply rel_bind; [apply kput_pat; exact Hs|]. intros st1 st1' H1. apply rel_ret. repeat (split; auto).
Qed.

Definition shx {T} (x x' : kst * nat * arr nat * T) : Prop := sh3 (fst x) (fst x') /\ snd x' = snd x.
Definition shl {T} (x x' : T * (kst * nat * arr nat)) : Prop := fst x' = fst x /\ sh3 (snd x) (snd x').
Lemma kk_eq s s' : shk s s' -> ks_k s' = ks_k s. Proof. intros H; apply H. Qed.

Lemma kkt_soc_pat M M' c base cs s s' : shM M M' -> sh3 s s' -> rel shl (kkt_soc M c base cs s) (kkt_soc M' c base cs s').
Proof.
  intros HM Hs. unfold kkt_soc. eapply rel_bind with (R := shx).
  - apply rel_for_range; [|split; auto]. intros j [s1 d] [s1' d'] _ [H1 E]. cbn [fst snd] in *. subst d'.
    eapply rel_bind; [apply kcol_pat; eauto|]. intros [[st i] toK] [[st' i'] toK'] (Hk & -> & ->). rewrite (kk_eq _ _ Hk). eqb.
    eapply rel_bind; [apply kput_pat; exact Hk|]. intros st1 st1' H2. apply rel_ret. repeat (split; auto).
  - intros [[[st i] toK] d] [[[st' i'] toK'] d'] [(Hk & -> & ->) E]. cbn [fst snd] in *. subst d'.
    eapply rel_bind; [apply kopen_pat; exact Hk|]. clear Hk st st'. intros st st' Hk.
    eapply rel_bind; [apply rel_for_range; [|exact Hk]; intros; apply kput_pat; assumption|]. clear Hk st st'. intros st st' Hk.
    eapply rel_bind; [apply kput_pat; exact Hk|]. clear Hk st st'. intros st st' Hk.
    eapply rel_bind; [apply kopen_pat; exact Hk|]. clear Hk st st'. intros st st' Hk.
    eapply rel_bind; [apply rel_for_range; [|exact Hk]; intros; apply kput_pat; assumption|]. clear Hk st st'. intros st st' Hk.
    eapply rel_bind; [apply kput_pat; exact Hk|]. clear Hk st st'. intros st st' Hk.
    apply rel_ret. repeat (split; auto).
Qed.
Lemma kkt_socs_pat M M' l : shM M M' -> forall base cs s s', sh3 s s' -> rel shl (kkt_socs M l base cs s) (kkt_socs M' l base cs s').
Proof.
  intros HM. induction l as [|c l IH]; intros base cs s s' Hs; cbn [kkt_socs]; [apply rel_ret; split; auto|].
  eapply rel_bind; [apply kkt_soc_pat; eauto|]. intros [d s1] [d' s1'] [E H1]. cbn [fst snd] in *. subst d'.
  eapply rel_bind; [apply IH; exact H1|]. intros [t s2] [t' s2'] [E H2]. cbn [fst snd] in *. subst t'. apply rel_ret. split; auto.
Qed.
Lemma kkt_exp_pat M M' e base cs s s' : shM M M' -> sh3 s s' -> rel shl (kkt_exp M e base cs s) (kkt_exp M' e base cs s').
Proof.
  intros HM Hs. unfold kkt_exp. eapply rel_bind with (R := shx).
  - apply rel_for_range; [|split; auto]. intros j [s1 d] [s1' d'] _ [H1 E]. cbn [fst snd] in *. subst d'.
    eapply rel_bind; [apply kcol_pat; eauto|]. intros [[st i] toK] [[st' i'] toK'] (Hk & -> & ->). rewrite (kk_eq _ _ Hk). eqb.
    eapply rel_bind; [apply rel_for_range; [|exact Hk]; intros; apply kput_pat; assumption|]. clear Hk st st'. intros st st' Hk.
    eapply rel_bind; [apply kput_pat; exact Hk|]. intros st1 st1' H2. apply rel_ret. repeat (split; auto).
  - intros [s1 d] [s1' d'] [H1 E]. cbn [fst snd] in *. subst d'. apply rel_ret. split; auto.
Qed.
Lemma kkt_exps_pat M M' l : shM M M' -> forall base cs s s', sh3 s s' -> rel shl (kkt_exps M l base cs s) (kkt_exps M' l base cs s').
Proof.
  intros HM. induction l as [|c l IH]; intros base cs s s' Hs; cbn [kkt_exps]; [apply rel_ret; split; auto|].
  eapply rel_bind; [apply kkt_exp_pat; eauto|]. intros [d s1] [d' s1'] [E H1]. cbn [fst snd] in *. subst d'.
  eapply rel_bind; [apply IH; exact H1|]. intros [t s2] [t' s2'] [E H2]. cbn [fst snd] in *. subst t'. apply rel_ret. split; auto.
Qed.

Definition shA (A A' : option (spmat F)) : Prop := match A, A' with Some A, Some A' => shM A A' | None, None => True | _, _ => False end.
Definition shK (r r' : arr Z * spmat F * arr nat * arr nat * cone F) : Prop :=
  let '(Sg, K, a, g, C) := r in let '(Sg', K', a', g', C') := r' in Sg' = Sg /\ shM K K' /\ a' = a /\ g' = g /\ C' = C.

Lemma createKKT_pat Gt Gt' At At' C a g : shM Gt Gt' -> shA At At' -> rel shK (createKKT_U Gt At C a g) (createKKT_U Gt' At' C a g).
Proof.
  intros HG HA. pose proof HG as [(_ & _ & E3 & E4 & E5) _]. unfold createKKT_U. rewrite E3, E4, E5.
  assert (EA : match At' with Some At => sp_n At | None => 0 end = match At with Some At => sp_n At | None => 0 end /\
               match At' with Some At => sp_nnz At | None => 0 end = match At with Some At => sp_nnz At | None => 0 end).
  { destruct At, At'; cbn in HA; try contradiction; auto. destruct HA as [(_ & _ & X & _ & Y) _]. auto. }
  destruct EA as [-> ->]. cbv zeta. set (p := match At with Some At => sp_n At | None => 0 end). set (nnzA := match At with Some At => sp_nnz At | None => 0 end).
  eqb. eapply rel_bind with (R := shk).
  { apply rel_for_range; [|repeat (split; auto using sh_refl)]. intros j st st' _ (E1 & E2 & Ek & Ep). rewrite E1, E2, Ek. eqb. eqb.
    eapply rel_bind; [apply rel_set_sh; exact Ep|]. intros pr pr' Hp. apply rel_ret. repeat (split; auto). }
  intros st st' Hk. eapply rel_bind with (R := sh3).
  { apply rel_for_range; [|repeat (split; auto)]. intros j s s' _ Hs. destruct At as [At|], At' as [At'|]; cbn in HA; try contradiction; cbn [bind]; [|apply rel_none].
    eapply rel_bind; [apply kcol_pat; eauto|]. intros [[st1 i] toK] [[st1' i'] toK'] (H1 & -> & ->).
    eapply rel_bind; [apply kput_pat; exact H1|]. intros st2 st2' H2. apply rel_ret. repeat (split; auto). }
  clear Hk st st'. intros [[st i0] toA] [[st' i0'] toA'] (Hk & -> & ->). eapply rel_bind with (R := shx).
  { apply rel_for_range; [|repeat (split; auto)]. intros j [s1 d] [s1' d'] _ [H1 E]. cbn [fst snd] in *. subst d'.
    eapply rel_bind; [apply kcol_pat; eauto|]. intros [[st1 i] toK] [[st1' i'] toK'] (H2 & -> & ->). rewrite (kk_eq _ _ H2). eqb.
    eapply rel_bind; [apply kput_pat; exact H2|]. intros st2 st2' H3. apply rel_ret. repeat (split; auto). }
  clear Hk st st'. intros [s idx] [s' idx'] [Hs E]. cbn [fst snd] in *. subst idx'.
  eapply rel_bind; [apply kkt_socs_pat; eauto|]. clear Hs s s'. intros [soc s] [soc' s'] [E Hs]. cbn [fst snd] in *. subst soc'.
  eapply rel_bind; [apply kkt_exps_pat; eauto|]. clear Hs s s'. intros [ex s] [ex' s'] [E Hs]. cbn [fst snd] in *. subst ex'.
  destruct s as [[st i] toK], s' as [[st' i'] toK']. destruct Hs as ((E1 & E2 & Ek & Ep) & -> & ->). unfold ecoscreateSparseMatrix. rewrite E1, E2.
  intros r. destruct (set (ks_jc st) _ _) as [jc|]; [|discriminate]. cbn [bind]. intros [= <-]. eexists. split; [reflexivity|]. repeat (split; auto). 
Qed.

Lemma pat_refl {T} (M : spmat T) : same_pattern M M. Proof. repeat split. Qed.
Lemma patA_refl {T} (M : option (spmat T)) : same_patternA M M. Proof. destruct M; cbn; auto using pat_refl. Qed.
Lemma pat_trans {T} (M M' M'' : spmat T) : same_pattern M M' -> same_pattern M' M'' -> same_pattern M M''.
Proof. unfold same_pattern. intuition congruence. Qed.
Lemma pat_sym {T} (M M' : spmat T) : same_pattern M M' -> same_pattern M' M.
Proof. unfold same_pattern. intuition congruence. Qed.
Lemma patA_trans {T} (M M' M'' : option (spmat T)) : same_patternA M M' -> same_patternA M' M'' -> same_patternA M M''.
Proof. destruct M, M', M''; cbn; eauto using pat_trans; contradiction. Qed.
Lemma patA_sym {T} (M M' : option (spmat T)) : same_patternA M M' -> same_patternA M' M.
Proof. destruct M, M'; cbn; auto using pat_sym. Qed.
Lemma equil_pat_ex C A G b h xe Ae Ge : wf_sp G -> wfA A (sp_n G) -> sp_m G = msize C ->
  sp_n G <= length xe -> rowsA A <= length Ae -> sp_m G <= length Ge -> full b (rowsA A) -> full h (sp_m G) ->
  exists A' G' b' h' xe' Ae' Ge', set_equilibration C A G b h (xe, Ae, Ge) = Some (A', G', b', h', (xe', Ae', Ge')) /\
  same_patternA A A' /\ same_pattern G G' /\ length xe' = length xe /\ length Ae' = length Ae /\ length Ge' = length Ge /\
  wf_sp G' /\ wfA A' (sp_n G').
Proof.
  intros WG WA HM H1 H2 H3 FB FH.
  destruct (set_equilibration_eq (fun _ => True) (fun _ => True) (fun _ => True) ltac:(auto) ltac:(auto) I ltac:(auto) ltac:(auto)
      C A G b h xe Ae Ge (gd f0 b) (gd f0 h))
    as (A' & G' & b' & h' & xe' & Ae' & Ge' & x1 & x2 & x3 & a1 & a2 & a3 & g1 & g2 & g3 & ES & Lx & La & Lg & SA & SG & _); auto.
  { intros ? ? ? ?; exact I. } { destruct A; cbn; auto. intros ? ? ? ?; exact I. } { apply full_vec; auto. } { apply full_vec; auto. }
  pose proof (rescaled_wf _ _ _ SG WG) as WG'. pose proof (rescaledA_wf _ _ _ _ SA WA) as WA'.
  exists A', G', b', h', xe', Ae', Ge'. csplit; auto.
  - destruct A, A'; cbn in *; try contradiction; auto. destruct SA; repeat split; auto.
  - destruct SG; repeat split; auto.
  - rewrite (rs_n _ _ _ SG). exact WA'.
Qed.

Lemma equil_pat C A G b h xe Ae Ge A' G' b' h' xe' Ae' Ge' : wf_sp G -> wfA A (sp_n G) -> sp_m G = msize C ->
  sp_n G <= length xe -> rowsA A <= length Ae -> sp_m G <= length Ge -> full b (rowsA A) -> full h (sp_m G) ->
  set_equilibration C A G b h (xe, Ae, Ge) = Some (A', G', b', h', (xe', Ae', Ge')) ->
  same_patternA A A' /\ same_pattern G G' /\ length xe' = length xe /\ length Ae' = length Ae /\ length Ge' = length Ge /\
  wf_sp G' /\ wfA A' (sp_n G').
Proof.
  intros H1 H2 H3 H4 H5 H6 H7 H8 E. destruct (equil_pat_ex C A G b h xe Ae Ge H1 H2 H3 H4 H5 H6 H7 H8) as (A2 & G2 & b2 & h2 & xe2 & Ae2 & Ge2 & E' & X).
  rewrite E in E'. injection E' as <- <- <- <- <- <- <-. exact X.
Qed.

(* what a workspace holds besides numbers *)
Lemma setup_pat amd junk junk2 n m p l q e G0 A0 G1 A1 c h b c1 h1 b1 w :
  valid_data n m p q G0 A0 c h b -> valid_data n m p q G1 A1 c1 h1 b1 -> same_pattern G0 G1 -> same_patternA A0 A1 ->
  ECOS_setup amd junk n m p l q e (data_of G0) (option_map data_of A0) c h b = Some (Some w) ->
  exists w2, ECOS_setup amd junk2 n m p l q e (data_of G1) (option_map data_of A1) c1 h1 b1 = Some (Some w2) /\
    w_n w2 = w_n w /\ w_m w2 = w_m w /\ w_p w2 = w_p w /\ w_D w2 = w_D w /\ w_AtoK w2 = w_AtoK w /\ w_GtoK w2 = w_GtoK w /\
    symC (w_C w2) = symC (w_C w) /\ symP (w_KKT w2) = symP (w_KKT w) /\ same_patternA (w_A w) (w_A w2) /\ same_pattern (w_G w) (w_G w2) /\
    length (w_xequil w2) = length (w_xequil w) /\ length (w_Aequil w2) = length (w_Aequil w) /\ length (w_Gequil w2) = length (w_Gequil w).
Proof.
  intros [V1 V2 V3 V4 V5 V6 V7 V8 V9] [U1 U2 U3 U4 U5 U6 U7 U8 U9] SG SA E. unfold ECOS_setup in *. destruct (negb _) eqn:EN; [discriminate|].
  apply negb_false_iff, Nat.eqb_eq in EN.
  pose proof (mkA_ok n p A0 V5) as EA. unfold mkA in EA. rewrite EA in E. clear EA. cbn [bind] in E.
  pose proof (mkG_ok n m G0 V1 V2 V3) as EG. unfold mkG in EG. rewrite EG in E. clear EG. cbn [bind] in E.
  pose proof (mkA_ok n p A1 U5) as EA. unfold mkA in EA. rewrite EA. clear EA. cbn [bind].
  pose proof (mkG_ok n m G1 U1 U2 U3) as EG. unfold mkG in EG. rewrite EG. clear EG. cbn [bind].
  assert (RA : forall A : option (spmat F), okA n p A -> rowsA A = p /\ wfA A n).
  { intros A HA. unfold okA in HA. destruct A; cbn; intuition. }
  assert (MS : m = msize (new_cone l q e)).
  { rewrite new_msize. lia. }
  destruct (equil_pat_ex (new_cone l q e) A0 G0 b h (alloc n) (alloc p) (alloc m)) as (A' & G' & b' & h' & xe & Ae & Ge & ES & PA & PG & L1 & L2 & L3 & W1 & W2);
    rewrite ?V2, ?V3, ?(proj1 (RA _ V5)), ?alloc_length; auto; [apply RA; auto|].
  destruct (equil_pat_ex (new_cone l q e) A1 G1 b1 h1 (alloc n) (alloc p) (alloc m)) as (A2 & G2 & b2 & h2 & xe2 & Ae2 & Ge2 & ES2 & PA2 & PG2 & K1 & K2 & K3 & X1 & X2);
    rewrite ?U2, ?U3, ?(proj1 (RA _ U5)), ?alloc_length; auto; [apply RA; auto|].
  rewrite ES in E. rewrite ES2. cbn [bind] in *. cbv beta iota in *.
  assert (SG' : same_pattern G' G2) by exact (pat_trans _ _ _ (pat_sym _ _ PG) (pat_trans _ _ _ SG PG2)).
  assert (SA' : same_patternA A' A2) by exact (patA_trans _ _ _ (patA_sym _ _ PA) (patA_trans _ _ _ SA PA2)).
  assert (TA : rel (fun r r' => shA (fst r) (fst r') /\ snd r' = snd r)
    (match A' with Some A => '(At, mp) <- transposeSparseMatrix A (alloc (sp_nnz A)) ;; Some (Some At, mp) | None => Some (None, []) end)
    (match A2 with Some A => '(At, mp) <- transposeSparseMatrix A (alloc (sp_nnz A)) ;; Some (Some At, mp) | None => Some (None, []) end)).
  { destruct A' as [A'|], A2 as [A2|]; cbn in SA'; try contradiction; [|apply rel_ret; cbn; auto]. pose proof SA' as (_ & _ & _ & _ & ->).
    eapply rel_bind; [apply transpose_pat; [apply W2|apply X2|exact SA']|]. intros [At mp] [At' mp'] [Hr E']. cbn [fst snd] in *. subst mp'. apply rel_ret. split; auto. }
  assert (NA : match A2 with Some A => sp_nnz A | None => 0 end = match A' with Some A => sp_nnz A | None => 0 end).
  { destruct A', A2; cbn in SA'; try contradiction; auto. apply SA'. }
  pose proof SG' as (_ & _ & _ & _ & NG). rewrite NA, NG.
  match type of E with bind ?m _ = _ => destruct m as [[At AtoAt]|] eqn:EA; [|discriminate E] end. cbn [bind] in E. 
  destruct (TA _ eq_refl) as ([At2 mp] & EA2 & TA' & Emp). cbn [fst snd] in *. subst mp. rewrite EA2. cbn [bind]. clear TA EA EA2.
  pose proof (transpose_pat G' G2 (alloc (sp_nnz G')) W1 X1 SG') as TG.
  match type of E with bind ?m _ = _ => destruct m as [[Gtr GtoGt]|] eqn:EG; [|discriminate E] end. cbn [bind] in E. 
  destruct (TG _ eq_refl) as ([Gtr2 mp] & EG2 & TG' & Emp). cbn [fst snd] in *. subst mp. rewrite EG2. cbn [bind]. clear TG EG EG2.
  pose proof (createKKT_pat Gtr Gtr2 At At2 (new_cone l q e) (alloc (match A' with Some A => sp_nnz A | None => 0 end)) (alloc (sp_nnz G')) TG' TA') as KP.
  match type of E with bind ?m _ = _ => destruct m as [[[[[Sg KU] AttoK] GttoK] C]|] eqn:EK; [|discriminate E] end. cbn [bind] in E. 
  destruct (KP _ eq_refl) as ([[[[Sg2 KU2] AttoK2] GttoK2] C2] & EK2 & (-> & HK & -> & -> & ->)). rewrite EK2. cbn [bind]. clear KP EK EK2.
  pose proof HK as [(KE1 & KE2 & KE3 & KE4 & KE5) _]. rewrite KE1, KE2, KE3, KE5.
  match type of E with bind ?m _ = _ => destruct m as [AtoK|] eqn:EAK; [|discriminate E] end. cbn [bind] in *. 
  match type of E with bind ?m _ = _ => destruct m as [GtoK|] eqn:EGK; [|discriminate E] end. cbn [bind] in *. 
  match type of E with bind ?m _ = _ => destruct m as [PKPt|] eqn:EN1; [|discriminate E] end. cbn [bind] in *. 
  destruct (amd _ _ _) as [P|]; [|discriminate E].
  match type of E with bind ?m _ = _ => destruct m as [Pinv|] eqn:EPi; [|discriminate E] end. cbn [bind] in *. 
  pose proof (permute_pat KU KU2 Pinv PKPt PKPt (alloc (sp_nnz KU)) HK (conj (pat_refl _) (sh_refl _))) as PP.
  match type of E with bind ?m _ = _ => destruct m as [[PK1 PK]|] eqn:EP1; [|discriminate E] end. cbn [bind] in E. 
  destruct (PP _ eq_refl) as ([PK2 mp] & EP2 & HP & Emp). cbn [fst snd] in *. subst mp. rewrite EP2. cbn [bind]. clear PP.
  pose proof HP as [(PE1 & PE2 & PE3 & PE4 & PE5) _]. rewrite PE1, PE2.
  match type of E with bind ?m _ = _ => destruct m as [SignP|] eqn:ESi; [|discriminate E] end. cbn [bind] in *. 
  match type of E with bind ?m _ = _ => destruct m as [[[[Ljc Parent] Lnz] Flag]|] eqn:ELs; [|discriminate E] end. cbn [bind] in *. 
  match type of E with bind ?m _ = _ => destruct m as [lnz|] eqn:ELn; [|discriminate E] end. cbn [bind] in *. 
  match type of E with bind ?m _ = _ => destruct m as [L|] eqn:EL; [|discriminate E] end. cbn [bind] in *. 
  pose proof (permute_pat KU KU2 Pinv PK1 PK2 (alloc (sp_nnz KU)) HK HP) as PP.
  match type of E with bind ?m _ = _ => destruct m as [[PK3 PK']|] eqn:EP3; [|discriminate E] end. cbn [bind] in E. 
  destruct (PP _ eq_refl) as ([PK4 mp] & EP4 & HP2 & Emp). cbn [fst snd] in *. subst mp. rewrite EP4. cbn [bind]. clear PP.
  injection E as <-. eexists. split; [reflexivity|]. wcbn. destruct HP2 as [(Q1 & Q2 & Q3 & Q4 & Q5) [Q6 _]].
  csplit; auto; try congruence. unfold symP. wcbn. congruence.
Qed.
End Pat.
