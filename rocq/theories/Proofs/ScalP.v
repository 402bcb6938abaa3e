(* updateScalings for every arithmetic: what is computed and that it is safe. *)
From Coq Require Import List Arith Bool ZArith QArith Lia.
From Verif Require Import Base Num.
From Verif.Spec Require Import Matrix.
From Verif.Model Require Import Spla Types Consts Expcone Cone.
From Verif.Proofs Require Import LoopLib ConeP.
Import ListNotations.
Open Scope nat_scope.

Section ScalP.
Context `{O : Ops}.
Local Open Scope fl_scope.

(* ------------------------------------------------- one second-order cone *)
Section Soc.
Variables (p : nat) (s z : nat -> F).
Definition nt_sb (i : nat) : F := safediv (s i) (fsqrt (socres_f p s)).
Definition nt_zb (i : nat) : F := safediv (z i) (fsqrt (socres_f p z)).
Definition nt_es : F := safediv (fsqrt (socres_f p s)) (fsqrt (socres_f p z)).
Definition nt_eta : F := fsqrt nt_es.
Definition nt_gamma : F := fsqrt (half * nfold 0 p (fun i g => g + nt_sb i * nt_zb i) f1).
Definition nt_g2 : F := safediv half nt_gamma.
Definition nt_a : F := nt_g2 * (nt_sb 0%nat + nt_zb 0%nat).
Definition nt_q (i : nat) : F := nt_g2 * (nt_sb (S i) - nt_zb (S i)).
Definition nt_w : F := nfold 1 (p - 1) (fun i w => w + nt_q (i - 1)%nat * nt_q (i - 1)%nat) f0.
End Soc.
(* the numbers of the sparse expansion, from a and w *)
Section Exp.
Variables (a w : F).
Definition nt_c : F := f1 + a + safediv w (f1 + a).
Definition nt_d : F := f1 + safediv f2 (f1 + a) + safediv w ((f1 + a) * (f1 + a)).
Definition nt_d1r : F := half * (a * a + w * (f1 - safediv (nt_c * nt_c) (f1 + w * nt_d))).
Definition nt_d1 : F := if nt_d1r <? f0 then f0 else nt_d1r.
Definition nt_u0s : F := a * a + w - nt_d1.
Definition nt_u0 : F := fsqrt nt_u0s.
Definition nt_c2 : F := safediv (nt_c * nt_c) nt_u0s.
Definition nt_u1 : F := fsqrt nt_c2.
Definition nt_v1 : F := fsqrt (nt_c2 - nt_d).
Definition nt_bad : bool := nt_c2 - nt_d <=? f0.
End Exp.

(* the test for OUTSIDE_CONE *)
Definition nt_out (p : nat) (s z : nat -> F) : bool :=
  (socres_f p s <=? f0) || (socres_f p z <=? f0) || nt_bad (nt_a p s z) (nt_w p s z).

(* sizes and the fields that are never written *)
Definition soc_sim (c c' : socone F) : Prop :=
  so_p c' = so_p c /\ so_Didx c' = so_Didx c /\ length (so_q c') = length (so_q c) /\
  length (so_skbar c') = length (so_skbar c) /\ length (so_zkbar c') = length (so_zkbar c).

Record soc_upd (s z : nat -> F) (c' : socone F) : Prop := {
  su_a : so_a c' = Some (nt_a (so_p c') s z);
  su_w : so_w c' = Some (nt_w (so_p c') s z);
  su_eta : so_eta c' = Some (nt_eta (so_p c') s z);
  su_es : so_eta_square c' = Some (nt_es (so_p c') s z);
  su_q : forall i, (i < so_p c' - 1)%nat -> get (so_q c') i = Some (nt_q (so_p c') s z i);
  su_sb : forall i, (i < so_p c')%nat -> get (so_skbar c') i = Some (nt_sb (so_p c') s i);
  su_zb : forall i, (i < so_p c')%nat -> get (so_zkbar c') i = Some (nt_zb (so_p c') z i);
  su_d1 : so_d1 c' = Some (nt_d1 (nt_a (so_p c') s z) (nt_w (so_p c') s z));
  su_u0 : so_u0 c' = Some (nt_u0 (nt_a (so_p c') s z) (nt_w (so_p c') s z));
  su_u1 : so_u1 c' = Some (nt_u1 (nt_a (so_p c') s z) (nt_w (so_p c') s z));
  su_v1 : so_v1 c' = Some (nt_v1 (nt_a (so_p c') s z) (nt_w (so_p c') s z))
}.

Lemma updateSoc_eq c s z sf zf k n : vec s n sf -> vec z n zf -> k + so_p c <= n -> 1 <= so_p c ->
  length (so_q c) = (so_p c - 1)%nat -> length (so_skbar c) = so_p c -> length (so_zkbar c) = so_p c ->
  exists c', updateSoc c s z k = Some (nt_out (so_p c) (sh k sf) (sh k zf), c') /\ soc_sim c c' /\
    (nt_out (so_p c) (sh k sf) (sh k zf) = false -> soc_upd (sh k sf) (sh k zf) c').
Proof.
  intros Hs Hz Hk Hp Lq Lsk Lzk. unfold updateSoc. cbv zeta.
  rewrite (socres_eq s n sf), (socres_eq z n zf) by auto. cbn [bind].
  unfold nt_out at 1 2.
  destruct ((socres_f (so_p c) (sh k sf) <=? f0) || (socres_f (so_p c) (sh k zf) <=? f0)).
  { exists c. split; [reflexivity|]. split; [repeat split|discriminate]. }
  cbn [orb].
  set (p := so_p c) in *. set (u := sh k sf). set (v := sh k zf).
  destruct (for_fill (nt_sb p u) 0 0 p
    (fun i a => si <- get s (k + i)%nat ;; set a i (safediv si (fsqrt (socres_f p u)))) (so_skbar c)) as (sk & E1 & W1);
    [intros; rd; auto|lia|lia|]. rewrite E1. clear E1. cbn [bind].
  destruct (for_fill (nt_zb p v) 0 0 p
    (fun i a => zi <- get z (k + i)%nat ;; set a i (safediv zi (fsqrt (socres_f p v)))) (so_zkbar c)) as (zk & E2 & W2);
    [intros; rd; auto|lia|lia|]. rewrite E2. clear E2. cbn [bind].
  rewrite Nat.sub_0_r in W1, W2.
  assert (Vs: vec sk p (nt_sb p u)) by (intros i Hi; exact (wrote_in _ _ _ _ _ i W1 Hi)).
  assert (Vz: vec zk p (nt_zb p v)) by (intros i Hi; exact (wrote_in _ _ _ _ _ i W2 Hi)).
  rewrite (for_fold (fun i g => g + nt_sb p u i * nt_zb p v i)); [|intros; rd; auto]. cbn [bind].
  rewrite Nat.sub_0_r.
  change (fsqrt (half * nfold 0 p (fun i g => g + nt_sb p u i * nt_zb p v i) f1)) with (nt_gamma p u v).
  change (safediv half (nt_gamma p u v)) with (nt_g2 p u v).
  rd. change (nt_g2 p u v * (nt_sb p u 0 + nt_zb p v 0)) with (nt_a p u v).
  assert (Q: exists q', for_ 1 p (fun i st =>
      let '(q, w) := st in
      si <- get sk i ;; zi <- get zk i ;;
      q <- set q (i - 1)%nat (nt_g2 p u v * (si - zi)) ;;
      qi <- get q (i - 1)%nat ;;
      Some (q, w + qi * qi)) (so_q c, f0) = Some (q', nt_w p u v) /\ length q' = length (so_q c) /\
      vec q' (p - 1) (nt_q p u v)).
  { match goal with |- context [for_ ?a ?b ?c0 ?d] => apply (wp_case (for_ a b c0 d)
       (fun st => length (fst st) = length (so_q c) /\ snd st = nt_w p u v /\ vec (fst st) (p - 1) (nt_q p u v))) end.
    - apply (wp_for (fun i st => length (fst st) = length (so_q c) /\
         snd st = nfold 1 (i - 1) (fun i w => w + nt_q p u v (i - 1)%nat * nt_q p u v (i - 1)%nat) f0 /\
         vec (fst st) (i - 1) (nt_q p u v))).
      + lia.
      + csplit; auto. intros i Hi. lia.
      + intros i [q w] Hi (L & Ew & V). cbn [fst snd] in *. rd.
        destruct (set_wrote (i - 1) (nt_g2 p u v * (nt_sb p u i - nt_zb p v i)) q) as (q2 & E & W); [lia|].
        rewrite E. cbn [bind]. pose proof (wrote_in _ _ _ _ _ 0 W ltac:(lia)) as G0.
        rewrite Nat.add_0_r in G0. rewrite G0. cbn [bind].
        apply (wp_intro _ _ _ eq_refl). cbn [fst snd]. csplit.
        * rewrite (wrote_len _ _ _ _ _ W). auto.
        * replace (S i - 1)%nat with (S (i - 1)) by lia. rewrite nfold_S. rewrite Ew.
          replace (1 + (i - 1) - 1)%nat with (i - 1)%nat by lia.
          unfold nt_q. replace (S (i - 1)) with i by lia. reflexivity.
        * intros j Hj. destruct (Nat.eq_dec j (i - 1)) as [->|N].
          -- rewrite G0. unfold nt_q. replace (S (i - 1)) with i by lia. reflexivity.
          -- rewrite (wrote_out _ _ _ _ _ _ W) by lia. apply V. lia.
      + intros [q w] (L & Ew & V). auto.
    - intros [q w] Em. cbn [fst snd]. intros (L & -> & V). exists q. auto. }
  destruct Q as (q' & EQ & LQ & VQ). rewrite EQ. clear EQ. cbn [bind].
  fold (nt_c (nt_a p u v) (nt_w p u v)). fold (nt_d (nt_a p u v) (nt_w p u v)).
  fold (nt_d1r (nt_a p u v) (nt_w p u v)). fold (nt_d1 (nt_a p u v) (nt_w p u v)).
  fold (nt_u0s (nt_a p u v) (nt_w p u v)). fold (nt_c2 (nt_a p u v) (nt_w p u v)).
  unfold nt_bad.
  destruct (nt_c2 (nt_a p u v) (nt_w p u v) - nt_d (nt_a p u v) (nt_w p u v) <=? f0) eqn:EB.
  - eexists. split; [reflexivity|]. split; [|discriminate].
    split; [|split; [|split; [|split]]]; cbn; auto; [apply (wrote_len _ _ _ _ _ W1)|apply (wrote_len _ _ _ _ _ W2)].
  - eexists. split; [reflexivity|]. split; [|intros _].
    + split; [|split; [|split; [|split]]]; cbn; auto; [apply (wrote_len _ _ _ _ _ W1)|apply (wrote_len _ _ _ _ _ W2)].
    + constructor; cbn; auto.
Qed.

(* --------------------------------------------------- the list of the cones *)
Fixpoint socs_out (l : list (socone F)) (s z : nat -> F) (k : nat) : bool :=
  match l with
  | [] => false
  | c :: t => nt_out (so_p c) (sh k s) (sh k z) || socs_out t s z (k + so_p c)
  end.

Lemma updateSocs_eq s z sf zf n : vec s n sf -> vec z n zf -> forall l k, (k + tot so_p l <= n)%nat ->
  (forall c, In c l -> 1 <= so_p c /\ length (so_q c) = (so_p c - 1)%nat /\
     length (so_skbar c) = so_p c /\ length (so_zkbar c) = so_p c) ->
  exists l', updateSocs l s z k = Some (socs_out l sf zf k, l') /\ Forall2 soc_sim l l' /\
    (socs_out l sf zf k = false -> forall k' c', In (k', c') (lay so_p k l') -> soc_upd (sh k' sf) (sh k' zf) c').
Proof.
  intros Hs Hz. induction l as [|c t IH]; intros k Hk HL; cbn [updateSocs socs_out tot] in *.
  - exists []. split; [auto|]. split; [constructor|]. intros _ k' c' [].
  - destruct (HL c) as (P & Lq & Lsk & Lzk); [left; auto|].
    destruct (updateSoc_eq c s z sf zf k n) as (c' & E & S1 & U); auto; [lia|]. rewrite E. cbn [bind].
    destruct (nt_out (so_p c) (sh k sf) (sh k zf)) eqn:EO; cbn [orb].
    + exists (c' :: t). split; [auto|]. split; [|discriminate]. constructor; auto.
      clear. induction t; constructor; auto. repeat split.
    + destruct (IH (k + so_p c)%nat) as (t' & E2 & S2 & U2); [lia|intros; apply HL; right; auto|].
      rewrite E2. cbn [bind]. exists (c' :: t'). split; [auto|]. split; [constructor; auto|].
      intros Ht k' d [Hd|Hd].
      * injection Hd as <- <-. auto.
      * destruct S1 as (Sp & _). rewrite Sp in Hd. apply (U2 Ht _ _ Hd).
Qed.

(* ------------------------------------------------------- exponential cones *)
Definition list_fun (l : list F) : nat -> F := fun i => nth i l f0.

Lemma evalExpHessian_eq w wf n k v mu : vec w n wf -> (k + 3 <= n)%nat -> length v = 6 ->
  exists v', evalExpHessian w k v mu = Some v' /\ length v' = 6 /\
    vec v' 6 (list_fun (expHess (wf k) (wf (k + 1)%nat) (wf (k + 2)%nat) mu)).
Proof.
  intros Hw Hk L. unfold evalExpHessian. rd.
  set (h := expHess (wf k) (wf (k + 1)%nat) (wf (k + 2)%nat) mu).
  destruct (for_fill (list_fun h) 0 0 6 (fun i v => hi <- nth_error h i ;; set v i hi) v) as (v' & E & W); [|lia|lia|].
  - intros i a' Hi _. unfold list_fun. rewrite (nth_error_nth' h f0); [reflexivity|cbn; lia].
  - rewrite E. exists v'. split; auto. split; [rewrite (wrote_len _ _ _ _ _ W); auto|].
    intros i Hi. exact (wrote_in _ _ _ _ _ i W Hi).
Qed.

Lemma evalExpGradient_eq w wf n k v : vec w n wf -> (k + 3 <= n)%nat -> length v = 3 ->
  exists v', evalExpGradient w k v = Some v' /\ length v' = 3 /\
    vec v' 3 (list_fun (expGrad (wf k) (wf (k + 1)%nat) (wf (k + 2)%nat))).
Proof.
  intros Hw Hk L. unfold evalExpGradient. rd.
  set (h := expGrad (wf k) (wf (k + 1)%nat) (wf (k + 2)%nat)).
  destruct (for_fill (list_fun h) 0 0 3 (fun i v => hi <- nth_error h i ;; set v i hi) v) as (v' & E & W); [|lia|lia|].
  - intros i a' Hi _. unfold list_fun. rewrite (nth_error_nth' h f0); [reflexivity|cbn; lia].
  - rewrite E. exists v'. split; auto. split; [rewrite (wrote_len _ _ _ _ _ W); auto|].
    intros i Hi. exact (wrote_in _ _ _ _ _ i W Hi).
Qed.

Definition exp_sim (e e' : expcone F) : Prop :=
  ex_colstart e' = ex_colstart e /\ length (ex_v e') = length (ex_v e) /\ length (ex_g e') = length (ex_g e).
Record exp_upd (z : nat -> F) (mu : F) (e : expcone F) : Prop := {
  eu_v : vec (ex_v e) 6 (list_fun (expHess (z 0%nat) (z 1%nat) (z 2%nat) mu));
  eu_g : vec (ex_g e) 3 (list_fun (expGrad (z 0%nat) (z 1%nat) (z 2%nat)))
}.

Lemma updateExps_eq z zf n mu : vec z n zf -> forall l k, (k + 3 * length l <= n)%nat ->
  (forall e, In e l -> length (ex_v e) = 6 /\ length (ex_g e) = 3) ->
  exists l', updateExps l z k mu = Some l' /\ Forall2 exp_sim l l' /\
    (forall k' e', In (k', e') (lay (fun _ => 3) k l') -> exp_upd (sh k' zf) mu e').
Proof.
  intros Hz. induction l as [|e t IH]; intros k Hk HL; cbn [updateExps length] in *.
  - exists []. split; [auto|]. split; [constructor|]. intros k' e' [].
  - destruct (HL e) as (Lv & Lg); [left; auto|].
    destruct (evalExpHessian_eq z zf n k (ex_v e) mu) as (v' & E1 & L1 & V1); auto; [lia|]. rewrite E1. cbn [bind].
    destruct (evalExpGradient_eq z zf n k (ex_g e)) as (g' & E2 & L2 & V2); auto; [lia|]. rewrite E2. cbn [bind].
    destruct (IH (k + 3)%nat) as (t' & E3 & S3 & U3); [lia|intros; apply HL; right; auto|]. rewrite E3. cbn [bind].
    eexists. split; [reflexivity|]. split.
    + constructor; auto. repeat split; cbn; congruence.
    + intros k' e' [H|H]; [|apply U3; auto]. injection H as <- <-. constructor; cbn; unfold sh; rewrite ?Nat.add_0_r; auto.
Qed.

(* ---------------------------------------------------------- updateScalings *)
(* same sizes and same positions in the KKT matrix *)
Record csim (C C' : cone F) : Prop := {
  cs_p : lp_p (co_lpc C') = lp_p (co_lpc C);
  cs_idx : lp_kkt_idx (co_lpc C') = lp_kkt_idx (co_lpc C);
  cs_w : length (lp_w (co_lpc C')) = length (lp_w (co_lpc C));
  cs_v : length (lp_v (co_lpc C')) = length (lp_v (co_lpc C));
  cs_soc : Forall2 soc_sim (co_soc C) (co_soc C');
  cs_exp : Forall2 exp_sim (co_expc C) (co_expc C');
  cs_fexv : co_fexv C' = co_fexv C
}.

Lemma soc_sim_refl c : soc_sim c c.
Proof. repeat split. Qed.
Lemma exp_sim_refl c : exp_sim c c.
Proof. repeat split. Qed.
Lemma Forall2_refl {A} (R : A -> A -> Prop) l : (forall x, R x x) -> Forall2 R l l.
Proof. intros H. induction l; constructor; auto. Qed.
Lemma csim_refl C : csim C C.
Proof. constructor; auto; apply Forall2_refl; [apply soc_sim_refl|apply exp_sim_refl]. Qed.

Lemma Forall2_trans {A} (R : A -> A -> Prop) l l' l'' : (forall x y z, R x y -> R y z -> R x z) ->
  Forall2 R l l' -> Forall2 R l' l'' -> Forall2 R l l''.
Proof.
  intros T H. revert l''. induction H; intros l'' H2; inversion H2; subst; constructor; eauto.
Qed.
Lemma csim_trans C C' C'' : csim C C' -> csim C' C'' -> csim C C''.
Proof.
  intros [] []. constructor; try congruence.
  - eapply Forall2_trans; eauto. intros x y z (?&?&?&?&?) (?&?&?&?&?). repeat split; congruence.
  - eapply Forall2_trans; eauto. intros x y z (?&?&?) (?&?&?). repeat split; congruence.
Qed.

Lemma sim_tot l l' : Forall2 soc_sim l l' -> tot so_p l' = tot so_p l.
Proof. induction 1 as [|c c' t t' (E & _) ? IH]; cbn [tot]; congruence. Qed.
Lemma Forall2_in_r {A B} (R : A -> B -> Prop) l l' y : Forall2 R l l' -> In y l' -> exists x, In x l /\ R x y.
Proof.
  induction 1; intros Hi; [destruct Hi|]. destruct Hi as [->|Hi]; [exists x; split; auto; left; auto|].
  destruct IHForall2 as (x' & ? & ?); auto. exists x'. split; auto. right; auto.
Qed.
Lemma csim_lpp C C' : csim C C' -> lpp C' = lpp C.
Proof. intros []. auto. Qed.
Lemma csim_hsize C C' : csim C C' -> hsize C' = hsize C.
Proof. intros []. rewrite !hsize_tot. unfold lpp. rewrite (sim_tot _ _ cs_soc0). congruence. Qed.
Lemma csim_nexc C C' : csim C C' -> nexc C' = nexc C.
Proof. intros []. unfold nexc. clear -cs_exp0. induction cs_exp0; cbn; congruence. Qed.
Lemma csim_msize C C' : csim C C' -> msize C' = msize C.
Proof. intros H. unfold msize. rewrite (csim_hsize _ _ H), (csim_nexc _ _ H). auto. Qed.
Lemma csim_socs C C' : csim C C' -> map so_p (co_soc C') = map so_p (co_soc C).
Proof. intros []. induction cs_soc0 as [|c c' t t' (E & _) ? IH]; cbn; congruence. Qed.

Lemma csim_shape C C' : csim C C' -> shape C -> shape C'.
Proof.
  intros S [W V FX P Q SK ZK EV EG]. pose proof (csim_hsize _ _ S) as HH. destruct S.
  unfold lpp in *. constructor; unfold lpp; try congruence.
  - intros c Hc. destruct (Forall2_in_r _ _ _ _ cs_soc0 Hc) as (x & Hx & (E & _)). rewrite E; auto.
  - intros c Hc. destruct (Forall2_in_r _ _ _ _ cs_soc0 Hc) as (x & Hx & (? & ? & E & _)). rewrite E, H; auto.
  - intros c Hc. destruct (Forall2_in_r _ _ _ _ cs_soc0 Hc) as (x & Hx & (? & ? & ? & E & _)). rewrite E, H; auto.
  - intros c Hc. destruct (Forall2_in_r _ _ _ _ cs_soc0 Hc) as (x & Hx & (? & ? & ? & ? & E)). rewrite E, H; auto.
  - intros c Hc. destruct (Forall2_in_r _ _ _ _ cs_exp0 Hc) as (x & Hx & (? & E & ?)). rewrite E; auto.
  - intros c Hc. destruct (Forall2_in_r _ _ _ _ cs_exp0 Hc) as (x & Hx & (? & ? & E)). rewrite E; auto.
Qed.

Definition eblocks (C : cone F) : list (nat * expcone F) := lay (fun _ => 3) (co_fexv C) (co_expc C).

Record updated (s z : nat -> F) (mu : F) (C : cone F) : Prop := {
  up_v : forall i, (i < lpp C)%nat -> get (lp_v (co_lpc C)) i = Some (safediv (s i) (z i));
  up_w : forall i, (i < lpp C)%nat -> get (lp_w (co_lpc C)) i = Some (fsqrt (safediv (s i) (z i)));
  up_soc : forall k c, In (k, c) (blocks C) -> soc_upd (sh k s) (sh k z) c;
  up_exp : forall k e, In (k, e) (eblocks C) -> exp_upd (sh k z) mu e
}.

Lemma lay_of_in {A} (sz : A -> nat) l : forall k c, In c l -> exists k', In (k', c) (lay sz k l).
Proof.
  induction l as [|x t IH]; intros k c H; [destruct H|]. destruct H as [->|H].
  - exists k. left; auto.
  - destruct (IH (k + sz x)%nat c H) as (k' & H'). exists k'. right; auto.
Qed.

Lemma vec_gd (a : arr F) n f : vec a n f -> vec a n (gd f0 a).
Proof. intros H i Hi. unfold gd. rewrite H by auto. auto. Qed.

Lemma updated_scaled s z mu C : updated s z mu C -> scaled C.
Proof.
  intros [V W SO EX]. constructor.
  - eapply (vec_gd _ _ (fun i => fsqrt (safediv (s i) (z i)))). exact W.
  - eapply (vec_gd _ _ (fun i => safediv (s i) (z i))). exact V.
  - intros c Hc. destruct (lay_of_in so_p _ (lpp C) c Hc) as (k & Hk). destruct (SO _ _ Hk).
    constructor; try (match goal with H : ?x = Some _ |- ?x = _ => rewrite H; reflexivity end).
    eapply vec_gd. exact su_q0.
  - intros e He. destruct (lay_of_in (fun _ => 3) _ (co_fexv C) e He) as (k & Hk). destruct (EX _ _ Hk). eapply vec_gd; eauto.
  - intros e He. destruct (lay_of_in (fun _ => 3) _ (co_fexv C) e He) as (k & Hk). destruct (EX _ _ Hk). eapply vec_gd; eauto.
Qed.

Lemma updateScalings_eq C s z sf zf lambda mu : shape C ->
  vec s (msize C) sf -> vec z (msize C) zf -> (hsize C <= length lambda)%nat ->
  exists C' lambda', updateScalings C s z lambda mu = Some (socs_out (co_soc C) sf zf (lpp C), C', lambda') /\
    csim C C' /\ length lambda' = length lambda /\
    (socs_out (co_soc C) sf zf (lpp C) = true -> lambda' = lambda) /\
    (socs_out (co_soc C) sf zf (lpp C) = false -> updated sf zf mu C' /\
      filled C' (fun i => gd f0 (lp_w (co_lpc C')) i * zf i) (fun k c => scale_f c (sh k zf)) lambda lambda').
Proof.
  intros SH Hs Hz Hl. pose proof SH as [Lw Lv FX P Q SK ZK EV EG].
  assert (M: (lpp C <= hsize C /\ hsize C <= msize C)%nat) by (unfold msize; rewrite hsize_tot; lia).
  unfold updateScalings. cbv zeta.
  assert (LP: exists v w, for_ 0 (lpp C) (fun i st =>
      let '(v, w) := st in
      si <- get s i ;; zi <- get z i ;;
      v <- set v i (safediv si zi) ;;
      vi <- get v i ;;
      w <- set w i (fsqrt vi) ;;
      Some (v, w)) (lp_v (co_lpc C), lp_w (co_lpc C)) = Some (v, w) /\
      length v = lpp C /\ length w = lpp C /\ vec v (lpp C) (fun i => safediv (sf i) (zf i)) /\
      vec w (lpp C) (fun i => fsqrt (safediv (sf i) (zf i)))).
  { match goal with |- context [for_ ?a ?b ?c0 ?d] => apply (wp_case (for_ a b c0 d)
       (fun st => length (fst st) = lpp C /\ length (snd st) = lpp C /\
       vec (fst st) (lpp C) (fun i => safediv (sf i) (zf i)) /\ vec (snd st) (lpp C) (fun i => fsqrt (safediv (sf i) (zf i))))) end.
    - apply (wp_for (fun i st => length (fst st) = lpp C /\ length (snd st) = lpp C /\
         vec (fst st) i (fun i => safediv (sf i) (zf i)) /\ vec (snd st) i (fun i => fsqrt (safediv (sf i) (zf i))))).
      + lia.
      + csplit; auto; intros i Hi; lia.
      + intros i [v w] Hi (L1 & L2 & V1 & V2). cbn [fst snd] in *. rd.
        destruct (set_wrote i (safediv (sf i) (zf i)) v) as (v' & E & W); [lia|]. rewrite E. cbn [bind].
        pose proof (wrote_in _ _ _ _ _ 0 W ltac:(lia)) as G0. rewrite Nat.add_0_r in G0. rewrite G0. cbn [bind].
        destruct (set_wrote i (fsqrt (safediv (sf i) (zf i))) w) as (w' & E' & W'); [lia|]. rewrite E'. cbn [bind].
        pose proof (wrote_in _ _ _ _ _ 0 W' ltac:(lia)) as G0'. rewrite Nat.add_0_r in G0'.
        apply (wp_intro _ _ _ eq_refl). cbn [fst snd]. csplit.
        * rewrite (wrote_len _ _ _ _ _ W). auto.
        * rewrite (wrote_len _ _ _ _ _ W'). auto.
        * intros j Hj. destruct (Nat.eq_dec j i) as [->|N]; [auto|]. rewrite (wrote_out _ _ _ _ _ _ W) by lia. apply V1; lia.
        * intros j Hj. destruct (Nat.eq_dec j i) as [->|N]; [auto|]. rewrite (wrote_out _ _ _ _ _ _ W') by lia. apply V2; lia.
      + intros st H. exact H.
    - intros [v w] Em (L1 & L2 & V1 & V2). exists v, w. auto. }
  destruct LP as (v & w & E & L1 & L2 & V1 & V2). rewrite E. clear E. cbn [bind].
  destruct (updateSocs_eq s z sf zf (msize C) Hs Hz (co_soc C) (lpp C)) as (soc & E & S1 & U1).
  { unfold msize. rewrite hsize_tot. lia. }
  { intros c Hc. csplit; auto. }
  rewrite E. cbn [bind]. destruct (socs_out (co_soc C) sf zf (lpp C)) eqn:EO.
  { eexists _, lambda. split; [reflexivity|]. csplit; auto; [|discriminate].
    constructor; cbn; auto; try congruence. apply Forall2_refl, exp_sim_refl. }
  destruct (updateExps_eq z zf (msize C) mu Hz (co_expc C) (co_fexv C)) as (ex & E2 & S2 & U2).
  { rewrite FX. unfold msize, nexc. lia. }
  { intros e He. auto. }
  rewrite E2. cbn [bind]. set (C' := mkCone _ _ _ _).
  assert (CS: csim C C') by (constructor; cbn; auto; congruence).
  assert (UP: updated sf zf mu C').
  { constructor.
    - intros i Hi. apply (V1 i). exact Hi.
    - intros i Hi. apply (V2 i). exact Hi.
    - intros k c Hin. apply (U1 eq_refl). exact Hin.
    - intros k c Hin. apply U2. exact Hin. }
  destruct (scale_eq C' z zf lambda) as (lambda' & E3 & FI).
  - intros c Hc. apply (sh_pos C'); auto. eapply csim_shape; eauto.
  - apply scaled_W. eapply updated_scaled; eauto.
  - intros i Hi. apply Hz. rewrite (csim_hsize _ _ CS) in Hi. lia.
  - rewrite (csim_hsize _ _ CS). auto.
  - rewrite E3. cbn [bind]. exists C', lambda'. split; [auto|]. split; [auto|]. split; [apply FI|].
    split; [discriminate|]. intros _. split; auto.
Qed.
End ScalP.
