(* Symbolic factorisation: elimination tree and column counts. *)
From Coq Require Import List Arith Bool ZArith Lia.
From Verif Require Import Base Num.
From Verif.Model Require Import Spla Ldl.
From Verif.Spec Require Import Matrix Fill.
From Verif.Proofs Require Import SplaP.
Import ListNotations.
Open Scope nat_scope.

Section Sym.
Context {T : Type} (M : spmat T).

(* rows below k: pattern R and tree par *)
Record etree (k : nat) (par : nat -> option nat) (R : nat -> nat -> bool) : Prop := {
  et_lt : forall r i, r < k -> R r i = true -> i < r;
  et_adj : forall r i, r < k -> adj M r i -> R r i = true;
  et_par : forall r i, r < k -> R r i = true ->
    exists j, par i = Some j /\ (j = r \/ (j < r /\ R r j = true));
  et_parR : forall i j, par i = Some j -> i < j < k /\ R j i = true;
  et_gen : forall r i, r < k -> R r i = true ->
    adj M r i \/ exists i', R r i' = true /\ par i' = Some i
}.

Lemma et_closed k par R : etree k par R -> forall r j i, r < k -> i < j -> j < r ->
  R j i = true -> R r i = true -> R r j = true.
Proof.
  intros E r j i Hr. remember (j - i) as m eqn:Em. revert i Em.
  induction m as [m IH] using lt_wf_ind; intros i Em Hij Hjr Rj Rr.
  destruct (et_par _ _ _ E j i ltac:(lia) Rj) as [p [Pp [->|[Hp Rp]]]].
  - destruct (et_par _ _ _ E r i Hr Rr) as [p' [Pp' [Er|[Hp' Rp']]]];
    rewrite Pp in Pp'; injection Pp' as ->; [lia|auto].
  - destruct (et_par _ _ _ E r i Hr Rr) as [p' [Pp' [->|[Hp' Rp']]]];
    rewrite Pp in Pp'; injection Pp' as ->; [lia|].
    pose proof (et_parR _ _ _ E _ _ Pp).
    apply (IH (j - p') ltac:(lia) p'); auto; lia.
Qed.

Lemma et_fill k par R : etree k par R -> forall r i, r < k -> (R r i = true <-> fill M r i).
Proof.
  intros E. split.
  - revert i. induction r as [r IHr] using lt_wf_ind.
    intros i. induction i as [i IHi] using lt_wf_ind. intros HR.
    pose proof (et_lt _ _ _ E _ _ H HR).
    destruct (et_gen _ _ _ E r i H HR) as [A|[i' [R' P']]].
    + apply fill_adj; auto.
    + destruct (et_parR _ _ _ E _ _ P') as [L Ri].
      apply (fill_elim M r i i'); auto; try lia.
      * apply IHr; auto; lia.
      * apply IHi; auto; lia.
  - intros Hf. induction Hf as [r i A|r j i F1 IH1 F2 IH2 L1 L2].
    + apply (et_adj _ _ _ E); auto.
    + apply (et_closed k par R E r j i); auto. apply IH1; lia.
Qed.

Lemma cnt_ext R R' k i : (forall r, r < k -> R r i = R' r i) -> cnt R k i = cnt R' k i.
Proof. induction k; simpl; intros H; auto. rewrite IHk by auto. rewrite H by lia. auto. Qed.

Lemma cnt_mono R i a b : a <= b -> cnt R a i <= cnt R b i.
Proof. induction 1; simpl; lia. Qed.

Lemma cnt_lt R i a b : a < b -> R a i = true -> cnt R a i < cnt R b i.
Proof. intros H E. pose proof (cnt_mono R i (S a) b H). simpl in H0. rewrite E in H0. lia. Qed.

Lemma cnt_0 R i k : (forall r, r < k -> R r i = false) -> cnt R k i = 0.
Proof. induction k; simpl; intros H; auto. rewrite IHk, H by auto. auto. Qed.

Lemma cnt_find R i k q : q < cnt R k i -> exists r, r < k /\ R r i = true /\ cnt R r i = q.
Proof.
  induction k; simpl; intros H; [lia|].
  destruct (Nat.lt_ge_cases q (cnt R k i)) as [L|L].
  - destruct (IHk L) as [r [A B]]. exists r; split; auto; lia.
  - exists k. destruct (R k i) eqn:E; [|lia]. repeat split; auto; lia.
Qed.

Lemma starts_mono c i j : i <= j -> starts c i <= starts c j.
Proof. induction 1; simpl; lia. Qed.

Lemma starts_ext c c' n : (forall i, i < n -> c i = c' i) -> starts c n = starts c' n.
Proof. induction n; simpl; intros H; auto. rewrite IHn, H by auto. auto. Qed.

Lemma starts_inj c i j q q' : q < c i -> q' < c j -> starts c i + q = starts c j + q' -> i = j /\ q = q'.
Proof.
  intros H1 H2 E. destruct (Nat.lt_trichotomy i j) as [L|[->|L]].
  - pose proof (starts_mono c (S i) j L). simpl in H. lia.
  - split; auto; lia.
  - pose proof (starts_mono c (S j) i L). simpl in H. lia.
Qed.

Definition pz (o : option nat) : Z := match o with Some j => Z.of_nat j | None => (-1)%Z end.

(* parents after the nodes in fl joined row k *)
Definition par' k (par : nat -> option nat) (fl : nat -> bool) i :=
  match par i with Some j => Some j | None => if fl i then Some k else None end.

Context (W : wf_sp M) (U : upper M) (SQ : sp_m M = sp_n M).
Notation n := (sp_n M).
Notation IR := (gd 0 (sp_ir M)).

(* state of row k *)
Record symrow (k : nat) par R (fl : nat -> bool) (cur : option nat) (Parent : arr Z) (Lnz Flag : arr nat) : Prop := {
  sr_lP : length Parent = n; sr_lL : length Lnz = n; sr_lF : length Flag = n;
  sr_P : forall i, i < k -> get Parent i = Some (pz (par' k par fl i));
  sr_Pk : get Parent k = Some (-1)%Z;
  sr_L : forall i, i < k -> get Lnz i = Some (cnt R k i + (if fl i then 1 else 0));
  sr_Lk : get Lnz k = Some 0;
  sr_F : forall i, i < k -> exists f, get Flag i = Some f /\ f <= k /\ (f = k <-> fl i = true);
  sr_Fk : get Flag k = Some k;
  sr_fl : forall i, fl i = true -> i < k;
  sr_up : forall i, fl i = true -> exists j, par' k par fl i = Some j /\
     (j = k \/ fl j = true \/ Some j = cur);
  sr_gen : forall i, fl i = true -> adj M k i \/ exists i', fl i' = true /\ par' k par fl i' = Some i
}.

Lemma symb_path_wp k par R (Q : arr Z * arr nat * arr nat -> Prop) : k < n -> etree k par R ->
  forall fuel fl i Parent Lnz Flag,
  symrow k par R fl (Some i) Parent Lnz Flag ->
  i <= k -> k - i < fuel ->
  (i < k -> adj M k i \/ exists i', fl i' = true /\ par' k par fl i' = Some i) ->
  (forall fl' P L F, symrow k par R fl' None P L F ->
     (forall x, fl x = true -> fl' x = true) -> (i < k -> fl' i = true) -> Q (P, L, F)) ->
  wp (symb_path fuel k i (Parent, Lnz, Flag)) Q.
Proof.
  intros Hk E. induction fuel as [|fuel IH]; intros fl i Pa Ln Fl SR Hi Hf Hg HQ; [lia|].
  simpl.
  assert (HF : exists f, get Fl i = Some f /\ (f = k <-> (i = k \/ fl i = true))).
  { destruct (Nat.eq_dec i k) as [->|Ne].
    - exists k; split; [apply (sr_Fk _ _ _ _ _ _ _ _ SR)|]. tauto.
    - destruct (sr_F _ _ _ _ _ _ _ _ SR i ltac:(lia)) as [f [A [_ B]]]. exists f; split; auto. rewrite B.
      intuition lia. }
  destruct HF as [f [Gf Bf]]. rewrite Gf; simpl.
  destruct (Nat.eqb_spec f k) as [Ef|Ef].
  - apply (wp_intro _ _ _ eq_refl). apply (HQ fl); auto.
    + destruct SR; constructor; auto. intros x Hx. destruct (sr_up0 x Hx) as [j [Pj [->|[Hj|Hj]]]].
      * exists k; auto.
      * exists j; auto.
      * injection Hj as ->. exists i. split; auto. destruct (proj1 Bf Ef); auto.
    + intros Hik. destruct (proj1 Bf Ef); auto; lia.
  - assert (Hik : i < k) by (destruct (Nat.eq_dec i k); [exfalso; apply Ef, Bf; auto | lia]).
    assert (Hfl : fl i = false) by (destruct (fl i) eqn:X; auto; exfalso; apply Ef, Bf; auto).
    set (fl' := fun x => if x =? i then true else fl x).
    set (nx := match par i with Some j => j | None => k end).
    assert (Pi : get Pa i = Some (pz (par i))).
    { rewrite (sr_P _ _ _ _ _ _ _ _ SR i Hik). unfold par'. rewrite Hfl. destruct (par i); auto. }
    assert (Hnx : i < nx <= k).
    { unfold nx. destruct (par i) eqn:X; [|lia]. pose proof (et_parR _ _ _ E _ _ X). lia. }
    assert (P'i : par' k par fl' i = Some nx).
    { unfold par', fl', nx. rewrite Nat.eqb_refl. destruct (par i); auto. }
    assert (P'x : forall x, x <> i -> par' k par fl' x = par' k par fl x).
    { intros x Hx. unfold par', fl'. apply Nat.eqb_neq in Hx. rewrite Hx. auto. }
    rewrite Pi; simpl.
    assert (SetP : exists Pa', (if (pz (par i) =? -1)%Z then set Pa i (Z.of_nat k) else Some Pa) = Some Pa' /\
       length Pa' = n /\ (forall x, get Pa' x = if x =? i then Some (Z.of_nat nx) else get Pa x)).
    { unfold nx. destruct (par i) as [j|] eqn:X; simpl.
      - destruct (Z.eqb_spec (Z.of_nat j) (-1)); [lia|]. exists Pa. split; auto.
        split; [apply (sr_lP _ _ _ _ _ _ _ _ SR)|]. intros x; beq; subst; auto.
      - rewrite set_ok by (rewrite (sr_lP _ _ _ _ _ _ _ _ SR); lia).
        eexists. split; [reflexivity|]. rewrite upd_length, (sr_lP _ _ _ _ _ _ _ _ SR). split; auto.
        intros x. apply get_upd. rewrite (sr_lP _ _ _ _ _ _ _ _ SR); lia. }
    destruct SetP as [Pa' [-> [LP' GP']]]. simpl.
    rewrite (sr_L _ _ _ _ _ _ _ _ SR i Hik), Hfl. simpl.
    wb. wset Ln' LL' GL'; [rewrite (sr_lL _ _ _ _ _ _ _ _ SR); lia|].
    wb. wset Fl' LF' GF'; [rewrite (sr_lF _ _ _ _ _ _ _ _ SR); lia|].
    rewrite GP', Nat.eqb_refl. simpl. destruct (Z.leb_spec 0 (Z.of_nat nx)); [|lia]. simpl.
    rewrite Nat2Z.id.
    apply (IH fl'); try lia.
    + destruct SR. constructor; try congruence.
      * intros x Hx. rewrite GP'. destruct (Nat.eqb_spec x i) as [->|Nx].
        -- rewrite P'i. auto.
        -- rewrite P'x by auto. auto.
      * rewrite GP'. destruct (Nat.eqb_spec k i); [lia|auto].
      * intros x Hx. rewrite GL'. unfold fl'. destruct (Nat.eqb_spec x i) as [->|Nx].
        -- f_equal; lia.
        -- auto.
      * rewrite GL'. destruct (Nat.eqb_spec k i); [lia|auto].
      * intros x Hx. rewrite GF'. unfold fl'. destruct (Nat.eqb_spec x i) as [->|Nx].
        -- exists k; repeat split; auto.
        -- auto.
      * rewrite GF'. destruct (Nat.eqb_spec k i); auto.
      * unfold fl'. intros x. destruct (Nat.eqb_spec x i) as [->|Nx]; auto.
      * intros x Hx. destruct (Nat.eq_dec x i) as [->|Nx].
        -- exists nx. auto.
        -- unfold fl' in Hx. apply Nat.eqb_neq in Nx. rewrite Nx in Hx. apply Nat.eqb_neq in Nx.
           destruct (sr_up0 x Hx) as [j [Pj Hj]]. exists j. rewrite P'x by auto. split; auto.
           destruct Hj as [Hj|[Hj|Hj]]; auto.
           ++ right; left. unfold fl'. destruct (j =? i); auto.
           ++ injection Hj as ->. right; left. unfold fl'. rewrite Nat.eqb_refl. auto.
      * intros x Hx. assert (Y : adj M k x \/ exists i', fl i' = true /\ par' k par fl i' = Some x).
        { unfold fl' in Hx. destruct (Nat.eq_dec x i) as [Ex|Nx]; [rewrite Ex; auto|].
          apply Nat.eqb_neq in Nx. rewrite Nx in Hx. auto. }
        destruct Y as [Y|[i' [Y1 Y2]]]; auto. right. exists i'.
        assert (i' <> i) by congruence. split; [unfold fl'; destruct (i' =? i); auto|].
        rewrite P'x; auto.
    + intros _. right. exists i. split; auto. unfold fl'. rewrite Nat.eqb_refl. auto.
    + intros fl2 P L Fq S2 I2 _. apply (HQ fl2); auto.
      * intros x Hx. apply I2. unfold fl'. rewrite Hx. destruct (x =? i); auto.
      * intros _. apply I2. unfold fl'. rewrite Nat.eqb_refl. auto.
Qed.

(* what the symbolic phase leaves behind after k rows *)
Record symst (k : nat) par R (Parent : arr Z) (Lnz Flag : arr nat) : Prop := {
  ss_et : etree k par R;
  ss_lP : length Parent = n; ss_lL : length Lnz = n; ss_lF : length Flag = n;
  ss_P : forall i, i < k -> get Parent i = Some (pz (par i));
  ss_L : forall i, i < k -> get Lnz i = Some (cnt R k i);
  ss_F : forall i, i < k -> exists f, get Flag i = Some f /\ f < k
}.

Lemma symrow_done k par R fl Pa Ln Fl : k < n -> etree k par R ->
  symrow k par R fl None Pa Ln Fl ->
  (forall p, in_col M k p -> IR p < k -> fl (IR p) = true) ->
  symst (S k) (par' k par fl) (fun r i => if r =? k then fl i else R r i) Pa Ln Fl.
Proof.
  intros Hk E SR HA.
  assert (Rn : forall r i, r < k -> (if r =? k then fl i else R r i) = R r i).
  { intros r i Hr. destruct (Nat.eqb_spec r k); auto; lia. }
  assert (Nk : forall i, k <= i -> par i = None).
  { intros i Hi. destruct (par i) eqn:X; auto. pose proof (et_parR _ _ _ E _ _ X). lia. }
  assert (Fk : fl k = false).
  { destruct (fl k) eqn:X; auto. apply (sr_fl _ _ _ _ _ _ _ _ SR) in X. lia. }
  assert (Pk : par' k par fl k = None) by (unfold par'; rewrite Nk, Fk; auto).
  constructor; try apply SR.
  - constructor.
    + intros r i Hr. destruct (Nat.eqb_spec r k) as [->|]; [apply SR|]. apply (et_lt _ _ _ E). lia.
    + intros r i Hr A. destruct (Nat.eqb_spec r k) as [->|]; [|apply (et_adj _ _ _ E); auto; lia].
      destruct A as [L [p [Ip <-]]]. apply HA; auto.
    + intros r i Hr. destruct (Nat.eqb_spec r k) as [->|Ne].
      * intros Hi. destruct (sr_up _ _ _ _ _ _ _ _ SR i Hi) as [j [Pj [->|[Hj|Hj]]]]; [exists k; auto| |discriminate].
        exists j. split; auto. right. split; auto. apply (sr_fl _ _ _ _ _ _ _ _ SR); auto.
      * intros Hi. destruct (et_par _ _ _ E r i ltac:(lia) Hi) as [j [Pj Hj]]. exists j.
        unfold par'. rewrite Pj. auto.
    + intros i j. unfold par'. destruct (par i) eqn:X.
      * intros [= ->]. destruct (et_parR _ _ _ E _ _ X). rewrite Rn by lia. split; auto. lia.
      * destruct (fl i) eqn:Y; [|discriminate]. intros [= <-]. rewrite Nat.eqb_refl.
        apply (sr_fl _ _ _ _ _ _ _ _ SR) in Y as Y2. split; auto; lia.
    + intros r i Hr. destruct (Nat.eqb_spec r k) as [->|Ne].
      * apply SR.
      * intros Hi. destruct (et_gen _ _ _ E r i ltac:(lia) Hi) as [A|[i' [R' P']]]; auto.
        right. exists i'. split; auto. unfold par'. rewrite P'. auto.
  - intros i Hi. destruct (Nat.eq_dec i k) as [->|Ne].
    + rewrite Pk. apply SR.
    + apply SR. lia.
  - intros i Hi. simpl. rewrite Nat.eqb_refl.
    rewrite (cnt_ext _ R k i) by (intros; apply Rn; auto).
    destruct (Nat.eq_dec i k) as [->|Ne].
    + rewrite Fk, cnt_0; [rewrite (sr_Lk _ _ _ _ _ _ _ _ SR); auto|].
      intros r Hr. destruct (R r k) eqn:X; auto. pose proof (et_lt _ _ _ E _ _ Hr X). lia.
    + apply SR. lia.
  - intros i Hi. destruct (Nat.eq_dec i k) as [->|Ne].
    + exists k. split; [apply SR|lia].
    + destruct (sr_F _ _ _ _ _ _ _ _ SR i ltac:(lia)) as [f [A [B _]]].
      exists f. split; auto. lia.
Qed.

Lemma LDL_symbolic2_wp (Lp : arr nat) (Pa : arr Z) (Ln Fl : arr nat) (Q : _ -> Prop) :
  length Lp = n + 1 -> length Pa = n -> length Ln = n -> length Fl = n ->
  (forall par R Lp' Pa' Ln' Fl', symst n par R Pa' Ln' Fl' ->
     length Lp' = n + 1 -> vec Lp' (n + 1) (starts (cnt R n)) -> Q (Lp', Pa', Ln', Fl')) ->
  wp (LDL_symbolic2 n (sp_jc M) (sp_ir M) Lp Pa Ln Fl) Q.
Proof.
  intros LLp LPa LLn LFl HQ. unfold LDL_symbolic2.
  wb. apply (wp_for (fun k st => let '(P, L, F) := st in exists par R, symst k par R P L F)); [lia| | |].
  - exists (fun _ => None), (fun _ _ => false). constructor; auto; try lia.
    constructor; intros; try lia; discriminate.
  - intros k [[P L] F] Hk [par [R SS]]. destruct SS.
    wb. wset P1 L1 G1; [lia|]. wb. wset F1 L2 G2; [lia|]. wb. wset N1 L3 G3; [lia|].
    wget (wf_jc M W). wget (wf_jc M W).
    apply (wp_for (fun p st => let '(P, L, F) := st in exists fl, symrow k par R fl None P L F /\
       forall q, gd 0 (sp_jc M) k <= q < p -> IR q < k -> fl (IR q) = true)).
    + apply (wf_mono M W); lia.
    + exists (fun _ => false). split; [|lia]. constructor; try congruence; try discriminate; try lia.
      * intros i Hi. rewrite G1. destruct (Nat.eqb_spec i k); [lia|]. rewrite ss_P0 by lia.
        unfold par'. destruct (par i); auto.
      * rewrite G1, Nat.eqb_refl; auto.
      * intros i Hi. rewrite G3. destruct (Nat.eqb_spec i k); [lia|]. rewrite ss_L0 by lia. f_equal; lia.
      * rewrite G3, Nat.eqb_refl; auto.
      * intros i Hi. rewrite G2. destruct (Nat.eqb_spec i k); [lia|].
        destruct (ss_F0 i ltac:(lia)) as [f [A B]]. exists f. split; auto. split; [lia|].
        split; [lia|discriminate].
      * rewrite G2, Nat.eqb_refl; auto.
    + intros p [[P2 N2] F2] Hp [fl [SR HA]].
      assert (Ic : in_col M k p) by (split; [lia|auto]).
      pose proof (in_col_nnz M k p W Ic) as Hn. pose proof (U k p Ic) as Hu.
      wget (wf_ir M W).
      apply (symb_path_wp k par R _ ltac:(lia) ss_et0 _ fl); auto; try lia.
      * destruct SR; constructor; auto. intros i Hi. destruct (sr_up0 i Hi) as [j [A [B|[B|B]]]]; eauto.
        discriminate.
      * intros Hlt. left. split; auto. exists p; auto.
      * intros fl' P3 N3 F3 SR' I1 I2. exists fl'. split; auto.
        intros q Hq Hlt. destruct (Nat.eq_dec q p) as [->|Ne]; auto. apply I1, HA; auto; lia.
    + intros [[P2 N2] F2] [fl [SR HA]].
      exists (par' k par fl), (fun r i => if r =? k then fl i else R r i).
      apply symrow_done; auto; [lia|]. intros p [_ Hp] Hlt. apply HA; auto.
  - intros [[P L] F] [par [R SS]]. simpl.
    wb. wset Lp1 L1 G1; [lia|].
    wb. apply (wp_for (fun k Lp' => length Lp' = n + 1 /\ vec Lp' (k + 1) (starts (cnt R n)))); [lia| | |].
    + split; [lia|]. intros i Hi. rewrite G1. destruct (Nat.eqb_spec i 0) as [->|]; auto. lia.
    + intros k s Hk [Ls V]. wget V. wget (ss_L _ _ _ _ _ _ SS).
      wset s' Ls' Gs'; [lia|]. split; [lia|]. intros i Hi. rewrite Gs'.
      destruct (Nat.eqb_spec i (k + 1)) as [->|]; [|apply V; lia].
      rewrite (Nat.add_1_r k). simpl. auto.
    + intros Lp2 [L2 V2]. apply (wp_intro _ _ _ eq_refl). eauto.
Qed.

(* the parent of a node is the first row that has it *)
Lemma par_first par R : etree n par R -> forall i,
  match par i with
  | Some j => R j i = true /\ i < j < n /\ forall r, r < n -> R r i = true -> j <= r
  | None => forall r, r < n -> R r i = false
  end.
Proof.
  intros E i. destruct (par i) as [j|] eqn:X.
  - destruct (et_parR _ _ _ E _ _ X). repeat split; auto; try lia.
    intros r Hr HR. destruct (et_par _ _ _ E r i Hr HR) as [j' [Pj [->|[Hj _]]]]; rewrite X in Pj; injection Pj as ->; lia.
  - intros r Hr. destruct (R r i) eqn:Y; auto. destruct (et_par _ _ _ E r i Hr Y) as [j' [Pj _]]. congruence.
Qed.

End Sym.
