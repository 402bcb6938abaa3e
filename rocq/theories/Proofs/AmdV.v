(* AMD_valid and AMD_preprocess *)
From Coq Require Import List Arith ZArith Bool Lia.
From Verif Require Import Base.
From Verif.Model Require Import Amd.
From Verif.Spec Require Import Ordering.
Import ListNotations.
Open Scope Z_scope.

(* indices p .. p+k-1 in range *)
Definition rng (nr : Z) (ai : nat -> Z) (p k : nat) : Prop := forall t, (t < k)%nat -> 0 <= ai (p + t)%nat < nr.
(* and strictly ascending, starting above [last] *)
Fixpoint asc (ai : nat -> Z) (p k : nat) (last : Z) : Prop :=
  match k with O => True | S k => last < ai p /\ asc ai (S p) k (ai p) end.

Lemma asc_dec ai k : forall p last, {asc ai p k last} + {~ asc ai p k last}.
Proof.
  induction k as [|k IH]; intros p last; cbn; [auto|].
  destruct (Z_lt_dec last (ai p)); [|right; tauto]. destruct (IH (S p) (ai p)); [auto|right; tauto].
Qed.

Lemma valid_entries_ok nr Ai ai k : forall p last res,
  (forall t, (t < k)%nat -> get Ai (p + t) = Some (ai (p + t)%nat)) ->
  (rng nr ai p k -> exists res', valid_entries nr Ai k (Z.of_nat p) last res = Some (Some res') /\
     ((asc ai p k last /\ res' = res) \/ (~ asc ai p k last /\ res' = AMD_OK_BUT_JUMBLED))) /\
  (~ rng nr ai p k -> valid_entries nr Ai k (Z.of_nat p) last res = Some None).
Proof.
  induction k as [|k IH]; intros p last res R.
  - split.
    + intros _. exists res. cbn. auto.
    + intros N. exfalso. apply N. intros t Ht. lia.
  - assert (G : getz Ai (Z.of_nat p) = Some (ai p)).
    { unfold getz. destruct (Z.ltb_spec (Z.of_nat p) 0); [lia|]. rewrite Nat2Z.id.
      specialize (R 0%nat ltac:(lia)). rewrite Nat.add_0_r in R. exact R. }
    assert (R' : forall t, (t < k)%nat -> get Ai (S p + t) = Some (ai (S p + t)%nat)).
    { intros t Ht. specialize (R (S t) ltac:(lia)). replace (p + S t)%nat with (S p + t)%nat in R by lia. exact R. }
    cbn [valid_entries]. rewrite G. cbn [bind].
    replace (Z.of_nat p + 1) with (Z.of_nat (S p)) by lia.
    destruct (IH (S p) (ai p) (if ai p <=? last then AMD_OK_BUT_JUMBLED else res) R') as [I1 I2].
    split.
    + intros HR. pose proof (HR 0%nat ltac:(lia)) as H0. rewrite Nat.add_0_r in H0.
      destruct (Z.ltb_spec (ai p) 0); [lia|]. destruct (Z.leb_spec nr (ai p)); [lia|]. cbn.
      destruct I1 as (res' & E & D).
      { intros t Ht. specialize (HR (S t) ltac:(lia)). replace (p + S t)%nat with (S p + t)%nat in HR by lia. exact HR. }
      exists res'. split; [exact E|].
      destruct (Z.leb_spec (ai p) last).
      * right. split; [intros [H' _]; lia|]. destruct D as [[_ ->]|[_ ->]]; reflexivity.
      * destruct D as [[A ->]|[A ->]]; [left|right]; split; auto. intros [_ H']; auto.
    + intros HN.
      destruct ((ai p <? 0) || (nr <=? ai p)) eqn:B; [reflexivity|].
      apply orb_false_iff in B. destruct B as [B1 B2]. apply Z.ltb_ge in B1. apply Z.leb_gt in B2.
      apply I2. intros HR. apply HN. intros [|t] Ht; [rewrite Nat.add_0_r; lia|].
      replace (p + S t)%nat with (S p + t)%nat by lia. apply HR. lia.
Qed.

(* the columns j .. j+k-1 are well formed *)
Definition cols_wf (nr : Z) (ap ai : nat -> Z) (j k : nat) : Prop :=
  forall t, (t < k)%nat -> ap (j + t)%nat <= ap (S (j + t)) /\
    rng nr ai (Z.to_nat (ap (j + t)%nat)) (Z.to_nat (ap (S (j + t)) - ap (j + t)%nat)).
Definition cols_asc (ap ai : nat -> Z) (j k : nat) : Prop :=
  forall t, (t < k)%nat -> asc ai (Z.to_nat (ap (j + t)%nat)) (Z.to_nat (ap (S (j + t)) - ap (j + t)%nat)) EMPTY.

Lemma valid_columns_ok nr Ap Ai ap ai N k : forall j res,
  (forall t, (t <= k)%nat -> get Ap (j + t) = Some (ap (j + t)%nat)) ->
  (forall p, (p < N)%nat -> get Ai p = Some (ai p)) ->
  (forall t, (t <= k)%nat -> ap (j + t)%nat <= Z.of_nat N) ->
  0 <= ap j ->
  (cols_wf nr ap ai j k -> exists res', valid_columns nr Ap Ai k j res = Some res' /\
     ((cols_asc ap ai j k /\ res' = res) \/ (~ cols_asc ap ai j k /\ res' = AMD_OK_BUT_JUMBLED))) /\
  (~ cols_wf nr ap ai j k -> valid_columns nr Ap Ai k j res = Some AMD_INVALID).
Proof.
  induction k as [|k IH]; intros j res RP RI LE P0.
  - split.
    + intros _. exists res. cbn. split; [reflexivity|]. left. split; [intros t Ht; lia|reflexivity].
    + intros N'. exfalso. apply N'. intros t Ht. lia.
  - pose proof (RP 0%nat ltac:(lia)) as G1. rewrite Nat.add_0_r in G1.
    pose proof (RP 1%nat ltac:(lia)) as G2.
    pose proof (LE 1%nat ltac:(lia)) as L2. rewrite Nat.add_1_r in G2, L2.
    cbn [valid_columns]. rewrite G1. cbn [bind]. rewrite Nat.add_1_r, G2. cbn [bind].
    assert (SH : forall t, (S j + t = j + S t)%nat) by (intros; lia).
    assert (RP' : forall t, (t <= k)%nat -> get Ap (S j + t) = Some (ap (S j + t)%nat)).
    { intros t Ht. rewrite SH. apply RP. lia. }
    assert (LE' : forall t, (t <= k)%nat -> ap (S j + t)%nat <= Z.of_nat N).
    { intros t Ht. rewrite SH. apply LE. lia. }
    set (len := Z.to_nat (ap (S j) - ap j)). set (p := Z.to_nat (ap j)).
    destruct (Z.gtb_spec (ap j) (ap (S j))) as [GT|LEj].
    + split; [|reflexivity]. intros W. destruct (W 0%nat ltac:(lia)) as [W1 _]. rewrite Nat.add_0_r in W1. lia.
    + destruct (valid_entries_ok nr Ai ai len p EMPTY res) as [V1 V2].
      { intros t Ht. apply RI. unfold p, len in *. lia. }
      assert (EP : ap j = Z.of_nat p) by (unfold p; lia).
      assert (CW : cols_wf nr ap ai j (S k) <-> rng nr ai p len /\ cols_wf nr ap ai (S j) k).
      { split.
        - intros W. split.
          + destruct (W 0%nat ltac:(lia)) as [_ W2]. rewrite Nat.add_0_r in W2. exact W2.
          + intros t Ht. rewrite SH. apply W. lia.
        - intros [W1 W2] [|t] Ht; [rewrite Nat.add_0_r; split; [lia|exact W1]|].
          rewrite <- SH. apply W2. lia. }
      assert (CA : cols_asc ap ai j (S k) <-> asc ai p len EMPTY /\ cols_asc ap ai (S j) k).
      { split.
        - intros W. split.
          + specialize (W 0%nat ltac:(lia)). rewrite Nat.add_0_r in W. exact W.
          + intros t Ht. rewrite SH. apply W. lia.
        - intros [W1 W2] [|t] Ht; [rewrite Nat.add_0_r; exact W1|].
          rewrite <- SH. apply W2. lia. }
      assert (RD : {rng nr ai p len} + {~ rng nr ai p len}).
      { clear. unfold rng. induction len as [|l IHl]; [left; intros; lia|].
        destruct IHl as [I|I].
        - destruct (Z_le_dec 0 (ai (p + l)%nat)); [destruct (Z_lt_dec (ai (p + l)%nat) nr)|].
          + left. intros t Ht. destruct (Nat.eq_dec t l) as [->|]; [lia|apply I; lia].
          + right. intros H. specialize (H l ltac:(lia)). lia.
          + right. intros H. specialize (H l ltac:(lia)). lia.
        - right. intros H. apply I. intros t Ht. apply H. lia. }
      rewrite EP. clearbody len p.
      destruct RD as [RR|RR].
      * destruct (V1 RR) as (r1 & E1 & D1). rewrite E1. cbn [bind].
        destruct (IH (S j) r1 RP' RI LE' ltac:(lia)) as [I1 I2].
        split.
        -- intros W. apply CW in W. destruct W as [_ W]. destruct (I1 W) as (r2 & E2 & D2).
           exists r2. split; [exact E2|].
           destruct D1 as [[A1 ->]|[A1 ->]], D2 as [[A2 ->]|[A2 ->]].
           ++ left. split; [apply CA; auto|reflexivity].
           ++ right. split; [intros A; apply CA in A; tauto|reflexivity].
           ++ right. split; [intros A; apply CA in A; tauto|reflexivity].
           ++ right. split; [intros A; apply CA in A; tauto|reflexivity].
        -- intros W. apply I2. intros W'. apply W. apply CW. auto.
      * rewrite (V2 RR). cbn [bind]. split; [|reflexivity]. intros W. apply CW in W. tauto.
Qed.

Lemma wf_mono nr n ap ai : well_formed nr n ap ai -> forall i j, (i <= j)%nat -> (j <= n)%nat -> ap i <= ap j.
Proof.
  intros (_ & M & _) i j Hij Hj. induction Hij as [|j Hij IH]; [lia|].
  specialize (IH ltac:(lia)). specialize (M j ltac:(lia)). lia.
Qed.

Lemma wf_find nr n ap ai : well_formed nr n ap ai -> forall p, Z.of_nat p < ap n ->
  exists j, (j < n)%nat /\ ap j <= Z.of_nat p < ap (S j).
Proof.
  intros W p Hp. destruct W as (Z0 & M & _).
  induction n as [|n IH]; [lia|].
  destruct (Z_lt_dec (Z.of_nat p) (ap n)) as [L|L].
  - destruct IH as (j & Hj & E); [intros; apply M; lia|exact L|]. exists j. split; [lia|exact E].
  - exists n. split; [lia|]. lia.
Qed.

Lemma cols_wf_iff nr ap ai n : ap 0%nat = 0 -> (cols_wf nr ap ai 0 n <-> well_formed nr n ap ai).
Proof.
  intros Z0. split.
  - intros W. assert (M : forall j, (j < n)%nat -> ap j <= ap (S j)).
    { intros j Hj. apply (W j Hj). }
    assert (M0 : forall j, (j <= n)%nat -> 0 <= ap j).
    { induction j as [|j IH]; intros Hj; [lia|]. specialize (IH ltac:(lia)). specialize (M j ltac:(lia)). lia. }
    split; [exact Z0|]. split; [exact M|]. intros p Hp.
    assert (F : exists j, (j < n)%nat /\ ap j <= Z.of_nat p < ap (S j)).
    { clear W M0. induction n as [|n IH]; [lia|].
      destruct (Z_lt_dec (Z.of_nat p) (ap n)) as [L|L].
      - destruct IH as (j & Hj & E); [intros; apply M; lia|exact L|]. exists j. split; [lia|exact E].
      - exists n. split; [lia|]. lia. }
    destruct F as (j & Hj & F). destruct (W j Hj) as [_ R]. cbn [Nat.add] in R.
    specialize (R (p - Z.to_nat (ap j))%nat). specialize (M0 j ltac:(lia)).
    replace (Z.to_nat (ap j) + (p - Z.to_nat (ap j)))%nat with p in R by lia. apply R. lia.
  - intros W t Ht. cbn [Nat.add]. pose proof W as (_ & M & R). split; [apply M; exact Ht|].
    intros u Hu. apply R. pose proof (wf_mono _ _ _ _ W (S t) n ltac:(lia) ltac:(lia)).
    pose proof (wf_mono _ _ _ _ W 0 t ltac:(lia) ltac:(lia)). lia.
Qed.

Lemma asc_iff ai p k last : asc ai p k last <->
  ((0 < k)%nat -> last < ai p) /\ (forall q, (p <= q)%nat -> (S q < p + k)%nat -> ai q < ai (S q)).
Proof.
  revert p last. induction k as [|k IH]; intros p last; cbn.
  - split; [|auto]. intros _. split; intros; lia.
  - rewrite IH. split.
    + intros (A & B & C). split; [auto|]. intros q Hq Hq2.
      destruct (Nat.eq_dec q p) as [->|]; [apply B; lia|apply C; lia].
    + intros (A & B). split; [apply A; lia|]. split; [intros; apply B; lia|]. intros q Hq Hq2. apply B; lia.
Qed.

Lemma cols_asc_iff nr ap ai n : well_formed nr n ap ai -> (cols_asc ap ai 0 n <-> ascending n ap ai).
Proof.
  intros W. split.
  - intros C j p Hj L H. specialize (C j Hj). cbn [Nat.add] in C. apply asc_iff in C. destruct C as [_ C].
    pose proof (wf_mono _ _ _ _ W 0 j ltac:(lia) ltac:(lia)) as M. destruct W as (Z0 & _). apply C; lia.
  - intros A t Ht. cbn [Nat.add]. apply asc_iff.
    pose proof (wf_mono _ _ _ _ W 0 t ltac:(lia) ltac:(lia)) as M.
    pose proof (wf_mono _ _ _ _ W (S t) n ltac:(lia) ltac:(lia)) as M2.
    destruct W as (Z0 & MM & R). split.
    + intros K. assert (0 <= ai (Z.to_nat (ap t)) < nr) by (apply R; lia). unfold EMPTY. lia.
    + intros q H1 H2. apply (A t q Ht); lia.
Qed.

Theorem AMD_valid_ok nr n Ap Ai ap ai N : 0 <= nr ->
  holds Ap (S n) ap -> holds Ai N ai -> (forall j, (j <= n)%nat -> ap j <= Z.of_nat N) ->
  (well_formed nr n ap ai -> ascending n ap ai -> AMD_valid nr (Z.of_nat n) Ap Ai = Some AMD_OK) /\
  (well_formed nr n ap ai -> ~ ascending n ap ai -> AMD_valid nr (Z.of_nat n) Ap Ai = Some AMD_OK_BUT_JUMBLED) /\
  (~ well_formed nr n ap ai -> AMD_valid nr (Z.of_nat n) Ap Ai = Some AMD_INVALID).
Proof.
  intros Hnr HP HI HN. unfold AMD_valid.
  destruct (Z.ltb_spec nr 0); [lia|]. destruct (Z.ltb_spec (Z.of_nat n) 0); [lia|]. cbn [orb].
  assert (GN : getz Ap (Z.of_nat n) = Some (ap n)).
  { unfold getz. destruct (Z.ltb_spec (Z.of_nat n) 0); [lia|]. rewrite Nat2Z.id. apply HP. lia. }
  rewrite GN. cbn [bind]. rewrite (HP 0%nat) by lia. cbn [bind]. rewrite Nat2Z.id.
  destruct (Z.eqb_spec (ap 0%nat) 0) as [Z0|Z0]; cbn [negb orb].
  2: { split; [|split]; [intros (Z1 & _); lia|intros (Z1 & _); lia|reflexivity]. }
  destruct (Z.ltb_spec (ap n) 0) as [NN|NN].
  { split; [|split; [|reflexivity]]; intros W; pose proof (wf_mono _ _ _ _ W 0 n ltac:(lia) ltac:(lia)); lia. }
  destruct (valid_columns_ok nr Ap Ai ap ai N n 0 AMD_OK) as [V1 V2].
  - intros t Ht. apply HP. lia.
  - exact HI.
  - intros t Ht. apply HN. exact Ht.
  - lia.
  - split; [|split].
    + intros W A. destruct (V1 (proj2 (cols_wf_iff _ _ _ _ Z0) W)) as (r & E & [[_ ->]|[C _]]); [exact E|].
      exfalso. apply C. apply (cols_asc_iff nr); assumption.
    + intros W A. destruct (V1 (proj2 (cols_wf_iff _ _ _ _ Z0) W)) as (r & E & [[C _]|[_ ->]]); [|exact E].
      exfalso. apply A. apply (cols_asc_iff nr); assumption.
    + intros W. apply V2. intros C. apply W. apply cols_wf_iff; assumption.
Qed.
