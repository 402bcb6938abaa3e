(* C40: the fill-reducing ordering. *)
From Coq Require Import List Arith ZArith Bool Lia.
From Verif Require Import Base.
From Verif.Model Require Import Amd.
From Verif.Spec Require Import Matrix SetupSpec Ordering.
From Verif.Proofs Require Import AmdB AmdL AmdV AmdR AmdO AmdF.
Import ListNotations.
Open Scope nat_scope.

(* ---- decidability ---- *)
Lemma below_dec (P : nat -> Prop) m : (forall i, {P i} + {~ P i}) -> {forall i, i < m -> P i} + {~ forall i, i < m -> P i}.
Proof.
  intros D. induction m as [|m IH]; [left; intros; lia|]. destruct (D m) as [A|A]; [|right; intros H; apply A, H; lia].
  destruct IH as [B|B]; [left|right; intros H; apply B; intros; apply H; lia].
  intros i Hi. destruct (Nat.eq_dec i m) as [->|]; [exact A|apply B; lia].
Qed.
Lemma dec_wf nr n ap ai : {well_formed nr n ap ai} + {~ well_formed nr n ap ai}.
Proof.
  unfold well_formed. destruct (Z.eq_dec (ap 0) 0) as [A|A]; [|right; tauto].
  destruct (below_dec (fun j => (ap j <= ap (S j))%Z) n (fun j => Z_le_dec _ _)) as [B|B]; [|right; tauto].
  destruct (below_dec (fun p => (0 <= ai p < nr)%Z) (Z.to_nat (ap n))) as [C|C].
  - intros p. destruct (Z_le_dec 0 (ai p)); [|right; lia]. destruct (Z_lt_dec (ai p) nr); [left|right]; lia.
  - left. split; [exact A|]. split; [exact B|]. intros p Hp. apply C. lia.
  - right. intros (_ & _ & H). apply C. intros p Hp. apply H. lia.
Qed.
Lemma dec_asc n ap ai : {ascending n ap ai} + {~ ascending n ap ai}.
Proof.
  destruct (below_dec (fun j => forall p, p < Z.to_nat (ap (S j)) -> (ap j <= Z.of_nat p)%Z -> (Z.of_nat (S p) < ap (S j))%Z -> (ai p < ai (S p))%Z) n) as [A|A].
  - intros j. apply below_dec. intros p. destruct (Z_lt_dec (ai p) (ai (S p))); [left; auto|].
    destruct (Z_le_dec (ap j) (Z.of_nat p)); [|left; tauto]. destruct (Z_lt_dec (Z.of_nat (S p)) (ap (S j))); [right; auto|left; tauto].
  - left. intros j p Hj H1 H2. apply (A j Hj); auto. lia.
  - right. intros H. apply A. intros j Hj p _ H1 H2. apply (H j); auto.
Qed.

(* The check of the input: a pattern with strictly ascending columns is accepted,
   any other well-formed one is called jumbled, anything else is invalid. *)
Theorem C40_valid : forall nr n Ap Ai ap ai N, (0 <= nr)%Z ->
  holds Ap (S n) ap -> holds Ai N ai -> (forall j, j <= n -> (ap j <= Z.of_nat N)%Z) ->
  (AMD_valid nr (Z.of_nat n) Ap Ai = Some AMD_OK <-> well_formed nr n ap ai /\ ascending n ap ai) /\
  (AMD_valid nr (Z.of_nat n) Ap Ai = Some AMD_OK_BUT_JUMBLED <-> well_formed nr n ap ai /\ ~ ascending n ap ai) /\
  (AMD_valid nr (Z.of_nat n) Ap Ai = Some AMD_INVALID <-> ~ well_formed nr n ap ai).
Proof.
  intros nr n Ap Ai ap ai N Hn HP HI HN. destruct (AMD_valid_ok nr n Ap Ai ap ai N Hn HP HI HN) as (A & B & C).
  assert (D : well_formed nr n ap ai /\ ascending n ap ai \/ well_formed nr n ap ai /\ ~ ascending n ap ai \/ ~ well_formed nr n ap ai).
  { destruct (dec_wf nr n ap ai) as [W|W]; [|auto]. destruct (dec_asc n ap ai) as [X|X]; auto. }
  destruct D as [[W X]|[[W X]|W]].
  - rewrite (A W X). unfold AMD_OK, AMD_OK_BUT_JUMBLED, AMD_INVALID. (split; [|split]); split; intros HH; try discriminate HH; tauto.
  - rewrite (B W X). unfold AMD_OK, AMD_OK_BUT_JUMBLED, AMD_INVALID. (split; [|split]); split; intros HH; try discriminate HH; tauto.
  - rewrite (C W). unfold AMD_OK, AMD_OK_BUT_JUMBLED, AMD_INVALID. (split; [|split]); split; intros HH; try discriminate HH; tauto.
Qed.

(* The preprocessing turns a well-formed pattern into its transpose, with strictly
   ascending columns and each coordinate once, inside the arrays it is given. *)
Theorem C40_preprocess : forall n Ap Ai ap ai Rp Ri W Flag,
  well_formed (Z.of_nat n) n ap ai -> holds Ap (S n) ap -> holds Ai (Z.to_nat (ap n)) ai ->
  length Rp = S n -> Z.to_nat (ap n) <= length Ri -> length W = n -> length Flag = n ->
  exists Rp' Ri' rp ri,
    AMD_preprocess n Ap Ai Rp Ri W Flag = Some (Rp', Ri') /\
    holds Rp' (S n) rp /\ holds Ri' (Z.to_nat (rp n)) ri /\
    well_formed (Z.of_nat n) n rp ri /\ ascending n rp ri /\ (rp n <= ap n)%Z /\
    (forall i j, entry n rp ri i j <-> entry n ap ai j i).
Proof.
  intros n Ap Ai ap ai Rp Ri W Flag H1 H2 H3 H4 H5 H6 H7.
  destruct (AMD_preprocess_ok n Ap Ai ap ai Rp Ri W Flag H1 H2 H3 H4 H5 H6 H7) as (Rp' & Ri' & rp & ri & E & _ & _ & R).
  exists Rp', Ri', rp, ri. auto.
Qed.

(* an optional index as the arrays hold it *)
Definition index (x : option nat) : Z := match x with Some i => Z.of_nat i | None => EMPTY end.

(* The postorder: on every assembly forest it ends and numbers the elements 0 ..
   K-1, every subtree consecutively with its root last and directly before the root
   its largest child.  Nodes that are not elements get EMPTY. *)
Theorem C40_postorder : forall n par nv Parent Nv Fsize Order Child Sibling Stack size,
  forest n par nv ->
  length Parent = n -> length Nv = n -> length Fsize = n ->
  holds Parent n (fun i => index (par i)) -> holds Nv n (fun i => Z.of_nat (nv i)) -> holds Fsize n size ->
  (forall i, i < n -> 0 < nv i -> (-1 <= size i)%Z) ->
  length Order = n -> length Child = n -> length Sibling = n -> length Stack = n ->
  exists Order' o K,
    AMD_postorder n Parent Nv Fsize Order Child Sibling Stack = Some Order' /\
    holds Order' n (fun i => if 0 <? nv i then Z.of_nat (o i) else EMPTY) /\
    postorder n par nv o K /\ largest_child_last n par nv size o.
Proof.
  intros n par nv Parent Nv Fsize Order Child Sibling Stack size FO L1 L2 L3 H1 H2 H3 H4 H5 H6 H7 H8.
  pose proof (AMD_postorder_ok n par nv Parent Nv Fsize Order Child Sibling Stack (fun i => Z.of_nat (nv i)) size
    FO (conj L1 H1) (conj L2 H2) (fun i _ => eq_refl) (conj L3 H3) H4 H5 H6 H7 H8) as W.
  apply wp_elim in W. destruct W as (O' & E & o & K & G & _ & P & Q). exists O', o, K. auto.
Qed.

(* What the routines that choose the pivots leave behind: an assembly forest whose
   parents are stored flipped, as are the sizes of the elements. *)
Definition leaves_forest (n : nat) (res : option (arr Z * arr Z * arr Z)) : Prop :=
  exists Pe Nv Elen par nv el, res = Some (Pe, Nv, Elen) /\ forest n par nv /\
    length Pe = n /\ length Nv = n /\ length Elen = n /\
    holds Pe n (fun i => FLIP (index (par i))) /\ holds Nv n (fun i => Z.of_nat (nv i)) /\ holds Elen n el /\
    (forall e, e < n -> 0 < nv e -> (el e <= -1)%Z).

Definition elimination_ok (elim : elimination) : Prop :=
  forall n Cp Ci cp ci, 0 < n -> holds Cp (S n) cp -> holds Ci (Z.to_nat (cp n)) ci ->
    well_formed (Z.of_nat n) n cp ci -> ascending n cp ci -> leaves_forest n (elim n Cp Ci).

(* From the assembly forest to the ordering: whatever is in the work arrays, the
   inverse permutation nx numbers all rows, rows absorbed into an element directly
   before it, elements before their parents and dense rows last. *)
Theorem C40_finish : forall n par nv Pe Nv Elen W Head Next Last el,
  forest n par nv ->
  length Pe = n -> length Nv = n -> length Elen = n ->
  holds Pe n (fun i => FLIP (index (par i))) -> holds Nv n (fun i => Z.of_nat (nv i)) -> holds Elen n el ->
  (forall e, e < n -> 0 < nv e -> (el e <= -1)%Z) ->
  length W = n -> length Head = n -> length Next = n -> length Last = n ->
  exists Next' Last' nx,
    amd2_finish n Pe Nv Elen W Head Next Last = Some (Next', Last') /\
    elimination_order n par nv nx /\ holds Next' n (fun i => Z.of_nat (nx i)) /\
    length Last' = n /\ forall i, i < n -> get Last' (nx i) = Some (Z.of_nat i).
Proof.
  intros n par nv Pe Nv Elen W Head Next Last el FO L1 L2 L3 H1 H2 H3 H4 H5 H6 H7 H8.
  pose proof (amd2_finish_ok n par nv Pe Nv Elen W Head Next Last el FO (conj L1 H1) (conj L2 H2) (conj L3 H3) H4 H5 H6 H7 H8) as W'.
  apply wp_elim in W'. destruct W' as ([N' L'] & E & nx & A & [_ B] & C & D). exists N', L', nx. auto.
Qed.

(* an injective map of 0 .. n-1 into itself has an inverse *)
Lemma inj_onto n (f : nat -> nat) : (forall i, i < n -> f i < n) -> (forall i j, i < n -> j < n -> f i = f j -> i = j) ->
  forall k, k < n -> exists i, i < n /\ f i = k.
Proof.
  intros R I k Hk. assert (X : In k (map f (seq 0 n))).
  { apply (NoDup_length_incl (l := map f (seq 0 n)) (l' := seq 0 n)).
    - assert (ND : forall m, m <= n -> NoDup (map f (seq 0 m))); [|apply ND; lia].
      induction m as [|m IH]; intros Hm; [constructor|]. rewrite seq_S, map_app. apply AmdT.nodup_app. split; [apply IH; lia|].
      split; [repeat constructor; cbn; tauto|]. intros x Hx [<-|[]]. apply in_map_iff in Hx. destruct Hx as (y & E & Hy). apply in_seq in Hy.
      apply I in E; lia.
    - rewrite map_length. reflexivity.
    - intros x Hx. apply in_map_iff in Hx. destruct Hx as (y & <- & Hy). apply in_seq in Hy. apply in_seq. specialize (R y). lia.
    - apply in_seq. lia. }
  apply in_map_iff in X. destruct X as (i & E & Hi). apply in_seq in Hi. exists i. split; [lia|exact E].
Qed.

(* The whole routine, for pivot choices that leave a forest: an ill-formed pattern
   is reported and P left alone; for any other P receives a permutation, and the
   status tells whether the columns were strictly ascending. *)
Theorem C40_order : forall elim n Ap Ai P ap ai N, elimination_ok elim -> 0 < n ->
  holds Ap (S n) ap -> holds Ai N ai -> (forall j, j <= n -> (ap j <= Z.of_nat N)%Z) -> length P = n ->
  (~ well_formed (Z.of_nat n) n ap ai /\ AMD_order elim (Z.of_nat n) Ap Ai P = Some (AMD_INVALID, P)) \/
  (well_formed (Z.of_nat n) n ap ai /\ exists status P' pf,
     AMD_order elim (Z.of_nat n) Ap Ai P = Some (status, P') /\
     (status = AMD_OK /\ ascending n ap ai \/ status = AMD_OK_BUT_JUMBLED /\ ~ ascending n ap ai) /\
     is_perm n pf /\ length P' = n /\ holds P' n (fun k => Z.of_nat (pf k))).
Proof.
  intros elim n Ap Ai P ap ai N EL Hn HP HI HN LP. unfold AMD_order.
  destruct (Z.ltb_spec (Z.of_nat n) 0); [lia|]. destruct (Z.eqb_spec (Z.of_nat n) 0); [lia|].
  assert (GN : getz Ap (Z.of_nat n) = Some (ap n)).
  { unfold getz. destruct (Z.ltb_spec (Z.of_nat n) 0); [lia|]. rewrite Nat2Z.id. apply HP. lia. }
  rewrite GN. cbn [bind].
  destruct (AMD_valid_ok (Z.of_nat n) n Ap Ai ap ai N ltac:(lia) HP HI HN) as (VA & VB & VC).
  destruct (dec_wf (Z.of_nat n) n ap ai) as [WF|WF].
  - right. split; [exact WF|].
    assert (AN : (0 <= ap n)%Z) by (pose proof (wf_mono _ _ _ _ WF 0 n ltac:(lia) ltac:(lia)) as M; destruct WF as (Z0 & _); lia).
    assert (HI' : holds Ai (Z.to_nat (ap n)) ai) by (intros i Hi; apply HI; specialize (HN n ltac:(lia)); lia).
    destruct (Z.ltb_spec (ap n) 0); [lia|].
    assert (FIN : forall st Cp Ci cp ci, holds Cp (S n) cp -> holds Ci (Z.to_nat (cp n)) ci -> well_formed (Z.of_nat n) n cp ci -> ascending n cp ci ->
      exists P' pf, ('(Pe, Nv, Elen) <- elim n Cp Ci ;; '(_, P) <- amd2_finish n Pe Nv Elen (alloc n) (alloc n) (alloc n) P ;; Some (st, P)) = Some (st : Z, P') /\
        is_perm n pf /\ length P' = n /\ holds P' n (fun k => Z.of_nat (pf k))).
    { intros st Cp Ci cp ci H1 H2 H3 H4. destruct (EL n Cp Ci cp ci Hn H1 H2 H3 H4) as (Pe & Nv & Elen & par & nv & el & -> & FO & L1 & L2 & L3 & G1 & G2 & G3 & G4).
      cbn [bind]. destruct (C40_finish n par nv Pe Nv Elen (alloc n) (alloc n) (alloc n) P el FO L1 L2 L3 G1 G2 G3 G4) as (Nx & La & nx & -> & EO & HX & HL & HG);
        try apply repeat_length; [exact LP|]. cbn [bind].
      destruct EO as [E1 E2 _ _ _]. pose proof (inj_onto n nx E1 E2) as ON.
      set (pf := fun k => match get La k with Some z => Z.to_nat z | None => 0 end).
      assert (PF : forall k, k < n -> exists i, i < n /\ nx i = k /\ pf k = i).
      { intros k Hk. destruct (ON k Hk) as (i & Hi & E). exists i. split; [exact Hi|]. split; [exact E|]. unfold pf. rewrite <- E, HG by exact Hi. apply Nat2Z.id. }
      exists La, pf. split; [reflexivity|]. split; [split|split; [exact HL|]].
      - intros k Hk. destruct (PF k Hk) as (i & Hi & _ & ->). exact Hi.
      - intros k l Hk Hl E. destruct (PF k Hk) as (i & Hi & <- & Ei). destruct (PF l Hl) as (j & Hj & <- & Ej). f_equal. congruence.
      - intros k Hk. destruct (PF k Hk) as (i & Hi & E & ->). rewrite <- E. apply HG. exact Hi. }
    destruct (dec_asc n ap ai) as [AS|AS].
    + rewrite (VA WF AS). cbn [bind]. change (AMD_OK =? AMD_INVALID)%Z with false. change (AMD_OK =? AMD_OK_BUT_JUMBLED)%Z with false. cbv iota zeta.
      cbn [bind]. rewrite Nat2Z.id. destruct (FIN AMD_OK Ap Ai ap ai HP HI' WF AS) as (P' & pf & E & R). exists AMD_OK, P', pf. auto.
    + rewrite (VB WF AS). cbn [bind]. change (AMD_OK_BUT_JUMBLED =? AMD_INVALID)%Z with false. change (AMD_OK_BUT_JUMBLED =? AMD_OK_BUT_JUMBLED)%Z with true. cbv iota zeta.
      rewrite Nat2Z.id.
      destruct (AMD_preprocess_ok n Ap Ai ap ai (alloc (n + 1)) (alloc (Z.to_nat (Z.max (ap n) 1))) (alloc n) (alloc n) WF HP HI')
        as (Rp' & Ri' & rp & ri & -> & _ & _ & R1 & R2 & R3 & R4 & _); try (unfold alloc; rewrite repeat_length; lia).
      cbn [bind]. destruct (FIN AMD_OK_BUT_JUMBLED Rp' Ri' rp ri R1 R2 R3 R4) as (P' & pf & E & R). exists AMD_OK_BUT_JUMBLED, P', pf. auto.
  - left. split; [exact WF|]. destruct (Z.ltb_spec (ap n) 0); [reflexivity|]. rewrite (VC WF). reflexivity.
Qed.

(* ---- what the check has read ---- *)
Definition val (a : arr Z) (i : nat) : Z := match get a i with Some v => v | None => 0%Z end.
Lemma valid_entries_inv nr Ai k : forall p il r0 r, (0 <= p)%Z -> r0 <> AMD_INVALID -> valid_entries nr Ai k p il r0 = Some (Some r) ->
  r <> AMD_INVALID /\ forall t, t < k -> get Ai (Z.to_nat p + t) = Some (val Ai (Z.to_nat p + t)).
Proof.
  induction k as [|k IH]; intros p il r0 r Hp H0 E; cbn [valid_entries] in E; [injection E as <-; split; [exact H0|lia]|].
  unfold getz in E at 1. destruct (Z.ltb_spec p 0); [lia|]. destruct (get Ai (Z.to_nat p)) as [i|] eqn:G; [|discriminate]. cbn [bind] in E.
  destruct ((i <? 0) || (nr <=? i))%Z; [discriminate|]. apply IH in E; [|lia|destruct (i <=? il)%Z; [discriminate|exact H0]].
  destruct E as [E1 E2]. split; [exact E1|]. intros [|t] Ht; [rewrite Nat.add_0_r; unfold val; rewrite G; reflexivity|].
  specialize (E2 t ltac:(lia)). replace (Z.to_nat (p + 1) + t) with (Z.to_nat p + S t) in E2 by lia. exact E2.
Qed.
Lemma valid_columns_inv nr Ap Ai k : forall j r0 r, r0 <> AMD_INVALID -> r <> AMD_INVALID -> (0 <= val Ap j)%Z ->
  valid_columns nr Ap Ai k j r0 = Some r -> 0 < k ->
  (forall t, t <= k -> get Ap (j + t) = Some (val Ap (j + t)) /\ (val Ap j <= val Ap (j + t) <= val Ap (j + k))%Z) /\
  (forall p, (val Ap j <= Z.of_nat p < val Ap (j + k))%Z -> get Ai p = Some (val Ai p)).
Proof.
  induction k as [|k IH]; intros j r0 r H0 Hr Hj E Hk; [lia|]. cbn [valid_columns] in E.
  destruct (get Ap j) as [p1|] eqn:G1; [|discriminate]. cbn [bind] in E.
  destruct (get Ap (j + 1)) as [p2|] eqn:G2; [|discriminate]. cbn [bind] in E.
  assert (V1 : val Ap j = p1) by (unfold val; rewrite G1; reflexivity). assert (V2 : val Ap (j + 1) = p2) by (unfold val; rewrite G2; reflexivity).
  destruct (Z.gtb_spec p1 p2); [injection E as <-; contradiction|].
  destruct (valid_entries nr Ai (Z.to_nat (p2 - p1)) p1 EMPTY r0) as [[r1|]|] eqn:EE; [|injection E as <-; contradiction|discriminate]. cbn [bind] in E.
  apply valid_entries_inv in EE; [|lia|exact H0]. destruct EE as [N1 EE].
  assert (T0 : get Ap (j + 0) = Some (val Ap (j + 0))) by (rewrite Nat.add_0_r, V1; exact G1).
  assert (EE' : forall p, (p1 <= Z.of_nat p < p2)%Z -> get Ai p = Some (val Ai p)).
  { intros p Hp. specialize (EE (p - Z.to_nat p1) ltac:(lia)). replace (Z.to_nat p1 + (p - Z.to_nat p1)) with p in EE by lia. exact EE. }
  destruct k as [|k].
  - split.
    + intros [|[|t]] Ht; [split; [exact T0|rewrite Nat.add_0_r; lia]| |lia]. rewrite V2. split; [exact G2|lia].
    + intros p Hp. rewrite V1, V2 in Hp. apply EE'. exact Hp.
  - replace (S j) with (j + 1) in E by lia. apply IH in E; auto; [|lia|lia]. destruct E as [A B].
    replace (j + 1 + S k) with (j + S (S k)) in * by lia. pose proof (proj2 (A (S k) ltac:(lia))) as L.
    replace (j + 1 + S k) with (j + S (S k)) in L by lia. split.
    + intros [|t] Ht; [split; [exact T0|rewrite Nat.add_0_r; lia]|]. specialize (A t ltac:(lia)). replace (j + 1 + t) with (j + S t) in A by lia.
      split; [apply A|]. destruct A as [_ A]. lia.
    + intros p Hp. destruct (Z_lt_dec (Z.of_nat p) p2); [apply EE'; lia|]. apply B. lia.
Qed.

(* The assumption on the ordering that the theorems about ECOS_setup make is met. *)
Theorem C40_setup_call : forall elim, elimination_ok elim -> amd_ok (amd_of elim).
Proof.
  intros elim EL n jc ir P. unfold amd_of.
  set (Ap := map (option_map Z.of_nat) jc). set (Ai := map (option_map Z.of_nat) ir).
  destruct (AMD_order elim (Z.of_nat n) Ap Ai (alloc n)) as [[st Q]|] eqn:E; [|discriminate].
  destruct (Z.eqb_spec st AMD_OK) as [->|]; [|discriminate]. intros [= <-].
  assert (X : exists pf, is_perm n pf /\ holds Q n (fun k => Z.of_nat (pf k))).
  { destruct (Nat.eq_dec n 0) as [->|Hn].
    - exists (fun i => i). split; [split; intros; lia|intros i Hi; lia].
    - pose proof E as E0. unfold AMD_order in E0. destruct (Z.ltb_spec (Z.of_nat n) 0); [discriminate E0|]. destruct (Z.eqb_spec (Z.of_nat n) 0); [lia|].
      destruct (getz Ap (Z.of_nat n)) as [nz|] eqn:GN; [|discriminate]. cbn [bind] in E0. destruct (Z.ltb_spec nz 0); [discriminate E0|].
      destruct (AMD_valid (Z.of_nat n) (Z.of_nat n) Ap Ai) as [r|] eqn:EV; [|discriminate]. cbn [bind] in E0.
      destruct (Z.eqb_spec r AMD_INVALID) as [|Hr]; [discriminate E0|]. clear E0.
      unfold AMD_valid in EV. destruct (Z.ltb_spec (Z.of_nat n) 0); [lia|]. cbn [orb] in EV. rewrite GN in EV. cbn [bind] in EV.
      destruct (get Ap 0) as [a0|] eqn:G0; [|discriminate]. cbn [bind] in EV.
      destruct (Z.eqb_spec a0 0) as [->|]; cbn [negb orb] in EV; [|injection EV as <-; contradiction].
      destruct (Z.ltb_spec nz 0); [lia|]. rewrite Nat2Z.id in EV.
      assert (V0 : val Ap 0 = 0%Z) by (unfold val; rewrite G0; reflexivity).
      apply valid_columns_inv in EV; [|discriminate|exact Hr|lia|lia]. destruct EV as [A B]. cbn [Nat.add] in A, B.
      destruct (C40_order elim n Ap Ai (alloc n) (val Ap) (val Ai) (Z.to_nat (val Ap n)) EL ltac:(lia)) as [[_ R]|(_ & st & P' & pf & R & _ & IP & _ & HP)].
      + intros j Hj. apply A. lia.
      + intros p Hp. apply B. lia.
      + intros j Hj. destruct (A j Hj) as [_ A1].
        lia.
      + apply repeat_length.
      + rewrite R in E. discriminate E.
      + rewrite R in E. injection E as -> ->. exists pf. auto. }
  destruct X as (pf & IP & HP). exists pf. split; [exact IP|]. intros i Hi. specialize (HP i Hi).
  unfold get in *. rewrite nth_error_map. destruct (nth_error Q i) as [[z|]|]; try discriminate. cbn in *. injection HP as ->. rewrite Nat2Z.id. reflexivity.
Qed.

(* The check reads the row indices before it has seen all column pointers: when the
   first column pretends to be longer than the array, it reads past the end. *)
Theorem C40_refuted_pointers : forall nr n Ap Ai ap ai N, 0 < n -> (0 <= nr)%Z ->
  holds Ap (S n) ap -> ap 0 = 0%Z -> (0 <= ap n)%Z -> (Z.of_nat N < ap 1%nat)%Z ->
  length Ai = N -> holds Ai N ai -> (forall p, p < N -> (0 <= ai p < nr)%Z) ->
  AMD_valid nr (Z.of_nat n) Ap Ai = None.
Proof.
  intros nr n Ap Ai ap ai N Hn Hr HP H0 HN H1 LA HI HR. unfold AMD_valid.
  destruct (Z.ltb_spec nr 0); [lia|]. destruct (Z.ltb_spec (Z.of_nat n) 0); [lia|]. cbn [orb].
  unfold getz at 1. destruct (Z.ltb_spec (Z.of_nat n) 0); [lia|]. rewrite Nat2Z.id, (HP n) by lia. cbn [bind]. rewrite (HP 0) by lia. cbn [bind].
  rewrite H0. cbn [negb Z.eqb orb]. destruct (Z.ltb_spec (ap n) 0); [lia|]. destruct n as [|n]; [lia|]. cbn [valid_columns].
  rewrite (HP 0) by lia. cbn [bind Nat.add]. rewrite (HP 1) by lia. cbn [bind]. rewrite H0. destruct (Z.gtb_spec 0 (ap 1)); [lia|].
  assert (X : forall k p il r, p + k > N -> p <= N -> valid_entries nr Ai k (Z.of_nat p) il r = None).
  { induction k as [|k IH]; intros p il r Hk Hp; [lia|]. cbn [valid_entries]. unfold getz. destruct (Z.ltb_spec (Z.of_nat p) 0); [lia|]. rewrite Nat2Z.id.
    destruct (Nat.eq_dec p N) as [->|NE].
    - replace (get Ai N) with (@None Z); [reflexivity|]. unfold get. symmetry. replace (nth_error Ai N) with (@None (option Z)); [reflexivity|].
      symmetry. apply nth_error_None. lia.
    - rewrite HI by lia. cbn [bind]. specialize (HR p ltac:(lia)). destruct (Z.ltb_spec (ai p) 0); [lia|]. destruct (Z.leb_spec nr (ai p)); [lia|]. cbn [orb].
      replace (Z.of_nat p + 1)%Z with (Z.of_nat (S p)) by lia. apply IH; lia. }
  replace (valid_entries nr Ai (Z.to_nat (ap 1 - 0)) 0 EMPTY AMD_OK) with (@None (option Z)); [reflexivity|]. symmetry. apply (X _ 0); lia.
Qed.

(* ---- examples ---- *)
(* every row a pivot of its own *)
Definition elim_plain : elimination := fun n _ _ => Some (arr_fun n (fun _ => EMPTY), arr_fun n (fun _ => 1%Z), arr_fun n (fun _ => (-3)%Z)).
Theorem elim_plain_ok : elimination_ok elim_plain.
Proof.
  intros n Cp Ci cp ci Hn _ _ _ _. unfold leaves_forest, elim_plain.
  exists (arr_fun n (fun _ => EMPTY)), (arr_fun n (fun _ => 1%Z)), (arr_fun n (fun _ => (-3)%Z)), (fun _ => None), (fun _ => 1), (fun _ => (-3)%Z).
  split; [reflexivity|]. split.
  - constructor; try discriminate; [exists (fun _ => 0); discriminate|]. intros e He _. exists [e]. split; [repeat constructor; cbn; tauto|].
    split; [|reflexivity]. intros i. cbn. split.
    + intros [<-|[]]. split; [exact He|constructor; lia].
    + intros [_ A]. inversion A; subst; [auto|lia].
  - rewrite !arr_fun_length. repeat split; try (intros i Hi; rewrite get_arr_fun by exact Hi; reflexivity). lia.
Qed.

(* 4 rows; column 1 holds row 3 twice and is out of order *)
Theorem C40_order_example :
  exists P, AMD_order elim_plain 4 (arr_of [0; 1; 4; 4; 5]%Z) (arr_of [0; 3; 1; 3; 2]%Z) (alloc 4) = Some (AMD_OK_BUT_JUMBLED, P) /\
    P = arr_of [0; 1; 2; 3]%Z /\
    AMD_preprocess 4 (arr_of [0; 1; 4; 4; 5]%Z) (arr_of [0; 3; 1; 3; 2]%Z) (alloc 5) (alloc 5) (alloc 4) (alloc 4)
      = Some (arr_of [0; 1; 2; 3; 4]%Z, arr_of [0; 1; 3; 1]%Z ++ [None]).
Proof. eexists. split; [vm_compute; reflexivity|]. split; vm_compute; reflexivity. Qed.

(* 8 rows: 0 absorbed into 5 through 3, 6 dense, 1 and 5 below 7, 2 and 4 below 1 *)
Definition ex_par (i : nat) : option nat := nth i [Some 3; Some 7; Some 1; Some 5; Some 1; Some 7; None; None] None.
Definition ex_nv (i : nat) : nat := nth i [0; 1; 1; 0; 1; 3; 0; 1] 0.
Lemma ex_absorbed e i : absorbed ex_par ex_nv e i -> i = e /\ 0 < ex_nv e \/ e = 5 /\ (i = 0 \/ i = 3).
Proof.
  induction 1 as [H|i j H P A IH]; [auto|]. right.
  destruct i as [|[|[|[|[|[|[|[|[|i]]]]]]]]]; cbn in *; try discriminate; injection P as <-.
  - destruct IH as [[<- B]|[-> B]]; [cbn in B; lia|auto].
  - destruct IH as [[<- B]|[-> B]]; auto.
Qed.
Theorem C40_forest_example : forest 8 ex_par ex_nv.
Proof.
  constructor.
  - intros i j Hi. do 8 (destruct i as [|i]; [cbn; intros E; try discriminate; injection E as <-; lia|]). lia.
  - exists (fun i => nth i [0; 5; 0; 1; 0; 2; 0; 7] 0). intros i j Hi. do 8 (destruct i as [|i]; [cbn; intros E; try discriminate; injection E as <-; cbn; lia|]). lia.
  - intros i j Hi. do 8 (destruct i as [|i]; [cbn; intros V E; try discriminate; try lia; injection E as <-; cbn; lia|]). lia.
  - assert (A3 : absorbed ex_par ex_nv 5 3) by (apply absorbed_into with 5; [reflexivity|reflexivity|constructor; cbn; lia]).
    intros i j Hi. do 8 (destruct i as [|i]; [cbn; intros V E; try discriminate; try lia; injection E as <-; exists 5; first [exact A3|constructor; cbn; lia]|]). lia.
  - intros e He Ve. exists (if e =? 5 then [0; 3; 5] else [e]).
    assert (A3 : absorbed ex_par ex_nv 5 3) by (apply absorbed_into with 5; [reflexivity|reflexivity|constructor; cbn; lia]).
    assert (A0 : absorbed ex_par ex_nv 5 0) by (apply absorbed_into with 3; [reflexivity|reflexivity|exact A3]).
    destruct (Nat.eqb_spec e 5) as [->|NE].
    + split; [repeat constructor; cbn; lia|]. split; [|reflexivity]. intros i. cbn. split.
      * intros [<-|[<-|[<-|[]]]]; (split; [lia|]); auto. constructor. cbn. lia.
      * intros [_ A]. apply ex_absorbed in A. lia.
    + split; [repeat constructor; cbn; lia|]. split.
      * intros i. cbn. split; [intros [<-|[]]; split; [lia|constructor; exact Ve]|]. intros [_ A]. apply ex_absorbed in A. lia.
      * do 8 (destruct e as [|e]; [cbn in *; lia|]). lia.
Qed.
Theorem C40_finish_example :
  amd2_finish 8 (arr_fun 8 (fun i => FLIP (index (ex_par i)))) (arr_fun 8 (fun i => Z.of_nat (ex_nv i))) (arr_of [-1; -4; -3; -1; -5; -6; -1; -9]%Z)
     (alloc 8) (alloc 8) (alloc 8) (alloc 8)
  = Some (arr_of [3; 2; 0; 4; 1; 5; 7; 6]%Z, arr_of [2; 4; 1; 0; 3; 5; 7; 6]%Z).
Proof. vm_compute. reflexivity. Qed.
(* three row pointers, two entries *)
Theorem C40_pointers_example : AMD_valid 2 2 (arr_of [0; 100; 2]%Z) (arr_of [0; 1]%Z) = None.
Proof. vm_compute. reflexivity. Qed.

Print Assumptions C40_valid.
Print Assumptions C40_preprocess.
Print Assumptions C40_postorder.
Print Assumptions C40_finish.
Print Assumptions C40_order.
Print Assumptions C40_setup_call.
Print Assumptions C40_refuted_pointers.
