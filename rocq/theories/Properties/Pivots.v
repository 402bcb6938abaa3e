(* C43: pivot selection of the fill-reducing ordering. *)
From Coq Require Import List Arith ZArith Bool Lia.
From Verif Require Import Base Num.
From Verif.Model Require Import Spla Splamm Types Amd Amd2 Preproc.
From Verif.Spec Require Import Matrix Fill SetupSpec Ordering.
From Verif.Proofs Require Import AmdB QgA QgM QgB QgN QgI.
From Verif.Properties Require Import Amd Duplicates.
Import ListNotations.
Open Scope nat_scope.

(* the rows that share an off-diagonal entry with row i, in the pattern or its transpose *)
Definition neighbour (n : nat) (cp ci : nat -> Z) (i j : nat) : Prop :=
  i < n /\ j < n /\ i <> j /\ (entry n cp ci i j \/ entry n cp ci j i).

Lemma adj_neighbour n cp ci i j : well_formed (Z.of_nat n) n cp ci -> (adj n cp ci i j <-> neighbour n cp ci i j).
Proof.
  intros WF. unfold adj, neighbour, entry, pos, row. split.
  - intros (A & B & C & q & [[D E]|[D E]]).
    + pose proof (cp_mono n cp ci WF j (S j) ltac:(lia)). csplit; auto. left. split; [auto|]. exists (Z.to_nat q). rewrite Z2Nat.id by lia. auto.
    + pose proof (cp_mono n cp ci WF i (S i) ltac:(lia)). csplit; auto. right. split; [auto|]. exists (Z.to_nat q). rewrite Z2Nat.id by lia. auto.
  - intros (A & B & C & [[_ (p & D & E)]|[_ (p & D & E)]]); csplit; auto; exists (Z.of_nat p); rewrite Nat2Z.id; auto.
Qed.

(* The graph handed to pivot selection.  Whatever the work arrays hold, row x gets a
   duplicate-free list of exactly its neighbours; Len holds the lengths, and the lists
   lie one after the other in Iw, which is large enough. *)
Theorem C43_graph : forall n Cp Ci cp ci Len Tp, 0 < n ->
  holds Cp (S n) cp -> holds Ci (Z.to_nat (cp n)) ci -> well_formed (Z.of_nat n) n cp ci -> ascending n cp ci ->
  length Len = n -> length Tp = n ->
  exists Len' (len : nat -> nat) nzaat,
    AMD_aat n Cp Ci Len Tp = Some (Len', nzaat) /\ holds Len' n (fun x => Z.of_nat (len x)) /\
    nzaat = fold_right Z.add 0%Z (map (fun x => Z.of_nat (len x)) (seq 0 n)) /\
    forall Pe Iw Sp Tp, length Pe = n -> length Sp = n -> length Tp = n -> (nzaat <= Z.of_nat (length Iw))%Z ->
    exists Pe' Iw' (at_row : nat -> nat) (nb : nat -> list nat),
      AMD_1_graph n Cp Ci Len' Pe Iw Sp Tp = Some (Pe', Iw', nzaat) /\
      holds Pe' n (fun x => Z.of_nat (at_row x)) /\ at_row 0 = 0 /\ (forall x, at_row (S x) = at_row x + len x) /\
      forall x, x < n -> NoDup (nb x) /\ length (nb x) = len x /\ (forall y, In y (nb x) <-> neighbour n cp ci x y) /\
        forall k, k < len x -> get Iw' (at_row x + k) = Some (Z.of_nat (nth k (nb x) 0)).
Proof.
  intros n Cp Ci cp ci Len Tp Hn HP HI WF AS L1 L2.
  destruct (wp_elim _ _ (aat_ok n Cp Ci cp ci HP HI WF AS Len Tp L1 L2)) as ([Len' nz] & E & R & GR & CR & FL & ->).
  exists Len', (fun x => length (nbrs R x)), (zs (cnt R) (seq 0 n)). csplit; auto.
  - apply FL.
  - clear. induction (seq 0 n) as [|x l IH]; [reflexivity|]. cbn [zs map fold_right]. rewrite IH. reflexivity.
  - intros Pe Iw Sp Tp' L3 L4 L5 L6.
    destruct (wp_elim _ _ (graph_ok n Cp Ci cp ci HP HI WF AS R GR CR (Z.of_nat (length Iw)) Len' Pe Iw Sp Tp' FL L3 L4 L5 eq_refl L6)) as ([[Pe' Iw'] pf] & E' & L & f & GL & CL & EC & -> & F1 & F2 & F3 & F4).
    assert (OS : forall x, (0 <= off R x)%Z) by (intros x; apply (off_mono R x x); lia).
    exists Pe', Iw', (fun x => Z.to_nat (off R x)), (nbrs L). csplit; auto.
    + intros x Hx. rewrite Z2Nat.id by auto. apply F1. auto.
    + intros x. rewrite off_S. unfold cnt. specialize (OS x). lia.
    + intros x Hx. assert (LE : length (nbrs L x) = length (nbrs R x)) by (specialize (EC x); unfold cnt in EC; lia). csplit; auto.
      * apply (gd_nd _ _ _ _ GL).
      * intros y. rewrite <- adj_neighbour by exact WF. split; [apply (good_adj n cp ci L); auto|]. intros A. apply (gd_in _ _ _ _ GL). apply CL. exact A.
      * intros k Hk. rewrite <- LE in Hk. assert (At : forall l p k, at_ f p l -> k < length l -> f (p + Z.of_nat k)%Z = Z.of_nat (nth k l 0)).
        { clear. induction l as [|y l IH]; intros p k At Hk; [cbn in Hk; lia|]. destruct At as [A1 A2]. destruct k as [|k]; [cbn [nth]; rewrite Z.add_0_r; exact A1|].
          cbn [nth length] in *. rewrite <- (IH (p + 1)%Z k A2 ltac:(lia)). f_equal. lia. }
        rewrite <- (At _ _ _ (F3 x Hx) Hk). replace (Z.to_nat (off R x) + k) with (Z.to_nat (off R x + Z.of_nat k)) by (specialize (OS x); lia).
        destruct F2 as [_ F2]. apply F2. specialize (OS x). pose proof (off_mono R (S x) n ltac:(lia)) as M. rewrite off_S in M. unfold cnt in M. lia.
Qed.

(* Pivot selection.  For every pattern with strictly ascending columns, every density
   threshold, every limit of the flag counter, with and without aggressive absorption:
   every access stays inside its array and reads a cell that was written, including
   the moves of garbage collection; the loop ends; and what it leaves is an assembly
   forest in which every row that is not dense is an element or absorbed into one. *)
Theorem C43_elimination : forall dense wbig aggressive, elimination_ok (amd_elim dense wbig aggressive).
Proof.
  intros dense wbig aggr n Cp Ci cp ci Hn HP HI WF AS.
  destruct (wp_elim _ _ (elim_ok_all dense wbig aggr n Cp Ci cp ci HP HI WF AS)) as ([[Pe Nv] Elen] & E & par & v & el & FO & [L1 F1] & [L2 F2] & P & [L3 F3] & X).
  exists Pe, Nv, Elen, par, (fun x => Z.to_nat (v x)), el. csplit; auto.
  - intros i Hi. rewrite F2 by exact Hi. rewrite Z2Nat.id by auto. reflexivity.
  - intros e He Ve. apply X; [exact He|lia].
Qed.

(* The whole ordering, with the pivot selection of the library. *)
Theorem C43_order : forall n Ap Ai P ap ai N, 0 < n ->
  holds Ap (S n) ap -> holds Ai N ai -> (forall j, j <= n -> (ap j <= Z.of_nat N)%Z) -> length P = n ->
  (~ well_formed (Z.of_nat n) n ap ai /\ AMD_order ecos_elim (Z.of_nat n) Ap Ai P = Some (AMD_INVALID, P)) \/
  (well_formed (Z.of_nat n) n ap ai /\ exists status P' pf,
     AMD_order ecos_elim (Z.of_nat n) Ap Ai P = Some (status, P') /\
     (status = AMD_OK /\ ascending n ap ai \/ status = AMD_OK_BUT_JUMBLED /\ ~ ascending n ap ai) /\
     is_perm n pf /\ length P' = n /\ holds P' n (fun k => Z.of_nat (pf k))).
Proof. intros n Ap Ai P ap ai N H1 H2 H3 H4 H5. apply (C40_order ecos_elim n Ap Ai P ap ai N (C43_elimination _ _ _) H1 H2 H3 H4 H5). Qed.

(* What setup assumes of the ordering holds of the library's. *)
Theorem C43_setup_call : amd_ok (amd_of ecos_elim).
Proof. apply C40_setup_call. apply C43_elimination. Qed.

(* Setup accepts exactly the problems without repeated coordinates, no assumption left. *)
Theorem C43_setup_accepts : forall `{O : Ops} junk n m p l q e G0 A0 c h b,
  valid_data n m p q G0 A0 c h b -> l + list_sum q + 3 * e = m ->
  (nodup G0 /\ nodupA A0 ->
     exists w, ECOS_setup (amd_of ecos_elim) junk n m p l q e (data_of G0) (option_map data_of A0) c h b = Some (Some w)) /\
  (~ (nodup G0 /\ nodupA A0) ->
     ECOS_setup (amd_of ecos_elim) junk n m p l q e (data_of G0) (option_map data_of A0) c h b = Some None).
Proof. intros O junk n m p l q e G0 A0 c h b V E. apply (C42_setup_accepts ecos_elim junk n m p l q e G0 A0 c h b (C43_elimination _ _ _) V E). Qed.

(* ---- examples ---- *)
(* 6 rows: a ring 0-1-2-3-4-0 with the chord 1-4, and row 5 alone *)
Definition ring_p : arr Z := arr_of [0; 2; 5; 7; 9; 12; 13]%Z.
Definition ring_i : arr Z := arr_of [1; 4; 0; 2; 4; 1; 3; 2; 4; 0; 1; 3; 5]%Z.
Theorem C43_example : AMD_order ecos_elim 6 ring_p ring_i (alloc 6) = Some (AMD_OK, arr_of [3; 2; 0; 4; 1; 5]%Z).
Proof. vm_compute. reflexivity. Qed.
Theorem C43_example_graph :
  AMD_aat 6 ring_p ring_i (alloc 6) (alloc 6) = Some (arr_of [2; 3; 2; 2; 3; 0]%Z, 12%Z) /\
  AMD_1_graph 6 ring_p ring_i (arr_of [2; 3; 2; 2; 3; 0]%Z) (alloc 6) (alloc 12) (alloc 6) (alloc 6)
    = Some (arr_of [0; 2; 5; 7; 9; 12]%Z, arr_of [1; 4; 0; 2; 4; 1; 3; 2; 4; 0; 1; 3]%Z, 12%Z).
Proof. split; vm_compute; reflexivity. Qed.
(* row 0 of 18 rows meets all others and the threshold is 16: it is dense, comes last *)
Definition star_p : arr Z := arr_of (0%Z :: map (fun k => 17 + Z.of_nat k)%Z (seq 0 18)).
Definition star_i : arr Z := arr_of (map (fun k => Z.of_nat k + 1)%Z (seq 0 17) ++ map (fun _ => 0%Z) (seq 0 17)).
Theorem C43_example_dense : exists P, AMD_order (amd_elim (fun _ => 16%Z) (fun _ => 1000%Z) true) 18 star_p star_i (alloc 18) = Some (AMD_OK, P) /\ get P 17 = Some 0%Z.
Proof. eexists. split; vm_compute; reflexivity. Qed.
Print Assumptions C43_graph.
Print Assumptions C43_elimination.
Print Assumptions C43_order.
Print Assumptions C43_setup_call.
Print Assumptions C43_setup_accepts.
