(* C30, C41: the relaxation of a mixed-integer problem. *)
From Coq Require Import List Arith Bool ZArith QArith Reals Lia Lra.
From Verif Require Import Base Num NumI NumX NumE.
From Verif.Model Require Import Consts Spla Types Equil Preproc Ecos BbTypes Bb.
From Verif.Spec Require Import Matrix SetupSpec Relaxed User.
From Verif.Proofs Require Import SplaP LoopLib EquilP EquilX Work SetupP WorkR WorkUpd SafeLib SafeU UpdP BbSetup.
From Verif.Properties Require Import Kkt Exit Equil Solve Update.
Import ListNotations.
Open Scope nat_scope.

(* ------------------------------------------------------------------- C30 *)

(* From any well-formed problem and any two lists of variables, in any order, the
   routine builds the relaxation, and touches nothing outside its arrays. *)
Theorem C30_relaxation : forall `{O : Ops} nb ni col (G : spmat F) h bidx iidx,
  wf_sp G -> full h (sp_m G) -> proper_list nb ni col (sp_n G) ->
  (forall j, j < nb -> get bidx j = Some (col j)) -> (forall j, j < ni -> get iidx j = Some (col (nb + j))) ->
  exists G' h', relaxation nb ni col G h G' h' /\ full h' (sp_m G') /\
    socp_to_ecos_bb nb bidx ni iidx (sp_n G) (sp_m G) (sp_pr G) (sp_jc G) (sp_ir G)
      (alloc (sp_nnz G + 2 * nb + 2 * ni)) (alloc (sp_n G + 1)) (alloc (sp_nnz G + 2 * nb + 2 * ni)) h (alloc (sp_m G + 2 * nb + 2 * ni))
      = Some (sp_pr G', sp_jc G', sp_ir G', h').
Proof.
  intros O nb ni col G h bidx iidx WF FH P Hb Hi.
  assert (Sz: sp_nnz G + 2 * nb + 2 * ni = sz nb ni G) by (unfold sz; lia). rewrite Sz.
  pose proof (setup_ok nb ni col G WF P (sp_m G) bidx iidx h (gd f0 h) Hb Hi (full_vec f0 _ _ FH)
    (alloc (sz nb ni G)) (alloc (sp_n G + 1)) (alloc (sz nb ni G)) (alloc (sp_m G + 2 * nb + 2 * ni))
    (alloc_length _) (alloc_length _) (alloc_length _) (alloc_length _)) as W.
  apply wp_elim in W as ([[[Gpr Gjc] Gir] h'] & E & Lp & Li & Lj & Lh & Hj & Dn & Hv & Hr). rewrite E.
  destruct (relaxed_matrix nb ni col G WF P Gpr Gjc Gir Lp Li Hj Dn) as [Wf Cols].
  exists (mkSp Gjc Gir Gpr (sp_n G) (sp_m G + 2 * (nb + ni)) (sp_nnz G + 2 * (nb + ni))), h'.
  assert (Mk: forall j, j < nb + ni -> is_intvar nb ni col (col j) = true) by (intros j Hj'; apply mk_iff; exists j; auto).
  split; [|split; [|reflexivity]].
  - constructor.
    + repeat split; reflexivity.
    + exact Wf.
    + exact Cols.
    + intros j Hj'. destruct (Hv (col j) (proj1 P j ltac:(lia)) (Mk j ltac:(lia))) as [-> ->]. unfold blo, bhi.
      replace (is_bool nb col (col j)) with true; [split; reflexivity|]. symmetry. apply bool_iff. exists j. auto.
    + intros j Hj'. destruct (Hv (col j) (proj1 P j ltac:(lia)) (Mk j ltac:(lia))) as [-> ->]. unfold blo, bhi.
      destruct (is_bool nb col (col j)) eqn:Eb; [|split; reflexivity]. apply bool_iff in Eb as (i & Hi' & Ei). apply (proj2 P) in Ei; lia.
    + intros r Hr'. rewrite Hr by exact Hr'. symmetry. apply (full_vec f0 _ _ FH). exact Hr'.
  - cbn [sp_m]. intros i Hi'. destruct (Nat.lt_ge_cases i (2 * (nb + ni))) as [L|L].
    + destruct (rank_onto nb ni col (sp_n G) (i / 2)) as (c & Hc & Mc & Rc).
      { rewrite (rank_n nb ni col _ P). apply Nat.div_lt_upper_bound; lia. }
      destruct (Hv c Hc Mc) as [H1 H2]. rewrite Rc in H1, H2. pose proof (Nat.div_mod i 2 ltac:(lia)) as Dm. pose proof (Nat.mod_upper_bound i 2 ltac:(lia)).
      destruct (i mod 2) as [|[|]]; [|  |lia].
      * rewrite Nat.add_0_r in Dm. rewrite <- Dm in H1. eauto.
      * rewrite <- Dm in H2. eauto.
    + replace i with (2 * (nb + ni) + (i - 2 * (nb + ni))) by lia. rewrite Hr by lia. eauto.
Qed.
Print Assumptions C30_relaxation.

(* Setup of a mixed-integer problem is setup of its relaxation: with n variables,
   two more inequality rows per integer variable and otherwise the caller's cones
   and equality constraints. *)
Theorem C30_setup : forall `{O : Ops} amd junk jL jk jt ji t n m p l q e G A c h b nb bidx ni iidx col stgs,
  valid_data n m p q G A c h b -> amd_ok amd -> proper_list nb ni col n ->
  (forall j, j < nb -> get bidx j = Some (col j)) -> (forall j, j < ni -> get iidx j = Some (col (nb + j))) ->
  exists G' h', relaxation nb ni col G h G' h' /\ valid_data n (m + 2 * (nb + ni)) p q G' A c h' b /\
    (forall w, ECOS_BB_setup amd junk jL jk jt ji t n m p l q e (data_of G) (option_map data_of A) c h b nb bidx ni iidx stgs = Some w ->
       ECOS_setup amd junk n (m + 2 * (nb + ni)) p (l + 2 * (nb + ni)) q e (data_of G') (option_map data_of A) c h' b = Some (Some (bb_prob w)) /\
       bb_nb w = nb /\ bb_ni w = ni /\ bb_bidx w = bidx /\ bb_iidx w = iidx) /\
    (l + list_sum q + 3 * e = m -> (forall k jc ir, amd k jc ir <> None) ->
     exists w, ECOS_BB_setup amd junk jL jk jt ji t n m p l q e (data_of G) (option_map data_of A) c h b nb bidx ni iidx stgs = Some w).
Proof.
  intros O amd junk jL jk jt ji t n m p l q e G A c h b nb bidx ni iidx col stgs V AM P Hb Hi.
  destruct V as [V1 V2 V3 V4 V5 V6 V7 V8 V9]. subst n m.
  destruct (C30_relaxation nb ni col G h bidx iidx V1 V8 P Hb Hi) as (G' & h' & R & FH & E).
  destruct (rx_dims _ _ _ _ _ _ _ R) as (Dn & Dm & Dz).
  assert (V' : valid_data (sp_n G) (sp_m G + 2 * (nb + ni)) p q G' A c h' b).
  { constructor; auto; [apply (rx_wf _ _ _ _ _ _ _ R)| |rewrite <- Dm; exact FH].
    unfold transposable in *. rewrite Dz, Dm. lia. }
  exists G', h'. split; [exact R|]. split; [exact V'|].
  assert (Ez: get (sp_jc G) (sp_n G) = Some (sp_nnz G)). { rewrite (wf_jc _ V1) by lia. rewrite (wf_nnz _ V1). reflexivity. }
  change (data_of G) with (sp_pr G, sp_jc G, sp_ir G). unfold ECOS_BB_setup. rewrite Ez. cbn [bind]. rewrite E. cbn [bind].
  change (sp_pr G', sp_jc G', sp_ir G') with (data_of G'). split.
  - intros w Hw. destruct (ECOS_setup _ _ _ _ _ _ _ _ _ _ _ _ _) as [[w0|]|] eqn:Es; cbn [bind] in Hw; try discriminate. injection Hw as <-. repeat split.
  - intros Em Tot. destruct (C05_accepts amd junk (sp_n G) (sp_m G + 2 * (nb + ni)) p (l + 2 * (nb + ni)) q e G' A c h' b V' AM ltac:(lia)) as ([w0|] & Es & X).
    + rewrite Es. cbn [bind]. eexists. reflexivity.
    + destruct X as (jc & ir & X). apply Tot in X. destruct X.
Qed.
Print Assumptions C30_setup.

(* ---- what the rows of the relaxation say, over the reals ---- *)
Lemma dense_column (M : spmat R) i c : dense M i c =
  fold_right Rplus 0%R (map (fun e => if fst e =? i then match snd e with Some v => v | None => 0%R end else 0%R) (column M c)).
Proof.
  unfold dense, column, Rsumr. set (a := gd 0 (sp_jc M) c). generalize (gd 0 (sp_jc M) (c + 1) - a). intros k. rewrite map_map. cbn [fst snd].
  transitivity (fold_right Rplus 0%R (map (fun k0 => if gd 0 (sp_ir M) k0 =? i then gd 0%R (sp_pr M) k0 else 0%R) (seq a k))); [|reflexivity].
  induction k as [|k IH]; [reflexivity|]. cbn [Rsum]. rewrite IH, seq_S, map_app, fold_right_app. cbn [map fold_right].
  generalize (if gd 0 (sp_ir M) (a + k) =? i then gd 0%R (sp_pr M) (a + k) else 0%R) as v.
  generalize (map (fun k0 : nat => if gd 0 (sp_ir M) k0 =? i then gd 0%R (sp_pr M) k0 else 0%R) (seq a k)) as l.
  intros l v. induction l as [|y l IHl]; cbn [fold_right]; [ring|]. rewrite <- IHl. ring.
Qed.

Section Rows.
Local Existing Instance ROps.
Variables (nb ni : nat) (col : nat -> nat) (G : spmat R) (h : arr R) (G' : spmat R) (h' : arr R).
Hypothesis WF : wf_sp G.
Hypothesis P : proper_list nb ni col (sp_n G).
Hypothesis RX : relaxation nb ni col G h G' h'.
Notation nv := (nb + ni).
Notation rk := (rank nb ni col).

Lemma dense_new r c : c < sp_n G -> dense G' (2 * nv + r) c = dense G r c.
Proof.
  intros Hc. rewrite !dense_column, (rx_cols _ _ _ _ _ _ _ RX) by exact Hc. change (@F ROps) with R. rewrite map_app, fold_right_app.
  assert (E: map (fun e => if fst e =? 2 * nv + r then match snd e with Some v => v | None => 0%R end else 0%R) (map (fun e => (fst e + 2 * nv, snd e)) (column G c))
    = map (fun e => if fst e =? r then match snd e with Some v => v | None => 0%R end else 0%R) (column G c)).
  { rewrite map_map. apply map_ext. intros [i v]. cbn [fst snd]. destruct (Nat.eqb_spec (i + 2 * nv) (2 * nv + r)), (Nat.eqb_spec i r); try lia; reflexivity. }
  rewrite E. destruct (is_intvar nb ni col c) eqn:Mk; [|reflexivity]. pose proof (rank_lt nb ni col _ P c Hc Mk). cbn [map fold_right fst snd].
  destruct (Nat.eqb_spec (2 * rk c) (2 * nv + r)); [lia|]. destruct (Nat.eqb_spec (2 * rk c + 1) (2 * nv + r)); [lia|]. ring.
Qed.
Lemma dense_top i c : i < 2 * nv -> c < sp_n G -> dense G' i c =
  (if is_intvar nb ni col c then if (i =? 2 * rk c)%nat then -1 else if (i =? 2 * rk c + 1)%nat then 1 else 0 else 0)%R.
Proof.
  intros Hi Hc. rewrite dense_column, (rx_cols _ _ _ _ _ _ _ RX) by exact Hc. change (@F ROps) with R. rewrite map_app, fold_right_app.
  assert (E: fold_right Rplus 0%R (map (fun e => if fst e =? i then match snd e with Some v => v | None => 0%R end else 0%R) (map (fun e => (fst e + 2 * nv, snd e)) (column G c))) = 0%R).
  { rewrite map_map. induction (column G c) as [|e l IH]; [reflexivity|]. cbn [map fold_right]. rewrite IH. cbn [fst snd]. destruct (Nat.eqb_spec (fst e + 2 * nv) i); [lia|]. ring. }
  rewrite E. destruct (is_intvar nb ni col c); [|reflexivity]. cbn [map fold_right fst snd]. rewrite (Nat.eqb_sym i), (Nat.eqb_sym i).
  unfold f1. cbn [fconst ROps]. unfold Q2R. cbn.
  destruct (Nat.eqb_spec (rk c + (rk c + 0)) i), (Nat.eqb_spec (rk c + (rk c + 0) + 1) i); try lia; field.
Qed.

Lemma row_old x r : mulv (sp_n G) (dense G') x (2 * nv + r) = mulv (sp_n G) (dense G) x r.
Proof. unfold mulv. apply Rsum_ext. intros c Hc. rewrite dense_new by exact Hc. reflexivity. Qed.
Lemma row_pair x c : c < sp_n G -> is_intvar nb ni col c = true ->
  mulv (sp_n G) (dense G') x (2 * rk c) = (- x c)%R /\ mulv (sp_n G) (dense G') x (2 * rk c + 1) = x c.
Proof.
  intros Hc Mk. pose proof (rank_lt nb ni col _ P c Hc Mk) as Rl.
  assert (Ne: forall c', c' < sp_n G -> is_intvar nb ni col c' = true -> c' <> c -> rk c' <> rk c).
  { intros c' Hc' Mk' N E. assert (c' < c \/ c < c') as [L|L] by lia.
    - pose proof (rank_mono nb ni col (S c') c L) as Rm. rewrite rank_S, Mk' in Rm. lia.
    - pose proof (rank_mono nb ni col (S c) c' L) as Rm. rewrite rank_S, Mk in Rm. lia. }
  split; unfold mulv.
  - rewrite (Rsum_ext _ _ (fun j => if j =? c then (- x j)%R else 0%R)).
    + rewrite Rsum_delta. destruct (Nat.ltb_spec c (sp_n G)); [reflexivity|lia].
    + intros j Hj. rewrite dense_top by lia. destruct (Nat.eqb_spec j c) as [->|N].
      * rewrite Mk, Nat.eqb_refl. ring.
      * destruct (is_intvar nb ni col j) eqn:Mj; [|ring]. specialize (Ne j Hj Mj N). destruct (Nat.eqb_spec (2 * rk c) (2 * rk j)); [lia|]. destruct (Nat.eqb_spec (2 * rk c) (2 * rk j + 1)); [lia|]. ring.
  - rewrite (Rsum_ext _ _ (fun j => if j =? c then x j else 0%R)).
    + rewrite Rsum_delta. destruct (Nat.ltb_spec c (sp_n G)); [reflexivity|lia].
    + intros j Hj. rewrite dense_top by lia. destruct (Nat.eqb_spec j c) as [->|N].
      * rewrite Mk. destruct (Nat.eqb_spec (2 * rk c + 1) (2 * rk c)); [lia|]. rewrite Nat.eqb_refl. ring.
      * destruct (is_intvar nb ni col j) eqn:Mj; [|ring]. specialize (Ne j Hj Mj N). destruct (Nat.eqb_spec (2 * rk c + 1) (2 * rk j)); [lia|]. destruct (Nat.eqb_spec (2 * rk c + 1) (2 * rk j + 1)); [lia|]. ring.
Qed.
End Rows.

(* The caller's constraints are unchanged, and the two added rows of a variable bound
   that variable. *)
Theorem C30_rows : forall nb ni col (G : spmat R) h G' h' (x : nat -> R), wf_sp G -> proper_list nb ni col (sp_n G) ->
  @relaxation ROps nb ni col G h G' h' ->
  (forall r, r < sp_m G -> mulv (sp_n G') (dense G') x (2 * (nb + ni) + r) = mulv (sp_n G) (dense G) x r) /\
  (forall j, j < nb + ni ->
     mulv (sp_n G') (dense G') x (2 * rank nb ni col (col j)) = (- x (col j))%R /\
     mulv (sp_n G') (dense G') x (2 * rank nb ni col (col j) + 1) = x (col j)).
Proof.
  intros nb ni col G h G' h' x WF P RX. destruct (rx_dims _ _ _ _ _ _ _ RX) as (-> & _). split.
  - intros r _. apply (row_old nb ni col G h G' h' P RX).
  - intros j Hj. apply (row_pair nb ni col G h G' h' P RX); [apply (proj1 P); exact Hj|]. apply mk_iff. exists j. auto.
Qed.
Print Assumptions C30_rows.

(* Entering a node writes exactly the node's bounds into the first rows, two per
   variable in the order of the lists, as if the relaxation had been set up with them. *)
Theorem C30_node : forall `{O : Ops} amd junk junk2 n m p l q e G' A c h b w nb ni bid iid lo hi h2 w2,
  valid_data n m p q G' A c h b -> amd_ok amd -> 2 * (nb + ni) <= m ->
  ECOS_setup amd junk n m p l q e (data_of G') (option_map data_of A) c h b = Some (Some w) ->
  node_bounds nb ni bid iid lo hi -> with_bounds (nb + ni) lo hi h h2 ->
  ECOS_setup amd junk2 n m p l q e (data_of G') (option_map data_of A) c h2 b = Some (Some w2) ->
  set_prob nb ni bid iid w = Some (set_w_h w (w_h w2)) /\
  w_A w = w_A w2 /\ w_G w = w_G w2 /\ w_c w = w_c w2 /\ w_b w = w_b w2 /\
  w_xequil w = w_xequil w2 /\ w_Aequil w = w_Aequil w2 /\ w_Gequil w = w_Gequil w2.
Proof.
  intros O amd junk junk2 n m p l q e G' A c h b w nb ni bid iid lo hi h2 w2 V AM Hm E [CB CI] (L2 & B2 & K2) E3.
  destruct (setup_inv _ _ _ _ _ _ _ _ _ _ _ _ _ _ V AM E) as (L & En & Ep & _ & _ & _ & Em & (WS & _) & SP & SA).
  pose proof (full_len _ _ (vd_h _ _ _ _ _ _ _ _ _ V)) as LH.
  apply setup_data in E; try apply V. apply setup_data in E3; try apply V. destruct E as [E Ec], E3 as [E3 Ec3].
  apply set_equilibration_h in E as (D1 & IND).
  pose proof (ws_Ge _ _ _ _ _ WS) as FG. rewrite Em in FG.
  pose proof (full_vec f0 _ _ FG) as VG. pose proof (full_vec f0 _ _ (vd_h _ _ _ _ _ _ _ _ _ V)) as VH.
  rewrite (vd_Gm _ _ _ _ _ _ _ _ _ V) in *.
  assert (F2 : full h2 m).
  { intros i Hi. destruct (Nat.lt_ge_cases i (2 * (nb + ni))) as [Lt|Ge]; [|rewrite K2 by exact Ge; apply (vd_h _ _ _ _ _ _ _ _ _ V); exact Hi].
    pose proof (Nat.div_mod i 2 ltac:(lia)) as Dm. pose proof (Nat.mod_upper_bound i 2 ltac:(lia)).
    destruct (B2 (i / 2)) as [B B']; [apply Nat.div_lt_upper_bound; lia|]. destruct (i mod 2) as [|[|]]; [| |lia].
    - rewrite Nat.add_0_r in Dm. rewrite <- Dm in B. eauto.
    - rewrite <- Dm in B'. eauto. }
  pose proof (full_vec f0 _ _ F2) as VH2.
  destruct (div_all_eq m _ h _ _ VG VH) as (h1' & D1' & L1' & V1' & O1'). rewrite D1 in D1'. injection D1' as <-.
  destruct (div_all_eq m _ h2 _ _ VG VH2) as (h2' & D2' & L2' & V2' & O2').
  apply IND in D2'. rewrite E3 in D2'. injection D2' as E4 E5 E6 E7 E8 E9 E10.
  pose proof (node_ok nb ni bid iid lo hi CB CI w (gd f0 (w_Gequil w)) (fun i Hi => VG i ltac:(lia)) ltac:(lia)) as W.
  apply wp_elim in W as (w' & -> & hh & -> & Lhh & Kh & Dh). split; [|csplit; congruence].
  f_equal. f_equal. rewrite E7. apply arr_ext; [congruence|]. intros i. destruct (Nat.lt_ge_cases i (2 * (nb + ni))) as [Lt|Ge].
  - pose proof (Nat.div_mod i 2 ltac:(lia)) as Dm. pose proof (Nat.mod_upper_bound i 2 ltac:(lia)).
    destruct (B2 (i / 2)) as [B B']; [apply Nat.div_lt_upper_bound; lia|]. destruct (Dh (i / 2)) as [D D']; [apply Nat.div_lt_upper_bound; lia|].
    rewrite V2' by lia. destruct (i mod 2) as [|[|]]; [| |lia].
    + rewrite Nat.add_0_r in Dm. rewrite <- Dm in B, D. rewrite D, (gd_get _ _ _ _ B). reflexivity.
    + rewrite <- Dm in B', D'. rewrite D', (gd_get _ _ _ _ B'). reflexivity.
  - rewrite Kh by exact Ge. destruct (Nat.lt_ge_cases i m) as [Li|Gi].
    + rewrite V2', V1' by exact Li. unfold gd. rewrite K2 by exact Ge. reflexivity.
    + rewrite O1', O2', K2 by auto. reflexivity.
Qed.
Print Assumptions C30_node.

(* So the bounds of a node restrict exactly the variables they are meant for if, and
   only if, the booleans and integers together are listed in ascending order. *)
Theorem C30_order : forall nb ni col (G : spmat R) h G' h', wf_sp G -> proper_list nb ni col (sp_n G) ->
  @relaxation ROps nb ni col G h G' h' ->
  (forall (x lo hi : nat -> R) h2, with_bounds (nb + ni) lo hi h' h2 ->
     ((forall i, i < 2 * (nb + ni) -> (mulv (sp_n G') (dense G') x i <= gd 0 h2 i)%R) <->
      (forall j, j < nb + ni -> (- lo j <= x (col j) <= hi j)%R)))
  <-> ascending nb ni col.
Proof.
  intros nb ni col G h G' h' WF P RX. destruct (rx_dims _ _ _ _ _ _ _ RX) as (-> & _).
  assert (Mk: forall j, j < nb + ni -> is_intvar nb ni col (col j) = true) by (intros j Hj; apply mk_iff; exists j; auto).
  pose proof (fun x j (Hj : j < nb + ni) => row_pair nb ni col G h G' h' P RX x (col j) (proj1 P j Hj) (Mk j Hj)) as Row.
  assert (Half: forall i, i < 2 * (nb + ni) -> exists j, j < nb + ni /\ (i = 2 * j \/ i = 2 * j + 1)).
  { intros i Hi. exists (i / 2). pose proof (Nat.div_mod i 2 ltac:(lia)). pose proof (Nat.mod_upper_bound i 2 ltac:(lia)). split; [apply Nat.div_lt_upper_bound; lia|]. lia. }
  assert (Onto: forall j, j < nb + ni -> exists k, k < nb + ni /\ rank nb ni col (col k) = j).
  { intros j Hj. destruct (rank_onto nb ni col (sp_n G) j) as (c & Hc & Mc & Rc); [rewrite (rank_n nb ni col _ P); exact Hj|].
    apply mk_iff in Mc as (k & Hk & <-). exists k. auto. }
  split.
  - intros H. apply sorted_rank. intros j Hj. destruct (Nat.eq_dec (rank nb ni col (col j)) j) as [E|N]; [exact E|exfalso].
    set (lo := fun _ : nat => 0%R). set (hi := fun k => if k =? j then 0%R else 1%R). set (x := fun c => if c =? col j then 1%R else 0%R).
    assert (exists h2, with_bounds (nb + ni) lo hi h' h2) as (h2 & W2).
    { apply bounds_exist. destruct (Onto (nb + ni - 1) ltac:(lia)) as (k & Hk & Rk).
      assert (exists v, get h' (2 * (nb + ni - 1) + 1) = Some v) as (v & Hv).
      { rewrite <- Rk. destruct (Nat.lt_ge_cases k nb) as [L|L]; [destruct (rx_bool _ _ _ _ _ _ _ RX k L) as [_ ->]; eauto|destruct (rx_int _ _ _ _ _ _ _ RX k ltac:(lia)) as [_ ->]; eauto]. }
      apply get_lt in Hv. change (@F ROps) with R in Hv. clear - Hv Hj. lia. }
    destruct W2 as (L2 & B2 & K2). destruct (H x lo hi h2 (conj L2 (conj B2 K2))) as [H1 _].
    assert (forall i, i < 2 * (nb + ni) -> (mulv (sp_n G) (dense G') x i <= gd 0 h2 i)%R) as X.
    { intros i Hi. destruct (Half i Hi) as (k & Hk & Ei). destruct (Onto k Hk) as (k' & Hk' & Rk). destruct (Row x k' Hk') as [R1 R2]. rewrite Rk in R1, R2.
      destruct (B2 k Hk) as [B B']. unfold lo, hi in *. destruct Ei as [-> | ->].
      - rewrite R1, (gd_get _ _ _ _ B). unfold x. destruct (Nat.eqb_spec (col k') (col j)); lra.
      - rewrite R2, (gd_get _ _ _ _ B'). unfold x. destruct (Nat.eqb_spec (col k') (col j)) as [E|]; [|destruct (k =? j); lra].
        apply (proj2 P) in E; [|lia|lia]. subst k'. destruct (Nat.eqb_spec k j); [congruence|lra]. }
    specialize (H1 X j Hj). unfold x, hi in H1. rewrite !Nat.eqb_refl in H1. lra.
  - intros A x lo hi h2 (L2 & B2 & K2). pose proof (rank_sorted nb ni col _ P A) as Rs. split.
    + intros H j Hj. destruct (Row x j Hj) as [R1 R2]. rewrite Rs in R1, R2 by exact Hj. destruct (B2 j Hj) as [B B'].
      assert (H1: (- x (col j) <= lo j)%R). { rewrite <- (gd_get 0%R _ _ _ B), <- R1. apply H. lia. }
      assert (H2: (x (col j) <= hi j)%R). { rewrite <- (gd_get 0%R _ _ _ B'), <- R2. apply H. lia. } lra.
    + intros H i Hi. destruct (Half i Hi) as (j & Hj & Ei). destruct (Row x j Hj) as [R1 R2]. rewrite Rs in R1, R2 by exact Hj. destruct (B2 j Hj) as [B B']. specialize (H j Hj).
      destruct Ei as [-> | ->].
      * rewrite (gd_get _ _ _ _ B). eapply Rle_trans; [right; exact R1|lra].
      * rewrite (gd_get _ _ _ _ B'). eapply Rle_trans; [right; exact R2|lra].
Qed.
Print Assumptions C30_order.

(* With boolean variable 1 and integer variable 0 the rows of the boolean restrict
   variable 0: the point (0, 5) meets all rows of the node in which the boolean is
   free and the integer lies between -8 and 8, but its "boolean" is 5. *)
Theorem C30_refuted_order : exists (G : spmat R) h G' h' h2 (x : nat -> R) col lo hi,
  wf_sp G /\ full h (sp_m G) /\ proper_list 1 1 col (sp_n G) /\ @relaxation ROps 1 1 col G h G' h' /\ col 0 = 1 /\ col 1 = 0 /\
  @node_bounds ROps 1 1 (fun _ => Some (-1)%Z) (fun _ => Some 8%R) lo hi /\ with_bounds 2 lo hi h' h2 /\
  (forall i, i < 4 -> (mulv (sp_n G') (dense G') x i <= gd 0 h2 i)%R) /\ x (col 0) = 5%R.
Proof.
  set (G := exG). set (h := arr_of [1; 1; 1; 1; 1; 1; 1]%R). set (col := fun j => 1 - j).
  assert (P : proper_list 1 1 col (sp_n G)). { change (sp_n G) with 2. split; [intros j Hj; unfold col; lia|]. intros i j Hi Hj. unfold col. lia. }
  assert (FH : full h (sp_m G)). { intros i Hi. cbn in Hi. do 7 (destruct i as [|i]; [eexists; reflexivity|]). lia. }
  destruct (@C30_relaxation ROps 1 1 col G h (arr_of [1]) (arr_of [0]) exG_wf FH P) as (G' & h' & RX & F' & _).
  { intros j Hj. assert (j = 0) as -> by lia. reflexivity. } { intros j Hj. assert (j = 0) as -> by lia. reflexivity. }
  set (lo := fun j : nat => if j =? 0 then 0%R else 8%R). set (hi := fun j : nat => if j =? 0 then 1%R else 8%R).
  destruct (rx_dims _ _ _ _ _ _ _ RX) as (Dn & Dm & _).
  destruct (bounds_exist 2 lo hi h') as (h2 & W2). { pose proof (full_len _ _ F') as L. rewrite Dm in L. cbn in L. cbn. change (@F ROps) with R in L. lia. }
  set (x := fun c : nat => if c =? 1 then 5%R else 0%R).
  exists G, h, G', h', h2, x, col, lo, hi. split; [apply exG_wf|]. split; [exact FH|]. split; [exact P|]. split; [exact RX|]. split; [reflexivity|]. split; [reflexivity|].
  split; [|split; [exact W2|]].
  - split.
    + intros j Hj. right; right. replace j with 0 by lia. unfold lo, hi, f0, f1. cbn. unfold Q2R. cbn. repeat split; field.
    + intros j Hj. replace j with 0 by lia. split; reflexivity.
  - destruct W2 as (_ & B2 & _). destruct (C30_rows 1 1 col G h G' h' x exG_wf P RX) as [_ Row].
    destruct (Row 0 ltac:(lia)) as [R1 R2]. destruct (Row 1 ltac:(lia)) as [R3 R4]. destruct (B2 0 ltac:(lia)) as [B0 B1]. destruct (B2 1 ltac:(lia)) as [B3 B4].
    split; [|reflexivity]. intros i Hi. change (rank 1 1 col (col 0)) with 1 in *. change (rank 1 1 col (col 1)) with 0 in *.
    unfold lo, hi, x, col in *. cbn -[mulv] in R1, R2, R3, R4, B0, B1, B3, B4.
    do 4 (destruct i as [|i]; [unfold gd; rewrite ?B0, ?B1, ?B3, ?B4; eapply Rle_trans; [right; first [exact R1|exact R2|exact R3|exact R4]|lra]|]). lia.
Qed.
Print Assumptions C30_refuted_order.

(* A variable that is listed twice leaves right-hand sides of the relaxation
   uninitialised. *)
Theorem C30_refuted_duplicates : forall `{O : Ops} v, exists Gpr Gjc Gir h',
  socp_to_ecos_bb 2 (arr_of [0; 0]) 0 (arr_of []) 1 1 (arr_of [v]) (arr_of [0; 1]) (arr_of [0])
    (alloc 5) (alloc 2) (alloc 5) (arr_of [v]) (alloc 5) = Some (Gpr, Gjc, Gir, h') /\ get h' 2 = None.
Proof. intros. do 4 eexists. split; reflexivity. Qed.
Print Assumptions C30_refuted_duplicates.

(* Boolean 0 and integer 1: ascending, and setup succeeds. *)
Theorem C30_example : forall (junk : pwork R) jL jk jt ji t, exists w,
  proper_list 1 1 (fun j => j) 2 /\ ascending 1 1 (fun j => j) /\
  valid_data 2 7 1 [3] exG (Some exA) (arr_of [1; 1]%R) (exh 1) (arr_of [1%R]) /\
  @ECOS_BB_setup ROps natural junk jL jk jt ji t 2 7 1 1 [3] 1 (data_of exG) (Some (data_of exA)) (arr_of [1; 1]%R) (exh 1) (arr_of [1%R])
    1 (arr_of [0]) 1 (arr_of [1]) None = Some w.
Proof.
  intros. assert (P: proper_list 1 1 (fun j => j) 2) by (split; intros; lia).
  assert (V : valid_data 2 7 1 [3] exG (Some exA) (arr_of [1; 1]%R) (exh 1) (arr_of [1%R])).
  { exact exG_valid. }
  destruct (@C30_setup ROps natural junk jL jk jt ji t 2 7 1 1 [3] 1 exG (Some exA) (arr_of [1; 1]%R) (exh 1) (arr_of [1%R]) 1 (arr_of [0]) 1 (arr_of [1]) (fun j => j) None V natural_ok P)
    as (G' & h' & _ & _ & _ & H).
  { intros j Hj. assert (j = 0) as -> by lia. reflexivity. } { intros j Hj. assert (j = 0) as -> by lia. reflexivity. }
  destruct H as (w & H); [reflexivity|discriminate|]. exists w. split; [exact P|]. split; [intros i j; lia|]. split; [exact V|exact H].
Qed.

(* ------------------------------------------------------------------- C41 *)

Lemma bb_setup_inv `{O : Ops} amd junk jL jk jt ji t n m p l q e (G : spmat F) A c h b nb bidx ni iidx stgs w :
  valid_data n m p q G A c h b ->
  ECOS_BB_setup amd junk jL jk jt ji t n m p l q e (data_of G) (option_map data_of A) c h b nb bidx ni iidx stgs = Some w ->
  exists Gp Gj Gi h', socp_to_ecos_bb nb bidx ni iidx n m (sp_pr G) (sp_jc G) (sp_ir G)
      (alloc (sp_nnz G + 2 * nb + 2 * ni)) (alloc (n + 1)) (alloc (sp_nnz G + 2 * nb + 2 * ni)) h (alloc (m + 2 * nb + 2 * ni)) = Some (Gp, Gj, Gi, h') /\
    ECOS_setup amd junk n (m + 2 * (nb + ni)) p (l + 2 * (nb + ni)) q e (Gp, Gj, Gi) (option_map data_of A) c h' b = Some (Some (bb_prob w)) /\
    bb_nb w = nb /\ bb_ni w = ni.
Proof.
  intros V E. change (data_of G) with (sp_pr G, sp_jc G, sp_ir G) in E. unfold ECOS_BB_setup in E.
  assert (Ez: get (sp_jc G) n = Some (sp_nnz G)). { rewrite (wf_jc _ (vd_G _ _ _ _ _ _ _ _ _ V)) by (rewrite (vd_Gn _ _ _ _ _ _ _ _ _ V); lia). rewrite <- (vd_Gn _ _ _ _ _ _ _ _ _ V), (wf_nnz _ (vd_G _ _ _ _ _ _ _ _ _ V)). reflexivity. }
  rewrite Ez in E. cbn [bind] in E. destruct (socp_to_ecos_bb _ _ _ _ _ _ _ _ _ _ _ _ _ _) as [[[[Gp Gj] Gi] h']|] eqn:Es; [|discriminate]. cbn [bind] in E.
  destruct (ECOS_setup _ _ _ _ _ _ _ _ _ _ _ _ _) as [[w0|]|] eqn:Et; cbn [bind] in E; try discriminate. injection E as <-. exists Gp, Gj, Gi, h'. auto.
Qed.

(* Setting entry idx of h of a mixed-integer problem without general integer variables
   is the same as having passed the changed h to setup. *)
Theorem C41_entry_h : forall `{O : Ops} amd junk jL jk jt ji t n m p l q e G A c h b nb bidx iidx col stgs w idx v h2 junk2 jL2 jk2 jt2 ji2 t2 w2,
  valid_data n m p q G A c h b -> amd_ok amd -> proper_list nb 0 col n -> (forall j, j < nb -> get bidx j = Some (col j)) -> idx < m ->
  ECOS_BB_setup amd junk jL jk jt ji t n m p l q e (data_of G) (option_map data_of A) c h b nb bidx 0 iidx stgs = Some w ->
  set h idx v = Some h2 ->
  ECOS_BB_setup amd junk2 jL2 jk2 jt2 ji2 t2 n m p l q e (data_of G) (option_map data_of A) c h2 b nb bidx 0 iidx stgs = Some w2 ->
  exists p', updateDataEntry_h w idx v = Some (set_bb_prob w p') /\ p' = set_w_h (bb_prob w) (w_h (bb_prob w2)) /\
    w_A p' = w_A (bb_prob w2) /\ w_G p' = w_G (bb_prob w2) /\ w_c p' = w_c (bb_prob w2) /\ w_b p' = w_b (bb_prob w2) /\
    w_xequil p' = w_xequil (bb_prob w2) /\ w_Aequil p' = w_Aequil (bb_prob w2) /\ w_Gequil p' = w_Gequil (bb_prob w2).
Proof.
  intros O amd junk jL jk jt ji t n m p l q e G A c h b nb bidx iidx col stgs w idx v h2 junk2 jL2 jk2 jt2 ji2 t2 w2 V AM P Hb Hi E E2 E3.
  assert (V2 : valid_data n m p q G A c h2 b).
  { destruct V as [V1 V2 V3 V4 V5 V6 V7 V8 V9]. constructor; auto. apply set_inv in E2 as (_ & _ & G2). intros i Hm. rewrite G2. destruct (i =? idx); eauto. }
  destruct (bb_setup_inv _ _ _ _ _ _ _ _ _ _ _ _ _ _ _ _ _ _ _ _ _ _ _ _ V E) as (Gp & Gj & Gi & h' & Es & Et & Eb & Ei).
  destruct (bb_setup_inv _ _ _ _ _ _ _ _ _ _ _ _ _ _ _ _ _ _ _ _ _ _ _ _ V2 E3) as (Gp2 & Gj2 & Gi2 & h'2 & Es2 & Et2 & _ & _).
  destruct (setup_h _ _ _ _ _ _ _ _ _ _ _ _ _ _ _ _ _ _ _ _ _ Es Hi E2) as (h'' & Eset & Es3). rewrite Es3 in Es2. injection Es2 as <- <- <- <-.
  destruct V as [V1 V2' V3 V4 V5 V6 V7 V8 V9]. subst n m.
  destruct (C30_relaxation nb 0 col G h bidx iidx V1 V8 P Hb ltac:(intros; lia)) as (G' & hh & R & FH & E4). rewrite Es in E4. injection E4 as -> -> -> ->.
  destruct (rx_dims _ _ _ _ _ _ _ R) as (Dn & Dm & Dz).
  assert (V' : valid_data (sp_n G) (sp_m G + 2 * (nb + 0)) p q G' A c hh b).
  { constructor; auto; [apply (rx_wf _ _ _ _ _ _ _ R)| |rewrite <- Dm; exact FH]. unfold transposable in *. rewrite Dz, Dm. lia. }
  destruct (C39_entry_h amd junk junk2 _ _ _ _ _ _ G' A c hh b (bb_prob w) (2 * (nb + 0) + idx) v h'' (bb_prob w2) V' AM ltac:(lia) Et Eset Et2) as (w' & U & X).
  exists w'. unfold updateDataEntry_h. rewrite Eb. replace (idx + 2 * nb) with (2 * (nb + 0) + idx) by lia. rewrite U. cbn [bind]. split; [reflexivity|exact X].
Qed.
Print Assumptions C41_entry_h.

(* The cost vector: with any variables. *)
Theorem C41_entry_c : forall `{O : Ops} amd junk jL jk jt ji t n m p l q e G A c h b nb bidx ni iidx col stgs w idx v c2 junk2 jL2 jk2 jt2 ji2 t2 w2,
  valid_data n m p q G A c h b -> amd_ok amd -> proper_list nb ni col n ->
  (forall j, j < nb -> get bidx j = Some (col j)) -> (forall j, j < ni -> get iidx j = Some (col (nb + j))) ->
  ECOS_BB_setup amd junk jL jk jt ji t n m p l q e (data_of G) (option_map data_of A) c h b nb bidx ni iidx stgs = Some w ->
  set c idx v = Some c2 ->
  ECOS_BB_setup amd junk2 jL2 jk2 jt2 ji2 t2 n m p l q e (data_of G) (option_map data_of A) c2 h b nb bidx ni iidx stgs = Some w2 ->
  exists p', updateDataEntry_c w idx v = Some (set_bb_prob w p') /\ p' = set_w_c (bb_prob w) (w_c (bb_prob w2)) /\
    w_A p' = w_A (bb_prob w2) /\ w_G p' = w_G (bb_prob w2) /\ w_h p' = w_h (bb_prob w2) /\ w_b p' = w_b (bb_prob w2) /\
    w_xequil p' = w_xequil (bb_prob w2) /\ w_Aequil p' = w_Aequil (bb_prob w2) /\ w_Gequil p' = w_Gequil (bb_prob w2).
Proof.
  intros O amd junk jL jk jt ji t n m p l q e G A c h b nb bidx ni iidx col stgs w idx v c2 junk2 jL2 jk2 jt2 ji2 t2 w2 V AM P Hb Hi E E2 E3.
  assert (V2 : valid_data n m p q G A c2 h b).
  { destruct V as [V1 V2 V3 V4 V5 V6 V7 V8 V9]. constructor; auto. apply set_inv in E2 as (_ & _ & G2). intros i Hm. rewrite G2. destruct (i =? idx); eauto. }
  destruct (bb_setup_inv _ _ _ _ _ _ _ _ _ _ _ _ _ _ _ _ _ _ _ _ _ _ _ _ V E) as (Gp & Gj & Gi & h' & Es & Et & Eb & Ei).
  destruct (bb_setup_inv _ _ _ _ _ _ _ _ _ _ _ _ _ _ _ _ _ _ _ _ _ _ _ _ V2 E3) as (Gp2 & Gj2 & Gi2 & h'2 & Es2 & Et2 & _ & _).
  rewrite Es in Es2. injection Es2 as <- <- <- <-.
  destruct V as [V1 V2' V3 V4 V5 V6 V7 V8 V9]. subst n m.
  destruct (C30_relaxation nb ni col G h bidx iidx V1 V8 P Hb Hi) as (G' & hh & R & FH & E4). rewrite Es in E4. injection E4 as -> -> -> ->.
  destruct (rx_dims _ _ _ _ _ _ _ R) as (Dn & Dm & Dz).
  assert (V' : valid_data (sp_n G) (sp_m G + 2 * (nb + ni)) p q G' A c hh b).
  { constructor; auto; [apply (rx_wf _ _ _ _ _ _ _ R)| |rewrite <- Dm; exact FH]. unfold transposable in *. rewrite Dz, Dm. lia. }
  destruct (C39_entry_c amd junk junk2 _ _ _ _ _ _ G' A c hh b (bb_prob w) idx v c2 (bb_prob w2) V' AM Et E2 Et2) as (w' & U & X).
  exists w'. unfold updateDataEntry_c. rewrite U. cbn [bind]. split; [reflexivity|exact X].
Qed.
Print Assumptions C41_entry_c.

(* With ni general integer variables the same call changes another row: for idx below
   2 ni the entry the caller meant stays as it was, and what was written instead is
   replaced when the next node is entered - the solver never sees the new value. *)
Theorem C41_refuted_integers : forall `{O : Ops} (w w' : bbwork F) idx v,
  session (bb_prob w) -> 2 * (bb_nb w + bb_ni w) <= w_m (bb_prob w) -> idx < 2 * bb_ni w -> updateDataEntry_h w idx v = Some w' ->
  (forall i, 2 * (bb_nb w + bb_ni w) <= i -> get (w_h (bb_prob w')) i = get (w_h (bb_prob w)) i) /\
  forall bid iid lo hi, node_bounds (bb_nb w) (bb_ni w) bid iid lo hi -> exists p,
    set_prob (bb_nb w) (bb_ni w) bid iid (bb_prob w) = Some p /\ set_prob (bb_nb w) (bb_ni w) bid iid (bb_prob w') = Some p.
Proof.
  intros O w w' idx v SE Hm Hi E. unfold updateDataEntry_h in E. destruct (ecos_updateDataEntry_h _ _ _) as [p'|] eqn:U; [|discriminate]. cbn [bind] in E. injection E as <-.
  change (bb_prob (set_bb_prob w p')) with p'. unfold ecos_updateDataEntry_h in U. destruct (get (w_Gequil (bb_prob w)) _) as [g|] eqn:Eg; [|discriminate].
  cbn [bind] in U. destruct (set _ _ _) as [h1|] eqn:Es; [|discriminate]. cbn [bind] in U. injection U as <-.
  generalize dependent (bb_prob w). generalize dependent (bb_nb w). generalize dependent (bb_ni w). clear w. intros ni Hi nb w SE Hm Eg Es.
  destruct (session_layout _ SE) as (L & H1 & (lpv & soc & ex & WS) & BO).
  apply set_inv in Es as (Ls & Ls' & Gs). rewrite (ws_m _ _ _ _ _ WS) in Hm. split.
  - intros i Hge. cbn [w_h set_w_h]. rewrite Gs. destruct (Nat.eqb_spec i (idx + 2 * nb)); [lia|reflexivity].
  - intros bid iid lo hi [CB CI]. pose proof (full_vec f0 _ _ (ws_Ge _ _ _ _ _ WS)) as VG. pose proof (full_len _ _ (ws_h _ _ _ _ _ WS)) as LH.
    pose proof (node_ok nb ni bid iid lo hi CB CI w (gd f0 (w_Gequil w)) (fun i Hi => VG i ltac:(lia)) ltac:(lia)) as W1.
    pose proof (node_ok nb ni bid iid lo hi CB CI (set_w_h w h1) (gd f0 (w_Gequil w)) (fun i Hi => VG i ltac:(lia)) ltac:(cbn [w_h set_w_h]; lia)) as W2.
    apply wp_elim in W1 as (p1 & E1 & ha & -> & La & Ka & Da). apply wp_elim in W2 as (p2 & E2 & hb & -> & Lb & Kb & Db).
    cbn [w_h set_w_h] in Lb, Kb. exists (set_w_h w ha). split; [exact E1|]. rewrite E2. f_equal.
    change (set_w_h (set_w_h w h1) hb) with (set_w_h w hb). f_equal. apply arr_ext; [congruence|]. intros i.
    destruct (Nat.lt_ge_cases i (2 * (nb + ni))) as [Lt|Ge].
    + pose proof (Nat.div_mod i 2 ltac:(lia)) as Dm. pose proof (Nat.mod_upper_bound i 2 ltac:(lia)).
      destruct (Da (i / 2)) as [B B']; [apply Nat.div_lt_upper_bound; lia|]. destruct (Db (i / 2)) as [D D']; [apply Nat.div_lt_upper_bound; lia|].
      destruct (i mod 2) as [|[|]]; [| |lia].
      * rewrite Nat.add_0_r in Dm. rewrite <- Dm in B, D. congruence.
      * rewrite <- Dm in B', D'. congruence.
    + rewrite Ka, Kb by exact Ge. rewrite Gs. destruct (Nat.eqb_spec i (idx + 2 * nb)); [lia|reflexivity].
Qed.
Print Assumptions C41_refuted_integers.

(* The problem of C30_example has one integer variable: the call meets these
   hypotheses with idx 0 and 1. *)
Theorem C41_example : forall (junk : pwork R) jL jk jt ji t, exists w w',
  @ECOS_BB_setup ROps natural junk jL jk jt ji t 2 7 1 1 [3] 1 (data_of exG) (Some (data_of exA)) (arr_of [1; 1]%R) (exh 1) (arr_of [1%R])
    1 (arr_of [0]) 1 (arr_of [1]) None = Some w /\
  session (bb_prob w) /\ 2 * (bb_nb w + bb_ni w) <= w_m (bb_prob w) /\ 0 < 2 * bb_ni w /\ updateDataEntry_h w 0 3%R = Some w'.
Proof.
  intros. destruct (C30_example junk jL jk jt ji t) as (w & P & _ & V & E).
  destruct (@C30_setup ROps natural junk jL jk jt ji t 2 7 1 1 [3] 1 exG (Some exA) (arr_of [1; 1]%R) (exh 1) (arr_of [1%R]) 1 (arr_of [0]) 1 (arr_of [1]) (fun j => j) None V natural_ok P)
    as (G' & h' & _ & V' & H & _).
  { intros j Hj. assert (j = 0) as -> by lia. reflexivity. } { intros j Hj. assert (j = 0) as -> by lia. reflexivity. }
  destruct (H w E) as (Es & Eb & Ei & _).
  assert (SE : session (bb_prob w)) by (eapply ss_setup; [exact V'|exact natural_ok|exact Es]).
  destruct (setup_inv _ _ _ _ _ _ _ _ _ _ _ _ _ _ V' natural_ok Es) as (L & _ & _ & _ & _ & _ & Em & (WS & _) & _).
  assert (Wm : w_m (bb_prob w) = 11) by (rewrite (ws_m _ _ _ _ _ WS); exact Em).
  destruct (C39_entry_total (bb_prob w) 2 3%R SE) as [X _]. destruct X as (h2 & X & _); [rewrite Wm; lia|].
  exists w, (set_bb_prob w (set_w_h (bb_prob w) h2)). split; [exact E|]. split; [exact SE|]. rewrite Eb, Ei, Wm. split; [lia|]. split; [lia|].
  unfold updateDataEntry_h. rewrite Eb. change (0 + 2 * 1) with 2. rewrite X. reflexivity.
Qed.
