(* C01-C04: sparse products, transposition, permutation. *)
From Coq Require Import List Arith Bool ZArith Reals Lia Lra.
From Verif Require Import Base Num.
From Verif.Model Require Import Spla Splamm.
From Verif.Spec Require Import Matrix.
From Verif.Proofs Require Import SplaP CountSort SplammP.
Import ListNotations.
Open Scope nat_scope.

(* a 2 x 3 matrix with a duplicate entry, an unsorted column and an empty column:
   [ 1+4  0  5 ; 2  0  3 ] *)
Definition exM : spmat R :=
  mkSp (arr_of [0; 3; 3; 5]) (arr_of [0; 1; 0; 1; 0]) (arr_of [1; 2; 4; 3; 5]%R) 3 2 5.

Lemma exM_wf : wf_sp exM.
Proof.
  constructor; cbn [exM sp_n sp_m sp_nnz sp_jc sp_ir sp_pr].
  - intros i Hi. do 4 (destruct i as [|i]; [reflexivity|]). lia.
  - reflexivity.
  - intros j Hj. do 3 (destruct j as [|j]; [vm_compute; lia|]). lia.
  - reflexivity.
  - intros i Hi. do 5 (destruct i as [|i]; [reflexivity|]). lia.
  - intros i Hi. do 5 (destruct i as [|i]; [vm_compute; lia|]). lia.
  - intros i Hi. do 5 (destruct i as [|i]; [eexists; reflexivity|]). lia.
Qed.

(* ------------------------------------------------------------------- C01 *)

(* y' = [0 or y] + [A x or -A x] on the first m entries, y elsewhere *)
Theorem C01_sparseMV (A : spmat R) (xf : nat -> R) (x y : arr R) (a newVector : Z) :
  wf_sp A ->
  vec x (sp_n A) xf ->
  sp_m A <= length y ->
  ((newVector <= 0)%Z -> forall i, i < sp_m A -> exists v, get y i = Some v) ->
  exists y', @sparseMV ROps A x y a newVector = Some y' /\ length y' = length y /\
    (forall i, i < sp_m A ->
       get y' i = Some ((if (newVector >? 0)%Z then 0 else gd 0 y i) +
                        (if (a >? 0)%Z then 1 else -1) *
                        Rsum (sp_n A) (fun j => dense A i j * xf j))%R) /\
    (forall i, sp_m A <= i -> get y' i = get y i).
Proof.
  intros W X L Y. apply sparseMV_spec; auto.
  intros H i Hi. destruct (Y H i Hi) as [v Hv]. eapply get_gd; eauto.
Qed.
Print Assumptions C01_sparseMV.

Theorem C01_sparseMtVm (A : spmat R) (xf : nat -> R) (x y : arr R) (newVector : Z) (skipDiagonal : bool) :
  wf_sp A ->
  vec x (sp_m A) xf ->
  sp_n A <= length y ->
  ((newVector <= 0)%Z -> forall j, j < sp_n A -> exists v, get y j = Some v) ->
  exists y', @sparseMtVm ROps A x y newVector skipDiagonal = Some y' /\ length y' = length y /\
    (forall j, j < sp_n A ->
       get y' j = Some ((if (newVector >? 0)%Z then 0 else gd 0 y j) -
                        Rsum (sp_m A) (fun i =>
                          (if skipDiagonal && (i =? j) then 0 else dense A i j) * xf i))%R) /\
    (forall j, sp_n A <= j -> get y' j = get y j).
Proof.
  intros W X L Y.
  destruct (sparseMtVm_spec A xf x y newVector skipDiagonal W X L) as (y' & E & L' & V & K).
  { intros H i Hi. destruct (Y H i Hi) as [v Hv]. eapply get_gd; eauto. }
  exists y'. csplit; auto. intros j Hj. rewrite (V j Hj). f_equal. unfold mode_base, mulvT. f_equal.
  apply Rsum_ext. intros i Hi. destruct skipDiagonal; simpl; auto.
Qed.
Print Assumptions C01_sparseMtVm.

(* The vector helpers. *)
Theorem C01_vectors (n : nat) (a : R) (xf yf : nat -> R) (x y : arr R) :
  vec x n xf -> vec y n yf ->
  (exists y', @vadd ROps n x y = Some y' /\ vec y' n (fun i => yf i + xf i)%R /\
     length y' = length y /\ forall i, n <= i -> get y' i = get y i) /\
  (exists y', @vsubscale ROps n a x y = Some y' /\ vec y' n (fun i => yf i - a * xf i)%R /\
     length y' = length y /\ forall i, n <= i -> get y' i = get y i) /\
  @eddot ROps n x y = Some (Rsum n (fun i => xf i * yf i)%R) /\
  @norm2 ROps x n = Some (sqrt (Rsum n (fun i => xf i * xf i)%R)) /\
  (exists r, @norminf ROps x n = Some r /\ (0 <= r)%R /\
     (forall i, i < n -> (Rabs (xf i) <= r)%R) /\ (r = 0%R \/ exists i, i < n /\ r = Rabs (xf i))).
Proof.
  intros X Y. split; [|split; [|split; [|split]]].
  - destruct (vadd_spec n xf yf x y X Y) as (y' & A & B & C & D). exists y'; auto.
  - destruct (vsubscale_spec n a xf yf x y X Y) as (y' & A & B & C & D). exists y'; auto.
  - apply eddot_spec; auto.
  - apply norm2_spec; auto.
  - apply norminf_spec; auto.
Qed.
Print Assumptions C01_vectors.

(* the hypotheses are met: y -= A x with the matrix above *)
Example C01_nonvacuous :
  exists y', @sparseMV ROps exM (arr_of [1; 2; 3]%R) (arr_of [10; 20; 30]%R) (-1) 0 = Some y' /\
    get y' 0 = Some (-10)%R /\ get y' 1 = Some 9%R /\ get y' 2 = Some 30%R.
Proof.
  destruct (C01_sparseMV exM (fun i => nth i [1; 2; 3]%R 0%R) (arr_of [1; 2; 3]%R) (arr_of [10; 20; 30]%R) (-1) 0)
    as (y' & E & L & V & K).
  - apply exM_wf.
  - intros i Hi. simpl in Hi. do 3 (destruct i as [|i]; [reflexivity|]). lia.
  - simpl; lia.
  - intros _ i Hi. simpl in Hi. do 2 (destruct i as [|i]; [eexists; reflexivity|]). lia.
  - exists y'. split; auto. split; [|split].
    + rewrite (V 0) by (simpl; lia). f_equal. unfold dense, Rsumr, gd; simpl. lra.
    + rewrite (V 1) by (simpl; lia). f_equal. unfold dense, Rsumr, gd; simpl. lra.
    + apply (K 2). simpl; lia.
Qed.

(* ------------------------------------------------------------------- C02 *)

Theorem C02_transpose (T : Type) (M : spmat T) (MtoMt : arr nat) :
  wf_sp M -> sp_nnz M <> 0 -> sp_nnz M <= length MtoMt ->
  exists A map', transposeSparseMatrix M MtoMt = Some (A, map') /\
    (* shape *)
    sp_n A = sp_m M /\ sp_m A = sp_n M /\ sp_nnz A = sp_nnz M /\
    (* well-formed, rows sorted *)
    wf_sp A /\
    (forall r q q', in_col A r q -> in_col A r q' -> q < q' -> gd 0 (sp_ir A) q <= gd 0 (sp_ir A) q') /\
    (* entry k = (i,j,v) of M is entry map'[k] = (j,i,v) of A *)
    (forall j k, in_col M j k -> exists q, get map' k = Some q /\
        in_col A (gd 0 (sp_ir M) k) q /\ get (sp_ir A) q = Some j /\ get (sp_pr A) q = get (sp_pr M) k) /\
    (* the map is injective, and touches nothing beyond nnz *)
    (forall k k', k < sp_nnz M -> k' < sp_nnz M -> get map' k = get map' k' -> k = k') /\
    (forall k, sp_nnz M <= k -> get map' k = get MtoMt k).
Proof.
  intros W Hnz Lm.
  destruct (transpose_spec M MtoMt W Hnz Lm) as (A & mp & E & H1 & H2 & H3 & H4 & H5 & H6 & H7).
  pose proof (transpose_wf M MtoMt A mp W Hnz Lm E) as WA.
  exists A, mp. split; auto. split; auto. split; auto. split; auto. split; auto. split; [|split; [|split]]; auto.
  - exact (transpose_sorted M MtoMt A mp W Hnz Lm E).
  - intros j k Hk. destruct (H6 j k Hk) as (K1 & K2 & K3). exists (tpos M k). split; auto. split; auto.
    pose proof (in_col_nnz M j k W Hk) as Hn. pose proof (wf_row M W k Hn).
    split; [lia|].
    rewrite (gd_get 0 _ _ _ (H5 (gd 0 (sp_ir M) k) ltac:(lia))).
    rewrite (gd_get 0 _ _ _ (H5 (gd 0 (sp_ir M) k + 1) ltac:(lia))).
    rewrite Nat.add_1_r. apply (pos_bounds allsel (gd 0 (sp_ir M)) (sp_nnz M) k Hn eq_refl).
  - intros k k' Hk Hk' Ee.
    destruct (in_col_exists M k W Hk) as [j Hj]. destruct (in_col_exists M k' W Hk') as [j' Hj'].
    destruct (H6 j k Hj) as (E1 & _). destruct (H6 j' k' Hj') as (E2 & _).
    rewrite E1, E2 in Ee. injection Ee as Ee. apply pos_inj in Ee; auto.
Qed.
Print Assumptions C02_transpose.

Theorem C02_transpose_dense (M : spmat R) (MtoMt : arr nat) A map' :
  wf_sp M -> sp_nnz M <> 0 -> sp_nnz M <= length MtoMt ->
  transposeSparseMatrix M MtoMt = Some (A, map') ->
  forall i j, i < sp_m M -> j < sp_n M -> dense A j i = dense M i j.
Proof. exact (transpose_dense M MtoMt A map'). Qed.
Print Assumptions C02_transpose_dense.

Example C02_nonvacuous : exists A mp,
  transposeSparseMatrix exM (alloc 5) = Some (A, mp) /\
  sp_jc A = arr_of [0; 3; 5] /\ sp_ir A = arr_of [0; 0; 2; 0; 2] /\
  sp_pr A = arr_of [1; 4; 5; 2; 3]%R /\ mp = arr_of [0; 3; 1; 4; 2].
Proof. eexists _, _. repeat split; reflexivity. Qed.

(* ------------------------------------------------------------------- C03 *)

(* Refuted: for every matrix with rows but no entries the transpose comes back
   with an uninitialised column pointer array. *)
Theorem C03_refuted (T : Type) (M : spmat T) (MtoMt : arr nat) :
  sp_nnz M = 0 -> 0 < sp_m M ->
  exists A, transposeSparseMatrix M MtoMt = Some (A, MtoMt) /\
    (forall r, r < sp_m M -> get (sp_jc A) r = None) /\ ~ wf_sp A.
Proof.
  intros E Hm. unfold transposeSparseMatrix. rewrite newSparseMatrix_ok. cbn [bind]. rewrite E. simpl.
  eexists. split; [reflexivity|].
  assert (G : forall r, r < sp_m M ->
    get (upd (upd (alloc (sp_m M + 1)) (sp_m M) (Some 0)) (sp_m M) (Some 0)) r = None).
  { intros r Hr. rewrite !get_upd by (rewrite ?upd_length, alloc_length; lia).
    destruct (Nat.eqb_spec r (sp_m M)); [lia|]. apply get_alloc. }
  split; [exact G|].
  intros W. pose proof (wf_jc _ W 0) as H. cbn [sp_n sp_jc] in H.
  rewrite G in H by auto. specialize (H ltac:(lia)). discriminate.
Qed.
Print Assumptions C03_refuted.

(* what remains true: with no rows at all the transpose is fine *)
Theorem C03_empty_rows (T : Type) (M : spmat T) (MtoMt : arr nat) :
  sp_nnz M = 0 -> sp_m M = 0 ->
  exists A, transposeSparseMatrix M MtoMt = Some (A, MtoMt) /\ wf_sp A.
Proof.
  intros E Hm. unfold transposeSparseMatrix. rewrite newSparseMatrix_ok. cbn [bind]. rewrite E, Hm. simpl.
  eexists. split; [reflexivity|].
  constructor; simpl; try (intros; lia); auto.
  - intros i Hi. destruct i; [reflexivity|lia].
  - intros i Hi. lia.
Qed.
Print Assumptions C03_empty_rows.

(* A copy has its own arrays with the same contents. *)
Theorem C03_copy (T : Type) (A : spmat T) : wf_sp A ->
  exists B, copySparseMatrix A = Some B /\ wf_sp B /\
    sp_n B = sp_n A /\ sp_m B = sp_m A /\ sp_nnz B = sp_nnz A /\
    length (sp_jc B) = sp_n A + 1 /\ length (sp_ir B) = sp_nnz A /\ length (sp_pr B) = sp_nnz A /\
    (forall i, i <= sp_n A -> get (sp_jc B) i = get (sp_jc A) i) /\
    (forall k, k < sp_nnz A -> get (sp_ir B) k = get (sp_ir A) k) /\
    (forall k, k < sp_nnz A -> get (sp_pr B) k = get (sp_pr A) k).
Proof.
  intros W. unfold copySparseMatrix. rewrite newSparseMatrix_ok. cbn [bind sp_jc sp_ir sp_pr sp_n sp_m sp_nnz].
  assert (CP : forall (U : Type) (a b : arr U) n, (forall i, i < n -> exists v, get a i = Some v) -> length b = n ->
    exists b', for_ 0 n (fun i a' => v <- get a i ;; set a' i v) b = Some b' /\ length b' = n /\ forall i, i < n -> get b' i = get a i).
  { intros U a b n Ha Lb. apply wp_elim.
    apply (wp_for (fun i b' => length b' = n /\ forall k, k < i -> get b' k = get a k)); [lia| | |].
    - split; auto. intros; lia.
    - intros i b' Hi (L & H). destruct (Ha i ltac:(lia)) as [v E]. wget E. wset b'' L' G'; [lia|]. split; [lia|].
      intros k Hk. rewrite G'. destruct (Nat.eqb_spec k i) as [E'|Ne]; [subst; auto|apply H; lia].
    - intros b' (L & H). split; auto. }
  destruct (CP _ (sp_jc A) (upd (upd (alloc (sp_n A + 1)) (sp_n A) (Some (sp_nnz A))) (sp_n A) (Some (sp_nnz A))) (sp_n A + 1)) as (jc & E1 & L1 & G1);
    [intros i Hi; eexists; apply (wf_jc _ W); auto|rewrite !upd_length; apply alloc_length|].
  destruct (CP _ (sp_ir A) (alloc (sp_nnz A)) (sp_nnz A)) as (ir & E2 & L2 & G2);
    [intros i Hi; eexists; apply (wf_ir _ W); auto|apply alloc_length|].
  destruct (CP _ (sp_pr A) (alloc (sp_nnz A)) (sp_nnz A)) as (pr & E3 & L3 & G3);
    [intros i Hi; apply (wf_pr _ W); auto|apply alloc_length|].
  rewrite E1. cbn [bind]. rewrite E2. cbn [bind]. rewrite E3. cbn [bind].
  assert (J : forall i, i <= sp_n A -> gd 0 jc i = gd 0 (sp_jc A) i) by (intros i Hi; unfold gd; rewrite G1 by lia; auto).
  assert (I : forall i, i < sp_nnz A -> gd 0 ir i = gd 0 (sp_ir A) i) by (intros i Hi; unfold gd; rewrite G2 by lia; auto).
  eexists. split; [reflexivity|]. cbn [sp_jc sp_ir sp_pr sp_n sp_m sp_nnz]. split; [|csplit; auto; intros; apply G1; lia].
  constructor; cbn [sp_jc sp_ir sp_pr sp_n sp_m sp_nnz].
  - intros i Hi. rewrite G1, J by lia. apply (wf_jc _ W); auto.
  - rewrite J by lia. apply (wf_jc0 _ W).
  - intros j Hj. rewrite !J by lia. apply (wf_mono _ W); auto.
  - rewrite J by lia. apply (wf_nnz _ W).
  - intros i Hi. rewrite G2, I by auto. apply (wf_ir _ W); auto.
  - intros i Hi. rewrite I by auto. apply (wf_row _ W); auto.
  - intros i Hi. rewrite G3 by auto. apply (wf_pr _ W); auto.
Qed.
Print Assumptions C03_copy.

(* ------------------------------------------------------------------- C04 *)

Theorem C04_pinv (n : nat) (pf : nat -> nat) (p pi : arr nat) :
  vec p n pf -> is_perm n pf -> n <= length pi ->
  exists pi', pinv n p pi = Some pi' /\ length pi' = length pi /\
    (forall i, i < n -> get pi' (pf i) = Some i) /\
    (forall j, j < n -> exists i, get pi' j = Some i /\ i < n /\ pf i = j) /\
    (forall j, n <= j -> get pi' j = get pi j).
Proof. exact (pinv_spec n pf p pi). Qed.
Print Assumptions C04_pinv.

(* C is the freshly created n x n matrix with nnz entries that setup passes in *)
Theorem C04_permute (M : spmat R) (pf : nat -> nat) (pi PK : arr nat) :
  wf_sp M -> sp_m M = sp_n M ->
  (forall j k, in_col M j k -> gd 0 (sp_ir M) k <= j) ->
  is_perm (sp_n M) pf -> vec pi (sp_n M) pf -> sp_nnz M <= length PK ->
  exists C0 C PK', newSparseMatrix (sp_n M) (sp_n M) (sp_nnz M) = Some C0 /\
    permuteSparseSymmetricMatrix M pi C0 PK = Some (C, PK') /\
    sp_n C = sp_n M /\ sp_m C = sp_n M /\ sp_nnz C = sp_nnz M /\ wf_sp C /\
    (* upper triangular *)
    (forall j k, in_col C j k -> gd 0 (sp_ir C) k <= j) /\
    (* C = P M P', as symmetric matrices *)
    (forall i j, i < sp_n M -> j < sp_n M ->
        dense C (Nat.min (pf i) (pf j)) (Nat.max (pf i) (pf j)) = dense M (Nat.min i j) (Nat.max i j)) /\
    (* C[PK[k]] = M[k], entry by entry *)
    (forall j k, in_col M j k -> exists q, get PK' k = Some q /\
        in_col C (Nat.max (pf (gd 0 (sp_ir M) k)) (pf j)) q /\
        get (sp_ir C) q = Some (Nat.min (pf (gd 0 (sp_ir M) k)) (pf j)) /\
        get (sp_pr C) q = get (sp_pr M) k) /\
    (forall k k', k < sp_nnz M -> k' < sp_nnz M -> get PK' k = get PK' k' -> k = k').
Proof.
  intros W SQ U PP P LK.
  eexists. 
  destruct (permute_spec M W SQ U pf PP (colof M) (colof_spec M W)
     (mkSp (upd (upd (alloc (sp_n M + 1)) (sp_n M) (Some (sp_nnz M))) (sp_n M) (Some (sp_nnz M)))
           (alloc (sp_nnz M)) (alloc (sp_nnz M)) (sp_n M) (sp_n M) (sp_nnz M)) pi PK)
     as (C & PK' & E & H1 & H2 & H3 & H4 & _ & _ & _ & H5 & H6); cbn [sp_n sp_m sp_nnz sp_jc sp_ir sp_pr];
     rewrite ?upd_length, ?alloc_length; auto.
  { rewrite get_upd, Nat.eqb_refl; auto. rewrite upd_length, alloc_length; lia. }
  exists C, PK'. split; [apply newSparseMatrix_ok|]. split; [exact E|].
  split; auto. split; auto. split; auto.
  split; [eapply (permute_wf M W SQ pf PP (colof M) (colof_spec M W)); eauto|].
  split; [eapply (permute_upper M W SQ pf PP (colof M) (colof_spec M W)); eauto|].
  split; [intros; eapply (permute_dense M pf C PK'); eauto|].
  split.
  - intros j k Hk. destruct (H6 j k Hk) as (K1 & K2 & K3).
    exists (ppos M pf (colof M) k). repeat split; auto;
    eapply (permute_in_col M W SQ pf PP (colof M) (colof_spec M W)); eauto.
  - intros. eapply (permute_map_inj M W pf (colof M) C PK'); eauto.
Qed.
Print Assumptions C04_permute.

(* [ 1 2 ; . 3 ] with the swap *)
Definition exU : spmat R :=
  mkSp (arr_of [0; 1; 3]) (arr_of [0; 0; 1]) (arr_of [1; 2; 3]%R) 2 2 3.
Definition swap (i : nat) : nat := 1 - i.
Example C04_nonvacuous :
  wf_sp exU /\ (forall j k, in_col exU j k -> gd 0 (sp_ir exU) k <= j) /\
  is_perm 2 swap /\ vec (arr_of [1; 0]) 2 swap.
Proof.
  split; [|split; [|split]].
  - constructor; cbn [exU sp_n sp_m sp_nnz sp_jc sp_ir sp_pr].
    + intros i Hi. do 3 (destruct i as [|i]; [reflexivity|]). lia.
    + reflexivity.
    + intros j Hj. do 2 (destruct j as [|j]; [vm_compute; lia|]). lia.
    + reflexivity.
    + intros i Hi. do 3 (destruct i as [|i]; [reflexivity|]). lia.
    + intros i Hi. do 3 (destruct i as [|i]; [vm_compute; lia|]). lia.
    + intros i Hi. do 3 (destruct i as [|i]; [eexists; reflexivity|]). lia.
  - intros j k [Hj Hk]. simpl in Hj. destruct j as [|[|j]]; [| |lia]; unfold gd, get in *; simpl in *.
    + destruct k; [simpl; lia|lia].
    + destruct k as [|[|[|k]]]; simpl; lia.
  - split; unfold swap; intros; lia.
  - intros i Hi. destruct i as [|[|i]]; [reflexivity|reflexivity|lia].
Qed.
