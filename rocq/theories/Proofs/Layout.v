(* A list of columns as a stored matrix, and its symmetric permutation. *)
From Coq Require Import List Arith Bool ZArith Reals Lia.
From Verif Require Import Base Num.
From Verif.Model Require Import Spla Splamm Types Consts Expcone Cone Ldl Kkt Equil Preproc.
From Verif.Spec Require Import Matrix Fill KktSpec KktMatrix Shape.
From Verif.Proofs Require Import SplaP SplammP KktAsm KktMat KktR KktUpd.
Import ListNotations.
Open Scope nat_scope.

Section Gen.
Context {F : Type}.

Definition mat_of (cols : list (col F)) : spmat F :=
  mkSp (arr_fun (length cols + 1) (KktSpec.start cols)) (arr_of (map fst (concat cols))) (arr_of (map snd (concat cols)))
    (length cols) (length cols) (length (concat cols)).

Lemma mat_of_stores cols : stores (mat_of cols) cols.
Proof.
  constructor; cbn; auto.
  - intros c Hc. apply get_arr_fun. lia.
  - intros t e He. rewrite !get_arr_of, !nth_error_map, He. auto.
Qed.

Lemma stores_mat_of K cols : stores K cols -> length (sp_jc K) = length cols + 1 ->
  length (sp_ir K) = length (concat cols) -> length (sp_pr K) = length (concat cols) -> K = mat_of cols.
Proof.
  intros [J E N M Z] LJ LI LP. destruct K as [jc ir pr n m nnz]. unfold mat_of. cbn in *. subst n m nnz. f_equal.
  - apply arr_ext; [rewrite arr_fun_length; auto|]. intros i. destruct (Nat.lt_ge_cases i (length cols + 1)).
    + rewrite J, get_arr_fun by lia. auto.
    + destruct (get jc i) eqn:G1; [apply get_lt in G1; lia|].
      destruct (get (arr_fun (length cols + 1) (KktSpec.start cols)) i) eqn:G2; auto. apply get_lt in G2. rewrite arr_fun_length in G2. lia.
  - apply arr_ext; [rewrite arr_of_length, map_length; auto|]. intros i. rewrite get_arr_of, nth_error_map.
    destruct (nth_error (concat cols) i) eqn:G; cbn.
    + apply (E _ _ G).
    + apply nth_error_None in G. destruct (get ir i) eqn:G1; auto. apply get_lt in G1. lia.
  - apply arr_ext; [rewrite arr_of_length, map_length; auto|]. intros i. rewrite get_arr_of, nth_error_map.
    destruct (nth_error (concat cols) i) eqn:G; cbn.
    + apply (E _ _ G).
    + apply nth_error_None in G. destruct (get pr i) eqn:G1; auto. apply get_lt in G1. lia.
Qed.

Definition wpr (M : spmat F) (pr : arr F) : spmat F := mkSp (sp_jc M) (sp_ir M) pr (sp_n M) (sp_m M) (sp_nnz M).
Definition same_pat (a b : list (col F)) : Prop := map (map fst) a = map (map fst) b.
Lemma same_pat_lens a b : same_pat a b -> map (@length _) a = map (@length _) b.
Proof.
  unfold same_pat. revert b; induction a as [|x a IH]; intros [|y b] H; try discriminate; auto.
  injection H as H1 H2. cbn. f_equal; auto. rewrite <- (map_length fst x), H1, map_length. auto.
Qed.
Lemma same_pat_length a b : same_pat a b -> length a = length b.
Proof. intros H. apply (f_equal (@length _)) in H. rewrite !map_length in H. auto. Qed.
Lemma same_pat_concat a b : same_pat a b -> map fst (concat a) = map fst (concat b).
Proof. intros H. rewrite !concat_map. f_equal. auto. Qed.
Lemma same_pat_start a b c : same_pat a b -> KktSpec.start a c = KktSpec.start b c.
Proof.
  intros H. apply same_pat_lens in H. revert b c H; induction a as [|x t IH]; intros [|y b] c H; try discriminate; auto.
  injection H as H1 H2. destruct c as [|c]; auto. unfold KktSpec.start in *. cbn. rewrite !app_length, (IH b c H2). lia.
Qed.
Lemma same_pat_mat a b : same_pat a b -> mat_of b = wpr (mat_of a) (arr_of (map snd (concat b))).
Proof.
  intros H. unfold mat_of, wpr. cbn. rewrite (same_pat_length _ _ H). rewrite (same_pat_concat _ _ H).
  assert (L : length (concat b) = length (concat a)) by (rewrite <- (map_length fst (concat b)), <- (same_pat_concat _ _ H), map_length; auto).
  rewrite L. f_equal. unfold arr_fun. apply map_ext. intros i. rewrite (same_pat_start _ _ _ H). auto.
Qed.

(* ---- the permuted matrix ---- *)
Record pattern (cols : list (col F)) (pf : nat -> nat) (Pm : spmat F) (PK : arr nat) : Prop := {
  pt_perm : is_perm (length cols) pf;
  pt_n : sp_n Pm = length cols;
  pt_m : sp_m Pm = length cols;
  pt_nnz : sp_nnz Pm = length (concat cols);
  pt_jc : forall b, b <= length cols -> get (sp_jc Pm) b = Some (pstart (mat_of cols) pf (colof (mat_of cols)) b);
  pt_ent : forall j k, in_col (mat_of cols) j k ->
     get PK k = Some (ppos (mat_of cols) pf (colof (mat_of cols)) k) /\
     get (sp_ir Pm) (ppos (mat_of cols) pf (colof (mat_of cols)) k) = Some (Nat.min (pf (gd 0 (sp_ir (mat_of cols)) k)) (pf j))
}.

Record permuted (cols : list (col F)) (pf : nat -> nat) (Pm : spmat F) (PK : arr nat) : Prop := {
  pd_pat : pattern cols pf Pm PK;
  pd_val : kv (concat cols) PK (sp_pr Pm)
}.

Lemma pattern_same a b pf Pm PK : same_pat a b -> pattern a pf Pm PK -> pattern b pf Pm PK.
Proof.
  intros H [P N M Z J E]. pose proof (same_pat_mat _ _ H) as EM.
  assert (L : length (concat b) = length (concat a)) by (rewrite <- (map_length fst (concat b)), <- (same_pat_concat _ _ H), map_length; auto).
  pose proof (same_pat_length _ _ H) as LL.
  constructor; rewrite <- ?LL, ?L; auto; rewrite EM; auto.
Qed.

Lemma permuted_pr a b pf Pm PK pr' : same_pat a b -> pattern a pf Pm PK -> kv (concat b) PK pr' -> permuted b pf (wpr Pm pr') PK.
Proof.
  intros H P K. constructor; auto. apply (pattern_same a b) in P; auto. destruct P. constructor; auto.
Qed.

Section Facts.
Variables (cols : list (col F)) (pf : nat -> nat) (Pm : spmat F) (PK : arr nat).
Hypothesis P : permuted cols pf Pm PK.
Variable ND : Prop.
Hypothesis A : allc (okc ND) 0 cols.
Let M := mat_of cols.

Lemma pm_wfM : wf_sp M. Proof. eapply stores_okc; [apply mat_of_stores|exact A]. Qed.
Lemma pm_upM : Fill.upper M. Proof. eapply stores_okc; [apply mat_of_stores|exact A]. Qed.
Lemma pm_ndM : ND -> nodup M. Proof. eapply stores_okc; [apply mat_of_stores|exact A]. Qed.

Lemma pm_ent j k : in_col M j k ->
  get PK k = Some (ppos M pf (colof M) k) /\
  get (sp_ir Pm) (ppos M pf (colof M) k) = Some (Nat.min (pf (gd 0 (sp_ir M) k)) (pf j)) /\
  get (sp_pr Pm) (ppos M pf (colof M) k) = get (sp_pr M) k.
Proof.
  intros H. destruct (pt_ent _ _ _ _ (pd_pat _ _ _ _ P) j k H) as [E1 E2]. split; [exact E1|]. split; [exact E2|].
  assert (Hk : k < length (concat cols)) by (apply (in_col_nnz M j k pm_wfM H)).
  destruct (nth_error (concat cols) k) as [e|] eqn:E; [|apply nth_error_None in E; lia].
  destruct (kv_val _ _ _ (pd_val _ _ _ _ P) k e E) as (q & G1 & G2). fold M in E1. rewrite E1 in G1. injection G1 as <-.
  rewrite G2. unfold M, mat_of. cbn. rewrite get_arr_of, nth_error_map, E. auto.
Qed.

Lemma pm_wf : wf_sp Pm.
Proof.
  destruct (pd_pat _ _ _ _ P) as [PP N M' Z J E].
  apply (permute_wf M pm_wfM eq_refl pf PP (colof M) (colof_spec M pm_wfM) Pm PK); auto. exact pm_ent.
Qed.
Lemma pm_upper : Fill.upper Pm.
Proof.
  destruct (pd_pat _ _ _ _ P) as [PP N M' Z J E].
  intros b q Hq. eapply (permute_upper M pm_wfM eq_refl pf PP (colof M) (colof_spec M pm_wfM) Pm PK); eauto. exact pm_ent.
Qed.
Lemma pm_in j k : in_col M j k -> in_col Pm (Nat.max (pf (gd 0 (sp_ir M) k)) (pf j)) (ppos M pf (colof M) k).
Proof.
  destruct (pd_pat _ _ _ _ P) as [PP N M' Z J E].
  apply (permute_in_col M pm_wfM eq_refl pf PP (colof M) (colof_spec M pm_wfM) Pm N M' Z J).
Qed.
Lemma pm_surj q : q < sp_nnz Pm -> exists j k, in_col M j k /\ ppos M pf (colof M) k = q.
Proof.
  destruct (pd_pat _ _ _ _ P) as [PP N M' Z J E]. rewrite Z. intros H.
  apply (ppos_surj M pm_wfM eq_refl pf PP (colof M) (colof_spec M pm_wfM)); auto.
Qed.
Lemma pm_nodup : ND -> nodup Pm.
Proof.
  intros D b q q' Hq Hq' He. pose proof (pm_ndM D) as NM.
  destruct (pm_surj q (in_col_nnz _ _ _ pm_wf Hq)) as (j & k & Hk & <-).
  destruct (pm_surj q' (in_col_nnz _ _ _ pm_wf Hq')) as (j' & k' & Hk' & <-).
  destruct (pm_ent j k Hk) as (_ & I1 & _). destruct (pm_ent j' k' Hk') as (_ & I2 & _).
  rewrite (gd_get _ _ _ _ I1), (gd_get _ _ _ _ I2) in He.
  pose proof (in_col_unique _ _ _ _ pm_wf Hq (pm_in j k Hk)) as B1.
  pose proof (in_col_unique _ _ _ _ pm_wf Hq' (pm_in j' k' Hk')) as B2.
  destruct (pt_perm _ _ _ _ (pd_pat _ _ _ _ P)) as [P1 P2].
  pose proof (pm_upM j k Hk) as U1. pose proof (pm_upM j' k' Hk') as U2.
  assert (Hj : j < length cols) by (destruct Hk; auto). assert (Hj' : j' < length cols) by (destruct Hk'; auto).
  set (r := gd 0 (sp_ir M) k) in *. set (r' := gd 0 (sp_ir M) k') in *.
  assert (E : (r = r' /\ j = j') \/ (r = j' /\ j = r')).
  { assert ((pf r = pf r' /\ pf j = pf j') \/ (pf r = pf j' /\ pf j = pf r')) as [[X Y]|[X Y]] by lia.
    - left. split; apply P2; auto; lia.
    - right. split; apply P2; auto; lia. }
  assert (E2 : r = r' /\ j = j') by lia. destruct E2 as [E2 ->].
  f_equal. apply (NM j' k k'); auto.
Qed.
End Facts.
End Gen.

(* ---- with the KKT columns ---- *)
Lemma kkt_cols_pat {F} (Gc Gc' Ac Ac' : nat -> col F) n p d e d' e' l v v' soc soc' ex ex' :
  map fst soc = map fst soc' -> length ex = length ex' ->
  (forall j, map fst (Ac j) = map fst (Ac' j)) -> (forall j, map fst (Gc j) = map fst (Gc' j)) ->
  same_pat (kkt_cols Gc n p Ac d e l v soc ex) (kkt_cols Gc' n p Ac' d' e' l v' soc' ex').
Proof.
  intros E1 E2 HA HG. unfold same_pat, kkt_cols. rewrite !map_app.
  assert (EL : length soc = length soc') by (rewrite <- (map_length fst), E1, map_length; auto).
  rewrite E1, EL. f_equal; [|f_equal; [|f_equal; [|f_equal]]].
  - rewrite !map_map. reflexivity.
  - rewrite !map_map. apply map_ext. intros j. rewrite !map_app, HA. auto.
  - unfold lp_cols. rewrite !map_map. apply map_ext. intros j. rewrite !map_app, HG. auto.
  - generalize (n + p + l) at 1 2. clear E2 EL. generalize l at 1 2. revert soc' E1.
    induction soc as [|[q w] t IH]; intros [|[q' w'] t'] E1 cs b; try discriminate; auto.
    cbn in E1. injection E1 as -> E1. cbn [soc_cols]. rewrite !map_app, (IH _ E1). f_equal.
    unfold soc_block. rewrite !map_app, !map_map. f_equal.
    + apply map_ext. intros j. rewrite !map_app, HG. auto.
    + cbn. rewrite !map_app, !map_map. auto.
  - generalize (n + p + l + list_sum (map fst soc') + 2 * length soc') at 1 2. generalize (l + list_sum (map fst soc')) at 1 2.
    clear E1 EL. revert ex' E2.
    induction ex as [|w t IH]; intros [|w' t'] E2 cs b; try discriminate; auto.
    cbn in E2. cbn [exp_cols]. rewrite !map_app, (IH t') by lia. f_equal.
    unfold exp_block. rewrite !map_map. apply map_ext. intros j. rewrite !map_app, HG, !map_map. auto.
Qed.

Section Real.
Open Scope R_scope.
Lemma pm_dense (cols : list (col R)) pf Pm PK ND : permuted cols pf Pm PK -> allc (okc ND) 0 cols ->
  forall i j, (i < length cols)%nat -> (j < length cols)%nat ->
  symdense Pm (pf i) (pf j) = symdense (mat_of cols) i j.
Proof.
  intros P A i j Hi Hj. pose proof (pd_pat _ _ _ _ P) as [PP N M' Z J E].
  apply (permute_dense (mat_of cols) pf Pm PK); auto.
  - eapply pm_wfM; eauto.
  - exact (pm_upM cols ND A).
  - intros c k Hk. exact (pm_ent cols pf Pm PK P ND A c k Hk).
Qed.
End Real.
