(* Equilibration (src/equil.c), for every arithmetic: memory safety and what it
   writes. *)
From Coq Require Import List Arith Bool ZArith QArith Lia.
From Verif Require Import Base Num.
From Verif.Spec Require Import Matrix Shape.
From Verif.Model Require Import Spla Types Consts Cone Equil.
From Verif.Proofs Require Import SplaP LoopLib ConeP.
Import ListNotations.
Open Scope nat_scope.

(* M' has the pattern of M; entry v at (row, column) became g row column v *)
Record rescaled {T} (g : nat -> nat -> T -> T) (M M' : spmat T) : Prop := {
  rs_jc : sp_jc M' = sp_jc M;
  rs_ir : sp_ir M' = sp_ir M;
  rs_n : sp_n M' = sp_n M;
  rs_m : sp_m M' = sp_m M;
  rs_nnz : sp_nnz M' = sp_nnz M;
  rs_len : length (sp_pr M') = length (sp_pr M);
  rs_in : forall j k v, in_col M j k -> get (sp_pr M) k = Some v -> get (sp_pr M') k = Some (g (gd 0 (sp_ir M) k) j v);
  rs_out : forall k, sp_nnz M <= k -> get (sp_pr M') k = get (sp_pr M) k
}.

Section Struct.
Context {T : Type}.

Lemma rescaled_wf g (M M' : spmat T) : rescaled g M M' -> wf_sp M -> wf_sp M'.
Proof.
  intros [E1 E2 E3 E4 E5 E6 I O] W. pose proof W as [A B C D E F G].
  constructor; rewrite ?E1, ?E2, ?E3, ?E4, ?E5; auto.
  intros k Hk. destruct (in_col_exists M k W Hk) as (j & Hj). destruct (G k Hk) as (v & Hv).
  eexists. apply (I j k v); auto.
Qed.
Lemma rescaled_col g (M M' : spmat T) j k : rescaled g M M' -> in_col M' j k <-> in_col M j k.
Proof. intros [E1 E2 E3 E4 E5 E6 I O]. unfold in_col. rewrite E1, E3. tauto. Qed.
Lemma rescaled_id (M : spmat T) : rescaled (fun _ _ v => v) M M.
Proof. constructor; auto. Qed.
Lemma rescaled_trans g h (M M' M'' : spmat T) : rescaled g M M' -> rescaled h M' M'' ->
  rescaled (fun r c v => h r c (g r c v)) M M''.
Proof.
  intros R1 R2. pose proof R1 as [E1 E2 E3 E4 E5 E6 I O]. pose proof R2 as [D1 D2 D3 D4 D5 D6 I' O'].
  constructor; try congruence.
  - intros j k v Hj Hv. rewrite <- E2. apply I'; [apply (rescaled_col g M M'); auto|]. rewrite E2. apply I; auto.
  - intros k Hk. rewrite O', O; auto. lia.
Qed.
Lemma rescaled_ext g h (M M' : spmat T) : wf_sp M -> rescaled g M M' -> (forall r c v, r < sp_m M -> c < sp_n M -> g r c v = h r c v) -> rescaled h M M'.
Proof.
  intros W [E1 E2 E3 E4 E5 E6 I O] E. constructor; auto.
  intros j k v Hj Hv. rewrite <- E; auto; [|apply Hj]. apply (wf_row M W). eapply in_col_nnz; eauto.
Qed.
Lemma rescaled_empty g (M : spmat T) : wf_sp M -> sp_m M = 0 -> rescaled g M M.
Proof.
  intros W E. constructor; auto. intros j k v Hj. exfalso.
  pose proof (wf_row M W k (in_col_nnz M j k W Hj)). lia.
Qed.

(* a loop that rewrites every stored entry in place *)
Lemma map_entries (M : spmat T) (g : nat -> nat -> T -> T) (body : nat -> nat -> arr T -> option (arr T)) :
  wf_sp M -> (forall j k (a : arr T) v, in_col M j k -> get a k = Some v -> length a = length (sp_pr M) ->
     body j k a = set a k (g (gd 0 (sp_ir M) k) j v)) ->
  exists pr, for_ 0 (sp_n M) (fun i a => col_loop M i (body i) a) (sp_pr M) = Some pr /\
    rescaled g M (mkSp (sp_jc M) (sp_ir M) pr (sp_n M) (sp_m M) (sp_nnz M)).
Proof.
  intros W Hb. apply wp_elim.
  set (done := fun K (a : arr T) => length a = length (sp_pr M) /\
    (forall j k v, in_col M j k -> k < K -> get (sp_pr M) k = Some v -> get a k = Some (g (gd 0 (sp_ir M) k) j v)) /\
    (forall k, K <= k -> get a k = get (sp_pr M) k)).
  apply (wp_for (fun i a => done (gd 0 (sp_jc M) i) a)); [lia| | |].
  - rewrite (wf_jc0 M W). split; [auto|]. split; [intros; lia|auto].
  - intros i a Hi Ha. apply (wp_col_loop M i _ a done); auto; [lia| |].
    + intros k b Hk (L & I & O). pose proof (in_col_nnz M i k W Hk) as Hn. destruct (wf_pr M W k Hn) as (v & Hv).
      rewrite (Hb i k b v); auto; [|rewrite O; auto].
      wset b' L' G'; [rewrite L; eapply get_lt; eauto|]. split; [congruence|]. split.
      * intros j k' v' Hj Hk' Hv'. rewrite G'. destruct (Nat.eqb_spec k' k) as [->|Hne].
        -- rewrite (in_col_unique M j i k W Hj Hk). congruence.
        -- apply I; auto. lia.
      * intros k' Hk'. rewrite G'. destruct (Nat.eqb_spec k' k); [lia|]. apply O. lia.
    + intros b Hb'. rewrite <- Nat.add_1_r. auto.
  - intros a (L & I & O). rewrite (wf_nnz M W) in I, O. constructor; auto.
    intros j k v Hj Hv. apply I; auto. eapply in_col_nnz; eauto.
Qed.
End Struct.

Section Gen.
Context `{O : Ops}.
Local Open Scope fl_scope.

Lemma equilibrate_rows_eq E ef M : wf_sp M -> vec E (sp_m M) ef ->
  exists M', equilibrate_rows E M = Some M' /\ rescaled (fun r _ v => v / ef r) M M'.
Proof.
  intros W HE. unfold equilibrate_rows.
  match goal with |- context [col_loop M _ (fun j pr => _)] => idtac end.
  destruct (map_entries M (fun r _ v => v / ef r) (fun i j pr => row <- get (sp_ir M) j ;; v <- get pr j ;; e <- get E row ;; set pr j (v / e)) W) as (pr & Ep & R).
  - intros j k a v Hk Hv _. pose proof (in_col_nnz M j k W Hk) as Hn.
    rewrite (wf_ir M W k Hn). cbn [bind]. rewrite Hv. cbn [bind]. rewrite (HE _ (wf_row M W k Hn)). reflexivity.
  - rewrite Ep. cbn [bind]. eauto.
Qed.
Lemma equilibrate_cols_eq E ef M : wf_sp M -> vec E (sp_n M) ef ->
  exists M', equilibrate_cols E M = Some M' /\ rescaled (fun _ c v => v / ef c) M M'.
Proof.
  intros W HE. unfold equilibrate_cols.
  destruct (map_entries M (fun _ c v => v / ef c) (fun i j pr => v <- get pr j ;; e <- get E i ;; set pr j (v / e)) W) as (pr & Ep & R).
  - intros j k a v Hk Hv _. rewrite Hv. cbn [bind]. rewrite (HE j) by apply Hk. reflexivity.
  - rewrite Ep. cbn [bind]. eauto.
Qed.
Lemma restore_eq D E df ef M : wf_sp M -> vec D (sp_m M) df -> vec E (sp_n M) ef ->
  exists M', restore D E M = Some M' /\ rescaled (fun r c v => v * (df r * ef c)) M M'.
Proof.
  intros W HD HE. unfold restore.
  destruct (map_entries M (fun r c v => v * (df r * ef c)) (fun i j pr => row <- get (sp_ir M) j ;; v <- get pr j ;; d <- get D row ;; e <- get E i ;;
    set pr j (v * (d * e))) W) as (pr & Ep & R).
  - intros j k a v Hk Hv _. pose proof (in_col_nnz M j k W Hk) as Hn.
    rewrite (wf_ir M W k Hn). cbn [bind]. rewrite Hv. cbn [bind]. rewrite (HD _ (wf_row M W k Hn)). cbn [bind].
    rewrite (HE j) by apply Hk. reflexivity.
  - rewrite Ep. cbn [bind]. eauto.
Qed.

(* cells below n hold values with property P *)
Definition vecP (P : F -> Prop) (a : arr F) (n : nat) : Prop := forall i, (i < n)%nat -> exists v, get a i = Some v /\ P v.
Lemma vecP_vec P a n : vecP P a n -> exists f, vec a n f /\ forall i, (i < n)%nat -> P (f i).
Proof.
  intros H. exists (gd f0 a). split.
  - intros i Hi. destruct (H i Hi) as (v & E & _). eapply get_gd; eauto.
  - intros i Hi. destruct (H i Hi) as (v & E & Hv). rewrite (gd_get _ _ _ _ E). auto.
Qed.
Lemma vec_vecP (P : F -> Prop) a n f : vec a n f -> (forall i, (i < n)%nat -> P (f i)) -> vecP P a n.
Proof. intros H K i Hi. exists (f i). auto. Qed.

Lemma fill_eq n v a : (n <= length a)%nat -> exists a', fill n v a = Some a' /\ length a' = length a /\ vec a' n (fun _ => v) /\
  forall i, (n <= i)%nat -> get a' i = get a i.
Proof.
  intros H. unfold fill. destruct (for_fill (fun _ => v) 0 0 n (fun i a => set a i v) a) as (a' & E & W); auto; [lia|].
  exists a'. split; [auto|]. split; [apply (wrote_len _ _ _ _ _ W)|]. split.
  - intros i Hi. exact (wrote_in _ _ _ _ _ i W ltac:(lia)).
  - intros i Hi. apply (wrote_out _ _ _ _ _ _ W). lia.
Qed.

(* every stored entry has property Q *)
Definition entries (Q : F -> Prop) (M : spmat F) : Prop := forall k v, (k < sp_nnz M)%nat -> get (sp_pr M) k = Some v -> Q v.
Lemma rescaled_entries g (Q : F -> Prop) (M M' : spmat F) : wf_sp M -> rescaled g M M' ->
  (forall r c v, (r < sp_m M)%nat -> (c < sp_n M)%nat -> Q v -> Q (g r c v)) -> entries Q M -> entries Q M'.
Proof.
  intros W R HQ HE k v Hk Hv. rewrite (rs_nnz _ _ _ R) in Hk.
  destruct (in_col_exists M k W Hk) as (j & Hj). destruct (wf_pr M W k Hk) as (v0 & Hv0).
  rewrite (rs_in _ _ _ R j k v0 Hj Hv0) in Hv. injection Hv as <-. apply HQ; [apply (wf_row M W k Hk)|apply Hj|eauto].
Qed.

Section MaxP.
Variable P : F -> Prop.
Variable Q : F -> Prop.
Hypothesis HP : forall v e, Q v -> P e -> P (fmax (fabs v) e).
Lemma max_rows_P E M : wf_sp M -> entries Q M -> vecP P E (sp_m M) -> exists E', max_rows E M = Some E' /\ length E' = length E /\ vecP P E' (sp_m M).
Proof.
  intros W HQ HE. apply wp_elim. unfold max_rows.
  set (Inv := fun (_ : nat) (a : arr F) => length a = length E /\ vecP P a (sp_m M)).
  apply (wp_for Inv); [lia|split; auto| |intros a Ha; exact Ha].
  intros i a Hi Ha. apply (wp_col_loop M i _ a Inv); auto; [lia|].
  intros k b Hk (L & I). pose proof (in_col_nnz M i k W Hk) as Hn.
  rewrite (wf_ir M W k Hn). cbn [bind]. destruct (wf_pr M W k Hn) as (v & Ev). pose proof (HQ k v Hn Ev) as Qv. rewrite Ev. cbn [bind].
  destruct (I _ (wf_row M W k Hn)) as (e & Ee & Pe). rewrite Ee. cbn [bind].
  wset b' L' G'; [eapply get_lt; eauto|]. split; [congruence|]. intros r Hr. rewrite G'.
  destruct (Nat.eqb_spec r (gd 0%nat (sp_ir M) k)); eauto.
Qed.
Lemma max_cols_P E M : wf_sp M -> entries Q M -> vecP P E (sp_n M) -> exists E', max_cols E M = Some E' /\ length E' = length E /\ vecP P E' (sp_n M).
Proof.
  intros W HQ HE. apply wp_elim. unfold max_cols.
  set (Inv := fun (_ : nat) (a : arr F) => length a = length E /\ vecP P a (sp_n M)).
  apply (wp_for Inv); [lia|split; auto| |intros a Ha; exact Ha].
  intros i a Hi Ha. apply (wp_col_loop M i _ a Inv); auto; [lia|].
  intros k b Hk (L & I). pose proof (in_col_nnz M i k W Hk) as Hn.
  destruct (wf_pr M W k Hn) as (v & Ev). pose proof (HQ k v Hn Ev) as Qv. rewrite Ev. cbn [bind].
  destruct (I i) as (e & Ee & Pe); [apply Hk|]. rewrite Ee. cbn [bind].
  wset b' L' G'; [eapply get_lt; eauto|]. split; [congruence|]. intros r Hr. rewrite G'.
  destruct (Nat.eqb_spec r i); eauto.
Qed.

(* one value for the rows of one cone *)
Definition conic (C : cone F) (f : nat -> F) : Prop :=
  (forall k c i, In (k, c) (blocks C) -> (i < so_p c)%nat -> f (k + i)%nat = f k) /\
  (forall k x i, In (k, x) (lay (fun _ => 3%nat) (hsize C) (co_expc C)) -> (i < 3)%nat -> f (k + i)%nat = f k).

Hypothesis H0 : P f0.
Hypothesis HA : forall a b, P a -> P b -> P (a + b).
Lemma collapse_P G k p n : vecP P G n -> (k + p <= n)%nat ->
  exists G' t, collapse G k p = Some G' /\ P t /\ wrote k p (fun _ => t) G G'.
Proof.
  intros HG Hk. unfold collapse. destruct (vecP_vec _ _ _ HG) as (f & Hf & Pf).
  set (t := nfold 0 p (fun j t => t + f (k + j)%nat) f0).
  rewrite (for_fold (fun j t => t + f (k + j)%nat)).
  2:{ intros i s Hi. rewrite Hf by lia. reflexivity. }
  rewrite Nat.sub_0_r. fold t. cbn [bind].
  destruct (for_fill (fun _ => t) k 0 p (fun j G => set G (k + j)%nat t) G) as (G' & E & W); auto; [|lia|].
  { destruct (Nat.eq_dec p 0).
    - subst p. destruct (Nat.le_gt_cases (k + 0) (length G)); auto.
      destruct (Nat.eq_dec k 0); [lia|]. destruct (HG (k - 1)%nat) as (v & Ev & _); [lia|]. apply get_lt in Ev. lia.
    - destruct (HG (k + p - 1)%nat) as (v & Ev & _); [lia|]. apply get_lt in Ev. lia. }
  exists G', t. split; [auto|]. split.
  - unfold t. apply (nfold_inv (fun _ => P)); auto. intros i s Hi Hs. apply HA; auto. apply Pf. lia.
  - rewrite Nat.sub_0_r, Nat.add_0_r in W. exact W.
Qed.

Lemma collapse_cones_P C G : vecP P G (msize C) -> exists G', collapse_cones C G = Some G' /\ length G' = length G /\
  exists f, vec G' (msize C) f /\ (forall i, (i < msize C)%nat -> P (f i)) /\ conic C f.
Proof.
  intros HG. unfold collapse_cones.
  (* second-order blocks *)
  assert (B: forall {A} (sz : A -> nat) l k0 G n, vecP P G n -> (k0 + tot sz l <= n)%nat ->
    exists G', for_each l (fun c st => let '(G, k) := st in G <- collapse G k (sz c) ;; Some (G, (k + sz c)%nat)) (G, k0) = Some (G', (k0 + tot sz l)%nat) /\
      length G' = length G /\ vecP P G' n /\ (forall k c i, In (k, c) (lay sz k0 l) -> (i < sz c)%nat -> get G' (k + i)%nat = get G' k) /\
      forall j, (j < k0 \/ k0 + tot sz l <= j)%nat -> get G' j = get G j).
  { clear HG G. intros A sz. induction l as [|c t IH]; intros k0 G n HG Hn.
    - exists G. cbn. rewrite Nat.add_0_r. csplit; auto. intros k c i Hin. destruct Hin.
    - cbn [for_each tot] in *. destruct (collapse_P G k0 (sz c) n HG ltac:(lia)) as (G1 & s & E1 & Ps & W1). rewrite E1. cbn [bind].
      assert (HG1: vecP P G1 n).
      { intros i Hi. destruct (Nat.lt_ge_cases i k0) as [Hlt|Hge].
        - rewrite (wrote_out _ _ _ _ _ _ W1) by lia. auto.
        - destruct (Nat.lt_ge_cases i (k0 + sz c)).
          + replace i with (k0 + (i - k0))%nat by lia. rewrite (wrote_in _ _ _ _ _ _ W1) by lia. eauto.
          + rewrite (wrote_out _ _ _ _ _ _ W1) by lia. auto. }
      destruct (IH (k0 + sz c)%nat G1 n HG1 ltac:(lia)) as (G2 & E2 & L2 & P2 & C2 & O2).
      exists G2. rewrite E2. split; [do 2 f_equal; lia|]. split; [rewrite L2; apply (wrote_len _ _ _ _ _ W1)|]. split; [auto|]. split.
      + intros k c' i [Ein|Hin] Hi; [|eapply C2; eauto]. injection Ein as <- <-. rewrite !O2 by lia.
        rewrite (wrote_in _ _ _ _ _ _ W1 Hi). replace (get G1 k0) with (get G1 (k0 + 0)%nat) by (f_equal; lia).
        rewrite (wrote_in _ _ _ _ _ _ W1) by lia. auto.
      + intros j Hj. rewrite O2 by lia. apply (wrote_out _ _ _ _ _ _ W1). lia. }
  assert (T3: tot (fun _ : expcone F => 3%nat) (co_expc C) = (3 * nexc C)%nat).
  { unfold nexc. clear. induction (co_expc C); cbn [tot length]; lia. }
  assert (MS: msize C = (lpp C + tot so_p (co_soc C) + 3 * nexc C)%nat) by (unfold msize; rewrite hsize_tot; lia).
  destruct (B _ so_p (co_soc C) (lpp C) G (msize C) HG ltac:(lia)) as (G1 & E1 & L1 & P1 & C1 & O1).
  rewrite E1. cbn [bind].
  destruct (B _ (fun _ => 3%nat) (co_expc C) (lpp C + tot so_p (co_soc C))%nat G1 (msize C) P1 ltac:(lia)) as (G2 & E2 & L2 & P2 & C2 & O2).
  rewrite E2. cbn [bind]. exists G2. split; [auto|]. split; [congruence|].
  destruct (vecP_vec _ _ _ P2) as (f & Hf & Pf). exists f. split; [auto|]. split; [auto|].
  assert (X: forall a b, (a < msize C)%nat -> (b < msize C)%nat -> get G2 a = get G2 b -> f a = f b).
  { intros a b Ha Hb E. rewrite !Hf in E by auto. congruence. }
  split.
  - intros k c i Hin Hi. pose proof (lay_bounds _ _ _ _ _ Hin). apply X; [lia|lia|]. rewrite !O2 by lia. eapply C1; eauto.
  - intros k x i Hin Hi. rewrite hsize_tot in Hin. pose proof (lay_bounds _ _ _ _ _ Hin). cbn beta in *. apply X; [lia|lia|]. eapply (C2 k x); eauto.
Qed.
End MaxP.

Definition sqv (v : F) : F := if fabs v <? fconst (1 # 1000000)%Q then f1 else fsqrt v.
Lemma sqrt_all_eq n a f : vec a n f -> exists a', sqrt_all n a = Some a' /\ length a' = length a /\ vec a' n (fun i => sqv (f i)).
Proof.
  intros H. unfold sqrt_all.
  assert (L: (n <= length a)%nat). { destruct n; [lia|]. specialize (H n ltac:(lia)). apply get_lt in H. lia. }
  destruct (for_modify (fun _ v => sqv v) f0 0 0 n (fun i a => v <- get a i ;; set a i (if fabs v <? fconst (1 # 1000000)%Q then f1 else fsqrt v)) a) as (a' & E & W); auto; [|lia| |].
  - intros i a' v Hi _ Hv. cbn [Nat.add] in *. rewrite Hv. reflexivity.
  - intros i Hi. exists (f i). apply H. lia.
  - exists a'. split; [auto|]. split; [apply (wrote_len _ _ _ _ _ W)|]. intros i Hi.
    pose proof (wrote_in _ _ _ _ _ i W ltac:(lia)) as G. cbn [Nat.add] in G. rewrite G. rewrite (gd_get _ _ _ _ (H i Hi)). auto.
Qed.
Lemma mul_all_eq n t a tf af : vec t n tf -> vec a n af -> exists a', mul_all n t a = Some a' /\ length a' = length a /\ vec a' n (fun i => af i * tf i) /\
  forall i, (n <= i)%nat -> get a' i = get a i.
Proof.
  intros Ht H. unfold mul_all.
  assert (L: (n <= length a)%nat). { destruct n; [lia|]. specialize (H n ltac:(lia)). apply get_lt in H. lia. }
  destruct (for_modify (fun i v => v * tf i) f0 0 0 n (fun i a => v <- get a i ;; u <- get t i ;; set a i (v * u)) a) as (a' & E & W); auto; [|lia| |].
  - intros i a' v Hi _ Hv. cbn [Nat.add] in *. rewrite Hv. cbn [bind]. rewrite Ht by lia. reflexivity.
  - intros i Hi. exists (af i). apply H. lia.
  - exists a'. split; [auto|]. split; [apply (wrote_len _ _ _ _ _ W)|]. split.
    + intros i Hi. pose proof (wrote_in _ _ _ _ _ i W ltac:(lia)) as G. cbn [Nat.add] in G. rewrite G. rewrite (gd_get _ _ _ _ (H i Hi)). auto.
    + intros i Hi. apply (wrote_out _ _ _ _ _ _ W). lia.
Qed.
Lemma div_all_eq n t a tf af : vec t n tf -> vec a n af -> exists a', div_all n t a = Some a' /\ length a' = length a /\ vec a' n (fun i => af i / tf i) /\
  forall i, (n <= i)%nat -> get a' i = get a i.
Proof.
  intros Ht H. unfold div_all.
  assert (L: (n <= length a)%nat). { destruct n; [lia|]. specialize (H n ltac:(lia)). apply get_lt in H. lia. }
  destruct (for_modify (fun i v => v / tf i) f0 0 0 n (fun i a => v <- get a i ;; u <- get t i ;; set a i (v / u)) a) as (a' & E & W); auto; [|lia| |].
  - intros i a' v Hi _ Hv. cbn [Nat.add] in *. rewrite Hv. cbn [bind]. rewrite Ht by lia. reflexivity.
  - intros i Hi. exists (af i). apply H. lia.
  - exists a'. split; [auto|]. split; [apply (wrote_len _ _ _ _ _ W)|]. split.
    + intros i Hi. pose proof (wrote_in _ _ _ _ _ i W ltac:(lia)) as G. cbn [Nat.add] in G. rewrite G. rewrite (gd_get _ _ _ _ (H i Hi)). auto.
    + intros i Hi. apply (wrote_out _ _ _ _ _ _ W). lia.
Qed.

(* -------------------------------------------------------- one Ruiz iteration *)
Definition rowsA (A : option (spmat F)) : nat := match A with Some A => sp_m A | None => 0%nat end.
Definition colsA (A : option (spmat F)) (G : spmat F) : nat := match A with Some A => sp_n A | None => sp_n G end.
Definition wfA (A : option (spmat F)) (n : nat) : Prop := match A with Some A => wf_sp A /\ sp_n A = n | None => True end.
Definition rescaledA g (A A' : option (spmat F)) : Prop :=
  match A, A' with None, None => True | Some A, Some A' => rescaled g A A' | _, _ => False end.

Lemma rescaledA_rows g A A' : rescaledA g A A' -> rowsA A' = rowsA A.
Proof. destruct A, A'; cbn; try tauto. intros H. apply (rs_m _ _ _ H). Qed.
Lemma rescaledA_wf g A A' n : rescaledA g A A' -> wfA A n -> wfA A' n.
Proof. destruct A, A'; cbn; try tauto. intros H [W E]. split; [eapply rescaled_wf; eauto|]. rewrite (rs_n _ _ _ H). auto. Qed.
Lemma rescaledA_trans g h A A' A'' : rescaledA g A A' -> rescaledA h A' A'' -> rescaledA (fun r c v => h r c (g r c v)) A A''.
Proof. destruct A, A', A''; cbn; try tauto. apply rescaled_trans. Qed.
Lemma rescaledA_id A : rescaledA (fun _ _ v => v) A A.
Proof. destruct A; cbn; auto. apply rescaled_id. Qed.
Lemma rescaledA_ext g h A A' n : wfA A n -> rescaledA g A A' -> (forall r c v, (r < rowsA A)%nat -> (c < n)%nat -> g r c v = h r c v) -> rescaledA h A A'.
Proof. destruct A, A'; cbn; try tauto. intros [W E] R H. eapply rescaled_ext; eauto. intros; apply H; lia. Qed.

Definition entriesA (Q : F -> Prop) (A : option (spmat F)) : Prop := match A with Some A => entries Q A | None => True end.
Lemma rescaledA_entries g (Q : F -> Prop) A A' n : wfA A n -> rescaledA g A A' ->
  (forall r c v, (r < rowsA A)%nat -> (c < n)%nat -> Q v -> Q (g r c v)) -> entriesA Q A -> entriesA Q A'.
Proof. destruct A, A'; cbn; try tauto. intros [W E] R H. eapply rescaled_entries; eauto. intros; apply H; auto; lia. Qed.

Section Ruiz.
Variable P : F -> Prop.
Variable P1 : F -> Prop.
Variable Q : F -> Prop.
Hypothesis HP : forall v e, Q v -> P e -> P (fmax (fabs v) e).
Hypothesis HQ : forall v a, Q v -> P1 a -> Q (v / a).
Hypothesis H0 : P f0.
Hypothesis HA : forall a b, P a -> P b -> P (a + b).
Hypothesis H1 : forall v, P v -> P1 (sqv v).

Lemma ruiz_iter_eq C A G xe Ae Ge xf af gf : wf_sp G -> wfA A (sp_n G) -> entries Q G -> entriesA Q A -> sp_m G = msize C ->
  vec xe (sp_n G) xf -> vec Ae (rowsA A) af -> vec Ge (sp_m G) gf ->
  exists A' G' xe' Ae' Ge' xt At Gt, ruiz_iter C A G (xe, Ae, Ge) = Some (A', G', (xe', Ae', Ge')) /\
    length xe' = length xe /\ length Ae' = length Ae /\ length Ge' = length Ge /\
    rescaledA (fun r c v => v / At r / xt c) A A' /\ rescaled (fun r c v => v / Gt r / xt c) G G' /\
    vec xe' (sp_n G) (fun i => xf i * xt i) /\ vec Ae' (rowsA A) (fun i => af i * At i) /\ vec Ge' (sp_m G) (fun i => gf i * Gt i) /\
    (forall i, (i < sp_n G)%nat -> P1 (xt i)) /\ (forall i, (i < rowsA A)%nat -> P1 (At i)) /\ (forall i, (i < sp_m G)%nat -> P1 (Gt i)) /\
    conic C Gt /\ entries Q G' /\ entriesA Q A'.
Proof.
  intros WG WA QG QA EM Hx HAe HG. unfold ruiz_iter.
  assert (ENC: colsA A G = sp_n G). { destruct A; cbn in *; tauto. }
  change (match A with Some A => sp_n A | None => sp_n G end) with (colsA A G).
  change (match A with Some A => sp_m A | None => 0%nat end) with (rowsA A). cbv zeta. rewrite ENC.
  destruct (fill_eq (sp_n G) f0 (alloc (sp_n G)) ltac:(rewrite alloc_length; lia)) as (x0 & E & Lx0 & Vx0 & _). rewrite E. cbn [bind]. clear E.
  destruct (fill_eq (rowsA A) f0 (alloc (rowsA A)) ltac:(rewrite alloc_length; lia)) as (a0 & E & La0 & Va0 & _). rewrite E. cbn [bind]. clear E.
  destruct (fill_eq (sp_m G) f0 (alloc (sp_m G)) ltac:(rewrite alloc_length; lia)) as (g0 & E & Lg0 & Vg0 & _). rewrite E. cbn [bind]. clear E.
  assert (Px0: vecP P x0 (sp_n G)) by (eapply vec_vecP; eauto).
  assert (Pa0: vecP P a0 (rowsA A)) by (eapply vec_vecP; eauto).
  assert (Pg0: vecP P g0 (sp_m G)) by (eapply vec_vecP; eauto).
  assert (X1: exists x1, onA A (fun A x => max_cols x A) x0 = Some x1 /\ vecP P x1 (sp_n G)).
  { destruct A as [A|]; cbn in *; [|eauto]. destruct WA as [WA EA].
    destruct (max_cols_P P Q HP x0 A WA QA) as (x1 & E & _ & V); [rewrite EA; auto|]. rewrite EA in V. eauto. }
  destruct X1 as (x1 & E & Px1). rewrite E. cbn [bind]. clear E.
  assert (X2: exists x2, (if Nat.ltb 0 (sp_m G) then max_cols x1 G else Some x1) = Some x2 /\ vecP P x2 (sp_n G)).
  { destruct (Nat.ltb 0 (sp_m G)); [|eauto]. destruct (max_cols_P P Q HP x1 G WG QG Px1) as (x2 & E & _ & V). eauto. }
  destruct X2 as (x2 & E & Px2). rewrite E. cbn [bind]. clear E.
  assert (A1: exists a1, onA A (fun A x => max_rows x A) a0 = Some a1 /\ vecP P a1 (rowsA A)).
  { destruct A as [A|]; cbn in *; [|eauto]. destruct WA as [WA EA].
    destruct (max_rows_P P Q HP a0 A WA QA Pa0) as (x1' & E & _ & V). eauto. }
  destruct A1 as (a1 & E & Pa1). rewrite E. cbn [bind]. clear E.
  assert (G1: exists g1, (if Nat.ltb 0 (sp_m G) then max_rows g0 G else Some g0) = Some g1 /\ vecP P g1 (sp_m G)).
  { destruct (Nat.ltb 0 (sp_m G)); [|eauto]. destruct (max_rows_P P Q HP g0 G WG QG Pg0) as (x2' & E & _ & V). eauto. }
  destruct G1 as (g1 & E & Pg1). rewrite E. cbn [bind]. clear E.
  rewrite EM in Pg1. destruct (collapse_cones_P P H0 HA C g1 Pg1) as (g2 & E & _ & g2f & Vg2 & Pg2 & CG). rewrite E. cbn [bind]. clear E.
  destruct (vecP_vec _ _ _ Px2) as (x2f & Vx2 & Px2f). destruct (vecP_vec _ _ _ Pa1) as (a1f & Va1 & Pa1f).
  rewrite <- EM in Vg2, Pg2.
  destruct (sqrt_all_eq _ _ _ Vx2) as (x3 & E & _ & Vx3). rewrite E. cbn [bind]. clear E.
  destruct (sqrt_all_eq _ _ _ Va1) as (a3 & E & _ & Va3). rewrite E. cbn [bind]. clear E.
  destruct (sqrt_all_eq _ _ _ Vg2) as (g3 & E & _ & Vg3). rewrite E. cbn [bind]. clear E.
  assert (EA1: exists A1, mapA A (equilibrate_rows a3) = Some A1 /\ rescaledA (fun r _ v => v / sqv (a1f r)) A A1).
  { destruct A as [A|]; cbn; [|exists None; cbn; auto]. destruct WA as [WA EA].
    destruct (equilibrate_rows_eq a3 _ A WA Va3) as (A1 & E & R). rewrite E. exists (Some A1). cbn. auto. }
  destruct EA1 as (A1 & E & RA1). rewrite E. cbn [bind]. clear E.
  assert (EG1: exists G1, (if Nat.ltb 0 (sp_m G) then equilibrate_rows g3 G else Some G) = Some G1 /\ rescaled (fun r _ v => v / sqv (g2f r)) G G1).
  { destruct (Nat.ltb_spec 0 (sp_m G)).
    - exact (equilibrate_rows_eq g3 _ G WG Vg3).
    - exists G. split; auto. apply rescaled_empty; auto. lia. }
  destruct EG1 as (G1 & E & RG1). rewrite E. cbn [bind]. clear E.
  pose proof (rescaled_wf _ _ _ RG1 WG) as WG1. pose proof (rescaledA_wf _ _ _ _ RA1 WA) as WA1.
  assert (EA2: exists A2, mapA A1 (equilibrate_cols x3) = Some A2 /\ rescaledA (fun _ c v => v / sqv (x2f c)) A1 A2).
  { destruct A1 as [A1|]; cbn; [|exists None; cbn; auto]. destruct WA1 as [WA1 EA].
    destruct (equilibrate_cols_eq x3 (fun i => sqv (x2f i)) A1 WA1) as (A2 & E & R); [rewrite EA; auto|]. rewrite E. exists (Some A2). cbn. auto. }
  destruct EA2 as (A2 & E & RA2). rewrite E. cbn [bind]. clear E.
  assert (EG2: exists G2, (if Nat.ltb 0 (sp_m G) then equilibrate_cols x3 G1 else Some G1) = Some G2 /\ rescaled (fun _ c v => v / sqv (x2f c)) G1 G2).
  { destruct (Nat.ltb_spec 0 (sp_m G)).
    - apply (equilibrate_cols_eq x3 _ G1 WG1). rewrite (rs_n _ _ _ RG1). auto.
    - exists G1. split; auto. apply rescaled_empty; auto. rewrite (rs_m _ _ _ RG1). lia. }
  destruct EG2 as (G2 & E & RG2). rewrite E. cbn [bind]. clear E.
  destruct (mul_all_eq _ _ _ _ _ Vx3 Hx) as (xe' & E & Lx & Vx & _). rewrite E. cbn [bind]. clear E.
  destruct (mul_all_eq _ _ _ _ _ Va3 HAe) as (ae' & E & La & Va & _). rewrite E. cbn [bind]. clear E.
  destruct (mul_all_eq _ _ _ _ _ Vg3 HG) as (ge' & E & Lg & Vg & _). rewrite E. cbn [bind]. clear E.
  exists A2, G2, xe', ae', ge', (fun i => sqv (x2f i)), (fun i => sqv (a1f i)), (fun i => sqv (g2f i)).
  split; [auto|]. split; [auto|]. split; [auto|]. split; [auto|].
  split; [exact (rescaledA_trans _ _ _ _ _ RA1 RA2)|]. split; [exact (rescaled_trans _ _ _ _ _ RG1 RG2)|].
  split; [auto|]. split; [auto|]. split; [auto|]. split; [auto|]. split; [auto|]. split; [auto|].
  split; [destruct CG as [C1 C2]; split; intros; f_equal; eauto|]. split.
  - apply (rescaled_entries _ Q _ _ WG (rescaled_trans _ _ _ _ _ RG1 RG2)); auto.
  - apply (rescaledA_entries _ Q _ _ _ WA (rescaledA_trans _ _ _ _ _ RA1 RA2)); auto.
Qed.

(* the whole routine; xs, As, Gs are the factors of the three iterations *)
Definition ruiz_scale (a1 x1 a2 x2 a3 x3 : nat -> F) (r c : nat) (v : F) : F := v / a1 r / x1 c / a2 r / x2 c / a3 r / x3 c.
Definition ruiz_prod (x1 x2 x3 : nat -> F) (i : nat) : F := f1 * x1 i * x2 i * x3 i.

Lemma set_equilibration_eq C A G b h xe Ae Ge bf hf : wf_sp G -> wfA A (sp_n G) -> entries Q G -> entriesA Q A -> sp_m G = msize C ->
  (sp_n G <= length xe)%nat -> (rowsA A <= length Ae)%nat -> (sp_m G <= length Ge)%nat ->
  vec b (rowsA A) bf -> vec h (sp_m G) hf ->
  exists A' G' b' h' xe' Ae' Ge' x1 x2 x3 a1 a2 a3 g1 g2 g3,
    set_equilibration C A G b h (xe, Ae, Ge) = Some (A', G', b', h', (xe', Ae', Ge')) /\
    length xe' = length xe /\ length Ae' = length Ae /\ length Ge' = length Ge /\
    rescaledA (ruiz_scale a1 x1 a2 x2 a3 x3) A A' /\ rescaled (ruiz_scale g1 x1 g2 x2 g3 x3) G G' /\
    vec xe' (sp_n G) (ruiz_prod x1 x2 x3) /\ vec Ae' (rowsA A) (ruiz_prod a1 a2 a3) /\ vec Ge' (sp_m G) (ruiz_prod g1 g2 g3) /\
    (length b' = length b /\ vec b' (rowsA A) (fun i => bf i / ruiz_prod a1 a2 a3 i) /\ forall i, (rowsA A <= i)%nat -> get b' i = get b i) /\
    (length h' = length h /\ vec h' (sp_m G) (fun i => hf i / ruiz_prod g1 g2 g3 i) /\ forall i, (sp_m G <= i)%nat -> get h' i = get h i) /\
    (forall i, (i < sp_n G)%nat -> P1 (x1 i) /\ P1 (x2 i) /\ P1 (x3 i)) /\
    (forall i, (i < rowsA A)%nat -> P1 (a1 i) /\ P1 (a2 i) /\ P1 (a3 i)) /\
    (forall i, (i < sp_m G)%nat -> P1 (g1 i) /\ P1 (g2 i) /\ P1 (g3 i)) /\
    conic C g1 /\ conic C g2 /\ conic C g3.
Proof.
  intros WG WA QG QA EM Lx La Lg Hb Hh. unfold set_equilibration.
  assert (ENC: colsA A G = sp_n G). { destruct A; cbn in *; tauto. }
  change (match A with Some A => sp_n A | None => sp_n G end) with (colsA A G).
  change (match A with Some A => sp_m A | None => 0%nat end) with (rowsA A). cbv zeta. rewrite ENC.
  destruct (fill_eq (sp_n G) f1 xe Lx) as (x0 & E & Lx0 & Vx0 & _). rewrite E. cbn [bind]. clear E.
  destruct (fill_eq (rowsA A) f1 Ae La) as (a0 & E & La0 & Va0 & _). rewrite E. cbn [bind]. clear E.
  destruct (fill_eq (sp_m G) f1 Ge Lg) as (g0 & E & Lg0 & Vg0 & _). rewrite E. cbn [bind]. clear E.
  unfold for_. cbn [Nat.sub for_loop].
  destruct (ruiz_iter_eq C A G x0 a0 g0 _ _ _ WG WA QG QA EM Vx0 Va0 Vg0) as (A1 & G1 & xe1 & Ae1 & Ge1 & x1 & a1 & g1 & E & Lx1 & La1 & Lg1 & RA1 & RG1 & Vx1 & Va1 & Vg1 & Px1 & Pa1 & Pg1 & C1 & QG1 & QA1).
  rewrite E. cbn [bind]. clear E.
  pose proof (rescaled_wf _ _ _ RG1 WG) as WG1. pose proof (rescaledA_wf _ _ _ _ RA1 WA) as WA1.
  pose proof (rs_n _ _ _ RG1) as EN1. pose proof (rs_m _ _ _ RG1) as EM1. pose proof (rescaledA_rows _ _ _ RA1) as ER1.
  rewrite <- EN1 in Vx1, WA1. rewrite <- ER1 in Va1. rewrite <- EM1 in Vg1.
  destruct (ruiz_iter_eq C A1 G1 xe1 Ae1 Ge1 _ _ _ WG1 WA1 QG1 QA1 ltac:(lia) Vx1 Va1 Vg1) as (A2 & G2 & xe2 & Ae2 & Ge2 & x2 & a2 & g2 & E & Lx2 & La2 & Lg2 & RA2 & RG2 & Vx2 & Va2 & Vg2 & Px2 & Pa2 & Pg2 & C2 & QG2 & QA2).
  rewrite E. cbn [bind]. clear E.
  pose proof (rescaled_wf _ _ _ RG2 WG1) as WG2. pose proof (rescaledA_wf _ _ _ _ RA2 WA1) as WA2.
  pose proof (rs_n _ _ _ RG2) as EN2. pose proof (rs_m _ _ _ RG2) as EM2. pose proof (rescaledA_rows _ _ _ RA2) as ER2.
  rewrite <- EN2 in Vx2, WA2. rewrite <- ER2 in Va2. rewrite <- EM2 in Vg2.
  destruct (ruiz_iter_eq C A2 G2 xe2 Ae2 Ge2 _ _ _ WG2 WA2 QG2 QA2 ltac:(lia) Vx2 Va2 Vg2) as (A3 & G3 & xe3 & Ae3 & Ge3 & x3 & a3 & g3 & E & Lx3 & La3 & Lg3 & RA3 & RG3 & Vx3 & Va3 & Vg3 & Px3 & Pa3 & Pg3 & C3 & QG3 & QA3).
  rewrite E. cbn [bind]. clear E.
  rewrite EN2, EN1 in Vx3, Px3. rewrite EN1 in Px2. rewrite ER2, ER1 in Va3, Pa3. rewrite ER1 in Pa2. rewrite EM2, EM1 in Vg3, Pg3. rewrite EM1 in Pg2.
  destruct (div_all_eq _ _ _ _ _ Va3 Hb) as (b' & E & Lb & Vb & Ob). rewrite E. cbn [bind]. clear E.
  destruct (div_all_eq _ _ _ _ _ Vg3 Hh) as (h' & E & Lh & Vh & Oh). rewrite E. cbn [bind]. clear E.
  exists A3, G3, b', h', xe3, Ae3, Ge3, x1, x2, x3, a1, a2, a3, g1, g2, g3.
  split; [auto|]. split; [congruence|]. split; [congruence|]. split; [congruence|].
  split. { exact (rescaledA_trans _ _ _ _ _ (rescaledA_trans _ _ _ _ _ RA1 RA2) RA3). }
  split. { exact (rescaled_trans _ _ _ _ _ (rescaled_trans _ _ _ _ _ RG1 RG2) RG3). }
  split; [exact Vx3|]. split; [exact Va3|]. split; [exact Vg3|]. split; [auto|]. split; [auto|].
  split; [auto|]. split; [auto|]. split; [auto|]. auto.
Qed.
End Ruiz.

(* memory safety of setting and unsetting, for any arithmetic *)
Lemma unset_equilibration_eq A G b h xe Ae Ge xf af gf bf hf : wf_sp G -> wfA A (sp_n G) ->
  vec xe (sp_n G) xf -> vec Ae (rowsA A) af -> vec Ge (sp_m G) gf -> vec b (rowsA A) bf -> vec h (sp_m G) hf ->
  exists A' G' b' h', unset_equilibration A G b h (xe, Ae, Ge) = Some (A', G', b', h') /\
    rescaledA (fun r c v => v * (af r * xf c)) A A' /\ rescaled (fun r c v => v * (gf r * xf c)) G G' /\
    (length b' = length b /\ vec b' (rowsA A) (fun i => bf i * af i) /\ forall i, (rowsA A <= i)%nat -> get b' i = get b i) /\
    (length h' = length h /\ vec h' (sp_m G) (fun i => hf i * gf i) /\ forall i, (sp_m G <= i)%nat -> get h' i = get h i).
Proof.
  intros WG WA Hx Ha Hg Hb Hh. unfold unset_equilibration.
  change (match A with Some A => sp_m A | None => 0%nat end) with (rowsA A). cbv zeta.
  assert (EA: exists A1, mapA A (restore Ae xe) = Some A1 /\ rescaledA (fun r c v => v * (af r * xf c)) A A1).
  { destruct A as [A|]; cbn; [|exists None; cbn; auto]. destruct WA as [WA EA].
    destruct (restore_eq Ae xe af xf A WA Ha) as (A1 & E & R); [rewrite EA; auto|]. rewrite E. exists (Some A1). cbn. auto. }
  destruct EA as (A1 & E & RA). rewrite E. cbn [bind]. clear E.
  assert (EG: exists G1, (if Nat.ltb 0 (sp_m G) then restore Ge xe G else Some G) = Some G1 /\ rescaled (fun r c v => v * (gf r * xf c)) G G1).
  { destruct (Nat.ltb_spec 0 (sp_m G)).
    - apply restore_eq; auto.
    - exists G. split; auto. apply rescaled_empty; auto. lia. }
  destruct EG as (G1 & E & RG). rewrite E. cbn [bind]. clear E.
  destruct (mul_all_eq _ _ _ _ _ Ha Hb) as (b' & E & Lb & Vb & Ob). rewrite E. cbn [bind]. clear E.
  destruct (mul_all_eq _ _ _ _ _ Hg Hh) as (h' & E & Lh & Vh & Oh). rewrite E. cbn [bind]. clear E.
  exists A1, G1, b', h'. csplit; auto.
Qed.
End Gen.
