(* Branch and bound is defined and stops: for every arithmetic, every stream of
   random numbers and every solver that returns. *)
From Coq Require Import List Arith Bool ZArith Lia Permutation.
From Verif Require Import Base Num NumI.
From Verif.Model Require Import Consts Spla Types Ecos BbTypes Bb.
From Verif.Spec Require Import Solver.
From Verif.Proofs Require Import ExitP Wlp BbNum BbP.
Import ListNotations.
Open Scope nat_scope.

Lemma wp_opt {A} (m : option A) (Q : A -> Prop) : m <> None -> (forall a, m = Some a -> Q a) -> wp m Q.
Proof. destruct m; [cbn; auto|congruence]. Qed.
Lemma wp_ex {A} (m : option A) (Q : A -> Prop) : (exists a, m = Some a) -> (forall a, m = Some a -> Q a) -> wp m Q.
Proof. intros (a & ->). cbn. auto. Qed.

Lemma defd_upd {T} (a a' : arr T) s k i v : defd a s k -> (forall j, get a' j = if j =? i then Some v else get a j) -> defd a' s k.
Proof. intros D G j Hj. rewrite G. destruct (_ =? _); eauto. Qed.

Lemma ne_firstn {A} n (l : list A) i : i < n -> nth_error (firstn n l) i = nth_error l i.
Proof. revert l i; induction n; intros [|x l] [|i] H; cbn; auto; try lia. apply IHn; lia. Qed.
Lemma ne_skipn {A} n (l : list A) i : nth_error (skipn n l) i = nth_error l (n + i).
Proof. revert l; induction n; intros l; cbn; auto. destruct l; auto. destruct i; auto. Qed.
Lemma wp_memcpy {T} n (src dst : arr T) off (Q : arr T -> Prop) : off + n <= length src -> n <= length dst ->
  (forall d, length d = length dst -> (forall i, i < n -> get d i = get src (off + i)) -> Q d) -> wp (memcpy n src off dst) Q.
Proof.
  intros A B H. unfold memcpy. destruct (Nat.leb_spec (off + n) (length src)); [|lia]. destruct (Nat.leb_spec n (length dst)); [|lia].
  cbn [andb]. apply wp_ret. assert (L: length (firstn n (skipn off src)) = n) by (rewrite firstn_length, skipn_length; lia). apply H.
  - rewrite app_length, L, skipn_length. lia.
  - intros i Hi. unfold get. rewrite nth_error_app1 by lia. rewrite ne_firstn by auto. rewrite ne_skipn. reflexivity.
Qed.
Lemma defd_len {T} (a : arr T) s k : 0 < k -> defd a s k -> s + k <= length a.
Proof. intros P D. destruct (D (k - 1) ltac:(lia)) as (v & V). apply get_lt in V. lia. Qed.

Section Safe.
Context {O : Ops} {TI : ToInt O}.
Local Notation W := (bbwork F).
Local Notation PW := (pwork F).
Variable solver : nat -> ctrlc -> PW -> option (Z * ctrlc * PW).
Variable rnd : nat -> Z.
Variable rfuel : nat.
Variables (n pe m nb ni : nat) (col : nat -> nat) (good : PW -> Prop) (sg : bbset F).
Local Notation nv := (nb + ni).
Local Notation tol := (bs_itol sg).
Local Notation mx := (Z.to_nat (bs_maxit sg)).
Local Notation conv := (convertible tol).
Hypothesis SOLVER : total_solver n pe m nb ni col tol good solver.
Hypothesis Hnv : 0 < nv.
Hypothesis Hcol : forall j, j < nv -> col j < n.
Hypothesis Hrnd : forall k, (0 <= rnd k <= RAND_MAX)%Z.
Hypothesis Hstrat : bs_strategy sg <> StrongBranching /\ bs_strategy sg <> RandomBranching.

Definition sp_ok (s : Z) (v : F) : Prop := (0 <= s < Z.of_nat nv)%Z /\ conv v.
Definition node_ok (nd : node F) : Prop :=
  sp_ok (nd_split nd) (nd_val nd) /\ ((0 <= nd_psplit nd)%Z -> sp_ok (nd_psplit nd) (nd_pval nd)).

(* k nodes have bounds *)
Record shape (d : Prop) (k it : nat) (dv : Z) (w : W) : Prop := {
  sh_nb : bb_nb w = nb; sh_ni : bb_ni w = ni; sh_stgs : bb_stgs w = sg; sh_it : bb_iter w = it; sh_dv : bb_dive w = dv;
  sh_b : forall j, j < nb -> get (bb_bidx w) j = Some (col j);
  sh_i : forall j, j < ni -> get (bb_iidx w) j = Some (col (nb + j));
  sh_nodes : forall i, i < mx -> exists nd, get (bb_nodes w) i = Some nd /\ node_ok nd;
  sh_bids : nb * mx <= length (bb_bids w); sh_bc : forall i, i < k -> defd (bb_bids w) (nb * i) nb;
  sh_iids : ni * mx * 2 <= length (bb_iids w); sh_ic : forall i, i < k -> defd (bb_iids w) (ni * i * 2) (ni * 2);
  sh_d : d -> defd (bb_tmpb w) 0 nb /\ defd (bb_tmpi w) 0 (2 * ni);
  sh_tmpb : nb <= length (bb_tmpb w); sh_tmpi : 2 * ni <= length (bb_tmpi w);
  sh_tbb : nb <= length (bb_tbb w); sh_tbi : 2 * ni <= length (bb_tbi w);
  sh_psb : defd (bb_psb w) 0 (2 * nb); sh_psi : defd (bb_psi w) 0 (2 * ni);
  sh_pcb : defd (bb_pcb w) 0 (2 * nb); sh_pci : defd (bb_pci w) 0 (2 * ni);
  sh_x : n <= length (bb_x w); sh_y : pe <= length (bb_y w); sh_z : m <= length (bb_z w); sh_s : m <= length (bb_s w);
  sh_good : good (bb_prob w)
}.

Ltac shp := intros []; constructor; bbc; auto.
Lemma shp_nodes d k it dv w ns : shape d k it dv w -> (forall i, i < mx -> exists nd, get ns i = Some nd /\ node_ok nd) -> shape d k it dv (set_bb_nodes w ns).
Proof. shp. Qed.
Lemma shp_U d k it dv w u : shape d k it dv w -> shape d k it dv (set_bb_U w u).
Proof. shp. Qed.
Lemma shp_L d k it dv w u : shape d k it dv w -> shape d k it dv (set_bb_L w u).
Proof. shp. Qed.
Lemma shp_draws d k it dv w u : shape d k it dv w -> shape d k it dv (set_bb_draws w u).
Proof. shp. Qed.
Lemma shp_tbb d k it dv w t : shape d k it dv w -> length t = length (bb_tbb w) -> shape d k it dv (set_bb_tbb w t).
Proof. shp. congruence. Qed.
Lemma shp_tbi d k it dv w t : shape d k it dv w -> length t = length (bb_tbi w) -> shape d k it dv (set_bb_tbi w t).
Proof. shp. congruence. Qed.
Lemma shp_tmp d k it dv w t t' : shape d k it dv w -> defd t 0 nb -> defd t' 0 (2 * ni) -> length t = length (bb_tmpb w) -> length t' = length (bb_tmpi w) ->
  shape True k it dv (set_bb_tmpi (set_bb_tmpb w t) t').
Proof. shp; congruence. Qed.
Lemma shp_weak d k it dv w : shape d k it dv w -> shape False k it dv w.
Proof. intros []; constructor; auto. tauto. Qed.
Lemma shp_bids d k it dv w t : shape d k it dv w -> length t = length (bb_bids w) -> (forall i, i < k -> defd t (nb * i) nb) -> shape d k it dv (set_bb_bids w t).
Proof. shp. congruence. Qed.
Lemma shp_iids d k it dv w t : shape d k it dv w -> length t = length (bb_iids w) -> (forall i, i < k -> defd t (ni * i * 2) (ni * 2)) -> shape d k it dv (set_bb_iids w t).
Proof. shp. congruence. Qed.
Lemma shp_run d k it dv w p t s : shape d k it dv w -> good p -> shape d k it dv (set_bb_ctrlc (set_bb_solves (set_bb_prob w p) s) t).
Proof. shp. Qed.

Definition xok (p : PW) : Prop := (forall i, i < n -> exists v, get (w_x p) i = Some v) /\
  (forall j y, j < nv -> get (w_x p) (col j) = Some y -> conv y /\ (j < nb -> char_sized y)).

(* ------------------------------------------------------------ relaxations *)

Lemma upd_h_ok (p : PW) i v : good p -> i < 2 * nv -> wp (ecos_updateDataEntry_h p i v) good.
Proof.
  intros G Hi. destruct (ts_dims _ _ _ _ _ _ _ _ _ SOLVER p G) as (_ & _ & _ & Lh & Ge & _). destruct (Ge i Hi) as (e & Ee).
  unfold ecos_updateDataEntry_h. apply wp_bind. eapply wp_get; [exact Ee|]. apply wp_bind. apply wp_set; [lia|].
  intros h L _. apply wp_ret. eapply ts_h; eauto.
Qed.

Lemma set_prob_ok bid iid (p : PW) : (forall j, j < nb -> exists b, bid j = Some b) -> (forall k, k < 2 * ni -> exists b, iid k = Some b) ->
  good p -> wp (set_prob nb ni bid iid p) good.
Proof.
  intros B I G. unfold set_prob. apply wp_bind. apply wp_for with (Inv := fun _ p => good p); [lia|exact G| |].
  - intros i q Hi Gq. destruct (B i ltac:(lia)) as (b & ->). cbn [bind].
    assert (Two: forall a c, wp (bind (ecos_updateDataEntry_h q (2 * i) a) (fun p => ecos_updateDataEntry_h p (2 * i + 1) c)) good).
    { intros a c. apply wp_bind. eapply wp_conseq; [apply upd_h_ok; [exact Gq|lia]|]. intros q' G'. apply upd_h_ok; [exact G'|lia]. }
    destruct (_ =? _)%Z; [apply Two|]. destruct (_ =? _)%Z; [apply Two|]. destruct (_ =? _)%Z; [apply Two|]. apply wp_ret. exact Gq.
  - intros q Gq. apply wp_for with (Inv := fun _ p => good p); [lia|exact Gq| |auto].
    intros i q' Hi Gq'. destruct (I (2 * i) ltac:(lia)) as (a & ->). cbn [bind]. apply wp_bind.
    eapply wp_conseq; [apply upd_h_ok; [exact Gq'|lia]|]. intros q2 G2. cbv beta. destruct (I (2 * i + 1) ltac:(lia)) as (b & ->). cbn [bind].
    apply upd_h_ok; [exact G2|lia].
Qed.

Definition ran (w w' : W) : Prop := exists p t s, w' = set_bb_ctrlc (set_bb_solves (set_bb_prob w p) s) t /\ good p /\ xok p.

Lemma run_ok d k it dv bid iid w : shape d k it dv w -> (forall j, j < nb -> exists b, bid j = Some b) -> (forall k, k < 2 * ni -> exists b, iid k = Some b) ->
  wp (run_relax solver bid iid w) (fun '(code, w') => ran w w').
Proof.
  intros S B I. unfold run_relax. rewrite (sh_nb _ _ _ _ _ S), (sh_ni _ _ _ _ _ S). apply wp_bind.
  eapply wp_conseq; [apply set_prob_ok; [exact B|exact I|exact (sh_good _ _ _ _ _ S)]|]. intros p G. cbv beta. apply wp_bind.
  destruct (ts_solve _ _ _ _ _ _ _ _ _ SOLVER (bb_solves w) (bb_ctrlc w) p G) as (code & t' & p' & -> & G' & X1 & X2).
  apply wp_ret. cbn match. apply wp_ret. exists p', t', (Datatypes.S (bb_solves w)). split; [reflexivity|]. split; [exact G'|]. split; [exact X1|exact X2].
Qed.
Lemma ran_shape d k it dv w w' : shape d k it dv w -> ran w w' -> shape d k it dv w' /\ xok (bb_prob w').
Proof. intros S (p & t & s & -> & G & X). split; [apply shp_run; auto|exact X]. Qed.

Lemma obj_ok (w : W) : good (bb_prob w) -> xok (bb_prob w) -> wp (obj w) (fun _ => True).
Proof.
  intros G [X _]. destruct (ts_dims _ _ _ _ _ _ _ _ _ SOLVER _ G) as (En & _ & _ & _ & _ & C & _). unfold obj, eddot. rewrite En.
  apply wp_for with (Inv := fun _ _ => True); [lia|auto| |auto]. intros i s Hi _.
  destruct (X i ltac:(lia)) as (v & ->). destruct (C i ltac:(lia)) as (u & ->). cbn. auto.
Qed.

(* --------------------------------------------------------------- numbers *)

Lemma col_ok d k it dv w i : shape d k it dv w -> i < nv -> var_col w i = Some (col i).
Proof.
  intros S Hi. unfold var_col. rewrite (sh_nb _ _ _ _ _ S). destruct (Nat.ltb_spec i nb); [apply (sh_b _ _ _ _ _ S); auto|].
  rewrite (sh_i _ _ _ _ _ S) by lia. f_equal. f_equal. lia.
Qed.
Lemma x_ok p i : xok p -> i < nv -> exists y, get (w_x p) (col i) = Some y /\ conv y /\ (i < nb -> char_sized y).
Proof. intros [X1 X2] Hi. destruct (X1 (col i) (Hcol i Hi)) as (y & Ey). exists y. split; [exact Ey|]. exact (X2 i y Hi Ey). Qed.

Lemma near_ok (w : W) y : bb_stgs w = sg -> conv y -> wp (near_int w y) (fun _ => True).
Proof.
  intros E (A & B & _). unfold near_int. rewrite E. apply wp_bind. apply wp_opt; [exact A|]. intros fl _.
  destruct (float_eqls _ _ _); [apply wp_ret; auto|]. apply wp_bind. apply wp_opt; [exact B|]. intros ce _. apply wp_ret. auto.
Qed.

(* ----------------------------------------------------------------- rules *)

Lemma most_ok d k it dv w sp : shape d k it dv w -> xok (bb_prob w) -> sp_ok (fst sp) (snd sp) ->
  wp (most_infeasible w sp) (fun '(sp', w') => sp_ok (fst sp') (snd sp') /\ w' = w).
Proof.
  intros S X P. unfold most_infeasible. apply wp_bind. unfold nvars. rewrite (sh_nb _ _ _ _ _ S), (sh_ni _ _ _ _ _ S), (sh_stgs _ _ _ _ _ S).
  apply wp_for with (Inv := fun _ (s : split * F) => sp_ok (fst (fst s)) (snd (fst s))); [lia|exact P| |].
  - intros i [s hg] Hi Ps. cbn [fst snd] in Ps. rewrite (col_ok _ _ _ _ _ i S ltac:(lia)). cbn [bind].
    destruct (x_ok _ i X ltac:(lia)) as (y & Ey & Cy & _). rewrite Ey. cbn [bind].
    apply wp_bind. apply (wp_conseq _ (fun _ => True)).
    + destruct (i <? nb); [apply wp_ret; auto|]. apply wp_bind. apply wp_opt; [apply Cy|]. intros; apply wp_ret; auto.
    + intros x _. destruct (flt _ _); apply wp_ret; cbn [fst snd]; [|exact Ps]. split; [lia|exact Cy].
  - intros [s hg] H. apply wp_ret. split; [exact H|reflexivity].
Qed.

Lemma perm_get l r : Permutation l (seq 0 nv) -> r < nv -> exists i, get (arr_of l) r = Some i /\ i < nv.
Proof.
  intros P Hr. assert (L: length l = nv) by (rewrite (Permutation_length P), seq_length; auto).
  destruct (nth_error l r) as [i|] eqn:E; [|apply nth_error_None in E; lia]. exists i. rewrite get_arr_of. split; [exact E|].
  apply nth_error_In in E. apply (Permutation_in _ P) in E. apply in_seq in E. lia.
Qed.

Lemma avg_ok (sums : arr F) (cnts : arr Z) c up : defd sums 0 (2 * c) -> defd cnts 0 (2 * c) -> up < 2 ->
  wp (avg_pseudocost sums cnts c up) (fun _ => True).
Proof.
  intros Ds Dc Hu. unfold avg_pseudocost. apply wp_bind. apply wp_for with (Inv := fun _ _ => True); [lia|auto| |].
  - intros i [s t] Hi _. destruct (Dc (2 * i + up) ltac:(lia)) as (v & V). cbn [plus] in V. rewrite V. cbn [bind].
    destruct (_ <? _)%Z; [|apply wp_ret; auto]. destruct (Ds (2 * i + up) ltac:(lia)) as (v' & V'). cbn [plus] in V'. rewrite V'. cbn. auto.
  - intros [s t] _. apply wp_ret. auto.
Qed.
Lemma psi1_ok (sums : arr F) (cnts : arr Z) c i up : defd sums 0 (2 * c) -> defd cnts 0 (2 * c) -> up < 2 -> i < c ->
  wp (psi1 sums cnts c i up) (fun _ => True).
Proof.
  intros Ds Dc Hu Hi. unfold psi1. destruct (Dc (2 * i + up) ltac:(lia)) as (v & V). cbn [plus] in V. rewrite V. cbn [bind].
  destruct (_ =? _)%Z; [apply avg_ok; auto|]. destruct (Ds (2 * i + up) ltac:(lia)) as (v' & V'). cbn [plus] in V'. rewrite V'. cbn. auto.
Qed.
Lemma score_ok d k it dv w i y : shape d k it dv w -> i < nv -> conv y -> wp (pseudo_score w i y) (fun _ => True).
Proof.
  intros S Hi C. unfold pseudo_score, pseudocost_psi. rewrite (sh_nb _ _ _ _ _ S), (sh_ni _ _ _ _ _ S), (sh_stgs _ _ _ _ _ S).
  apply wp_bind. apply (wp_conseq _ (fun _ => True)).
  - destruct (Nat.ltb_spec i nb).
    + apply wp_bind. eapply wp_conseq; [apply psi1_ok; [apply (sh_psb _ _ _ _ _ S)|apply (sh_pcb _ _ _ _ _ S)|lia|lia]|]. intros dn _. cbv beta.
      apply wp_bind. eapply wp_conseq; [apply psi1_ok; [apply (sh_psb _ _ _ _ _ S)|apply (sh_pcb _ _ _ _ _ S)|lia|lia]|]. intros u _. apply wp_ret. auto.
    + apply wp_bind. eapply wp_conseq; [apply psi1_ok; [apply (sh_psi _ _ _ _ _ S)|apply (sh_pci _ _ _ _ _ S)|lia|lia]|]. intros dn _. cbv beta.
      apply wp_bind. eapply wp_conseq; [apply psi1_ok; [apply (sh_psi _ _ _ _ _ S)|apply (sh_pci _ _ _ _ _ S)|lia|lia]|]. intros u _. apply wp_ret. auto.
  - intros [dn u] _. apply wp_bind. apply wp_opt; [apply C|]. intros fl _. apply wp_ret. auto.
Qed.

Lemma shuffled d k it dv w : shape d k it dv w -> wp (get_shuffled_array rnd (nvars w) w) (fun '(a, w') =>
  (exists l, a = arr_of l /\ Permutation l (seq 0 nv)) /\ shape d k it dv w' /\ bb_prob w' = bb_prob w).
Proof.
  intros S. eapply wp_conseq; [apply shuffle_ok; exact Hrnd|]. intros [a w'] [L (dd & ->)]. unfold nvars in L.
  rewrite (sh_nb _ _ _ _ _ S), (sh_ni _ _ _ _ _ S) in L. split; [exact L|]. split; [apply shp_draws; exact S|reflexivity].
Qed.

Lemma pseudo_ok d k it dv w sp : shape d k it dv w -> xok (bb_prob w) -> sp_ok (fst sp) (snd sp) ->
  wp (pseudocost_branching rnd w sp) (fun '(sp', w') => sp_ok (fst sp') (snd sp') /\ shape d k it dv w' /\ xok (bb_prob w')).
Proof.
  intros S X P. unfold pseudocost_branching. apply wp_bind. eapply wp_conseq; [apply (shuffled _ _ _ _ _ S)|].
  intros [ord w1] ((l & -> & Pl) & S1 & E1). cbn match. apply wp_bind. unfold nvars. rewrite (sh_nb _ _ _ _ _ S1), (sh_ni _ _ _ _ _ S1).
  apply wp_for with (Inv := fun _ (s : split * F) => sp_ok (fst (fst s)) (snd (fst s))); [lia|exact P| |].
  - intros r [s hg] Hr Ps. cbn [fst snd] in Ps. destruct (perm_get l r Pl ltac:(lia)) as (i & Ei & Hi). rewrite Ei. cbn [bind].
    rewrite (col_ok _ _ _ _ _ i S1 Hi). cbn [bind]. rewrite E1. destruct (x_ok _ i X Hi) as (y & Ey & Cy & _). rewrite Ey. cbn [bind].
    apply wp_bind. eapply wp_conseq; [apply near_ok; [apply (sh_stgs _ _ _ _ _ S1)|exact Cy]|]. intros b _. cbv beta.
    destruct b; [apply wp_ret; exact Ps|]. apply wp_bind. eapply wp_conseq; [apply (score_ok _ _ _ _ _ i y S1 Hi Cy)|]. intros sc _. cbv beta.
    destruct (flt _ _); apply wp_ret; cbn [fst snd]; [|exact Ps]. split; [lia|exact Cy].
  - intros [s hg] H. apply wp_ret. split; [exact H|]. split; [exact S1|]. rewrite E1. exact X.
Qed.

(* observations *)
Lemma observe_ok d k it dv w bv i v : shape d k it dv w -> i < 2 * (if bv : bool then nb else ni) ->
  wp (observe w bv i v) (fun w' => shape d k it dv w' /\ bb_prob w' = bb_prob w /\ bb_tbb w' = bb_tbb w /\ bb_tbi w' = bb_tbi w).
Proof.
  intros S Hi. unfold observe. pose proof S as [].
  destruct bv.
  - destruct (sh_psb0 i Hi) as (s & Es). cbn [plus] in Es. rewrite Es. cbn [bind]. apply wp_bind. apply wp_set; [eapply get_lt; eauto|]. intros s2 _ Gs.
    destruct (sh_pcb0 i Hi) as (u & Eu). cbn [plus] in Eu. rewrite Eu. cbn [bind]. apply wp_bind. apply wp_set; [eapply get_lt; eauto|]. intros u2 _ Gu.
    apply wp_ret. split; [|auto]. constructor; bbc; auto; eapply defd_upd; eauto.
  - destruct (sh_psi0 i Hi) as (s & Es). cbn [plus] in Es. rewrite Es. cbn [bind]. apply wp_bind. apply wp_set; [eapply get_lt; eauto|]. intros s2 _ Gs.
    destruct (sh_pci0 i Hi) as (u & Eu). cbn [plus] in Eu. rewrite Eu. cbn [bind]. apply wp_bind. apply wp_set; [eapply get_lt; eauto|]. intros u2 _ Gu.
    apply wp_ret. split; [|auto]. constructor; bbc; auto; eapply defd_upd; eauto.
Qed.

(* strong branching of one candidate *)
Definition tmp_ok (w : W) : Prop := defd (bb_tbb w) 0 nb /\ defd (bb_tbi w) 0 (2 * ni).

Lemma calc_ok d k it dv w : shape d k it dv w -> tmp_ok w -> wp (calc_tmp solver w) (fun '(q, code, w') => ran w w').
Proof.
  intros S [T1 T2]. unfold calc_tmp. apply wp_bind. eapply wp_conseq; [apply (run_ok _ _ _ _ _ _ _ S); [exact T1|exact T2]|].
  intros [code w'] R. destruct (ran_shape _ _ _ _ _ _ S R) as [S' X']. cbn match. apply wp_bind.
  eapply wp_conseq; [apply obj_ok; [apply (sh_good _ _ _ _ _ S')|exact X']|]. intros q _. apply wp_ret. exact R.
Qed.

Definition strong (d : Prop) (k it : nat) (dv : Z) (w w' : W) : Prop := shape d k it dv w' /\ xok (bb_prob w') /\ tmp_ok w'.

Lemma check_bool_ok d k it dv w code relax idx other i (sp : split) cur : shape d k it dv w -> xok (bb_prob w) -> tmp_ok w -> idx < k -> k <= mx -> i < nb ->
  sp_ok (fst sp) (snd sp) -> wp (check_infeasible_bool w code relax idx other i sp cur) (fun '(b, sp', w') =>
    strong d k it dv w w' /\ sp_ok (fst sp') (snd sp')).
Proof.
  intros S X T Hk Hm Hi P. unfold check_infeasible_bool. destruct (_ || _)%bool.
  - pose proof (sh_nb _ _ _ _ _ S) as Enb. rewrite Enb. apply wp_bind. apply wp_set; [pose proof (sh_bids _ _ _ _ _ S); nia|]. intros b Lb Gb.
    apply wp_bind. apply wp_set; [pose proof (sh_tbb _ _ _ _ _ S); lia|]. intros t Lt Gt. apply wp_ret. split.
    + split; [|split; [exact X|]].
      * apply shp_tbb; [|exact Lt]. apply shp_bids; [exact S|exact Lb|]. intros j Hj. eapply defd_upd; [apply (sh_bc _ _ _ _ _ S); auto|exact Gb].
      * split; [|apply T]. bbc. eapply defd_upd; [apply T|exact Gt].
    + destruct P as [P1 P2]. destruct (Z.eqb_spec (fst sp) (-1)); [lia|]. split; auto.
  - apply wp_ret. split; [|exact P]. split; [exact S|]. split; [exact X|exact T].
Qed.
Lemma check_int_ok d k it dv w code relax idx fx i (sp : split) cur : shape d k it dv w -> xok (bb_prob w) -> tmp_ok w -> idx < k -> k <= mx -> i < ni -> conv cur ->
  sp_ok (fst sp) (snd sp) -> wp (check_infeasible_int w code relax idx fx i sp cur) (fun '(b, sp', w') =>
    strong d k it dv w w' /\ sp_ok (fst sp') (snd sp')).
Proof.
  intros S X T Hk Hm Hi C P. unfold check_infeasible_int. destruct (_ || _)%bool.
  - pose proof (sh_ni _ _ _ _ _ S) as Eni. rewrite Eni, (sh_stgs _ _ _ _ _ S). apply wp_bind. apply (wp_conseq _ (fun _ => True)).
    { destruct fx; [apply wp_bind|]; apply wp_opt; try apply C; intros; try apply wp_ret; auto. }
    intros v _. set (kk := 2 * i + (if fx then 0 else 1)). assert (Hkk: kk < 2 * ni) by (unfold kk; destruct fx; lia).
    apply wp_bind. apply wp_set; [pose proof (sh_iids _ _ _ _ _ S); nia|]. intros b Lb Gb.
    apply wp_bind. apply wp_set; [pose proof (sh_tbi _ _ _ _ _ S); lia|]. intros t Lt Gt. apply wp_ret. split.
    + split; [|split; [exact X|]].
      * apply shp_tbi; [|exact Lt]. apply shp_iids; [exact S|exact Lb|]. intros j Hj. eapply defd_upd; [apply (sh_ic _ _ _ _ _ S); auto|exact Gb].
      * split; [apply T|]. bbc. eapply defd_upd; [apply T|exact Gt].
    + destruct P as [P1 P2]. destruct (Z.eqb_spec (fst sp) (-1)); [lia|]. split; auto.
  - apply wp_ret. split; [|exact P]. split; [exact S|]. split; [exact X|exact T].
Qed.

Lemma strong_bool_ok d k it dv w (sp : split) idx i cur : shape d k it dv w -> tmp_ok w -> idx < k -> k <= mx -> i < nb -> sp_ok (fst sp) (snd sp) ->
  wp (strong_branch_bool solver w sp idx i cur) (fun '(_, sp', w') => strong d k it dv w w' /\ sp_ok (fst sp') (snd sp')).
Proof.
  intros S T Hk Hm Hi P. unfold strong_branch_bool. destruct (proj1 T i Hi) as (orig & Eo). cbn [plus] in Eo. rewrite Eo. cbn [bind].
  apply wp_bind. apply wp_set; [eapply get_lt; eauto|]. intros t1 L1 G1.
  assert (S1: shape d k it dv (set_bb_tbb w t1)) by (apply shp_tbb; auto).
  assert (T1: tmp_ok (set_bb_tbb w t1)) by (split; [eapply defd_upd; [apply T|exact G1]|apply T]).
  apply wp_bind. eapply wp_conseq; [apply (calc_ok _ _ _ _ _ S1 T1)|]. intros [[qd code] w1] (p1 & tt1 & s1 & -> & Gp1 & X1). cbn match.
  apply wp_bind. eapply wp_conseq; [apply check_bool_ok; [apply shp_run; [exact S1|exact Gp1]|exact X1|exact T1|exact Hk|exact Hm|exact Hi|exact P]|].
  intros [[inf sp1] w2] ((S2 & X2 & T2) & P2). cbn match. destruct inf; [apply wp_ret; split; [split; [exact S2|split; [exact X2|exact T2]]|exact P2]|].
  apply wp_bind. apply wp_set; [pose proof (sh_tbb _ _ _ _ _ S2); lia|]. intros t3 L3 G3.
  assert (S3: shape d k it dv (set_bb_tbb w2 t3)) by (apply shp_tbb; auto).
  assert (T3: tmp_ok (set_bb_tbb w2 t3)) by (split; [eapply defd_upd; [apply T2|exact G3]|apply T2]).
  apply wp_bind. eapply wp_conseq; [apply (calc_ok _ _ _ _ _ S3 T3)|]. intros [[qu code2] w3] (p3 & tt3 & s3 & -> & Gp3 & X3). cbn match.
  apply wp_bind. eapply wp_conseq; [apply check_bool_ok; [apply shp_run; [exact S3|exact Gp3]|exact X3|exact T3|exact Hk|exact Hm|exact Hi|exact P2]|].
  intros [[inf2 sp3] w4] ((S4 & X4 & T4) & P4). cbn match. destruct inf2; [apply wp_ret; split; [split; [exact S4|split; [exact X4|exact T4]]|exact P4]|].
  apply wp_bind. apply wp_set; [pose proof (sh_tbb _ _ _ _ _ S4); lia|]. intros t5 L5 G5. apply wp_ret. split; [|exact P4].
  split; [apply shp_tbb; auto|]. split; [exact X4|]. split; [eapply defd_upd; [apply T4|exact G5]|apply T4].
Qed.

Lemma strong_int_ok d k it dv w (sp : split) idx i cur : shape d k it dv w -> tmp_ok w -> idx < k -> k <= mx -> i < ni -> conv cur -> sp_ok (fst sp) (snd sp) ->
  wp (strong_branch_int solver w sp idx i cur) (fun '(_, sp', w') => strong d k it dv w w' /\ sp_ok (fst sp') (snd sp')).
Proof.
  intros S T Hk Hm Hi C P. unfold strong_branch_int. rewrite (sh_stgs _ _ _ _ _ S).
  destruct (proj2 T (2 * i + 1) ltac:(lia)) as (orig & Eo). cbn [plus] in Eo. rewrite Eo. cbn [bind].
  apply wp_bind. apply wp_opt; [apply C|]. intros fl _.
  apply wp_bind. apply wp_set; [eapply get_lt; eauto|]. intros t1 L1 G1.
  assert (S1: shape d k it dv (set_bb_tbi w t1)) by (apply shp_tbi; auto).
  assert (T1: tmp_ok (set_bb_tbi w t1)) by (split; [apply T|eapply defd_upd; [apply T|exact G1]]).
  apply wp_bind. eapply wp_conseq; [apply (calc_ok _ _ _ _ _ S1 T1)|]. intros [[qd code] w1] (p1 & tt1 & s1 & -> & Gp1 & X1). cbn match.
  pose proof (shp_run _ _ _ _ _ p1 tt1 s1 S1 Gp1) as S1'. revert S1'. set (w1 := set_bb_ctrlc _ tt1). intros S1'.
  assert (T1': tmp_ok w1) by exact T1. assert (X1': xok (bb_prob w1)) by exact X1. clearbody w1.
  apply wp_bind. apply wp_set; [pose proof (sh_tbi _ _ _ _ _ S1'); lia|]. intros t2 L2 G2.
  apply wp_bind. eapply wp_conseq; [apply check_int_ok; [apply shp_tbi; [exact S1'|exact L2]|exact X1'| |exact Hk|exact Hm|exact Hi|exact C|exact P]|].
  { split; [apply T1'|eapply defd_upd; [apply T1'|exact G2]]. }
  intros [[inf sp1] w2] ((S2 & X2 & T2) & P2). cbn match. destruct inf; [apply wp_ret; split; [split; [exact S2|split; [exact X2|exact T2]]|exact P2]|].
  destruct (proj2 T2 (2 * i) ltac:(lia)) as (orig2 & Eo2). cbn [plus] in Eo2. rewrite Eo2. cbn [bind].
  apply wp_bind. apply wp_opt; [apply C|]. intros ce _.
  apply wp_bind. apply wp_set; [pose proof (sh_tbi _ _ _ _ _ S2); lia|]. intros t3 L3 G3.
  assert (S3: shape d k it dv (set_bb_tbi w2 t3)) by (apply shp_tbi; auto).
  assert (T3: tmp_ok (set_bb_tbi w2 t3)) by (split; [apply T2|eapply defd_upd; [apply T2|exact G3]]).
  apply wp_bind. eapply wp_conseq; [apply (calc_ok _ _ _ _ _ S3 T3)|]. intros [[qu code2] w3] (p3 & tt3 & s3 & -> & Gp3 & X3). cbn match.
  pose proof (shp_run _ _ _ _ _ p3 tt3 s3 S3 Gp3) as S3'. revert S3'. set (w3 := set_bb_ctrlc _ tt3). intros S3'.
  assert (T3': tmp_ok w3) by exact T3. assert (X3': xok (bb_prob w3)) by exact X3. clearbody w3.
  apply wp_bind. apply wp_set; [pose proof (sh_tbi _ _ _ _ _ S3'); lia|]. intros t4 L4 G4.
  apply wp_bind. eapply wp_conseq; [apply check_int_ok; [apply shp_tbi; [exact S3'|exact L4]|exact X3'| |exact Hk|exact Hm|exact Hi|exact C|exact P2]|].
  { split; [apply T3'|eapply defd_upd; [apply T3'|exact G4]]. }
  intros [[inf2 sp3] w4] ((S4 & X4 & T4) & P4). cbn match. destruct inf2; apply wp_ret; (split; [split; [exact S4|split; [exact X4|exact T4]]|exact P4]).
Qed.

Lemma strong_var_ok d k it dv w (sp : split) idx i cur : shape d k it dv w -> tmp_ok w -> idx < k -> k <= mx -> i < nv -> conv cur -> sp_ok (fst sp) (snd sp) ->
  wp (strong_branch_var solver w sp idx i cur) (fun '(_, sp', w') => strong d k it dv w w' /\ sp_ok (fst sp') (snd sp')).
Proof.
  intros S T Hk Hm Hi C P. unfold strong_branch_var. rewrite (sh_nb _ _ _ _ _ S). destruct (Nat.ltb_spec i nb).
  - apply strong_bool_ok; auto.
  - apply strong_int_ok; auto. lia.
Qed.

Lemma init_strong_ok d k it dv w idx : shape d k it dv w -> idx < k -> k <= mx ->
  wp (initialize_strong_branching w idx) (fun w' => shape d k it dv w' /\ tmp_ok w' /\ bb_prob w' = bb_prob w).
Proof.
  intros S Hk Hm. unfold initialize_strong_branching. rewrite (sh_nb _ _ _ _ _ S), (sh_ni _ _ _ _ _ S). apply wp_bind.
  apply wp_memcpy; [pose proof (sh_bids _ _ _ _ _ S); nia|apply (sh_tbb _ _ _ _ _ S)|]. intros t1 L1 G1. apply wp_bind.
  apply wp_memcpy; [pose proof (sh_iids _ _ _ _ _ S); nia|apply (sh_tbi _ _ _ _ _ S)|]. intros t2 L2 G2. apply wp_ret.
  split; [apply shp_tbi; [apply shp_tbb; auto|exact L2]|]. split; [|reflexivity]. split.
  - intros j Hj. cbn [plus]. bbc. rewrite G1 by auto. apply (sh_bc _ _ _ _ _ S idx Hk j Hj).
  - intros j Hj. cbn [plus]. bbc. rewrite G2 by auto. apply (sh_ic _ _ _ _ _ S idx Hk j). lia.
Qed.

Lemma is_reliable_ok d k it dv w i : shape d k it dv w -> i < nv -> wp (is_reliable w i) (fun _ => True).
Proof.
  intros S Hi. unfold is_reliable. rewrite (sh_nb _ _ _ _ _ S). destruct (Nat.ltb_spec i nb).
  - destruct (sh_pcb _ _ _ _ _ S (2 * i) ltac:(lia)) as (a & A). cbn [plus] in A. rewrite A. cbn [bind].
    destruct (sh_pcb _ _ _ _ _ S (2 * i + 1) ltac:(lia)) as (b & B). cbn [plus] in B. rewrite B. destruct (_ <? _)%Z; cbn; auto.
  - destruct (sh_pci _ _ _ _ _ S (2 * (i - nb)) ltac:(lia)) as (a & A). cbn [plus] in A. rewrite A. cbn [bind].
    destruct (sh_pci _ _ _ _ _ S (2 * (i - nb) + 1) ltac:(lia)) as (b & B). cbn [plus] in B. rewrite B. destruct (_ <? _)%Z; cbn; auto.
Qed.

Lemma rel_ok d k it dv w sp idx : shape d k it dv w -> xok (bb_prob w) -> idx < k -> k <= mx -> sp_ok (fst sp) (snd sp) ->
  wp (reliability_branching solver rnd w sp idx) (fun '(sp', w') => sp_ok (fst sp') (snd sp') /\ shape d k it dv w' /\ xok (bb_prob w')).
Proof.
  intros S X Hk Hm P. unfold reliability_branching. apply wp_bind. eapply wp_conseq; [apply (shuffled _ _ _ _ _ S)|].
  intros [ord w1] ((l & -> & Pl) & S1 & E1). cbn match. apply wp_bind.
  assert (X1: xok (bb_prob w1)) by (rewrite E1; exact X).
  replace (nvars w1) with nv by (unfold nvars; rewrite (sh_nb _ _ _ _ _ S1), (sh_ni _ _ _ _ _ S1); reflexivity).
  apply wp_for with (Inv := fun _ '(sp, high, st, w) => sp_ok (fst sp) (snd sp) /\ shape d k it dv w /\ xok (bb_prob w) /\
    match st with None => True | Some (q, xs) => tmp_ok w /\ forall j, j < nv -> exists y, get xs (col j) = Some y /\ conv y end).
  - lia.
  - auto.
  - intros r [[[s hg] st] w2] Hr (Ps & S2 & X2 & Hst). destruct (perm_get l r Pl ltac:(lia)) as (i & Ei & Hi). rewrite Ei. cbn [bind].
    rewrite (col_ok _ _ _ _ _ i S2 Hi). cbn [bind]. destruct (x_ok _ i X2 Hi) as (y & Ey & Cy & _). rewrite Ey. cbn [bind].
    apply wp_bind. eapply wp_conseq; [apply near_ok; [apply (sh_stgs _ _ _ _ _ S2)|exact Cy]|]. intros b _. cbv beta.
    destruct b; [apply wp_ret; auto|]. apply wp_bind. eapply wp_conseq; [apply (is_reliable_ok _ _ _ _ _ i S2 Hi)|]. intros rel _. cbv beta.
    apply wp_bind.
    apply (wp_conseq _ (fun '(_, sp, st, w) => sp_ok (fst sp) (snd sp) /\ shape d k it dv w /\ xok (bb_prob w) /\
      match st with None => True | Some (q, xs) => tmp_ok w /\ forall j, j < nv -> exists y, get xs (col j) = Some y /\ conv y end)).
    + destruct rel.
      * apply wp_bind. eapply wp_conseq; [apply (score_ok _ _ _ _ _ i y S2 Hi Cy)|]. intros sc _. apply wp_ret. auto.
      * apply wp_bind.
        apply (wp_conseq _ (fun '(q, xs, w) => shape d k it dv w /\ xok (bb_prob w) /\ tmp_ok w /\
           forall j, j < nv -> exists y, get xs (col j) = Some y /\ conv y)).
        -- destruct st as [[q xs]|]; [apply wp_ret; intuition|].
           apply wp_bind. eapply wp_conseq; [apply (init_strong_ok _ _ _ _ _ idx S2 Hk Hm)|]. intros w3 (S3 & T3 & E3). cbv beta.
           apply wp_bind. eapply wp_conseq; [apply (calc_ok _ _ _ _ _ S3 T3)|]. intros [[q code] w4] R4. cbn match.
           destruct (ran_shape _ _ _ _ _ _ S3 R4) as [S4 X4].
           destruct (ts_dims _ _ _ _ _ _ _ _ _ SOLVER _ (sh_good _ _ _ _ _ S4)) as (En & _ & _ & _ & _ & _ & Lx & _).
           apply wp_bind. apply wp_memcpy; [lia|rewrite alloc_length; lia|]. intros xs _ Gx. apply wp_ret.
           split; [exact S4|]. split; [exact X4|]. split; [destruct R4 as (p & t & s4 & -> & _); exact T3|].
           intros j Hj. rewrite Gx by (rewrite En; apply Hcol; auto). cbn [plus]. destruct (x_ok _ j X4 Hj) as (y4 & A & B & _). eauto.
        -- intros [[q xs] w3] (S3 & X3 & T3 & Gx). cbn match. destruct (Gx i Hi) as (cur & Ec & Cc). rewrite Ec. cbn [bind].
           apply wp_bind. eapply wp_conseq; [apply (strong_var_ok _ _ _ _ _ s idx i cur S3 T3 Hk Hm Hi Cc Ps)|].
           intros [[res s2] w4] ((S4 & X4 & T4) & P4). cbn match.
           destruct res as [[qd qu]|]; [|apply wp_ret; auto].
           rewrite (sh_stgs _ _ _ _ _ S4), (sh_nb _ _ _ _ _ S4). apply wp_bind. apply wp_opt; [apply Cc|]. intros ce _.
           apply wp_bind. apply wp_opt; [apply Cc|]. intros fl _.
           assert (Hob: 2 * (if i <? nb then i else i - nb) + 1 < 2 * (if i <? nb then nb else ni)) by (destruct (Nat.ltb_spec i nb); lia).
           apply wp_bind. eapply wp_conseq; [apply (observe_ok d k it dv w4 (i <? nb)); [exact S4|lia]|]. intros w5 (S5 & E5 & E5a & E5b). cbv beta.
           apply wp_bind. eapply wp_conseq; [apply (observe_ok d k it dv w5 (i <? nb)); [exact S5|lia]|]. intros w6 (S6 & E6 & E6a & E6b). apply wp_ret.
           split; [exact P4|]. split; [exact S6|]. split; [rewrite E6, E5; exact X4|]. split; [|exact Gx].
           split; [rewrite E6a, E5a; apply T4|rewrite E6b, E5b; apply T4].
    + intros [[[sc s2] st2] w3] (P3 & S3 & X3 & H3). cbn match. destruct sc as [sc|]; [|apply wp_ret; auto].
      destruct (flt _ _); apply wp_ret; auto. split; [|auto]. cbn [fst snd]. split; [lia|exact Cy].
  - intros [[[s hg] st] w2] (Ps & S2 & X2 & _). cbn match. apply wp_ret. auto.
Qed.

Lemma choose_ok d k it dv w sp idx : shape d k it dv w -> xok (bb_prob w) -> idx < k -> k <= mx -> sp_ok (fst sp) (snd sp) ->
  wp (choose_split solver rnd rfuel w sp idx) (fun '(sp', w') => sp_ok (fst sp') (snd sp') /\ shape d k it dv w' /\ xok (bb_prob w')).
Proof.
  intros S X Hk Hm P. unfold choose_split. rewrite (sh_stgs _ _ _ _ _ S). pose proof Hstrat as [H1 H2].
  revert H1 H2. generalize (bs_strategy sg). intros st0 H1 H2. destruct st0; try congruence.
  - eapply wp_conseq; [apply (most_ok _ _ _ _ _ _ S X P)|]. intros [sp' w'] [A ->]. auto.
  - apply pseudo_ok; auto.
  - apply rel_ok; auto.
  - apply wp_ret. auto.
Qed.

(* ------------------------------------------------------------- one node *)

Lemma node_upd d k it dv w i f (Q : W -> Prop) : shape d k it dv w -> i < mx -> (forall nd, node_ok nd -> node_ok (f nd)) ->
  (forall ns, shape d k it dv (set_bb_nodes w ns) -> Q (set_bb_nodes w ns)) -> wp (upd_node w i f) Q.
Proof.
  intros S Hi Hf HQ. destruct (sh_nodes _ _ _ _ _ S i Hi) as (nd & En & On). eapply wp_upd_node; [exact En|]. intros ns L G. apply HQ.
  apply shp_nodes; [exact S|]. intros j Hj. rewrite G. destruct (Nat.eqb_spec j i) as [->|_]; [eauto|]. apply (sh_nodes _ _ _ _ _ S j Hj).
Qed.

Lemma pseudo_upd_ok d k it dv w idx : shape d k it dv w -> idx < mx ->
  wp (update_pseudocost idx w) (fun w' => shape d k it dv w' /\ bb_prob w' = bb_prob w).
Proof.
  intros S Hi. unfold update_pseudocost. destruct (sh_nodes _ _ _ _ _ S idx Hi) as (nd & En & [_ On]). rewrite En. cbn [bind].
  destruct (Z.leb_spec 0 (nd_psplit nd)) as [P|_]; [|apply wp_ret; auto]. destruct (On P) as [R C]. rewrite (sh_stgs _ _ _ _ _ S), (sh_nb _ _ _ _ _ S).
  apply wp_bind. apply (wp_conseq _ (fun _ => True)).
  { destruct (nd_up nd); apply wp_bind; (apply wp_opt; [apply C|]); intros; apply wp_ret; auto. }
  intros dq _. set (off := if nd_up nd then 1 else 0). assert (off < 2) by (unfold off; destruct (nd_up nd); lia).
  destruct (Nat.ltb_spec (Z.to_nat (nd_psplit nd)) nb).
  - eapply wp_conseq; [apply (observe_ok d k it dv w true); [exact S|lia]|]. intros w' (A & B & _). auto.
  - eapply wp_conseq; [apply (observe_ok d k it dv w false); [exact S|lia]|]. intros w' (A & B & _). auto.
Qed.

Lemma round_ok d k it dv w : shape d k it dv w -> xok (bb_prob w) ->
  wp (round_x w) (fun '(_, w') => shape True k it dv w' /\ bb_prob w' = bb_prob w).
Proof.
  intros S X. unfold round_x. rewrite (sh_nb _ _ _ _ _ S), (sh_ni _ _ _ _ _ S), (sh_stgs _ _ _ _ _ S). apply wp_bind.
  apply wp_for with (Inv := fun i (s : bool * arr Z) => length (snd s) = length (bb_tmpb w) /\ defd (snd s) 0 i).
  - lia.
  - split; [reflexivity|]. intros j Hj. lia.
  - intros i [ok tb] Hi [L D]. cbn [snd] in L, D. rewrite (sh_b _ _ _ _ _ S i) by lia. cbn [bind].
    destruct (x_ok _ i X ltac:(lia)) as (y & Ey & Cy & Ch). rewrite Ey. cbn [bind]. destruct (Ch ltac:(lia)) as (r & c & Er & Ec).
    rewrite Er. cbn [bind]. rewrite Ec. cbn [bind]. apply wp_bind. apply wp_set; [pose proof (sh_tmpb _ _ _ _ _ S); lia|]. intros t Lt Gt.
    apply wp_ret. cbn [snd]. split; [congruence|]. intros j Hj. cbn [plus]. rewrite Gt. destruct (Nat.eqb_spec j i); eauto.
    apply (D j). lia.
  - intros [ok tb] [L D]. cbn [snd] in L, D. apply wp_bind.
    apply wp_for with (Inv := fun i (s : bool * arr F) => length (snd s) = length (bb_tmpi w) /\ defd (snd s) 0 (2 * i)).
    + lia.
    + split; [reflexivity|]. intros j Hj. lia.
    + intros i [ok' ti] Hi [L' D']. cbn [snd] in L', D'. rewrite (sh_i _ _ _ _ _ S i) by lia. cbn [bind].
      destruct (x_ok _ (nb + i) X ltac:(lia)) as (y & Ey & Cy & Ch). rewrite Ey. cbn [bind]. destruct Cy as (_ & _ & Cr).
      apply wp_bind. apply wp_opt; [exact Cr|]. intros r _.
      apply wp_bind. apply wp_set; [pose proof (sh_tmpi _ _ _ _ _ S); lia|]. intros t Lt Gt.
      apply wp_bind. apply wp_set; [pose proof (sh_tmpi _ _ _ _ _ S); lia|]. intros t2 Lt2 Gt2.
      apply wp_ret. cbn [snd]. split; [congruence|]. intros j Hj. cbn [plus]. rewrite Gt2, Gt.
      destruct (Nat.eqb_spec j (2 * i)); eauto. destruct (Nat.eqb_spec j (2 * i + 1)); eauto. apply (D' j). lia.
    + intros [ok' ti] [L' D']. cbn [snd] in L', D'. apply wp_ret. split; [eapply shp_tmp; eauto|reflexivity].
Qed.

Lemma store_ok d k it dv w : shape d k it dv w -> wp (store_solution w) (fun w' => shape d k it dv w').
Proof.
  intros S. unfold store_solution, copyN.
  destruct (ts_dims _ _ _ _ _ _ _ _ _ SOLVER _ (sh_good _ _ _ _ _ S)) as (En & Ep & Em & _ & _ & _ & Lx & Ly & Lz & Ls).
  rewrite En, Ep, Em.
  apply wp_bind. apply wp_memcpy; [lia|apply (sh_x _ _ _ _ _ S)|]. intros x L1 _.
  apply wp_bind. apply wp_memcpy; [lia|apply (sh_y _ _ _ _ _ S)|]. intros y L2 _.
  apply wp_bind. apply wp_memcpy; [lia|apply (sh_z _ _ _ _ _ S)|]. intros z L3 _.
  apply wp_bind. apply wp_memcpy; [lia|apply (sh_s _ _ _ _ _ S)|]. intros s L4 _.
  apply wp_ret. destruct S. constructor; bbc; auto; congruence.
Qed.
Lemma load_ok d k it dv w : shape d k it dv w -> wp (load_solution w) (fun w' => bb_stgs w' = bb_stgs w /\ bb_iter w' = bb_iter w).
Proof.
  intros S. unfold load_solution, copyN.
  destruct (ts_dims _ _ _ _ _ _ _ _ _ SOLVER _ (sh_good _ _ _ _ _ S)) as (En & Ep & Em & _ & _ & _ & Lx & Ly & Lz & Ls).
  rewrite En, Ep, Em.
  apply wp_bind. apply wp_memcpy; [apply (sh_x _ _ _ _ _ S)|lia|]. intros x L1 _.
  apply wp_bind. apply wp_memcpy; [apply (sh_y _ _ _ _ _ S)|lia|]. intros y L2 _.
  apply wp_bind. apply wp_memcpy; [apply (sh_z _ _ _ _ _ S)|lia|]. intros z L3 _.
  apply wp_bind. apply wp_memcpy; [apply (sh_s _ _ _ _ _ S)|lia|]. intros s L4 _.
  apply wp_ret. split; reflexivity.
Qed.

Lemma finish_ok d k it dv w idx viable : shape d k it dv w -> idx < mx -> wp (finish_node idx viable w) (shape d k it dv).
Proof.
  intros S Hi. unfold finish_node. destruct (sh_nodes _ _ _ _ _ S idx Hi) as (nd & En & _). rewrite En. cbn [bind].
  apply wp_bind. apply (wp_conseq _ (shape d k it dv)).
  { destruct (flt _ _); [|apply wp_ret; exact S]. apply wp_bind. eapply wp_conseq; [apply store_ok; exact S|]. intros w1 S1. apply wp_ret. apply shp_U. exact S1. }
  intros w1 S1. apply wp_bind. apply (wp_conseq _ (shape d k it dv)).
  { destruct viable; [|apply wp_ret; exact S1]. eapply node_upd; eauto. }
  intros w2 S2. destruct (sh_nodes _ _ _ _ _ S2 idx Hi) as (nd2 & En2 & _). rewrite En2. cbn [bind].
  destruct (flt _ _); [|apply wp_ret; exact S2]. eapply node_upd; eauto.
Qed.

Lemma branch_node_ok k it dv w idx : shape True k it dv w -> xok (bb_prob w) -> idx < k -> k <= mx ->
  wp (branch_node solver rnd rfuel idx w) (shape False k it dv).
Proof.
  intros S X Hk Hm. unfold branch_node. destruct (sh_nodes _ _ _ _ _ S idx ltac:(lia)) as (nd & En & On). rewrite En. cbn [bind].
  apply wp_bind. eapply wp_conseq; [apply (choose_ok _ _ _ _ _ _ _ S X Hk Hm); exact (proj1 On)|]. intros [sp w1] (P1 & S1 & X1). cbn match.
  apply wp_bind. eapply node_upd; [exact S1|lia| |].
  { intros nd1 [_ O2]. split; [exact P1|exact O2]. }
  intros ns S2. destruct (sh_d _ _ _ _ _ S2 I) as [D1 D2]. apply wp_bind.
  eapply wp_conseq; [apply (run_ok _ _ _ _ _ _ _ S2); [exact D1|exact D2]|]. intros [code w3] R3.
  destruct (ran_shape _ _ _ _ _ _ S2 R3) as [S3 X3]. apply shp_weak in S3. cbn match. destruct (_ =? _)%Z; [|apply finish_ok; [exact S3|lia]].
  apply wp_bind. eapply wp_conseq; [apply obj_ok; [apply (sh_good _ _ _ _ _ S3)|exact X3]|]. intros u _. cbv beta.
  apply wp_bind. eapply node_upd; [exact S3|lia|intros; assumption|]. intros ns2 S4. apply finish_ok; [exact S4|lia].
Qed.

Lemma get_bounds_ok k it dv w idx : shape False k it dv w -> idx < k -> k <= mx ->
  wp (get_bounds solver rnd rfuel idx w) (shape False k it dv).
Proof.
  intros S Hk Hm. unfold get_bounds. apply wp_bind.
  eapply wp_conseq; [apply (run_ok _ _ _ _ _ _ _ S)|].
  { intros j Hj. unfold node_bid. rewrite (sh_nb _ _ _ _ _ S). apply (sh_bc _ _ _ _ _ S idx Hk j Hj). }
  { intros j Hj. unfold node_iid. rewrite (sh_ni _ _ _ _ _ S). apply (sh_ic _ _ _ _ _ S idx Hk j). lia. }
  intros [code w1] R1. destruct (ran_shape _ _ _ _ _ _ S R1) as [S1 X1]. cbn match.
  destruct (_ || _)%bool; [|eapply node_upd; [exact S1|lia|intros; assumption|auto]].
  apply wp_bind. eapply wp_conseq; [apply obj_ok; [apply (sh_good _ _ _ _ _ S1)|exact X1]|]. intros q _. cbv beta.
  apply wp_bind. eapply node_upd; [exact S1|lia|intros; assumption|]. intros n2 S2.
  destruct (flt _ _); [eapply node_upd; [exact S2|lia|intros; assumption|auto]|].
  apply wp_bind. eapply node_upd; [exact S2|lia|intros; assumption|]. intros n3 S3.
  apply wp_bind. eapply wp_conseq; [apply (pseudo_upd_ok _ _ _ _ _ idx S3); lia|]. intros w4 [S4 E4]. cbv beta.
  assert (X4: xok (bb_prob w4)) by (rewrite E4; exact X1).
  apply wp_bind. eapply wp_conseq; [apply (round_ok _ _ _ _ _ S4 X4)|]. intros [ig w5] [S5 E5]. cbn match.
  destruct ig.
  - apply shp_weak in S5. apply wp_bind. eapply node_upd; [exact S5|lia|intros; assumption|]. intros n6 S6. apply finish_ok; [exact S6|lia].
  - apply branch_node_ok; auto. rewrite E5. exact X4.
Qed.

(* -------------------------------------------------------------- the tree *)

Lemma global_L_ok d k it dv w : shape d k it dv w -> it < mx -> wp (get_global_L w) (fun _ => True).
Proof.
  intros S H. unfold get_global_L. rewrite (sh_it _ _ _ _ _ S). apply wp_for with (Inv := fun _ _ => True); [lia|auto| |auto].
  intros i L Hi _. destruct (sh_nodes _ _ _ _ _ S i ltac:(lia)) as (nd & -> & _). cbn. auto.
Qed.

Lemma next_ok d k it dv w : shape d k it dv w -> it < mx -> (0 <= dv <= Z.of_nat it)%Z ->
  wp (get_next_node w) (fun '(cur, w') => exists dv', shape d k it dv' w' /\ (cur <= Z.of_nat it)%Z /\ ((0 <= cur)%Z -> (0 <= dv' <= Z.of_nat it)%Z)).
Proof.
  intros S Hm Hd. unfold get_next_node. apply wp_bind.
  apply (wp_conseq _ (fun r => match r with Some i => (0 <= i <= Z.of_nat it)%Z | None => True end)).
  - rewrite (sh_stgs _ _ _ _ _ S). destruct (bs_select sg).
    + apply wp_ret. exact I.
    + rewrite (sh_dv _ _ _ _ _ S). apply wp_bind. destruct (sh_nodes _ _ _ _ _ S (Z.to_nat dv) ltac:(lia)) as (nd & En & _).
      eapply wp_getz; [lia|exact En|]. apply wp_ret. destruct (_ =? _)%Z; auto.
    + rewrite (sh_it _ _ _ _ _ S). destruct (sh_nodes _ _ _ _ _ S it Hm) as (nd & En & _). rewrite En. cbn [bind]. apply wp_ret.
      destruct (_ =? _)%Z; auto. lia.
  - intros [i|] Hi; [apply wp_ret; exists dv; split; [exact S|]; split; [lia|auto]|].
    rewrite (sh_it _ _ _ _ _ S). apply wp_bind.
    apply wp_for with (Inv := fun i (s : Z * F) => (-1 <= fst s <= Z.of_nat i - 1)%Z); [lia|cbn; lia| |].
    + intros i [nx L] Hi2 Hs. cbn [fst] in Hs. destruct (sh_nodes _ _ _ _ _ S i ltac:(lia)) as (nd & -> & _). cbn [bind].
      destruct (_ && _)%bool; apply wp_ret; cbn [fst]; lia.
    + intros [nx L] Hs. cbn [fst] in Hs. apply wp_ret. exists nx. split; [|split; [lia|lia]].
      destruct S. constructor; bbc; auto.
Qed.

Lemma branch_safe it dv w cur : shape False it (it - 1) dv w -> 0 < it < mx -> cur < it ->
  wp (branch cur (set_bb_iter w it)) (shape False (S it) it dv).
Proof.
  intros S Hm Hc. set (w1 := set_bb_iter w it).
  assert (S1: shape False it it dv w1) by (destruct S; constructor; auto). clearbody w1. clear S w.
  destruct (sh_nodes _ _ _ _ _ S1 cur ltac:(lia)) as (nc & Ec & Oc). destruct (sh_nodes _ _ _ _ _ S1 it ltac:(lia)) as (nd & Ed & Od).
  pose proof (sh_nb _ _ _ _ _ S1) as Enb. pose proof (sh_ni _ _ _ _ _ S1) as Eni. pose proof (sh_it _ _ _ _ _ S1) as Eit.
  pose proof (sh_stgs _ _ _ _ _ S1) as Esg. destruct Oc as [[Sc Vc] Pc].
  assert (D: exists w', branch cur w1 = Some w').
  { eapply branch_ok; rewrite ?Eit, ?Enb, ?Eni; eauto.
    - lia.
    - apply (sh_bc _ _ _ _ _ S1); lia.
    - pose proof (sh_bids _ _ _ _ _ S1). nia.
    - apply (sh_ic _ _ _ _ _ S1); lia.
    - pose proof (sh_iids _ _ _ _ _ S1). nia.
    - intros _. rewrite Esg. split; apply Vc. }
  destruct D as (w' & E). rewrite E. cbn.
  destruct (branch_inv cur w1 w' nc E ltac:(lia) Ec ltac:(rewrite Enb, Eni; exact Sc)) as
    (ns & bids & iids & fl & ce & nd0 & -> & E0 & Gn & Ln & Lb & Li & B1 & B2 & B3 & _ & I1 & I2 & I3).
  rewrite Eit in *. rewrite Enb, Eni in *. assert (nd0 = nd) by congruence. subst nd0.
  assert (Dec: forall i, i < S it -> i = cur \/ i = it \/ (i <> cur /\ i <> it /\ i < it)) by (intros; lia).
  pose proof (sh_bc _ _ _ _ _ S1) as Bc. pose proof (sh_ic _ _ _ _ _ S1) as Ic.
  destruct S1. constructor; bbc; auto; try congruence.
  - intros i Hi. rewrite Gn. destruct (i =? cur).
    + exists (left_child nc). split; [reflexivity|]. split; [split; [exact Sc|exact Vc]|]. intros _. split; [exact Sc|exact Vc].
    + destruct (i =? it); [|auto]. exists (right_child nc nd). split; [reflexivity|]. split; [exact (proj1 Od)|]. intros _. split; [exact Sc|exact Vc].
  - intros i Hi j Hj. destruct (Dec i Hi) as [-> |[-> | (N1 & N2 & L)]].
    + rewrite B1 by auto. destruct (_ =? _); eauto. apply Bc; auto.
    + rewrite B2 by auto. destruct (_ =? _); eauto. apply Bc; auto.
    + rewrite B3 by auto. apply Bc; auto.
  - intros i Hi j Hj. destruct (Dec i Hi) as [-> |[-> | (N1 & N2 & L)]].
    + rewrite I1 by auto. destruct (_ && _)%bool; eauto. apply Ic; auto.
    + rewrite I2 by auto. destruct (_ && _)%bool; eauto. apply Ic; auto.
    + rewrite I3 by auto. apply Ic; auto.
Qed.

(* between passes *)
Definition between (cur : Z) (w : W) : Prop := exists it dv, shape False (S it) it dv w /\ it < mx /\ (cur <= Z.of_nat it)%Z /\
  ((0 <= cur)%Z -> (0 <= dv <= Z.of_nat it)%Z).

Lemma step_ok cur w : between cur w -> should_continue w cur = true ->
  wp (bb_step solver rnd rfuel cur w) (fun '(cur', w') => between cur' w' /\ bb_iter w' = S (bb_iter w)).
Proof.
  intros (it & dv & S & Hm & Hc & Hd) Sc. pose proof (sh_it _ _ _ _ _ S) as Eit. unfold should_continue in Sc.
  rewrite !andb_true_iff in Sc. destruct Sc as [[_ Pc] Lt]. apply Z.leb_le in Pc. apply Z.ltb_lt in Lt. rewrite Eit, (sh_stgs _ _ _ _ _ S) in Lt.
  unfold bb_step. rewrite Eit. apply wp_bind. eapply wp_conseq; [apply (branch_safe (Datatypes.S it) dv w (Z.to_nat cur)); try lia|].
  { replace (Datatypes.S it - 1) with it by lia. exact S. }
  intros w1 S1. cbv beta. apply wp_bind. eapply wp_conseq; [apply (get_bounds_ok _ _ _ w1 (Z.to_nat cur) S1); lia|]. intros w2 S2. cbv beta.
  rewrite (sh_it _ _ _ _ _ S2). apply wp_bind. eapply wp_conseq; [apply (get_bounds_ok _ _ _ w2 (Datatypes.S it) S2); lia|]. intros w3 S3. cbv beta.
  apply wp_bind. eapply wp_conseq; [apply (global_L_ok _ _ _ _ _ S3); lia|]. intros L _. cbv beta.
  eapply wp_conseq; [apply (next_ok False (Datatypes.S (Datatypes.S it)) (Datatypes.S it) dv); [apply shp_L; exact S3|lia|lia]|].
  intros [cur' w'] (dv' & S' & C' & D'). split; [|exact (sh_it _ _ _ _ _ S')].
  exists (Datatypes.S it), dv'. split; [exact S'|]. split; [lia|]. split; [exact C'|exact D'].
Qed.

Lemma loop_ok fuel w : between 0 w -> Z.to_nat (bs_maxit sg) < bb_iter w + fuel -> bb_stgs w = sg ->
  wp (bb_loop solver rnd rfuel fuel w) (fun '(cur, w') => between cur w').
Proof.
  intros B Hf Es. unfold bb_loop.
  apply (wp_while (fun '(cur, w) => between cur w) (fun '(cur, w) => mx - bb_iter w)).
  - intros [cur w1] B1. apply wp_ret. destruct (should_continue w1 cur) eqn:Sc; [|exact B1].
    eapply wp_conseq; [apply (step_ok cur w1 B1 Sc)|]. intros [cur' w'] [B' E']. split; [exact B'|].
    destruct B' as (it & dv & S' & Hm & _). pose proof (sh_it _ _ _ _ _ S'). lia.
  - exact B.
  - destruct B as (it & dv & S' & Hm & _). pose proof (sh_it _ _ _ _ _ S'). lia.
Qed.

(* a workspace as setup leaves it *)
Definition fresh (w : W) : Prop := shape False 0 (bb_iter w) (bb_dive w) w.

Lemma root_ok w : fresh w -> 0 < mx -> wp (bb_root solver rnd rfuel w) (fun w' => between 0 w' /\ bb_iter w' = 0).
Proof.
  intros S Hm. unfold bb_root. set (w0 := set_bb_dive (set_bb_iter w 0) 0).
  assert (S0: shape False 0 0 0 w0) by (destruct S; constructor; auto). clearbody w0. apply wp_bind.
  apply (wp_conseq _ (shape False 1 0 0)).
  - unfold initialize_root. apply wp_bind. eapply node_upd; [exact S0|lia| |].
    { intros nd [A _]. split; [exact A|]. ndc. lia. }
    intros ns S1. bbc. rewrite (sh_nb _ _ _ _ _ S0), (sh_ni _ _ _ _ _ S0).
    pose proof (sh_bids _ _ _ _ _ S0). pose proof (sh_iids _ _ _ _ _ S0).
    assert (nb * 1 <= nb * mx) by (apply Nat.mul_le_mono_l; lia). assert (ni * 1 <= ni * mx) by (apply Nat.mul_le_mono_l; lia).
    apply wp_bind. apply wp_clear; [lia|]. intros b Lb Gb. apply wp_bind.
    apply wp_for with (Inv := fun i (a : arr F) => length a = length (bb_iids w0) /\ defd a 0 (2 * i)).
    + lia.
    + split; [reflexivity|]. intros j Hj. lia.
    + intros i a Hi [La Da]. apply wp_bind. apply wp_set; [lia|]. intros a1 L1 G1. apply wp_set; [lia|]. intros a2 L2 G2.
      split; [congruence|]. intros j Hj. cbn [plus]. rewrite G2, G1. destruct (Nat.eqb_spec j (2 * i + 1)); eauto.
      destruct (Nat.eqb_spec j (2 * i)); eauto. apply (Da j). lia.
    + intros a [La Da]. apply wp_ret. destruct S1. constructor; bbc; auto; try lia; try tauto.
      * intros i Hi j Hj. assert (i = 0) as -> by lia. rewrite Gb. destruct (Nat.ltb_spec (nb * 0 + j) nb); [eauto|lia].
      * intros i Hi j Hj. assert (i = 0) as -> by lia. replace (ni * 0 * 2 + j) with (0 + j) by lia. apply Da. lia.
  - intros w1 S1. apply wp_bind. eapply wp_conseq; [apply (get_bounds_ok _ _ _ w1 0 S1); lia|]. intros w2 S2. cbv beta.
    destruct (sh_nodes _ _ _ _ _ S2 0 ltac:(lia)) as (nd & -> & _). cbn [bind]. apply wp_ret. split.
    + exists 0, 0%Z. split; [apply shp_U, shp_L; exact S2|]. split; [lia|]. split; [lia|lia].
    + exact (sh_it _ _ _ _ _ S2).
Qed.

Lemma solve_ok w : fresh w -> 0 < mx ->
  wp (ECOS_BB_solve solver rnd rfuel w) (fun '(_, w') => bb_iter w' < mx).
Proof.
  intros S Hm. unfold ECOS_BB_solve. apply wp_bind. eapply wp_conseq; [apply (root_ok w S Hm)|]. intros w1 [B1 E1]. cbv beta.
  assert (Es: bb_stgs w1 = sg) by (destruct B1 as (? & ? & S1 & _); exact (sh_stgs _ _ _ _ _ S1)). rewrite Es.
  apply wp_bind. eapply wp_conseq; [apply (loop_ok _ w1 B1); [lia|exact Es]|]. intros [cur w2] (it & dv & S2 & H2 & _). cbn match.
  apply wp_bind. eapply wp_conseq; [apply (load_ok _ _ _ _ _ S2)|]. intros w3 [_ E3]. apply wp_ret. rewrite E3, (sh_it _ _ _ _ _ S2). exact H2.
Qed.
End Safe.

Lemma while_more {St} (test : St -> option bool) body : forall f s r f', while_ f test body s = Some r -> f <= f' -> while_ f' test body s = Some r.
Proof.
  induction f as [|f IH]; intros s r f' H L; [discriminate|]. destruct f' as [|f']; [lia|]. cbn [while_] in *.
  destruct (test s) as [[|]|]; cbn [bind] in *; auto. destruct (body s) as [s'|]; cbn [bind] in *; [|discriminate]. apply IH; auto. lia.
Qed.
