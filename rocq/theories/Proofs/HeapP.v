(* Counting blocks: what setup leaves on the heap and what cleanup does with it. *)
From Coq Require Import List Arith Bool Lia.
From Verif.Model Require Import Heap.
Import ListNotations.
Open Scope nat_scope.
Open Scope heap_scope.

Definition ind (p : ptr) (b : nat) : nat := match p with Some x => if Nat.eqb x b then 1 else 0 | None => 0 end.
Fixpoint occ (ps : list ptr) (b : nat) : nat := match ps with [] => 0 | p :: ps => ind p b + occ ps b end.
Definition cnt (h : heap) (b : nat) : nat := count_occ Nat.eq_dec (hp_live h) b.
(* the pointers ps and, besides, f b times the block b *)
Definition st (h : heap) (ps : list ptr) (f : nat -> nat) : Prop :=
  (forall b, cnt h b = occ ps b + f b) /\ (forall b, In b (hp_live h) -> b < hp_next h).

Lemma occ_app a b x : occ (a ++ b) x = occ a x + occ b x.
Proof. induction a as [|p a IH]; cbn; [reflexivity|rewrite IH; lia]. Qed.
Lemma st_eq h ps f ps' f' : st h ps f -> (forall b, occ ps b + f b = occ ps' b + f' b) -> st h ps' f'.
Proof. intros (A & B) E. split; [|exact B]. intros b. rewrite A. apply E. Qed.
Lemma live_cnt h b : is_live h b = true <-> 0 < cnt h b.
Proof.
  unfold is_live, cnt. rewrite existsb_exists. split.
  - intros (x & I & E). apply Nat.eqb_eq in E. subst x. apply count_occ_In. exact I.
  - intros H. apply count_occ_In in H. exists b. split; [exact H|apply Nat.eqb_refl].
Qed.
Lemma ind_self b : ind (Some b) b = 1.
Proof. cbn. rewrite Nat.eqb_refl. reflexivity. Qed.
Lemma ind_le p ps b : In p ps -> ind p b <= occ ps b.
Proof. induction ps as [|q ps IH]; intros I; [destruct I|]. cbn. destruct I as [->|I]; [lia|]. specialize (IH I). lia. Qed.

Definition wpm {A} (m : M A) (h : heap) (Q : A -> heap -> Prop) : Prop := exists a h', m h = Some (a, h') /\ Q a h'.
Lemma w_bind {A B} (m : M A) (k : A -> M B) h Q : wpm m h (fun a h => wpm (k a) h Q) -> wpm (mbind m k) h Q.
Proof. intros (a & h1 & E & b & h2 & E2 & H). exists b, h2. unfold mbind. rewrite E. auto. Qed.
Lemma w_ret {A} (a : A) h (Q : A -> heap -> Prop) : Q a h -> wpm (ret a) h Q.
Proof. intros H. exists a, h. auto. Qed.
Lemma w_conseq {A} (m : M A) h (Q Q' : A -> heap -> Prop) : wpm m h Q -> (forall a h, Q a h -> Q' a h) -> wpm m h Q'.
Proof. intros (a & h' & E & H) I. exists a, h'. auto. Qed.

Lemma w_malloc sz h ps f (Q : ptr -> heap -> Prop) : st h ps f -> (forall p h', st h' (p :: ps) f -> (sz <> 0 -> p <> None) -> Q p h') -> wpm (malloc sz) h Q.
Proof.
  intros (A & B) H. unfold wpm, malloc. destruct (Nat.eqb_spec sz 0) as [->|N]; cbn [andb].
  - destruct (hp_zero h (hp_next h)); eexists _, _; (split; [reflexivity|]); apply H; try (intros X; lia); split; cbn [hp_live hp_next].
    + intros b. unfold cnt. cbn [hp_live]. apply A.
    + intros b I. specialize (B b I). lia.
    + intros b. unfold cnt. cbn [hp_live count_occ]. specialize (A b). unfold cnt in A. cbn [occ ind].
      destruct (Nat.eq_dec (hp_next h) b) as [E|E]; destruct (Nat.eqb_spec (hp_next h) b); try congruence; lia.
    + intros b [<-|I]; [lia|]. specialize (B b I). lia.
  - eexists _, _. split; [reflexivity|]. apply H; [|discriminate]. split; cbn [hp_live hp_next].
    + intros b. unfold cnt. cbn [hp_live count_occ]. specialize (A b). unfold cnt in A. cbn [occ ind].
      destruct (Nat.eq_dec (hp_next h) b) as [E|E]; destruct (Nat.eqb_spec (hp_next h) b); try congruence; lia.
    + intros b [<-|I]; [lia|]. specialize (B b I). lia.
Qed.
Lemma w_malloc1 k h ps f (Q : ptr -> heap -> Prop) : st h ps f -> (forall b h', st h' (Some b :: ps) f -> Q (Some b) h') -> wpm (malloc (S k)) h Q.
Proof. intros S H. apply (w_malloc _ h ps f); [exact S|]. intros p h' S' N. destruct p as [b|]; [apply H; exact S'|]. destruct (N ltac:(discriminate) eq_refl). Qed.
Lemma w_malloc_if (c : bool) sz h ps f (Q : ptr -> heap -> Prop) : st h ps f -> (forall p h', st h' (p :: ps) f -> (c = true -> p = None) -> Q p h') ->
  wpm (if c then ret None else malloc sz) h Q.
Proof.
  intros S H. destruct c.
  - apply w_ret. apply H; [|auto]. apply (st_eq _ _ _ _ _ S). reflexivity.
  - apply (w_malloc _ h ps f); [exact S|]. intros p h' S' _. apply H; [exact S'|discriminate].
Qed.
Lemma drop1_cnt x l b : In x l -> count_occ Nat.eq_dec l b = (if Nat.eqb x b then 1 else 0) + count_occ Nat.eq_dec (drop1 x l) b.
Proof.
  induction l as [|y l IH]; intros I; [destruct I|]. cbn [drop1 count_occ]. destruct (Nat.eqb_spec y x) as [->|N].
  - destruct (Nat.eq_dec x b); destruct (Nat.eqb_spec x b); try congruence; lia.
  - destruct I as [I|I]; [congruence|]. cbn [count_occ]. rewrite (IH I). destruct (Nat.eq_dec y b); lia.
Qed.
Lemma drop1_in x l b : In b (drop1 x l) -> In b l.
Proof. induction l as [|y l IH]; cbn; [auto|]. destruct (Nat.eqb y x); cbn; intuition. Qed.
Lemma w_free h ps f p (Q : unit -> heap -> Prop) : st h (p :: ps) f -> (forall h', st h' ps f -> Q tt h') -> wpm (free p) h Q.
Proof.
  intros (A & B) H. unfold wpm, free. destruct p as [x|].
  - assert (L: is_live h x = true) by (apply live_cnt; rewrite A; cbn [occ]; rewrite ind_self; lia). rewrite L. eexists _, _. split; [reflexivity|].
    apply H. split; cbn [hp_live hp_next].
    + intros b. specialize (A b). unfold cnt in *. cbn [hp_live]. cbn [occ ind] in A.
      rewrite (drop1_cnt x) in A; [lia|]. apply (count_occ_In Nat.eq_dec). apply live_cnt in L. exact L.
    + intros b I. apply B. apply (drop1_in x). exact I.
  - eexists _, _. split; [reflexivity|]. apply H. apply (st_eq _ _ _ _ _ (conj A B)). reflexivity.
Qed.
Fixpoint del (i : nat) (ps : list ptr) : list ptr := match i, ps with 0, _ :: ps => ps | S i, p :: ps => p :: del i ps | _, [] => [] end.
Lemma occ_del i ps p b : nth_error ps i = Some p -> occ ps b = ind p b + occ (del i ps) b.
Proof. revert i. induction ps as [|q ps IH]; intros [|i] H; cbn in *; try discriminate; [injection H as ->; reflexivity|]. rewrite (IH i H). lia. Qed.
Lemma w_free_at i h ps f p (Q : unit -> heap -> Prop) : st h ps f -> nth_error ps i = Some p -> (forall h', st h' (del i ps) f -> Q tt h') -> wpm (free p) h Q.
Proof. intros S E H. apply (w_free h (del i ps) f); [|exact H]. apply (st_eq _ _ _ _ _ S). intros b. rewrite (occ_del i ps p b E). reflexivity. Qed.
Lemma w_free_opt i h ps f p (Q : unit -> heap -> Prop) : st h ps f -> nth_error ps i = Some p -> (forall h', st h' (del i ps) f -> Q tt h') ->
  wpm (if isNull p then ret tt else free p) h Q.
Proof.
  intros S E H. destruct p as [x|]; cbn [isNull]; [exact (w_free_at i h ps f _ Q S E H)|]. apply w_ret. apply H. apply (st_eq _ _ _ _ _ S). intros b. rewrite (occ_del i ps None b E). reflexivity.
Qed.
Lemma w_use h x (Q : unit -> heap -> Prop) : 0 < cnt h x -> Q tt h -> wpm (use (Some x)) h Q.
Proof. intros L H. exists tt, h. split; [|exact H]. unfold use. apply live_cnt in L. rewrite L. reflexivity. Qed.
Lemma w_use_in h ps f x (Q : unit -> heap -> Prop) : st h ps f -> In (Some x) ps -> Q tt h -> wpm (use (Some x)) h Q.
Proof. intros (A & _) I H. apply w_use; [|exact H]. rewrite A. pose proof (ind_le _ _ x I) as L. rewrite ind_self in L. lia. Qed.
(* k elements of p can be read *)
Definition readable (f : nat -> nat) (k : nat) (p : ptr) : Prop := k = 0 \/ exists x, p = Some x /\ 0 < f x.
Lemma w_touch h ps f k p (Q : unit -> heap -> Prop) : st h ps f -> readable f k p -> Q tt h -> wpm (touch k p) h Q.
Proof.
  intros (A & _) R H. unfold touch. destruct (Nat.eqb_spec k 0) as [->|N]; [apply w_ret; exact H|]. destruct R as [R|(x & -> & L)]; [contradiction|].
  apply w_use; [|exact H]. rewrite A. lia.
Qed.
(* an array of its own, of at least k elements if not NULL *)
Lemma w_touch_in h ps f k p (Q : unit -> heap -> Prop) : st h ps f -> In p ps -> (k <> 0 -> p <> None) -> Q tt h -> wpm (touch k p) h Q.
Proof.
  intros S I N H. unfold touch. destruct (Nat.eqb_spec k 0) as [->|K]; [apply w_ret; exact H|]. destruct p as [x|]; [|destruct (N K eq_refl)].
  exact (w_use_in h ps f x Q S I H).
Qed.

Ltac idx p ps := lazymatch ps with p :: _ => constr:(0) | _ :: ?t => let i := idx p t in constr:(S i) end.
Ltac isin := repeat (first [left; reflexivity | right]).
Ltac step :=
  lazymatch goal with
  | |- wpm (mbind _ _) _ _ => apply w_bind
  | |- wpm (ret _) _ _ => apply w_ret
  | |- wpm (free_at ?l ?p) ?h ?Q => apply (w_bind (each l use) (fun _ => free p) h Q)
  | |- wpm (each (?p :: ?l) ?f) ?h ?Q => apply (w_bind (f p) (fun _ => each l f) h Q)
  | |- wpm (each [] _) _ _ => apply w_ret
  | H : st ?h ?ps ?f |- wpm (malloc 1) ?h _ => apply (w_malloc1 0 h ps f _ H); clear H; intros ? ? H; cbv beta
  | H : st ?h ?ps ?f |- wpm (malloc (?a + 1)) ?h _ => replace (a + 1) with (S a) by lia; apply (w_malloc1 a h ps f _ H); clear H; intros ? ? H; cbv beta
  | H : st ?h ?ps ?f |- wpm (malloc ?k) ?h _ => apply (w_malloc k h ps f _ H); clear H; intros ? ? H ?; cbv beta
  | H : st ?h ?ps ?f |- wpm (if ?c then ret None else malloc ?k) ?h _ => apply (w_malloc_if c k h ps f _ H); clear H; intros ? ? H ?; cbv beta
  | H : st ?h ?ps ?f |- wpm (free ?p) ?h _ => let i := idx p ps in apply (w_free_at i h ps f p _ H eq_refl); clear H; cbn [del]; intros ? H; cbv beta
  | H : st ?h ?ps ?f |- wpm (if isNull ?p then ret tt else free ?p) ?h _ => let i := idx p ps in apply (w_free_opt i h ps f p _ H eq_refl); clear H; cbn [del]; intros ? H; cbv beta
  | H : st ?h ?ps ?f |- wpm (use (Some ?x)) ?h _ => apply (w_use_in h ps f x _ H); [isin; fail|]
  end.

(* the matrix routines; a matrix of its own has non-NULL structure and jc *)
Definition mine (A : mspmat) : list ptr := [ms_self A; ms_pr A; ms_ir A; ms_jc A].
Definition own_mat (A : mspmat) : Prop := ms_self A <> None /\ ms_jc A <> None /\ (ms_nnz A <> 0 -> ms_ir A <> None /\ ms_pr A <> None).
Lemma w_newSparse n nnz h ps f (Q : mspmat -> heap -> Prop) : st h ps f ->
  (forall s pr ir jc h', st h' (Some s :: pr :: ir :: Some jc :: ps) f -> (nnz <> 0 -> ir <> None /\ pr <> None) -> Q (mkMs (Some s) (Some jc) ir pr n nnz) h') ->
  wpm (newSparseMatrix n nnz) h Q.
Proof.
  intros H K. unfold newSparseMatrix, Heap.ecoscreateSparseMatrix. repeat (cbn [isNull]; step). apply K; [exact H|]. auto.
Qed.
Lemma w_transpose m A h ps f (Q : mspmat -> heap -> Prop) : st h ps f -> readable f (ms_nnz A) (ms_ir A) -> readable f (ms_nnz A) (ms_pr A) ->
  (forall s pr ir jc h', st h' (Some s :: pr :: ir :: Some jc :: ps) f -> Q (mkMs (Some s) (Some jc) ir pr m (ms_nnz A)) h') -> wpm (transposeSparseMatrix m A) h Q.
Proof.
  intros H R1 R2 K. unfold transposeSparseMatrix. step. apply (w_newSparse _ _ h ps f _ H). clear H. intros s pr ir jc h' H _.
  destruct (ms_nnz A =? 0) eqn:E; [step; apply Nat.eqb_eq in E; rewrite E in *; apply K; exact H|].
  step. step. step. apply (w_touch _ _ _ _ _ _ H R1). step. apply (w_touch _ _ _ _ _ _ H R2). step. step. step. apply K. exact H.
Qed.
Lemma w_permute A B h ps f (Q : unit -> heap -> Prop) : st h ps f -> In (ms_self A) ps -> In (ms_self B) ps -> In (ms_jc A) ps -> In (ms_ir A) ps -> In (ms_pr A) ps ->
  own_mat A -> ms_self B <> None -> (forall h', st h' ps f -> Q tt h') -> wpm (permuteSparseSymmetricMatrix A B) h Q.
Proof.
  intros H I1 I2 I3 I4 I5 (N1 & N2 & N3) N4 K. unfold permuteSparseSymmetricMatrix.
  destruct (ms_self A) as [a|]; [|congruence]. destruct (ms_self B) as [b|]; [|congruence].
  step. apply (w_use_in _ _ _ _ _ H I1). step. apply (w_use_in _ _ _ _ _ H I2). step. step.
  step. apply (w_touch_in _ _ _ _ _ _ H (or_intror I3)); [auto|]. step. apply (w_touch_in _ _ _ _ _ _ H (or_intror I4)); [apply N3|]. step. apply (w_touch_in _ _ _ _ _ _ H (or_intror I5)); [apply N3|].
  step. apply K. exact H.
Qed.

(* the arrays of second-order cones *)
Definition soc_ptrs (l : list msoc) : list ptr := flat_map (fun o => [mo_q o; mo_skbar o; mo_zkbar o; mo_Didx o]) l.
Lemma w_socs q h ps f (Q : list msoc -> heap -> Prop) : st h ps f ->
  (forall l h', st h' ps (fun b => occ (soc_ptrs l) b + f b) -> length l = length q -> Q l h') ->
  wpm (collect q (fun k => q <~ malloc (k - 1) ;; sk <~ malloc k ;; zk <~ malloc k ;; Di <~ malloc k ;; ret (mkMsoc q sk zk Di))) h Q.
Proof.
  revert h f Q. induction q as [|k q IH]; intros h f Q H K; cbn [collect].
  - step. apply K; [|reflexivity]. apply (st_eq _ _ _ _ _ H). intros b. reflexivity.
  - step. repeat step.
    match goal with H : st ?h (?p2 :: ?p1 :: ?p0 :: ?p :: ps) f |- _ => rename h into hh; rename p2 into P2, p1 into P1, p0 into P0, p into P end.
    assert (H': st hh ps (fun b => ind P2 b + ind P1 b + ind P0 b + ind P b + f b)).
    { apply (st_eq _ _ _ _ _ H). intros b. cbn [occ]. lia. }
    apply (IH _ _ _ H'). intros l h4 H4 L. step. apply K; [|cbn; lia].
    apply (st_eq _ _ _ _ _ H4). intros b. cbn [soc_ptrs flat_map app occ mo_q mo_skbar mo_zkbar mo_Didx]. fold (soc_ptrs l). lia.
Qed.
Lemma w_free_socs l (W c : nat) (so : ptr) h ps f (Q : unit -> heap -> Prop) : st h ps (fun b => occ (soc_ptrs l) b + f b) ->
  In (Some W) ps -> In (Some c) ps -> (l <> [] -> so <> None) -> In so ps -> (forall h', st h' ps f -> Q tt h') ->
  wpm (each l (fun o => free_at [Some W; Some c; so] (mo_q o) ;;; free_at [Some W; Some c; so] (mo_skbar o) ;;; free_at [Some W; Some c; so] (mo_zkbar o) ;;; free_at [Some W; Some c; so] (mo_Didx o))) h Q.
Proof.
  revert h Q. induction l as [|o l IH]; intros h Q H I1 I2 I3 I4 K; cbn [each].
  - step. apply K. exact H.
  - assert (I5: exists x, so = Some x /\ In (Some x) ps) by (destruct so as [x|]; [eauto|destruct (I3 ltac:(discriminate) eq_refl)]).
    assert (H': st h (mo_q o :: mo_skbar o :: mo_zkbar o :: mo_Didx o :: ps) (fun b => occ (soc_ptrs l) b + f b)).
    { apply (st_eq _ _ _ _ _ H). intros b. cbn [soc_ptrs flat_map app occ]. fold (soc_ptrs l). lia. }
    clear H. rename H' into H.
    assert (X: forall p h ps' (Q : unit -> heap -> Prop), st h (p :: ps' ++ ps) (fun b => occ (soc_ptrs l) b + f b) ->
        (forall h', st h' (ps' ++ ps) (fun b => occ (soc_ptrs l) b + f b) -> Q tt h') -> wpm (free_at [Some W; Some c; so] p) h Q).
    { clear - I1 I2 I5. destruct I5 as (x & -> & I3). intros p h ps' Q H K. unfold free_at. cbn [each].
      do 4 (first [apply w_bind; (apply (w_use_in _ _ _ _ _ H)); [right; apply in_or_app; right; assumption|] | apply w_bind]). 
      all: try (apply w_ret). apply (w_free _ _ _ _ _ H). exact K. }
    step. step. apply (X _ _ [mo_skbar o; mo_zkbar o; mo_Didx o] _ H). clear H. intros h1 H.
    step. apply (X _ _ [mo_zkbar o; mo_Didx o] _ H). clear H. intros h2 H.
    step. apply (X _ _ [mo_Didx o] _ H). clear H. intros h3 H.
    apply (X _ _ [] _ H). clear H. intros h4 H. apply (IH _ _ H); auto. intros _. destruct I5 as (x & -> & _). discriminate.
Qed.

(* ---- the workspace ---- *)
Definition core (w : mwork) : list ptr :=
  let C := mw_C w in let K := mw_KKT w in
  [mw_self w; mw_x w; mw_y w; mw_z w; mw_s w; mw_lambda w; mw_dsW w; mw_ds w; mw_dz w; mw_saff w; mw_zaff w; mw_Wdz w; mw_bx w; mw_by w; mw_bz w; mw_bs w; mw_binfo w;
   mw_info w; mw_xe w; mw_Ae w; mw_Ge w; mw_stgs w; ms_self (mw_G w); mw_AtoK w; mw_GtoK w; mw_rx w; mw_ry w; mw_rz w;
   mc_self C; mc_lpc C; mc_w C; mc_v C; mc_kidx C; mc_soc C; mc_expc C;
   mk_self K; mk_D K; mk_Parent K; mk_Pinv K; mk_w1 K; mk_w2 K; mk_w3 K; mk_w4 K; mk_w5 K; mk_w6 K; mk_Flag K; mk_Pattern K; mk_Lnz K; mk_RHS1 K; mk_RHS2 K;
   mk_dx1 K; mk_dx2 K; mk_dy1 K; mk_dy2 K; mk_dz1 K; mk_dz2 K; mk_Sign K; mk_PK K; mk_P K;
   ms_self (mk_PKPt K); ms_pr (mk_PKPt K); ms_ir (mk_PKPt K); ms_jc (mk_PKPt K); ms_self (mk_L K); ms_pr (mk_L K); ms_ir (mk_L K); ms_jc (mk_L K);
   match mw_A w with Some A => ms_self A | None => None end].
Definition socs_of (w : mwork) : list ptr := soc_ptrs (mc_socs (mw_C w)).

Record okw (w : mwork) : Prop := mkOkw {
  ok_self : mw_self w <> None; ok_G : ms_self (mw_G w) <> None; ok_A : forall A, mw_A w = Some A -> ms_self A <> None; ok_C : mc_self (mw_C w) <> None; ok_lpc : mc_lpc (mw_C w) <> None;
  ok_soc : mc_socs (mw_C w) <> [] -> mc_soc (mw_C w) <> None; ok_K : mk_self (mw_KKT w) <> None; ok_PKPt : ms_self (mk_PKPt (mw_KKT w)) <> None; ok_L : ms_self (mk_L (mw_KKT w)) <> None;
  ok_stgs : mw_stgs w <> None;
  ok_l : mc_l (mw_C w) = 0 -> mc_w (mw_C w) = None /\ mc_v (mw_C w) = None /\ mc_kidx (mw_C w) = None; ok_nosoc : mc_socs (mw_C w) = [] -> mc_soc (mw_C w) = None;
  ok_exp : mc_nexc (mw_C w) = 0 -> mc_expc (mw_C w) = None; ok_AtoK : mw_A w = None -> mw_AtoK w = None; ok_ry : mw_p w = 0 -> mw_ry w = None;
  ok_Ae : forall A, mw_A w = Some A -> ms_nnz A <> 0 -> mw_Ae w <> None /\ mw_xe w <> None; ok_Ae2 : mw_p w <> 0 -> mw_Ae w <> None;
  ok_Ge : ms_nnz (mw_G w) <> 0 -> mw_xe w <> None; ok_Ge2 : mw_m w <> 0 -> mw_Ge w <> None }.

(* the caller's arrays, as far as cleanup reads them *)
Definition data_readable (f : nat -> nat) (w : mwork) : Prop :=
  (mw_m w <> 0 -> readable f (ms_n (mw_G w)) (ms_jc (mw_G w)) /\ readable f (ms_nnz (mw_G w)) (ms_ir (mw_G w)) /\ readable f (ms_nnz (mw_G w)) (ms_pr (mw_G w))) /\
  readable f (mw_m w) (mw_h w) /\
  forall A, mw_A w = Some A -> readable f (ms_n A) (ms_jc A) /\ readable f (ms_nnz A) (ms_ir A) /\ readable f (ms_nnz A) (ms_pr A) /\ readable f (mw_p w) (mw_b w).

Definition kept (w : mwork) (keepvars : nat) : list ptr := firstn keepvars [mw_x w; mw_y w; mw_s w; mw_z w].

Ltac prj := cbn [mw_self mw_x mw_y mw_z mw_s mw_lambda mw_dsW mw_ds mw_dz mw_saff mw_zaff mw_Wdz mw_bx mw_by mw_bz mw_bs mw_binfo mw_C mw_info mw_xe mw_Ae mw_Ge mw_stgs mw_A mw_G mw_AtoK mw_GtoK mw_KKT mw_rx mw_ry mw_rz mw_b mw_h mw_p mw_m
    mc_self mc_lpc mc_l mc_w mc_v mc_kidx mc_soc mc_socs mc_nexc mc_expc
    mk_self mk_D mk_Parent mk_Pinv mk_w1 mk_w2 mk_w3 mk_w4 mk_w5 mk_w6 mk_Flag mk_Pattern mk_Lnz mk_RHS1 mk_RHS2 mk_dx1 mk_dx2 mk_dy1 mk_dy2 mk_dz1 mk_dz2 mk_Sign mk_PKPt mk_PK mk_P mk_L
    ms_self ms_jc ms_ir ms_pr ms_n ms_nnz].
Ltac prjin H := cbn [mw_self mw_x mw_y mw_z mw_s mw_lambda mw_dsW mw_ds mw_dz mw_saff mw_zaff mw_Wdz mw_bx mw_by mw_bz mw_bs mw_binfo mw_C mw_info mw_xe mw_Ae mw_Ge mw_stgs mw_A mw_G mw_AtoK mw_GtoK mw_KKT mw_rx mw_ry mw_rz mw_b mw_h mw_p mw_m
    mc_self mc_lpc mc_l mc_w mc_v mc_kidx mc_soc mc_socs mc_nexc mc_expc
    mk_self mk_D mk_Parent mk_Pinv mk_w1 mk_w2 mk_w3 mk_w4 mk_w5 mk_w6 mk_Flag mk_Pattern mk_Lnz mk_RHS1 mk_RHS2 mk_dx1 mk_dx2 mk_dy1 mk_dy2 mk_dz1 mk_dz2 mk_Sign mk_PKPt mk_PK mk_P mk_L
    ms_self ms_jc ms_ir ms_pr ms_n ms_nnz] in H.
Ltac delp p ps := lazymatch ps with p :: ?t => t | ?x :: ?t => let t' := delp p t in constr:(x :: t') end.
Ltac nn p := let b := fresh "b" in destruct p as [b|]; [|exfalso; congruence].
Ltac tch H := first [apply (w_touch _ _ _ _ _ _ H); [solve [assumption|auto]|] | apply (w_touch_in _ _ _ _ _ _ H); [isin; fail|solve [auto; intuition]|]].

Ltac mid l := lazymatch goal with H : st ?h ?ps ?g |- wpm _ ?h _ =>
  let rec go l ps := lazymatch l with [] => ps | ?p :: ?l => let ps' := delp p ps in go l ps' end in
  let ps' := go l ps in apply (w_conseq _ _ (fun _ h' => st h' ps' g)) end.
Lemma readable_mono f g k p : readable f k p -> (forall b, f b <= g b) -> readable g k p.
Proof. intros [E|(x & E & L)] I; [left; exact E|right]. exists x. split; [exact E|]. specialize (I x). lia. Qed.

Lemma unset_ok w h ps f (Q : unit -> heap -> Prop) : okw w -> st h ps f -> (forall p, In p (core w) -> In p ps) -> data_readable f w -> Q tt h -> wpm (unset_equilibration w) h Q.
Proof.
  intros OK H I (R1 & R2 & R3) K. unfold unset_equilibration.
  assert (I1: In (mw_self w) ps) by (apply I; cbn; auto). assert (I2: In (ms_self (mw_G w)) ps) by (apply I; cbn; do 22 right; left; reflexivity).
  assert (I3: In (mw_xe w) ps) by (apply I; cbn; do 18 right; left; reflexivity). assert (I4: In (mw_Ae w) ps) by (apply I; cbn; do 19 right; left; reflexivity).
  assert (I5: In (mw_Ge w) ps) by (apply I; cbn; do 20 right; left; reflexivity).
  assert (I6: forall A, mw_A w = Some A -> In (ms_self A) ps) by (intros A E; apply I; unfold core; rewrite E; isin).
  pose proof (ok_self w OK) as O1. pose proof (ok_G w OK) as O2.
  apply w_bind. destruct (mw_self w) as [self|]; [|congruence]. apply (w_use_in _ _ _ _ _ H I1).
  apply w_bind. destruct (ms_self (mw_G w)) as [gs|]; [|congruence]. apply (w_use_in _ _ _ _ _ H I2).
  apply w_bind.
  assert (X: wpm (when (negb (mw_m w =? 0)) (touch (ms_n (mw_G w)) (ms_jc (mw_G w)) ;;; touch (ms_nnz (mw_G w)) (ms_ir (mw_G w)) ;;; touch (ms_nnz (mw_G w)) (ms_pr (mw_G w)) ;;;
     touch (ms_nnz (mw_G w)) (mw_Ge w) ;;; touch (ms_nnz (mw_G w)) (mw_xe w)) ;;; touch (mw_m w) (mw_h w) ;;; touch (mw_m w) (mw_Ge w)) h Q).
  { apply w_bind. assert (Y: wpm (touch (mw_m w) (mw_h w) ;;; touch (mw_m w) (mw_Ge w)) h Q).
    { apply w_bind. apply (w_touch _ _ _ _ _ _ H R2). apply (w_touch_in _ _ _ _ _ _ H I5); [exact (ok_Ge2 w OK)|]. exact K. }
    unfold when. destruct (Nat.eqb_spec (mw_m w) 0) as [E|E]; cbn [negb]; [apply w_ret; exact Y|]. destruct (R1 E) as (Ra & Rb & Rc).
    apply w_bind, (w_touch _ _ _ _ _ _ H Ra). apply w_bind, (w_touch _ _ _ _ _ _ H Rb). apply w_bind, (w_touch _ _ _ _ _ _ H Rc).
    apply w_bind, (w_touch_in _ _ _ _ _ _ H I5); [intros _; exact (ok_Ge2 w OK E)|]. apply (w_touch_in _ _ _ _ _ _ H I3); [exact (ok_Ge w OK)|]. exact Y. }
  destruct (mw_A w) as [A|] eqn:EA; [|apply w_ret; exact X].
  destruct (R3 A eq_refl) as (Ra & Rb & Rc & Rd). specialize (I6 A eq_refl). pose proof (ok_A w OK A EA) as OA. destruct (ms_self A) as [sa|]; [|congruence].
  apply w_bind, (w_use_in _ _ _ _ _ H I6). apply w_bind, (w_touch _ _ _ _ _ _ H Ra). apply w_bind, (w_touch _ _ _ _ _ _ H Rb). apply w_bind, (w_touch _ _ _ _ _ _ H Rc).
  apply w_bind, (w_touch_in _ _ _ _ _ _ H I4); [intros N; exact (proj1 (ok_Ae w OK A EA N))|]. apply w_bind, (w_touch_in _ _ _ _ _ _ H I3); [intros N; exact (proj2 (ok_Ae w OK A EA N))|].
  apply w_bind, (w_touch _ _ _ _ _ _ H Rd). apply (w_touch_in _ _ _ _ _ _ H I4); [exact (ok_Ae2 w OK)|]. exact X.
Qed.

Lemma cleanup_ok w keep h f : okw w -> st h (core w) (fun b => occ (socs_of w) b + f b) -> data_readable f w ->
  wpm (ECOS_cleanup w keep) h (fun _ h' => st h' (kept w keep) f).
Proof.
  intros OK H R. unfold ECOS_cleanup. apply w_bind. apply (unset_ok _ _ _ _ _ OK H); [auto| |].
  { destruct R as (R1 & R2 & R3). split; [|split].
    - intros E. destruct (R1 E) as (a & b & c). repeat split; (eapply readable_mono; [eassumption|]; intros; cbv beta; lia).
    - eapply readable_mono; [eassumption|]. intros; cbv beta; lia.
    - intros A E. destruct (R3 A E) as (a & b & c & d). repeat split; (eapply readable_mono; [eassumption|]; intros; cbv beta; lia). }
  clear R. destruct OK as [O1 O2 O3 O4 O5 O6 O7 O8 O9 O10 O11 O12 O13 O14 O15 O16 O17 O18 O19].
  destruct w as [self x y z s lam dsW ds dz saff zaff Wdz bx by_ bz bs binfo C info xe Ae Ge stgs A G AtoK GtoK K rx ry rz b0 h0 p m].
  destruct C as [c lpc l lw lv kidx soc socs nexc expc].
  destruct K as [k D Par Pinv w1 w2 w3 w4 w5 w6 Flag Pat Lnz Rh1 Rh2 dx1 dx2 dy1 dy2 dz1 dz2 Sign [Ps Pj Pi Pp Pn Pz] PK P [Ls Lj Li Lp Ln Lz]].
  destruct G as [Gs Gj Gi Gp Gn Gz].
  unfold core, socs_of in H. cbv zeta in H. prjin H. prjin O1. prjin O2. prjin O3. prjin O4. prjin O5. prjin O6. prjin O7. prjin O8. prjin O9. prjin O10. prjin O11. prjin O12. prjin O13. prjin O14. prjin O15. prjin O16. prjin O17. prjin O18. prjin O19.
  nn self. nn Gs. nn c. nn lpc. nn k. nn Ps. nn Ls. nn stgs.
  unfold kept.
  prj.
  unfold freeSparseMatrix. prj.
  assert (X: forall As, (match A with Some A => ms_self A | None => None end) = As -> st h
       [Some b; x; y; z; s; lam; dsW; ds; dz; saff; zaff; Wdz; bx; by_; bz; bs; binfo; info; xe; Ae; Ge; Some b7; Some b1; AtoK; GtoK; rx; ry; rz; Some b2; Some b3; lw; lv; kidx; soc; expc;
        Some b4; D; Par; Pinv; w1; w2; w3; w4; w5; w6; Flag; Pat; Lnz; Rh1; Rh2; dx1; dx2; dy1; dy2; dz1; dz2; Sign; PK; P; Some b5; Pp; Pi; Pj; Some b6; Lp; Li; Lj; As] (fun b => occ (soc_ptrs socs) b + f b))
    by (intros As <-; exact H).
  clear H.
  assert (L3: negb (l =? 0) = false -> lw = None /\ lv = None /\ kidx = None) by (intros E; apply O11; destruct (Nat.eqb_spec l 0); [assumption|discriminate]).
  assert (L4: negb (length socs =? 0) = false -> soc = None) by (intros E; apply O12; destruct socs; [reflexivity|discriminate]).
  assert (L5: negb (nexc =? 0) = false -> expc = None) by (intros E; apply O13; destruct (Nat.eqb_spec nexc 0); [assumption|discriminate]).
  destruct A as [[As Aj Ai Ap An Az]|]; prjin O3; prjin X; prj.
  - assert (NA: As <> None) by exact (O3 _ eq_refl). specialize (X As eq_refl). rename X into H. nn As.
    repeat step.
    mid [kidx; lv; lw]; [unfold when; destruct (negb (l =? 0)) eqn:E; [repeat step; exact H|step; destruct (L3 eq_refl) as (-> & -> & ->); apply (st_eq _ _ _ _ _ H); intros; cbn [occ ind]; lia]|].
    clear H. intros _ h1 H. repeat step.
    match goal with H : st ?hh ?ps _ |- _ => apply (w_free_socs socs _ _ soc hh ps f _ H); [isin|isin|exact O6|isin|] end.
    clear H. intros h2 H. repeat step.
    mid [soc]; [unfold when; destruct (negb (length socs =? 0)) eqn:E; [repeat step; exact H|step; rewrite (L4 eq_refl) in *; apply (st_eq _ _ _ _ _ H); intros; cbn [occ ind]; lia]|].
    clear H. intros _ h3 H. repeat step.
    mid [expc]; [unfold when; destruct (negb (nexc =? 0)) eqn:E; [repeat step; exact H|step; rewrite (L5 eq_refl) in *; apply (st_eq _ _ _ _ _ H); intros; cbn [occ ind]; lia]|].
    clear H. intros _ h4 H. repeat step.
    destruct keep as [|[|[|[|keep]]]]; cbn [Nat.ltb Nat.leb when firstn]; repeat step; (apply (st_eq _ _ _ _ _ H); intros; rewrite ?firstn_nil; cbn [occ ind firstn]; lia).
  - specialize (X None eq_refl). rename X into H. specialize (O14 eq_refl). subst AtoK. repeat step.
    mid [kidx; lv; lw]; [unfold when; destruct (negb (l =? 0)) eqn:E; [repeat step; exact H|step; destruct (L3 eq_refl) as (-> & -> & ->); apply (st_eq _ _ _ _ _ H); intros; cbn [occ ind]; lia]|].
    clear H. intros _ h1 H. repeat step.
    match goal with H : st ?hh ?ps _ |- _ => apply (w_free_socs socs _ _ soc hh ps f _ H); [isin|isin|exact O6|isin|] end.
    clear H. intros h2 H. repeat step.
    mid [soc]; [unfold when; destruct (negb (length socs =? 0)) eqn:E; [repeat step; exact H|step; rewrite (L4 eq_refl) in *; apply (st_eq _ _ _ _ _ H); intros; cbn [occ ind]; lia]|].
    clear H. intros _ h3 H. repeat step.
    mid [expc]; [unfold when; destruct (negb (nexc =? 0)) eqn:E; [repeat step; exact H|step; rewrite (L5 eq_refl) in *; apply (st_eq _ _ _ _ _ H); intros; cbn [occ ind]; lia]|].
    clear H. intros _ h4 H. repeat step.
    destruct keep as [|[|[|[|keep]]]]; cbn [Nat.ltb Nat.leb when firstn]; repeat step; (apply (st_eq _ _ _ _ _ H); intros; rewrite ?firstn_nil; cbn [occ ind firstn]; lia).
Qed.



(* ---- setup ---- *)
Lemma w_create n nnz jc ir pr h ps f (Q : mspmat -> heap -> Prop) : st h ps f -> (jc <> None -> exists x, jc = Some x /\ 0 < cnt h x) ->
  (forall s h', st h' (Some s :: ps) f -> Q (mkMs (Some s) jc ir pr n nnz) h') -> wpm (ecoscreateSparseMatrix n nnz jc ir pr) h Q.
Proof.
  intros H L K. unfold ecoscreateSparseMatrix. assert (H0 := H). assert (H1 := proj1 H0). clear H0. step. step. step. destruct jc as [x|]; cbn [isNull].
  - destruct (L ltac:(discriminate)) as (x' & E & P). injection E as <-. apply w_use; [|step; apply K; exact H].
    rewrite H1 in P. rewrite (proj1 H). cbn [occ]. lia.
  - step. step. apply K. exact H.
Qed.
Lemma w_cone sh h ps f (Q : mcone -> heap -> Prop) : st h ps f ->
  (forall c lpc w v kidx soc socs expc h', st h' (expc :: soc :: kidx :: v :: w :: Some lpc :: Some c :: ps) (fun b => occ (soc_ptrs socs) b + f b) ->
     (sh_l sh = 0 -> w = None /\ v = None /\ kidx = None) -> (socs = [] -> soc = None) -> (socs <> [] -> soc <> None) -> (sh_nexc sh = 0 -> expc = None) ->
     Q (mkMcone (Some c) (Some lpc) (sh_l sh) w v kidx soc socs (sh_nexc sh) expc) h') ->
  wpm (new_cone sh) h Q.
Proof.
  intros H K. unfold new_cone.
  do 10 step. step.
  destruct (length (sh_q sh) =? 0) eqn:E.
  - step. apply Nat.eqb_eq in E. destruct (sh_q sh); [|discriminate]. cbn [collect]. step. step. step. step. step. apply (K _ _ _ _ _ None [] _).
    + apply (st_eq _ _ _ _ _ H). intros. cbn. lia.
    + intros Z. rewrite Z in *. cbn in *. auto.
    + auto.
    + congruence.
    + intros Z. rewrite Z in *. cbn in *. auto.
  - apply (w_malloc _ _ _ _ _ H). clear H. intros soc h1 H N. step.
    match goal with H : st ?hh ?ps f |- _ => apply (w_socs _ hh ps f _ H) end. clear H. intros socs h2 H L. step. step. step. apply K.
    + exact H.
    + intros Z. rewrite Z in *. cbn in *. auto.
    + intros Z. subst socs. cbn in L. rewrite <- L in E. discriminate.
    + intros _. apply N. apply Nat.eqb_neq. exact E.
    + intros Z. rewrite Z in *. cbn in *. auto.
Qed.
Lemma w_ruiz sh A G b hh h ps f (Q : unit -> heap -> Prop) : st h ps f ->
  (forall A', A = Some A' -> readable f (ms_n A') (ms_jc A') /\ readable f (ms_nnz A') (ms_ir A') /\ readable f (ms_nnz A') (ms_pr A') /\ readable f (sh_p sh) b) ->
  (sh_m sh <> 0 -> readable f (ms_n G) (ms_jc G) /\ readable f (ms_nnz G) (ms_ir G) /\ readable f (ms_nnz G) (ms_pr G)) -> readable f (sh_m sh) hh ->
  (forall h', st h' ps f -> Q tt h') -> wpm (use_ruiz_equilibration sh A G b hh) h Q.
Proof.
  intros H RA RG Rh K. unfold use_ruiz_equilibration. do 7 step.
  match goal with H : st ?h _ _ |- wpm _ ?h _ => set (h9 := h) in * end.
  apply (w_conseq _ _ (fun _ h' => h' = h9)).
  { destruct A as [A|]; [|step; reflexivity]. destruct (RA A eq_refl) as (Ra & Rb & Rc & Rd).
    apply w_bind, (w_touch _ _ _ _ _ _ H Ra). apply w_bind, (w_touch _ _ _ _ _ _ H Rb). apply w_bind, (w_touch _ _ _ _ _ _ H Rc). apply (w_touch _ _ _ _ _ _ H Rd). reflexivity. }
  intros _ hx ->. step. apply (w_conseq _ _ (fun _ h' => h' = h9)).
  { unfold when. destruct (Nat.eqb_spec (sh_m sh) 0) as [Z|Z]; cbn [negb]; [step; reflexivity|]. destruct (RG Z) as (Ra & Rb & Rc).
    apply w_bind, (w_touch _ _ _ _ _ _ H Ra). apply w_bind, (w_touch _ _ _ _ _ _ H Rb). apply w_bind, (w_touch _ _ _ _ _ _ H Rc). apply (w_touch _ _ _ _ _ _ H Rh). reflexivity. }
  intros _ hx ->. clearbody h9. repeat step. apply K. exact H.
Qed.
Lemma w_createKKT sh h ps f (Q : ptr * mspmat -> heap -> Prop) : st h ps f ->
  (forall Sg s pr ir jc h', st h' (Some s :: Sg :: Some jc :: ir :: pr :: ps) f -> (sh_nnzK sh <> 0 -> ir <> None /\ pr <> None) -> (sh_nK sh <> 0 -> Sg <> None) ->
     Q (Sg, mkMs (Some s) (Some jc) ir pr (sh_nK sh) (sh_nnzK sh)) h') -> wpm (createKKT_U sh) h Q.
Proof.
  intros H K. unfold createKKT_U. do 9 step.
  match goal with H : st ?hh ?ps f |- _ => apply (w_create _ _ _ _ _ hh ps f _ H) end.
  { intros _. eexists. split; [reflexivity|]. rewrite (proj1 H). cbn [occ]. rewrite ind_self. lia. }
  clear H. intros s hx H. step. apply K; auto.
Qed.
Lemma w_kkt sh h ps f (Q : mkkt -> heap -> Prop) : st h ps f ->
  (forall k D Par Pinv w1 w2 w3 w4 w5 w6 Flag Pat Lnz R1 R2 dx1 dx2 dy1 dy2 dz1 dz2 Sg s pr ir jc PK h',
     st h' (PK :: Some s :: pr :: ir :: Some jc :: Sg :: dz2 :: dz1 :: dy2 :: dy1 :: dx2 :: dx1 :: R2 :: R1 :: Lnz :: Pat :: Flag :: w6 :: w5 :: w4 :: w3 :: w2 :: w1 :: Pinv :: Par :: D :: Some k :: ps) f ->
     Q (mkMkkt (Some k) D Par Pinv w1 w2 w3 w4 w5 w6 Flag Pat Lnz R1 R2 dx1 dx2 dy1 dy2 dz1 dz2 Sg (mkMs (Some s) (Some jc) ir pr (sh_nK sh) (sh_nnzK sh)) PK None (mkMs None None None None 0 0)) h') ->
  wpm (new_kkt sh) h Q.
Proof.
  intros H K. unfold new_kkt. cbv zeta. repeat step.
  match goal with H : st ?hh ?ps f |- wpm (newSparseMatrix _ _) _ _ => apply (w_newSparse _ _ hh ps f _ H) end. clear H. intros s pr ir jc hx H _. repeat step. apply K. exact H.
Qed.

From Verif.Spec Require Import HeapSpec.

Lemma owned_cnt h p : owned h p -> exists x, p = Some x /\ 0 < cnt h x.
Proof. intros (b & E & I). exists b. split; [exact E|]. apply count_occ_In. exact I. Qed.
Lemma array_readable h k p f : array h k p -> (forall b, In b (hp_live h) -> 0 < f b) -> readable f k p.
Proof. intros [E|(b & E & I)] L; [left; exact E|right]. exists b. auto. Qed.
Lemma given_dec pr jc ir : (isNull pr || isNull jc || isNull ir)%bool = false <-> given pr jc ir.
Proof. unfold given. destruct pr, jc, ir; cbn; split; intros; try (repeat split; congruence); intuition congruence. Qed.

(* the workspace points to the caller's arrays *)
Definition refers (sh : shape) (u : muser) (w : mwork) : Prop :=
  (exists s, mw_G w = mkMs (Some s) (mu_Gjc u) (mu_Gir u) (mu_Gpr u) (sh_n sh) (sh_nnzG sh)) /\ mw_h w = mu_h u /\ mw_b w = mu_b u /\ mw_p w = sh_p sh /\ mw_m w = sh_m sh /\
  forall A, mw_A w = Some A -> given (mu_Apr u) (mu_Ajc u) (mu_Air u) /\ exists s, A = mkMs s (mu_Ajc u) (mu_Air u) (mu_Apr u) (sh_n sh) (sh_nnzA sh).
Definition after_setup (sh : shape) (u : muser) (f : nat -> nat) (r : option mwork) (h1 : heap) : Prop :=
  match r with
  | None => ~ (consistent sh /\ sh_amd sh = true) /\ exists b, forall x, ind (Some b) x + f x <= cnt h1 x
  | Some w => consistent sh /\ sh_amd sh = true /\ st h1 (core w) (fun b => occ (socs_of w) b + f b) /\ okw w /\ refers sh u w /\
      (sh_n sh <> 0 -> mw_x w <> None) /\ (sh_p sh <> 0 -> mw_y w <> None) /\ (sh_m sh <> 0 -> mw_s w <> None /\ mw_z w <> None)
  end.

Lemma w_G sh u hc h ps f : st h ps f -> arguments hc sh u -> (forall b, In b (hp_live hc) -> 0 < f b) ->
  wpm (if (isNull (mu_Gpr u) || isNull (mu_Gjc u) || isNull (mu_Gir u))%bool then ecoscreateSparseMatrix (sh_n sh) 0 (mu_Gjc u) (mu_Gir u) (mu_Gpr u)
       else use (mu_Gjc u) ;;; ecoscreateSparseMatrix (sh_n sh) (sh_nnzG sh) (mu_Gjc u) (mu_Gir u) (mu_Gpr u)) h
    (fun G h' => exists s, G = mkMs (Some s) (mu_Gjc u) (mu_Gir u) (mu_Gpr u) (sh_n sh) (sh_nnzG sh) /\ st h' (Some s :: ps) f).
Proof.
  intros H AR LV. destruct (isNull (mu_Gpr u) || isNull (mu_Gjc u) || isNull (mu_Gir u))%bool eqn:E.
  - assert (N: ~ given (mu_Gpr u) (mu_Gjc u) (mu_Gir u)) by (intros X; apply given_dec in X; congruence).
    destruct (ar_noG _ _ _ AR N) as (Z & O & _). apply (w_create _ _ _ _ _ h ps f _ H).
    + intros X. destruct (O X) as (b & -> & I). exists b. split; [reflexivity|]. rewrite (proj1 H). specialize (LV b I). lia.
    + intros s h' H'. exists s. rewrite Z. auto.
  - apply given_dec in E. destruct (ar_G _ _ _ AR E) as ((b & Eb & I) & _ & _). specialize (LV b I). assert (P: 0 < cnt h b) by (rewrite (proj1 H); lia).
    step. rewrite Eb. apply w_use; [exact P|]. apply (w_create _ _ _ _ _ h ps f _ H); [eauto|]. intros s h' H'. exists s. auto.
Qed.
Lemma w_A sh u hc h ps f : st h ps f -> arguments hc sh u -> (forall b, In b (hp_live hc) -> 0 < f b) ->
  wpm (if (isNull (mu_Apr u) || isNull (mu_Ajc u) || isNull (mu_Air u))%bool then ret None
       else use (mu_Ajc u) ;;; A <~ ecoscreateSparseMatrix (sh_n sh) (sh_nnzA sh) (mu_Ajc u) (mu_Air u) (mu_Apr u) ;; ret (Some A)) h
    (fun A h' => (A = None /\ st h' ps f) \/
       exists s, A = Some (mkMs (Some s) (mu_Ajc u) (mu_Air u) (mu_Apr u) (sh_n sh) (sh_nnzA sh)) /\ st h' (Some s :: ps) f /\ given (mu_Apr u) (mu_Ajc u) (mu_Air u)).
Proof.
  intros H AR LV. destruct (isNull (mu_Apr u) || isNull (mu_Ajc u) || isNull (mu_Air u))%bool eqn:E.
  - step. left. auto.
  - apply given_dec in E. destruct (ar_A _ _ _ AR E) as (((b & Eb & I) & R1 & R2) & R3). pose proof (LV b I) as LVb. assert (P: 0 < cnt h b) by (rewrite (proj1 H); lia).
    step. rewrite Eb. apply w_use; [exact P|]. step. apply (w_create _ _ _ _ _ h ps f _ H); [eauto|]. intros s h' H'. step. right. exists s. rewrite <- Eb. auto.
Qed.
Lemma A_readable sh u hc f : arguments hc sh u -> (forall b, In b (hp_live hc) -> 0 < f b) -> given (mu_Apr u) (mu_Ajc u) (mu_Air u) ->
  readable f (sh_n sh) (mu_Ajc u) /\ readable f (sh_nnzA sh) (mu_Air u) /\ readable f (sh_nnzA sh) (mu_Apr u) /\ readable f (sh_p sh) (mu_b u).
Proof.
  intros AR LV E. destruct (ar_A _ _ _ AR E) as (((b & Eb & I) & R1 & R2) & R3). split; [right; eauto|]. repeat split; eapply array_readable; eassumption.
Qed.
Lemma w_mA (A : option mspmat) h ps f (Q : ptr -> heap -> Prop) : st h ps f -> (forall p h', st h' (p :: ps) f -> (A = None -> p = None) -> Q p h') ->
  wpm (match A with Some A => malloc (ms_nnz A) | None => ret None end) h Q.
Proof.
  intros H K. destruct A as [A|].
  - apply (w_malloc _ h ps f _ H). intros p h' H' _. apply K; [exact H'|discriminate].
  - step. apply K; [|auto]. apply (st_eq _ _ _ _ _ H). reflexivity.
Qed.
Lemma w_At m (A : option mspmat) h ps f (Q : option mspmat -> heap -> Prop) : st h ps f ->
  (forall A', A = Some A' -> readable f (ms_nnz A') (ms_ir A') /\ readable f (ms_nnz A') (ms_pr A')) ->
  (forall At s pr ir jc h', st h' (s :: pr :: ir :: jc :: ps) f ->
     (A = None -> At = None /\ s = None /\ pr = None /\ ir = None /\ jc = None) -> (forall A', A = Some A' -> s <> None /\ At = Some (mkMs s jc ir pr m (ms_nnz A'))) -> Q At h') ->
  wpm (match A with Some A => At <~ transposeSparseMatrix m A ;; ret (Some At) | None => ret None end) h Q.
Proof.
  intros H R K. destruct A as [A|].
  - destruct (R A eq_refl) as (R1 & R2). step. apply (w_transpose m A h ps f _ H R1 R2). intros s pr ir jc h' H'. step. apply (K _ _ _ _ _ _ H'); [discriminate|].
    intros A' E. injection E as <-. split; [discriminate|reflexivity].
  - step. apply (K None None None None None h); [|auto|discriminate]. apply (st_eq _ _ _ _ _ H). reflexivity.
Qed.
Lemma w_freemat A h ps f (Q : unit -> heap -> Prop) : st h (ms_self A :: ms_pr A :: ms_ir A :: ms_jc A :: ps) f -> ms_self A <> None -> (forall h', st h' ps f -> Q tt h') ->
  wpm (freeSparseMatrix A) h Q.
Proof.
  intros H N K. unfold freeSparseMatrix. destruct A as [s jc ir pr n nnz]. prjin H. prjin N. prj. nn s. repeat step. apply K. exact H.
Qed.
Lemma G_readable sh u hc f : arguments hc sh u -> (forall b, In b (hp_live hc) -> 0 < f b) ->
  (sh_m sh <> 0 -> readable f (sh_n sh) (mu_Gjc u)) /\ readable f (sh_nnzG sh) (mu_Gir u) /\ readable f (sh_nnzG sh) (mu_Gpr u) /\ readable f (sh_m sh) (mu_h u).
Proof.
  intros AR LV. split; [|split; [|split]]; [| | |eapply array_readable; [exact (ar_h _ _ _ AR)|exact LV]].
  all: destruct (isNull (mu_Gpr u) || isNull (mu_Gjc u) || isNull (mu_Gir u))%bool eqn:E;
    [assert (N: ~ given (mu_Gpr u) (mu_Gjc u) (mu_Gir u)) by (intros X; apply given_dec in X; congruence); destruct (ar_noG _ _ _ AR N) as (Z & O & O')
    |apply given_dec in E; destruct (ar_G _ _ _ AR E) as (R0 & R1 & R2)].
  - intros M. destruct (mu_Gjc u) as [x|] eqn:Ex; [|destruct (M (O' eq_refl))]. destruct (O ltac:(discriminate)) as (b & -> & I). right. eauto.
  - intros _. destruct R0 as (b & -> & I). right. eauto.
  - left. exact Z.
  - eapply array_readable; eassumption.
  - left. exact Z.
  - eapply array_readable; eassumption.
Qed.

Lemma refers_readable sh u hc f w : refers sh u w -> arguments hc sh u -> (forall b, In b (hp_live hc) -> 0 < f b) -> data_readable f w.
Proof.
  intros ((s & EG) & Eh & Eb & Ep & Em & RA) AR LV. destruct (G_readable sh u hc _ AR LV) as (Ra & Rb & Rc & Rd). unfold data_readable. rewrite EG, Eh, Eb, Ep, Em. prj. split; [auto|]. split; [auto|].
  intros A E. destruct (RA A E) as (GA & s' & ->). exact (A_readable sh u hc _ AR LV GA).
Qed.
Lemma setup_ok sh u hc h f : st h [] f -> arguments hc sh u -> (forall b, In b (hp_live hc) -> 0 < f b) ->
  wpm (ECOS_setup sh u) h (after_setup sh u f).
Proof.
  intros H AR LV. unfold ECOS_setup. cbv zeta.
  do 35 step.
  match goal with H : st ?hh ?ps f |- wpm (new_cone _) _ _ => apply (w_cone _ hh ps f _ H) end. clear H. intros c lpc lw lv kidx soc socs expc h1 H L1 L2 L3 L4.
  destruct (negb (_ =? _)) eqn:EC.
  { step. split.
    - intros (C & _). unfold consistent in C. rewrite Bool.negb_true_iff, Nat.eqb_neq in EC. apply EC. lia.
    - exists b. intros x. rewrite (proj1 H). cbn [occ]. lia. }
  do 11 step.
  assert (LV': forall b, In b (hp_live hc) -> 0 < occ (soc_ptrs socs) b + f b) by (intros b9 I; specialize (LV b9 I); lia).
  match goal with H : st ?hh ?ps ?g |- wpm (if _ then ret None else _) _ _ => refine (w_conseq _ _ _ _ (w_A sh u hc hh ps g H AR LV') _) end.
  clear H. intros A h2 HA.
  assert (exists As, match A with Some A => ms_self A | None => None end = As) as (As & EAs) by eauto.
  step.
  match type of HA with _ /\ st ?hh ?ps ?g \/ _ => assert (H: st hh (As :: ps) g) by (destruct HA as [(-> & H)|(s & -> & H & _)]; cbn in EAs; subst As; [apply (st_eq _ _ _ _ _ H); intros; cbn [occ ind]; lia|exact H]) end.
  assert (RA: forall A', A = Some A' -> A' = mkMs As (mu_Ajc u) (mu_Air u) (mu_Apr u) (sh_n sh) (sh_nnzA sh) /\ As <> None /\ given (mu_Apr u) (mu_Ajc u) (mu_Air u)).
  { intros A' E. destruct HA as [(-> & _)|(s & -> & _ & G)]; [discriminate|]. injection E as <-. cbn in EAs. subst As. split; [reflexivity|]. split; [discriminate|exact G]. }
  assert (AsN: A = None -> As = None) by (intros ->; symmetry; exact EAs).
  clear HA EAs.
  match goal with H : st ?hh ?ps ?g |- wpm (if _ then ecoscreateSparseMatrix _ _ _ _ _ else _) _ _ => refine (w_conseq _ _ _ _ (w_G sh u hc hh ps g H AR LV') _) end.
  clear H. intros G h3 (Gs & EG & H). step.
  match goal with H : st ?hh ?ps ?g |- wpm (use_ruiz_equilibration _ _ _ _ _) _ _ => apply (w_ruiz sh A G _ _ hh ps g _ H) end.
  { intros A' E. destruct (RA A' E) as (-> & _ & GA). exact (A_readable sh u hc _ AR LV' GA). }
  { intros M. rewrite EG. destruct (G_readable sh u hc _ AR LV') as (Ra & Rb & Rc & _). prj. auto. }
  { destruct (G_readable sh u hc _ AR LV') as (_ & _ & _ & Rd). exact Rd. }
  clear H. intros h4 H. step.
  match goal with H : st ?hh ?ps ?g |- _ => apply (w_mA A hh ps g _ H) end. clear H. intros AtoAt h5 H NA1. step.
  match goal with H : st ?hh ?ps ?g |- _ => apply (w_At _ A hh ps g _ H) end.
  { intros A' E. destruct (RA A' E) as (-> & _ & GA). destruct (A_readable sh u hc _ AR LV' GA) as (_ & Rb & Rc & _). auto. }
  clear H. intros At Ats Atpr Atir Atjc h6 H NA2 NA3. step. step. step.
  match goal with H : st ?hh ?ps ?g |- wpm (transposeSparseMatrix _ _) _ _ => apply (w_transpose _ G hh ps g _ H) end.
  { rewrite EG. exact (proj1 (proj2 (G_readable sh u hc _ AR LV'))). }
  { rewrite EG. exact (proj1 (proj2 (proj2 (G_readable sh u hc _ AR LV')))). }
  clear H. intros Gts Gtpr Gtir Gtjc h7 H. step.
  match goal with H : st ?hh ?ps ?g |- _ => apply (w_mA A hh ps g _ H) end. clear H. intros AttoK h8 H NA4. step. step. step.
  match goal with H : st ?hh ?ps ?g |- wpm (createKKT_U _) _ _ => apply (w_createKKT sh hh ps g _ H) end.
  clear H. intros Sg Ks Kpr Kir Kjc h9 H K1 K2. step.
  match goal with H : st ?hh ?ps ?g |- _ => apply (w_mA A hh ps g _ H) end. clear H. intros AtoK h10 H NA5. step. step. step.
  match goal with H : st ?hh ?ps ?g |- wpm (new_kkt _) _ _ => apply (w_kkt sh hh ps g _ H) end.
  clear H. intros k D Par Pinv w1 w2 w3 w4 w5 w6 Flag Pat Lnz R1 R2 dx1 dx2 dy1 dy2 dz1 dz2 KSg Ps Ppr Pir Pjc PK h11 H. step. step.
  destruct (sh_amd sh) eqn:EAMD; cbn [negb].
  2:{ step. split; [intros (_ & X); congruence|]. exists b. intros x. rewrite (proj1 H). cbn [occ]. lia. }
  step. cbn [fst snd]. prj.
  match goal with H : st ?hh ?ps ?g |- wpm (permuteSparseSymmetricMatrix _ _) _ _ => apply (w_permute _ _ hh ps g _ H); prj; try (isin; fail); try discriminate end.
  { split; [discriminate|split; [discriminate|exact K1]]. }
  clear H. intros h12 H. step. 
  match goal with H : st ?hh ?ps ?g |- wpm (touch _ _) _ _ => apply (w_touch_in hh ps g _ _ _ H); [isin; fail|exact K2|] end.
  do 7 step.
  match goal with H : st ?hh ?ps ?g |- wpm (ecoscreateSparseMatrix _ _ _ _ _) _ _ => apply (w_create _ _ _ _ _ hh ps g _ H) end.
  { intros _. eexists. split; [reflexivity|]. rewrite (proj1 H). cbn [occ]. rewrite ind_self. lia. }
  clear H. intros Ls h13 H. step.
  match goal with H : st ?hh ?ps ?g |- wpm (permuteSparseSymmetricMatrix _ _) _ _ => apply (w_permute _ _ hh ps g _ H); prj; try (isin; fail); try discriminate end.
  { split; [discriminate|split; [discriminate|exact K1]]. }
  clear H. intros h14 H. do 9 step.
  mid [Ats; Atpr; Atir; Atjc; AtoAt; AttoK].
  { destruct A as [A|].
    - destruct (NA3 A eq_refl) as (N & ->). nn Ats. unfold freeSparseMatrix. prj. repeat step. exact H.
    - destruct (NA2 eq_refl) as (-> & -> & -> & -> & ->). rewrite (NA1 eq_refl), (NA4 eq_refl) in *. step. apply (st_eq _ _ _ _ _ H). intros. cbn [occ ind]. lia. }
  clear H. intros _ h15 H. step. unfold freeSparseMatrix. prj. repeat step.
  assert (CO: consistent sh) by (unfold consistent; rewrite Bool.negb_false_iff, Nat.eqb_eq in EC; lia).
  cbv beta iota delta [after_setup]. split; [exact CO|]. split; [exact EAMD|]. rewrite EG. unfold set_PL. prj. split; [|split; [|split; [|split; [assumption|split; [assumption|auto]]]]].
  - apply (st_eq _ _ _ _ _ H). intros x. unfold core, socs_of. cbv zeta. prj.
    assert (EA: match A with Some A0 => ms_self A0 | None => None end = As) by (destruct A as [A|]; [destruct (RA A eq_refl) as (-> & _); reflexivity|symmetry; auto]).
    rewrite EA. cbn [occ]. lia.
  - constructor; prj; try discriminate; try assumption.
    + intros A' E. destruct (RA A' E) as (-> & X & _). exact X.
    + intros E. match goal with X : (sh_p sh =? 0) = true -> _ |- _ => apply X; rewrite E; reflexivity end.
    + intros A' E Z. destruct (RA A' E) as (-> & _). prjin Z. destruct (ar_sizeA _ _ _ AR Z). auto.
    + intros Z. destruct (ar_sizeG _ _ _ AR Z). auto.
  - split; [exists Gs; reflexivity|]. repeat (split; [reflexivity|]). intros A' E. destruct (RA A' E) as (-> & _ & GA). split; [exact GA|]. exists As. reflexivity.
Qed.

(* ---- blocks stay distinct ---- *)
Definition keeps {A} (m : M A) : Prop := forall h a h', wf_heap h -> m h = Some (a, h') -> wf_heap h' /\ hp_next h <= hp_next h'.
Lemma k_ret {A} (a : A) : keeps (ret a).
Proof. intros h a' h' W E. injection E as _ <-. auto. Qed.
Lemma k_bind {A B} (m : M A) (k : A -> M B) : keeps m -> (forall a, keeps (k a)) -> keeps (mbind m k).
Proof.
  intros Km Kk h a h' W E. unfold mbind in E. destruct (m h) as [[b h1]|] eqn:E1; [|discriminate]. destruct (Km _ _ _ W E1) as (W1 & L1).
  destruct (Kk b _ _ _ W1 E) as (W2 & L2). split; [exact W2|lia].
Qed.
Lemma k_malloc k : keeps (malloc k).
Proof.
  intros h a h' (N & L) E. unfold malloc in E. destruct (_ && _)%bool; injection E as _ <-; (split; [|cbn; lia]); split; cbn [hp_live hp_next].
  - exact N. - intros b I. specialize (L b I). lia.
  - constructor; [|exact N]. intros I. specialize (L _ I). lia.
  - intros b [<-|I]; [lia|]. specialize (L b I). lia.
Qed.
Lemma drop1_nodup x l : NoDup l -> NoDup (drop1 x l).
Proof.
  induction 1 as [|y l Hn Hl IH]; cbn; [constructor|]. destruct (Nat.eqb y x); [exact Hl|]. constructor; [|exact IH]. intros I. apply drop1_in in I. contradiction.
Qed.
Lemma k_free p : keeps (free p).
Proof.
  intros h a h' (N & L) E. unfold free in E. destruct p as [b|]; [|injection E as _ <-; split; [split; assumption|lia]].
  destruct (is_live h b); [|discriminate]. injection E as _ <-. cbn. split; [|lia]. split; cbn [hp_live hp_next]; [apply drop1_nodup; exact N|]. intros x I. apply L, (drop1_in b). exact I.
Qed.
Lemma k_use p : keeps (use p).
Proof. intros h a h' W E. unfold use in E. destruct p as [b|]; [|discriminate]. destruct (is_live h b); [|discriminate]. injection E as _ <-. auto. Qed.
Lemma k_touch k p : keeps (touch k p).
Proof. unfold touch. destruct (k =? 0); [apply k_ret|apply k_use]. Qed.
Lemma k_null {A} : keeps (@through_null A).
Proof. intros h a h' _ E. discriminate. Qed.
Lemma k_each {A} (l : list A) f : (forall a, keeps (f a)) -> keeps (each l f).
Proof. intros K. induction l as [|a l IH]; cbn; [apply k_ret|]. apply k_bind; auto. Qed.
Lemma k_collect {A B} (l : list A) (f : A -> M B) : (forall a, keeps (f a)) -> keeps (collect l f).
Proof. intros K. induction l as [|a l IH]; cbn; [apply k_ret|]. apply k_bind; [apply K|]. intros. apply k_bind; [exact IH|]. intros. apply k_ret. Qed.
Ltac kk := lazymatch goal with
  | |- keeps (ret _) => apply k_ret | |- keeps (mbind _ _) => apply k_bind; [|intros ?] | |- keeps (malloc _) => apply k_malloc | |- keeps (free _) => apply k_free
  | |- keeps (use _) => apply k_use | |- keeps (touch _ _) => apply k_touch | |- keeps through_null => apply k_null | |- keeps (each _ _) => apply k_each; intros ?
  | |- keeps (collect _ _) => apply k_collect; intros ? | |- keeps (if ?c then _ else _) => destruct c | |- keeps (match ?c with Some _ => _ | None => _ end) => destruct c
  | |- keeps (when ?c _) => unfold when; destruct c | |- keeps (free_at _ _) => unfold free_at
  | |- keeps (newSparseMatrix _ _) => unfold newSparseMatrix | |- keeps (ecoscreateSparseMatrix _ _ _ _ _) => unfold ecoscreateSparseMatrix
  | |- keeps (freeSparseMatrix _) => unfold freeSparseMatrix | |- keeps (transposeSparseMatrix _ _) => unfold transposeSparseMatrix
  | |- keeps (permuteSparseSymmetricMatrix _ _) => unfold permuteSparseSymmetricMatrix | |- keeps (use_ruiz_equilibration _ _ _ _ _) => unfold use_ruiz_equilibration
  | |- keeps (unset_equilibration _) => unfold unset_equilibration; cbv zeta | |- keeps (createKKT_U _) => unfold createKKT_U | |- keeps (new_cone _) => unfold new_cone
  | |- keeps (new_kkt _) => unfold new_kkt; cbv zeta end.
Lemma k_trans m A : keeps (transposeSparseMatrix m A). Proof. repeat kk. Qed.
Lemma k_perm A B : keeps (permuteSparseSymmetricMatrix A B). Proof. repeat kk. Qed.
Lemma k_freem A : keeps (freeSparseMatrix A). Proof. repeat kk. Qed.
Lemma k_create a b c d e : keeps (ecoscreateSparseMatrix a b c d e). Proof. repeat kk. Qed.
Lemma k_ruiz a b c d e : keeps (use_ruiz_equilibration a b c d e). Proof. repeat kk. Qed.
Lemma k_cK a : keeps (createKKT_U a). Proof. repeat kk. Qed.
Lemma k_cone a : keeps (new_cone a). Proof. repeat kk. Qed.
Lemma k_kkt a : keeps (new_kkt a). Proof. repeat kk. Qed.
Lemma k_unset w : keeps (unset_equilibration w). Proof. repeat kk. Qed.
Lemma k_fa l p : keeps (free_at l p). Proof. repeat kk. Qed.
Ltac kb := first [apply k_trans|apply k_perm|apply k_freem|apply k_create|apply k_ruiz|apply k_cK|apply k_cone|apply k_kkt|apply k_unset|apply k_fa|kk].
Lemma k_setup sh u : keeps (ECOS_setup sh u).
Proof. unfold ECOS_setup. cbv zeta. repeat kb. Qed.
Lemma k_cleanup w k : keeps (ECOS_cleanup w k).
Proof. unfold ECOS_cleanup. cbv zeta. repeat kb. Qed.
Lemma k_bbsetup sh u nb ni mi nz s : keeps (ECOS_BB_setup sh u nb ni mi nz s).
Proof. unfold ECOS_BB_setup. cbv zeta. repeat (first [apply k_setup|kb]). Qed.
Lemma k_bbcleanup b k : keeps (ECOS_BB_cleanup b k).
Proof. unfold ECOS_BB_cleanup. cbv zeta. repeat (first [apply k_cleanup|kb]). Qed.

Lemma wf_cnt h b : wf_heap h -> cnt h b <= 1.
Proof. intros (N & _). apply (NoDup_count_occ Nat.eq_dec). exact N. Qed.
Lemma in_cnt h b : In b (hp_live h) <-> 0 < cnt h b.
Proof. apply (count_occ_In Nat.eq_dec). Qed.
Lemma solve_ry_id w : okw w -> solve_ry w = w.
Proof.
  intros OK. unfold solve_ry. destruct (Nat.eqb_spec (mw_p w) 0) as [Z|Z]; [rewrite <- (ok_ry w OK Z)|]; destruct w; reflexivity.
Qed.
