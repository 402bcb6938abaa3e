(* Numeric factorisation and triangular solves over the reals. *)
From Coq Require Import List Arith Bool ZArith QArith Reals Lia Lra.
From Verif Require Import Base Num.
From Verif.Model Require Import Spla Ldl.
From Verif.Spec Require Import Matrix Fill.
From Verif.Proofs Require Import SplaP LdlSym LdlNum.
Import ListNotations.
Open Scope nat_scope.

(* ------------------------------------------------------------- list sums *)
Fixpoint lsum (l : list nat) (f : nat -> R) : R := match l with [] => 0%R | x :: l => (f x + lsum l f)%R end.

Lemma lsum_Rsum n l f : NoDup l -> (forall i, In i l -> i < n) ->
  lsum l f = Rsum n (fun i => if in_dec Nat.eq_dec i l then f i else 0%R).
Proof.
  induction l as [|x l IH]; intros ND H.
  - simpl. symmetry. apply Rsum_0. auto.
  - inversion ND; subst. simpl lsum. rewrite IH by (auto; intros; apply H; simpl; auto).
    transitivity (Rsum n (fun i => (if Nat.eqb i x then f i else 0) + (if in_dec Nat.eq_dec i l then f i else 0))%R).
    + rewrite Rsum_plus, Rsum_delta. specialize (H x (or_introl eq_refl)).
      apply Nat.ltb_lt in H. rewrite H. auto.
    + apply Rsum_ext. intros i Hi. destruct (Nat.eqb_spec i x) as [->|Ne].
      * destruct (in_dec Nat.eq_dec x l) as [X|_]; [contradiction|].
        destruct (in_dec Nat.eq_dec x (x :: l)) as [_|X]; [lra|]. exfalso. apply X. simpl; auto.
      * destruct (in_dec Nat.eq_dec i l) as [X|X], (in_dec Nat.eq_dec i (x :: l)) as [Y|Y]; try lra.
        -- exfalso. apply Y. simpl; auto.
        -- simpl in Y. exfalso. destruct Y; [congruence|auto].
Qed.

Section RealNum.
Local Existing Instance ROps.
Context (M : spmat R).
Notation n := (sp_n M).
Notation JC := (gd 0 (sp_jc M)).
Notation IR := (gd 0 (sp_ir M)).

Lemma subs_R Rb Lv yv j l a :
  @subs ROps Rb Lv yv j l a = (a - lsum l (fun i => if Rb j i then Lv j i * yv i else 0))%R.
Proof.
  revert a. unfold subs. induction l as [|x l IH]; intros a; simpl; [lra|].
  destruct (Rb j x); rewrite IH; unR; lra.
Qed.

Lemma dsub_R Dv yv l a :
  @dsub ROps Dv yv l a = (a - lsum l (fun i => yv i / Dv i * yv i))%R.
Proof.
  revert a. unfold dsub. induction l as [|x l IH]; intros a; simpl; [lra|].
  rewrite IH; unR; lra.
Qed.

Lemma colval_dense r i : wf_sp M -> nodup M -> r < n -> @colval ROps M r i = dense M i r.
Proof.
  intros W ND Hr. unfold colval, dense.
  assert (G : forall p, JC r <= p -> p <= JC (r + 1) ->
     @colv ROps M r p i = Rsumr (JC r) p (fun k => if Nat.eqb (IR k) i then gd 0%R (sp_pr M) k else 0%R) /\
     ((forall q, JC r <= q < p -> IR q <> i) -> @colv ROps M r p i = 0%R)).
  { intros p Hp. induction Hp as [|p Hp IH]; intros Hle.
    - unfold colv. rewrite Nat.sub_diag, Rsumr_nil by lia. simpl. rewrite f0_R. auto.
    - destruct (IH ltac:(lia)) as [I1 I2].
      assert (Ic : in_col M r p) by (split; [auto|lia]).
      rewrite (@colv_S ROps M r p i Hp). change (@F ROps) with R. rewrite Rsumr_S by auto.
      destruct (Nat.eqb_spec (IR p) i) as [Ei|Ei].
      + split.
        * rewrite <- I1, I2.
          -- rewrite f0_R. lra.
          -- intros q Hq Eq. assert (q = p); [|lia]. apply (ND r); auto; [split; [auto|lia]|congruence].
        * intros H. exfalso. apply (H p); auto.
      + split.
        * rewrite <- I1. lra.
        * intros H. apply I2. intros q Hq. apply H. lia. }
  apply G; auto. apply (wf_mono M W); auto.
Qed.

Context (W : wf_sp M) (U : upper M) (SQ : sp_m M = sp_n M) (ND : nodup M).
Context (par : nat -> option nat) (Rb : nat -> nat -> bool) (E : etree M n par Rb).
Context (sgv : nat -> Z) (eps delta : R) (Lv : nat -> nat -> R) (Dv : nat -> R).
Context (Rows : forall r, r < n -> exists pat yv, @rowspec ROps M par Rb sgv eps delta r pat yv Lv Dv).
Context (He : (0 <= eps)%R) (Hd : (0 < delta)%R) (Hs : forall r, r < n -> sgv r = 1%Z \/ sgv r = (-1)%Z).

Definition Lf r i : R := if Rb r i then Lv r i else 0%R.

Lemma pivot_sign r : r < n -> (0 < IZR (sgv r) * Dv r)%R.
Proof.
  intros Hr. destruct (Rows r Hr) as [pat [yv RS]].
  rewrite (rs_D _ _ _ _ _ _ _ _ _ _ _ RS). unfold regul. unR.
  set (d := dsub _ _ _ _). destruct (Rleb_spec (IZR (sgv r) * d) eps).
  - destruct (Hs r Hr) as [-> | ->]; simpl; lra.
  - lra.
Qed.

Lemma pivot_nz r : r < n -> Dv r <> 0%R.
Proof. intros Hr X. pose proof (pivot_sign r Hr). rewrite X in H. lra. Qed.

Lemma row_lt r i : r < n -> Rb r i = true -> i < r.
Proof. intros. eapply et_lt; eauto. Qed.

Lemma dense_noadj r i : r < n -> i < r -> Rb r i = false -> dense M i r = 0%R.
Proof.
  intros Hr Hi X. unfold dense. apply Rsumr_0. intros k Hk. destruct (Nat.eqb_spec (IR k) i) as [Ek|]; auto.
  rewrite (et_adj _ _ _ _ E r i Hr) in X; [discriminate|]. split; auto. exists k. split; auto. split; auto.
Qed.

(* the off-diagonal equations *)
Lemma off_diag r i : r < n -> i < r ->
  dense M i r = (Rsum n (fun j => Lf i j * Dv j * Lf r j) + Lf r i * Dv i)%R.
Proof.
  intros Hr Hi. destruct (Rows r Hr) as [pat [yv RS]].
  assert (Yv : forall j, Rb r j = true -> yv j = (Lv r j * Dv j)%R).
  { intros j Rj. rewrite (rs_L _ _ _ _ _ _ _ _ _ _ _ RS j Rj). unR. field. apply pivot_nz.
    pose proof (row_lt r j Hr Rj). lia. }
  destruct (Rb r i) eqn:Ri.
  - assert (Hin : In i pat) by (apply (rs_in _ _ _ _ _ _ _ _ _ _ _ RS); auto).
    apply in_split in Hin. destruct Hin as [l1 [l2 El]].
    assert (Pin : forall j, In j l1 -> Rb r j = true).
    { intros j Hj. apply (rs_in _ _ _ _ _ _ _ _ _ _ _ RS). rewrite El. apply in_or_app; auto. }
    pose proof (rs_nodup _ _ _ _ _ _ _ _ _ _ _ RS) as Nd.
    assert (Nd1 : NoDup l1) by (rewrite El in Nd; clear - Nd; induction l1; [constructor|inversion Nd; subst; constructor; auto; intros X; apply H1; apply in_or_app; auto]).
    pose proof (rs_y _ _ _ _ _ _ _ _ _ _ _ RS l1 i l2 El) as Ey.
    rewrite subs_R, (colval_dense r i W ND Hr) in Ey.
    rewrite (lsum_Rsum n) in Ey; auto.
    2:{ intros j Hj. specialize (Pin j Hj). pose proof (row_lt r j Hr Pin). lia. }
    rewrite (Yv i Ri) in Ey. unfold Lf at 3. rewrite Ri.
    rewrite (Rsum_ext n _ (fun j => Lf i j * Dv j * Lf r j)%R) in Ey; [lra|].
    intros j Hj. unfold Lf. destruct (in_dec Nat.eq_dec j l1) as [X|X].
    + rewrite (Pin j X), (Yv j (Pin j X)). destruct (Rb i j); lra.
    + destruct (Rb i j) eqn:Rij; [|lra]. destruct (Rb r j) eqn:Rrj; [|lra].
      exfalso. apply X. apply (rs_topo _ _ _ _ _ _ _ _ _ _ _ RS l1 i l2 El); auto.
  - rewrite dense_noadj by auto. unfold Lf at 3. rewrite Ri.
    rewrite Rsum_0; [lra|]. intros j Hj. unfold Lf.
    destruct (Rb i j) eqn:Rij; [|lra]. destruct (Rb r j) eqn:Rrj; [|lra].
    rewrite (et_closed M n par Rb E r i j) in Ri; auto; [discriminate|]. apply (row_lt i j); auto; lia.
Qed.

Lemma on_diag r : r < n ->
  exists d, dense M r r = (Rsum n (fun j => Lf r j * Dv j * Lf r j) + d)%R /\
    Dv r = if Rleb (IZR (sgv r) * d) eps then (IZR (sgv r) * delta)%R else d.
Proof.
  intros Hr. destruct (Rows r Hr) as [pat [yv RS]].
  assert (Yv : forall j, Rb r j = true -> yv j = (Lv r j * Dv j)%R).
  { intros j Rj. rewrite (rs_L _ _ _ _ _ _ _ _ _ _ _ RS j Rj). unR. field. apply pivot_nz.
    pose proof (row_lt r j Hr Rj). lia. }
  exists (@dsub ROps Dv yv pat (@colval ROps M r r)). split.
  - rewrite dsub_R, colval_dense by auto.
    rewrite (lsum_Rsum n); [|apply RS|].
    + match goal with |- _ = (?a + (?b - Rsum n ?f))%R => replace (Rsum n f) with a; [lra|] end.
      apply Rsum_ext. intros j Hj. unfold Lf. destruct (in_dec Nat.eq_dec j pat) as [X|X].
      * apply (rs_in _ _ _ _ _ _ _ _ _ _ _ RS) in X. rewrite X, (Yv j X). field. apply pivot_nz; auto.
      * destruct (Rb r j) eqn:Y; [|lra]. exfalso. apply X. apply (rs_in _ _ _ _ _ _ _ _ _ _ _ RS); auto.
    + intros j Hj. apply (rs_in _ _ _ _ _ _ _ _ _ _ _ RS) in Hj. pose proof (row_lt r j Hr Hj). lia.
  - rewrite (rs_D _ _ _ _ _ _ _ _ _ _ _ RS) at 1. unfold regul. unR. auto.
Qed.

Lemma Lf_diag i j : i < n -> i <= j -> Lf i j = 0%R.
Proof. intros Hi Hj. unfold Lf. destruct (Rb i j) eqn:X; auto. pose proof (row_lt i j Hi X). lia. Qed.

Lemma ldl_expand r i : r < n -> i <= r ->
  ldl_prod n Lf Dv i r = (Rsum n (fun j => Lf i j * Dv j * Lf r j) + (if i =? r then Dv r else Lf r i * Dv i))%R.
Proof.
  intros Hr Hi. unfold ldl_prod, unitL.
  rewrite (Rsum_ext n _ (fun j => Lf i j * Dv j * Lf r j + ((if j =? i then Dv j * Lf r j + (if i =? r then Dv j else 0) else 0)
     + (if j =? r then Lf i j * Dv j else 0)))%R).
  - rewrite !Rsum_plus, !Rsum_delta. 
    assert (X : (i <? n) = true) by (apply Nat.ltb_lt; lia). rewrite X.
    assert (Y : (r <? n) = true) by (apply Nat.ltb_lt; lia). rewrite Y.
    rewrite (Lf_diag i r) by lia. destruct (Nat.eqb_spec i r) as [->|Ne]; [rewrite (Lf_diag r r) by lia|]; lra.
  - intros j Hj. rewrite (Nat.eqb_sym i j), (Nat.eqb_sym r j).
    destruct (Nat.eqb_spec j i) as [Ej|Ne], (Nat.eqb_spec i r) as [Er|Ne2], (Nat.eqb_spec j r); subst; try lia; try lra.
Qed.

End RealNum.

Section RealSolve.
Local Existing Instance ROps.

Lemma lmat_dense (M : spmat R) Rb Lv (Lp Li : arr nat) (Lx : arr R) r i :
  let n := sp_n M in
  vec Lp (n + 1) (starts (cnt Rb n)) -> @stored ROps M Rb n Lv Li Lx -> r < n -> i < n ->
  dense (@lmat ROps M Rb Lp Li Lx) r i = if Rb r i then Lv r i else 0%R.
Proof.
  intros n V St Hr Hi. unfold dense.
  change (sp_jc (@lmat ROps M Rb Lp Li Lx)) with Lp. change (sp_ir (@lmat ROps M Rb Lp Li Lx)) with Li.
  change (sp_pr (@lmat ROps M Rb Lp Li Lx)) with Lx.
  rewrite (gd_get 0 Lp i (starts (cnt Rb n) i)) by (apply V; lia).
  rewrite (gd_get 0 Lp (i + 1) (starts (cnt Rb n) (i + 1))) by (apply V; lia).
  rewrite Nat.add_1_r. simpl starts.
  set (lo := starts (cnt Rb n) i).
  assert (Pos : forall p, lo <= p < lo + cnt Rb n i -> exists s, s < n /\ Rb s i = true /\ p = lo + cnt Rb s i /\ gd 0 Li p = s /\ gd 0%R Lx p = Lv s i).
  { intros p Hp. destruct (cnt_find Rb i n (p - lo) ltac:(lia)) as [s [Hs [Rs Cs]]].
    exists s. destruct (St s i Hs Rs) as [G1 G2]. fold n in G1, G2. fold lo in G1, G2.
    replace p with (lo + cnt Rb s i) by lia. repeat split; auto.
    - exact (gd_get 0 _ _ _ G1).
    - exact (gd_get 0%R _ _ _ G2). }
  destruct (Rb r i) eqn:Rr.
  - pose proof (cnt_lt Rb i r n Hr Rr).
    rewrite (Rsumr_split lo (lo + cnt Rb r i) _) by lia. rewrite (Rsumr_Sl (lo + cnt Rb r i)) by lia.
    assert (Z : forall p, lo <= p < lo + cnt Rb n i -> p <> lo + cnt Rb r i ->
       (if gd 0 Li p =? r then gd 0%R Lx p else 0%R) = 0%R).
    { intros p Hp Np. destruct (Pos p Hp) as [s [Hs [Rs [Ep [Gs _]]]]]. rewrite Gs.
      destruct (Nat.eqb_spec s r) as [->|]; [lia|auto]. }
    rewrite (Rsumr_0 lo) by (intros p Hp; apply Z; lia).
    rewrite (Rsumr_0 (Datatypes.S (lo + cnt Rb r i))) by (intros p Hp; apply Z; lia).
    destruct (Pos (lo + cnt Rb r i) ltac:(lia)) as [s [Hs [Rs [Ep [Gs Gx]]]]]. rewrite Gs, Gx.
    assert (s = r).
    { destruct (Nat.lt_trichotomy s r) as [L|[L|L]]; auto.
      - pose proof (cnt_lt Rb i _ _ L Rs). lia.
      - pose proof (cnt_lt Rb i _ _ L Rr). lia. }
    rewrite H0, Nat.eqb_refl. lra.
  - apply Rsumr_0. intros p Hp. destruct (Pos p Hp) as [s [Hs [Rs [Ep [Gs _]]]]]. rewrite Gs.
    destruct (Nat.eqb_spec s r) as [->|]; [congruence|auto].
Qed.

Lemma numeric_R (M : spmat R) (sgv : nat -> Z) (eps delta : R) par Rb
  (Lp : arr nat) (Pa Sign : arr Z) (Lnz Li : arr nat) (Lx D Y : arr R) (Pt Fl : arr nat) :
  let n := sp_n M in
  wf_sp M -> upper M -> sp_m M = n -> nodup M -> etree M n par Rb ->
  vec Lp (n + 1) (starts (cnt Rb n)) -> (forall i, i < n -> get Pa i = Some (pz (par i))) -> vec Sign n sgv ->
  length Lnz = n -> length Li = starts (cnt Rb n) n -> length Lx = starts (cnt Rb n) n -> length D = n -> length Y = n ->
  length Pt = n -> length Fl = n ->
  (0 <= eps)%R -> (0 < delta)%R -> (forall r, r < n -> sgv r = 1%Z \/ sgv r = (-1)%Z) ->
  exists Lnz' Li' Lx' D' Y' Pt' Fl' Dv,
    @LDL_numeric2 ROps n (sp_jc M) (sp_ir M) (sp_pr M) Lp Pa Sign eps delta Lnz Li Lx D Y Pt Fl
      = Some (Lnz', Li', Lx', D', Y', Pt', Fl') /\
    let L := mkSp Lp Li' Lx' n n (starts (cnt Rb n) n) in
    wf_sp L /\ strictly_lower L /\ nodup L /\ (forall r i, r < n -> (has_entry L r i <-> fill M r i)) /\
    vec D' n Dv /\ length D' = n /\
    (forall i r, i < r -> r < n -> ldl_prod n (dense L) Dv i r = dense M i r) /\
    (forall r, r < n -> exists d, ldl_prod n (dense L) Dv r r = (dense M r r + (Dv r - d))%R /\
       Dv r = if Rleb (IZR (sgv r) * d) eps then (IZR (sgv r) * delta)%R else d) /\
    (forall r, r < n -> (0 < IZR (sgv r) * Dv r)%R).
Proof.
  intros n. subst n. set (n := sp_n M).
  intros W U SQ ND E VLp HP VS L1 L2 L3 L4 L5 L6 L7 He Hd Hs.
  pose proof (@LDL_numeric2_wp ROps M W U SQ par Rb E sgv eps delta Lp Pa Sign Lnz Li Lx D Y Pt Fl
    (fun res => let '(Lnz', Li', Lx', D', Y', Pt', Fl') := res in exists Lv Dv,
       @numst ROps M par Rb sgv eps delta n Lv Dv Lnz' Li' Lx' D' Y' Pt' Fl') VLp HP VS L1 L2 L3 L4 L5 L6 L7
    ltac:(intros Lv Dv; intros; exists Lv, Dv; assumption)) as H.
  apply wp_elim in H. destruct H as [[[[[[[N' I'] X'] D'] Y'] P'] F'] [Eq [Lv [Dv NS]]]].
  exists N', I', X', D', Y', P', F', Dv. split; [exact Eq|].
  pose proof (@lmat_wf ROps M SQ par Rb E Lv Lp I' X' VLp (ns_S _ _ _ _ _ _ _ _ _ _ _ _ _ _ _ _ NS)) as [W1 [W2 [W3 W4]]].
  simpl. split; [exact W1|]. split; [exact W2|]. split; [exact W3|].
  split; [intros r i Hr; rewrite <- (et_fill M n par Rb E r i Hr); exact (W4 r i Hr)|].
  split; [exact (ns_D _ _ _ _ _ _ _ _ _ _ _ _ _ _ _ _ NS)|].
  split; [exact (ns_lD _ _ _ _ _ _ _ _ _ _ _ _ _ _ _ _ NS)|].
  pose proof (ns_rows _ _ _ _ _ _ _ _ _ _ _ _ _ _ _ _ NS) as Rows.
  assert (DL : forall i r, i < n -> r < n ->
     ldl_prod n (dense (mkSp Lp I' X' n n (starts (cnt Rb n) n))) Dv i r = ldl_prod n (Lf Rb Lv) Dv i r).
  { intros i r Hi Hr. unfold ldl_prod. apply Rsum_ext. intros j Hj. unfold unitL.
    pose proof (fun r Hr => lmat_dense M Rb Lv Lp I' X' r j VLp (ns_S _ _ _ _ _ _ _ _ _ _ _ _ _ _ _ _ NS) Hr Hj) as G.
    f_equal; [f_equal; f_equal; exact (G i Hi)|f_equal; exact (G r Hr)]. }
  split; [|split].
  - intros i r Hi Hr. rewrite DL by lia.
    refine (eq_trans (ldl_expand M SQ par Rb E Lv Dv r i Hr ltac:(lia)) _).
    destruct (Nat.eqb_spec i r); [lia|].
    symmetry. apply (off_diag M W SQ ND par Rb E sgv eps delta Lv Dv Rows He Hd Hs r i Hr Hi).
  - intros r Hr. rewrite DL by lia.
    destruct (on_diag M W SQ ND par Rb E sgv eps delta Lv Dv Rows He Hd Hs r Hr) as [d [A B]].
    exists d. split; auto.
    refine (eq_trans (ldl_expand M SQ par Rb E Lv Dv r r Hr ltac:(lia)) _). rewrite Nat.eqb_refl.
    refine (eq_trans _ (f_equal (fun t => t + (Dv r - d))%R (eq_sym A))). unR. ring.
  - apply (pivot_sign M par Rb sgv eps delta Lv Dv Rows He Hd Hs).
Qed.

(* --------------------------------------------------------- solves *)
Open Scope R_scope.
Context (L : spmat R) (W : wf_sp L) (SL : strictly_lower L) (SQ : sp_m L = sp_n L).
Notation n := (sp_n L).
Notation JC := (gd 0%nat (sp_jc L)).
Notation IR := (gd 0%nat (sp_ir L)).
Notation PR := (gd 0 (sp_pr L)).

Lemma lower_dense i j : (j < n)%nat -> (i <= j)%nat -> dense L i j = 0.
Proof.
  intros Hj Hi. unfold dense. apply Rsumr_0. intros k Hk. destruct (Nat.eqb_spec (IR k) i) as [E|]; auto.
  pose proof (SL j k (conj Hj Hk)). lia.
Qed.

Lemma lsolve_R (X : arr R) (b : nat -> R) : length X = n -> vec X n b ->
  exists X' x, @LDL_lsolve ROps n X (sp_jc L) (sp_ir L) (sp_pr L) = Some X' /\ length X' = n /\ vec X' n x /\
    forall i, (i < n)%nat -> mulv n (unitL (dense L)) x i = b i.
Proof.
  intros LX VX.
  assert (H : wp (@LDL_lsolve ROps n X (sp_jc L) (sp_ir L) (sp_pr L)) (fun X' => length X' = n /\ exists x,
     vec X' n x /\ forall i, (i < n)%nat -> x i = b i - Rsum n (fun j => dense L i j * x j))).
  { unfold LDL_lsolve. unR.
    apply (wp_for (fun j X' => length X' = n /\ exists x, vec X' n x /\
       forall i, (i < n)%nat -> x i = b i - Rsum j (fun j => dense L i j * x j))); [lia| | |].
    - split; auto. exists b. split; auto. intros i Hi. simpl. lra.
    - intros j X1 Hj [L1 [x [V1 E1]]].
      wget (wf_jc L W). wget (wf_jc L W).
      apply (wp_for (fun p X' => length X' = n /\ forall i, (i < n)%nat ->
         get X' i = Some (x i - Rsumr (JC j) p (fun k => if Nat.eqb (IR k) i then PR k else 0) * x j))).
      + apply (wf_mono L W); lia.
      + split; auto. intros i Hi. rewrite Rsumr_nil by lia. rewrite V1 by auto. f_equal. lra.
      + intros p X2 Hp [L2 G2].
        assert (Ic : in_col L j p) by (split; [lia|auto]).
        pose proof (in_col_nnz L j p W Ic) as Hn. pose proof (SL j p Ic) as Hl.
        pose proof (wf_row L W p Hn) as Hr. rewrite SQ in Hr.
        wget (wf_ir L W). wget G2. wget (wf_prR L W). wget G2.
        assert (Zj : Rsumr (JC j) p (fun k => if Nat.eqb (IR k) j then PR k else 0) = 0).
        { apply Rsumr_0. intros k Hk. destruct (Nat.eqb_spec (IR k) j) as [Ek|]; auto.
          assert (Ik : in_col L j k) by (split; lia). pose proof (SL j k Ik). lia. }
        wset X3 L3 G3; [lia|]. split; [congruence|]. intros i Hi. rewrite G3.
        rewrite Rsumr_S by lia. rewrite Zj. rewrite (Nat.eqb_sym i).
        destruct (Nat.eqb_spec (IR p) i) as [Ei|Ne].
        * rewrite Ei. f_equal. ring.
        * rewrite G2 by auto. f_equal. ring.
      + intros X2 [L2 G2]. split; auto.
        exists (fun i => x i - dense L i j * x j). split; [exact G2|].
        intros i Hi. cbn [Rsum]. rewrite (E1 i Hi) at 1.
        rewrite (Rsum_ext j (fun j0 => dense L i j0 * (x j0 - dense L j0 j * x j)) (fun j0 => dense L i j0 * x j0)).
        * rewrite (lower_dense j j) by lia. ring.
        * intros k Hk. rewrite (lower_dense k j) by lia. ring.
    - intros X1 [L1 [x [V E1]]]. eauto. }
  apply wp_elim in H. destruct H as [X' [Eq [LX' [x [V Ex]]]]]. exists X', x. repeat split; auto.
  intros i Hi. unfold mulv, unitL.
  rewrite (Rsum_ext n _ (fun j => dense L i j * x j + (if Nat.eqb j i then x j else 0))).
  - rewrite Rsum_plus, Rsum_delta. apply Nat.ltb_lt in Hi as Hi2. rewrite Hi2. rewrite (Ex i Hi). ring.
  - intros j Hj. rewrite (Nat.eqb_sym i). destruct (Nat.eqb j i); ring.
Qed.

Lemma lsolve2_R (bv X : arr R) (b : nat -> R) : length X = n -> vec bv n b ->
  exists X' x, @LDL_lsolve2 ROps n bv (sp_jc L) (sp_ir L) (sp_pr L) X = Some X' /\ length X' = n /\ vec X' n x /\
    forall i, (i < n)%nat -> mulv n (unitL (dense L)) x i = b i.
Proof.
  intros LX Vb. unfold LDL_lsolve2.
  assert (H : wp (for_ 0 n (fun j x => bj <- get bv j ;; set x j bj) X) (fun X' => length X' = n /\ vec X' n b)).
  { apply (wp_for (fun j X' => length X' = n /\ forall i, (i < j)%nat -> get X' i = Some (b i))); [lia| | |].
    - split; auto. lia.
    - intros j X1 Hj [L1 G1]. wget Vb. wset X2 L2 G2; [lia|]. split; [congruence|].
      intros i Hi. rewrite G2. destruct (Nat.eqb_spec i j) as [->|]; auto. apply G1. lia.
    - auto. }
  apply wp_elim in H. destruct H as [X1 [Eq [L1 V1]]]. unR. rewrite Eq. cbn [bind].
  apply lsolve_R; auto.
Qed.

Lemma dsolve_R (X D : arr R) (b d : nat -> R) : length X = n -> vec X n b -> vec D n d ->
  exists X', @LDL_dsolve ROps n X D = Some X' /\ length X' = n /\ vec X' n (fun i => b i / d i).
Proof.
  intros LX VX VD. apply wp_elim. unfold LDL_dsolve. unR.
  apply (wp_for (fun j X' => length X' = n /\ forall i, (i < n)%nat -> get X' i = Some (if (i <? j)%nat then b i / d i else b i))); [lia| | |].
  - split; auto.
  - intros j X1 Hj [L1 G1]. wget G1. wget VD. wset X2 L2 G2; [lia|]. split; [congruence|].
    intros i Hi. rewrite G2. rewrite (Nat.ltb_irrefl j). destruct (Nat.eqb_spec i j) as [->|].
    + destruct (Nat.ltb_spec j (Datatypes.S j)); [auto|lia].
    + rewrite G1 by auto. destruct (Nat.ltb_spec i j), (Nat.ltb_spec i (Datatypes.S j)); auto; lia.
  - intros X1 [L1 G1]. split; auto. intros i Hi. rewrite G1 by auto. apply Nat.ltb_lt in Hi. rewrite Hi. auto.
Qed.

Lemma ltsolve_R (X : arr R) (b : nat -> R) : length X = n -> vec X n b ->
  exists X' x, @LDL_ltsolve ROps n X (sp_jc L) (sp_ir L) (sp_pr L) = Some X' /\ length X' = n /\ vec X' n x /\
    forall j, (j < n)%nat -> mulvT n (unitL (dense L)) x j = b j.
Proof.
  intros LX VX.
  assert (H : wp (@LDL_ltsolve ROps n X (sp_jc L) (sp_ir L) (sp_pr L)) (fun X' => length X' = n /\ exists x,
     vec X' n x /\ forall j, (j < n)%nat -> x j = b j - Rsum n (fun i => dense L i j * x i))).
  { unfold LDL_ltsolve. unR.
    apply (wp_for_down (fun j X' => length X' = n /\ exists x, vec X' n x /\
       (forall i, (i < j)%nat -> x i = b i) /\
       forall i, (j <= i < n)%nat -> x i = b i - Rsum n (fun i0 => dense L i0 i * x i0))).
    - split; auto. exists b. repeat split; auto. intros; lia.
    - intros j X1 Hj [L1 [x [V1 [B1 E1]]]].
      wget (wf_jc L W). wget (wf_jc L W).
      apply (wp_for (fun p X' => length X' = n /\ (forall i, (i < n)%nat -> get X' i =
         Some (if Nat.eqb i j then x j - Rsumr (JC j) p (fun k => PR k * x (IR k)) else x i)))).
      + apply (wf_mono L W); lia.
      + split; auto. intros i Hi. rewrite Rsumr_nil by lia. rewrite V1 by auto. f_equal.
        destruct (Nat.eqb_spec i j) as [->|]; lra.
      + intros p X2 Hp [L2 G2].
        assert (Ic : in_col L j p) by (split; [lia|auto]).
        pose proof (in_col_nnz L j p W Ic) as Hn. pose proof (SL j p Ic) as Hl.
        pose proof (wf_row L W p Hn) as Hr. rewrite SQ in Hr.
        wget G2. wget (wf_prR L W). wget (wf_ir L W). wget G2.
        rewrite Nat.eqb_refl. destruct (Nat.eqb_spec (IR p) j); [lia|].
        wset X3 L3 G3; [lia|]. split; [congruence|]. intros i Hi. rewrite G3.
        rewrite Rsumr_S by lia.
        destruct (Nat.eqb_spec i j) as [Ei|Ne]; [f_equal; ring|].
        rewrite G2 by auto. destruct (Nat.eqb_spec i j); [congruence|auto].
      + intros X2 [L2 G2]. split; auto.
        assert (Sw : Rsumr (JC j) (JC (j + 1)%nat) (fun k => PR k * x (IR k)) = Rsum n (fun i => dense L i j * x i)).
        { unfold dense. rewrite (Rsum_ext n _ (fun i => Rsumr (JC j) (JC (j + 1)%nat) (fun k => if Nat.eqb (IR k) i then PR k * x i else 0))).
          - rewrite <- Rsumr_swap_Rsum. apply Rsumr_ext. intros k Hk.
            assert (Ic : in_col L j k) by (split; [lia|auto]).
            pose proof (in_col_nnz L j k W Ic) as Hn. pose proof (wf_row L W k Hn) as Hr. rewrite SQ in Hr.
            rewrite (Rsum_ext n _ (fun i => if Nat.eqb i (IR k) then PR k * x i else 0)) by (intros; rewrite Nat.eqb_sym; auto).
            rewrite Rsum_delta. apply Nat.ltb_lt in Hr. rewrite Hr. auto.
          - intros i Hi. rewrite <- Rsumr_scal_r. apply Rsumr_ext. intros k Hk. destruct (Nat.eqb (IR k) i); ring. }
        exists (fun i => if Nat.eqb i j then x j - Rsum n (fun i => dense L i j * x i) else x i).
        assert (Ext : forall i, (j <= i < n)%nat ->
          Rsum n (fun i0 => dense L i0 i * (if Nat.eqb i0 j then x j - Rsum n (fun i => dense L i j * x i) else x i0))
          = Rsum n (fun i0 => dense L i0 i * x i0)).
        { intros i Hi. apply Rsum_ext. intros k Hk. destruct (Nat.eqb_spec k j) as [->|]; auto.
          rewrite (lower_dense j i) by lia. ring. }
        split; [|split].
        * intros i Hi. rewrite G2 by auto. rewrite Sw. auto.
        * intros i Hi. destruct (Nat.eqb_spec i j); [lia|]. apply B1. lia.
        * intros i Hi. rewrite Ext by auto. destruct (Nat.eqb_spec i j) as [->|].
          -- rewrite (B1 j) by lia. auto.
          -- apply E1. lia.
    - intros X1 [L1 [x [V1 [_ E1]]]]. split; auto. exists x. split; auto. intros; apply E1; lia. }
  apply wp_elim in H. destruct H as [X' [Eq [LX' [x [V Ex]]]]]. exists X', x. repeat split; auto.
  intros j Hj. unfold mulvT, unitL.
  rewrite (Rsum_ext n _ (fun i => dense L i j * x i + (if Nat.eqb i j then x i else 0))).
  - rewrite Rsum_plus, Rsum_delta. apply Nat.ltb_lt in Hj as Hj2. rewrite Hj2. rewrite (Ex j Hj). ring.
  - intros i Hi. destruct (Nat.eqb i j); ring.
Qed.

End RealSolve.
