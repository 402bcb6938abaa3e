(* What the functions of the mixed-integer module change and what they leave
   alone, for every arithmetic, every solver and every sequence of random
   numbers: facts about runs that return. *)
From Coq Require Import List Arith Bool ZArith Lia Permutation.
From Verif Require Import Base Num NumI.
From Verif.Model Require Import Consts Spla Types Ecos BbTypes Bb.
From Verif.Proofs Require Import ExitP Wlp BbNum.
Import ListNotations.
Open Scope nat_scope.

Ltac bbc := cbn [bb_nb bb_ni bb_nodes bb_bids bb_iids bb_bidx bb_iidx bb_prob bb_x bb_y bb_z bb_s bb_kap bb_tau bb_info bb_U bb_L bb_tmpb bb_tmpi bb_iter bb_dive bb_tbb bb_tbi bb_psb bb_psi bb_pcb bb_pci bb_stgs bb_draws bb_solves bb_ctrlc set_bb_nb set_bb_ni set_bb_nodes set_bb_bids set_bb_iids set_bb_bidx set_bb_iidx set_bb_prob set_bb_x set_bb_y set_bb_z set_bb_s set_bb_kap set_bb_tau set_bb_info set_bb_U set_bb_L set_bb_tmpb set_bb_tmpi set_bb_iter set_bb_dive set_bb_tbb set_bb_tbi set_bb_psb set_bb_psi set_bb_pcb set_bb_pci set_bb_stgs set_bb_draws set_bb_solves set_bb_ctrlc].

Tactic Notation "bbc" "in" hyp(H) := cbn [bb_nb bb_ni bb_nodes bb_bids bb_iids bb_bidx bb_iidx bb_prob bb_x bb_y bb_z bb_s bb_kap bb_tau bb_info bb_U bb_L bb_tmpb bb_tmpi bb_iter bb_dive bb_tbb bb_tbi bb_psb bb_psi bb_pcb bb_pci bb_stgs bb_draws bb_solves bb_ctrlc set_bb_nb set_bb_ni set_bb_nodes set_bb_bids set_bb_iids set_bb_bidx set_bb_iidx set_bb_prob set_bb_x set_bb_y set_bb_z set_bb_s set_bb_kap set_bb_tau set_bb_info set_bb_U set_bb_L set_bb_tmpb set_bb_tmpi set_bb_iter set_bb_dive set_bb_tbb set_bb_tbi set_bb_psb set_bb_psi set_bb_pcb set_bb_pci set_bb_stgs set_bb_draws set_bb_solves set_bb_ctrlc] in H.

Ltac ndc := cbn [nd_status nd_L nd_U nd_relax nd_split nd_val nd_psplit nd_pval nd_prelax nd_up set_nd_status set_nd_L set_nd_U set_nd_relax set_nd_split set_nd_val set_nd_psplit set_nd_pval set_nd_prelax set_nd_up].

Tactic Notation "ndc" "in" hyp(H) := cbn [nd_status nd_L nd_U nd_relax nd_split nd_val nd_psplit nd_pval nd_prelax nd_up set_nd_status set_nd_L set_nd_U set_nd_relax set_nd_split set_nd_val set_nd_psplit set_nd_pval set_nd_prelax set_nd_up] in H.

(* one step of a monadic equation, with chosen names *)
Tactic Notation "bd" hyp(H) "as" simple_intropattern(p) ident(E) :=
  match type of H with bind ?m _ = Some _ => destruct m as [p|] eqn:E; [cbn [bind] in H|discriminate H] end.

Section BbP.
Context {O : Ops} {TI : ToInt O}.
Local Notation W := (bbwork F).

Lemma upd_node_inv (w w' : W) i f : upd_node w i f = Some w' ->
  exists nd ns, get (bb_nodes w) i = Some nd /\ w' = set_bb_nodes w ns /\ length ns = length (bb_nodes w) /\
    forall j, get ns j = if j =? i then Some (f nd) else get (bb_nodes w) j.
Proof.
  unfold upd_node. intros H. binv H. injection H as <-.
  apply set_inv in E0 as (L & L2 & G). eauto 8.
Qed.

(* the two children made of a node *)
Definition left_child (nc : node F) : node F :=
  set_nd_status (set_nd_up (set_nd_prelax (set_nd_pval (set_nd_psplit nc (nd_split nc)) (nd_val nc)) (nd_relax nc)) false) MI_NOT_SOLVED.
Definition right_child (nc nd : node F) : node F :=
  mkNode MI_NOT_SOLVED (nd_L nc) (nd_U nc) (nd_relax nd) (nd_split nd) (nd_val nd) (nd_split nc) (nd_val nc) (nd_relax nc) true.

Lemma slice_disj a b n k : a <> b -> n * a + n <= n * b \/ n * b + n <= n * a \/ k = n.
Proof. intros. assert (a < b \/ b < a) as [L|L] by lia; nia. Qed.

Lemma branch_inv cur (w w' : W) nc :
  branch cur w = Some w' -> cur <> bb_iter w -> get (bb_nodes w) cur = Some nc ->
  (0 <= nd_split nc < Z.of_nat (bb_nb w + bb_ni w))%Z ->
  let nb := bb_nb w in let ni := bb_ni w in let it := bb_iter w in
  let js := Z.to_nat (nd_split nc) in
  exists ns bids iids fl ce nd0,
    w' = set_bb_nodes (set_bb_iids (set_bb_bids w bids) iids) ns /\
    get (bb_nodes w) it = Some nd0 /\
    (forall i, get ns i = if i =? cur then Some (left_child nc) else if i =? it then Some (right_child nc nd0)
                          else get (bb_nodes w) i) /\
    length ns = length (bb_nodes w) /\ length bids = length (bb_bids w) /\ length iids = length (bb_iids w) /\
    (forall j, j < nb -> get bids (nb * cur + j) = if j =? js then Some MI_ZERO else get (bb_bids w) (nb * cur + j)) /\
    (forall j, j < nb -> get bids (nb * it + j) = if j =? js then Some MI_ONE else get (bb_bids w) (nb * cur + j)) /\
    (forall i j, i <> cur -> i <> it -> j < nb -> get bids (nb * i + j) = get (bb_bids w) (nb * i + j)) /\
    (nb <= js -> pfloat_floor (nd_val nc) (bs_itol (bb_stgs w)) = Some fl /\
                 pfloat_ceil (nd_val nc) (bs_itol (bb_stgs w)) = Some ce) /\
    (forall i, i < ni * 2 -> get iids (ni * cur * 2 + i) =
       if (nb <=? js) && (i =? 2 * (js - nb) + 1) then Some fl else get (bb_iids w) (ni * cur * 2 + i)) /\
    (forall i, i < ni * 2 -> get iids (ni * it * 2 + i) =
       if (nb <=? js) && (i =? 2 * (js - nb)) then Some (fneg ce) else get (bb_iids w) (ni * cur * 2 + i)) /\
    (forall i j, i <> cur -> i <> it -> j < ni * 2 -> get iids (ni * i * 2 + j) = get (bb_iids w) (ni * i * 2 + j)).
Proof.
  intros H Ne Enc Sp nb ni it js. unfold branch in H.
  rewrite Enc in H. cbn [bind] in H. fold nb ni it in H.
  binv1 H. apply upd_node_inv in E as (nd0 & ns1 & E0 & -> & L1 & G1).
  binv1 H. apply upd_node_inv in E as (nd1 & ns2 & E1 & -> & L2 & G2).
  bbc in E1. rewrite G1 in E1. destruct (Nat.eqb_spec cur it) as [|_]; [contradiction|].
  assert (nd1 = nc) by congruence. subst nd1. clear E1.
  binv1 H. rename v into bids1. bbc in E.
  assert (Eb: forall i, nb * i = i * nb) by (intros; lia).
  apply (copy_slice nb (nb * cur) (nb * it)) in E; [|destruct (slice_disj cur it nb 0 Ne) as [?|[?|?]]; lia].
  destruct E as (Lb1 & Cb1 & Kb1).
  binv1 H. rename v into iids1. bbc in E.
  apply (copy_slice (ni * 2) (ni * cur * 2) (ni * it * 2)) in E; [|destruct (slice_disj cur it (ni*2) 1 Ne) as [?|[?|?]]; lia].
  destruct E as (Li1 & Ci1 & Ki1).
  match type of H with bind ?m _ = _ => destruct m as [[bids2 iids2]|] eqn:E; [cbn [bind] in H|discriminate H] end.
  apply upd_node_inv in H as (nd3 & ns3 & E3 & -> & L3 & G3). bbc in E3. bbc in L3. bbc in L2. bbc in G3. bbc in G2.
  rewrite G2, Nat.eqb_refl in E3. injection E3 as <-.
  assert (Hn: forall i, get ns3 i = if i =? cur then Some (left_child nc) else if i =? it then Some (right_child nc nd0)
                          else get (bb_nodes w) i).
  { intros i. rewrite G3. destruct (Nat.eqb_spec i cur); [reflexivity|]. rewrite G2.
    destruct (Nat.eqb_spec i cur); [contradiction|]. rewrite G1. reflexivity. }
  exists ns3, bids2, iids2.
  destruct (Z.ltb_spec (nd_split nc) (Z.of_nat nb)) as [Lt|Ge]; bbc in E.
  - (* boolean *)
    bd E as b1 E1. bd E as b2 E4. injection E as <- <-.
    apply setz_inv in E1 as (P1 & P2 & Lb2 & G4). apply setz_inv in E4 as (P3 & P4 & Lb3 & G5).
    assert (Ejs: js < nb) by (unfold js; lia).
    replace (Z.to_nat (Z.of_nat (nb * cur) + nd_split nc)) with (nb * cur + js) in * by (unfold js; lia).
    replace (Z.to_nat (Z.of_nat (nb * it) + nd_split nc)) with (nb * it + js) in * by (unfold js; lia).
    exists f0, f0, nd0.
    split; [reflexivity|]. split; [exact E0|]. split; [exact Hn|]. split; [congruence|]. split; [congruence|]. split; [congruence|].
    assert (Dj: forall a b i j, a <> b -> i < nb -> j < nb -> nb * a + i <> nb * b + j).
    { intros a b i j N Hi Hj K. assert (a < b \/ b < a) as [?|?] by lia; nia. }
    split; [|split; [|split; [|split; [|split; [|split]]]]].
    + intros j Hj. rewrite G5. destruct (Nat.eqb_spec (nb * cur + j) (nb * it + js)) as [K|_]; [exfalso; eapply Dj; [exact Ne|..|exact K]; auto|].
      rewrite G4. destruct (Nat.eqb_spec (nb * cur + j) (nb * cur + js)), (Nat.eqb_spec j js); try lia; auto.
      apply Kb1. destruct (slice_disj cur it nb 0 Ne) as [?|[?|?]]; lia.
    + intros j Hj. rewrite G5. destruct (Nat.eqb_spec (nb * it + j) (nb * it + js)), (Nat.eqb_spec j js); try lia; auto.
      rewrite G4. destruct (Nat.eqb_spec (nb * it + j) (nb * cur + js)) as [K|_]; [exfalso; apply eq_sym in K; eapply Dj; [exact Ne|..|exact K]; auto|].
      destruct (Cb1 j Hj) as (v & V1 & V2). congruence.
    + intros i j N1 N2 Hj. rewrite G5, G4.
      destruct (Nat.eqb_spec (nb * i + j) (nb * it + js)) as [K|_]; [exfalso; eapply Dj; [exact N2|..|exact K]; auto|].
      destruct (Nat.eqb_spec (nb * i + j) (nb * cur + js)) as [K|_]; [exfalso; eapply Dj; [exact N1|..|exact K]; auto|].
      apply Kb1. destruct (slice_disj i it nb 0 N2) as [?|[?|?]]; lia.
    + intros; lia.
    + intros i Hi. destruct (Nat.leb_spec nb js); [lia|]. cbn [andb]. apply Ki1.
      destruct (slice_disj cur it (ni*2) 1 Ne) as [?|[?|?]]; lia.
    + intros i Hi. destruct (Nat.leb_spec nb js); [lia|]. cbn [andb].
      destruct (Ci1 i Hi) as (v & V1 & V2). congruence.
    + intros i j N1 N2 Hj. apply Ki1. destruct (slice_disj i it (ni*2) 1 N2) as [?|[?|?]]; lia.
  - (* integer *)
    bd E as fl Efl. bd E as i1 E4. bd E as ce Ece. bd E as i2 E6. injection E as <- <-.
    replace (Z.to_nat (nd_split nc - Z.of_nat nb)) with (js - nb) in * by (unfold js; lia).
    set (k := js - nb) in *. assert (Hk: k < ni) by (unfold k, js; lia).
    apply set_inv in E4 as (P1 & Lb2 & G4). apply set_inv in E6 as (P3 & Lb3 & G5).
    exists fl, ce, nd0.
    split; [reflexivity|]. split; [exact E0|]. split; [exact Hn|]. split; [congruence|]. split; [congruence|]. split; [congruence|].
    assert (Dj: forall a b i j, a <> b -> i < ni*2 -> j < ni*2 -> ni * a * 2 + i <> ni * b * 2 + j).
    { intros a b i j N Hi Hj K. assert (a < b \/ b < a) as [?|?] by lia; nia. }
    assert (Ejs: nb <= js) by (unfold js; lia).
    split; [|split; [|split; [|split; [|split; [|split]]]]].
    + intros j Hj. destruct (Nat.eqb_spec j js); [lia|]. apply Kb1.
      destruct (slice_disj cur it nb 0 Ne) as [?|[?|?]]; lia.
    + intros j Hj. destruct (Nat.eqb_spec j js); [lia|]. destruct (Cb1 j Hj) as (v & V1 & V2). congruence.
    + intros i j N1 N2 Hj. apply Kb1. destruct (slice_disj i it nb 0 N2) as [?|[?|?]]; lia.
    + intros _. auto.
    + intros i Hi. destruct (Nat.leb_spec nb js); [|lia]. cbn [andb]. rewrite G5.
      destruct (Nat.eqb_spec (ni * cur * 2 + i) (ni * it * 2 + k * 2)) as [K|_]; [exfalso; eapply Dj; [exact Ne|..|exact K]; lia|].
      rewrite G4. destruct (Nat.eqb_spec (ni * cur * 2 + i) (ni * cur * 2 + (k * 2 + 1))), (Nat.eqb_spec i (2 * k + 1)); try lia; auto.
      apply Ki1. destruct (slice_disj cur it (ni*2) 1 Ne) as [?|[?|?]]; lia.
    + intros i Hi. destruct (Nat.leb_spec nb js); [|lia]. cbn [andb]. rewrite G5.
      destruct (Nat.eqb_spec (ni * it * 2 + i) (ni * it * 2 + k * 2)), (Nat.eqb_spec i (2 * k)); try lia; auto.
      rewrite G4. destruct (Nat.eqb_spec (ni * it * 2 + i) (ni * cur * 2 + (k * 2 + 1))) as [K|_]; [exfalso; apply eq_sym in K; eapply Dj; [exact Ne|..|exact K]; lia|].
      destruct (Ci1 i Hi) as (v & V1 & V2). congruence.
    + intros i j N1 N2 Hj. rewrite G5, G4.
      destruct (Nat.eqb_spec (ni * i * 2 + j) (ni * it * 2 + k * 2)) as [K|_]; [exfalso; eapply Dj; [exact N2|..|exact K]; lia|].
      destruct (Nat.eqb_spec (ni * i * 2 + j) (ni * cur * 2 + (k * 2 + 1))) as [K|_]; [exfalso; eapply Dj; [exact N1|..|exact K]; lia|].
      apply Ki1. destruct (slice_disj i it (ni*2) 1 N2) as [?|[?|?]]; lia.
Qed.


(* ------------------------------------------------------------ definedness *)

Definition defd {T} (a : arr T) (s n : nat) : Prop := forall i, i < n -> exists v, get a (s + i) = Some v.

Lemma wp_copy_slice {T} n s d (a : arr T) :
  s + n <= d \/ d + n <= s -> defd a s n -> d + n <= length a ->
  wp (for_ 0 n (fun i a => v <- get a (s + i) ;; set a (d + i) v) a) (fun a' => length a' = length a).
Proof.
  intros D V L.
  apply (wp_for (fun _ (a' : arr T) => length a' = length a /\ forall j, j < n -> get a' (s + j) = get a (s + j))).
  - lia.
  - auto.
  - intros i a' Hi [La Ga]. apply wp_bind. destruct (V i ltac:(lia)) as (v & Ev). eapply wp_get; [rewrite Ga by lia; exact Ev|].
    apply wp_set; [lia|]. intros a2 L2 G2. split; [congruence|]. intros j Hj. rewrite G2, Ga by auto.
    destruct (Nat.eqb_spec (s + j) (d + i)); [lia|reflexivity].
  - intros a' [H _]. exact H.
Qed.

Lemma wp_upd_node (w : W) i f nd (Q : W -> Prop) : get (bb_nodes w) i = Some nd ->
  (forall ns, length ns = length (bb_nodes w) ->
     (forall j, get ns j = if j =? i then Some (f nd) else get (bb_nodes w) j) -> Q (set_bb_nodes w ns)) ->
  wp (upd_node w i f) Q.
Proof.
  intros E H. unfold upd_node. apply wp_bind. eapply wp_get; [exact E|]. apply wp_bind.
  apply wp_set; [eapply get_lt; eauto|]. intros ns L G. apply wp_ret. apply H; auto.
Qed.

Lemma branch_ok cur (w : W) nc nd :
  cur <> bb_iter w -> get (bb_nodes w) cur = Some nc -> get (bb_nodes w) (bb_iter w) = Some nd ->
  defd (bb_bids w) (bb_nb w * cur) (bb_nb w) -> bb_nb w * S (bb_iter w) <= length (bb_bids w) ->
  defd (bb_iids w) (bb_ni w * cur * 2) (bb_ni w * 2) -> bb_ni w * S (bb_iter w) * 2 <= length (bb_iids w) ->
  (0 <= nd_split nc < Z.of_nat (bb_nb w + bb_ni w))%Z ->
  ((Z.of_nat (bb_nb w) <= nd_split nc)%Z -> pfloat_floor (nd_val nc) (bs_itol (bb_stgs w)) <> None /\
     pfloat_ceil (nd_val nc) (bs_itol (bb_stgs w)) <> None) ->
  exists w', branch cur w = Some w'.
Proof.
  intros Ne En Ed Vb Lb Vi Li Sp Fc. set (nb := bb_nb w) in *. set (ni := bb_ni w) in *. set (it := bb_iter w) in *.
  destruct (wp_elim (branch cur w) (fun _ => True)) as (w' & E & _); [|eauto].
  unfold branch. fold nb ni it. rewrite En. cbn [bind].
  apply wp_bind. eapply wp_upd_node; [exact Ed|]. intros n1 L1 G1.
  apply wp_bind. eapply wp_upd_node; [bbc; rewrite G1; destruct (Nat.eqb_spec cur it); [contradiction|exact En]|].
  intros n2 L2 G2. bbc in L2. bbc in G2. bbc.
  apply wp_bind. eapply wp_conseq; [apply (wp_copy_slice nb (nb * cur) (nb * it)); [|exact Vb|lia]|].
  { destruct (slice_disj cur it nb 0 Ne) as [?|[?|?]]; lia. }
  cbv beta. intros b1 Lb1. apply wp_bind. eapply wp_conseq; [apply (wp_copy_slice (ni * 2) (ni * cur * 2) (ni * it * 2)); [|exact Vi|lia]|].
  { destruct (slice_disj cur it (ni*2) 1 Ne) as [?|[?|?]]; lia. }
  cbv beta. intros i1 Li1. apply wp_bind.
  assert (Fin: forall b i, wp (upd_node (set_bb_iids (set_bb_bids (set_bb_nodes (set_bb_nodes w n1) n2) b) i) cur
    (fun nd => set_nd_status nd MI_NOT_SOLVED)) (fun _ => True)).
  { intros b i. eapply wp_upd_node; [bbc; rewrite G2, Nat.eqb_refl; reflexivity|auto]. }
  assert (Dc: nb * cur + nb <= length (bb_bids w)).
  { destruct (Nat.eq_dec nb 0); [|destruct (Vb (nb - 1) ltac:(lia)) as (v & Hv); apply get_lt in Hv; lia].
    replace nb with 0 by lia. lia. }
  assert (Dic: ni * cur * 2 + ni * 2 <= length (bb_iids w)).
  { destruct (Nat.eq_dec ni 0); [|destruct (Vi (ni * 2 - 1) ltac:(lia)) as (v & Hv); apply get_lt in Hv; lia].
    replace ni with 0 by lia. lia. }
  destruct (Z.ltb_spec (nd_split nc) (Z.of_nat nb)).
  - unfold setz. destruct (Z.ltb_spec (Z.of_nat (nb * cur) + nd_split nc) 0); [lia|].
    destruct (Z.ltb_spec (Z.of_nat (nb * it) + nd_split nc) 0); [lia|].
    apply wp_bind. apply wp_set; [lia|]. intros b2 Lb2 _. apply wp_bind. apply wp_set; [lia|]. intros b3 Lb3 _.
    apply wp_ret. cbn match. apply Fin.
  - destruct (Fc ltac:(lia)) as [F1 F2].
    destruct (pfloat_floor _ _) as [fl|] eqn:E1; [|congruence]. destruct (pfloat_ceil _ _) as [ce|] eqn:E2; [|congruence].
    apply wp_bind, wp_ret. apply wp_bind. apply wp_set; [lia|]. intros i2 Li2 _.
    apply wp_bind, wp_ret. apply wp_bind. apply wp_set; [lia|]. intros i3 Li3 _.
    apply wp_ret. cbn match. apply Fin.
Qed.

End BbP.

Lemma ne_firstn {A} n (l : list A) i : i < n -> nth_error (firstn n l) i = nth_error l i.
Proof. revert l i; induction n; intros [|x l] [|i] H; cbn; auto; try lia. apply IHn; lia. Qed.
Lemma ne_skipn {A} n (l : list A) i : nth_error (skipn n l) i = nth_error l (n + i).
Proof. revert l; induction n; intros l; cbn; auto. destruct l; auto. destruct i; auto. Qed.

Lemma memcpy_inv {T} n (src dst d : arr T) off : memcpy n src off dst = Some d ->
  length d = length dst /\ (forall i, i < n -> get d i = get src (off + i)) /\ (forall i, n <= i -> get d i = get dst i).
Proof.
  unfold memcpy. destruct (Nat.leb_spec (off + n) (length src)); cbn [andb]; [|discriminate].
  destruct (Nat.leb_spec n (length dst)); [|discriminate]. intros E. injection E as <-.
  assert (L: length (firstn n (skipn off src)) = n) by (rewrite firstn_length, skipn_length; lia).
  split; [|split].
  - rewrite app_length, L, skipn_length. lia.
  - intros i Hi. unfold get. rewrite nth_error_app1 by lia. rewrite ne_firstn by auto. rewrite ne_skipn. reflexivity.
  - intros i Hi. unfold get. rewrite nth_error_app2 by lia. rewrite L, ne_skipn. replace (n + (i - n)) with i by lia. reflexivity.
Qed.
