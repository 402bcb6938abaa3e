(* The permuted KKT values: writing entries of the KKT matrix through the
   permutation map, kkt_update and kkt_init (src/kkt.c). *)
From Coq Require Import List Arith Bool ZArith Lia.
From Verif Require Import Base Num.
From Verif.Model Require Import Spla Types Consts Expcone Cone Ldl Kkt.
From Verif.Spec Require Import Matrix Fill KktSpec Shape.
From Verif.Proofs Require Import SplaP KktAsm KktMat.
Import ListNotations.
Open Scope nat_scope.

Section Kv.
Context {F : Type}.

(* entry t of the (unpermuted) list of entries is held at position PK[t] of pr *)
Record kv (flat : col F) (PK : arr nat) (pr : arr F) : Prop := {
  kv_val : forall t e, nth_error flat t = Some e -> exists k, get PK t = Some k /\ get pr k = Some (snd e);
  kv_inj : forall t t' k, t < length flat -> t' < length flat -> get PK t = Some k -> get PK t' = Some k -> t = t'
}.

Lemma kv_set X r v0 v Y PK pr : kv (X ++ (r, v0) :: Y) PK pr ->
  exists k pr', get PK (length X) = Some k /\ set pr k v = Some pr' /\ length pr' = length pr /\
    kv (X ++ (r, v) :: Y) PK pr'.
Proof.
  intros [V I].
  assert (NX : forall w, nth_error (X ++ (r, w) :: Y) (length X) = Some (r, w)).
  { intros w. rewrite nth_error_app2, Nat.sub_diag by lia. auto. }
  destruct (V _ _ (NX v0)) as (k & Gk & Gv). exists k, (upd pr k (Some v)).
  assert (Lk : k < length pr) by (eapply get_lt; eauto).
  split; auto. split; [apply set_ok; auto|]. split; [apply upd_length|].
  assert (LL : forall w, length (X ++ (r, w) :: Y) = length X + S (length Y)) by (intros; rewrite app_length; auto).
  constructor.
  - intros t e He. assert (Ht : t < length (X ++ (r, v) :: Y)) by (apply nth_error_Some; congruence).
    destruct (Nat.eq_dec t (length X)) as [->|Ne].
    + rewrite NX in He. injection He as <-. exists k. split; auto. rewrite get_upd by auto. rewrite Nat.eqb_refl. auto.
    + assert (He' : nth_error (X ++ (r, v0) :: Y) t = Some e).
      { destruct (Nat.lt_ge_cases t (length X)).
        - rewrite nth_error_app1 in * by auto. auto.
        - rewrite nth_error_app2 in * by auto. destruct (t - length X) eqn:E; [lia|]. auto. }
      destruct (V _ _ He') as (k' & Gk' & Gv'). exists k'. split; auto. rewrite get_upd by auto.
      destruct (Nat.eqb_spec k' k) as [->|]; auto. exfalso. apply Ne. rewrite (LL v) in Ht. eapply I; eauto; rewrite LL; lia.
  - intros t t' k' Ht Ht'. rewrite (LL v) in *. apply I; rewrite LL; auto.
Qed.
End Kv.

Section Upd.
Context `{O : Ops}.

Lemma setK_wp X r v0 v Y PK pr t (Q : arr F -> Prop) : kv (X ++ (r, v0) :: Y) PK pr -> t = length X ->
  (forall pr', length pr' = length pr -> kv (X ++ (r, v) :: Y) PK pr' -> Q pr') -> wp (setK PK pr t v) Q.
Proof.
  intros K -> HQ. destruct (kv_set _ _ _ v _ _ _ K) as (k & pr' & G & S & L & K').
  unfold setK. rewrite G. cbn [bind]. rewrite S. apply (wp_intro _ _ _ eq_refl). auto.
Qed.

(* a run of consecutive entries *)
Lemma setK_run X (row : nat -> nat) (o v : nat -> F) L Y PK pr (at_ : nat -> nat) (f : nat -> option F) (Q : arr F -> Prop) :
  kv (X ++ map (fun r => (row r, o r)) (seq 0 L) ++ Y) PK pr -> (forall k, k < L -> at_ k = length X + k)%nat ->
  (forall k, k < L -> f k = Some (v k)) ->
  (forall pr', length pr' = length pr -> kv (X ++ map (fun r => (row r, v r)) (seq 0 L) ++ Y) PK pr' -> Q pr') ->
  wp (for_ 0 L (fun k pr => x <- f k ;; setK PK pr (at_ k) x) pr) Q.
Proof.
  intros K Ha Hf HQ.
  apply (wp_for (fun k pr' => length pr' = length pr /\
    kv (X ++ (map (fun r => (row r, v r)) (seq 0 k) ++ map (fun r => (row r, o r)) (seq k (L - k))) ++ Y) PK pr')).
  - lia.
  - split; auto. cbn. rewrite Nat.sub_0_r. auto.
  - intros k s [_ Hk] [Ls Ks]. rewrite (Hf k Hk). cbn [bind].
    replace (L - k)%nat with (S (L - S k))%nat in Ks by lia. cbn [seq map] in Ks.
    rewrite <- app_assoc in Ks. cbn [app] in Ks. rewrite app_assoc in Ks.
    eapply setK_wp; [exact Ks| |].
    + rewrite app_length, map_length, seq_length. auto.
    + intros pr' L' K'. split; [lia|]. rewrite seq_S, map_app. cbn [map Nat.add].
      rewrite <- !app_assoc. cbn [app]. rewrite <- app_assoc in K'. exact K'.
  - intros pr' [L' K']. rewrite Nat.sub_diag in K'. cbn in K'. rewrite app_nil_r in K'. auto.
Qed.

(* the last entries of consecutive columns *)
Lemma setK_diag X (g : nat -> col F) (row : nat -> nat) (o v : nat -> F) lo L Y PK pr (idx : arr nat) (body : nat -> arr F -> option (arr F)) (Q : arr F -> Prop) :
  let cl w := fun j => g j ++ [(row j, w j)] in
  (lo <= L)%nat ->
  kv (X ++ concat (map (cl o) (seq 0 L)) ++ Y) PK pr ->
  (forall j, j < L -> get idx j = Some (length X + length (concat (map (cl o) (seq 0 j))) + length (g j))%nat) ->
  (forall k pr, lo <= k < L -> body k pr = (i <- get idx k ;; setK PK pr i (v k))) -> (forall k, k < lo -> v k = o k) ->
  (forall pr', length pr' = length pr -> kv (X ++ concat (map (cl v) (seq 0 L)) ++ Y) PK pr' -> Q pr') ->
  wp (for_ lo L body pr) Q.
Proof.
  intros cl Hlo K Hi Hf Hv HQ.
  assert (LE : forall k, length (concat (map (cl v) (seq 0 k))) = length (concat (map (cl o) (seq 0 k)))).
  { induction k as [|k IH]; auto. rewrite !seq_S, !map_app, !concat_app, !app_length, IH. cbn [map concat Nat.add]. rewrite !app_nil_r. unfold cl. rewrite !app_length. auto. }
  apply (wp_for (fun k pr' => length pr' = length pr /\
    kv (X ++ (concat (map (cl v) (seq 0 k)) ++ concat (map (cl o) (seq k (L - k)))) ++ Y) PK pr')).
  - auto.
  - split; auto. replace (map (cl v) (seq 0 lo)) with (map (cl o) (seq 0 lo)).
    2: { apply map_ext_in. intros j Hj. apply in_seq in Hj. unfold cl. rewrite Hv by lia. auto. }
    rewrite <- concat_app, <- map_app. rewrite <- seq_app. replace (lo + (L - lo))%nat with L by lia. auto.
  - intros k s Hk [Ls Ks]. rewrite (Hf k s Hk). wget (fun i (H : (i < L)%nat) => Hi i H).
    assert (E : forall w, (X ++ (concat (map (cl v) (seq 0 k)) ++ cl w k ++ concat (map (cl o) (seq (S k) (L - S k)))) ++ Y) =
       (X ++ concat (map (cl v) (seq 0 k)) ++ g k) ++ (row k, w k) :: concat (map (cl o) (seq (S k) (L - S k))) ++ Y).
    { intros w. unfold cl at 2. rewrite <- !app_assoc. reflexivity. }
    replace (L - k)%nat with (S (L - S k))%nat in Ks by lia. cbn [seq map concat] in Ks. rewrite E in Ks.
    eapply setK_wp; [exact Ks| |].
    + rewrite !app_length, LE. lia.
    + intros pr' L' K'. split; [lia|]. rewrite seq_S, map_app, concat_app. cbn [map concat Nat.add].
      rewrite app_nil_r, <- (app_assoc (concat _)), E. exact K'.
  - intros pr' [L' K']. rewrite Nat.sub_diag in K'. cbn [seq map concat] in K'. rewrite app_nil_r in K'. auto.
Qed.

Lemma seq1_map {A} (f : nat -> A) L : map f (seq 1 L) = map (fun r => f (S r)) (seq 0 L).
Proof. rewrite <- seq_shift, map_map. auto. Qed.

Lemma firstn_seq j q a : j <= q -> firstn j (seq a q) = seq a j.
Proof.
  intros H. replace q with (j + (q - j)) by lia. rewrite seq_app, firstn_app, seq_length, Nat.sub_diag, firstn_O, app_nil_r.
  apply firstn_all2. rewrite seq_length; auto.
Qed.

Definition soc_written (D0 D1 : F) (v : nat -> F) (vd u0 : F) (u : nat -> F) (ud : F) : socv F :=
  mkSocv (fun j => if Nat.eqb j 0 then D0 else D1) v vd (fun r => if Nat.eqb r 0 then u0 else u (r - 1)%nat) ud.

Lemma kkt_write_soc_wp X Y PK pr (Gc : nat -> col F) base cs (c : socone F) old D0 D1 fv v vd u0 fu u ud (Q : arr F -> Prop) :
  let q := so_p c in
  1 <= q ->
  kv (X ++ concat (soc_block Gc base cs q old) ++ Y) PK pr ->
  (forall j, j < q -> get (so_Didx c) j =
     Some (length X + length (concat (firstn j (soc_block Gc base cs q old))) + length (Gc (cs + j)))%nat) ->
  (forall k, k < q - 1 -> fv k = Some (v k)) -> (forall k, k < q - 1 -> fu k = Some (u k)) ->
  (forall pr', length pr' = length pr ->
     kv (X ++ concat (soc_block Gc base cs q (soc_written D0 D1 v vd u0 u ud)) ++ Y) PK pr' -> Q pr') ->
  wp (kkt_write_soc PK c D0 D1 fv vd u0 fu ud pr) Q.
Proof.
  intros q Hq K Hi Hfv Hfu HQ. unfold kkt_write_soc. fold q.
  unfold soc_block in K, HQ. repeat rewrite concat_app in K. rewrite concat_app in HQ.
  cbn [concat] in K, HQ. rewrite app_nil_r in K, HQ.
  rewrite seq1_map in K, HQ. cbn [soc_written sv_D sv_v sv_u sv_vd sv_ud] in HQ.
  set (cl := fun (w : nat -> F) j => Gc (cs + j) ++ [((base + j)%nat, w j)]) in *.
  assert (Hfst : forall w j, j <= q -> length (concat (firstn j (soc_block Gc base cs q old))) = length (concat (map (cl w) (seq 0 j)))).
  { intros w j Hj. unfold soc_block. rewrite firstn_app, map_length, seq_length.
    replace (j - q)%nat with 0%nat by lia. rewrite firstn_O, app_nil_r.
    rewrite firstn_map. replace (firstn j (seq 0 q)) with (seq 0 j).
    2: { symmetry. apply firstn_seq; auto. }
    unfold cl. clear. induction j as [|j IH]; auto. rewrite !seq_S, !map_app, !concat_app, !app_length, IH.
    cbn [map concat Nat.add]. rewrite !app_nil_r, !app_length. auto. }
  assert (Hi' : forall w j, j < q -> get (so_Didx c) j = Some (length X + length (concat (map (cl w) (seq 0 j))) + length (Gc (cs + j)))%nat).
  { intros w j Hj. rewrite Hi by auto. rewrite (Hfst w) by lia. auto. }
  clear Hi Hfst.
  set (D' := fun j => if Nat.eqb j 0 then D0 else sv_D old j).
  set (Dn := fun j => if Nat.eqb j 0 then D0 else D1) in *.
  wget (Hi' (sv_D old)).
  (* D0 *)
  assert (E0 : forall w Z, X ++ (concat (map (cl w) (seq 0 q)) ++ Z) ++ Y =
     (X ++ Gc (cs + 0)) ++ (base + 0, w 0)%nat :: (concat (map (cl w) (seq 1 (q - 1))) ++ Z ++ Y)).
  { intros w Z. replace q with (S (q - 1)) at 1 by lia. cbn [seq map concat]. unfold cl at 1. rewrite <- !app_assoc. reflexivity. }
  change (map (fun j => Gc (cs + j) ++ [((base + j)%nat, sv_D old j)]) (seq 0 q)) with (map (cl (sv_D old)) (seq 0 q)) in K.
  change (map (fun j => Gc (cs + j) ++ [((base + j)%nat, Dn j)]) (seq 0 q)) with (map (cl Dn) (seq 0 q)) in HQ.
  rewrite E0 in K.
  wb. eapply setK_wp; [exact K| |].
  { cbn [seq map concat length]. rewrite app_length. lia. }
  intros pr1 L1 K1. clear K.
  replace (concat (map (cl (sv_D old)) (seq 1 (q - 1)))) with (concat (map (cl D') (seq 1 (q - 1)))) in K1.
  2: { f_equal. apply map_ext_in. intros j Hj. apply in_seq in Hj. unfold cl, D'. destruct j; [lia|]. auto. }
  change D0 with (D' 0%nat) in K1. rewrite <- E0 in K1. rewrite <- app_assoc in K1.
  (* the rest of D *)
  wb. eapply (setK_diag X (fun j => Gc (cs + j)) (fun j => (base + j)%nat) D' Dn 1 q _ PK pr1 (so_Didx c) _).
  { auto. }
  { exact K1. }
  { apply Hi'. }
  { intros k pr0 Hk. unfold Dn. destruct k; [lia|]. reflexivity. }
  { intros k Hk. destruct k; [auto|lia]. }
  fold (cl Dn). intros pr2 L2 K2. clear K1.
  wget (Hi' Dn).
  set (dm := (length X + length (concat (map (cl Dn) (seq 0 (q - 1)))) + length (Gc (cs + (q - 1))))%nat).
  assert (Hdm : length (X ++ concat (map (cl Dn) (seq 0 q))) = S dm).
  { rewrite app_length. replace q with (S (q - 1)) at 1 by lia. rewrite seq_S, map_app, concat_app, app_length. cbn [map concat Nat.add].
    unfold cl at 2. rewrite app_nil_r, app_length. cbn [length]. unfold dm. lia. }
  set (Z1 := X ++ concat (map (cl Dn) (seq 0 q))) in *.
  (* v *)
  rewrite app_assoc in K2. fold Z1 in K2. rewrite <- !app_assoc in K2.
  wb. eapply (setK_run Z1 (fun r => (base + S r)%nat) (sv_v old) v (q - 1) _ PK pr2 (fun k => (dm + (1 + k))%nat) fv).
  { erewrite map_ext; [exact K2|]. intros r. cbn. rewrite Nat.sub_0_r. auto. }
  { intros; lia. }
  { auto. }
  intros pr3 L3 K3. clear K2.
  (* v diagonal *)
  set (vc := map (fun r => ((base + S r)%nat, v r)) (seq 0 (q - 1))) in *.
  assert (Lvc : length vc = (q - 1)%nat) by (unfold vc; rewrite map_length, seq_length; auto).
  rewrite app_assoc in K3. cbn [app] in K3.
  wb. eapply setK_wp; [exact K3| |].
  { rewrite app_length. lia. }
  intros pr4 L4 K4. clear K3.
  (* u0 *)
  assert (Es : forall w : nat -> F, map (fun r => (base + r, w r)) (seq 0 q) = (base + 0, w 0) :: map (fun r => (base + S r, w (S r))) (seq 0 (q - 1))).
  { intros w. replace q with (S (q - 1)) at 1 by lia. cbn [seq map]. rewrite seq1_map. auto. }
  rewrite Es in K4, HQ.
  assert (E1 : forall a, (Z1 ++ vc) ++ (base + q, vd) :: a = (Z1 ++ vc ++ [(base + q, vd)]) ++ a).
  { intros. rewrite <- !app_assoc. reflexivity. }
  rewrite E1 in K4. set (Z2 := Z1 ++ vc ++ [(base + q, vd)]) in *.
  assert (LZ2 : length Z2 = dm + (2 + (q - 1))). { unfold Z2. rewrite !app_length, Lvc. cbn. lia. }
  cbn [app] in K4.
  wb. eapply setK_wp; [exact K4| |].
  { lia. }
  intros pr5 L5 K5. clear K4.
  (* u *)
  assert (E2 : forall a, Z2 ++ (base + 0, u0) :: a = (Z2 ++ [(base + 0, u0)]) ++ a).
  { intros. rewrite <- !app_assoc. reflexivity. }
  rewrite E2 in K5. set (Z3 := Z2 ++ [(base + 0, u0)]) in *.
  assert (LZ3 : length Z3 = dm + (3 + (q - 1))). { unfold Z3. rewrite app_length. cbn. lia. }
  wb. eapply (setK_run Z3 (fun r => base + S r) (fun r => sv_u old (S r)) u (q - 1) _ PK pr5 (fun k => dm + (3 + (q - 1) + k)) fu).
  { exact K5. }
  { intros; lia. }
  { auto. }
  intros pr6 L6 K6. clear K5.
  rewrite app_assoc in K6.
  eapply setK_wp; [exact K6| |].
  { rewrite app_length, map_length, seq_length. lia. }
  intros pr7 L7 K7. apply HQ; [congruence|].
  replace (map (fun r => (base + S r, u (S r - 1))) (seq 0 (q - 1))) with (map (fun r => (base + S r, u r)) (seq 0 (q - 1)))
    by (apply map_ext; intros r; rewrite Nat.sub_succ, Nat.sub_0_r; auto).
  replace (map (fun r => (base + S r, v (S r - 1))) (seq 0 (q - 1))) with vc
    by (apply map_ext; intros r; rewrite Nat.sub_succ, Nat.sub_0_r; auto).
  unfold Z3, Z2, Z1 in K7. clear - K7. cbn [Nat.eqb]. repeat rewrite <- app_assoc in *. cbn [app] in *.
  rewrite <- ?app_assoc in K7.
  erewrite (map_ext (fun r => (base + S r, u (S r - 1)))); [exact K7|]. intros r. cbn. rewrite Nat.sub_0_r; auto.
Qed.

(* ---- positions depend on the lengths of the columns only ---- *)
Lemma start_lens (a b : list (col F)) c : map (@length _) a = map (@length _) b -> start a c = start b c.
Proof.
  revert b c; induction a as [|x t IH]; intros [|y b] c H; try discriminate; auto.
  injection H as H1 H2. destruct c as [|c]; auto. unfold start in *. cbn. rewrite !app_length, (IH b c H2). lia.
Qed.
Lemma soc_block_lens Gc base cs q (v w : socv F) : map (@length _) (soc_block Gc base cs q v) = map (@length _) (soc_block Gc base cs q w).
Proof.
  unfold soc_block. rewrite !map_app, !map_map. f_equal.
  - apply map_ext. intros j. rewrite !app_length. auto.
  - cbn. rewrite !app_length, !map_length. auto.
Qed.
Lemma exp_block_lens Gc base cs (v w : expv F) : map (@length _) (exp_block Gc base cs v) = map (@length _) (exp_block Gc base cs w).
Proof. unfold exp_block. rewrite !map_map. apply map_ext. intros j. rewrite !app_length, !map_length. auto. Qed.
Lemma soc_cols_lens Gc l : forall l' base cs, map fst l = map fst l' ->
  map (@length _) (soc_cols (F:=F) Gc base cs l) = map (@length _) (soc_cols Gc base cs l').
Proof.
  induction l as [|[q v] t IH]; intros [|[q' v'] t'] base cs H; try discriminate; auto.
  cbn in H. injection H as -> H. cbn [soc_cols]. rewrite !map_app. f_equal; [apply soc_block_lens|auto].
Qed.
Lemma exp_cols_lens Gc l : forall l' base cs, length l = length l' ->
  map (@length _) (exp_cols (F:=F) Gc base cs l) = map (@length _) (exp_cols Gc base cs l').
Proof.
  induction l as [|v t IH]; intros [|v' t'] base cs H; try discriminate; auto.
  cbn in H. cbn [exp_cols]. rewrite !map_app. f_equal; [apply exp_block_lens|auto].
Qed.

(* ---- the linear block ---- *)
Lemma lp_upd_wp (Gc : nat -> col F) pre post l old v PK pr (idx : arr nat) (cols0 : list (col F)) base (body : nat -> arr F -> option (arr F)) (Q : arr F -> Prop) :
  map (@length _) cols0 = map (@length _) (pre ++ lp_cols Gc base l old ++ post) -> base = length pre ->
  kv (concat (pre ++ lp_cols Gc base l old ++ post)) PK pr ->
  (forall j, j < l -> get idx j = Some (start cols0 (base + j) + length (Gc j))) ->
  (forall k pr, k < l -> body k pr = (i <- get idx k ;; setK PK pr i (v k))) ->
  (forall pr', length pr' = length pr -> kv (concat (pre ++ lp_cols Gc base l v ++ post)) PK pr' -> Q pr') ->
  wp (for_ 0 l body pr) Q.
Proof.
  intros LE Hb K Hi Hf HQ. rewrite !concat_app in K.
  apply (setK_diag (concat pre) Gc (fun j => base + j) old v 0 l (concat post) PK pr idx); auto.
  - lia.
  - intros j Hj. rewrite Hi by auto. do 2 f_equal. rewrite (start_lens _ _ _ LE). rewrite Hb, start_app. f_equal.
    rewrite start_le by (unfold lp_cols; rewrite map_length, seq_length; lia).
    unfold start, lp_cols. rewrite firstn_map, firstn_seq by lia. auto.
  - intros; apply Hf; lia.
  - intros; lia.
  - intros pr' L' K'. apply HQ; auto. rewrite !concat_app. exact K'.
Qed.

(* ---- the second-order blocks ---- *)
Lemma soc_upd_wp (Gc : nat -> col F) PK (body : socone F -> arr F -> option (arr F)) (val : socone F -> socv F) (cols0 : list (col F))
    (l : list (socone F)) : forall soc pre post base cs pr (Q : arr F -> Prop),
  map fst soc = map so_p l -> (forall c, In c l -> 1 <= so_p c) ->
  map (@length _) cols0 = map (@length _) (pre ++ soc_cols Gc base cs soc ++ post) -> base = length pre ->
  kv (concat (pre ++ soc_cols Gc base cs soc ++ post)) PK pr ->
  didx_ok cols0 (fun j => length (Gc j)) base cs l ->
  (forall c, In c l -> exists D0 D1 fv v vd u0 fu u ud,
     (forall pr, body c pr = kkt_write_soc PK c D0 D1 fv vd u0 fu ud pr) /\
     (forall k, k < so_p c - 1 -> fv k = Some (v k)) /\ (forall k, k < so_p c - 1 -> fu k = Some (u k)) /\
     val c = soc_written D0 D1 v vd u0 u ud) ->
  (forall pr', length pr' = length pr ->
     kv (concat (pre ++ soc_cols Gc base cs (map (fun c => (so_p c, val c)) l) ++ post)) PK pr' -> Q pr') ->
  wp (for_each l body pr) Q.
Proof.
  induction l as [|c t IH]; intros soc pre post base cs pr Q Hq H1 LE Hb K HD HB HQ.
  - destruct soc; [|discriminate]. cbn. apply (wp_intro _ _ _ eq_refl). apply HQ; auto.
  - destruct soc as [|[q v] soc]; [discriminate|]. cbn [map fst] in Hq. injection Hq as Hq0 Hq. subst q.
    cbn [for_each]. destruct HD as (LD & GD & HD).
    destruct (HB c (or_introl eq_refl)) as (D0 & D1 & fv & vv & vd & u0 & fu & u & ud & Eb & Fv & Fu & Ev).
    cbn [soc_cols] in K, LE.
    wb. rewrite Eb.
    apply (kkt_write_soc_wp (concat pre) (concat (soc_cols Gc (base + so_p c + 2) (cs + so_p c) soc ++ post)) PK pr Gc base cs c v D0 D1 fv vv vd u0 fu u ud); auto.
    + apply H1; left; auto.
    + rewrite !concat_app in K. rewrite concat_app. rewrite <- app_assoc in K. exact K.
    + intros j Hj. rewrite GD by auto. do 2 f_equal. rewrite (start_lens _ _ _ LE). rewrite Hb, start_app. f_equal.
      rewrite <- app_assoc, start_le by (rewrite soc_block_cols; lia). auto.
    + rewrite <- Ev. intros pr1 L1 K1.
      apply (IH soc (pre ++ soc_block Gc base cs (so_p c) (val c)) post (base + so_p c + 2) (cs + so_p c)); auto.
      * intros; apply H1; right; auto.
      * rewrite LE. rewrite !map_app, <- !app_assoc. f_equal. f_equal. apply soc_block_lens.
      * rewrite app_length, soc_block_cols. lia.
      * rewrite !concat_app in K1. rewrite !concat_app, <- !app_assoc. exact K1.
      * intros; apply HB; right; auto.
      * intros pr2 L2 K2. apply HQ; [congruence|]. cbn [map soc_cols]. rewrite <- !app_assoc in *. exact K2.
Qed.

(* ---- the exponential blocks ---- *)
(* position of entry (r,j), r <= j, in the packed array of six *)
Definition tri (r j : nat) : nat := match j with 0 => 0 | 1 => 1 + r | _ => 3 + r end.

Lemma exp_upd1_wp (Gc : nat -> col F) PK pr X Y base cs (e : expcone F) old (val : expv F) c0 c1 c2 (Q : arr F -> Prop) :
  kv (X ++ concat (exp_block Gc base cs old) ++ Y) PK pr ->
  c0 = length X + length (Gc (cs + 0)) ->
  c1 = length X + start (exp_block Gc base cs old) 1 + length (Gc (cs + 1)) ->
  c2 = length X + start (exp_block Gc base cs old) 2 + length (Gc (cs + 2)) ->
  (forall pr', length pr' = length pr -> kv (X ++ concat (exp_block Gc base cs val) ++ Y) PK pr' -> Q pr') ->
  wp (pr <- setK PK pr c0 (val 0 0) ;; pr <- setK PK pr c1 (val 0 1) ;; pr <- setK PK pr (c1 + 1) (val 1 1) ;;
      pr <- setK PK pr c2 (val 0 2) ;; pr <- setK PK pr (c2 + 1) (val 1 2) ;; setK PK pr (c2 + 2) (val 2 2)) Q.
Proof.
  intros K H0 H1 H2 HQ.
  set (fl := fun a00 a01 a11 a02 a12 a22 : F => X ++ Gc (cs + 0) ++ [(base + 0, a00)] ++ Gc (cs + 1) ++ [(base + 0, a01); (base + 1, a11)] ++
     Gc (cs + 2) ++ [(base + 0, a02); (base + 1, a12); (base + 2, a22)] ++ Y).
  assert (E : forall v : expv F, X ++ concat (exp_block Gc base cs v) ++ Y = fl (v 0 0) (v 0 1) (v 1 1) (v 0 2) (v 1 2) (v 2 2)).
  { intros v. unfold exp_block, fl. cbn [seq map concat app]. rewrite app_nil_r. rewrite <- !app_assoc. reflexivity. }
  rewrite E in K, HQ.
  assert (S1 : start (exp_block Gc base cs old) 1 = length (Gc (cs + 0)) + 1).
  { unfold start, exp_block. cbn [seq map firstn concat app]. rewrite app_nil_r, app_length. auto. }
  assert (S2 : start (exp_block Gc base cs old) 2 = length (Gc (cs + 0)) + 1 + length (Gc (cs + 1)) + 2).
  { unfold start, exp_block. cbn [seq map firstn concat app]. rewrite app_nil_r, !app_length. cbn [length]. lia. }
  rewrite S1 in H1. rewrite S2 in H2. clear S1 S2 E.
  set (G0 := Gc (cs + 0)) in *. set (G1 := Gc (cs + 1)) in *. set (G2 := Gc (cs + 2)) in *.
  assert (step : forall Z r v0 v t tl pr0 (P : arr F -> Prop), kv (Z ++ (r, v0) :: tl) PK pr0 -> t = length Z ->
     (forall pr', length pr' = length pr0 -> kv (Z ++ (r, v) :: tl) PK pr' -> P pr') -> wp (setK PK pr0 t v) P).
  { intros. eapply setK_wp; eauto. }
  unfold fl in *.
  wb. eapply (step (X ++ G0)).
  { rewrite <- app_assoc. exact K. } { rewrite app_length; lia. }
  intros pr1 L1 K1.
  wb. eapply (step (X ++ G0 ++ [(base + 0, val 0 0)] ++ G1)).
  { rewrite <- !app_assoc in *. exact K1. } { rewrite !app_length; cbn; lia. }
  intros pr2 L2 K2.
  wb. eapply (step (X ++ G0 ++ [(base + 0, val 0 0)] ++ G1 ++ [(base + 0, val 0 1)])).
  { rewrite <- !app_assoc in *. exact K2. } { rewrite !app_length; cbn; lia. }
  intros pr3 L3 K3.
  wb. eapply (step (X ++ G0 ++ [(base + 0, val 0 0)] ++ G1 ++ [(base + 0, val 0 1); (base + 1, val 1 1)] ++ G2)).
  { rewrite <- !app_assoc in *. exact K3. } { rewrite !app_length; cbn; lia. }
  intros pr4 L4 K4.
  wb. eapply (step (X ++ G0 ++ [(base + 0, val 0 0)] ++ G1 ++ [(base + 0, val 0 1); (base + 1, val 1 1)] ++ G2 ++ [(base + 0, val 0 2)])).
  { rewrite <- !app_assoc in *. exact K4. } { rewrite !app_length; cbn; lia. }
  intros pr5 L5 K5.
  eapply (step (X ++ G0 ++ [(base + 0, val 0 0)] ++ G1 ++ [(base + 0, val 0 1); (base + 1, val 1 1)] ++ G2 ++ [(base + 0, val 0 2); (base + 1, val 1 2)])).
  { rewrite <- !app_assoc in *. exact K5. } { rewrite !app_length; cbn; lia. }
  intros pr6 L6 K6. apply HQ; [congruence|]. rewrite <- !app_assoc in K6. exact K6.
Qed.

Lemma exp_upd_wp (Gc : nat -> col F) PK (body : expcone F -> arr F -> option (arr F)) (val : expcone F -> expv F) (cols0 : list (col F))
    (l : list (expcone F)) : forall ex pre post base cs pr (Q : arr F -> Prop),
  length ex = length l ->
  map (@length _) cols0 = map (@length _) (pre ++ exp_cols Gc base cs ex ++ post) -> base = length pre ->
  kv (concat (pre ++ exp_cols Gc base cs ex ++ post)) PK pr ->
  colstart_ok cols0 (fun j => length (Gc j)) base cs l ->
  (forall e, In e l -> forall c0 c1 c2, get (ex_colstart e) 0 = Some c0 -> get (ex_colstart e) 1 = Some c1 -> get (ex_colstart e) 2 = Some c2 ->
     forall pr, body e pr =
     (pr <- setK PK pr c0 (val e 0 0) ;; pr <- setK PK pr c1 (val e 0 1) ;; pr <- setK PK pr (c1 + 1) (val e 1 1) ;;
      pr <- setK PK pr c2 (val e 0 2) ;; pr <- setK PK pr (c2 + 1) (val e 1 2) ;; setK PK pr (c2 + 2) (val e 2 2))) ->
  (forall pr', length pr' = length pr ->
     kv (concat (pre ++ exp_cols Gc base cs (map val l) ++ post)) PK pr' -> Q pr') ->
  wp (for_each l body pr) Q.
Proof.
  induction l as [|e t IH]; intros ex pre post base cs pr Q Hl LE Hb K HD HB HQ.
  - destruct ex; [|discriminate]. cbn. apply (wp_intro _ _ _ eq_refl). apply HQ; auto.
  - destruct ex as [|v ex]; [discriminate|]. cbn [length] in Hl.
    cbn [for_each]. destruct HD as (LD & GD & HD).
    cbn [exp_cols] in K, LE.
    assert (LB : forall v : expv F, length (exp_block Gc base cs v) = 3) by reflexivity.
    assert (GD' : forall j, j < 3 -> get (ex_colstart e) j = Some (length (concat pre) + start (exp_block Gc base cs v) j + length (Gc (cs + j)))).
    { intros j Hj. rewrite GD by auto. do 2 f_equal. rewrite (start_lens _ _ _ LE). rewrite Hb, start_app. f_equal.
      rewrite <- app_assoc, start_le by (cbn; lia). auto. }
    wb. rewrite (HB e (or_introl eq_refl) _ _ _ (GD' 0 ltac:(lia)) (GD' 1 ltac:(lia)) (GD' 2 ltac:(lia))).
    apply (exp_upd1_wp Gc PK pr (concat pre) (concat (exp_cols Gc (base + 3) (cs + 3) ex ++ post)) base cs e v (val e)); auto.
    + rewrite !concat_app in K. rewrite concat_app. rewrite <- app_assoc in K. exact K.
    + intros pr1 L1 K1.
      apply (IH ex (pre ++ exp_block Gc base cs (val e)) post (base + 3) (cs + 3)); auto.
      * rewrite LE. rewrite !map_app, <- !app_assoc. f_equal. f_equal. apply exp_block_lens.
      * rewrite app_length, LB. lia.
      * rewrite !concat_app in K1. rewrite !concat_app, <- !app_assoc. exact K1.
      * intros; apply HB; auto. right; auto.
      * intros pr2 L2 K2. apply HQ; [congruence|]. cbn [map exp_cols]. rewrite <- !app_assoc in *. exact K2.
Qed.

Lemma kkt_cols_lens Gc n p Ac (d e : F) l v v' soc soc' ex ex' : map fst soc = map fst soc' -> length ex = length ex' ->
  map (@length _) (kkt_cols Gc n p Ac d e l v soc ex) = map (@length _) (kkt_cols Gc n p Ac d e l v' soc' ex').
Proof.
  intros E1 E2. unfold kkt_cols. rewrite !map_app. assert (EL : length soc = length soc') by (rewrite <- (map_length fst), E1, map_length; auto).
  rewrite E1, EL. f_equal. f_equal. f_equal; [|f_equal].
  - unfold lp_cols. rewrite !map_map. apply map_ext. intros j. rewrite !app_length. auto.
  - apply soc_cols_lens; auto.
  - apply exp_cols_lens; auto.
Qed.

(* values written by kkt_update for one cone; a missing scalar does not occur *)
Definition oget (o : option F) : F := match o with Some v => v | None => f0 end.
Definition soc_scaled (c : socone F) : socv F :=
  let es := oget (so_eta_square c) in
  soc_written (- es * oget (so_d1 c) - DELTASTAT)%fl (- es - DELTASTAT)%fl
    (fun k => (- es * oget (so_v1 c) * gd f0 (so_q c) k)%fl) (- es)%fl
    (- es * oget (so_u0 c))%fl (fun k => (- es * oget (so_u1 c) * gd f0 (so_q c) k)%fl) (es + DELTASTAT)%fl.
Definition exp_scaled (e : expcone F) : expv F := fun r j =>
  let v := gd f0 (ex_v e) (tri r j) in if Nat.eqb r j then (- v - DELTASTAT)%fl else (- v)%fl.
Definition lp_scaled (C : cone F) (j : nat) : F := (- gd f0 (lp_v (co_lpc C)) j - DELTASTAT)%fl.

(* everything kkt_update reads from the cones has been computed *)
Record kready (C : cone F) : Prop := {
  kr_v : forall i, i < lpp C -> exists v, get (lp_v (co_lpc C)) i = Some v;
  kr_soc : forall c, In c (co_soc C) -> exists es d1 u0 u1 v1, so_eta_square c = Some es /\ so_d1 c = Some d1 /\
     so_u0 c = Some u0 /\ so_u1 c = Some u1 /\ so_v1 c = Some v1;
  kr_q : forall c, In c (co_soc C) -> forall i, i < so_p c - 1 -> exists v, get (so_q c) i = Some v;
  kr_e : forall e, In e (co_expc C) -> forall i, i < 6 -> exists v, get (ex_v e) i = Some v
}.

(* the index vectors of the cones point into the columns *)
Record indexed (cols : list (col F)) (len : nat -> nat) (n p : nat) (C : cone F) : Prop := {
  ix_lp : lpidx_ok cols len (n + p) (co_lpc C);
  ix_soc : didx_ok cols len (n + p + lpp C) (lpp C) (co_soc C);
  ix_exp : colstart_ok cols len (n + p + hsize C + 2 * nsoc C) (hsize C) (co_expc C)
}.

Lemma kkt_update_wp (Gc : nat -> col F) n p Ac d e lpv soc ex C PK pr (cols0 : list (col F)) (Q : arr F -> Prop) :
  let cols := kkt_cols Gc n p Ac d e (lpp C) lpv soc ex in
  map fst soc = map so_p (co_soc C) -> length ex = nexc C -> (forall c, In c (co_soc C) -> 1 <= so_p c) ->
  map (@length _) cols0 = map (@length _) cols ->
  kv (concat cols) PK pr -> indexed cols0 (fun j => length (Gc j)) n p C -> kready C ->
  (forall pr', length pr' = length pr ->
    kv (concat (kkt_cols Gc n p Ac d e (lpp C) (lp_scaled C) (map (fun c => (so_p c, soc_scaled c)) (co_soc C))
                 (map exp_scaled (co_expc C)))) PK pr' -> Q pr') ->
  wp (kkt_update pr PK C) Q.
Proof.
  intros cols Hq Hx H1 LE K [IL IS IE] [SV SS SQ SE] HQ. unfold kkt_update.
  assert (Lq : length soc = nsoc C) by (unfold nsoc; rewrite <- (map_length so_p), <- Hq, map_length; auto).
  unfold hsize in *. unfold nexc in Hx.
  assert (Lxy : length (map (fun j => [(j, d)]) (seq 0 n) ++ map (fun j => Ac j ++ [(n + j, e)]) (seq 0 p)) = n + p)
    by (rewrite app_length, !map_length, !seq_length; auto).
  unfold cols in *. clear cols. unfold kkt_cols in *. rewrite Hq, Lq in *.
  rewrite map_fst_socv, map_length in HQ. fold (nsoc C) in HQ.
  set (xy := map (fun j => [(j, d)]) (seq 0 n)) in *. set (yy := map (fun j => Ac j ++ [(n + j, e)]) (seq 0 p)) in *.
  rewrite app_assoc in K, LE, HQ. set (pre := xy ++ yy) in *.
  wb. eapply (lp_upd_wp Gc pre _ (lpp C) lpv (lp_scaled C) PK pr (lp_kkt_idx (co_lpc C)) cols0 (n + p)); eauto.
  { apply IL. }
  { intros j pr0 Hj. destruct (SV j Hj) as [v Hv]. rewrite Hv. cbn [bind]. unfold lp_scaled. rewrite (gd_get _ _ _ _ Hv). auto. }
  intros pr1 L1 K1.
  assert (LE1 : map (@length _) cols0 = map (@length _) ((pre ++ lp_cols Gc (n + p) (lpp C) (lp_scaled C)) ++
     soc_cols Gc (n + p + lpp C) (lpp C) soc ++
     exp_cols Gc (n + p + lpp C + list_sum (map so_p (co_soc C)) + 2 * nsoc C) (lpp C + list_sum (map so_p (co_soc C))) ex)).
  { rewrite LE, !map_app, <- !app_assoc. f_equal. f_equal. unfold lp_cols. rewrite !map_map. apply map_ext. intros; rewrite !app_length; auto. }
  wb. eapply (soc_upd_wp Gc PK _ soc_scaled cols0 (co_soc C) soc (pre ++ lp_cols Gc (n + p) (lpp C) (lp_scaled C)) _ (n + p + lpp C) (lpp C)); auto.
  { exact LE1. }
  { rewrite app_length, Lxy. unfold lp_cols. rewrite map_length, seq_length. auto. }
  { rewrite <- app_assoc. exact K1. }
  { intros c Hc. destruct (SS c Hc) as (es & d1 & u0 & u1 & v1 & E1 & E2 & E3 & E4 & E5).
    eexists _, _, _, _, _, _, _, _, _. split; [|split; [|split]].
    - intros pr0. rewrite E1, E2, E3, E4, E5. cbn [bind]. reflexivity.
    - intros k Hk. destruct (SQ c Hc k Hk) as [v Hv]. rewrite Hv. cbn [bind]. rewrite <- (gd_get f0 _ _ _ Hv). reflexivity.
    - intros k Hk. destruct (SQ c Hc k Hk) as [v Hv]. rewrite Hv. cbn [bind]. rewrite <- (gd_get f0 _ _ _ Hv). reflexivity.
    - unfold soc_scaled. rewrite E1, E2, E3, E4, E5. cbn [oget]. reflexivity. }
  intros pr2 L2 K2.
  set (soc' := map (fun c => (so_p c, soc_scaled c)) (co_soc C)) in *.
  assert (Hq' : map fst soc = map fst soc') by (unfold soc'; rewrite map_fst_socv; auto).
  eapply (exp_upd_wp Gc PK _ exp_scaled cols0 (co_expc C) ex ((pre ++ lp_cols Gc (n + p) (lpp C) (lp_scaled C)) ++ soc_cols Gc (n + p + lpp C) (lpp C) soc') []
    (n + p + lpp C + list_sum (map so_p (co_soc C)) + 2 * nsoc C) (lpp C + list_sum (map so_p (co_soc C))) pr2); auto.
  { rewrite app_nil_r, LE1, !app_assoc, (map_app _ (_ ++ soc_cols _ _ _ soc)), (map_app _ (_ ++ soc_cols _ _ _ soc')), (map_app _ _ (soc_cols _ _ _ soc)), (map_app _ _ (soc_cols _ _ _ soc')). do 2 f_equal. apply soc_cols_lens; auto. }
  { rewrite app_length, soc_cols_length, <- Hq'. rewrite app_length, Lxy. unfold lp_cols. rewrite map_length, seq_length.
    unfold soc'. rewrite map_length. fold (nsoc C). rewrite Hq. lia. }
  { rewrite app_nil_r, <- app_assoc. exact K2. }
  { replace (n + p + lpp C + list_sum (map so_p (co_soc C)) + 2 * nsoc C) with (n + p + (lpp C + list_sum (map so_p (co_soc C))) + 2 * nsoc C) by lia. exact IE. }
  { intros x Hx' c0 c1 c2 G0 G1 G2 pr0. rewrite G0, G1, G2. cbn [bind].
    assert (GV : forall i, i < 6 -> get (ex_v x) i = Some (gd f0 (ex_v x) i)).
    { intros i Hi. destruct (SE x Hx' i Hi) as [v Hv]. eapply get_gd; eauto. }
    rewrite !GV by lia. cbn [bind]. unfold exp_scaled. cbn [tri Nat.eqb Nat.add]. reflexivity. }
  intros pr3 L3 K3. apply HQ; [congruence|]. rewrite app_nil_r in K3. rewrite <- !app_assoc in *. exact K3.
Qed.

Definition lp_unit (j : nat) : F := (- f1)%fl.
Definition soc_unit : socv F := soc_written (- f1)%fl (- f1)%fl (fun _ => f0) (- f1)%fl f0 (fun _ => f0) f1.

Lemma kkt_init_wp (Gc : nat -> col F) n p Ac d e lpv soc ex C PK pr (cols0 : list (col F)) (Q : arr F -> Prop) :
  let cols := kkt_cols Gc n p Ac d e (lpp C) lpv soc ex in
  map fst soc = map so_p (co_soc C) -> length ex = nexc C -> (forall c, In c (co_soc C) -> 1 <= so_p c) ->
  map (@length _) cols0 = map (@length _) cols ->
  kv (concat cols) PK pr -> indexed cols0 (fun j => length (Gc j)) n p C ->
  (forall pr', length pr' = length pr ->
    kv (concat (kkt_cols Gc n p Ac d e (lpp C) lp_unit (map (fun c => (so_p c, soc_unit)) (co_soc C)) ex)) PK pr' -> Q pr') ->
  wp (kkt_init pr PK C) Q.
Proof.
  intros cols Hq Hx H1 LE K [IL IS IE] HQ. unfold kkt_init.
  assert (Lq : length soc = nsoc C) by (unfold nsoc; rewrite <- (map_length so_p), <- Hq, map_length; auto).
  unfold hsize in *. unfold nexc in Hx.
  assert (Lxy : length (map (fun j => [(j, d)]) (seq 0 n) ++ map (fun j => Ac j ++ [(n + j, e)]) (seq 0 p)) = n + p)
    by (rewrite app_length, !map_length, !seq_length; auto).
  unfold cols in *. clear cols. unfold kkt_cols in *. rewrite Hq, Lq in *.
  rewrite map_fst_socv, map_length in HQ. fold (nsoc C) in HQ.
  set (xy := map (fun j => [(j, d)]) (seq 0 n)) in *. set (yy := map (fun j => Ac j ++ [(n + j, e)]) (seq 0 p)) in *.
  rewrite app_assoc in K, LE, HQ. set (pre := xy ++ yy) in *.
  wb. eapply (lp_upd_wp Gc pre _ (lpp C) lpv lp_unit PK pr (lp_kkt_idx (co_lpc C)) cols0 (n + p)); [exact LE|symmetry; exact Lxy|exact K|apply IL|reflexivity|].
  intros pr1 L1 K1.
  assert (LE1 : map (@length _) cols0 = map (@length _) ((pre ++ lp_cols Gc (n + p) (lpp C) lp_unit) ++
     soc_cols Gc (n + p + lpp C) (lpp C) soc ++
     exp_cols Gc (n + p + lpp C + list_sum (map so_p (co_soc C)) + 2 * nsoc C) (lpp C + list_sum (map so_p (co_soc C))) ex)).
  { rewrite LE, !map_app, <- !app_assoc. f_equal. f_equal. unfold lp_cols. rewrite !map_map. apply map_ext. intros; rewrite !app_length; auto. }
  eapply (soc_upd_wp Gc PK _ (fun _ => soc_unit) cols0 (co_soc C) soc (pre ++ lp_cols Gc (n + p) (lpp C) lp_unit) _ (n + p + lpp C) (lpp C)); auto.
  { exact LE1. }
  { rewrite app_length, Lxy. unfold lp_cols. rewrite map_length, seq_length. auto. }
  { rewrite <- app_assoc. exact K1. }
  { intros c Hc. eexists _, _, _, _, _, _, _, _, _. split; [|split; [|split]].
    - intros pr0. reflexivity.
    - reflexivity.
    - reflexivity.
    - reflexivity. }
  intros pr2 L2 K2. apply HQ; [congruence|]. rewrite <- !app_assoc in *. exact K2.
Qed.
End Upd.
