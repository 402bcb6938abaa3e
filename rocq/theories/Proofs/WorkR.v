(* The matrix stored in a workspace, in exact arithmetic. *)
From Coq Require Import List Arith Bool ZArith Reals Lia Lra.
From Verif Require Import Base Num.
From Verif.Model Require Import Spla Splamm Types Consts Expcone Cone Ldl Kkt Equil Preproc.
From Verif.Spec Require Import Matrix Fill KktSpec KktMatrix Shape SetupSpec.
From Verif.Proofs Require Import SplaP SplammP LdlSym KktAsm KktMat KktR KktUpd Layout EquilP Work SetupP.
Import ListNotations.
Open Scope nat_scope.

Lemma unzsoc_range q t j N : unzsoc q t = Some j -> t < list_sum q + 2 * length q + N -> j < list_sum q + N.
Proof.
  intros E H. destruct (Nat.lt_ge_cases t (list_sum q + 2 * length q)) as [C|C].
  - apply unzsoc_lt in E; lia.
  - rewrite unzsoc_beyond in E by auto. injection E as <-. lia.
Qed.

Lemma unz_range l q t j N : unz l q t = Some j -> t < l + list_sum q + 2 * length q + N -> j < l + list_sum q + N.
Proof.
  unfold unz. destruct (Nat.ltb_spec t l); intros E Ht.
  - injection E as <-. lia.
  - destruct (unzsoc q (t - l)) as [j'|] eqn:E'; [|discriminate]. cbn in E. injection E as <-.
    apply (unzsoc_range _ _ _ N) in E'; lia.
Qed.

Lemma kkt_entry_ext n p A A' G G' d e l q V r c N :
  (forall j i, j < p -> i < n -> A j i = A' j i) -> (forall j i, j < l + list_sum q + N -> i < n -> G j i = G' j i) ->
  c < n + p + (l + list_sum q + 2 * length q + N) ->
  kkt_entry n p A G d e l q V r c = kkt_entry n p A' G' d e l q V r c.
Proof.
  intros HA HG Hc. unfold kkt_entry. destruct (Nat.ltb_spec c n); auto. destruct (Nat.ltb_spec c (n + p)).
  - destruct (Nat.ltb_spec r n); auto. apply HA; lia.
  - destruct (Nat.ltb_spec r n); auto. destruct (unz l q (c - (n + p))) as [j|] eqn:E; auto.
    apply HG; auto. apply (unz_range _ _ _ _ N) in E; lia.
Qed.

Lemma transposed_dense (M Mt : spmat R) i j : wf_sp M -> transposable M -> transposed M Mt ->
  i < sp_m M -> j < sp_n M -> dense Mt j i = dense M i j.
Proof.
  intros W H [mp E] Hi Hj. destruct (Nat.eq_dec (sp_nnz M) 0) as [Z|Z].
  - destruct H; lia.
  - eapply transpose_dense; eauto. rewrite alloc_length. auto.
Qed.

Definition denseA (A : option (spmat R)) (i j : nat) : R := match A with Some A => dense A i j | None => 0%R end.

Section R.
Let O := ROps.

Lemma kws_okc (L : @lay O) (lpv : nat -> R) (soc : list (nat * socv R)) (ex : list (expv R)) (K : kkt R) (A : option (spmat R)) (G : spmat R) atk gtk :
  @kws O L lpv soc ex K -> (forall d, In d (ly_q L) -> 1 <= d) ->
  @dws O L (@ly_cols O L lpv soc ex) A G atk gtk -> allc (okc False) 0 (@ly_cols O L lpv soc ex).
Proof.
  intros KW H1 D. destruct (dw_Gt _ _ _ _ _ _ D) as [T1 T2].
  destruct (transposed_facts G (ly_Gt L) (dw_G _ _ _ _ _ _ D) T1 T2) as (W & N1 & N2 & _).
  apply ly_okc; auto.
  - apply (kw_q _ _ _ _ _ KW).
  - apply (kw_e _ _ _ _ _ KW).
  - exact (eq_trans N1 (dw_Gm _ _ _ _ _ _ D)).
  - exact (eq_trans N2 (dw_Gn _ _ _ _ _ _ D)).
  - pose proof (dw_A _ _ _ _ _ _ D) as HA. destruct A as [A|], (ly_At L) as [At|]; try contradiction; auto.
    destruct HA as (WA & An & Am & TA & TB). destruct (transposed_facts A At WA TA TB) as (W' & N1' & N2' & _).
    csplit; auto; [exact (eq_trans N1' Am)|exact (eq_trans N2' An)].
Qed.

Lemma kws_entries (L : @lay O) (lpv : nat -> R) (soc : list (nat * socv R)) (ex : list (expv R)) (K : kkt R) (A : option (spmat R)) (G : spmat R) atk gtk :
  @kws O L lpv soc ex K -> (forall d, In d (ly_q L) -> 1 <= d) ->
  @dws O L (@ly_cols O L lpv soc ex) A G atk gtk ->
  forall i j, i <= j -> j < @ly_nK O L ->
  symdense (kk_PKPt K) (ly_pf L i) (ly_pf L j) =
  kkt_entry (ly_n L) (ly_p L) (denseA A) (dense G) (@DELTASTAT O) (- @DELTASTAT O)%R (ly_l L) (ly_q L)
    (vmat (ly_l L) lpv soc ex) i j.
Proof.
  intros KW H1 D i j Hij Hj. pose proof (kws_okc L lpv soc ex K A G atk gtk KW H1 D) as OK.
  destruct (dw_Gt _ _ _ _ _ _ D) as [T1 T2].
  destruct (transposed_facts G (ly_Gt L) (dw_G _ _ _ _ _ _ D) T1 T2) as (W & N1 & N2 & _).
  pose proof (ly_cols_length L lpv soc ex (kw_q _ _ _ _ _ KW) (kw_e _ _ _ _ _ KW)) as LC.
  assert (HA : match ly_At L with Some At => wf_sp At /\ sp_n At = ly_p L /\ sp_m At = ly_n L /\
       (forall j i, j < ly_p L -> i < ly_n L -> dense At i j = denseA A j i) | None => ly_p L = 0 end).
  { pose proof (dw_A _ _ _ _ _ _ D) as HA. destruct A as [A|], (ly_At L) as [At|]; try contradiction; auto.
    destruct HA as (WA & An & Am & TA & TB). destruct (transposed_facts A At WA TA TB) as (W' & N1' & N2' & _).
    csplit; auto; [exact (eq_trans N1' Am)|exact (eq_trans N2' An)|]. intros j0 i0 Hj0 Hi0. cbn. apply (transposed_dense A At); auto; [exact (eq_ind_r (lt j0) Hj0 Am)|exact (eq_ind_r (lt i0) Hi0 An)]. }
  assert (Hi' : i < length (@ly_cols O L lpv soc ex)) by (eapply Nat.le_lt_trans; [exact Hij|]; exact (eq_ind_r (lt j) Hj LC)).
  assert (Hj' : j < length (@ly_cols O L lpv soc ex)) by exact (eq_ind_r (lt j) Hj LC).
  refine (eq_trans (pm_dense (@ly_cols O L lpv soc ex) (ly_pf L) (kk_PKPt K) (kk_PK K) False (kw_perm _ _ _ _ _ KW) OK i j Hi' Hj') _).
  unfold symdense. rewrite (Nat.min_l i j), (Nat.max_r i j) by auto.
  destruct (nth_error (@ly_cols O L lpv soc ex) j) as [x|] eqn:EX; [|apply nth_error_None in EX; exfalso; apply (Nat.lt_irrefl j); exact (Nat.lt_le_trans _ _ _ Hj' EX)].
  rewrite (stores_dense _ _ _ _ i (mat_of_stores _) EX).
  pose proof (dw_Gm _ _ _ _ _ _ D) as Gm. pose proof (dw_Gn _ _ _ _ _ _ D) as Gn.
  assert (RA : forall a, a < ly_p L -> forall e0, In e0 (@acol O (@f0 O) (ly_At L) a) -> fst e0 < ly_n L).
  { intros a Ha e0 H0. destruct (ly_At L) as [At|]; [|lia]. destruct HA as (WA & An & Am & _).
    rewrite <- Am. apply (@colent_rows O At a e0 WA); [rewrite An; auto|exact H0]. }
  assert (RG : forall a, a < sp_n (ly_Gt L) -> forall e0, In e0 (@colent R (@f0 O) (ly_Gt L) a) -> fst e0 < ly_n L).
  { intros a Ha e0 H0. rewrite <- (eq_trans N2 Gn). apply (@colent_rows O (ly_Gt L) a e0 W); [auto|exact H0]. }
  assert (KE := kkt_cols_ent (ly_n L) (ly_p L) (ly_l L) (sp_n (ly_Gt L)) (@acol O (@f0 O) (ly_At L)) (@colent R (@f0 O) (ly_Gt L))).
  specialize (KE RA RG).
  specialize (KE (@DELTASTAT O) (- @DELTASTAT O)%R lpv soc ex).
  assert (Kq : map (@fst nat (socv R)) soc = ly_q L) by exact (kw_q _ _ _ _ _ KW).
  assert (Ke : length (A := expv R) ex = ly_e L) by exact (kw_e _ _ _ _ _ KW).
  specialize (KE ltac:(rewrite Kq, Ke; refine (eq_trans N1 Gm))).
  specialize (KE j x EX i ltac:(lia)). cbn [Nat.add] in KE. 
  assert (Z0' : forall (M : spmat R) a b0, csum (@colent R (@f0 O) M a) b0 = dense M b0 a).
  { intros M a b0. assert (Z0 : @f0 O = 0%R) by exact f0_R. rewrite Z0. apply colent_csum. }
  refine (eq_trans KE _). rewrite Kq.
  apply (kkt_entry_ext _ _ _ _ _ _ _ _ _ _ _ _ _ (3 * ly_e L)).
  - intros a b0 Ha Hb. destruct (ly_At L) as [At|]; [|lia]. destruct HA as (WA & An & Am & HD). refine (eq_trans (Z0' At a b0) _). apply HD; auto.
  - intros a b0 Ha Hb. refine (eq_trans (Z0' (ly_Gt L) a b0) _). apply (transposed_dense G (ly_Gt L)); auto; [apply (dw_G _ _ _ _ _ _ D)|exact (eq_ind_r (lt a) Ha Gm)|exact (eq_ind_r (lt b0) Hb Gn)].
  - unfold ly_nK, ly_mt, ly_m in Hj. lia.
Qed.
End R.

(* ---- the identity scaling ---- *)
Open Scope R_scope.
Definition socid : socv R := mkSocv (fun _ => -1) (fun _ => 0) (-1) (fun _ => 0) 1.
Definition expid : expv R := fun r j => if Nat.eqb r j then -1 else 0.

Lemma socmat_id q : forall r c, (forall d, In d q -> (1 <= d)%nat) -> (r <= c)%nat -> (c < list_sum q + 2 * length q)%nat ->
  socmat (map (fun d => (d, socid)) q) r c = if Nat.eqb r c then (if usoc q r then 1 else -1) else 0.
Proof.
  induction q as [|d t IH]; intros r c H1 Hr Hc; [cbn in Hc; lia|].
  change (list_sum (d :: t)) with (d + list_sum t)%nat in Hc. cbn [length] in Hc. cbn [map socmat usoc].
  assert (Hd : (1 <= d)%nat) by (apply H1; left; auto).
  destruct (Nat.ltb_spec c (d + 2)) as [Hlt|Hge].
  - rewrite (proj2 (Nat.ltb_lt r (d + 2))) by lia. unfold blockmat, socid. cbn [sv_D sv_v sv_vd sv_u sv_ud].
    destruct (Nat.ltb_spec c d); [destruct (Nat.eqb_spec r c), (Nat.eqb_spec r (d + 1)); try lia; auto|].
    destruct (Nat.eqb_spec c d).
    + destruct (Nat.eqb_spec r d), (Nat.eqb_spec r c); try lia; [destruct (Nat.eqb_spec r (d + 1)); [lia|auto]|destruct (Nat.eqb_spec r 0); auto].
    + destruct (Nat.eqb_spec r (d + 1)), (Nat.eqb_spec r c); try lia; auto. destruct (Nat.ltb_spec r d); auto.
  - destruct (Nat.ltb_spec r (d + 2)).
    + destruct (Nat.eqb_spec r c); [lia|auto].
    + rewrite IH; [|intros; apply H1; right; auto|lia|lia].
      destruct (Nat.eqb_spec (r - (d + 2)) (c - (d + 2))), (Nat.eqb_spec r c); try lia; auto.
Qed.
Lemma expmat_id e : forall r c, (r <= c)%nat -> (c < 3 * e)%nat ->
  expmat (repeat expid e) r c = if Nat.eqb r c then -1 else 0.
Proof.
  induction e as [|e IH]; intros r c Hr Hc; [lia|]. cbn [repeat expmat].
  destruct (Nat.ltb_spec c 3); [reflexivity|]. destruct (Nat.ltb_spec r 3); [destruct (Nat.eqb_spec r c); [lia|auto]|].
  rewrite IH by lia. destruct (Nat.eqb_spec (r - 3) (c - 3)), (Nat.eqb_spec r c); try lia; auto.
Qed.
Lemma usoc_beyond q t : (list_sum q + 2 * length q <= t)%nat -> usoc q t = false.
Proof.
  revert t. induction q as [|d q IH]; intros t H; cbn [usoc]; auto.
  change (list_sum (d :: q)) with (d + list_sum q)%nat in H. cbn [length] in H.
  rewrite (proj2 (Nat.ltb_ge _ _)) by lia. apply IH. lia.
Qed.

Lemma vmat_id l q e r c : (forall d, In d q -> (1 <= d)%nat) -> (r <= c)%nat -> (c < l + list_sum q + 3 * e + 2 * length q)%nat ->
  vmat l (fun _ => -1) (map (fun d => (d, socid)) q) (repeat expid e) r c = unitV l q r c.
Proof.
  intros H1 Hr Hc. unfold vmat, unitV. rewrite map_map, map_id, map_length.
  destruct (Nat.ltb_spec c l).
  - destruct (Nat.eqb_spec r c); auto. rewrite (proj2 (Nat.leb_gt l r)) by lia. auto.
  - destruct (Nat.ltb_spec c (l + (list_sum q + 2 * length q))).
    + destruct (Nat.ltb_spec r l); [destruct (Nat.eqb_spec r c); [lia|auto]|].
      rewrite socmat_id by (auto; lia). rewrite (proj2 (Nat.leb_le l r)) by lia. cbn [andb].
      destruct (Nat.eqb_spec (r - l) (c - l)), (Nat.eqb_spec r c); try lia; auto.
    + destruct (Nat.ltb_spec r (l + (list_sum q + 2 * length q))); [destruct (Nat.eqb_spec r c); [lia|auto]|].
      rewrite expmat_id by lia. rewrite usoc_beyond by lia. rewrite andb_false_r.
      destruct (Nat.eqb_spec (r - (l + (list_sum q + 2 * length q))) (c - (l + (list_sum q + 2 * length q)))), (Nat.eqb_spec r c); try lia; auto.
Qed.

Lemma kkt_entry_V n p A G d e l q V V' i j : (i <= j)%nat -> (forall r c, (r <= c)%nat -> (c = j - (n + p))%nat -> (n + p <= j)%nat -> V r c = V' r c) ->
  kkt_entry n p A G d e l q V i j = kkt_entry n p A G d e l q V' i j.
Proof.
  intros Hij H. unfold kkt_entry. destruct (Nat.ltb_spec j n); auto. destruct (Nat.ltb_spec j (n + p)); auto.
  destruct (Nat.ltb_spec i n); auto. destruct (Nat.ltb_spec i (n + p)); auto. apply H; lia.
Qed.
