(* The residual computed in kkt.c and the refinement loop.  Arithmetic is
   arbitrary: the residual is described by the operations that produce it. *)
From Coq Require Import List Arith Bool ZArith Lia.
From Verif Require Import Base Num.
From Verif.Model Require Import Spla Splamm Types Consts Expcone Cone Ldl Kkt Equil Preproc.
From Verif.Spec Require Import Matrix Fill KktSpec KktMatrix Refine Shape SetupSpec.
From Verif.Proofs Require Import SplaP LoopLib ConeP Scal2P SafeLib Stretch Work SafeK.
Import ListNotations.
Open Scope nat_scope.

Lemma lastsoc_ge q : forall t, exsum q <= t -> lastsoc q t = false.
Proof.
  induction q as [|d q IH]; intros t H; auto. rewrite exsum_cons in H. cbn [lastsoc].
  destruct (Nat.ltb_spec t d); [lia|]. destruct (Nat.ltb_spec t (d + 2)); [lia|]. apply IH. lia.
Qed.

Section KktErr.
Context `{O : Ops}.

Lemma sect_length (e : arr F) off len : off + len <= length e -> length (sect e off len) = len.
Proof. intros H. unfold sect. rewrite firstn_length, skipn_length. lia. Qed.

Lemma nth_firstn {T} (l : list T) n i : i < n -> nth_error (firstn n l) i = nth_error l i.
Proof. revert l i. induction n; intros [|x l] [|i] H; cbn; auto; try lia. apply IHn. lia. Qed.
Lemma nth_skipn {T} (l : list T) n i : nth_error (skipn n l) i = nth_error l (n + i).
Proof. revert l. induction n; intros [|x l]; cbn; auto. destruct i; auto. Qed.

Lemma get_unsect (e x : arr F) off i : off + length x <= length e ->
  get (unsect e off x) i = if (off <=? i) && (i <? off + length x) then get x (i - off) else get e i.
Proof.
  intros H. unfold unsect, get. destruct (Nat.leb_spec off i); cbn [andb].
  - rewrite nth_error_app2 by (rewrite firstn_length; lia). rewrite firstn_length, Nat.min_l by lia.
    destruct (Nat.ltb_spec i (off + length x)).
    + rewrite nth_error_app1 by lia. auto.
    + rewrite nth_error_app2 by lia. rewrite nth_skipn. replace (off + length x + (i - off - length x)) with i by lia. auto.
  - rewrite nth_error_app1 by (rewrite firstn_length; lia). rewrite nth_firstn by lia. auto.
Qed.
Lemma unsect_length (e x : arr F) off : off + length x <= length e -> length (unsect e off x) = length e.
Proof. intros H. unfold unsect. rewrite !app_length, firstn_length, skipn_length. lia. Qed.

(* ---- the conic part of the error before the scaling is added ---- *)
Section Z.
Variables (Pinv : arr nat) (pf : nat -> nat) (N np : nat) (Pb Gdx dz : arr F) (bf : nat -> F) (gv zv : nat -> F).
Hypothesis VP : vec Pinv N pf.
Hypothesis PP : is_perm N pf.
Hypothesis VB : vec Pb N bf.

Definition ez_in (t j : nat) : F := (bf (pf (np + t)%nat) - gv j + DELTASTAT * zv j)%fl.
Definition ez_last (t j : nat) : F := (bf (pf (np + t)%nat) - gv j - DELTASTAT * zv j)%fl.
Definition ez_f (un : nat -> option nat) (la : nat -> bool) (k j t : nat) : F :=
  match un t with Some i => if la t then ez_last (k + t) (j + i) else ez_in (k + t) (j + i) | None => f0 end.

Lemma ez_soc_wp (l : list (socone F)) : forall kk j (ez : arr F) (Q : arr F * nat * nat -> Prop),
  (forall c, In c l -> 1 <= so_p c) ->
  np + kk + exsum (map so_p l) <= N -> kk + exsum (map so_p l) <= length ez ->
  (forall i, i < list_sum (map so_p l) -> get Gdx (j + i) = Some (gv (j + i))) ->
  (forall i, i < list_sum (map so_p l) -> get dz (j + i) = Some (zv (j + i))) ->
  (forall e', wrote kk (exsum (map so_p l)) (ez_f (unzsoc (map so_p l)) (lastsoc (map so_p l)) kk j) ez e' ->
     Q (e', kk + exsum (map so_p l), j + list_sum (map so_p l))) ->
  wp (for_each l (fun c st =>
      let '(ez, kk, j) := st in
      ez <- for_ 0 (so_p c) (fun i ez =>
          pk <- get Pinv (np + kk + i)%nat ;; b <- get Pb pk ;;
          g <- get Gdx (j + i)%nat ;; d <- get dz (j + i)%nat ;;
          set ez (kk + i)%nat
            (if Nat.ltb i (so_p c - 1) then b - g + DELTASTAT * d else b - g - DELTASTAT * d)%fl) ez ;;
      ez <- set ez (kk + so_p c)%nat f0 ;;
      ez <- set ez (kk + so_p c + 1)%nat f0 ;;
      Some (ez, (kk + so_p c + 2)%nat, (j + so_p c)%nat)) (ez, kk, j)) Q.
Proof.
  induction l as [|c t IH]; intros kk j ez Q H1 HN HL HG HZ HQ; cbn [for_each map] in *.
  - specialize (HQ ez (wrote_0 _ _ _)). unfold exsum in HQ. cbn in HQ. rewrite !Nat.add_0_r in HQ. exact HQ.
  - rewrite exsum_cons in *. change (list_sum (so_p c :: map so_p t)) with (so_p c + list_sum (map so_p t)) in *.
    pose proof (H1 c (or_introl eq_refl)) as Hc. wb. wb.
    match goal with |- wp (for_ 0 (so_p c) ?B ez) _ =>
      destruct (for_fill (fun i => if i <? so_p c - 1 then ez_in (kk + i) (j + i) else ez_last (kk + i) (j + i)) kk 0 (so_p c) B ez) as (e1 & E1 & W1) end; try lia.
    { intros i a Hi _. rewrite VP by lia. cbn [bind]. destruct PP as [P1 _]. rewrite VB by (apply P1; lia). cbn [bind].
      rewrite HG, HZ by lia. cbn [bind]. unfold ez_in, ez_last. rewrite !Nat.add_assoc. destruct (i <? so_p c - 1); auto. }
    apply (wp_intro _ _ _ E1). rewrite Nat.add_0_r, Nat.sub_0_r in W1. cbn [Nat.add] in W1. pose proof (wrote_len _ _ _ _ _ W1) as L1.
    wb. destruct (set_wrote (kk + so_p c) f0 e1) as (e2 & E2 & W2); [lia|]. apply (wp_intro _ _ _ E2). pose proof (wrote_len _ _ _ _ _ W2) as L2.
    wb. destruct (set_wrote (kk + so_p c + 1) f0 e2) as (e3 & E3 & W3); [lia|]. apply (wp_intro _ _ _ E3). pose proof (wrote_len _ _ _ _ _ W3) as L3.
    apply (wp_intro _ _ _ eq_refl). cbv beta iota.
    apply IH; [intros; apply H1; simpl; auto|lia|lia| | |].
    { intros i Hi. rewrite <- Nat.add_assoc. apply HG. lia. }
    { intros i Hi. rewrite <- Nat.add_assoc. apply HZ. lia. }
    intros e4 W4.
    replace (kk + so_p c + 2 + exsum (map so_p t)) with (kk + (so_p c + 2 + exsum (map so_p t))) by lia.
    replace (j + so_p c + list_sum (map so_p t)) with (j + (so_p c + list_sum (map so_p t))) by lia.
    apply HQ. pose proof (wrote_app _ _ _ _ _ _ _ _ W1 W2) as WA. replace (kk + so_p c + 1) with (kk + (so_p c + 1)) in W3 by lia.
    pose proof (wrote_app _ _ _ _ _ _ _ _ WA W3) as WB. replace (so_p c + 1 + 1) with (so_p c + 2) in WB by lia.
    assert (W4' := W4). replace (kk + so_p c + 2) with (kk + (so_p c + 2)) in W4' at 1 by lia.
    pose proof (wrote_app _ _ _ _ _ _ _ _ WB W4') as WD. eapply wrote_ext; [exact WD|].
    intros i Hi. cbv beta. unfold ez_f at 2. cbn [unzsoc lastsoc].
    destruct (Nat.ltb_spec i (so_p c + 2)).
    + destruct (Nat.ltb_spec i (so_p c)).
      * destruct (Nat.ltb_spec i (so_p c + 1)); [|lia].
        destruct (Nat.ltb_spec i (so_p c - 1)), (Nat.eqb_spec (i + 1) (so_p c)); try lia; auto.
      * destruct (Nat.ltb_spec i (so_p c + 1)); auto.
    + destruct (Nat.ltb_spec i (so_p c)); [lia|]. unfold ez_f.
      replace (kk + so_p c + 2 + (i - (so_p c + 2))) with (kk + i) by lia.
      destruct (unzsoc _ _) as [u|]; cbn [option_map]; auto. rewrite <- Nat.add_assoc. auto.
Qed.

Lemma ez_exp_wp (l : list (expcone F)) : forall kk j (ez : arr F) (Q : arr F * nat * nat -> Prop),
  np + kk + 3 * length l <= N -> kk + 3 * length l <= length ez ->
  (forall i, i < 3 * length l -> get Gdx (j + i) = Some (gv (j + i))) ->
  (forall i, i < 3 * length l -> get dz (j + i) = Some (zv (j + i))) ->
  (forall e', wrote kk (3 * length l) (fun t => ez_in (kk + t) (j + t)) ez e' ->
     Q (e', kk + 3 * length l, j + 3 * length l)) ->
  wp (for_each l (fun _ st =>
      let '(ez, kk, j) := st in
      ez <- for_ 0 3 (fun i ez =>
          pk <- get Pinv (np + kk + i)%nat ;; b <- get Pb pk ;;
          g <- get Gdx (j + i)%nat ;; d <- get dz (j + i)%nat ;;
          set ez (kk + i)%nat (b - g + DELTASTAT * d)%fl) ez ;;
      Some (ez, (kk + 3)%nat, (j + 3)%nat)) (ez, kk, j)) Q.
Proof.
  induction l as [|c t IH]; intros kk j ez Q HN HL HG HZ HQ; cbn [for_each length] in *.
  - specialize (HQ ez (wrote_0 _ _ _)). rewrite !Nat.add_0_r in HQ. exact HQ.
  - wb. wb.
    match goal with |- wp (for_ 0 3 ?B ez) _ =>
      destruct (for_fill (fun i => ez_in (kk + i) (j + i)) kk 0 3 B ez) as (e1 & E1 & W1) end; try lia.
    { intros i a Hi _. rewrite VP by lia. cbn [bind]. destruct PP as [P1 _]. rewrite VB by (apply P1; lia). cbn [bind].
      rewrite HG, HZ by lia. cbn [bind]. unfold ez_in. rewrite !Nat.add_assoc. auto. }
    apply (wp_intro _ _ _ E1). rewrite Nat.add_0_r, Nat.sub_0_r in W1. pose proof (wrote_len _ _ _ _ _ W1) as L1.
    apply (wp_intro _ _ _ eq_refl). cbv beta iota. apply IH; [lia|lia| | |].
    { intros i Hi. rewrite <- Nat.add_assoc. apply HG. lia. }
    { intros i Hi. rewrite <- Nat.add_assoc. apply HZ. lia. }
    intros e4 W4.
    replace (kk + 3 + 3 * length t) with (kk + 3 * Datatypes.S (length t)) by lia.
    replace (j + 3 + 3 * length t) with (j + 3 * Datatypes.S (length t)) by lia.
    apply HQ. replace (3 * Datatypes.S (length t)) with (3 + 3 * length t) by lia.
    eapply wrote_ext; [exact (wrote_app _ _ _ _ _ _ _ _ W1 W4)|].
    intros i Hi. cbv beta. destruct (Nat.ltb_spec i 3); cbn [Nat.add]; auto. f_equal; lia.
Qed.
End Z.

(* What kkt_error computes from a solution (dx,dy,dz), its expanded form Px and
   the right-hand side. *)
Record err_of (A : option (spmat F)) (G : spmat F) (n p : nat) (C : cone F) (isinit : bool) (pf : nat -> nat)
  (bf xv : nat -> F) (dx dy dz Gdx0 : arr F) (nex ney nez : F) (e' truez' Gdx' : arr F) : Prop := {
  er_x : exists ex0 ex1 ex2, length ex0 = n /\
     vec ex0 n (fun i => bf (pf i) - DELTASTAT * gd f0 dx i)%fl /\
     (match A with None => Some ex0 | Some A => sparseMtVm A dy ex0 0 false end) = Some ex1 /\
     sparseMtVm G dz ex1 0 false = Some ex2 /\ norminf ex2 n = Some nex /\
     (forall i, i < n -> get e' i = get ex2 i);
  er_y : if 0 <? p then exists A' ey0 ey1, A = Some A' /\ length ey0 = p /\
     vec ey0 p (fun i => bf (pf (n + i)%nat) + DELTASTAT * gd f0 dy i)%fl /\
     sparseMV A' dx ey0 (-1) 0 = Some ey1 /\ norminf ey1 p = Some ney /\
     (forall i, i < p -> get e' (n + i) = get ey1 i)
     else ney = f0;
  er_G : sparseMV G dx Gdx0 1 1 = Some Gdx';
  er_z : exists ez0 ez1, length ez0 = msize C + 2 * nsoc C /\
     vec ez0 (msize C + 2 * nsoc C) (ez_f pf (n + p) bf (gd f0 Gdx') (gd f0 dz)
        (unz (lpp C) (map so_p (co_soc C))) (lastrow (lpp C) (map so_p (co_soc C))) 0 0) /\
     (if isinit then vadd (msize C + 2 * nsoc C) truez' ez0 else scale2add truez' ez0 C) = Some ez1 /\
     norminf ez1 (msize C + 2 * nsoc C) = Some nez /\
     (forall t, t < msize C + 2 * nsoc C -> get e' (n + p + t) = get ez1 t);
  er_t : vec truez' (msize C + 2 * nsoc C) (fun t => xv (pf (n + p + t)));
  er_f : full e' (n + p + (msize C + 2 * nsoc C))
}.

Lemma xsize_eq C : xsize C = msize C + 2 * nsoc C.
Proof.
  unfold xsize, xsoc, msize, hsize, nsoc. rewrite tot_sum. unfold esz.
  assert (H : list_sum (map (fun c : socone F => so_p c + 2) (co_soc C)) = list_sum (map so_p (co_soc C)) + 2 * length (co_soc C)).
  { induction (co_soc C) as [|c t IH]; auto. cbn [map length].
    change (list_sum (so_p c + 2 :: map (fun c : socone F => so_p c + 2) t)) with (so_p c + 2 + list_sum (map (fun c : socone F => so_p c + 2) t)).
    change (list_sum (so_p c :: map so_p t)) with (so_p c + list_sum (map so_p t)). lia. }
  lia.
Qed.

Lemma s2added_full C x y0 y' : s2added C x y0 y' -> full y' (xsize C).
Proof.
  intros [A B D] i Hi. unfold xsize, xsoc in *.
  destruct (Nat.lt_ge_cases i (lpp C)) as [H|H]; [eexists; apply A; auto|].
  destruct (Nat.lt_ge_cases i (lpp C + tot esz (co_soc C))) as [H2|H2].
  - destruct (lay_cover esz (lpp C) (co_soc C) i ltac:(lia)) as (k & c & Hin & Hb). exists (y0 i + s2_f c (sh k x) (i - k))%fl.
    replace i with (k + (i - k)) by lia. replace (k + (i - k) - k) with (i - k) by lia. apply B; auto. lia.
  - destruct (lay_cover (fun _ => 3) (lpp C + tot esz (co_soc C)) (co_expc C) i) as (k & c & Hin & Hb); [rewrite tot3; unfold nexc in Hi; lia|].
    exists (y0 i + s2e_f c (sh k x) (i - k))%fl. replace i with (k + (i - k)) by lia. replace (k + (i - k) - k) with (i - k) by lia. apply D; auto. lia.
Qed.

Lemma kkt_error_wp A G (Pb : arr F) Pinv dx dy dz n p C isinit Px e truez Gdx pf bf xv
  (Q : F * F * F * arr F * arr F * arr F -> Prop) :
  let mt := msize C + 2 * nsoc C in let N := n + p + mt in
  vec Pinv N pf -> is_perm N pf -> vec Pb N bf -> vec Px N xv ->
  (forall c, In c (co_soc C) -> 1 <= so_p c) -> (isinit = false -> scaled C) ->
  wf_sp G -> sp_n G = n -> sp_m G = msize C ->
  match A with Some A => wf_sp A /\ sp_n A = n /\ sp_m A = p | None => p = 0 end ->
  full dx n -> full dy p -> full dz (msize C) -> length e = N -> length truez = N -> length Gdx = N ->
  (forall nex ney nez e' t' g', length e' = N -> length t' = N -> length g' = N ->
     err_of A G n p C isinit pf bf xv dx dy dz Gdx nex ney nez e' t' g' -> Q (nex, ney, nez, e', t', g')) ->
  wp (kkt_error A G Pb Pinv dx dy dz n p (msize C) C isinit Px e truez Gdx) Q.
Proof.
  intros mt N VP PP VB VX H1 SC WG Gn Gm HA Fx Fy Fz Le Lt Lg HQ. unfold kkt_error. fold mt.
  assert (P1 : forall i, i < N -> pf i < N) by apply PP.
  rewrite (proj2 (Nat.leb_le _ _)) by lia. cbn [guard bind].
  (* x part *)
  wb. match goal with |- wp (for_ 0 n ?B ?a) _ =>
      destruct (for_fill (fun i => bf (pf i) - DELTASTAT * gd f0 dx i)%fl 0 0 n B a) as (ex0 & E0 & W0) end.
  { intros i a Hi _. rewrite VP by lia. cbn [bind]. rewrite VB by (apply P1; lia). cbn [bind]. rewrite (full_vecd dx n Fx) by lia. reflexivity. }
  { rewrite sect_length; lia. } { lia. }
  apply (wp_intro _ _ _ E0). rewrite Nat.sub_0_r in W0. pose proof (wrote_len _ _ _ _ _ W0) as L0. rewrite sect_length in L0 by lia.
  assert (V0 : vec ex0 n (fun i => bf (pf i) - DELTASTAT * gd f0 dx i)%fl) by (intros i Hi; apply (wrote_in _ _ _ _ _ i W0); auto).
  wb. apply (wp_conseq _ (fun ex1 => (match A with None => Some ex0 | Some A => sparseMtVm A dy ex0 0 false end) = Some ex1 /\ length ex1 = n /\ full ex1 n)).
  { destruct A as [A|].
    - destruct HA as (WA & An & Am). apply sparseMtVm_safe; auto; rewrite ?Am, ?An; auto; [lia| |].
      + intros _. eapply vec_fulld; eauto.
      + intros y' Ey Ly Fy' _. csplit; auto; congruence.
    - apply (wp_intro _ _ _ eq_refl). csplit; auto. eapply vec_fulld; eauto. }
  intros ex1 (E1 & L1 & F1). wb. apply sparseMtVm_safe; auto; rewrite ?Gm, ?Gn; auto; [lia|].
  intros ex2 E2 L2 F2 _. wb. destruct (norminf_safe ex2 n F2) as [nex Ex]. apply (wp_intro _ _ _ Ex).
  (* y part *)
  wb. apply (wp_conseq _ (fun r => let '(ey, ney) := r in length ey = p /\ full ey p /\
     if 0 <? p then exists A' ey0, A = Some A' /\ length ey0 = p /\
     vec ey0 p (fun i => bf (pf (n + i)%nat) + DELTASTAT * gd f0 dy i)%fl /\
     sparseMV A' dx ey0 (-1) 0 = Some ey /\ norminf ey p = Some ney else ney = f0)).
  { destruct (Nat.ltb_spec 0 p).
    - wb. match goal with |- wp (for_ 0 p ?B ?a) _ =>
      destruct (for_fill (fun i => bf (pf (n + i)%nat) + DELTASTAT * gd f0 dy i)%fl 0 0 p B a) as (ey0 & Ey0 & Wy0) end.
      { intros i a Hi _. rewrite VP by lia. cbn [bind]. rewrite VB by (apply P1; lia). cbn [bind]. rewrite (full_vecd dy p Fy) by lia. reflexivity. }
      { rewrite sect_length; lia. } { lia. }
      apply (wp_intro _ _ _ Ey0). rewrite Nat.sub_0_r in Wy0. pose proof (wrote_len _ _ _ _ _ Wy0) as Ly0. rewrite sect_length in Ly0 by lia.
      destruct A as [A|]; [|lia]. destruct HA as (WA & An & Am). cbn [bind].
      assert (Vy : vec ey0 p (fun i => bf (pf (n + i)%nat) + DELTASTAT * gd f0 dy i)%fl) by (intros i Hi; apply (wrote_in _ _ _ _ _ i Wy0); auto).
      wb. apply sparseMV_safe; auto; rewrite ?Am, ?An; auto; [lia| |].
      { intros _. eapply vec_fulld; eauto. }
      intros ey1 Ey1 Ly1 Fy1 _. destruct (norminf_safe ey1 p Fy1) as [ney En]. wb. apply (wp_intro _ _ _ En). apply (wp_intro _ _ _ eq_refl).
      csplit; auto; [congruence|]. exists A, ey0. csplit; auto.
    - apply (wp_intro _ _ _ eq_refl). rewrite sect_length by lia. csplit; auto. intros i Hi; lia. }
  intros [ey ney] (Ley & Fey & HY).
  (* z part *)
  wb. apply sparseMV_safe; auto; rewrite ?Gm, ?Gn; auto; [unfold mt in *; lia|intros Hz; lia|].
  intros g' Eg Lg' Fg' _.
  assert (Vz := full_vecd dz _ Fz). assert (Vg := full_vecd g' _ Fg').
  assert (HE : exsum (map so_p (co_soc C)) = list_sum (map so_p (co_soc C)) + 2 * nsoc C) by (unfold exsum, nsoc; rewrite map_length; auto).
  assert (HM : msize C = lpp C + list_sum (map so_p (co_soc C)) + 3 * length (co_expc C)) by reflexivity.
  wb. match goal with |- wp (for_ 0 (lpp C) ?B ?a) _ =>
      destruct (for_fill (fun i => ez_in pf (n + p) bf (gd f0 g') (gd f0 dz) i i) 0 0 (lpp C) B a) as (z0 & E3 & W3) end.
  { intros i a Hi _. rewrite VP by lia. cbn [bind]. rewrite VB by (apply P1; lia). cbn [bind].
    rewrite Vg, Vz by lia. reflexivity. }
  { rewrite sect_length; lia. } { lia. }
  apply (wp_intro _ _ _ E3). rewrite Nat.sub_0_r in W3. cbn [Nat.add] in W3. pose proof (wrote_len _ _ _ _ _ W3) as L3. rewrite sect_length in L3 by lia.
  wb. apply (ez_soc_wp Pinv pf N (n + p) Pb g' dz bf (gd f0 g') (gd f0 dz) VP PP VB); auto; try lia.
  { intros i Hi. apply Vg. lia. } { intros i Hi. apply Vz. lia. }
  intros z1 W4. cbv beta iota. pose proof (wrote_len _ _ _ _ _ W4) as L4.
  wb. apply (ez_exp_wp Pinv pf N (n + p) Pb g' dz bf (gd f0 g') (gd f0 dz) VP PP VB); auto; try lia.
  { intros i Hi. apply Vg. lia. } { intros i Hi. apply Vz. lia. }
  intros z2 W5. cbv beta iota. pose proof (wrote_len _ _ _ _ _ W5) as L5.
  assert (VZ : vec z2 mt (ez_f pf (n + p) bf (gd f0 g') (gd f0 dz) (unz (lpp C) (map so_p (co_soc C))) (lastrow (lpp C) (map so_p (co_soc C))) 0 0)).
  { intros t Ht. unfold ez_f, unz, lastrow. destruct (Nat.ltb_spec t (lpp C)).
    - rewrite (wrote_out _ _ _ _ _ t W5), (wrote_out _ _ _ _ _ t W4) by lia. apply (wrote_in _ _ _ _ _ t W3). lia.
    - destruct (Nat.lt_ge_cases (t - lpp C) (exsum (map so_p (co_soc C)))) as [HS|HS].
      + rewrite (wrote_out _ _ _ _ _ t W5) by lia. pose proof (wrote_in _ _ _ _ _ (t - lpp C) W4 HS) as G1.
        replace (lpp C + (t - lpp C)) with t in G1 by lia. rewrite G1. unfold ez_f.
        destruct (unzsoc _ (t - lpp C)); cbn [option_map]; auto. do 2 f_equal. cbn [Nat.add]. replace (lpp C + (t - lpp C)) with t by lia. auto.
      + rewrite unzsoc_ge, lastsoc_ge by auto. cbn [option_map].
        pose proof (wrote_in _ _ _ _ _ (t - lpp C - exsum (map so_p (co_soc C))) W5 ltac:(lia)) as G1.
        replace (lpp C + exsum (map so_p (co_soc C)) + (t - lpp C - exsum (map so_p (co_soc C)))) with t in G1 by lia.
        rewrite G1. cbn [Nat.add]. f_equal. unfold ez_in. replace (lpp C + exsum (map so_p (co_soc C)) + (t - lpp C - exsum (map so_p (co_soc C)))) with t by lia.
        replace (lpp C + (list_sum (map so_p (co_soc C)) + (t - lpp C - exsum (map so_p (co_soc C))))) with (lpp C + list_sum (map so_p (co_soc C)) + (t - lpp C - exsum (map so_p (co_soc C)))) by lia. auto. }
  wb. match goal with |- wp (for_ 0 mt ?B ?a) _ =>
      destruct (for_fill (fun t => xv (pf (n + p + t))) 0 0 mt B a) as (t' & E6 & W6) end.
  { intros i a Hi _. rewrite VP by lia. cbn [bind]. rewrite VX by (apply P1; lia). reflexivity. }
  { lia. } { lia. }
  apply (wp_intro _ _ _ E6). rewrite Nat.sub_0_r in W6. pose proof (wrote_len _ _ _ _ _ W6) as L6.
  assert (VT : vec t' mt (fun t => xv (pf (n + p + t)))) by (intros i Hi; apply (wrote_in _ _ _ _ _ i W6); auto).
  assert (EL : exists z3, (if isinit then vadd mt t' z2 else scale2add t' z2 C) = Some z3 /\ length z3 = mt /\ full z3 mt).
  { destruct isinit.
    - destruct (vadd_eq mt t' z2 _ _ VT VZ ltac:(lia)) as (z3 & E & W). exists z3. pose proof (wrote_len _ _ _ _ _ W). csplit; auto; [lia|].
      eapply full_wrote; eauto.
    - assert (VT' := VT). assert (VZ' := VZ). unfold mt in VT', VZ'. rewrite <- xsize_eq in VT', VZ'.
      destruct (scale2add_eq C t' _ z2 _ H1 (SC eq_refl) VT' VZ') as (z3 & E & L & S & _); [rewrite xsize_eq; unfold mt in *; lia|].
      exists z3. csplit; auto; [lia|]. apply s2added_full in S. rewrite xsize_eq in S. exact S. }
  destruct EL as (z3 & E7 & L7 & F7). wb. apply (wp_intro _ _ _ E7). wb.
  destruct (norminf_safe z3 mt F7) as [nez Ez]. apply (wp_intro _ _ _ Ez). apply (wp_intro _ _ _ eq_refl).
  assert (LU1 : length (unsect e 0 ex2) = N) by (rewrite unsect_length; lia).
  assert (LU2 : length (unsect (unsect e 0 ex2) n ey) = N) by (rewrite unsect_length; lia).
  assert (LU3 : length (unsect (unsect (unsect e 0 ex2) n ey) (n + p) z3) = N) by (rewrite unsect_length; lia).
  assert (GE : forall i, get (unsect (unsect (unsect e 0 ex2) n ey) (n + p) z3) i =
     if i <? n then get ex2 i else if i <? n + p then get ey (i - n) else if i <? N then get z3 (i - (n + p)) else get e i).
  { assert (L2' : length ex2 = n) by lia. intros i. rewrite get_unsect by lia. rewrite get_unsect by lia. rewrite get_unsect by lia. rewrite L2', Ley, L7. cbn [Nat.add Nat.leb andb].
    rewrite Nat.sub_0_r. destruct (Nat.leb_spec (n + p) i); cbn [andb].
    - rewrite (proj2 (Nat.ltb_ge i n)), (proj2 (Nat.ltb_ge i (n + p))) by lia. fold N. destruct (i <? N); auto.
      rewrite (proj2 (Nat.leb_le n i)) by lia. auto.
    - rewrite (proj2 (Nat.ltb_lt i (n + p))) by lia. destruct (Nat.leb_spec n i); cbn [andb].
      + rewrite (proj2 (Nat.ltb_ge i n)) by lia. auto.
      + rewrite (proj2 (Nat.ltb_lt i n)) by lia. auto. }
  apply HQ; try lia.
  constructor; auto.
  - exists ex0, ex1, ex2. csplit; auto. intros i Hi. rewrite GE. apply Nat.ltb_lt in Hi. rewrite Hi. auto.
  - destruct (Nat.ltb_spec 0 p); auto. destruct HY as (A' & ey0 & Y1 & Y2 & Y3 & Y4 & Y5). exists A', ey0, ey. csplit; auto.
    intros i Hi. rewrite GE. destruct (Nat.ltb_spec (n + i) n), (Nat.ltb_spec (n + i) (n + p)); try lia. f_equal. lia.
  - exists z2, z3. csplit; auto; [lia|]. intros t Ht. rewrite GE.
    destruct (Nat.ltb_spec (n + p + t) n), (Nat.ltb_spec (n + p + t) (n + p)), (Nat.ltb_spec (n + p + t) N); try lia. f_equal. lia.
  - intros i Hi. rewrite GE. destruct (Nat.ltb_spec i n); [apply F2; auto|]. destruct (Nat.ltb_spec i (n + p)); [apply Fey; lia|].
    destruct (Nat.ltb_spec i N); [|lia]. apply F7. lia.
Qed.

(* ------------------------------------------------- iterative refinement *)
Section Refine.
Variables (K : kkt F) (A : option (spmat F)) (G : spmat F) (Pb : arr F) (n p : nat) (C : cone F) (isinit : bool) (pf : nat -> nat) (bf : nat -> F).
Let mt := msize C + 2 * nsoc C.
Let N := n + p + mt.
Hypothesis VP : vec (kk_Pinv K) N pf.
Hypothesis PP : is_perm N pf.
Hypothesis VB : vec Pb N bf.
Hypothesis H1 : forall c, In c (co_soc C) -> 1 <= so_p c.
Hypothesis SC : isinit = false -> scaled C.
Hypothesis WG : wf_sp G.
Hypothesis Gn : sp_n G = n.
Hypothesis Gm : sp_m G = msize C.
Hypothesis HA : match A with Some A => wf_sp A /\ sp_n A = n /\ sp_m A = p | None => p = 0 end.
Hypothesis KN : sp_n (kk_PKPt K) = N.
Hypothesis FA : factored N K.

(* dx, dy, dz are the parts of the expanded permuted vector with values xv *)
Definition parts (xv : nat -> F) (dx dy dz : arr F) : Prop :=
  vec dx n (fun i => xv (pf i)) /\ vec dy p (fun i => xv (pf (n + i))) /\ full dz (msize C) /\
  (forall t j, t < mt -> unz (lpp C) (map so_p (co_soc C)) t = Some j -> get dz j = Some (xv (pf (n + p + t)))).

(* nerr is the norm of the residual e of the vector x *)
Definition measured (x e : arr F) (nerr : F) : Prop :=
  exists xv dx dy dz g0 nex ney nez t' g', vec x N xv /\ parts xv dx dy dz /\ N <= length g0 /\
    err_of A G n p C isinit pf bf xv dx dy dz g0 nex ney nez e t' g' /\
    nerr = (if 0 <? p then fmax (fmax nex nez) ney else fmax nex nez).

Definition base (x : arr F) : Prop := exists x0, length x0 = N /\ ldl_solve K Pb x0 = Some x.

(* d solves the factored system for the residual e of x *)
Definition correction (x : arr F) (nerr : F) (d : arr F) : Prop :=
  exists e Pe d0, measured x e nerr /\ length Pe = N /\ (forall i, i < N -> get Pe (pf i) = get e i) /\ length d0 = N /\ ldl_solve K Pe d0 = Some d.

Definition plus (x d x1 : arr F) : Prop := length x1 = N /\ vec x1 N (fun i => gd f0 x i + gd f0 d i)%fl.
Definition minus (x d x1 : arr F) : Prop := length x1 = N /\ vec x1 N (fun i => gd f0 x i - gd f0 d i)%fl.

(* x is the base solution plus k corrections that did not increase the residual norm *)
Inductive path : nat -> arr F -> F -> Prop :=
| path0 x e nerr : base x -> measured x e nerr -> path 0 x nerr
| pathS k x nerr d x1 e1 nerr1 : path k x nerr -> correction x nerr d -> plus x d x1 -> measured x1 e1 nerr1 ->
    (nerr1 >? nerr)%fl = false -> path (S k) x1 nerr1.

(* how the loop may end *)
Definition ended (nitref : Z) (k : nat) (x : arr F) : Prop :=
  ((nitref < 0)%Z /\ k = 0 /\ base x) \/
  ((0 <= nitref)%Z /\ (Z.of_nat k <= nitref)%Z /\
   ((exists nerr, path k x nerr) \/
    ((Z.of_nat k < nitref)%Z /\ exists x0 nerr d x1 e1 nerr1, path k x0 nerr /\ correction x0 nerr d /\ plus x0 d x1 /\ measured x1 e1 nerr1 /\
       (nerr1 >? nerr)%fl = true /\ minus x1 d x))).

Lemma path_full k x nerr : path k x nerr -> length x = N /\ full x N.
Proof.
  intros H. destruct H as [x e nerr (x0 & L0 & E0) M|k x nerr d x1 e1 nerr1 _ _ [L V] _ _].
  - destruct M as (xv & dx & dy & dz & g0 & nex & ney & nez & t' & g' & V & _).
    split; [|eapply vec_fulld; eauto].
    assert (W : wp (ldl_solve K Pb x0) (fun x' => length x' = N)).
    { apply (ldl_solve_safe N); auto. eapply vec_fulld; eauto. }
    apply wp_elim in W. destruct W as (x' & E & L). congruence.
  - split; auto. eapply vec_fulld; eauto.
Qed.

Definition ir_ok (st : @ir_state O) : Prop :=
  let '(Px, dPx, e, Pe, truez, Gdx, dx, dy, dz) := st in
  length Px = N /\ full Px N /\ length dPx = N /\ length e = N /\ length Pe = N /\ length truez = N /\ length Gdx = N /\
  length dx = n /\ length dy = p /\ length dz = msize C.
Definition ir_Px (st : @ir_state O) : arr F := let '(Px, dPx, e, Pe, truez, Gdx, dx, dy, dz) := st in Px.
Definition ir_dPx (st : @ir_state O) : arr F := let '(Px, dPx, e, Pe, truez, Gdx, dx, dy, dz) := st in dPx.

(* state at the head of iteration k *)
Definition at_head (k : nat) (prev : F) (st : @ir_state O) : Prop :=
  ir_ok st /\ ((k = 0 /\ base (ir_Px st)) \/
   exists k' x, k = S k' /\ path k' x prev /\ correction x prev (ir_dPx st) /\ plus x (ir_dPx st) (ir_Px st)).

Lemma kkt_refine_wp nitref thr : forall fuel k prev st (Q : Z * @ir_state O -> Prop),
  (Z.of_nat fuel = nitref + 1 - Z.of_nat k)%Z -> (Z.of_nat k <= nitref)%Z -> at_head k prev st ->
  (forall k' st', ir_ok st' -> ended nitref k' (ir_Px st') -> Q (Z.of_nat k', st')) ->
  wp (kkt_refine fuel (Z.of_nat k) nitref K A G Pb n p (msize C) C isinit thr prev st) Q.
Proof.
  induction fuel as [|fuel IH]; intros k prev st Q HF Hk [OK HD] HQ; [lia|]. cbn [kkt_refine].
  destruct st as [[[[[[[[Px dPx] e] Pe] truez] Gdx] dx] dy] dz]. cbn [ir_Px ir_dPx] in *.
  destruct OK as (LP & FP & LD & Le & LE & Lt & Lg & Lx & Ly & Lz). pose proof (full_vecd Px N FP) as VX.
  wb. apply (unstretch_wp N pf (kk_Pinv K) VP PP n p C Px (gd f0 Px)); auto.
  intros dx' dy' dz' Lx' Ly' Lz' Vx Vy Fz Vz. cbv beta iota.
  wb. apply (kkt_error_wp A G Pb (kk_Pinv K) dx' dy' dz' n p C isinit Px e truez Gdx pf bf (gd f0 Px)); auto;
    try (eapply vec_fulld; eassumption).
  intros nex ney nez e' t' g' Le' Lt' Lg' ER. cbv beta iota.
  set (nerr := if 0 <? p then fmax (fmax nex nez) ney else fmax nex nez).
  assert (M : measured Px e' nerr).
  { exists (gd f0 Px), dx', dy', dz', Gdx, nex, ney, nez, t', g'. split; [auto|]. split; [split; auto|]. split; [lia|]. auto. }
  rewrite KN.
  assert (FD : k <> 0 -> full dPx N).
  { intros Hk0. destruct HD as [[Hk' _]|(k' & x & Hk' & Pa & Co & Pl)]; [lia|].
    destruct Co as (e1 & Pe1 & d0 & M1 & LP1 & GP & Ld0 & Ed).
    assert (W : wp (ldl_solve K Pe1 d0) (fun d' => full d' N)).
    { apply (ldl_solve_safe N); auto. destruct M1 as (xv & a1 & a2 & a3 & a4 & a5 & a6 & a7 & a8 & a9 & _ & _ & _ & ER1 & _).
      destruct (perm_inv N pf PP) as (g & Hg & _). intros i Hi. destruct (Hg i Hi) as [G1 G2]. rewrite <- G2. rewrite GP by auto. apply (er_f _ _ _ _ _ _ _ _ _ _ _ _ _ _ _ _ _ _ _ ER1). auto. }
    apply wp_elim in W. destruct W as (d' & E' & F'). rewrite Ed in E'. injection E' as ->. auto. }
  destruct ((0 <? Z.of_nat k)%Z && (nerr >? prev)%fl)%bool eqn:EB.
  - (* the correction made it worse: take it back *)
    apply andb_prop in EB. destruct EB as [B1 B2]. apply Z.ltb_lt in B1.
    destruct HD as [[Hk0 _]|(k' & x & Hk' & Pa & Co & Pl)]; [lia|].
    match goal with |- wp (bind (for_ 0 N ?B Px) _) _ => destruct (for_modify (fun i v => (v - gd f0 dPx i)%fl) f0 0 0 N B Px) as (P' & E & W) end; try lia.
    { intros i a v Hi _ Hv. cbn [Nat.add] in *. rewrite Hv. cbn [bind]. rewrite (full_vecd dPx N (FD ltac:(lia))) by lia. reflexivity. }
    { intros i Hi. apply FP. cbn. lia. }
    wb. apply (wp_intro _ _ _ E). apply (wp_intro _ _ _ eq_refl). rewrite Nat.sub_0_r in W. cbn [Nat.add] in W.
    pose proof (wrote_len _ _ _ _ _ W) as LW. replace (Z.of_nat k - 1)%Z with (Z.of_nat k') by lia.
    apply HQ.
    + split; [congruence|]. split; [eapply full_wrote; eauto|]. csplit; auto.
    + right. split; [lia|]. split; [lia|]. right. split; [lia|]. exists x, prev, dPx, Px, e', nerr. csplit; auto.
      split; [cbn; congruence|]. intros i Hi. apply (wrote_in _ _ _ _ _ i W Hi).
  - assert (PT : path k Px nerr).
    { destruct HD as [[-> Hb]|(k' & x & -> & Pa & Co & Pl)]; [econstructor; eauto|].
      eapply pathS; eauto. }
    destruct ((Z.of_nat k =? nitref)%Z || (nerr <? thr)%fl || ((0 <? Z.of_nat k)%Z && (prev <? IRERRFACT * nerr)%fl))%bool eqn:EC.
    + apply (wp_intro _ _ _ eq_refl). apply HQ; [cbn; csplit; auto|]. right. split; [lia|]. split; [lia|]. left. exists nerr. exact PT.
    + apply Bool.orb_false_elim in EC. destruct EC as [EC _]. apply Bool.orb_false_elim in EC. destruct EC as [EC _]. apply Z.eqb_neq in EC.
      wb. apply (wp_for (fun i P' => length P' = N /\ forall j, j < i -> get P' (pf j) = get e' j)); [lia|split; [auto|intros j Hj; lia]| |].
      { intros i P' Hi [L' G']. rewrite VP by lia. cbn [bind]. destruct (er_f _ _ _ _ _ _ _ _ _ _ _ _ _ _ _ _ _ _ _ ER i) as [v Ev]; [unfold N, mt in *; lia|].
        rewrite Ev. cbn [bind]. destruct PP as [P1 P2]. pose proof (P1 i ltac:(lia)). apply wp_set; [lia|]. intros P2' L2 G2. split; [lia|].
        intros j Hj. rewrite G2. destruct (Nat.eqb_spec (pf j) (pf i)) as [E|E].
        - apply P2 in E; [|lia|lia]. subst. auto.
        - apply G'. assert (j <> i) by (intros ->; auto). lia. }
      intros P1 [LP1 GP1].
      assert (FP1 : full P1 N).
      { destruct (perm_inv N pf PP) as (g & Hg & _). intros i Hi. destruct (Hg i Hi) as [G1 G2]. rewrite <- G2. rewrite GP1 by auto. apply (er_f _ _ _ _ _ _ _ _ _ _ _ _ _ _ _ _ _ _ _ ER). auto. }
      wb. apply (ldl_solve_safe N); auto. intros d Ed Ld Fd.
      match goal with |- wp (bind (for_ 0 N ?B Px) _) _ => destruct (for_modify (fun i v => (v + gd f0 d i)%fl) f0 0 0 N B Px) as (P' & E & W) end; try lia.
      { intros i a v Hi _ Hv. cbn [Nat.add] in *. rewrite Hv. cbn [bind]. rewrite (full_vecd d N Fd) by lia. reflexivity. }
      { intros i Hi. apply FP. cbn. lia. }
      wb. apply (wp_intro _ _ _ E). rewrite Nat.sub_0_r in W. cbn [Nat.add] in W. pose proof (wrote_len _ _ _ _ _ W) as LW.
      replace (Z.of_nat k + 1)%Z with (Z.of_nat (S k)) by lia.
      apply IH; [lia|lia| |auto]. split.
      * cbn. csplit; auto; try congruence. eapply full_wrote; eauto.
      * right. exists k, Px. csplit; auto.
        -- exists e', P1, dPx. csplit; auto.
        -- split; [cbn; congruence|]. intros i Hi. apply (wrote_in _ _ _ _ _ i W Hi).
Qed.

(* kkt_solve *)
Lemma kkt_solve_wp dx dy dz nitref (Q : Z * kkt F * arr F * arr F * arr F -> Prop) :
  length (kk_work1 K) = N -> length (kk_work2 K) = N -> length (kk_work3 K) = N -> length (kk_work4 K) = N -> length (kk_work5 K) = N -> length (kk_work6 K) = N ->
  length dx = n -> length dy = p -> length dz = msize C ->
  (forall k w1 w2 w3 w4 w5 w6 xv dx' dy' dz', length w1 = N -> length w2 = N -> length w3 = N -> length w4 = N -> length w5 = N -> length w6 = N ->
     length dx' = n -> length dy' = p -> length dz' = msize C -> vec w1 N xv -> ended nitref k w1 -> parts xv dx' dy' dz' ->
     Q (Z.of_nat k, set_kk_work6 (set_kk_work5 (set_kk_work4 (set_kk_work3 (set_kk_work2 (set_kk_work1 K w1) w2) w3) w4) w5) w6, dx', dy', dz')) ->
  wp (kkt_solve K A G Pb dx dy dz n p (msize C) C isinit nitref) Q.
Proof.
  intros L1 L2 L3 L4 L5 L6 Lx Ly Lz HQ. unfold kkt_solve.
  assert (FB : full Pb N) by (eapply vec_fulld; eauto). fold mt. fold N.
  destruct (norminf_safe Pb N FB) as [nb Eb]. wb. apply (wp_intro _ _ _ Eb).
  wb. apply (ldl_solve_safe N); auto. intros Px E1 LP FP.
  assert (BS : base Px) by (exists (kk_work1 K); auto).
  assert (FIN : forall k st, ir_ok st -> ended nitref k (ir_Px st) ->
    wp (let '(Px, dPx, e, Pe, truez, Gdx, dx, dy, dz) := st in
  '(dx, dy, dz) <- unstretch n p C (kk_Pinv K) Px dx dy dz ;;
  let K := set_kk_work3 (set_kk_work2 (set_kk_work1 K Px) dPx) e in
  let K := set_kk_work6 (set_kk_work5 (set_kk_work4 K Pe) truez) Gdx in
  Some (Z.of_nat k, K, dx, dy, dz)) Q).
  { intros k [[[[[[[[P' d'] e'] Pe'] t'] g'] x'] y'] z'] OK EN. cbn [ir_Px] in EN.
    destruct OK as (O1 & O2 & O3 & O4 & O5 & O6 & O7 & O8 & O9 & O10). pose proof (full_vecd P' N O2) as VX.
    wb. apply (unstretch_wp N pf (kk_Pinv K) VP PP n p C P' (gd f0 P')); auto.
    intros a b c La Lb Lc Va Vb Fc Vc. apply (wp_intro _ _ _ eq_refl). apply (HQ k P' d' e' Pe' t' g' (gd f0 P') a b c); auto. split; auto. }
  destruct (Z.lt_ge_cases nitref 0) as [Hn|Hn].
  - replace (Z.to_nat (nitref + 1)) with 0 by lia. cbn [kkt_refine]. wb. apply (wp_intro _ _ _ eq_refl). cbv beta iota.
    apply (FIN 0 (Px, kk_work2 K, kk_work3 K, kk_work4 K, kk_work5 K, kk_work6 K, dx, dy, dz)); [cbn; csplit; auto|]. left. auto.
  - wb. refine (kkt_refine_wp nitref _ (Z.to_nat (nitref + 1)) 0 _ _ _ _ _ _ _); [lia|lia| |].
    + split; [cbn; csplit; auto|]. left. auto.
    + intros k st OK EN. apply FIN; auto.
Qed.
End Refine.
End KktErr.
