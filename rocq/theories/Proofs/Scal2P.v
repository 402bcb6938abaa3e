(* scale2add, bring2cone, unitInitialization, unstretch and the barrier for
   every arithmetic. *)
From Coq Require Import List Arith Bool ZArith QArith Lia.
From Verif Require Import Base Num.
From Verif.Spec Require Import Matrix.
From Verif.Model Require Import Spla Types Consts Expcone Cone.
From Verif.Proofs Require Import LoopLib ConeP ScalP.
Import ListNotations.
Open Scope nat_scope.

Section Scal2P.
Context `{O : Ops}.
Local Open Scope fl_scope.

(* -------------------------------------------------------------- scale2add *)
Definition esz (c : socone F) : nat := (so_p c + 2)%nat.
Definition xsoc (C : cone F) : nat := (lpp C + tot esz (co_soc C))%nat.
Definition xsize (C : cone F) : nat := (xsoc C + 3 * nexc C)%nat.
Definition xblocks (C : cone F) : list (nat * socone F) := lay esz (lpp C) (co_soc C).
Definition xeblocks (C : cone F) : list (nat * expcone F) := lay (fun _ => 3) (xsoc C) (co_expc C).

Definition qtx_f (c : socone F) (x : nat -> F) : F :=
  nfold 0 (so_p c - 1) (fun i a => a + gd f0 (so_q c) i * x (1 + i)%nat) f0.
(* what is added to row i of the expanded block of a cone *)
Definition s2_f (c : socone F) (x : nat -> F) (i : nat) : F :=
  let p := so_p c in
  let es := osc (so_eta_square c) in let d1 := osc (so_d1 c) in
  let u0 := osc (so_u0 c) in let u1 := osc (so_u1 c) in let v1 := osc (so_v1 c) in
  let x3 := x p in let x4 := x (p + 1)%nat in
  if Nat.eqb i 0 then es * (d1 * x 0%nat + u0 * x4)
  else if Nat.ltb i p then es * (x i + (v1 * x3 + u1 * x4) * gd f0 (so_q c) (i - 1)%nat)
  else if Nat.eqb i p then es * (v1 * qtx_f c x + x3)
  else es * (u0 * x 0%nat + u1 * qtx_f c x - x4).
(* and to row i of an exponential cone: the stored Hessian times x *)
Definition s2e_f (e : expcone F) (x : nat -> F) (i : nat) : F :=
  let v := gd f0 (ex_v e) in
  match i with
  | 0%nat => v 0%nat * x 0%nat + v 1%nat * x 1%nat + v 3%nat * x 2%nat
  | 1%nat => v 1%nat * x 0%nat + v 2%nat * x 1%nat + v 4%nat * x 2%nat
  | _ => v 3%nat * x 0%nat + v 4%nat * x 1%nat + v 5%nat * x 2%nat
  end.

Lemma wrote_upd3 k (a : arr F) v0 v1 v2 : (k + 3 <= length a)%nat ->
  wrote k 3 (fun i => match i with 0%nat => v0 | 1%nat => v1 | _ => v2 end) a
   (upd (upd (upd a k (Some v0)) (k + 1) (Some v1)) (k + 2) (Some v2)).
Proof.
  intros H. split; [rewrite !upd_length; auto|]. intros j.
  rewrite get_upd by (rewrite !upd_length; lia). rewrite get_upd by (rewrite !upd_length; lia). rewrite get_upd by lia.
  beq; subst; try lia; auto; cbn [andb]; f_equal.
  - replace (k + 2 - k)%nat with 2%nat by lia. auto.
  - replace (k + 1 - k)%nat with 1%nat by lia. auto.
  - rewrite Nat.sub_diag. auto.
Qed.

Lemma sadd_exp x xf y0f n : vec x n xf -> forall l k (y : arr F),
  (k + 3 * length l <= n)%nat -> (n <= length y)%nat -> (forall e, In e l -> vec (ex_v e) 6 (gd f0 (ex_v e))) ->
  (forall j, (k <= j < k + 3 * length l)%nat -> get y j = Some (y0f j)) ->
  exists y', scaleToAddExpcone y x l k = Some y' /\
    wrotes (fun _ => 3) k l (fun k e i => y0f (k + i)%nat + s2e_f e (sh k xf) i) y y'.
Proof.
  intros Hx. induction l as [|e t IH]; intros k y Hk Hl HE Hy.
  - exists y. split; [reflexivity|apply wrotes_nil].
  - unfold scaleToAddExpcone in *. cbn [for_each length] in *.
    pose proof (HE e (or_introl eq_refl)) as V.
    rd.
    rewrite (Hy k) by lia. cbn [bind]. rewrite set_ok by lia. cbn [bind].
    rewrite get_upd by lia. destruct (Nat.eqb_spec (k + 1) k); [lia|]. rewrite (Hy (k + 1)%nat) by lia. cbn [bind].
    rewrite set_ok by (rewrite upd_length; lia). cbn [bind].
    rewrite get_upd by (rewrite upd_length; lia). destruct (Nat.eqb_spec (k + 2) (k + 1)); [lia|].
    rewrite get_upd by lia. destruct (Nat.eqb_spec (k + 2) k); [lia|]. rewrite (Hy (k + 2)%nat) by lia. cbn [bind].
    rewrite set_ok by (rewrite !upd_length; lia). cbn [bind].
    match goal with |- context [upd (upd (upd y k (Some ?a)) _ (Some ?b)) _ (Some ?c)] =>
      pose proof (wrote_upd3 k y a b c ltac:(lia)) as W end.
    match goal with |- context [for_each t _ (_, ?Y)] => set (y1 := Y) in * end.
    pose proof (wrote_len _ _ _ _ _ W) as WL.
    destruct (IH (k + 3)%nat y1) as (y' & E & W').
    + lia.
    + lia.
    + intros; apply HE; right; auto.
    + intros j Hj. rewrite (wrote_out _ _ _ _ _ _ W) by lia. apply Hy. lia.
    + exists y'. split; [exact E|]. eapply wrotes_cons; [|exact W'].
      eapply wrote_ext; [exact W|]. intros i Hi. cbv beta.
      destruct i as [|[|[|i]]]; [| | |lia]; unfold s2e_f, sh; rewrite ?Nat.add_0_r; reflexivity.
Qed.

Lemma s2_block c x xf n k (y : arr F) y0f : vec x n xf -> soc_set c -> (1 <= so_p c)%nat ->
  (k + esz c <= n)%nat -> (n <= length y)%nat -> (forall j, (k <= j < k + esz c)%nat -> get y j = Some (y0f j)) ->
  exists y', (es <- so_eta_square c ;; d1 <- so_d1 c ;; u0 <- so_u0 c ;; u1 <- so_u1 c ;; v1 <- so_v1 c ;;
      x1 <- get x k ;;
      x3 <- get x (k + so_p c)%nat ;;
      x4 <- get x (k + so_p c + 1)%nat ;;
      y1 <- get y k ;;
      y <- set y k (y1 + es * (d1 * x1 + u0 * x4)) ;;
      let vu := v1 * x3 + u1 * x4 in
      '(y, qtx2) <- for_ 0 (so_p c - 1) (fun i st =>
          let '(y, qtx2) := st in
          yi <- get y (k + 1 + i)%nat ;; xi <- get x (k + 1 + i)%nat ;; qi <- get (so_q c) i ;;
          y <- set y (k + 1 + i)%nat (yi + es * (xi + vu * qi)) ;;
          Some (y, qtx2 + qi * xi)) (y, f0) ;;
      y3 <- get y (k + so_p c)%nat ;;
      y <- set y (k + so_p c)%nat (y3 + es * (v1 * qtx2 + x3)) ;;
      y4 <- get y (k + so_p c + 1)%nat ;;
      y <- set y (k + so_p c + 1)%nat (y4 + es * (u0 * x1 + u1 * qtx2 - x4)) ;;
      Some (y, (k + so_p c + 2)%nat)) = Some (y', (k + esz c)%nat) /\
    wrote k (esz c) (fun i => y0f (k + i)%nat + s2_f c (sh k xf) i) y y'.
Proof.
  intros Hx [Sa Sd1 Sw Se Ses Su0 Su1 Sv1 Sq] Hp Hk Hl Hy. unfold esz in *.
  rewrite Ses, Sd1, Su0, Su1, Sv1. cbn [bind]. rd. rewrite (Hy k) by lia. cbn [bind].
  set (es := osc (so_eta_square c)). set (d1 := osc (so_d1 c)). set (u0 := osc (so_u0 c)).
  set (u1 := osc (so_u1 c)). set (v1 := osc (so_v1 c)).
  destruct (set_wrote k (y0f k + es * (d1 * xf k + u0 * xf (k + so_p c + 1)%nat)) y) as (ya & Ea & Wa); [lia|].
  rewrite Ea. cbn [bind]. clear Ea. pose proof (wrote_len _ _ _ _ _ Wa) as La.
  set (vu := v1 * xf (k + so_p c)%nat + u1 * xf (k + so_p c + 1)%nat).
  assert (L: exists yb, for_ 0 (so_p c - 1) (fun i st =>
          let '(y, qtx2) := st in
          yi <- get y (k + 1 + i)%nat ;; xi <- get x (k + 1 + i)%nat ;; qi <- get (so_q c) i ;;
          y <- set y (k + 1 + i)%nat (yi + es * (xi + vu * qi)) ;;
          Some (y, qtx2 + qi * xi)) (ya, f0) = Some (yb, qtx_f c (sh k xf)) /\
        wrote (k + 1) (so_p c - 1) (fun i => y0f (k + 1 + i)%nat + es * (xf (k + 1 + i)%nat + vu * gd f0 (so_q c) i)) ya yb).
  { match goal with |- context [for_ ?a ?b ?c0 ?d] => apply (wp_case (for_ a b c0 d)
       (fun st => wrote (k + 1) (so_p c - 1) (fun i => y0f (k + 1 + i)%nat + es * (xf (k + 1 + i)%nat + vu * gd f0 (so_q c) i)) ya (fst st)
          /\ snd st = qtx_f c (sh k xf))) end.
    - apply (wp_for (fun i st => wrote (k + 1) i (fun i => y0f (k + 1 + i)%nat + es * (xf (k + 1 + i)%nat + vu * gd f0 (so_q c) i)) ya (fst st)
          /\ snd st = nfold 0 i (fun i a => a + gd f0 (so_q c) i * sh k xf (1 + i)%nat) f0)).
      + lia.
      + split; [apply wrote_0|reflexivity].
      + intros i [yy qq] Hi [W Q]. cbn [fst snd] in *.
        rewrite (wrote_out _ _ _ _ _ (k + 1 + i)%nat W) by lia.
        rewrite (wrote_out _ _ _ _ _ (k + 1 + i)%nat Wa) by lia. rewrite (Hy (k + 1 + i)%nat) by lia. cbn [bind]. rd.
        pose proof (wrote_len _ _ _ _ _ W) as LW.
        destruct (set_wrote (k + 1 + i) (y0f (k + 1 + i)%nat + es * (xf (k + 1 + i)%nat + vu * gd f0 (so_q c) i)) yy)
          as (yy' & E & W'); [lia|]. rewrite E. cbn [bind].
        apply (wp_intro _ _ _ eq_refl). cbn [fst snd]. split.
        * pose proof (wrote_app _ _ _ _ _ _ _ _ W W') as WW. replace (i + 1)%nat with (S i) in WW by lia.
          eapply wrote_ext; [exact WW|]. intros j Hj. cbv beta. destruct (Nat.ltb_spec j i); auto.
          replace j with i by lia. auto.
        * rewrite nfold_S, Q. unfold sh. cbn [Nat.add]. replace (k + 1 + i)%nat with (k + S i)%nat by lia. reflexivity.
      + intros [yy qq] H. exact H.
    - intros [yy qq] Em [W Q]. cbn [fst snd] in *. exists yy. rewrite Em, Q. auto. }
  destruct L as (yb & Eb & Wb). rewrite Eb. clear Eb. cbn [bind].
  pose proof (wrote_len _ _ _ _ _ Wb) as Lb.
  rewrite (wrote_out _ _ _ _ _ (k + so_p c)%nat Wb), (wrote_out _ _ _ _ _ (k + so_p c)%nat Wa) by lia.
  rewrite (Hy (k + so_p c)%nat) by lia. cbn [bind].
  match goal with |- context [set yb ?i ?v] => destruct (set_wrote i v yb) as (yc & Ec & Wc); [lia|]; rewrite Ec; clear Ec end.
  cbn [bind]. pose proof (wrote_len _ _ _ _ _ Wc) as Lc.
  rewrite (wrote_out _ _ _ _ _ (k + so_p c + 1)%nat Wc), (wrote_out _ _ _ _ _ (k + so_p c + 1)%nat Wb),
    (wrote_out _ _ _ _ _ (k + so_p c + 1)%nat Wa) by lia.
  rewrite (Hy (k + so_p c + 1)%nat) by lia. cbn [bind].
  match goal with |- context [set yc ?i ?v] => destruct (set_wrote i v yc) as (yd & Ed & Wd); [lia|]; rewrite Ed; clear Ed end.
  cbn [bind]. exists yd. split; [do 2 f_equal; lia|].
  pose proof (wrote_app _ _ _ _ _ _ _ _ Wa Wb) as W1. replace (1 + (so_p c - 1))%nat with (so_p c) in W1 by lia.
  pose proof (wrote_app _ _ _ _ _ _ _ _ W1 Wc) as W2.
  replace (k + so_p c + 1)%nat with (k + (so_p c + 1))%nat in Wd by lia.
  pose proof (wrote_app _ _ _ _ _ _ _ _ W2 Wd) as W3. replace (so_p c + 1 + 1)%nat with (so_p c + 2)%nat in W3 by lia.
  eapply wrote_ext; [exact W3|]. intros i Hi. cbv beta. unfold s2_f. cbv zeta.
  fold es. fold d1. fold u0. fold u1. fold v1.
  assert (S0: sh k xf 0 = xf k) by (unfold sh; rewrite Nat.add_0_r; auto).
  assert (S3: sh k xf (so_p c) = xf (k + so_p c)%nat) by reflexivity.
  assert (S4: sh k xf (so_p c + 1) = xf (k + so_p c + 1)%nat) by (unfold sh; f_equal; lia).
  rewrite S0, S3, S4.
  destruct (Nat.ltb_spec i (so_p c + 1)); [destruct (Nat.ltb_spec i (so_p c)); [destruct (Nat.ltb_spec i 1)|]|].
  - replace i with 0%nat by lia. cbn [Nat.eqb]. rewrite Nat.add_0_r. reflexivity.
  - destruct (Nat.eqb_spec i 0); [lia|]. replace (k + 1 + (i - 1))%nat with (k + i)%nat by lia. reflexivity.
  - replace i with (so_p c) by lia. destruct (Nat.eqb_spec (so_p c) 0); [lia|]. rewrite Nat.eqb_refl. reflexivity.
  - replace i with (so_p c + 1)%nat by lia. destruct (Nat.eqb_spec (so_p c + 1) 0); [lia|].
    destruct (Nat.ltb_spec (so_p c + 1) (so_p c)); [lia|].
    destruct (Nat.eqb_spec (so_p c + 1) (so_p c)); [lia|]. replace (k + (so_p c + 1))%nat with (k + so_p c + 1)%nat by lia. reflexivity.
Qed.

(* the result of scale2add *)
Record s2added (C : cone F) (x y0 : nat -> F) (y' : arr F) : Prop := {
  s2_lp : forall i, (i < lpp C)%nat -> get y' i = Some (y0 i + gd f0 (lp_v (co_lpc C)) i * x i);
  s2_soc : forall k c i, In (k, c) (xblocks C) -> (i < esz c)%nat ->
     get y' (k + i)%nat = Some (y0 (k + i)%nat + s2_f c (sh k x) i);
  s2_exp : forall k e i, In (k, e) (xeblocks C) -> (i < 3)%nat ->
     get y' (k + i)%nat = Some (y0 (k + i)%nat + s2e_f e (sh k x) i)
}.

Lemma tot3 {A} (l : list A) : tot (fun _ => 3) l = (3 * length l)%nat.
Proof. induction l; cbn [tot length]; lia. Qed.

Lemma scale2add_eq C x xf y y0f : (forall c, In c (co_soc C) -> (1 <= so_p c)%nat) -> scaled C ->
  vec x (xsize C) xf -> vec y (xsize C) y0f -> (xsize C <= length y)%nat ->
  exists y', scale2add x y C = Some y' /\ length y' = length y /\ s2added C xf y0f y' /\
    (forall j, (xsize C <= j)%nat -> get y' j = get y j).
Proof.
  intros Hp [Sw Sv Ss Sev Seg] Hx Hy Hl. unfold scale2add.
  assert (M: (lpp C <= xsoc C /\ xsoc C <= xsize C)%nat) by (unfold xsize, xsoc; lia).
  match goal with |- context [for_ 0 _ ?B _] =>
    destruct (for_modify (fun i yi => yi + gd f0 (lp_v (co_lpc C)) i * xf i) f0 0 0 (lpp C) B y) as (ya & Ea & Wa) end.
  { intros i a' v Hi _ G. cbn [Nat.add] in *. rewrite G. cbn [bind]. rd. auto. }
  { lia. } { lia. }
  { intros i Hi. rewrite (Hy (0 + i)%nat) by lia. eauto. }
  rewrite Ea. cbn [bind]. clear Ea. rewrite Nat.sub_0_r in Wa. pose proof (wrote_len _ _ _ _ _ Wa) as La.
  assert (Ya: forall j, (lpp C <= j < xsize C)%nat -> get ya j = Some (y0f j)).
  { intros j Hj. rewrite (wrote_out _ _ _ _ _ _ Wa) by lia. apply Hy. lia. }
  match goal with |- context [for_each _ ?B _] =>
    destruct (block_loop esz (fun k c i => y0f (k + i)%nat + s2_f c (sh k xf) i) (length ya) B (co_soc C) (lpp C) ya) as (yb & Eb & Wb) end.
  - auto.
  - intros k c a' Hin L' G'. cbv beta iota. pose proof (lay_bounds _ _ _ _ _ Hin) as B. pose proof (lay_in _ _ _ _ _ Hin) as I.
    apply (s2_block c x xf (xsize C) k a' y0f); auto.
    + unfold xsize, xsoc. lia.
    + lia.
    + intros j Hj. rewrite G' by lia. apply Ya. unfold xsize, xsoc. lia.
  - rewrite Eb. cbn [bind]. destruct Wb as (Lb & Ib & Ob). fold (xsoc C) in Ob. fold (xsoc C).
    destruct (sadd_exp x xf y0f (xsize C) Hx (co_expc C) (xsoc C) yb) as (yc & Ec & Lc & Ic & Oc).
    + unfold xsize, nexc. lia.
    + lia.
    + auto.
    + intros j Hj. rewrite Ob by lia. apply Ya. unfold xsize, nexc. lia.
    + rewrite tot3 in Oc. exists yc. split; [auto|]. split; [congruence|]. split.
      * constructor.
        -- intros i Hi. rewrite Oc by lia. rewrite Ob by lia. pose proof (wrote_in _ _ _ _ _ i Wa Hi) as G.
           cbn [Nat.add] in G. rewrite G. f_equal. f_equal. unfold gd. cbn [Nat.add]. rewrite (Hy i) by lia. reflexivity.
        -- intros k c i Hin Hi. pose proof (lay_bounds _ _ _ _ _ Hin) as B.
           rewrite Oc by (unfold xsoc; lia). apply Ib; auto.
        -- intros k e i Hin Hi. apply Ic; auto.
      * intros j Hj. unfold xsize, nexc in Hj. rewrite Oc by lia. rewrite Ob by lia.
        apply (wrote_out _ _ _ _ _ _ Wa). lia.
Qed.

(* -------------------------------------------------------------- bring2cone *)
Definition b2c_lp (C : cone F) (r : nat -> F) : F :=
  nfold 0 (lpp C) (fun i alpha => if (r i <=? f0) && (- r i >? alpha) then - r i else alpha) (- GAMMA).
Definition b2c_res (c : socone F) (r : nat -> F) : F :=
  r 0%nat - fsqrt (nfold 1 (so_p c - 1) (fun j acc => acc + r j * r j) f0).
Definition b2c_step (r : nat -> F) (k : nat) (c : socone F) (alpha : F) : F :=
  let cres := b2c_res c (sh k r) in if (cres <=? f0) && (- cres >? alpha) then - cres else alpha.
Definition b2c_alpha (C : cone F) (r : nat -> F) : F :=
  fold_left (fun alpha '(k, c) => b2c_step r k c alpha) (blocks C) (b2c_lp C r).

Lemma bring2cone_eq C r rf s : (forall c, In c (co_soc C) -> (1 <= so_p c)%nat) ->
  vec r (hsize C) rf -> (hsize C <= length s)%nat ->
  exists s', bring2cone C r s = Some s' /\
    filled C (fun i => rf i + (b2c_alpha C rf + f1))
      (fun k c i => if Nat.eqb i 0 then rf k + (b2c_alpha C rf + f1) else rf (k + i)%nat) s s'.
Proof.
  intros Hp Hr Hl. unfold bring2cone.
  assert (H0: (lpp C <= hsize C)%nat) by (rewrite hsize_tot; lia).
  rewrite (for_fold (fun i alpha => if (rf i <=? f0) && (- rf i >? alpha) then - rf i else alpha)); [|intros; rd; auto].
  rewrite Nat.sub_0_r. cbn [bind]. fold (b2c_lp C rf).
  rewrite (block_loop_fold so_p (b2c_step rf)).
  2:{ intros k c b Hin. cbv beta iota. destruct (blocks_in C k c Hin) as (B1 & B2 & B3). pose proof (Hp c B3) as P. rd.
      rewrite (for_fold (fun j acc => acc + rf (k + j)%nat * rf (k + j)%nat)); [|intros; rd; auto]. cbn [bind].
      unfold b2c_step, b2c_res, sh. rewrite Nat.add_0_r, Nat.max_r by auto. reflexivity. }
  cbn [bind]. fold (blocks C). fold (b2c_alpha C rf). set (al := b2c_alpha C rf + f1).
  match goal with |- context [for_ 0 _ ?B _] =>
    destruct (for_fill (fun i => rf i + al) 0 0 (lpp C) B s) as (sa & Ea & Wa); [|lia|lia|] end.
  { intros i a' Hi _. rd. auto. }
  rewrite Ea. cbn [bind]. rewrite Nat.sub_0_r in Wa. pose proof (wrote_len _ _ _ _ _ Wa) as La.
  match goal with |- context [for_each _ ?B _] =>
    destruct (block_loop so_p (fun k c i => if Nat.eqb i 0 then rf k + al else rf (k + i)%nat) (length sa) B (co_soc C) (lpp C) sa) as (d & E2 & W2) end.
  - auto.
  - intros k c a' Hin L' _. cbv beta iota. destruct (blocks_in C k c Hin) as (B1 & B2 & B3).
    pose proof (Hp c B3) as P. rd. rewrite <- bind_assoc.
    match goal with |- context [for_ 1 _ ?B] =>
      destruct (fill_block k (so_p c) (rf k + al) (fun i => rf (k + i)%nat) B a') as (a2 & E3 & W3); [|auto|lia|] end.
    { intros i a2 Hi _. rd. auto. }
    exists a2. split; [rwk E3; rewrite Nat.max_r by auto; auto|]. exact W3.
  - rewrite E2. cbn [bind]. exists d. split; auto. eapply filled_intro; eauto.
Qed.

(* ------------------------------------------------------ unitInitialization *)
Lemma unitInit1_eq C s sc : (forall c, In c (co_soc C) -> (1 <= so_p c)%nat) -> co_fexv C = hsize C ->
  (msize C <= length s)%nat ->
  exists s', unitInit1 C s sc = Some s' /\ length s' = length s /\
    (forall i, (i < lpp C)%nat -> get s' i = Some sc) /\
    (forall k c i, In (k, c) (blocks C) -> (i < so_p c)%nat -> get s' (k + i)%nat = Some (if Nat.eqb i 0 then sc else f0)) /\
    (forall k e i, In (k, e) (eblocks C) -> (i < 3)%nat -> get s' (k + i)%nat = Some (sc * list_fun expray i)) /\
    (forall j, (msize C <= j)%nat -> get s' j = get s j).
Proof.
  intros Hp FX Hl. unfold unitInit1.
  assert (M: (lpp C <= hsize C /\ hsize C <= msize C)%nat) by (unfold msize; rewrite hsize_tot; lia).
  match goal with |- context [for_ 0 _ ?B _] =>
    destruct (for_fill (fun i => sc) 0 0 (lpp C) B s) as (sa & Ea & Wa); [intros; auto|lia|lia|] end.
  rewrite Ea. cbn [bind]. rewrite Nat.sub_0_r in Wa. pose proof (wrote_len _ _ _ _ _ Wa) as La.
  match goal with |- context [for_each (co_soc C) ?B _] =>
    destruct (block_loop so_p (fun k c i => if Nat.eqb i 0 then sc else f0) (length sa) B (co_soc C) (lpp C) sa) as (sb & Eb & Wb) end.
  { auto. }
  { intros k c a' Hin L' _. cbv beta iota. destruct (blocks_in C k c Hin) as (B1 & B2 & B3).
    pose proof (Hp c B3) as P. rewrite <- bind_assoc.
    match goal with |- context [for_ 1 _ ?B] =>
      destruct (fill_block k (so_p c) sc (fun i => f0) B a') as (a2 & E3 & W3); [|auto|lia|] end.
    { intros i a2 Hi _. auto. }
    exists a2. split; [rwk E3; rewrite Nat.max_r by auto; auto|]. exact W3. }
  rewrite Eb. cbn [bind].
  pose proof (filled_intro C _ _ _ _ _ Wa Wb) as (Lb & Fb1 & Fb2 & Fb3). rewrite <- (hsize_tot C).
  match goal with |- context [for_each (co_expc C) ?B _] =>
    destruct (block_loop (fun _ => 3) (fun k c i => sc * list_fun expray i) (length sb) B (co_expc C) (hsize C) sb) as (sd & Ed & Wd) end.
  { auto. }
  { intros k c a' Hin L' _. cbv beta iota. pose proof (lay_bounds _ _ _ _ _ Hin) as B. rewrite tot3 in B.
    match goal with |- context [for_ 0 3 ?B _] =>
      destruct (for_fill (fun i => sc * list_fun expray i) k 0 3 B a') as (a2 & E3 & W3) end.
    { intros i a2 Hi _. unfold list_fun. rewrite (nth_error_nth' expray f0); [reflexivity|cbn; lia]. }
    { unfold msize, nexc in *. lia. } { lia. }
    exists a2. rewrite E3. cbn [bind]. split; [auto|]. rewrite Nat.add_0_r in W3. exact W3. }
  rewrite Ed. cbn [bind]. exists sd. destruct Wd as (Ld & Id & Od). rewrite tot3 in Od.
  split; [auto|]. split; [congruence|]. split; [|split; [|split]].
  - intros i Hi. rewrite Od by lia. apply Fb1. auto.
  - intros k c i Hin Hi. destruct (blocks_in C k c Hin) as (B1 & B2 & B3). rewrite Od by lia. apply (Fb2 k c); auto.
  - intros k e i Hin Hi. unfold eblocks in Hin. rewrite FX in Hin. apply (Id k e i); auto.
  - intros j Hj. unfold msize, nexc in Hj. rewrite Od by lia. apply Fb3. lia.
Qed.
End Scal2P.
