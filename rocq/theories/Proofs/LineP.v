(* The line search for the symmetric cones, for every arithmetic. *)
From Coq Require Import List Arith Bool ZArith QArith Lia.
From Verif Require Import Base Num.
From Verif.Spec Require Import Matrix.
From Verif.Model Require Import Spla Types Consts Expcone Cone Ecos.
From Verif.Proofs Require Import LoopLib ConeP ScalP.
Import ListNotations.
Open Scope nat_scope.

Section LineP.
Context `{O : Ops}.
Local Open Scope fl_scope.

Section Block.
Variables (p : nat) (l : nat -> F).
Definition ls_n2 : F := l 0%nat * l 0%nat - dot_f (p - 1) (sh 1 l) (sh 1 l).
Definition ls_lb (j : nat) : F := l j / fsqrt ls_n2.
Definition ls_inv : F := f1 / fsqrt ls_n2.
Definition ls_ld (d : nat -> F) : F := nfold 1 (p - 1) (fun j a => a - ls_lb j * d j) (ls_lb 0%nat * d 0%nat).
Definition ls_rho (d : nat -> F) (i : nat) : F :=
  if Nat.eqb i 0 then ls_inv * ls_ld d
  else ls_inv * (d i - (ls_ld d + d 0%nat) / (ls_lb 0%nat + f1) * ls_lb i).
Definition ls_nr (d : nat -> F) : F :=
  fsqrt (nfold 0 (p - 1) (fun j s => s + ls_rho d (1 + j)%nat * ls_rho d (1 + j)%nat) f0) - ls_rho d 0%nat.
Definition ls_cs (ds dz : nat -> F) : F :=
  let c := f0 in
  let c := if ls_nr ds >? c then ls_nr ds else c in
  if ls_nr dz >? c then ls_nr dz else c.
Definition ls_al (ds dz : nat -> F) (alpha : F) : F :=
  if negb (ls_cs ds dz ==? f0) then
    (if f1 / ls_cs ds dz <? alpha then f1 / ls_cs ds dz else alpha)
  else alpha.
End Block.

Lemma ls_soc_eq lambda ds dz lf df zf n k p w1 w2 alpha :
  vec lambda n lf -> vec ds n df -> vec dz n zf -> (1 <= p)%nat -> (k + p <= n)%nat ->
  (p <= length w1)%nat -> (p <= length w2)%nat ->
  (ls_n2 p (sh k lf) <=? f0 = true -> ls_soc lambda ds dz k p w1 w2 alpha = Some None) /\
  (ls_n2 p (sh k lf) <=? f0 = false -> exists w1' w2',
     ls_soc lambda ds dz k p w1 w2 alpha = Some (Some (ls_al p (sh k lf) (sh k df) (sh k zf) alpha, w1', w2')) /\
     length w1' = length w1 /\ length w2' = length w2).
Proof.
  intros Hl Hd Hz Hp Hk L1 L2. unfold ls_soc. rd.
  rewrite (eddot_at_eq _ _ _ _ lf lf n) by (auto; lia). cbn [bind].
  assert (EN: lf k * lf k - dot_f (p - 1) (sh (k + 1) lf) (sh (k + 1) lf) = ls_n2 p (sh k lf)).
  { unfold ls_n2. unfold sh at 3 4. rewrite Nat.add_0_r. f_equal. unfold dot_f. apply nfold_ext. intros. unfold sh. do 2 f_equal; f_equal; lia. }
  rewrite EN. split; intros ->; auto.
  destruct (for_fill (fun j => ls_lb p (sh k lf) j) 0 0 p
    (fun j b => l <- get lambda (k + j)%nat;; set b j (l / fsqrt (ls_n2 p (sh k lf)))) w1) as (lb & E & W); [|lia|lia|].
  { intros i a' Hi _. rd. reflexivity. }
  rewrite E. cbn [bind]. rewrite Nat.sub_0_r in W.
  assert (LB: vec lb p (ls_lb p (sh k lf))).
  { intros i Hi. exact (wrote_in _ _ _ _ _ i W Hi). }
  clear E. rd.
  set (b := ls_lb p (sh k lf)) in *.
  assert (LD: forall d xf, vec d n xf ->
    for_ 1 p (fun j a => b <- get lb j;; x <- get d (k + j)%nat;; Some (a - b * x)) (b 0%nat * xf k) = Some (ls_ld p (sh k lf) (sh k xf))).
  { intros d xf Hx. rewrite (for_fold (fun j a => a - b j * xf (k + j)%nat)); [|intros; rd; auto].
    unfold ls_ld, sh. rewrite Nat.add_0_r. reflexivity. }
  rewrite (LD ds df Hd). cbn [bind]. rd. rewrite (LD dz zf Hz). cbn [bind].
  subst b.
  assert (RHO: forall d xf r, vec d n xf -> (p <= length r)%nat -> exists r',
    (rho <- set r 0 (ls_inv p (sh k lf) * ls_ld p (sh k lf) (sh k xf));;
     for_ 1 p (fun j r => x <- get d (k + j)%nat;; b <- get lb j;; set r j (f1 / fsqrt (ls_n2 p (sh k lf)) * (x - (ls_ld p (sh k lf) (sh k xf) + xf k) / (ls_lb p (sh k lf) 0%nat + f1) * b))) rho) = Some r' /\
    length r' = length r /\ vec r' p (ls_rho p (sh k lf) (sh k xf))).
  { intros d xf r Hx Lr.
    match goal with |- context [for_ 1 p ?B] =>
      destruct (fill_block 0 p (ls_inv p (sh k lf) * ls_ld p (sh k lf) (sh k xf)) (ls_rho p (sh k lf) (sh k xf)) B r) as (r' & E & W') end; [|auto|lia|].
    { intros i a' Hi _. rd. unfold ls_rho. destruct (Nat.eqb_spec i 0); [lia|]. replace (sh k xf 0%nat) with (xf k) by (unfold sh; f_equal; lia). reflexivity. }
    exists r'. split; [exact E|]. split; [apply (wrote_len _ _ _ _ _ W')|].
    intros i Hi. pose proof (wrote_in _ _ _ _ _ i W' Hi) as G. cbn [Nat.add] in G. rewrite G. f_equal.
    unfold ls_rho. destruct (Nat.eqb i 0); auto. }
  destruct (RHO ds df w2 Hd L2) as (r & Er & Lr & Vr).
  destruct (set w2 0 (f1 / fsqrt (ls_n2 p (sh k lf)) * ls_ld p (sh k lf) (sh k df))) as [r0|] eqn:E0.
  2:{ unfold ls_inv in Er. rewrite E0 in Er. discriminate. }
  unfold ls_inv in Er. rewrite E0 in Er. cbn [bind] in Er |- *. rewrite Er. cbn [bind].
  assert (NR: forall r xf, vec r p (ls_rho p (sh k lf) (sh k xf)) ->
     for_ 0 (p - 1) (fun j s => x <- get r (1 + j)%nat;; Some (s + x * x)) f0 =
     Some (nfold 0 (p - 1) (fun j s => s + ls_rho p (sh k lf) (sh k xf) (1 + j)%nat * ls_rho p (sh k lf) (sh k xf) (1 + j)%nat) f0)).
  { intros r' xf Hr. rewrite (for_fold (fun j s => s + ls_rho p (sh k lf) (sh k xf) (1 + j)%nat * ls_rho p (sh k lf) (sh k xf) (1 + j)%nat));
      [rewrite Nat.sub_0_r; auto|]. intros i s0 Hi. rd. auto. }
  rewrite (NR r df Vr). cbn [bind]. rewrite (Vr 0%nat) by lia. cbn [bind].
  destruct (RHO dz zf r Hz) as (r2 & Er2 & Lr2 & Vr2); [lia|].
  destruct (set r 0 (f1 / fsqrt (ls_n2 p (sh k lf)) * ls_ld p (sh k lf) (sh k zf))) as [r3|] eqn:E3.
  2:{ unfold ls_inv in Er2. rewrite E3 in Er2. discriminate. }
  unfold ls_inv in Er2. rewrite E3 in Er2. cbn [bind] in Er2 |- *. rewrite Er2. cbn [bind].
  rewrite (NR r2 zf Vr2). cbn [bind]. rewrite (Vr2 0%nat) by lia. cbn [bind].
  exists lb, r2. split; [reflexivity|]. split; [apply (wrote_len _ _ _ _ _ W)|congruence].
Qed.

Fixpoint ls_socs_f (lf df zf : nat -> F) (l : list (socone F)) (k : nat) (alpha : F) : F :=
  match l with
  | [] => alpha
  | c :: t => if ls_n2 (so_p c) (sh k lf) <=? f0 then ls_socs_f lf df zf t k alpha
              else ls_socs_f lf df zf t (k + so_p c) (ls_al (so_p c) (sh k lf) (sh k df) (sh k zf) alpha)
  end.

Lemma ls_socs_eq lambda ds dz lf df zf n : vec lambda n lf -> vec ds n df -> vec dz n zf ->
  forall l k w1 w2 alpha, (forall c, In c l -> (1 <= so_p c)%nat /\ (so_p c <= length w1)%nat /\ (so_p c <= length w2)%nat) ->
  (k + tot so_p l <= n)%nat -> exists w1' w2',
    ls_socs lambda ds dz l k w1 w2 alpha = Some (ls_socs_f lf df zf l k alpha, w1', w2') /\
    length w1' = length w1 /\ length w2' = length w2.
Proof.
  intros Hl Hd Hz. induction l as [|c t IH]; intros k w1 w2 alpha Hp Hk; cbn [ls_socs ls_socs_f tot] in *.
  - exists w1, w2. auto.
  - destruct (Hp c (or_introl eq_refl)) as (P1 & P2 & P3).
    destruct (ls_soc_eq lambda ds dz lf df zf n k (so_p c) w1 w2 alpha) as [A B]; auto; [lia|].
    destruct (ls_n2 (so_p c) (sh k lf) <=? f0).
    + rewrite A by auto. cbn [bind]. apply IH; [intros; apply Hp; right; auto|lia].
    + destruct B as (v1 & v2 & E & L1 & L2); auto. rewrite E. cbn [bind].
      destruct (IH (k + so_p c)%nat v1 v2 (ls_al (so_p c) (sh k lf) (sh k df) (sh k zf) alpha)) as (w1' & w2' & E' & L1' & L2').
      * intros c' Hc. rewrite L1, L2. apply Hp. right; auto.
      * lia.
      * exists w1', w2'. rewrite L1, L2 in *. auto.
Qed.

Definition ls_min (n : nat) (lf d : nat -> F) : F :=
  nfold 1 (n - 1) (fun i m => if d i / lf i <? m then d i / lf i else m) (d 0%nat / lf 0%nat).
Definition ls_lp (n : nat) (lf df zf : nat -> F) : F :=
  if Nat.ltb 0 n then
    if - ls_min n lf zf >? - ls_min n lf df then
      (if ls_min n lf zf <? f0 then f1 / (- ls_min n lf zf) else f1 / EPS)
    else (if ls_min n lf df <? f0 then f1 / (- ls_min n lf df) else f1 / EPS)
  else fconst 10.
Definition ls_tk (x dx alpha : F) : F := if (- x / dx >? f0) && (- x / dx <? alpha) then - x / dx else alpha.
Definition ls_clamp (alpha : F) : F :=
  let alpha := if alpha >? STEPMAX then STEPMAX else alpha in
  if alpha <? STEPMIN then STEPMIN else alpha.
Definition ls_alpha (C : cone F) (lf df zf : nat -> F) (tau dtau kap dkap : F) : F :=
  ls_clamp (ls_socs_f lf df zf (co_soc C) (lpp C) (ls_tk kap dkap (ls_tk tau dtau (ls_lp (lpp C) lf df zf)))).

Lemma lineSearch_eq C lambda ds dz lf df zf tau dtau kap dkap w1 w2 :
  vec lambda (hsize C) lf -> vec ds (hsize C) df -> vec dz (hsize C) zf ->
  (forall c, In c (co_soc C) -> (1 <= so_p c)%nat) -> (hsize C <= length w1)%nat -> (hsize C <= length w2)%nat ->
  exists w1' w2', lineSearch lambda ds dz tau dtau kap dkap C w1 w2 = Some (ls_alpha C lf df zf tau dtau kap dkap, w1', w2') /\
    length w1' = length w1 /\ length w2' = length w2.
Proof.
  intros Hl Hd Hz Hp L1 L2. unfold lineSearch.
  assert (H0: (lpp C <= hsize C)%nat) by (rewrite hsize_tot; lia).
  assert (LP: exists w2', (if Nat.ltb 0 (lpp C) then
      d0 <- get ds 0 ;; l0 <- get lambda 0 ;; e0 <- get dz 0 ;;
      '(rhomin, sigmamin, work2) <- for_ 1 (lpp C) (fun i st =>
          let '(rhomin, sigmamin, work2) := st in
          di <- get ds i ;; li <- get lambda i ;; ei <- get dz i ;;
          let r := di / li in
          work2 <- set work2 0 r ;;
          let rhomin := if r <? rhomin then r else rhomin in
          let sg := ei / li in
          work2 <- set work2 0 sg ;;
          let sigmamin := if sg <? sigmamin then sg else sigmamin in
          Some (rhomin, sigmamin, work2)) (d0 / l0, e0 / l0, w2) ;;
      Some (if - sigmamin >? - rhomin then
              (if sigmamin <? f0 then f1 / (- sigmamin) else f1 / EPS)
            else
              (if rhomin <? f0 then f1 / (- rhomin) else f1 / EPS), work2)
    else Some (fconst 10, w2)) = Some (ls_lp (lpp C) lf df zf, w2') /\ length w2' = length w2).
  { unfold ls_lp. destruct (Nat.ltb_spec 0 (lpp C)); [|exists w2; auto]. rd.
    match goal with |- context [for_ 1 _ ?B _] =>
      assert (G: forall n lo r s (w : arr F), (1 <= lo)%nat -> (lo + n <= lpp C)%nat -> length w = length w2 -> exists w',
        for_loop lo n B (r, s, w) = Some (nfold lo n (fun i m => if df i / lf i <? m then df i / lf i else m) r,
           nfold lo n (fun i m => if zf i / lf i <? m then zf i / lf i else m) s, w') /\ length w' = length w2) end.
    { induction n; intros lo r s0 w Hlo Hn Lw; cbn [for_loop nfold]; [exists w; auto|]. rd.
      rewrite set_ok by lia. cbn [bind]. rewrite set_ok by (rewrite upd_length; lia). cbn [bind].
      apply IHn; try lia. rewrite !upd_length. auto. }
    destruct (G (lpp C - 1)%nat 1%nat (df 0%nat / lf 0%nat) (zf 0%nat / lf 0%nat) w2) as (w' & E & L'); [lia|lia|auto|].
    unfold for_. rewrite E. cbn [bind]. exists w'. split; auto. }
  destruct LP as (w2' & E0 & L').
  destruct (ls_socs_eq lambda ds dz lf df zf (hsize C) Hl Hd Hz (co_soc C) (lpp C) w1 w2'
     (ls_tk kap dkap (ls_tk tau dtau (ls_lp (lpp C) lf df zf)))) as (v1 & v2 & E & M1 & M2).
  - intros c Hc. destruct (lay_of_in so_p (co_soc C) (lpp C) c Hc) as (k & Hk).
    pose proof (lay_bounds _ _ _ _ _ Hk). rewrite hsize_tot in *. split; [auto|lia].
  - rewrite <- hsize_tot. lia.
  - exists v1, v2. split; [|split; congruence]. cbv zeta. rwk E0. unfold ls_tk in E. rwk E.
Qed.
End LineP.
