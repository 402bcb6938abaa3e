(* What the cone kernels compute, for every arithmetic: each loop nest is a
   closed formula on the blocks of the vector, and no access is out of bounds
   or uninitialised. *)
From Coq Require Import List Arith Bool ZArith QArith Lia.
From Verif Require Import Base Num.
From Verif.Spec Require Import Matrix.
From Verif.Model Require Import Spla Types Consts Expcone Cone.
From Verif.Spec Require Export Shape.
From Verif.Proofs Require Import LoopLib.
Import ListNotations.
Open Scope nat_scope.

Ltac rd := repeat (match goal with
  | H : get ?a ?i = Some _ |- context [get ?a ?i] => rewrite H
  | H : vec ?a ?n ?f |- context [get ?a ?i] => rewrite (H i) by lia
  end; cbn [bind]).

(* rewrite the head of a bind up to conversion *)
Ltac rwk E := refine (eq_trans (f_equal (fun m => bind m _) E) _); cbn [bind]; try reflexivity.

Section ConeP.
Context `{O : Ops}.
Local Open Scope fl_scope.

(* the value of an assigned scalar *)
Definition osc (o : option F) : F := match o with Some x => x | None => f0 end.
(* a vector seen from position k on *)
Definition sh (k : nat) (z : nat -> F) : nat -> F := fun i => z (k + i)%nat.

(* the scaling fields of a second-order cone have been assigned *)
Record soc_set (c : socone F) : Prop := {
  ss_a : so_a c = Some (osc (so_a c));
  ss_d1 : so_d1 c = Some (osc (so_d1 c));
  ss_w : so_w c = Some (osc (so_w c));
  ss_eta : so_eta c = Some (osc (so_eta c));
  ss_es : so_eta_square c = Some (osc (so_eta_square c));
  ss_u0 : so_u0 c = Some (osc (so_u0 c));
  ss_u1 : so_u1 c = Some (osc (so_u1 c));
  ss_v1 : so_v1 c = Some (osc (so_v1 c));
  ss_q : vec (so_q c) (so_p c - 1) (gd f0 (so_q c))
}.
Record scaled (C : cone F) : Prop := {
  sd_w : vec (lp_w (co_lpc C)) (lpp C) (gd f0 (lp_w (co_lpc C)));
  sd_v : vec (lp_v (co_lpc C)) (lpp C) (gd f0 (lp_v (co_lpc C)));
  sd_soc : forall c, In c (co_soc C) -> soc_set c;
  sd_ev : forall e, In e (co_expc C) -> vec (ex_v e) 6 (gd f0 (ex_v e));
  sd_eg : forall e, In e (co_expc C) -> vec (ex_g e) 3 (gd f0 (ex_g e))
}.

Lemma tot_sum {A} (g : A -> nat) l : tot g l = list_sum (map g l).
Proof. induction l; cbn [tot map]; auto. rewrite IHl. reflexivity. Qed.
Lemma hsize_tot C : hsize C = (lpp C + tot so_p (co_soc C))%nat.
Proof. rewrite tot_sum. reflexivity. Qed.

Definition blocks (C : cone F) : list (nat * socone F) := lay so_p (lpp C) (co_soc C).

Lemma blocks_in C k c : In (k, c) (blocks C) -> (lpp C <= k)%nat /\ (k + so_p c <= hsize C)%nat /\ In c (co_soc C).
Proof.
  intros H. pose proof (lay_bounds _ _ _ _ _ H). pose proof (lay_in _ _ _ _ _ H). rewrite ?hsize_tot. intuition lia.
Qed.

(* result of a kernel: LP part g, block (k,c) holds f k c, the rest is untouched *)
Definition filled (C : cone F) (g : nat -> F) (f : nat -> socone F -> nat -> F) (a a' : arr F) : Prop :=
  length a' = length a /\
  (forall i, i < lpp C -> get a' i = Some (g i)) /\
  (forall k c i, In (k, c) (blocks C) -> i < so_p c -> get a' (k + i)%nat = Some (f k c i)) /\
  (forall j, hsize C <= j -> get a' j = get a j).

Lemma filled_vec C g f a a' : filled C g f a a' -> vec a' (hsize C) (gd f0 a').
Proof.
  intros (L & A & B & _) i Hi. rewrite hsize_tot in Hi.
  destruct (Nat.lt_ge_cases i (lpp C)).
  - unfold gd. rewrite A by auto. auto.
  - destruct (lay_cover so_p (lpp C) (co_soc C) i) as (k & c & Hin & Hb); [lia|].
    unfold gd. replace i with (k + (i - k))%nat by lia. rewrite (B k c) by (auto; lia). auto.
Qed.

(* an LP fill followed by a block loop *)
Lemma filled_intro C g f a b d :
  wrote 0 (lpp C) g a b -> wrotes so_p (lpp C) (co_soc C) f b d -> filled C g f a d.
Proof.
  intros W (L & I & OO). split; [|split; [|split]].
  - rewrite L. apply (wrote_len _ _ _ _ _ W).
  - intros i Hi. rewrite OO by lia. apply (wrote_in _ _ _ _ _ i W Hi).
  - exact I.
  - intros j Hj. rewrite hsize_tot in Hj. rewrite OO by lia. apply (wrote_out _ _ _ _ _ _ W). lia.
Qed.

Lemma filled_ext C g f g' f' a b : filled C g f a b ->
  (forall i, i < lpp C -> g i = g' i) ->
  (forall k c i, In (k, c) (blocks C) -> i < so_p c -> f k c i = f' k c i) -> filled C g' f' a b.
Proof.
  intros (L & A & B & D) E1 E2. split; [|split; [|split]]; auto.
  - intros. rewrite <- E1; auto.
  - intros. rewrite <- E2; auto.
Qed.

(* a first cell and then the others *)
Lemma fill_block k p h f (body : nat -> arr F -> option (arr F)) (a : arr F) :
  (forall i (a' : arr F), 1 <= i < p -> length a' = length a -> body i a' = set a' (k + i)%nat (f i)) ->
  1 <= p -> k + p <= length a ->
  exists a' : arr F, (a1 <- set a k h ;; for_ 1 p body a1) = Some a' /\ wrote k p (fun i => if Nat.eqb i 0 then h else f i) a a'.
Proof.
  intros Hb Hp Hl. destruct (set_wrote k h a) as (a1 & E1 & W1); [lia|]. rewrite E1. cbn [bind].
  destruct (for_fill f k 1 p body a1) as (a2 & E2 & W2); [|rewrite (wrote_len _ _ _ _ _ W1); lia|lia|].
  { intros. apply Hb; auto. rewrite <- (wrote_len _ _ _ _ _ W1). auto. }
  rewrite E2. exists a2. split; auto.
  pose proof (wrote_app k 1 (p - 1) _ _ _ _ _ W1 W2) as W.
  replace (1 + (p - 1))%nat with p in W by lia.
  eapply wrote_ext; [exact W|]. intros i Hi. cbv beta. beq; subst; try lia; auto. f_equal. lia.
Qed.

(* ------------------------------------------------------------------- socres *)
Definition socres_f (p : nat) (u : nat -> F) : F := nfold 1 (p - 1) (fun i res => res - u i * u i) (u 0%nat * u 0%nat).

Lemma socres_eq u n uf k p : vec u n uf -> 1 <= p -> k + p <= n -> socres u k p = Some (socres_f p (sh k uf)).
Proof.
  intros Hu Hp Hn. unfold socres. rd.
  rewrite (for_fold (fun i res => res - uf (k + i)%nat * uf (k + i)%nat)); [|intros; rd; auto].
  unfold socres_f, sh. rewrite Nat.add_0_r. reflexivity.
Qed.

(* -------------------------------------------------------------------- scale *)
Definition zeta_f (c : socone F) (z : nat -> F) : F :=
  nfold 1 (so_p c - 1) (fun i zeta => zeta + gd f0 (so_q c) (i - 1)%nat * z i) f0.
Definition scale_f (c : socone F) (z : nat -> F) (i : nat) : F :=
  let a := osc (so_a c) in let eta := osc (so_eta c) in
  if Nat.eqb i 0 then eta * (a * z 0%nat + zeta_f c z)
  else eta * (z i + (z 0%nat + safediv (zeta_f c z) (f1 + a)) * gd f0 (so_q c) (i - 1)%nat).

(* scale, unscale only look at these fields *)
Record scaledW (C : cone F) : Prop := {
  sw_w : vec (lp_w (co_lpc C)) (lpp C) (gd f0 (lp_w (co_lpc C)));
  sw_a : forall c, In c (co_soc C) -> so_a c = Some (osc (so_a c));
  sw_eta : forall c, In c (co_soc C) -> so_eta c = Some (osc (so_eta c));
  sw_q : forall c, In c (co_soc C) -> vec (so_q c) (so_p c - 1) (gd f0 (so_q c))
}.
Lemma scaled_W C : scaled C -> scaledW C.
Proof.
  intros [? ? H ? ?]. constructor; auto; intros c Hc; destruct (H c Hc); auto.
Qed.

Lemma scale_eq C z zf lambda : (forall c, In c (co_soc C) -> 1 <= so_p c) -> scaledW C ->
  vec z (hsize C) zf -> hsize C <= length lambda ->
  exists lambda', scale z C lambda = Some lambda' /\
    filled C (fun i => gd f0 (lp_w (co_lpc C)) i * zf i) (fun k c => scale_f c (sh k zf)) lambda lambda'.
Proof.
  intros Hp [Hw Ha He Hq] Hz Hl. unfold scale.
  assert (H0: (lpp C <= hsize C)%nat) by (rewrite hsize_tot; lia).
  destruct (for_fill (fun i => gd f0 (lp_w (co_lpc C)) i * zf i) 0 0 (lpp C)
     (fun i lambda => wi <- get (lp_w (co_lpc C)) i ;; zi <- get z i ;; set lambda i (wi * zi)) lambda) as (b & E & W);
    [|lia|lia|].
  { intros i a' Hi _. rd. auto. }
  rewrite E. cbn [bind].
  match goal with |- context [for_each _ ?B _] =>
    destruct (block_loop so_p (fun k c => scale_f c (sh k zf)) (length b) B (co_soc C) (lpp C) b) as (d & E2 & W2) end.
  - auto.
  - intros k c a' Hin L' _. cbv beta iota. destruct (blocks_in C k c Hin) as (B1 & B2 & B3).
    pose proof (wrote_len _ _ _ _ _ W) as WL.
    rewrite (Ha c B3), (He c B3). cbn [bind]. pose proof (Hq c B3) as Q. pose proof (Hp c B3) as P.
    rewrite (for_fold (fun i zeta => zeta + gd f0 (so_q c) (i - 1)%nat * zf (k + i)%nat)); [|intros; rd; auto].
    cbn [bind]. rd. rewrite <- bind_assoc.
    match goal with |- context [for_ 1 _ ?B] =>
      destruct (fill_block k (so_p c) (osc (so_eta c) * (osc (so_a c) * zf k + zeta_f c (sh k zf)))
        (scale_f c (sh k zf)) B a') as (a2 & E3 & W3); [|auto|lia|] end.
    { intros i a2 Hi _. rd. unfold scale_f, zeta_f, sh. rewrite Nat.add_0_r.
      destruct (Nat.eqb_spec i 0); [lia|]. auto. }
    unfold zeta_f, sh in E3. exists a2. split; [rwk E3|].
    eapply wrote_ext; [exact W3|]. intros i Hi. cbv beta. unfold scale_f, sh. beq; subst; auto.
    rewrite Nat.add_0_r. auto.
  - rewrite E2. cbn [bind]. exists d. split; auto.
    rewrite Nat.sub_0_r in W. eapply filled_intro; eauto.
Qed.

(* ------------------------------------------------------------------ unscale *)
Definition unscale_f (c : socone F) (z : nat -> F) (i : nat) : F :=
  let a := osc (so_a c) in let eta := osc (so_eta c) in
  if Nat.eqb i 0 then safediv (a * z 0%nat - zeta_f c z) eta
  else safediv (z i + (- z 0%nat + safediv (zeta_f c z) (f1 + a)) * gd f0 (so_q c) (i - 1)%nat) eta.

Lemma unscale_eq C z zf lambda : (forall c, In c (co_soc C) -> 1 <= so_p c) -> scaledW C ->
  vec z (hsize C) zf -> hsize C <= length lambda ->
  exists lambda', unscale z C lambda = Some lambda' /\
    filled C (fun i => safediv (zf i) (gd f0 (lp_w (co_lpc C)) i)) (fun k c => unscale_f c (sh k zf)) lambda lambda'.
Proof.
  intros Hp [Hw Ha He Hq] Hz Hl. unfold unscale.
  assert (H0: (lpp C <= hsize C)%nat) by (rewrite hsize_tot; lia).
  match goal with |- context [for_ 0 _ ?B _] =>
  destruct (for_fill (fun i => safediv (zf i) (gd f0 (lp_w (co_lpc C)) i)) 0 0 (lpp C) B lambda) as (b & E & W);
    [|lia|lia|] end.
  { intros i a' Hi _. rd. auto. }
  rewrite E. cbn [bind].
  match goal with |- context [for_each _ ?B _] =>
    destruct (block_loop so_p (fun k c => unscale_f c (sh k zf)) (length b) B (co_soc C) (lpp C) b) as (d & E2 & W2) end.
  - auto.
  - intros k c a' Hin L' _. cbv beta iota. destruct (blocks_in C k c Hin) as (B1 & B2 & B3).
    pose proof (wrote_len _ _ _ _ _ W) as WL.
    rewrite (Ha c B3), (He c B3). cbn [bind]. pose proof (Hq c B3) as Q. pose proof (Hp c B3) as P.
    rewrite (for_fold (fun i zeta => zeta + gd f0 (so_q c) (i - 1)%nat * zf (k + i)%nat)); [|intros; rd; auto].
    cbn [bind]. rd. rewrite <- bind_assoc.
    match goal with |- context [for_ 1 _ ?B] =>
      destruct (fill_block k (so_p c) (safediv (osc (so_a c) * zf k - zeta_f c (sh k zf)) (osc (so_eta c)))
        (unscale_f c (sh k zf)) B a') as (a2 & E3 & W3); [|auto|lia|] end.
    { intros i a2 Hi _. rd. unfold unscale_f, zeta_f, sh. rewrite Nat.add_0_r.
      destruct (Nat.eqb_spec i 0); [lia|]. auto. }
    unfold zeta_f, sh in E3. exists a2. split; [rwk E3|].
    eapply wrote_ext; [exact W3|]. intros i Hi. cbv beta. unfold unscale_f, sh. beq; subst; auto.
    rewrite Nat.add_0_r. auto.
  - rewrite E2. cbn [bind]. exists d. split; auto.
    rewrite Nat.sub_0_r in W. eapply filled_intro; eauto.
Qed.

(* ------------------------------------------------------------- conicProduct *)
Definition dot_f (p : nat) (u v : nat -> F) : F := nfold 0 p (fun i z => z + u i * v i) f0.
Definition cprod_f (u v : nat -> F) (p i : nat) : F :=
  if Nat.eqb i 0 then dot_f p u v else u 0%nat * v i + v 0%nat * u i.
Definition cprod_mu (C : cone F) (u v : nat -> F) : F :=
  fold_left (fun mu '(k, c) => mu + cabs (dot_f (so_p c) (sh k u) (sh k v))) (blocks C)
    (nfold 0 (lpp C) (fun i mu => mu + cabs (u i * v i)) f0).

Lemma eddot_at_eq n k u v uf vf N : vec u N uf -> vec v N vf -> k + n <= N ->
  eddot_at n k u v = Some (dot_f n (sh k uf) (sh k vf)).
Proof.
  intros Hu Hv Hn. unfold eddot_at.
  rewrite (for_fold (fun i z => z + uf (k + i)%nat * vf (k + i)%nat)); [|intros; rd; auto].
  rewrite Nat.sub_0_r. reflexivity.
Qed.

Lemma for_fill_acc {B : Type} (step : nat -> B -> B) (f : nat -> F) lo hi (body : nat -> B * arr F -> option (B * arr F)) b (a : arr F) :
  (forall i b (a' : arr F), lo <= i < hi -> length a' = length a ->
     exists a'', set a' i (f i) = Some a'' /\ body i (b, a') = Some (step i b, a'')) ->
  hi <= length a -> lo <= hi ->
  exists a' : arr F, for_ lo hi body (b, a) = Some (nfold lo (hi - lo) step b, a') /\ wrote lo (hi - lo) (fun i => f (lo + i)%nat) a a'.
Proof.
  intros Hb Hl Hlh. unfold for_.
  assert (G: forall n lo b (a : arr F), (forall i b a', lo <= i < lo + n -> length a' = length a ->
       exists a'', set a' i (f i) = Some a'' /\ body i (b, a') = Some (step i b, a'')) ->
     (lo + n <= length a)%nat ->
     exists a', for_loop lo n body (b, a) = Some (nfold lo n step b, a') /\ wrote lo n (fun i => f (lo + i)%nat) a a').
  { clear. induction n; intros lo b a Hb Hl; cbn [for_loop nfold].
    - exists a. split; auto. apply wrote_0.
    - destruct (Hb lo b a) as (a1 & E1 & E2); [lia|auto|]. rewrite E2. cbn [bind].
      destruct (set_wrote lo (f lo) a) as (a1' & E1' & W1); [lia|].
      assert (a1' = a1) by congruence. subst a1'.
      pose proof (wrote_len _ _ _ _ _ W1) as L1.
      destruct (IHn (S lo) (step lo b) a1) as (a2 & E3 & W2).
      + intros i b' a' Hi L'. apply Hb; [lia|congruence].
      + lia.
      + exists a2. split; auto.
        replace (S lo) with (lo + 1)%nat in W2 by lia.
        pose proof (wrote_app lo 1 n _ _ _ _ _ W1 W2) as W. eapply wrote_ext; [exact W|].
        intros i Hi. cbv beta. beq; f_equal; lia. }
  apply G; [|lia]. intros. apply Hb; auto. lia.
Qed.

Lemma conicProduct_eq C u v uf vf w : (forall c, In c (co_soc C) -> 1 <= so_p c) ->
  vec u (hsize C) uf -> vec v (hsize C) vf -> hsize C <= length w ->
  exists w', conicProduct u v C w = Some (cprod_mu C uf vf, w') /\
    filled C (fun i => uf i * vf i) (fun k c => cprod_f (sh k uf) (sh k vf) (so_p c)) w w'.
Proof.
  intros Hp Hu Hv Hl. unfold conicProduct.
  assert (H0: (lpp C <= hsize C)%nat) by (rewrite hsize_tot; lia).
  match goal with |- context [for_ 0 _ ?B _] =>
    destruct (for_fill_acc (fun i mu => mu + cabs (uf i * vf i)) (fun i => uf i * vf i) 0 (lpp C) B f0 w) as (b & E & W) end;
    [|lia|lia|].
  { intros i mu a' Hi L'. rd. destruct (set_wrote i (uf i * vf i) a') as (a2 & E & _); [lia|].
    exists a2. rewrite E. auto. }
  rewrite E. cbn [bind].
  pose proof (wrote_len _ _ _ _ _ W) as WL.
  match goal with |- context [for_each _ ?B _] =>
    destruct (block_loop_acc so_p (fun k c mu => mu + cabs (dot_f (so_p c) (sh k uf) (sh k vf)))
      (fun k c => cprod_f (sh k uf) (sh k vf) (so_p c)) (length b) B (co_soc C) (lpp C)
       (nfold 0 (lpp C - 0) (fun i mu => mu + cabs (uf i * vf i)) f0) b) as (d & E2 & W2) end.
  - auto.
  - intros k c mu a' Hin L'. cbv beta iota. destruct (blocks_in C k c Hin) as (B1 & B2 & B3).
    pose proof (Hp c B3) as P. rd.
    rewrite (eddot_at_eq _ _ _ _ uf vf (hsize C)) by auto. cbn [bind]. rewrite <- bind_assoc.
    match goal with |- context [for_ 1 _ ?B] =>
      destruct (fill_block k (so_p c) (dot_f (so_p c) (sh k uf) (sh k vf))
        (cprod_f (sh k uf) (sh k vf) (so_p c)) B a') as (a2 & E3 & W3); [|auto|lia|] end.
    { intros i a2 Hi _. rd. unfold cprod_f, sh. rewrite Nat.add_0_r.
      destruct (Nat.eqb_spec i 0); [lia|]. auto. }
    exists a2. split; [rwk E3|].
    eapply wrote_ext; [exact W3|]. intros i Hi. cbv beta. unfold cprod_f. beq; subst; auto.
  - rewrite Nat.sub_0_r in *. rewrite E2. cbn [bind]. exists d. split; auto.
    eapply filled_intro; eauto.
Qed.

(* ------------------------------------------------------------ conicDivision *)
Definition cdiv_f (u w : nat -> F) (p i : nat) : F :=
  let rho := socres_f p u in
  let zeta := nfold 1 (p - 1) (fun j zeta => zeta + u j * w j) f0 in
  if Nat.eqb i 0 then safediv (u 0%nat * w 0%nat - zeta) rho
  else safediv (safediv zeta (u 0%nat) - w 0%nat) rho * u i + safediv (w i) (u 0%nat).

Lemma conicDivision_eq C u w uf wf v : (forall c, In c (co_soc C) -> 1 <= so_p c) ->
  vec u (hsize C) uf -> vec w (hsize C) wf -> hsize C <= length v ->
  exists v', conicDivision u w C v = Some v' /\
    filled C (fun i => safediv (wf i) (uf i)) (fun k c => cdiv_f (sh k uf) (sh k wf) (so_p c)) v v'.
Proof.
  intros Hp Hu Hv Hl. unfold conicDivision.
  assert (H0: (lpp C <= hsize C)%nat) by (rewrite hsize_tot; lia).
  match goal with |- context [for_ 0 _ ?B _] =>
    destruct (for_fill (fun i => safediv (wf i) (uf i)) 0 0 (lpp C) B v) as (b & E & W) end;
    [|lia|lia|].
  { intros i a' Hi L'. rd. auto. }
  rewrite E. cbn [bind].
  pose proof (wrote_len _ _ _ _ _ W) as WL.
  match goal with |- context [for_each _ ?B _] =>
    destruct (block_loop so_p
      (fun k c => cdiv_f (sh k uf) (sh k wf) (so_p c)) (length b) B (co_soc C) (lpp C) b) as (d & E2 & W2) end.
  - auto.
  - intros k c a' Hin L' _. cbv beta iota. destruct (blocks_in C k c Hin) as (B1 & B2 & B3).
    pose proof (Hp c B3) as P. rd.
    rewrite (for_fold (fun i '(rho, zeta) => (rho - uf (k + i)%nat * uf (k + i)%nat, zeta + uf (k + i)%nat * wf (k + i)%nat)));
      [|intros i [rho zeta] Hi; rd; auto].
    rewrite (nfold_pair (fun i rho => rho - uf (k + i)%nat * uf (k + i)%nat) (fun i zeta => zeta + uf (k + i)%nat * wf (k + i)%nat)).
    cbn [bind]. rewrite <- bind_assoc.
    match goal with |- context [set a' k ?h] =>
    match goal with |- context [for_ 1 _ ?B] =>
      destruct (fill_block k (so_p c) h
        (cdiv_f (sh k uf) (sh k wf) (so_p c)) B a') as (a2 & E3 & W3); [|auto|lia|] end end.
    { intros i a2 Hi _. rd. unfold cdiv_f, socres_f, sh. rewrite Nat.add_0_r.
      destruct (Nat.eqb_spec i 0); [lia|]. auto. }
    exists a2. split; [rwk E3|].
    eapply wrote_ext; [exact W3|]. intros i Hi. cbv beta. unfold cdiv_f, socres_f, sh. beq; subst; auto.
    rewrite Nat.add_0_r. auto.
  - rewrite Nat.sub_0_r in *. rewrite E2. cbn [bind]. exists d. split; auto.
    eapply filled_intro; eauto.
Qed.

End ConeP.
