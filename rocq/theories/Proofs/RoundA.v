(* Sums evaluated in rounded arithmetic. *)
From Coq Require Import List Arith Bool ZArith Reals Lra Lia Psatz.
From Verif Require Import Base Num.
From Verif.Model Require Import Spla.
From Verif.Spec Require Import Matrix Conic Rounding.
From Verif.Proofs Require Import SplaP ExitP.
Import ListNotations.
Open Scope R_scope.

Lemma pow1 u k : 0 <= u -> 1 <= (1 + u) ^ k.
Proof. intros. apply pow_R1_Rle. lra. Qed.

Lemma Rabs_tri3 a b c : Rabs (a + b + c) <= Rabs a + Rabs b + Rabs c.
Proof. pose proof (Rabs_triang (a + b) c). pose proof (Rabs_triang a b). lra. Qed.

Lemma within_step u eta k r e M p t r' : 0 <= u -> 0 <= eta ->
  within u eta k r e M -> Rabs e <= M ->
  Rabs (p - t) <= u * Rabs t + eta -> Rabs (r' - (r + p)) <= u * Rabs (r + p) + eta ->
  within u eta (S k) r' (e + t) (M + Rabs t).
Proof.
  unfold within. intros U E W HM HP HR.
  replace (S k + 1)%nat with (S (S k)) by lia. replace (k + 1)%nat with (S k) in W by lia.
  rewrite S_INR. rewrite <- !tech_pow_Rmult in *.
  pose proof (pow1 u k U) as P1. set (P := (1 + u) ^ k) in *. pose proof (pos_INR k) as K. set (kk := INR k) in *.
  pose proof (Rabs_pos e) as Ae. pose proof (Rabs_pos t) as At.
  set (g := (1 + u) * P - 1) in *. set (d := 3 * kk * P * eta) in *.
  assert (G0: 0 <= g) by (unfold g; nra).
  assert (D0: 0 <= d). { unfold d. repeat apply Rmult_le_pos; lra. }
  assert (Ar: Rabs r <= M + g * M + d).
  { replace r with (e + (r - e)) by lra. pose proof (Rabs_triang e (r - e)). lra. }
  assert (Ap: Rabs p <= (1 + u) * Rabs t + eta).
  { replace p with (t + (p - t)) by lra. pose proof (Rabs_triang t (p - t)). lra. }
  assert (Arp: Rabs (r + p) <= M + g * M + d + ((1 + u) * Rabs t + eta)).
  { pose proof (Rabs_triang r p). lra. }
  replace (r' - (e + t)) with ((r' - (r + p)) + (r - e) + (p - t)) by lra.
  pose proof (Rabs_tri3 (r' - (r + p)) (r - e) (p - t)) as T.
  pose proof (Rmult_le_compat_l u _ _ U Arp) as Q.
  assert (R1: (g + u + u * g) * M + (u + u * (1 + u)) * Rabs t + (1 + u) * d + (2 + u) * eta <=
              ((1 + u) * ((1 + u) * P) - 1) * (M + Rabs t) + 3 * (kk + 1) * ((1 + u) * P) * eta); [|lra].
  assert (g + u + u * g = (1 + u) * ((1 + u) * P) - 1) as -> by (unfold g; ring).
  assert ((u + u * (1 + u)) * Rabs t <= ((1 + u) * ((1 + u) * P) - 1) * Rabs t).
  { apply Rmult_le_compat_r; auto. assert (1 * 1 <= (1 + u) * P) by (apply Rmult_le_compat; lra).
    assert (0 <= (1+u) * (1+u) * (P - 1)) by (repeat apply Rmult_le_pos; lra). nra. }
  assert ((1 + u) * d + (2 + u) * eta <= 3 * (kk + 1) * ((1 + u) * P) * eta); [|lra].
  unfold d. assert ((2 + u) * eta <= 3 * ((1 + u) * P) * eta); [|lra].
  apply Rmult_le_compat_r; auto. assert ((1 + u) * 1 <= (1 + u) * P) by (apply Rmult_le_compat_l; lra). lra.
Qed.

Lemma pow_mono u a b : 0 <= u -> (a <= b)%nat -> (1 + u) ^ a <= (1 + u) ^ b.
Proof. intros. apply Rle_pow; [lra|auto]. Qed.

Lemma within_mono u eta k k' r e M M' : 0 <= u -> 0 <= eta -> (k <= k')%nat -> 0 <= M -> M <= M' ->
  within u eta k r e M -> within u eta k' r e M'.
Proof.
  unfold within. intros U E K M0 MM W. eapply Rle_trans; [exact W|]. apply Rplus_le_compat.
  - apply Rmult_le_compat; auto.
    + pose proof (pow1 u (k + 1) U). lra.
    + pose proof (pow_mono u (k + 1) (k' + 1) U ltac:(lia)). lra.
  - apply Rmult_le_compat_r; auto. apply Rmult_le_compat.
    + pose proof (pos_INR k). lra.
    + pose proof (pow1 u k U). lra.
    + apply Rmult_le_compat_l; [lra|]. apply le_INR; auto.
    + apply pow_mono; auto.
Qed.

Tactic Notation "bd" hyp(H) "as" simple_intropattern(p) ident(E) :=
  match type of H with bind ?m _ = Some _ => destruct m as [p|] eqn:E; [cbn [bind] in H|discriminate H] end.

Section Acc.
Context {O : Ops} (phi : F -> option R) (u eta Om : R) (H : rounds O phi u eta Om).

(* k roundings neither double a sum nor let underflow count *)
Definition fits (k : nat) : Prop := (1 + u) ^ (k + 1) <= 2 /\ 6 * (INR k + 1) * eta <= Om.

Lemma fits_mono k k' : (k <= k')%nat -> fits k' -> fits k.
Proof.
  intros K [A B]. pose proof (rn_u _ _ _ _ _ H). pose proof (rn_eta _ _ _ _ _ H). split.
  - pose proof (pow_mono u (k + 1) (k' + 1) ltac:(lra) ltac:(lia)). lra.
  - apply le_INR in K. nra.
Qed.

(* v stands for e, evaluated with k roundings *)
Definition acc (v : F) (k : nat) (e M : R) : Prop :=
  (forall r, phi v = Some r -> within u eta k r e M) /\ Rabs e <= M /\
  (fits k -> M <= Om -> exists r, phi v = Some r).

Lemma acc_0 : acc f0 0 0 0.
Proof.
  unfold acc. split; [|split].
  - intros r E. rewrite (rn_0 _ _ _ _ _ H) in E. injection E as <-. unfold within. simpl.
    rewrite Rminus_diag_eq by auto. rewrite Rabs_R0. lra.
  - rewrite Rabs_R0. lra.
  - intros _ _. exists 0. apply (rn_0 _ _ _ _ _ H).
Qed.

Lemma acc_exact v x : phi v = Some x -> acc v 0 x (Rabs x).
Proof.
  intros E. pose proof (rn_u _ _ _ _ _ H). pose proof (rn_eta _ _ _ _ _ H). split; [|split]; [|lra|eauto].
  intros r E2. rewrite E in E2. injection E2 as <-. unfold within. simpl. rewrite Rminus_diag_eq, Rabs_R0 by auto.
  pose proof (Rabs_pos x). nra.
Qed.

Lemma acc_mono v k k' e M M' : (k <= k')%nat -> M <= M' -> acc v k e M -> acc v k' e M'.
Proof.
  intros K MM (A & B & C). pose proof (rn_u _ _ _ _ _ H). pose proof (rn_eta _ _ _ _ _ H).
  pose proof (Rabs_pos e). split; [|split].
  - intros r E. apply within_mono with (k := k) (M := M); auto; lra.
  - lra.
  - intros Fk Hk. apply C; [eapply fits_mono; eauto|lra].
Qed.

Lemma acc_ext v k e e' M M' : e = e' -> M = M' -> acc v k e M -> acc v k e' M'.
Proof. intros -> ->; auto. Qed.

(* the size of a number that stands for e *)
Lemma acc_size v k e M r : fits k -> acc v k e M -> phi v = Some r -> Rabs r <= 2 * M + 6 * INR k * eta.
Proof.
  intros [F1 F2] (A & B & _) E. specialize (A r E). unfold within in A.
  pose proof (rn_u _ _ _ _ _ H) as U. pose proof (rn_eta _ _ _ _ _ H).
  replace r with (e + (r - e)) by lra. pose proof (Rabs_triang e (r - e)). pose proof (Rabs_pos e).
  pose proof (pos_INR k). pose proof (pow1 u k U). pose proof (pow_mono u k (k + 1) U ltac:(lia)).
  assert (((1 + u) ^ (k + 1) - 1) * M <= 1 * M) by (apply Rmult_le_compat_r; lra).
  assert (3 * INR k * (1 + u) ^ k * eta <= 3 * INR k * 2 * eta).
  { apply Rmult_le_compat_r; auto. apply Rmult_le_compat_l; lra. }
  lra.
Qed.

Section Step.
Variables (v : F) (k : nat) (e M : R).
Hypothesis A : acc v k e M.

Lemma acc_fin r p t : fits (S k) -> M + Rabs t <= Om -> phi v = Some r -> Rabs (p - t) <= u * Rabs t + eta ->
  Rabs r + Rabs p <= 4 * Om.
Proof.
  intros Fk HO E P. pose proof (fits_mono k (S k) ltac:(lia) Fk) as Fk0.
  pose proof (acc_size v k e M r Fk0 A E). destruct Fk as [F1 F2]. rewrite S_INR in F2.
  pose proof (rn_u _ _ _ _ _ H) as U. pose proof (rn_eta _ _ _ _ _ H) as E0.
  assert (Rabs p <= (1 + u) * Rabs t + eta).
  { replace p with (t + (p - t)) by lra. pose proof (Rabs_triang t (p - t)). lra. }
  pose proof (pow_mono u 1 (S k + 1) U ltac:(lia)) as P1. simpl (_ ^ 1) in P1. rewrite Rmult_1_r in P1.
  pose proof (Rabs_pos t). assert ((1 + u) * Rabs t <= 2 * Rabs t) by (apply Rmult_le_compat_r; lra).
  pose proof (pos_INR k). nra.
Qed.

Lemma acc_plus b y : phi b = Some y -> acc (fadd v b) (S k) (e + y) (M + Rabs y).
Proof.
  intros B. pose proof (rn_u _ _ _ _ _ H) as U. pose proof (rn_eta _ _ _ _ _ H) as E0.
  assert (Z: Rabs (y - y) <= u * Rabs y + eta) by (rewrite Rminus_diag_eq, Rabs_R0 by auto; pose proof (Rabs_pos y); nra).
  destruct A as (A1 & A2 & A3). split; [|split].
  - intros r E. destruct (rn_add _ _ _ _ _ H _ _ _ E) as (x & y' & X & Y & D). rewrite B in Y. injection Y as <-.
    apply within_step with (r := x) (p := y); auto.
  - pose proof (Rabs_triang e y). lra.
  - intros Fk HO. pose proof (Rabs_pos y). destruct A3 as [r R]; [eapply fits_mono; [|exact Fk]; lia|lra|].
    eapply (rn_add_fin _ _ _ _ _ H); eauto. pose proof (acc_fin r y y Fk HO R Z). pose proof (Rabs_triang r y). lra.
Qed.

Lemma prod_fin a b x y : phi a = Some x -> phi b = Some y -> M + Rabs (x * y) <= Om -> exists p, phi (fmul a b) = Some p.
Proof.
  intros. destruct A as (_ & A2 & _). pose proof (Rabs_pos e). pose proof (Rabs_pos (x * y)).
  eapply (rn_mul_fin _ _ _ _ _ H); eauto. lra.
Qed.

Lemma acc_addmul a b x y : phi a = Some x -> phi b = Some y -> acc (fadd v (fmul a b)) (S k) (e + x * y) (M + Rabs (x * y)).
Proof.
  intros X Y. pose proof (rn_u _ _ _ _ _ H) as U. pose proof (rn_eta _ _ _ _ _ H) as E0.
  destruct A as (A1 & A2 & A3). split; [|split].
  - intros r E. destruct (rn_add _ _ _ _ _ H _ _ _ E) as (v0 & p & V & Pp & D).
    destruct (rn_mul _ _ _ _ _ H _ _ _ Pp) as (x' & y' & X' & Y' & D').
    rewrite X in X'. injection X' as <-. rewrite Y in Y'. injection Y' as <-.
    apply within_step with (r := v0) (p := p); auto.
  - pose proof (Rabs_triang e (x * y)). lra.
  - intros Fk HO. pose proof (Rabs_pos (x * y)). destruct A3 as [r R]; [eapply fits_mono; [|exact Fk]; lia|lra|].
    destruct (prod_fin a b x y X Y HO) as [p Pp].
    destruct (rn_mul _ _ _ _ _ H _ _ _ Pp) as (x' & y' & X' & Y' & D').
    rewrite X in X'. injection X' as <-. rewrite Y in Y'. injection Y' as <-.
    eapply (rn_add_fin _ _ _ _ _ H); eauto. pose proof (acc_fin r p _ Fk HO R D'). pose proof (Rabs_triang r p). lra.
Qed.

Lemma acc_submul a b x y : phi a = Some x -> phi b = Some y -> acc (fsub v (fmul a b)) (S k) (e - x * y) (M + Rabs (x * y)).
Proof.
  intros X Y. pose proof (rn_u _ _ _ _ _ H) as U. pose proof (rn_eta _ _ _ _ _ H) as E0.
  destruct A as (A1 & A2 & A3). rewrite <- (Rabs_Ropp (x * y)). split; [|split].
  - intros r E. destruct (rn_sub _ _ _ _ _ H _ _ _ E) as (v0 & p & V & Pp & D).
    destruct (rn_mul _ _ _ _ _ H _ _ _ Pp) as (x' & y' & X' & Y' & D').
    rewrite X in X'. injection X' as <-. rewrite Y in Y'. injection Y' as <-.
    apply within_step with (r := v0) (p := - p); auto.
    + replace (- p - - (x * y)) with (- (p - x * y)) by lra. rewrite !Rabs_Ropp. auto.
  - pose proof (Rabs_triang e (- (x * y))). unfold Rminus. lra.
  - intros Fk HO. rewrite Rabs_Ropp in HO. pose proof (Rabs_pos (x * y)). destruct A3 as [r R]; [eapply fits_mono; [|exact Fk]; lia|lra|].
    destruct (prod_fin a b x y X Y HO) as [p Pp].
    destruct (rn_mul _ _ _ _ _ H _ _ _ Pp) as (x' & y' & X' & Y' & D').
    rewrite X in X'. injection X' as <-. rewrite Y in Y'. injection Y' as <-.
    eapply (rn_sub_fin _ _ _ _ _ H); eauto. pose proof (acc_fin r p _ Fk HO R D').
    pose proof (Rabs_triang r (- p)). rewrite Rabs_Ropp in *. unfold Rminus. lra.
Qed.
End Step.

(* ------------------------------------------------------------ the loops *)

Lemma for_pres {T : Type} (Inv : nat -> T -> Prop) lo hi body (s s' : T) : (lo <= hi)%nat ->
  for_ lo hi body s = Some s' -> Inv lo s ->
  (forall i s s1, (lo <= i < hi)%nat -> Inv i s -> body i s = Some s1 -> Inv (S i) s1) -> Inv hi s'.
Proof.
  intros L E H0 Hs. unfold for_ in E. replace hi with (lo + (hi - lo))%nat by lia.
  eapply for_loop_pres; eauto. intros; eapply Hs; eauto; lia.
Qed.

(* the first n entries of a stand for e, M with counts k *)
Definition accs (a : arr F) (n : nat) (k : nat -> nat) (e M : nat -> R) : Prop :=
  forall i v, (i < n)%nat -> get a i = Some v -> acc v (k i) (e i) (M i).

Lemma eddot_acc n x y xf yf d : holds phi x n xf -> holds phi y n yf -> eddot n x y = Some d ->
  acc d n (dotp n xf yf) (Rsum n (fun i => Rabs (xf i * yf i))).
Proof.
  intros X Y E. unfold eddot in E.
  apply (for_pres (fun q z => acc z q (dotp q xf yf) (Rsum q (fun i => Rabs (xf i * yf i)))) 0 n _ _ _ ltac:(lia) E).
  - unfold dotp; simpl. apply acc_0.
  - intros i s s1 Hi I B. binv B. injection B as <-.
    destruct (X i ltac:(lia)) as (a & Ga & Pa). destruct (Y i ltac:(lia)) as (b & Gb & Pb).
    rewrite E0 in Ga. injection Ga as <-. rewrite E1 in Gb. injection Gb as <-.
    unfold dotp. simpl. apply acc_addmul; auto.
Qed.

Lemma vsubscale_acc n a x y y' al xf k e M : phi a = Some al -> holds phi x n xf -> accs y n k e M ->
  vsubscale n a x y = Some y' -> length y' = length y /\
  accs y' n (fun i => S (k i)) (fun i => e i - al * xf i) (fun i => M i + Rabs (al * xf i)).
Proof.
  intros Pa X Y E. unfold vsubscale in E.
  set (Inv := fun q (z : arr F) => length z = length y /\ forall i v, (i < n)%nat -> get z i = Some v ->
     if (i <? q)%nat then acc v (S (k i)) (e i - al * xf i) (M i + Rabs (al * xf i)) else acc v (k i) (e i) (M i)).
  assert (I: Inv n y').
  { apply (for_pres Inv 0 n _ _ _ ltac:(lia) E).
    - split; [auto|]. intros i v Hi G. simpl. apply Y; auto.
    - intros q s s1 Hq [L I] B. binv B. apply set_inv in B as (B1 & B2 & B3). split; [congruence|].
      intros i v' Hi G. rewrite B3 in G. destruct (Nat.eqb_spec i q) as [->|N].
      + injection G as <-. specialize (I q _ Hi E0). rewrite Nat.ltb_irrefl in I.
        destruct (Nat.ltb_spec q (S q)); [|lia].
        destruct (X q Hi) as (b & Gb & Pb). rewrite E1 in Gb. injection Gb as <-. apply acc_submul; auto.
      + specialize (I i _ Hi G). destruct (Nat.ltb_spec i q), (Nat.ltb_spec i (S q)); auto; lia. }
  destruct I as [L I]. split; auto. intros i v Hi G. specialize (I i v Hi G). destruct (Nat.ltb_spec i n); auto; lia.
Qed.

Lemma vadd_acc n x y y' xf k e M : holds phi x n xf -> accs y n k e M ->
  vadd n x y = Some y' -> length y' = length y /\
  accs y' n (fun i => S (k i)) (fun i => e i + xf i) (fun i => M i + Rabs (xf i)).
Proof.
  intros X Y E. unfold vadd in E.
  set (Inv := fun q (z : arr F) => length z = length y /\ forall i v, (i < n)%nat -> get z i = Some v ->
     if (i <? q)%nat then acc v (S (k i)) (e i + xf i) (M i + Rabs (xf i)) else acc v (k i) (e i) (M i)).
  assert (I: Inv n y').
  { apply (for_pres Inv 0 n _ _ _ ltac:(lia) E).
    - split; [auto|]. intros i v Hi G. simpl. apply Y; auto.
    - intros q s s1 Hq [L I] B. binv B. apply set_inv in B as (B1 & B2 & B3). split; [congruence|].
      intros i v' Hi G. rewrite B3 in G. destruct (Nat.eqb_spec i q) as [->|N].
      + injection G as <-. specialize (I q _ Hi E0). rewrite Nat.ltb_irrefl in I.
        destruct (Nat.ltb_spec q (S q)); [|lia].
        destruct (X q Hi) as (b & Gb & Pb). rewrite E1 in Gb. injection Gb as <-. apply acc_plus; auto.
      + specialize (I i _ Hi G). destruct (Nat.ltb_spec i q), (Nat.ltb_spec i (S q)); auto; lia. }
  destruct I as [L I]. split; auto. intros i v Hi G. specialize (I i v Hi G). destruct (Nat.ltb_spec i n); auto; lia.
Qed.

Lemma zero_acc m y y' : for_ 0 m (fun i y => set y i f0) y = Some y' ->
  length y' = length y /\ accs y' m (fun _ => 0%nat) (fun _ => 0) (fun _ => 0).
Proof.
  intros E.
  set (Inv := fun q (z : arr F) => length z = length y /\ forall i v, (i < q)%nat -> get z i = Some v -> v = f0).
  assert (I: Inv m y').
  { apply (for_pres Inv 0%nat m _ _ _ ltac:(lia) E).
    - split; auto. intros; lia.
    - intros q s s1 Hq [L I] B. apply set_inv in B as (B1 & B2 & B3). split; [congruence|].
      intros i v' Hi G. rewrite B3 in G. destruct (Nat.eqb_spec i q) as [->|N]; [congruence|]. apply (I i); auto; lia. }
  destruct I as [L I]. split; auto. intros i v Hi G. rewrite (I i v Hi G). apply acc_0.
Qed.


(* ------------------------------------------------------------ the products *)
Definition absmat (B : spmat R) : spmat R :=
  mkSp (sp_jc B) (sp_ir B) (map (option_map Rabs) (sp_pr B)) (sp_n B) (sp_m B) (sp_nnz B).

Lemma gd_map f (a : arr R) i : f 0 = 0 -> gd 0 (map (option_map f) a) i = f (gd 0 a i).
Proof.
  intros F0. unfold gd, get. rewrite nth_error_map. destruct (nth_error a i) as [[v|]|]; simpl; auto.
Qed.

Lemma absdense_mat B i j : absdense B i j = dense (absmat B) i j.
Proof.
  unfold absdense, dense, absmat; simpl. apply Rsumr_ext. intros k _. rewrite gd_map by apply Rabs_R0. auto.
Qed.

Lemma wf_absmat B : wf_sp B -> wf_sp (absmat B).
Proof.
  intros W. destruct W. constructor; simpl; auto. intros k Hk. destruct (wf_pr k Hk) as [v V].
  exists (Rabs v). unfold get in *. rewrite nth_error_map. destruct (nth_error (sp_pr B) k) as [[w|]|]; simpl in *; congruence.
Qed.

Lemma col_loop_inv {T : Type} (A : spmat F) (B : spmat R) j body (s s' : T) (Inv : nat -> T -> Prop) :
  holds_mat phi A B -> wf_sp B -> (j < sp_n B)%nat -> col_loop A j body s = Some s' ->
  Inv (gd 0%nat (sp_jc B) j) s ->
  (forall k s s1, in_col B j k -> Inv k s -> body k s = Some s1 -> Inv (S k) s1) -> Inv (gd 0%nat (sp_jc B) (j + 1)) s'.
Proof.
  intros HM W Hj E I0 St. unfold col_loop in E. rewrite (hm_jc _ _ _ HM) in E.
  rewrite (wf_jc B W j) in E by lia. cbn in E. rewrite (wf_jc B W (j + 1)%nat) in E by lia. cbn in E.
  apply (for_pres Inv _ _ _ _ _ (wf_mono B W j Hj) E I0).
  intros k t t1 Hk I B1. apply St with (s := t); auto. split; auto.
Qed.

(* what the loops read of A *)
Lemma read_mat (A : spmat F) B k r v : holds_mat phi A B -> wf_sp B -> (k < sp_nnz B)%nat ->
  get (sp_ir A) k = Some r -> get (sp_pr A) k = Some v ->
  r = gd 0%nat (sp_ir B) k /\ (r < sp_m B)%nat /\ phi v = Some (gd 0 (sp_pr B) k).
Proof.
  intros HM W Hk R V. rewrite (hm_ir _ _ _ HM), (wf_ir B W k Hk) in R. injection R as <-.
  destruct (hm_pr _ _ _ HM k Hk) as (v' & V' & P). rewrite V in V'. injection V' as <-.
  split; auto. split; auto. apply (wf_row B W k Hk).
Qed.

Lemma filter_seq_S f q : length (filter f (seq 0 (S q))) = (length (filter f (seq 0 q)) + (if f q then 1 else 0))%nat.
Proof. rewrite seq_S, filter_app, app_length. simpl. destruct (f q); simpl; lia. Qed.

Lemma rowcnt_S B q i : rowcnt B (S q) i = (rowcnt B q i + (if Nat.eqb (gd 0%nat (sp_ir B) q) i then 1 else 0))%nat.
Proof. unfold rowcnt. apply (filter_seq_S (fun k => Nat.eqb (gd 0%nat (sp_ir B) k) i)). Qed.

Lemma zero_mode_acc m nv y y1 k e M : ((nv <= 0)%Z -> accs y m k e M) ->
  (if (nv >? 0)%Z then for_ 0 m (fun i y => set y i f0) y else Some y) = Some y1 ->
  length y1 = length y /\
  accs y1 m (fun i => if (nv >? 0)%Z then 0%nat else k i) (fun i => if (nv >? 0)%Z then 0 else e i) (fun i => if (nv >? 0)%Z then 0 else M i).
Proof.
  intros Y E. rewrite Z.gtb_ltb in *. destruct (Z.ltb_spec 0 nv).
  - apply zero_acc; auto.
  - injection E as <-. split; auto.
Qed.

Lemma sparseMtVm_acc (A : spmat F) (B : spmat R) x y y' xf nv k e M : holds_mat phi A B -> wf_sp B ->
  holds phi x (sp_m B) xf -> ((nv <= 0)%Z -> accs y (sp_n B) k e M) ->
  sparseMtVm A x y nv false = Some y' -> length y' = length y /\
  accs y' (sp_n B) (fun j => (if (nv >? 0)%Z then 0 else k j) + collen B j)%nat
    (fun j => (if (nv >? 0)%Z then 0 else e j) - mulvT (sp_m B) (dense B) xf j)
    (fun j => (if (nv >? 0)%Z then 0 else M j) + mulvT (sp_m B) (absdense B) (vabs xf) j).
Proof.
  intros HM W X Y E. unfold sparseMtVm in E. rewrite (hm_n _ _ _ HM), (hm_nnz _ _ _ HM) in E. bd E as y1 E1.
  destruct (zero_mode_acc _ _ _ _ k e M Y E1) as [L1 Y1]. clear E1 Y.
  set (k0 := fun j => if (nv >? 0)%Z then 0%nat else k j) in *.
  set (e0 := fun j => if (nv >? 0)%Z then 0 else e j) in *.
  set (M0 := fun j => if (nv >? 0)%Z then 0 else M j) in *.
  change (length y' = length y /\ accs y' (sp_n B) (fun j => k0 j + collen B j)%nat
    (fun j => e0 j - mulvT (sp_m B) (dense B) xf j) (fun j => M0 j + mulvT (sp_m B) (absdense B) (vabs xf) j)).
  clearbody k0 e0 M0.
  assert (ET: forall j, (j < sp_n B)%nat -> mulvT (sp_m B) (dense B) xf j =
     Rsumr (gd 0%nat (sp_jc B) j) (gd 0%nat (sp_jc B) (j + 1)) (fun q => gd 0 (sp_pr B) q * xf (gd 0%nat (sp_ir B) q))).
  { intros j Hj. symmetry. apply (mulvT_entries B xf j (fun _ => true) W Hj). }
  assert (AT: forall j, (j < sp_n B)%nat -> mulvT (sp_m B) (absdense B) (vabs xf) j =
     Rsumr (gd 0%nat (sp_jc B) j) (gd 0%nat (sp_jc B) (j + 1)) (fun q => Rabs (gd 0 (sp_pr B) q * xf (gd 0%nat (sp_ir B) q)))).
  { intros j Hj. transitivity (mulvT (sp_m B) (dense (absmat B)) (vabs xf) j).
    - unfold mulvT. apply Rsum_ext. intros. rewrite absdense_mat. auto.
    - etransitivity; [symmetry; exact (mulvT_entries (absmat B) (vabs xf) j (fun _ => true) (wf_absmat B W) Hj)|]. simpl.
      apply Rsumr_ext. intros q _. rewrite gd_map by apply Rabs_R0. unfold vabs. rewrite Rabs_mult. auto. }
  assert (Hend: length y' = length y1 /\ forall j v, (j < sp_n B)%nat -> get y' j = Some v -> acc v (k0 j + collen B j)
     (e0 j - Rsumr (gd 0%nat (sp_jc B) j) (gd 0%nat (sp_jc B) (j + 1)) (fun q => gd 0 (sp_pr B) q * xf (gd 0%nat (sp_ir B) q)))
     (M0 j + Rsumr (gd 0%nat (sp_jc B) j) (gd 0%nat (sp_jc B) (j + 1)) (fun q => Rabs (gd 0 (sp_pr B) q * xf (gd 0%nat (sp_ir B) q))))).
  2:{ destruct Hend as [L2 Hend]. split; [congruence|]. intros j v Hj G. specialize (Hend j v Hj G). cbv beta.
      rewrite (ET j Hj), (AT j Hj). auto. }
  clear ET AT. destruct (Nat.eqb_spec (sp_nnz B) 0) as [Z|Z].
  - injection E as <-. split; auto. intros j v Hj G. pose proof (jc_le_nnz B W (j + 1) ltac:(lia)).
    rewrite !Rsumr_nil by lia. unfold collen. replace (gd 0%nat (sp_jc B) (j + 1)) with 0%nat by lia.
    rewrite Rminus_0_r. apply acc_mono with (k := k0 j) (M := M0 j); [lia|lra|apply Y1; auto].
  - set (Inv := fun c (z : arr F) => length z = length y1 /\ forall j v, (j < sp_n B)%nat -> get z j = Some v ->
      if (j <? c)%nat then acc v (k0 j + collen B j)
     (e0 j - Rsumr (gd 0%nat (sp_jc B) j) (gd 0%nat (sp_jc B) (j + 1)) (fun q => gd 0 (sp_pr B) q * xf (gd 0%nat (sp_ir B) q)))
     (M0 j + Rsumr (gd 0%nat (sp_jc B) j) (gd 0%nat (sp_jc B) (j + 1)) (fun q => Rabs (gd 0 (sp_pr B) q * xf (gd 0%nat (sp_ir B) q))))
      else acc v (k0 j) (e0 j) (M0 j)).
    assert (I: Inv (sp_n B) y').
    { apply (for_pres Inv 0 (sp_n B) _ _ _ ltac:(lia) E).
      - split; [auto|]. intros j v Hj G. simpl. apply Y1; auto.
      - intros c s s1 Hc [L I] Bd.
        set (J := fun q (z : arr F) => length z = length y1 /\ forall j v, (j < sp_n B)%nat -> get z j = Some v ->
          if (j =? c)%nat then acc v (k0 j + (q - gd 0%nat (sp_jc B) c))
            (e0 j - Rsumr (gd 0%nat (sp_jc B) j) q (fun q => gd 0 (sp_pr B) q * xf (gd 0%nat (sp_ir B) q)))
            (M0 j + Rsumr (gd 0%nat (sp_jc B) j) q (fun q => Rabs (gd 0 (sp_pr B) q * xf (gd 0%nat (sp_ir B) q))))
          else get s j = Some v).
        assert (J1: J (gd 0%nat (sp_jc B) (c + 1)) s1).
        { apply (col_loop_inv A B c _ _ _ J HM W ltac:(lia) Bd).
          - split; auto. intros j v Hj G. destruct (Nat.eqb_spec j c) as [->|N]; auto.
            specialize (I c v Hj G). rewrite Nat.ltb_irrefl in I. rewrite !Rsumr_nil by lia.
            rewrite Rminus_0_r. apply acc_mono with (k := k0 c) (M := M0 c); [lia|lra|auto].
          - intros q t t1 Hq [Lt It] Bq. binv Bq. apply set_inv in Bq as (B1 & B2 & B3). split; [congruence|].
            destruct (read_mat A B q _ _ HM W (in_col_nnz B c q W Hq) E1 E0) as (-> & Hr & Pv).
            destruct (X _ Hr) as (xv & Gx & Px). rewrite E2 in Gx. injection Gx as <-.
            intros j v' Hj G. rewrite B3 in G. destruct Hq as [_ Hq]. destruct (Nat.eqb_spec j c) as [->|N].
            + injection G as <-. specialize (It c _ Hj E3). rewrite Nat.eqb_refl in It.
              pose proof (acc_submul _ _ _ _ It _ _ _ _ Pv Px) as Q. rewrite !Rsumr_S by lia.
              replace (k0 c + (S q - gd 0%nat (sp_jc B) c))%nat with (S (k0 c + (q - gd 0%nat (sp_jc B) c))) by lia.
              eapply acc_ext; [| |exact Q]; ring.
            + specialize (It j _ Hj G). destruct (Nat.eqb_spec j c); [lia|auto]. }
        destruct J1 as [L1' J1]. split; auto. intros j v Hj G. specialize (J1 j v Hj G).
        destruct (Nat.eqb_spec j c) as [->|N].
        + destruct (Nat.ltb_spec c (S c)); [|lia]. exact J1.
        + specialize (I j v Hj J1). destruct (Nat.ltb_spec j c), (Nat.ltb_spec j (S c)); auto; lia. }
    destruct I as [L I]. split; auto. intros j v Hj G. specialize (I j v Hj G). destruct (Nat.ltb_spec j (sp_n B)); auto; lia.
Qed.

Lemma rowcnt_nnz0 B i : sp_nnz B = 0%nat -> rowlen B i = 0%nat.
Proof. intros E. unfold rowlen. rewrite E. reflexivity. Qed.

(* the only use: a new vector, positive sign *)
Lemma sparseMV_acc (A : spmat F) (B : spmat R) x y y' xf : holds_mat phi A B -> wf_sp B ->
  holds phi x (sp_n B) xf -> sparseMV A x y 1 1 = Some y' -> length y' = length y /\
  accs y' (sp_m B) (rowlen B) (mulv (sp_n B) (dense B) xf) (mulv (sp_n B) (absdense B) (vabs xf)).
Proof.
  intros HM W X E. unfold sparseMV in E. rewrite (hm_n _ _ _ HM), (hm_m _ _ _ HM), (hm_nnz _ _ _ HM) in E. bd E as y1 E1.
  assert (Hf: (1 <= 0)%Z -> accs y (sp_m B) (fun _ => 0%nat) (fun _ => 0) (fun _ => 0)) by lia.
  destruct (zero_mode_acc _ _ _ _ (fun _ => 0%nat) (fun _ => 0) (fun _ => 0) Hf E1) as [L1 Y1]. clear E1 Hf. cbn in Y1.
  change (1 >? 0)%Z with true in E. cbv iota in E.
  destruct (Nat.eqb_spec (sp_nnz B) 0) as [Z|Z].
  - injection E as <-. split; auto. intros i v Hi G. rewrite rowcnt_nnz0, mulv_nnz0 by auto.
    replace (mulv (sp_n B) (absdense B) (vabs xf) i) with 0; [apply (Y1 i v Hi G)|].
    symmetry. transitivity (mulv (sp_n B) (dense (absmat B)) (vabs xf) i).
    + unfold mulv. apply Rsum_ext. intros. rewrite absdense_mat. auto.
    + apply (mulv_nnz0 (absmat B)); auto. apply wf_absmat; auto.
  - set (Inv := fun c (z : arr F) => length z = length y1 /\ forall i v, (i < sp_m B)%nat -> get z i = Some v ->
      acc v (rowcnt B (gd 0%nat (sp_jc B) c) i) (mulv c (dense B) xf i) (mulv c (absdense B) (vabs xf) i)).
    assert (I: Inv (sp_n B) y').
    { apply (for_pres Inv 0%nat (sp_n B) _ _ _ ltac:(lia) E).
      - split; auto. intros i v Hi G. rewrite (wf_jc0 B W). unfold mulv; simpl. apply (Y1 i v Hi G).
      - intros c s s1 Hc [L I] Bd.
        set (J := fun q (z : arr F) => length z = length y1 /\ forall i v, (i < sp_m B)%nat -> get z i = Some v ->
          acc v (rowcnt B q i)
            (mulv c (dense B) xf i + Rsumr (gd 0%nat (sp_jc B) c) q (fun q => if Nat.eqb (gd 0%nat (sp_ir B) q) i then gd 0 (sp_pr B) q * xf c else 0))
            (mulv c (absdense B) (vabs xf) i + Rsumr (gd 0%nat (sp_jc B) c) q (fun q => if Nat.eqb (gd 0%nat (sp_ir B) q) i then Rabs (gd 0 (sp_pr B) q * xf c) else 0))).
        assert (J1: J (gd 0%nat (sp_jc B) (c + 1)) s1).
        { apply (col_loop_inv A B c _ _ _ J HM W ltac:(lia) Bd).
          - split; auto. intros i v Hi G. rewrite !Rsumr_nil by lia. rewrite !Rplus_0_r. apply I; auto.
          - intros q t t1 Hq [Lt It] Bq. binv Bq. apply set_inv in Bq as (B1 & B2 & B3). split; [congruence|].
            destruct (read_mat A B q _ _ HM W (in_col_nnz B c q W Hq) E0 E1) as (-> & Hr & Pv).
            destruct (X c ltac:(lia)) as (xv & Gx & Px). rewrite E2 in Gx. injection Gx as <-.
            intros i v' Hi G. rewrite B3 in G. destruct Hq as [_ Hq]. rewrite rowcnt_S, !Rsumr_S by lia.
            rewrite (Nat.eqb_sym (gd 0%nat (sp_ir B) q)).
            destruct (Nat.eqb_spec i (gd 0%nat (sp_ir B) q)) as [->|N].
            + injection G as <-. specialize (It _ _ Hi E3).
              pose proof (acc_addmul _ _ _ _ It _ _ _ _ Pv Px) as Q.
              rewrite Nat.add_1_r. eapply acc_ext; [| |exact Q]; ring.
            + specialize (It i _ Hi G). rewrite Nat.add_0_r, !Rplus_0_r. auto. }
        destruct J1 as [L1' J1]. split; auto. intros i v Hi G. specialize (J1 i v Hi G). rewrite Nat.add_1_r in J1.
        eapply acc_ext; [| |exact J1]; unfold mulv; cbn [Rsum].
        + rewrite dense_mul. rewrite Nat.add_1_r. auto.
        + rewrite absdense_mat, dense_mul. simpl. rewrite Nat.add_1_r. f_equal. apply Rsumr_ext. intros q _.
          destruct (Nat.eqb _ _); auto. rewrite gd_map by apply Rabs_R0. unfold vabs. apply Rabs_mult. }
    destruct I as [L I]. split; [congruence|]. intros i v Hi G. specialize (I i v Hi G). rewrite (wf_nnz B W) in I. exact I.
Qed.
End Acc.
