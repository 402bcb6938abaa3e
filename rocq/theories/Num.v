(* The floating-point interface of the model, and its three readings:
   arbitrary, exact reals, IEEE binary64.

   include/glblopts.h: typedef double pfloat.  All numeric code of the model
   is written over [Ops]. *)
From Coq Require Import Reals Lra ZArith QArith Qreals Bool List Lia.
From Coq Require Import Floats.SpecFloat.

Class Ops := {
  F : Type;
  fconst : Q -> F;           (* decimal literals *)
  fadd : F -> F -> F;
  fsub : F -> F -> F;
  fmul : F -> F -> F;
  fdiv : F -> F -> F;
  fneg : F -> F;
  fsqrt : F -> F;
  fabs : F -> F;
  fexp : F -> F;
  flog : F -> F;
  flt : F -> F -> bool;      (* C's < on doubles *)
  fle : F -> F -> bool;      (* C's <= *)
  feq : F -> F -> bool;      (* C's == *)
  fisnan : F -> bool;
  finf : F;                  (* ECOS_INFINITY *)
  fnan : F                   (* ECOS_NAN *)
}.

Declare Scope fl_scope.
Delimit Scope fl_scope with fl.
Infix "+" := fadd : fl_scope.
Infix "-" := fsub : fl_scope.
Infix "*" := fmul : fl_scope.
Infix "/" := fdiv : fl_scope.
Notation "- x" := (fneg x) : fl_scope.
Notation "x <? y" := (flt x y) : fl_scope.
Notation "x <=? y" := (fle x y) : fl_scope.
Notation "x >? y" := (flt y x) : fl_scope.
Notation "x >=? y" := (fle y x) : fl_scope.
Notation "x ==? y" := (feq x y) (at level 70) : fl_scope.

Definition f0 `{Ops} : F := fconst 0.
Definition f1 `{Ops} : F := fconst 1.
Definition f2 `{Ops} : F := fconst 2.
Definition fofZ `{Ops} (z : Z) : F := fconst (inject_Z z).
Definition fofn `{Ops} (n : nat) : F := fofZ (Z.of_nat n).

Arguments f0 {_} : simpl never.
Arguments f1 {_} : simpl never.
Arguments f2 {_} : simpl never.
Arguments fofZ {_} _ : simpl never.
Arguments fofn {_} _ : simpl never.

(* include/ecos.h:253  #define MAX(X,Y)  ((X) < (Y) ? (Y) : (X)) *)
Definition fmax `{Ops} (x y : F) : F := if flt x y then y else x.

(* ------------------------------------------------------------ exact reals *)

Definition Rltb (x y : R) : bool := if Rlt_dec x y then true else false.
Definition Rleb (x y : R) : bool := if Rle_dec x y then true else false.
Definition Reqb (x y : R) : bool := if Req_EM_T x y then true else false.

Lemma Rltb_spec x y : reflect (x < y)%R (Rltb x y).
Proof. unfold Rltb; destruct (Rlt_dec x y); constructor; auto. Qed.
Lemma Rleb_spec x y : reflect (x <= y)%R (Rleb x y).
Proof. unfold Rleb; destruct (Rle_dec x y); constructor; auto. Qed.
Lemma Reqb_spec x y : reflect (x = y)%R (Reqb x y).
Proof. unfold Reqb; destruct (Req_EM_T x y); constructor; auto. Qed.

(* [finf] and [fnan] have no counterpart among the reals; the real-number
   theorems never depend on their value. *)
Definition ROps : Ops := {|
  F := R;
  fconst := Q2R;
  fadd := Rplus; fsub := Rminus; fmul := Rmult; fdiv := Rdiv;
  fneg := Ropp; fsqrt := sqrt; fabs := Rabs; fexp := exp; flog := ln;
  flt := Rltb; fle := Rleb; feq := Reqb;
  fisnan := fun _ => false;
  finf := 0%R; fnan := 0%R
|}.

Lemma f0_R : @f0 ROps = 0%R.
Proof. unfold f0; simpl. unfold Q2R; simpl. lra. Qed.
Lemma f1_R : @f1 ROps = 1%R.
Proof. unfold f1; simpl. unfold Q2R; simpl. lra. Qed.
Lemma f2_R : @f2 ROps = 2%R.
Proof. unfold f2; simpl. unfold Q2R; simpl. lra. Qed.
Lemma fofZ_R z : @fofZ ROps z = IZR z.
Proof. unfold fofZ; simpl. unfold Q2R; simpl. lra. Qed.
Lemma fofn_R n : @fofn ROps n = INR n.
Proof. unfold fofn. rewrite fofZ_R. symmetry. apply INR_IZR_INZ. Qed.

(* ---------------------------------------------------------- IEEE binary64 *)

Definition bprec : Z := 53.
Definition bemax : Z := 1024.

Definition SF_ofZ (z : Z) : spec_float :=
  binary_normalize bprec bemax z 0 false.
Definition SF_ofQ (q : Q) : spec_float :=
  if (Zpos (Qden q) =? 1)%Z then SF_ofZ (Qnum q)
  else SFdiv bprec bemax (SF_ofZ (Qnum q)) (SF_ofZ (Zpos (Qden q))).

(* exp and log of the C library are not modelled in binary64: [FOps] maps them
   to NaN and no theorem evaluates them. *)
Definition FOps : Ops := {|
  F := spec_float;
  fconst := SF_ofQ;
  fadd := SFadd bprec bemax; fsub := SFsub bprec bemax;
  fmul := SFmul bprec bemax; fdiv := SFdiv bprec bemax;
  fneg := SFopp; fsqrt := SFsqrt bprec bemax; fabs := SFabs;
  fexp := fun _ => S754_nan; flog := fun _ => S754_nan;
  flt := SFltb; fle := SFleb; feq := SFeqb;
  fisnan := fun x => match x with S754_nan => true | _ => false end;
  finf := S754_infinity false; fnan := S754_nan
|}.

Ltac unR :=
  cbn [F fconst fadd fsub fmul fdiv fneg fsqrt fabs fexp flog flt fle feq fisnan finf fnan ROps] in *;
  rewrite ?f0_R, ?f1_R, ?f2_R, ?fofZ_R, ?fofn_R in *.

(* ------------------------------------------------------------ real sums *)

Open Scope R_scope.

Fixpoint Rsum (n : nat) (f : nat -> R) : R :=
  match n with O => 0 | S k => Rsum k f + f k end.

(* sum over lo <= k < hi *)
Definition Rsumr (lo hi : nat) (f : nat -> R) : R := Rsum (hi - lo) (fun k => f (lo + k)%nat).

Lemma Rsum_ext n f g : (forall i, (i < n)%nat -> f i = g i) -> Rsum n f = Rsum n g.
Proof.
  induction n as [|n IH]; intros H; simpl; auto.
  rewrite IH, H by (try intros; try apply H; lia). auto.
Qed.

Lemma Rsum_0 n f : (forall i, (i < n)%nat -> f i = 0) -> Rsum n f = 0.
Proof.
  induction n as [|n IH]; intros H; simpl; auto.
  rewrite IH, H by (try intros; try apply H; lia). lra.
Qed.

Lemma Rsum_plus n f g : Rsum n (fun i => f i + g i) = Rsum n f + Rsum n g.
Proof. induction n as [|n IH]; simpl; [lra|rewrite IH; lra]. Qed.

Lemma Rsum_minus n f g : Rsum n (fun i => f i - g i) = Rsum n f - Rsum n g.
Proof. induction n as [|n IH]; simpl; [lra|rewrite IH; lra]. Qed.

Lemma Rsum_opp n f : Rsum n (fun i => - f i) = - Rsum n f.
Proof. induction n as [|n IH]; simpl; [lra|rewrite IH; lra]. Qed.

Lemma Rsum_scal n c f : Rsum n (fun i => c * f i) = c * Rsum n f.
Proof. induction n as [|n IH]; simpl; [lra|rewrite IH; lra]. Qed.

Lemma Rsum_scal_r n c f : Rsum n (fun i => f i * c) = Rsum n f * c.
Proof. induction n as [|n IH]; simpl; [lra|rewrite IH; lra]. Qed.

Lemma Rsum_swap n m f :
  Rsum n (fun i => Rsum m (fun j => f i j)) = Rsum m (fun j => Rsum n (fun i => f i j)).
Proof.
  induction n as [|n IH]; simpl.
  - symmetry; apply Rsum_0; auto.
  - rewrite IH, <- Rsum_plus. auto.
Qed.

Lemma Rsum_split n m f : Rsum (n + m) f = Rsum n f + Rsum m (fun k => f (n + k)%nat).
Proof.
  induction m as [|m IH]; simpl.
  - rewrite Nat.add_0_r; lra.
  - rewrite Nat.add_succ_r; simpl. rewrite IH. lra.
Qed.

Lemma Rsum_S_l n f : Rsum (S n) f = f O + Rsum n (fun k => f (S k)).
Proof.
  replace (S n) with (1 + n)%nat by lia. rewrite Rsum_split. simpl. lra.
Qed.

Lemma Rsum_delta n j f :
  Rsum n (fun i => if Nat.eqb i j then f i else 0) = if Nat.ltb j n then f j else 0.
Proof.
  induction n as [|n IH]; simpl; auto.
  rewrite IH. destruct (Nat.eqb_spec n j), (Nat.ltb_spec j n), (Nat.ltb_spec j (S n)); subst; try lia; lra.
Qed.

Lemma Rsum_nonneg n f : (forall i, (i < n)%nat -> 0 <= f i) -> 0 <= Rsum n f.
Proof.
  induction n as [|n IH]; intros H; simpl; [lra|].
  assert (0 <= Rsum n f) by (apply IH; intros; apply H; lia).
  assert (0 <= f n) by (apply H; lia). lra.
Qed.

Lemma Rsum_le n f g : (forall i, (i < n)%nat -> f i <= g i) -> Rsum n f <= Rsum n g.
Proof.
  induction n as [|n IH]; intros H; simpl; [lra|].
  assert (Rsum n f <= Rsum n g) by (apply IH; intros; apply H; lia).
  assert (f n <= g n) by (apply H; lia). lra.
Qed.

Lemma Rsum_ge_term n f i :
  (forall i, (i < n)%nat -> 0 <= f i) -> (i < n)%nat -> f i <= Rsum n f.
Proof.
  induction n as [|n IH]; intros H Hi; [lia|]. simpl.
  assert (0 <= Rsum n f) by (apply Rsum_nonneg; intros; apply H; lia).
  assert (0 <= f n) by (apply H; lia).
  destruct (Nat.eq_dec i n) as [->|]; [lra|].
  assert (f i <= Rsum n f) by (apply IH; [intros; apply H|]; lia). lra.
Qed.

Lemma Rsum_sq_nonneg n f : 0 <= Rsum n (fun i => f i * f i).
Proof. apply Rsum_nonneg; intros. apply Rle_0_sqr. Qed.

Lemma Rsumr_nil lo hi f : (hi <= lo)%nat -> Rsumr lo hi f = 0.
Proof. intros. unfold Rsumr. replace (hi - lo)%nat with O by lia. reflexivity. Qed.

Lemma Rsumr_S lo hi f : (lo <= hi)%nat -> Rsumr lo (S hi) f = Rsumr lo hi f + f hi.
Proof.
  intros. unfold Rsumr. replace (S hi - lo)%nat with (S (hi - lo)) by lia. simpl.
  replace (lo + (hi - lo))%nat with hi by lia. lra.
Qed.

Lemma Rsumr_ext lo hi f g :
  (forall i, (lo <= i < hi)%nat -> f i = g i) -> Rsumr lo hi f = Rsumr lo hi g.
Proof. intros. unfold Rsumr. apply Rsum_ext. intros; apply H; lia. Qed.

Lemma Rsumr_0 lo hi f :
  (forall i, (lo <= i < hi)%nat -> f i = 0) -> Rsumr lo hi f = 0.
Proof. intros. unfold Rsumr. apply Rsum_0. intros; apply H; lia. Qed.

Lemma Rsumr_split lo mid hi f : (lo <= mid <= hi)%nat ->
  Rsumr lo hi f = Rsumr lo mid f + Rsumr mid hi f.
Proof.
  intros. unfold Rsumr. replace (hi - lo)%nat with ((mid - lo) + (hi - mid))%nat by lia.
  rewrite Rsum_split. f_equal. apply Rsum_ext; intros. f_equal; lia.
Qed.

Lemma Rsumr_Sl lo hi f : (lo < hi)%nat -> Rsumr lo hi f = f lo + Rsumr (S lo) hi f.
Proof.
  intros. rewrite (Rsumr_split lo (S lo) hi) by lia.
  f_equal. rewrite Rsumr_S by lia. rewrite Rsumr_nil by lia. lra.
Qed.

Lemma Rsumr_plus lo hi f g : Rsumr lo hi (fun i => f i + g i) = Rsumr lo hi f + Rsumr lo hi g.
Proof. unfold Rsumr. apply Rsum_plus. Qed.
Lemma Rsumr_scal lo hi c f : Rsumr lo hi (fun i => c * f i) = c * Rsumr lo hi f.
Proof. unfold Rsumr. apply (Rsum_scal _ c (fun k => f (lo + k)%nat)). Qed.
Lemma Rsumr_scal_r lo hi c f : Rsumr lo hi (fun i => f i * c) = Rsumr lo hi f * c.
Proof. unfold Rsumr. apply (Rsum_scal_r _ c (fun k => f (lo + k)%nat)). Qed.
Lemma Rsumr_opp lo hi f : Rsumr lo hi (fun i => - f i) = - Rsumr lo hi f.
Proof. unfold Rsumr. apply (Rsum_opp _ (fun k => f (lo + k)%nat)). Qed.
Lemma Rsumr_minus lo hi f g : Rsumr lo hi (fun i => f i - g i) = Rsumr lo hi f - Rsumr lo hi g.
Proof. unfold Rsumr. apply (Rsum_minus _ (fun k => f (lo + k)%nat) (fun k => g (lo + k)%nat)). Qed.

Lemma Rsumr_Rsum n f : Rsumr 0 n f = Rsum n f.
Proof. unfold Rsumr. rewrite Nat.sub_0_r. apply Rsum_ext; auto. Qed.

Lemma Rsumr_nonneg lo hi f : (forall i, (lo <= i < hi)%nat -> 0 <= f i) -> 0 <= Rsumr lo hi f.
Proof. intros. unfold Rsumr. apply Rsum_nonneg; intros; apply H; lia. Qed.

Lemma Rsumr_swap_Rsum lo hi n f :
  Rsumr lo hi (fun k => Rsum n (fun i => f k i)) = Rsum n (fun i => Rsumr lo hi (fun k => f k i)).
Proof. unfold Rsumr. apply (Rsum_swap _ n (fun k i => f (lo + k)%nat i)). Qed.

(* Cauchy-Schwarz *)
Lemma Rsum_CS_sq n f g :
  Rsum n (fun i => f i * g i) * Rsum n (fun i => f i * g i)
  <= Rsum n (fun i => f i * f i) * Rsum n (fun i => g i * g i).
Proof.
  set (a := Rsum n (fun i => f i * f i)). set (b := Rsum n (fun i => g i * g i)).
  set (c := Rsum n (fun i => f i * g i)).
  assert (Ha : 0 <= a) by apply Rsum_sq_nonneg.
  assert (Hb : 0 <= b) by apply Rsum_sq_nonneg.
  assert (H : forall t u, 0 <= t * t * a + 2 * t * u * c + u * u * b).
  { intros t u.
    replace (t * t * a + 2 * t * u * c + u * u * b)
      with (Rsum n (fun i => (t * f i + u * g i) * (t * f i + u * g i))).
    - apply Rsum_sq_nonneg.
    - unfold a, b, c. rewrite <- !Rsum_scal, <- !Rsum_plus.
      apply Rsum_ext; intros; ring. }
  destruct (Req_dec b 0) as [E|E].
  - assert (c = 0).
    { destruct (Req_dec c 0); auto. exfalso.
      pose proof (H 1 (- (a + 1) / (2 * c))) as K.
      replace (1 * 1 * a + 2 * 1 * (- (a + 1) / (2 * c)) * c + - (a + 1) / (2 * c) * (- (a + 1) / (2 * c)) * b)
        with (-1) in K by (rewrite E; field; lra). lra. }
    rewrite H0, E. lra.
  - pose proof (H b (-c)) as K.
    assert (0 < b) by lra.
    assert (0 <= b * (a * b - c * c)).
    { replace (b * (a * b - c * c)) with (b * b * a + 2 * b * - c * c + - c * - c * b) by ring. auto. }
    assert (0 <= a * b - c * c).
    { apply Rmult_le_reg_l with b; auto. lra. }
    lra.
Qed.

Definition nrm (n : nat) (f : nat -> R) : R := sqrt (Rsum n (fun i => f i * f i)).
Definition dotp (n : nat) (f g : nat -> R) : R := Rsum n (fun i => f i * g i).

Lemma nrm_nonneg n f : 0 <= nrm n f.
Proof. apply sqrt_pos. Qed.

Lemma nrm_sq n f : nrm n f * nrm n f = dotp n f f.
Proof. unfold nrm. apply sqrt_sqrt. apply Rsum_sq_nonneg. Qed.

Lemma CS n f g : Rabs (dotp n f g) <= nrm n f * nrm n g.
Proof.
  apply Rsqr_incr_0_var.
  - rewrite <- Rsqr_abs. unfold Rsqr.
    replace (nrm n f * nrm n g * (nrm n f * nrm n g)) with ((nrm n f * nrm n f) * (nrm n g * nrm n g)) by ring.
    rewrite !nrm_sq. apply Rsum_CS_sq.
  - apply Rmult_le_pos; apply nrm_nonneg.
Qed.

Lemma CS_le n f g : dotp n f g <= nrm n f * nrm n g.
Proof. eapply Rle_trans; [apply Rle_abs|apply CS]. Qed.

Lemma CS_ge n f g : - (nrm n f * nrm n g) <= dotp n f g.
Proof.
  pose proof (CS n f g) as H. unfold Rabs in H. destruct (Rcase_abs (dotp n f g)); lra.
Qed.
