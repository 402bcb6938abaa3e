(* Bounds of polynomials in two variables over a rectangle, by interval arithmetic on
   dyadic numbers and bisection.  The checker is proved sound here and run by the
   kernel. *)
From Coq Require Import List ZArith QArith Qreals Reals Lia Lra Bool.
Open Scope R_scope.

(* polynomials in two variables *)
Inductive ex := EC (q : Q) | EX | EY | EA (a b : ex) | EM (a b : ex) | EN (a : ex).
Fixpoint ev (e : ex) (x y : R) : R :=
  match e with
  | EC q => Q2R q | EX => x | EY => y
  | EA a b => ev a x y + ev b x y | EM a b => ev a x y * ev b x y | EN a => - ev a x y
  end.

(* [lo, hi] * 2^-30 *)
Definition grid : Z := (2 ^ 30)%Z.
Definition iv := (Z * Z)%type.
Definition inI (i : iv) (x : R) : Prop := IZR (fst i) <= x * IZR grid <= IZR (snd i).
Definition zup (a b : Z) : Z := (- ((- a) / b))%Z.
Definition iC (q : Q) : iv := (((Qnum q * grid) / Zpos (Qden q))%Z, zup (Qnum q * grid) (Zpos (Qden q))).
Definition iA (a b : iv) : iv := ((fst a + fst b)%Z, (snd a + snd b)%Z).
Definition iN (a : iv) : iv := ((- snd a)%Z, (- fst a)%Z).
Definition iM (a b : iv) : iv :=
  let p := (fst a * fst b)%Z in let q := (fst a * snd b)%Z in let r := (snd a * fst b)%Z in let s := (snd a * snd b)%Z in
  ((Z.min (Z.min p q) (Z.min r s) / grid)%Z, zup (Z.max (Z.max p q) (Z.max r s)) grid).
Fixpoint ie (e : ex) (x y : iv) : iv :=
  match e with
  | EC q => iC q | EX => x | EY => y
  | EA a b => iA (ie a x y) (ie b x y) | EM a b => iM (ie a x y) (ie b x y) | EN a => iN (ie a x y)
  end.

Lemma gpos : 0 < IZR grid. Proof. apply IZR_lt. reflexivity. Qed.
Lemma zdn_le a b : (0 < b)%Z -> IZR (a / b) * IZR b <= IZR a.
Proof. intros Hb. rewrite <- mult_IZR. apply IZR_le. rewrite Z.mul_comm. apply Z.mul_div_le. exact Hb. Qed.
Lemma zup_ge a b : (0 < b)%Z -> IZR a <= IZR (zup a b) * IZR b.
Proof. intros Hb. unfold zup. pose proof (zdn_le (- a) b Hb) as H. rewrite !opp_IZR in *. lra. Qed.

Lemma iC_ok q : inI (iC q) (Q2R q).
Proof.
  unfold inI, iC, Q2R. cbn [fst snd]. set (n := Qnum q). set (d := Zpos (Qden q)).
  assert (Hd : (0 < d)%Z) by reflexivity. pose proof (IZR_lt _ _ Hd) as Pd.
  pose proof (zdn_le (n * grid) d Hd) as H1. pose proof (zup_ge (n * grid) d Hd) as H2. rewrite mult_IZR in H1, H2.
  change (Qnum q) with n. change (IZR (Z.pos (Qden q))) with (IZR d).
  assert (E : IZR n * / IZR d * IZR grid * IZR d = IZR n * IZR grid) by (field; lra).
  split; apply Rmult_le_reg_r with (IZR d); auto; rewrite E; auto.
Qed.
Lemma iA_ok a b x y : inI a x -> inI b y -> inI (iA a b) (x + y).
Proof. unfold inI, iA. cbn [fst snd]. rewrite !plus_IZR. intros [] []. split; lra. Qed.
Lemma iN_ok a x : inI a x -> inI (iN a) (- x).
Proof. unfold inI, iN. cbn [fst snd]. rewrite !opp_IZR. intros []. split; lra. Qed.

Lemma mul_corner a b c d x y : a <= x <= b -> c <= y <= d ->
  (a * c <= x * y \/ a * d <= x * y \/ b * c <= x * y \/ b * d <= x * y) /\ (x * y <= a * c \/ x * y <= a * d \/ x * y <= b * c \/ x * y <= b * d).
Proof.
  intros [Ha Hb] [Hc Hd]. split.
  - destruct (Rle_dec 0 x).
    + destruct (Rle_dec 0 c); [left|right; right; left]; nra.
    + destruct (Rle_dec 0 d); [right; left|right; right; right]; nra.
  - destruct (Rle_dec 0 x).
    + destruct (Rle_dec 0 d); [right; right; right|right; left]; nra.
    + destruct (Rle_dec 0 c); [right; right; left|left]; nra.
Qed.
Lemma iM_ok a b x y : inI a x -> inI b y -> inI (iM a b) (x * y).
Proof.
  unfold inI, iM. cbv zeta. cbn [fst snd]. intros Hx Hy.
  destruct (mul_corner _ _ _ _ _ _ Hx Hy) as [L U]. pose proof gpos as G. assert (Hg : (0 < grid)%Z) by reflexivity.
  set (mn := Z.min _ _). set (mx := Z.max _ _).
  assert (L' : IZR mn <= x * IZR grid * (y * IZR grid)).
  { rewrite <- !mult_IZR in L. destruct L as [H|[H|[H|H]]]; (eapply Rle_trans; [|exact H]); apply IZR_le; unfold mn; lia. }
  assert (U' : x * IZR grid * (y * IZR grid) <= IZR mx).
  { rewrite <- !mult_IZR in U. destruct U as [H|[H|[H|H]]]; (eapply Rle_trans; [exact H|]); apply IZR_le; unfold mx; lia. }
  pose proof (zdn_le mn grid Hg) as H1. pose proof (zup_ge mx grid Hg) as H2.
  split; apply Rmult_le_reg_r with (IZR grid); auto; lra.
Qed.
Lemma ie_ok e a b x y : inI a x -> inI b y -> inI (ie e a b) (ev e x y).
Proof. intros Hx Hy. induction e; cbn [ie ev]; auto using iC_ok, iA_ok, iM_ok, iN_ok. Qed.

(* bisection; mid is the middle of an interval *)
Definition mid (a : iv) : Z := ((fst a + snd a) / 2)%Z.
Fixpoint chk (n : nat) (e : ex) (a b : iv) (lo hi : Z) : bool :=
  let r := ie e a b in
  if ((lo <=? fst r)%Z && (snd r <=? hi)%Z)%bool then true else
  match n with
  | O => false
  | S n =>
      if (snd a - fst a <? snd b - fst b)%Z
      then (chk n e a (fst b, mid b) lo hi && chk n e a (mid b, snd b) lo hi)%bool
      else (chk n e (fst a, mid a) b lo hi && chk n e (mid a, snd a) b lo hi)%bool
  end.
Lemma in_split a x : inI a x -> inI (fst a, mid a) x \/ inI (mid a, snd a) x.
Proof. unfold inI. cbn [fst snd]. intros []. destruct (Rle_dec (x * IZR grid) (IZR (mid a))); [left|right]; split; lra. Qed.
Lemma chk_ok n : forall e a b lo hi x y, chk n e a b lo hi = true -> inI a x -> inI b y -> IZR lo <= ev e x y * IZR grid <= IZR hi.
Proof.
  induction n as [|n IH]; intros e a b lo hi x y H Hx Hy; cbn [chk] in H;
    (destruct (_ && _)%bool eqn:E in H;
     [apply andb_prop in E; destruct E as [E1 E2]; apply Z.leb_le in E1, E2; apply IZR_le in E1, E2; pose proof (ie_ok e a b x y Hx Hy) as [? ?]; split; lra|]).
  - discriminate.
  - destruct (_ <? _)%Z; apply andb_prop in H; destruct H as [H1 H2].
    + destruct (in_split _ _ Hy); [eapply (IH _ _ _ _ _ _ _ H1)|eapply (IH _ _ _ _ _ _ _ H2)]; auto.
    + destruct (in_split _ _ Hx); [eapply (IH _ _ _ _ _ _ _ H1)|eapply (IH _ _ _ _ _ _ _ H2)]; auto.
Qed.

(* the rectangle and the bounds as rationals *)
Definition box (lo hi : Q) : iv := (fst (iC lo), snd (iC hi)).
Lemma box_ok lo hi x : Q2R lo <= x <= Q2R hi -> inI (box lo hi) x.
Proof. intros [H1 H2]. pose proof gpos. pose proof (iC_ok lo) as [A _]. pose proof (iC_ok hi) as [_ B]. unfold inI, box. cbn [fst snd]. split; nra. Qed.
Theorem bounded n e xl xh yl yh lo hi x y : chk n e (box xl xh) (box yl yh) (snd (iC lo)) (fst (iC hi)) = true ->
  Q2R xl <= x <= Q2R xh -> Q2R yl <= y <= Q2R yh -> Q2R lo <= ev e x y <= Q2R hi.
Proof.
  intros H Hx Hy. pose proof (chk_ok _ _ _ _ _ _ x y H (box_ok _ _ _ Hx) (box_ok _ _ _ Hy)) as [A B]. pose proof gpos.
  pose proof (iC_ok lo) as [_ C]. pose proof (iC_ok hi) as [D _]. split; apply Rmult_le_reg_r with (IZR grid); lra.
Qed.
