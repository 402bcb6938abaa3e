(* An executable exact reading of pfloat: rationals are kept as rationals, a
   square root that is not rational becomes a real number, and there is one
   NaN.  It computes what XOps computes (reads_H) and is used to run the model
   on concrete problems, so as to show that hypotheses of theorems can be met. *)
From Coq Require Import Reals Lra ZArith QArith Qreals Qabs Bool Lia Psatz.
From Verif Require Import Base Num NumX.
From Verif.Proofs Require Import PhiP.

Inductive hnum := HQ (q : Q) | HR (r : R) | HN.

Definition hphi (a : hnum) : option R :=
  match a with HQ q => Some (Q2R q) | HR r => Some r | HN => None end.
Definition of_x (a : option R) : hnum := match a with Some r => HR r | None => HN end.
Lemma hphi_of_x a : hphi (of_x a) = a.
Proof. destruct a; auto. Qed.

(* the rational square root of a reduced fraction, if there is one *)
Definition qsqrt (q : Q) : option Q :=
  let q := Qred q in
  let a := Z.sqrt (Qnum q) in let b := Z.sqrt (Zpos (Qden q)) in
  if (0 <=? Qnum q)%Z && (a * a =? Qnum q)%Z && (b * b =? Zpos (Qden q))%Z && (0 <? b)%Z
  then Some (Qmake a (Z.to_pos b)) else None.

Definition h2 (f : Q -> Q -> Q) (g : option R -> option R -> option R) (a b : hnum) : hnum :=
  match a, b with HQ x, HQ y => HQ (Qred (f x y)) | _, _ => of_x (g (hphi a) (hphi b)) end.
Definition h1 (f : Q -> Q) (g : option R -> option R) (a : hnum) : hnum :=
  match a with HQ x => HQ (f x) | _ => of_x (g (hphi a)) end.
Definition hcmp (f : Q -> Q -> bool) (g : option R -> option R -> bool) (a b : hnum) : bool :=
  match a, b with HQ x, HQ y => f x y | _, _ => g (hphi a) (hphi b) end.

Definition HOps : Ops := {|
  F := hnum;
  fconst := fun q => HQ q;
  fadd := h2 Qplus (@fadd XOps); fsub := h2 Qminus (@fsub XOps); fmul := h2 Qmult (@fmul XOps);
  fdiv := fun a b => match a, b with
          | HQ x, HQ y => if Qeq_bool y 0 then HN else HQ (Qred (x / y))
          | _, _ => of_x (@fdiv XOps (hphi a) (hphi b)) end;
  fneg := h1 Qopp (@fneg XOps);
  fsqrt := fun a => match a with
          | HQ q => match qsqrt q with Some r => HQ r | None => of_x (@fsqrt XOps (Some (Q2R q))) end
          | _ => of_x (@fsqrt XOps (hphi a)) end;
  fabs := h1 Qabs (@fabs XOps);
  fexp := fun a => of_x (@fexp XOps (hphi a));
  flog := fun a => of_x (@flog XOps (hphi a));
  flt := hcmp (fun x y => negb (Qle_bool y x)) (@flt XOps);
  fle := hcmp Qle_bool (@fle XOps);
  feq := hcmp Qeq_bool (@feq XOps);
  fisnan := fun a => match a with HN => true | _ => false end;
  finf := HN; fnan := HN
|}.

Lemma Q2R_red q : Q2R (Qred q) = Q2R q.
Proof. apply Qeq_eqR, Qred_correct. Qed.

Lemma qsqrt_spec q r : qsqrt q = Some r -> (0 <= Q2R q)%R /\ Q2R r = sqrt (Q2R q).
Proof.
  unfold qsqrt. rewrite <- (Q2R_red q). destruct (Qred q) as [n d]. cbn [Qnum Qden].
  destruct ((0 <=? n)%Z && (Z.sqrt n * Z.sqrt n =? n)%Z && (Z.sqrt (Zpos d) * Z.sqrt (Zpos d) =? Zpos d)%Z
    && (0 <? Z.sqrt (Zpos d))%Z) eqn:E; [|discriminate].
  apply andb_prop in E as [E E4]. apply andb_prop in E as [E E3]. apply andb_prop in E as [E1 E2].
  apply Z.leb_le in E1. apply Z.eqb_eq in E2, E3. apply Z.ltb_lt in E4.
  intros K. injection K as <-. unfold Q2R. unfold Qnum, Qden.
  change (Z.pos (Pos.sqrt d)) with (Z.sqrt (Z.pos d)).
  set (a := Z.sqrt n) in *. set (b := Z.sqrt (Zpos d)) in *.
  assert (Ha: (0 <= a)%Z) by apply Z.sqrt_nonneg.
  rewrite <- E2, <- E3, !mult_IZR.
  assert (Pb: (0 < IZR b)%R) by (apply IZR_lt; auto).
  assert (Pa: (0 <= IZR a)%R) by (apply IZR_le; auto).
  assert (Eq: (IZR a * IZR a * / (IZR b * IZR b) = (IZR a * / IZR b) * (IZR a * / IZR b))%R) by (field; lra).
  rewrite Eq.
  assert (Pq: (0 <= IZR a * / IZR b)%R) by (apply Rmult_le_pos; [auto|left; apply Rinv_0_lt_compat; auto]).
  split; [nra|]. rewrite sqrt_square; auto.
Qed.

Lemma Qle_bool_R x y : Qle_bool x y = Rleb (Q2R x) (Q2R y).
Proof.
  destruct (Rleb_spec (Q2R x) (Q2R y)) as [L|L].
  - apply Qle_bool_iff. apply Rle_Qle; auto.
  - destruct (Qle_bool x y) eqn:E; auto. apply Qle_bool_iff in E. apply Qle_Rle in E. contradiction.
Qed.

Lemma reads_H : reads HOps hphi.
Proof.
  constructor; intros; cbn [F fconst fadd fsub fmul fdiv fneg fsqrt fabs fexp flog flt fle feq fisnan finf fnan HOps];
    try reflexivity; try (apply hphi_of_x).
  - destruct a, b; cbn [h2]; rewrite ?hphi_of_x; auto. change (Some (Q2R (Qred (q + q0))) = Some (Q2R q + Q2R q0)%R). rewrite Q2R_red, Q2R_plus. auto.
  - destruct a, b; cbn [h2]; rewrite ?hphi_of_x; auto. change (Some (Q2R (Qred (q - q0))) = Some (Q2R q - Q2R q0)%R). rewrite Q2R_red, Q2R_minus. auto.
  - destruct a, b; cbn [h2]; rewrite ?hphi_of_x; auto. change (Some (Q2R (Qred (q * q0))) = Some (Q2R q * Q2R q0)%R). rewrite Q2R_red, Q2R_mult. auto.
  - destruct a as [x|x|], b as [y|y|]; rewrite ?hphi_of_x; auto.
    destruct (Qeq_bool y 0) eqn:E.
    + apply Qeq_bool_iff in E. apply Qeq_eqR in E. cbn [hphi fdiv XOps]. destruct (Req_EM_T (Q2R y) 0) as [|N]; auto.
      exfalso. apply N. rewrite E. unfold Q2R; cbn; lra.
    + apply Qeq_bool_neq in E. cbn [hphi fdiv XOps]. rewrite Q2R_red, Q2R_div by auto.
      destruct (Req_EM_T (Q2R y) 0) as [N|]; auto. exfalso. apply E. apply eqR_Qeq. rewrite N. unfold Q2R; cbn; lra.
  - destruct a; cbn [h1]; rewrite ?hphi_of_x; auto. cbn [hphi fneg XOps x1]. rewrite Q2R_opp. auto.
  - destruct a as [q|r|]; rewrite ?hphi_of_x; auto.
    destruct (qsqrt q) as [r|] eqn:E; [|apply hphi_of_x].
    apply qsqrt_spec in E as [P E]. cbn [hphi fsqrt XOps]. destruct (Rlt_dec (Q2R q) 0); [lra|]. rewrite E. auto.
  - destruct a as [q|r|]; cbn [h1]; rewrite ?hphi_of_x; auto. cbn [hphi fabs XOps x1]. f_equal.
    apply Qabs_case; intros L; apply Qle_Rle in L.
    + rewrite Rabs_right; auto. unfold Q2R in *; cbn in *. lra.
    + rewrite Q2R_opp, Rabs_left1; auto. unfold Q2R in *; cbn in *. lra.
  - destruct a, b; cbn [hcmp]; auto. cbn [hphi flt XOps xcmp]. rewrite Qle_bool_R.
    destruct (Rleb_spec (Q2R q0) (Q2R q)), (Rltb_spec (Q2R q) (Q2R q0)); auto; lra.
  - destruct a, b; cbn [hcmp]; auto. cbn [hphi fle XOps xcmp]. apply Qle_bool_R.
  - destruct a, b; cbn [hcmp]; auto. cbn [hphi feq XOps xcmp].
    destruct (Reqb_spec (Q2R q) (Q2R q0)) as [L|L].
    + apply Qeq_bool_iff. apply eqR_Qeq; auto.
    + destruct (Qeq_bool q q0) eqn:E; auto. apply Qeq_bool_iff in E. apply Qeq_eqR in E. contradiction.
  - destruct a; auto.
Qed.
