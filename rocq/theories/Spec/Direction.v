(* The homogeneous embedding of a conic program, its residual and its search
   directions.  Mathematics over the reals. *)
From Coq Require Import List Arith Reals Lia Lra.
From Verif Require Import Base Num.
From Verif.Model Require Import Spla Types.
From Verif.Spec Require Import Matrix Conic Exp Jordan.
Import ListNotations.
Open Scope R_scope.

(* minimise c'x subject to A x = b, G x + s = h, with n variables, p equations
   and m conic rows; A and G as dense matrices *)
Record program := mkProg {
  g_n : nat; g_p : nat; g_m : nat;
  g_A : nat -> nat -> R; g_G : nat -> nat -> R;
  g_c : nat -> R; g_b : nat -> R; g_h : nat -> R
}.

(* a point of the embedding, or a direction *)
Record spot := mkSpot { t_x : nat -> R; t_y : nat -> R; t_z : nat -> R; t_s : nat -> R; t_tau : R; t_kap : R }.

(* u + a v *)
Definition along (a : R) (u v : spot) : spot :=
  mkSpot (fun i => t_x u i + a * t_x v i) (fun i => t_y u i + a * t_y v i) (fun i => t_z u i + a * t_z v i)
         (fun i => t_s u i + a * t_s v i) (t_tau u + a * t_tau v) (t_kap u + a * t_kap v).

(* the unit of the algebra of orthant and second-order cones has a one here: in the
   orthant and in the first coordinate of every second-order cone *)
Fixpoint heads (k : nat) (q : list nat) (i : nat) : bool :=
  match q with [] => false | p :: t => ((i =? k) || heads (k + p) t i)%nat%bool end.
Definition unit_at (l : nat) (q : list nat) (i : nat) : bool := ((i <? l)%nat || heads l q i)%bool.

(* the products of s and z stay away from zero *)
Record apart (eps : R) (l : nat) (q : list nat) (s z : nat -> R) : Prop := {
  ap_lp : forall i, (i < l)%nat -> eps * eps <= s i * z i;
  ap_sc : forall k p, In (k, p) (layout l q) -> eps * eps <= det p (from k s) * det p (from k z)
}.

(* the program and the point held by a workspace *)
Definition prog_of (w : pwork R) : program :=
  mkProg (w_n w) (w_p w) (w_m w) (fun i j => match w_A w with Some A => dense A i j | None => 0 end) (dense (w_G w))
    (gd 0 (w_c w)) (gd 0 (w_b w)) (gd 0 (w_h w)).
Definition spot_of (w : pwork R) : spot :=
  mkSpot (gd 0 (w_x w)) (gd 0 (w_y w)) (gd 0 (w_z w)) (gd 0 (w_s w)) (w_tau w) (w_kap w).

Section Embedding.
Variable P : program.

(* the four residuals of the embedding; all of them are linear in the point *)
Definition hom_x (u : spot) (j : nat) : R :=
  - mulvT (g_p P) (g_A P) (t_y u) j - mulvT (g_m P) (g_G P) (t_z u) j - t_tau u * g_c P j.
Definition hom_y (u : spot) (i : nat) : R := mulv (g_n P) (g_A P) (t_x u) i - t_tau u * g_b P i.
Definition hom_z (u : spot) (i : nat) : R := t_s u i + mulv (g_n P) (g_G P) (t_x u) i - t_tau u * g_h P i.
Definition hom_t (u : spot) : R :=
  t_kap u + dotp (g_n P) (g_c P) (t_x u) + dotp (g_p P) (g_b P) (t_y u) + dotp (g_m P) (g_h P) (t_z u).

(* a vector (dx, dy, dz) as solution of the system
     A'dy + G'dz = rx,   A dx = ry,   G dx - V dz = rz
   and by how much it misses each row *)
Record triple := mkTriple { q_x : nat -> R; q_y : nat -> R; q_z : nat -> R }.
Definition miss_x (d r : triple) (j : nat) : R :=
  mulvT (g_p P) (g_A P) (q_y d) j + mulvT (g_m P) (g_G P) (q_z d) j - q_x r j.
Definition miss_y (d r : triple) (i : nat) : R := mulv (g_n P) (g_A P) (q_x d) i - q_y r i.
Definition miss_z (V : (nat -> R) -> nat -> R) (d r : triple) (i : nat) : R :=
  mulv (g_n P) (g_G P) (q_x d) i - V (q_z d) i - q_z r i.

(* the combination d2 + t d1 *)
Definition comb (t : R) (d1 d2 : triple) : triple :=
  mkTriple (fun i => q_x d2 i + t * q_x d1 i) (fun i => q_y d2 i + t * q_y d1 i) (fun i => q_z d2 i + t * q_z d1 i).

(* the right-hand sides: of the constant system, and of the Newton system with
   centering sigma at the point u when the complementarity rows ask for
   ds + V dz = - g *)
Definition rhs_const : triple := mkTriple (fun j => - g_c P j) (g_b P) (g_h P).
Definition rhs_newton (sigma : R) (u : spot) (g : nat -> R) : triple :=
  mkTriple (fun j => (1 - sigma) * hom_x u j) (fun i => - ((1 - sigma) * hom_y u i)) (fun i => g i - (1 - sigma) * hom_z u i).

(* d is a Newton direction of the embedding at u with centering sigma: it removes
   the share 1 - sigma of every residual, up to the misses of the two linear
   solves, and satisfies the linearised complementarity conditions exactly *)
Record newton (V : (nat -> R) -> nat -> R) (sigma : R) (u : spot) (g : nat -> R) (bk : R) (d1 d2 : triple) (d : spot) : Prop := {
  nw_x : forall j, (j < g_n P)%nat -> hom_x d j = - ((1 - sigma) * hom_x u j)
           - (miss_x d2 (rhs_newton sigma u g) j + t_tau d * miss_x d1 rhs_const j);
  nw_y : forall i, (i < g_p P)%nat -> hom_y d i = - ((1 - sigma) * hom_y u i)
           + (miss_y d2 (rhs_newton sigma u g) i + t_tau d * miss_y d1 rhs_const i);
  nw_z : forall i, (i < g_m P)%nat -> hom_z d i = - ((1 - sigma) * hom_z u i)
           + (miss_z V d2 (rhs_newton sigma u g) i + t_tau d * miss_z V d1 rhs_const i);
  nw_t : hom_t d = - ((1 - sigma) * hom_t u);
  nw_s : forall i, (i < g_m P)%nat -> t_s d i + V (t_z d) i = - g i;
  nw_k : t_kap u * t_tau d + t_tau u * t_kap d = - bk
}.

(* the pivot of the last row: dtau is determined when it is not zero *)
Definition pivot (u : spot) (d1 : triple) : R :=
  t_kap u / t_tau u - dotp (g_n P) (g_c P) (q_x d1) - dotp (g_p P) (g_b P) (q_y d1) - dotp (g_m P) (g_h P) (q_z d1).
End Embedding.

(* -------------------------------------------------------------- consequences *)
Lemma mulv_along n A a x y i : mulv n A (fun j => x j + a * y j) i = mulv n A x i + a * mulv n A y i.
Proof. unfold mulv. rewrite <- Rsum_scal, <- Rsum_plus. apply Rsum_ext. intros; ring. Qed.
Lemma mulvT_along n A a x y i : mulvT n A (fun j => x j + a * y j) i = mulvT n A x i + a * mulvT n A y i.
Proof. unfold mulvT. rewrite <- Rsum_scal, <- Rsum_plus. apply Rsum_ext. intros; ring. Qed.
Lemma dotp_along n c a x y : dotp n c (fun j => x j + a * y j) = dotp n c x + a * dotp n c y.
Proof. unfold dotp. rewrite <- Rsum_scal, <- Rsum_plus. apply Rsum_ext. intros; ring. Qed.

(* a step of length a along a Newton direction *)
Section Step.
Variables (P : program) (V : (nat -> R) -> nat -> R) (sigma a bk : R) (u d : spot) (g : nat -> R) (d1 d2 : triple).
Hypothesis N : newton P V sigma u g bk d1 d2 d.

Lemma step_x j : (j < g_n P)%nat -> hom_x P (along a u d) j =
  (1 - a * (1 - sigma)) * hom_x P u j - a * (miss_x P d2 (rhs_newton P sigma u g) j + t_tau d * miss_x P d1 (rhs_const P) j).
Proof.
  intros Hj. pose proof (nw_x _ _ _ _ _ _ _ _ _ N j Hj) as E. 
  assert (hom_x P (along a u d) j = hom_x P u j + a * hom_x P d j) as ->; [|rewrite E; ring].
  unfold hom_x. cbn [along t_x t_y t_z t_tau]. rewrite !mulvT_along. ring.
Qed.
Lemma step_y i : (i < g_p P)%nat -> hom_y P (along a u d) i =
  (1 - a * (1 - sigma)) * hom_y P u i + a * (miss_y P d2 (rhs_newton P sigma u g) i + t_tau d * miss_y P d1 (rhs_const P) i).
Proof.
  intros Hj. pose proof (nw_y _ _ _ _ _ _ _ _ _ N i Hj) as E. 
  assert (hom_y P (along a u d) i = hom_y P u i + a * hom_y P d i) as ->; [|rewrite E; ring].
  unfold hom_y. cbn [along t_x t_y t_z t_tau]. rewrite !mulv_along. ring.
Qed.
Lemma step_z i : (i < g_m P)%nat -> hom_z P (along a u d) i =
  (1 - a * (1 - sigma)) * hom_z P u i + a * (miss_z P V d2 (rhs_newton P sigma u g) i + t_tau d * miss_z P V d1 (rhs_const P) i).
Proof.
  intros Hj. pose proof (nw_z _ _ _ _ _ _ _ _ _ N i Hj) as E. 
  assert (hom_z P (along a u d) i = hom_z P u i + a * hom_z P d i) as ->; [|rewrite E; ring].
  unfold hom_z. cbn [along t_x t_y t_z t_s t_tau]. rewrite !mulv_along. ring.
Qed.
Lemma step_t : hom_t P (along a u d) = (1 - a * (1 - sigma)) * hom_t P u.
Proof.
  pose proof (nw_t _ _ _ _ _ _ _ _ _ N) as E.
  assert (hom_t P (along a u d) = hom_t P u + a * hom_t P d) as ->; [|rewrite E; ring].
  unfold hom_t. cbn [along t_x t_y t_z t_kap]. rewrite !dotp_along. ring.
Qed.
End Step.

(* putting two solves together gives a Newton direction; V is linear on the first
   m coordinates *)
Section Combine.
Variables (P : program) (V : (nat -> R) -> nat -> R) (sigma bk dtau dkap : R) (u : spot) (g ds : nat -> R) (d1 d2 : triple).
Hypothesis Vlin : forall c x y i, (i < g_m P)%nat -> V (fun j => x j + c * y j) i = V x i + c * V y i.
Let d := mkSpot (q_x (comb dtau d1 d2)) (q_y (comb dtau d1 d2)) (q_z (comb dtau d1 d2)) ds dtau dkap.

Lemma combine_newton : t_tau u <> 0 -> pivot P u d1 <> 0 ->
  dtau = ((1 - sigma) * hom_t P u - bk / t_tau u + dotp (g_n P) (g_c P) (q_x d2) + dotp (g_p P) (g_b P) (q_y d2) + dotp (g_m P) (g_h P) (q_z d2)) / pivot P u d1 ->
  dkap = - (bk + t_kap u * dtau) / t_tau u ->
  (forall i, (i < g_m P)%nat -> ds i = - g i - V (q_z (comb dtau d1 d2)) i) ->
  newton P V sigma u g bk d1 d2 d.
Proof.
  intros T0 PV ET EK ES. unfold d. constructor; cbn [t_x t_y t_z t_s t_tau t_kap comb q_x q_y q_z].
  - intros j Hj. unfold hom_x, miss_x. cbn [t_x t_y t_z t_s t_tau t_kap q_x q_y q_z rhs_const rhs_newton]. rewrite !mulvT_along. unfold hom_x. ring.
  - intros i Hi. unfold hom_y, miss_y. cbn [t_x t_y t_z t_s t_tau t_kap q_x q_y q_z rhs_const rhs_newton]. rewrite !mulv_along. unfold hom_y. ring.
  - intros i Hi. unfold hom_z, miss_z. cbn [t_x t_y t_z t_s t_tau t_kap q_x q_y q_z rhs_const rhs_newton]. rewrite !mulv_along. rewrite ES by auto.
    cbn [comb q_z]. rewrite Vlin by auto. unfold hom_z. ring.
  - unfold hom_t. cbn [t_x t_y t_z t_s t_tau t_kap]. rewrite !dotp_along.
    fold (hom_t P u). assert (E : dtau * pivot P u d1 = (1 - sigma) * hom_t P u - bk / t_tau u + dotp (g_n P) (g_c P) (q_x d2) + dotp (g_p P) (g_b P) (q_y d2) + dotp (g_m P) (g_h P) (q_z d2))
      by (rewrite ET at 1; field; auto).
    assert (EK' : dkap = - (bk / t_tau u) - t_kap u / t_tau u * dtau) by (rewrite EK; field; auto).
    unfold pivot in E. unfold hom_t in *. rewrite EK'.
    assert (R : forall k c1 b1 h1 c2 b2 h2 ht bt t, t * (k - c1 - b1 - h1) = ht - bt + c2 + b2 + h2 ->
       - bt - k * t + (c2 + t * c1) + (b2 + t * b1) + (h2 + t * h1) = - ht).
    { intros. assert (ht = t * (k - c1 - b1 - h1) + bt - c2 - b2 - h2) as -> by lra. ring. }
    apply R. exact E.
  - intros i Hi. rewrite ES by auto. cbn [comb q_z]. ring.
  - rewrite EK. field. auto.
Qed.
End Combine.

(* the pivot is positive when the constant system is solved exactly and V is
   positive semidefinite *)
Lemma pivot_pos P V u d1 : 0 < t_kap u -> 0 < t_tau u ->
  (forall j, (j < g_n P)%nat -> miss_x P d1 (rhs_const P) j = 0) -> (forall i, (i < g_p P)%nat -> miss_y P d1 (rhs_const P) i = 0) ->
  (forall i, (i < g_m P)%nat -> miss_z P V d1 (rhs_const P) i = 0) -> 0 <= dotp (g_m P) (q_z d1) (V (q_z d1)) -> 0 < pivot P u d1.
Proof.
  intros K T X Y Z H. unfold pivot, miss_x, miss_y, miss_z in *. cbn [rhs_const q_x q_y q_z] in *.
  set (x := q_x d1) in *. set (y := q_y d1) in *. set (z := q_z d1) in *. clearbody x y z.
  assert (E1 : dotp (g_n P) (g_c P) x = - dotp (g_n P) (fun j => mulvT (g_p P) (g_A P) y j) x - dotp (g_n P) (fun j => mulvT (g_m P) (g_G P) z j) x).
  { unfold dotp. rewrite <- !Rsum_opp, <- Rsum_minus. apply Rsum_ext. intros j Hj. specialize (X j Hj).
    assert (g_c P j = - mulvT (g_p P) (g_A P) y j - mulvT (g_m P) (g_G P) z j) as -> by lra. ring. }
  assert (E2 : dotp (g_p P) (g_b P) y = dotp (g_p P) (fun i => mulv (g_n P) (g_A P) x i) y).
  { unfold dotp. apply Rsum_ext. intros j Hj. specialize (Y j Hj). f_equal. lra. }
  assert (E3 : dotp (g_m P) (g_h P) z = dotp (g_m P) (fun i => mulv (g_n P) (g_G P) x i) z - dotp (g_m P) z (V z)).
  { unfold dotp. rewrite <- Rsum_minus. apply Rsum_ext. intros j Hj. specialize (Z j Hj).
    assert (g_h P j = mulv (g_n P) (g_G P) x j - V z j) as -> by lra. ring. }
  assert (AD : forall k M (v : nat -> R), dotp (g_n P) (fun j => mulvT k M v j) x = dotp k (fun i => mulv (g_n P) M x i) v).
  { intros k M v. unfold dotp, mulv, mulvT.
    rewrite (Rsum_ext _ _ (fun j => Rsum k (fun i => M i j * v i * x j))) by (intros; rewrite Rmult_comm, <- Rsum_scal; apply Rsum_ext; intros; ring).
    rewrite Rsum_swap. apply Rsum_ext. intros i Hi. rewrite Rmult_comm, <- Rsum_scal. apply Rsum_ext. intros; ring. }
  rewrite E1, E2, E3, !AD. assert (0 < t_kap u / t_tau u) by (apply Rdiv_lt_0_compat; auto). lra.
Qed.

(* ------------------------------------------------------ predictor and corrector *)
(* gr is the gradient and H the Hessian, at (u, v, w), of the barrier of the dual
   exponential cone *)
Definition barrier_model (u v w : R) (gr : nat -> R) (H : nat -> nat -> R) : Prop :=
  exists f1 f2 f3, (forall a b c, exp_dual_int a b c -> partials exp_barrier a b c (f1 a b c) (f2 a b c) (f3 a b c)) /\
    gr 0%nat = f1 u v w /\ gr 1%nat = f2 u v w /\ gr 2%nat = f3 u v w /\
    partials f1 u v w (H 0%nat 0%nat) (H 0%nat 1%nat) (H 0%nat 2%nat) /\
    partials f2 u v w (H 1%nat 0%nat) (H 1%nat 1%nat) (H 1%nat 2%nat) /\
    partials f3 u v w (H 2%nat 0%nat) (H 2%nat 1%nat) (H 2%nat 2%nat).

(* the exponential cones start behind the orthant and the second-order cones *)
Definition expz (l : nat) (q : list nat) (z : nat -> R) (j i : nat) : R := z (l + list_sum q + 3 * j + i)%nat.

(* V is the scaling matrix of the KKT system: W'W on the orthant and the
   second-order cones, mu times the Hessian of the dual barrier at z on every
   exponential cone *)
Definition metric (l : nat) (q : list nat) (e : nat) (W : (nat -> R) -> nat -> R) (z : nat -> R) (mu : R) (V : (nat -> R) -> nat -> R) : Prop :=
  (forall x i, (i < l + list_sum q)%nat -> V x i = W (W x) i) /\
  forall j, (j < e)%nat -> exp_dual_int (expz l q z j 0) (expz l q z j 1) (expz l q z j 2) ->
    exists gr H, barrier_model (expz l q z j 0) (expz l q z j 1) (expz l q z j 2) gr H /\
      forall x i, (i < 3)%nat -> V x (l + list_sum q + 3 * j + i)%nat = mu * Rsum 3 (fun k => H i k * expz l q x j k).

(* g is what the complementarity rows ask for when the symmetric cones ask for W v
   and the exponential cones for the central point of parameter t: s + t grad f*(z) *)
Definition force (l : nat) (q : list nat) (e : nat) (W : (nat -> R) -> nat -> R) (s z : nat -> R) (t : R) (v g : nat -> R) : Prop :=
  (forall i, (i < l + list_sum q)%nat -> g i = W v i) /\
  forall j, (j < e)%nat -> exp_dual_int (expz l q z j 0) (expz l q z j 1) (expz l q z j 2) ->
    exists gr H, barrier_model (expz l q z j 0) (expz l q z j 1) (expz l q z j 2) gr H /\
      forall i, (i < 3)%nat -> g (l + list_sum q + 3 * j + i)%nat = expz l q s j i + t * gr i.

(* the same point of the embedding of P *)
Record same_spot (P : program) (u v : spot) : Prop := {
  ss_x : forall i, (i < g_n P)%nat -> t_x u i = t_x v i; ss_y : forall i, (i < g_p P)%nat -> t_y u i = t_y v i;
  ss_z : forall i, (i < g_m P)%nat -> t_z u i = t_z v i; ss_s : forall i, (i < g_m P)%nat -> t_s u i = t_s v i;
  ss_tau : t_tau u = t_tau v; ss_kap : t_kap u = t_kap v
}.

(* the exponential cones of z are in the interior of the dual cone *)
Definition exp_inside (l : nat) (q : list nat) (e : nat) (z : nat -> R) : Prop :=
  forall j, (j < e)%nat -> exp_dual_int (expz l q z j 0) (expz l q z j 1) (expz l q z j 2).

(* One step of Mehrotra's predictor-corrector method on the embedding of P, from u
   to u', with centering sigma and step length a along d.  (ans r d) says that d is
   what the linear solver returned for the right-hand side r; D is the degree of
   the cone.  V is the matrix of the conic block, d1 the solution for the constant
   right-hand side, d2 the one for the combined right-hand side, which asks for g
   in the conic rows. *)
Definition mean (P : program) (D : nat) (u : spot) : R := (dotp (g_m P) (t_s u) (t_z u) + t_kap u * t_tau u) / INR (D + 1).
Definition predictor_corrector (P : program) (l : nat) (q : list nat) (e D : nat) (ans : triple -> triple -> Prop)
    (sigma a : R) (V : (nat -> R) -> nat -> R) (g : nat -> R) (d1 d2 : triple) (u d u' : spot) : Prop :=
  let h := (l + list_sum q)%nat in
  let mu := mean P D u in
  exists W Wi d2a da v p1 p2,
    (* the Nesterov-Todd scaling, with scaled point W z = W^-1 s, and the matrix built from it *)
    scaling h l q W Wi /\ (forall i, (i < h)%nat -> W (t_z u) i = Wi (t_s u) i) /\ metric l q e W (t_z u) mu V /\
    (* the constant system *)
    ans (rhs_const P) d1 /\
    (* predictor: no centering, remove s *)
    ans (rhs_newton P 0 u (t_s u)) d2a /\
    (pivot P u d1 <> 0 -> newton P V 0 u (t_s u) (t_kap u * t_tau u) d1 d2a da) /\
    (* corrector: (W z) o v = (W z) o (W z) + (W^-1 ds_a) o (W dz_a) - sigma mu e *)
    is_jprod l q (W (t_z u)) (W (t_z u)) p1 /\ is_jprod l q (Wi (t_s da)) (W (t_z da)) p2 /\
    is_jprod l q (W (t_z u)) v (fun i => p1 i + p2 i - (if unit_at l q i then sigma * mu else 0)) /\
    force l q e W (t_s u) (t_z u) (sigma * mu) v g /\
    ans (rhs_newton P sigma u g) d2 /\
    (pivot P u d1 <> 0 -> newton P V sigma u g (t_kap u * t_tau u + t_kap da * t_tau da - sigma * mu) d1 d2 d) /\
    (* the step *)
    same_spot P u' (along a u d) /\
    (* the conic block is positive semidefinite *)
    (exp_inside l q e (t_z u) -> 0 <= mu -> forall x, 0 <= dotp (g_m P) x (V x)).

(* the linear solver hit the right-hand side exactly *)
Definition exact (P : program) (V : (nat -> R) -> nat -> R) (d r : triple) : Prop :=
  (forall j, (j < g_n P)%nat -> miss_x P d r j = 0) /\ (forall i, (i < g_p P)%nat -> miss_y P d r i = 0) /\
  (forall i, (i < g_m P)%nat -> miss_z P V d r i = 0).

(* every residual of the embedding of P is f times as large at u' as at u *)
Record shrinks (P : program) (f : R) (u u' : spot) : Prop := {
  sk_x : forall j, (j < g_n P)%nat -> hom_x P u' j = f * hom_x P u j; sk_y : forall i, (i < g_p P)%nat -> hom_y P u' i = f * hom_y P u i;
  sk_z : forall i, (i < g_m P)%nat -> hom_z P u' i = f * hom_z P u i; sk_t : hom_t P u' = f * hom_t P u
}.

Lemma same_hom P u v : same_spot P u v ->
  (forall j, hom_x P u j = hom_x P v j) /\ (forall i, hom_y P u i = hom_y P v i) /\ (forall i, (i < g_m P)%nat -> hom_z P u i = hom_z P v i) /\ hom_t P u = hom_t P v.
Proof.
  intros [X Y Z S T K]. unfold hom_x, hom_y, hom_z, hom_t. rewrite T, K.
  assert (MT : forall k M f g j, (forall i, (i < k)%nat -> f i = g i) -> mulvT k M f j = mulvT k M g j) by (intros; unfold mulvT; apply Rsum_ext; intros; f_equal; auto).
  assert (MV : forall k M f g j, (forall i, (i < k)%nat -> f i = g i) -> mulv k M f j = mulv k M g j) by (intros; unfold mulv; apply Rsum_ext; intros; f_equal; auto).
  split; [|split; [|split]].
  - intros j. rewrite (MT _ _ _ _ _ Y), (MT _ _ _ _ _ Z). reflexivity.
  - intros i. rewrite (MV _ _ _ _ _ X). reflexivity.
  - intros i Hi. rewrite (MV _ _ _ _ _ X), S by auto. reflexivity.
  - rewrite (dotp_ext (g_n P) (g_c P) (t_x u) (g_c P) (t_x v)), (dotp_ext (g_p P) (g_b P) (t_y u) (g_b P) (t_y v)),
      (dotp_ext (g_m P) (g_h P) (t_z u) (g_h P) (t_z v)) by auto. reflexivity.
Qed.

(* when the linear systems are solved exactly, every residual shrinks by 1 - a (1 - sigma) *)
Lemma shrunk P l q e D ans sigma a V g d1 d2 u d u' : predictor_corrector P l q e D ans sigma a V g d1 d2 u d u' ->
  exp_inside l q e (t_z u) -> 0 < t_tau u -> 0 < t_kap u -> 0 <= mean P D u ->
  exact P V d1 (rhs_const P) -> exact P V d2 (rhs_newton P sigma u g) -> shrinks P (1 - a * (1 - sigma)) u u'.
Proof.
  intros (W & Wi & d2a & da & v & p1 & p2 & _ & _ & _ & _ & _ & _ & _ & _ & _ & _ & _ & NW & SS & PS) EI T K MU (X1 & Y1 & Z1) (X2 & Y2 & Z2).
  assert (PV : 0 < pivot P u d1) by (apply (pivot_pos P V); auto).
  specialize (NW ltac:(lra)). destruct (same_hom _ _ _ SS) as (HX & HY & HZ & HT). constructor.
  - intros j Hj. rewrite HX, (step_x P V sigma a _ u d g d1 d2 NW j Hj), X1, X2 by auto. ring.
  - intros j Hj. rewrite HY, (step_y P V sigma a _ u d g d1 d2 NW j Hj), Y1, Y2 by auto. ring.
  - intros j Hj. rewrite HZ by auto. rewrite (step_z P V sigma a _ u d g d1 d2 NW j Hj), Z1, Z2 by auto. ring.
  - rewrite HT. apply (step_t P V sigma a _ u d g d1 d2 NW).
Qed.
