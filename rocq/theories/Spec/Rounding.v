(* What is assumed of rounded arithmetic, and the words in which the effect of
   rounding is stated.  Nothing here refers to the solver. *)
From Coq Require Import List Arith Reals Lra Lia.
From Verif Require Import Base Num.
From Verif.Model Require Import Spla.
From Verif.Spec Require Import Matrix Conic.
Import ListNotations.
Open Scope R_scope.

(* [phi a] is the real number a stands for, None when a is an infinity or NaN.
   The result of an operation, if it is a number, is the exact one up to a
   relative error u and an absolute error eta (underflow); a sum, difference or
   product of numbers that is at most 4 Om is a number.  IEEE binary64 with
   rounding to nearest is of this kind with u = 2^-53, eta = 2^-1075 and
   Om = 2^1021 (Properties/Rounding.v, C47_binary64). *)
Record rounds (O : Ops) (phi : F -> option R) (u eta Om : R) : Prop := {
  rn_u : 0 <= u; rn_eta : 0 <= eta;
  rn_0 : phi f0 = Some 0; rn_1 : phi f1 = Some 1;
  rn_add : forall a b r, phi (fadd a b) = Some r -> exists x y, phi a = Some x /\ phi b = Some y /\
             Rabs (r - (x + y)) <= u * Rabs (x + y) + eta;
  rn_sub : forall a b r, phi (fsub a b) = Some r -> exists x y, phi a = Some x /\ phi b = Some y /\
             Rabs (r - (x - y)) <= u * Rabs (x - y) + eta;
  rn_mul : forall a b r, phi (fmul a b) = Some r -> exists x y, phi a = Some x /\ phi b = Some y /\
             Rabs (r - x * y) <= u * Rabs (x * y) + eta;
  rn_div : forall a b r y, phi (fdiv a b) = Some r -> phi b = Some y -> exists x, phi a = Some x /\ y <> 0 /\
             Rabs (r - x / y) <= u * Rabs (x / y) + eta;
  rn_sqrt : forall a r, phi (fsqrt a) = Some r -> exists x, phi a = Some x /\ 0 <= x /\ 0 <= r /\
             Rabs (r - sqrt x) <= u * sqrt x + eta;
  rn_neg : forall a, phi (fneg a) = option_map Ropp (phi a);
  rn_lt : forall a b x y, phi a = Some x -> phi b = Some y -> flt a b = Rltb x y;
  rn_le : forall a b x y, phi a = Some x -> phi b = Some y -> fle a b = Rleb x y;
  (* rounding keeps the sign *)
  rn_add_pos : forall a b x y r, phi a = Some x -> phi b = Some y -> phi (fadd a b) = Some r -> 0 <= x + y -> 0 <= r;
  rn_mul_pos : forall a b x y r, phi a = Some x -> phi b = Some y -> phi (fmul a b) = Some r -> 0 <= x * y -> 0 <= r;
  (* no overflow *)
  rn_add_fin : forall a b x y, phi a = Some x -> phi b = Some y -> Rabs (x + y) <= 4 * Om -> exists r, phi (fadd a b) = Some r;
  rn_sub_fin : forall a b x y, phi a = Some x -> phi b = Some y -> Rabs (x - y) <= 4 * Om -> exists r, phi (fsub a b) = Some r;
  rn_mul_fin : forall a b x y, phi a = Some x -> phi b = Some y -> Rabs (x * y) <= 4 * Om -> exists r, phi (fmul a b) = Some r;
  rn_div_fin : forall a b x y, phi a = Some x -> phi b = Some y -> y <> 0 -> Rabs (x / y) <= 4 * Om -> exists r, phi (fdiv a b) = Some r;
  rn_sqrt_fin : forall a x, phi a = Some x -> 0 <= x -> exists r, phi (fsqrt a) = Some r;
  (* a quotient that overflows is smaller than something only if it is negative; NaN is smaller than nothing *)
  rn_div_over : forall a b c x y, phi a = Some x -> phi b = Some y -> y <> 0 -> phi (fdiv a b) = None ->
             flt (fdiv a b) c = true -> x / y <= 0;
  rn_nan : forall a, flt fnan a = false }.

(* r is e, evaluated with k roundings of terms of total size M *)
Definition within (u eta : R) (k : nat) (r e M : R) : Prop :=
  Rabs (r - e) <= ((1 + u) ^ (k + 1) - 1) * M + 3 * INR k * (1 + u) ^ k * eta.

Section Reading.
Context {O : Ops} (phi : F -> option R).

(* the array a holds the numbers f 0 .. f (n-1) *)
Definition holds (a : arr F) (n : nat) (f : nat -> R) : Prop :=
  forall i, (i < n)%nat -> exists v, get a i = Some v /\ phi v = Some (f i).

(* the sparse matrix M holds the numbers of N *)
Record holds_mat (M : spmat F) (N : spmat R) : Prop := {
  hm_jc : sp_jc M = sp_jc N; hm_ir : sp_ir M = sp_ir N;
  hm_n : sp_n M = sp_n N; hm_m : sp_m M = sp_m N; hm_nnz : sp_nnz M = sp_nnz N;
  hm_pr : forall k, (k < sp_nnz N)%nat -> exists v, get (sp_pr M) k = Some v /\ phi v = Some (gd 0 (sp_pr N) k) }.
End Reading.

(* the matrix of the absolute values (of the entries one by one) *)
Definition absdense (M : spmat R) (i j : nat) : R :=
  Rsumr (gd 0%nat (sp_jc M) j) (gd 0%nat (sp_jc M) (j + 1))
    (fun k => if Nat.eqb (gd 0%nat (sp_ir M) k) i then Rabs (gd 0 (sp_pr M) k) else 0).

(* number of entries of a column, of a row *)
Definition collen (M : spmat R) (j : nat) : nat := gd 0%nat (sp_jc M) (j + 1) - gd 0%nat (sp_jc M) j.
Definition rowcnt (M : spmat R) (q i : nat) : nat :=
  length (filter (fun k => Nat.eqb (gd 0%nat (sp_ir M) k) i) (seq 0 q)).
Definition rowlen (M : spmat R) (i : nat) : nat := rowcnt M (sp_nnz M) i.

Definition vabs (x : nat -> R) : nat -> R := fun i => Rabs (x i).

(* The arithmetic is precise enough for sums of up to N + 2 terms: together
   their roundings are worth a relative error eps and, from underflow, an
   absolute error om^2; numbers up to B can be squared and added up without
   overflow.  For binary64 and N = 2^30, eps = 2^-21 and om = 2^-500 will do. *)
Record precision (u eta Om : R) (N : nat) (eps om B : R) : Prop := {
  pc_eps : 0 <= eps <= / 64; pc_om : 0 <= om <= / 64;
  pc_u : (1 + u) ^ (N + 4) <= 1 + eps;
  pc_eta : 3 * INR (N + 4) * (1 + eps) * eta <= om * om; pc_eta' : eta <= om;
  pc_B : 1 <= B; pc_Om : 64 * INR (N + 1) * (B * B) <= Om }.

(* relative slack of a quotient of norms *)
Definition slack (eps om : R) : R := 1 + 16 * (eps + om).

Section RoundedCertificate.
Variable P : problem.
Let n := pb_n P. Let p := pb_p P. Let m := pb_m P.
Variables (A G : spmat R) (eps om : R).

(* what the terms of the residuals, of the objectives and of the gap add up to
   in absolute value; rounding is relative to these *)
Definition mag_eq (tau : R) (x : nat -> R) (i : nat) : R := mulv n (absdense A) (vabs x) i + Rabs (tau * pb_b P i).
Definition mag_ineq (tau : R) (x s : nat -> R) (i : nat) : R :=
  mulv n (absdense G) (vabs x) i + Rabs (s i) + Rabs (tau * pb_h P i).
Definition mag_dual (tau : R) (y z : nat -> R) (j : nat) : R :=
  mulvT p (absdense A) (vabs y) j + mulvT m (absdense G) (vabs z) j + Rabs (tau * pb_c P j).
Definition mag_dot (k : nat) (f g : nat -> R) : R := Rsum k (fun i => Rabs (f i * g i)).

(* sum of squares of the rounding errors of a vector *)
Definition err (k : nat) (M : nat -> R) : R := nrm k (fun i => eps * M i + om * om).
(* rounding error of an inner product *)
Definition erd (k : nat) (f g : nat -> R) : R := eps * mag_dot k f g + om * om.

(* nothing overflows at the point (x,y,z,s), tau *)
Record tame (N : nat) (B tau : R) (x y z s : nat -> R) : Prop := {
  ta_size : (n <= N /\ p <= N /\ m <= N)%nat;
  ta_rows : forall i, (i < p)%nat -> (rowlen A i + 1 <= N)%nat;
  ta_rowsG : forall i, (i < m)%nat -> (rowlen G i + 2 <= N)%nat;
  ta_cols : forall j, (j < n)%nat -> ((if Nat.ltb 0 p then collen A j else 0) + collen G j + 1 <= N)%nat;
  ta_x : forall i, (i < n)%nat -> Rabs (x i) <= B; ta_y : forall i, (i < p)%nat -> Rabs (y i) <= B;
  ta_z : forall i, (i < m)%nat -> Rabs (z i) <= B; ta_s : forall i, (i < m)%nat -> Rabs (s i) <= B;
  ta_c : forall i, (i < n)%nat -> Rabs (pb_c P i) <= B; ta_b : forall i, (i < p)%nat -> Rabs (pb_b P i) <= B;
  ta_h : forall i, (i < m)%nat -> Rabs (pb_h P i) <= B;
  ta_eq : forall i, (i < p)%nat -> mag_eq tau x i <= B;
  ta_ineq : forall i, (i < m)%nat -> mag_ineq tau x s i <= B;
  ta_dual : forall j, (j < n)%nat -> mag_dual tau y z j <= B;
  ta_pobj : mag_dot n (pb_c P) x + om <= tau * B;
  ta_dobj : mag_dot p (pb_b P) y + mag_dot m (pb_h P) z + om <= tau * B }.

(* (x,y,z,s)/tau is optimal up to the tolerances and up to rounding *)
Definition rounded_optimal (ft at_ rt tau : R) (x y z s : nat -> R) : Prop :=
  let k := slack eps om in let tol := tau * (ft + om) + om in
  nrm p (fun i => mulv n (pb_A P) x i - tau * pb_b P i) <=
    k * (Rmax 1 (nrm p (pb_b P)) + nrm n x) * tol + 3 * om + err p (mag_eq tau x) /\
  nrm m (fun i => mulv n (pb_G P) x i + s i - tau * pb_h P i) <=
    k * (Rmax 1 (nrm m (pb_h P)) + nrm n x + nrm m s) * tol + 3 * om + err m (mag_ineq tau x s) /\
  nrm n (fun j => mulvT p (pb_A P) y j + mulvT m (pb_G P) z j + tau * pb_c P j) <=
    k * (Rmax 1 (nrm n (pb_c P)) + nrm p y + nrm m z) * tol + 3 * om + err n (mag_dual tau y z) /\
  (let cx := dotp n (pb_c P) x in let ec := erd n (pb_c P) x in
   let by_ := dotp p (pb_b P) y in let hz := dotp m (pb_h P) z in let ed := erd p (pb_b P) y + erd m (pb_h P) z in
   (dotp m s z <= at_ + erd m s z \/
    dotp m s z <= k * (rt + om) * ((Rmax 0 (ec - cx) + om) / tau + om) + erd m s z \/
    dotp m s z <= k * (rt + om) * ((Rmax 0 (ed - by_ - hz) + om) / tau + om) + erd m s z) /\
   (cx <= ec \/ by_ + hz <= k * (at_ + om) + ed)).

(* nothing overflows at the point (x,y,z,s), read as a certificate of infeasibility *)
Record tame_ray (N : nat) (B : R) (x y z s : nat -> R) : Prop := {
  tr_size : (n <= N /\ p <= N /\ m <= N)%nat;
  tr_rows : forall i, (i < p)%nat -> (rowlen A i <= N)%nat;
  tr_rowsG : forall i, (i < m)%nat -> (rowlen G i + 1 <= N)%nat;
  tr_cols : forall j, (j < n)%nat -> ((if Nat.ltb 0 p then collen A j else 0) + collen G j <= N)%nat;
  tr_x : forall i, (i < n)%nat -> Rabs (x i) <= B; tr_y : forall i, (i < p)%nat -> Rabs (y i) <= B;
  tr_z : forall i, (i < m)%nat -> Rabs (z i) <= B; tr_s : forall i, (i < m)%nat -> Rabs (s i) <= B;
  tr_c : forall i, (i < n)%nat -> Rabs (pb_c P i) <= B; tr_b : forall i, (i < p)%nat -> Rabs (pb_b P i) <= B;
  tr_h : forall i, (i < m)%nat -> Rabs (pb_h P i) <= B;
  tr_eq : forall i, (i < p)%nat -> mag_eq 0 x i <= B;
  tr_ineq : forall i, (i < m)%nat -> mag_ineq 0 x s i <= B;
  tr_dual : forall j, (j < n)%nat -> mag_dual 0 y z j <= B }.

(* y and z certify primal infeasibility up to the tolerances and up to rounding:
   b'y + h'z is negative by a margin rt (relative to the size of y and z) while
   A'y + G'z is small (relative to the same) *)
Definition rounded_pinf (ft rt : R) (y z : nat -> R) : Prop :=
  let k := slack eps om in let D := Rmax (nrm p y + nrm m z) 1 in
  dotp p (pb_b P) y + dotp m (pb_h P) z <=
    - ((2 - k) * rt * D) + 16 * om * D + erd p (pb_b P) y + erd m (pb_h P) z /\
  nrm n (fun j => mulvT p (pb_A P) y j + mulvT m (pb_G P) z j) <=
    k * D * (ft + 2 * om) + 3 * om + err n (mag_dual 0 y z).

(* x and s certify dual infeasibility up to the tolerances and up to rounding *)
Definition rounded_dinf (ft rt : R) (x s : nat -> R) : Prop :=
  let k := slack eps om in let D := Rmax (nrm n x) 1 in
  dotp n (pb_c P) x <= - ((2 - k) * rt * D) + 16 * om * D + erd n (pb_c P) x /\
  nrm p (fun i => mulv n (pb_A P) x i) <= k * D * (ft + 2 * om) + 3 * om + err p (mag_eq 0 x) /\
  nrm m (fun i => mulv n (pb_G P) x i + s i) <=
    k * Rmax (nrm n x + nrm m s) 1 * (ft + 2 * om) + 3 * om + err m (mag_ineq 0 x s).
End RoundedCertificate.
