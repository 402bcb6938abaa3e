(* Model of src/cone.c (CONEMODE 0, EXPCONE).
   Loops that step a second counter in lockstep (k++) use base + i instead. *)
From Coq Require Import List Arith Bool ZArith QArith.
From Verif Require Import Base Num.
From Verif.Model Require Import Spla Types Consts Expcone.
Import ListNotations.
Open Scope nat_scope.

Section Cone.
Context `{O : Ops}.
Local Open Scope fl_scope.

Definition lpp (C : cone F) : nat := lp_p (co_lpc C).
Definition nsoc (C : cone F) : nat := length (co_soc C).
Definition nexc (C : cone F) : nat := length (co_expc C).

(* src/cone.c:36-42 socres, u being the array and the offset k *)
Definition socres (u : arr F) (k p : nat) : option F :=
  u0 <- get u k ;;
  for_ 1 p (fun i res => ui <- get u (k + i)%nat ;; Some (res - ui * ui)) (u0 * u0).

(* src/cone.c:52-92 bring2cone; returns s *)
Definition bring2cone (C : cone F) (r s : arr F) : option (arr F) :=
  alpha <- for_ 0 (lpp C) (fun i alpha =>                                 (* lines 63-65 *)
      ri <- get r i ;;
      Some (if (ri <=? f0) && (- ri >? alpha) then - ri else alpha)) (- GAMMA) ;;
  '(alpha, _) <- for_each (co_soc C) (fun c st =>                         (* lines 68-73 *)
      let '(alpha, i) := st in
      cres <- get r i ;;
      r1square <- for_ 1 (so_p c) (fun j acc =>
         rj <- get r (i + j)%nat ;; Some (acc + rj * rj)) f0 ;;
      let cres := cres - fsqrt r1square in
      Some (if (cres <=? f0) && (- cres >? alpha) then - cres else alpha, (i + Nat.max 1 (so_p c))%nat))
      (alpha, lpp C) ;;
  let alpha := alpha + f1 in                                              (* line 80 *)
  s <- for_ 0 (lpp C) (fun i s => ri <- get r i ;; set s i (ri + alpha)) s ;;
  '(s, _) <- for_each (co_soc C) (fun c st =>                             (* lines 88-91 *)
      let '(s, i) := st in
      ri <- get r i ;;
      s <- set s i (ri + alpha) ;;
      s <- for_ 1 (so_p c) (fun j s => rj <- get r (i + j)%nat ;; set s (i + j)%nat rj) s ;;
      Some (s, (i + Nat.max 1 (so_p c))%nat)) (s, lpp C) ;;
  Some s.

(* the central ray of the exponential cone, src/cone.c:117-122 *)
Definition expray : list F :=
  [ fconst (-1051383945322714 # 1000000000000000);
    fconst (1258967884768947 # 1000000000000000);
    fconst (556409619469370 # 1000000000000000) ].

(* src/cone.c:99-125 unitInitialization, one output array (s and z receive the same values) *)
Definition unitInit1 (C : cone F) (s : arr F) (scaling : F) : option (arr F) :=
  s <- for_ 0 (lpp C) (fun i s => set s i scaling) s ;;
  '(s, i) <- for_each (co_soc C) (fun c st =>
      let '(s, i) := st in
      s <- set s i scaling ;;
      s <- for_ 1 (so_p c) (fun j s => set s (i + j)%nat f0) s ;;
      Some (s, (i + Nat.max 1 (so_p c))%nat)) (s, lpp C) ;;
  '(s, _) <- for_each (co_expc C) (fun _ st =>
      let '(s, i) := st in
      s <- for_ 0 3 (fun j s => v <- nth_error expray j ;; set s (i + j)%nat (scaling * v)) s ;;
      Some (s, (i + 3)%nat)) (s, i) ;;
  Some s.

Definition unitInitialization (C : cone F) (s z : arr F) (scaling : F) : option (arr F * arr F) :=
  s <- unitInit1 C s scaling ;;
  z <- unitInit1 C z scaling ;;
  Some (s, z).

(* src/cone.c:276-304 scale, lambda = W*z *)
Definition scale (z : arr F) (C : cone F) (lambda : arr F) : option (arr F) :=
  lambda <- for_ 0 (lpp C) (fun i lambda =>
      wi <- get (lp_w (co_lpc C)) i ;; zi <- get z i ;; set lambda i (wi * zi)) lambda ;;
  '(lambda, _) <- for_each (co_soc C) (fun c st =>
      let '(lambda, k) := st in
      a <- so_a c ;;
      eta <- so_eta c ;;
      zeta <- for_ 1 (so_p c) (fun i zeta =>
         qi <- get (so_q c) (i - 1)%nat ;; zi <- get z (k + i)%nat ;; Some (zeta + qi * zi)) f0 ;;
      z0 <- get z k ;;
      let factor := z0 + safediv zeta (f1 + a) in
      lambda <- set lambda k (eta * (a * z0 + zeta)) ;;
      lambda <- for_ 1 (so_p c) (fun i lambda =>
         zj <- get z (k + i)%nat ;; qi <- get (so_q c) (i - 1)%nat ;;
         set lambda (k + i)%nat (eta * (zj + factor * qi))) lambda ;;
      Some (lambda, (k + so_p c)%nat)) (lambda, lpp C) ;;
  Some lambda.

(* src/cone.c:155-214: one second-order cone; the flag is true for OUTSIDE_CONE *)
Definition updateSoc (c : socone F) (s z : arr F) (k : nat) : option (bool * socone F) :=
  let p := so_p c in
  sres <- socres s k p ;;
  zres <- socres z k p ;;
  if (sres <=? f0) || (zres <=? f0) then Some (true, c) else              (* line 166 *)
  let snorm := fsqrt sres in
  let znorm := fsqrt zres in
  skbar <- for_ 0 p (fun i a => si <- get s (k + i)%nat ;; set a i (safediv si snorm)) (so_skbar c) ;;
  zkbar <- for_ 0 p (fun i a => zi <- get z (k + i)%nat ;; set a i (safediv zi znorm)) (so_zkbar c) ;;
  let eta_square := safediv snorm znorm in
  let eta := fsqrt eta_square in
  gamma <- for_ 0 p (fun i g =>                                           (* lines 176-178 *)
      si <- get skbar i ;; zi <- get zkbar i ;; Some (g + si * zi)) f1 ;;
  let gamma := fsqrt (half * gamma) in
  let one_over_2gamma := safediv half gamma in
  s0 <- get skbar 0 ;;
  z0 <- get zkbar 0 ;;
  let a := one_over_2gamma * (s0 + z0) in
  '(q, w) <- for_ 1 p (fun i st =>                                        (* lines 182-185 *)
      let '(q, w) := st in
      si <- get skbar i ;; zi <- get zkbar i ;;
      q <- set q (i - 1)%nat (one_over_2gamma * (si - zi)) ;;
      qi <- get q (i - 1)%nat ;;
      Some (q, w + qi * qi)) (so_q c, f0) ;;
  let temp := f1 + a in                                                   (* lines 190-194 *)
  let cc := f1 + a + safediv w temp in
  let divisor := temp * temp in
  let d := f1 + safediv f2 temp + safediv w divisor in
  let c_square := cc * cc in                                              (* lines 200-204 *)
  let divisor := f1 + w * d in
  let d1 := half * (a * a + w * (f1 - safediv c_square divisor)) in
  let d1 := if d1 <? f0 then f0 else d1 in
  let u0_square := a * a + w - d1 in
  let u0 := fsqrt u0_square in
  let c2byu02 := safediv (cc * cc) u0_square in
  let c2byu02_d := c2byu02 - d in
  let c' := mkSo p skbar zkbar (Some a) (so_d1 c) (Some w) (Some eta) (Some eta_square) q (so_Didx c)
              (so_u0 c) (so_u1 c) (so_v1 c) in
  if c2byu02_d <=? f0 then Some (true, c') else                           (* line 206 *)
  let v1 := fsqrt c2byu02_d in
  let u1 := fsqrt c2byu02 in
  Some (false, mkSo p skbar zkbar (Some a) (Some d1) (Some w) (Some eta) (Some eta_square) q (so_Didx c)
                 (Some u0) (Some u1) (Some v1)).

(* src/cone.c:153-217, the loop over second-order cones, stopping at the first OUTSIDE_CONE *)
Fixpoint updateSocs (l : list (socone F)) (s z : arr F) (k : nat) : option (bool * list (socone F)) :=
  match l with
  | [] => Some (false, [])
  | c :: t =>
      '(out, c') <- updateSoc c s z k ;;
      if out then Some (true, c' :: t) else
      '(out, t') <- updateSocs t s z (k + so_p c)%nat ;;
      Some (out, c' :: t')
  end.

(* src/cone.c:220-226, the loop over exponential cones *)
Fixpoint updateExps (l : list (expcone F)) (z : arr F) (k : nat) (mu : F) : option (list (expcone F)) :=
  match l with
  | [] => Some []
  | e :: t =>
      v <- evalExpHessian z k (ex_v e) mu ;;
      g <- evalExpGradient z k (ex_g e) ;;
      t' <- updateExps t z (k + 3)%nat mu ;;
      Some (mkEx (ex_colstart e) v g :: t')
  end.

(* src/cone.c:136-232 updateScalings; returns OUTSIDE_CONE?, the cone and lambda *)
Definition updateScalings (C : cone F) (s z lambda : arr F) (mu : F) : option (bool * cone F * arr F) :=
  let lp := co_lpc C in
  '(v, w) <- for_ 0 (lpp C) (fun i st =>                                  (* lines 150-153 *)
      let '(v, w) := st in
      si <- get s i ;; zi <- get z i ;;
      v <- set v i (safediv si zi) ;;
      vi <- get v i ;;
      w <- set w i (fsqrt vi) ;;
      Some (v, w)) (lp_v lp, lp_w lp) ;;
  let lp := mkLp (lp_p lp) w v (lp_kkt_idx lp) in
  '(out, soc) <- updateSocs (co_soc C) s z (lpp C) ;;
  if out then Some (true, mkCone lp soc (co_expc C) (co_fexv C), lambda) else
  expc <- updateExps (co_expc C) z (co_fexv C) mu ;;
  let C := mkCone lp soc expc (co_fexv C) in
  lambda <- scale z C lambda ;;                                           (* line 229 *)
  Some (false, C, lambda).

(* src/cone.c:236-268 evalSymmetricBarrierValue; D is passed as a pfloat *)
Definition evalSymmetricBarrierValue (siter ziter : arr F) (tauIter kapIter : F) (C : cone F) (D : F) : option F :=
  barrier <- for_ 0 (lpp C) (fun k barrier =>
      sk <- get siter k ;; zk <- get ziter k ;;
      Some (barrier - (if (sk <=? f0) || (zk <=? f0) then finf else flog sk + flog zk))) f0 ;;
  let barrier := barrier - (if (tauIter <=? f0) || (kapIter <=? f0) then finf else flog tauIter + flog kapIter) in
  '(barrier, _) <- for_each (co_soc C) (fun c st =>
      let '(barrier, k) := st in
      sk <- get siter k ;; zk <- get ziter k ;;
      '(nS, nZ) <- for_ 1 (so_p c) (fun j acc =>
          let '(nS, nZ) := acc in
          sj <- get siter (k + j)%nat ;; zj <- get ziter (k + j)%nat ;;
          Some (nS - sj * sj, nZ - zj * zj)) (sk * sk, zk * zk) ;;
      let barrier := barrier - (if nS <=? f0 then finf else half * flog nS) in
      let barrier := barrier - (if nZ <=? f0 then finf else half * flog nZ) in
      Some (barrier, (k + Nat.max 1 (so_p c))%nat)) (barrier, lpp C) ;;
  Some (barrier - D - f1).

(* src/cone.c:523-534 getSOCDetails is inlined: the fields are read directly *)

(* src/cone.c:313-410 scale2add, y += W^2 x in expanded coordinates *)
Definition scale2add (x y : arr F) (C : cone F) : option (arr F) :=
  y <- for_ 0 (lpp C) (fun i y =>
      yi <- get y i ;; vi <- get (lp_v (co_lpc C)) i ;; xi <- get x i ;;
      set y i (yi + vi * xi)) y ;;
  '(y, k) <- for_each (co_soc C) (fun c st =>
      let '(y, k) := st in
      let cs := so_p c in
      es <- so_eta_square c ;; d1 <- so_d1 c ;; u0 <- so_u0 c ;; u1 <- so_u1 c ;; v1 <- so_v1 c ;;
      x1 <- get x k ;;
      x3 <- get x (k + cs)%nat ;;
      x4 <- get x (k + cs + 1)%nat ;;
      y1 <- get y k ;;
      y <- set y k (y1 + es * (d1 * x1 + u0 * x4)) ;;
      let vu := v1 * x3 + u1 * x4 in
      '(y, qtx2) <- for_ 0 (cs - 1) (fun i st =>
          let '(y, qtx2) := st in
          yi <- get y (k + 1 + i)%nat ;; xi <- get x (k + 1 + i)%nat ;; qi <- get (so_q c) i ;;
          y <- set y (k + 1 + i)%nat (yi + es * (xi + vu * qi)) ;;
          Some (y, qtx2 + qi * xi)) (y, f0) ;;
      y3 <- get y (k + cs)%nat ;;
      y <- set y (k + cs)%nat (y3 + es * (v1 * qtx2 + x3)) ;;
      y4 <- get y (k + cs + 1)%nat ;;
      y <- set y (k + cs + 1)%nat (y4 + es * (u0 * x1 + u1 * qtx2 - x4)) ;;
      Some (y, (k + cs + 2)%nat)) (y, lpp C) ;;
  scaleToAddExpcone y x (co_expc C) k.

(* src/cone.c:416-444 unscale, z = W\lambda *)
Definition unscale (lambda : arr F) (C : cone F) (z : arr F) : option (arr F) :=
  z <- for_ 0 (lpp C) (fun i z =>
      li <- get lambda i ;; wi <- get (lp_w (co_lpc C)) i ;; set z i (safediv li wi)) z ;;
  '(z, _) <- for_each (co_soc C) (fun c st =>
      let '(z, k) := st in
      a <- so_a c ;;
      eta <- so_eta c ;;
      zeta <- for_ 1 (so_p c) (fun i zeta =>
         qi <- get (so_q c) (i - 1)%nat ;; li <- get lambda (k + i)%nat ;; Some (zeta + qi * li)) f0 ;;
      l0 <- get lambda k ;;
      let factor := - l0 + safediv zeta (f1 + a) in
      z <- set z k (safediv (a * l0 - zeta) eta) ;;
      z <- for_ 1 (so_p c) (fun i z =>
         lj <- get lambda (k + i)%nat ;; qi <- get (so_q c) (i - 1)%nat ;;
         set z (k + i)%nat (safediv (lj + factor * qi) eta)) z ;;
      Some (z, (k + so_p c)%nat)) (z, lpp C) ;;
  Some z.

Definition cabs (x : F) : F := if x <? f0 then - x else x.        (* w[k] < 0 ? -w[k] : w[k] *)

(* src/spla.c:159-164 eddot with both pointers advanced by k *)
Definition eddot_at (n k : nat) (x y : arr F) : option F :=
  for_ 0 n (fun i z => xi <- get x (k + i)%nat ;; yi <- get y (k + i)%nat ;; Some (z + xi * yi)) f0.

(* src/cone.c:452-481 conicProduct; returns mu and w.  k and cone_start run in lockstep *)
Definition conicProduct (u v : arr F) (C : cone F) (w : arr F) : option (F * arr F) :=
  '(mu, w) <- for_ 0 (lpp C) (fun i st =>
      let '(mu, w) := st in
      ui <- get u i ;; vi <- get v i ;;
      w <- set w i (ui * vi) ;;
      Some (mu + cabs (ui * vi), w)) (f0, w) ;;
  '(mu, w, _) <- for_each (co_soc C) (fun c st =>
      let '(mu, w, k) := st in
      u0 <- get u k ;; v0 <- get v k ;;
      d <- eddot_at (so_p c) k u v ;;
      w <- set w k d ;;
      w <- for_ 1 (so_p c) (fun j w =>
          vj <- get v (k + j)%nat ;; uj <- get u (k + j)%nat ;;
          set w (k + j)%nat (u0 * vj + v0 * uj)) w ;;
      Some (mu + cabs d, w, (k + so_p c)%nat)) (mu, w, lpp C) ;;
  Some (mu, w).

(* src/cone.c:488-517 conicDivision, v = u \ w *)
Definition conicDivision (u w : arr F) (C : cone F) (v : arr F) : option (arr F) :=
  v <- for_ 0 (lpp C) (fun i v =>
      wi <- get w i ;; ui <- get u i ;; set v i (safediv wi ui)) v ;;
  '(v, _) <- for_each (co_soc C) (fun c st =>
      let '(v, k) := st in
      u0 <- get u k ;; w0 <- get w k ;;
      '(rho, zeta) <- for_ 1 (so_p c) (fun j acc =>
          let '(rho, zeta) := acc in
          uj <- get u (k + j)%nat ;; wj <- get w (k + j)%nat ;;
          Some (rho - uj * uj, zeta + uj * wj)) (u0 * u0, f0) ;;
      let temp := safediv zeta u0 - w0 in
      let factor := safediv temp rho in
      let temp := u0 * w0 - zeta in
      v <- set v k (safediv temp rho) ;;
      v <- for_ 1 (so_p c) (fun j v =>
          uj <- get u (k + j)%nat ;; wj <- get w (k + j)%nat ;;
          set v (k + j)%nat (factor * uj + safediv wj u0)) v ;;
      Some (v, (k + so_p c)%nat)) (v, lpp C) ;;
  Some v.

(* dst[j+i] = Px[Pinv[k+i]] for i < cnt: the copy loops of unstretch *)
Definition gather (Px : arr F) (Pinv : arr nat) (k cnt : nat) (dst : arr F) (j : nat) : option (arr F) :=
  for_ 0 cnt (fun i dst =>
    pk <- get Pinv (k + i)%nat ;; v <- get Px pk ;; set dst (j + i)%nat v) dst.

(* src/cone.c:541-561 unstretch *)
Definition unstretch (n p : nat) (C : cone F) (Pinv : arr nat) (Px dx dy dz : arr F)
  : option (arr F * arr F * arr F) :=
  dx <- gather Px Pinv 0 n dx 0 ;;
  dy <- gather Px Pinv n p dy 0 ;;
  dz <- gather Px Pinv (n + p) (lpp C) dz 0 ;;
  '(dz, k, j) <- for_each (co_soc C) (fun c st =>
      let '(dz, k, j) := st in
      dz <- gather Px Pinv k (so_p c) dz j ;;
      Some (dz, (k + so_p c + 2)%nat, (j + so_p c)%nat)) (dz, (n + p + lpp C)%nat, lpp C) ;;
  '(dz, _, _) <- for_each (co_expc C) (fun _ st =>
      let '(dz, k, j) := st in
      dz <- gather Px Pinv k 3 dz j ;;
      Some (dz, (k + 3)%nat, (j + 3)%nat)) (dz, k, j) ;;
  Some (dx, dy, dz).

End Cone.
