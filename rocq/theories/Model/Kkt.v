(* Model of src/kkt.c. *)
From Coq Require Import List Arith Bool ZArith QArith.
From Verif Require Import Base Num.
From Verif.Model Require Import Spla Types Consts Expcone Cone Ldl.
Import ListNotations.
Open Scope nat_scope.

Section Kkt.
Context `{O : Ops}.
Local Open Scope fl_scope.

(* src/kkt.c:38-70 kkt_factor.  LDL_numeric2 always returns n, so the return
   code is always KKT_OK: [Some (true, KKT')]. *)
Definition kkt_factor (K : kkt F) (eps delta : F) : option (bool * kkt F) :=
  let A := kk_PKPt K in
  let L := kk_L K in
  '(Lnz, Li, Lx, D, Y, Pattern, Flag) <-
    LDL_numeric2 (sp_n A) (sp_jc A) (sp_ir A) (sp_pr A) (sp_jc L) (kk_Parent K) (kk_Sign K) eps delta
      (kk_Lnz K) (sp_ir L) (sp_pr L) (kk_D K) (kk_work1 K) (kk_Pattern K) (kk_Flag K) ;;
  let nd := sp_n A in
  let K := set_kk_L K (mkSp (sp_jc L) Li Lx (sp_n L) (sp_m L) (sp_nnz L)) in
  let K := set_kk_Lnz (set_kk_D K D) Lnz in
  let K := set_kk_Flag (set_kk_Pattern (set_kk_work1 K Y) Pattern) Flag in
  Some (Nat.eqb nd (sp_n A), K).

(* forward - diagonal - backward solve, src/kkt.c:120-122 and 249-251 *)
Definition ldl_solve (K : kkt F) (b x : arr F) : option (arr F) :=
  let nK := sp_n (kk_PKPt K) in
  let L := kk_L K in
  x <- LDL_lsolve2 nK b (sp_jc L) (sp_ir L) (sp_pr L) x ;;
  x <- LDL_dsolve nK x (kk_D K) ;;
  LDL_ltsolve nK x (sp_jc L) (sp_ir L) (sp_pr L).

(* src/kkt.c:141-216, the error term e = [ex; ey; ez] of the current dx, dy, dz
   and truez.  e is one array, ex at offset 0, ey at n, ez at n+p.  Because the
   C pointers ex and ey are into e, sparseMtVm(A, dy, ex) and sparseMV(A, dx, ey)
   work on a section of e: here each section is computed on a scratch array of
   its own and copied.  Returns nex, ney, nez, e, truez, Gdx. *)
Definition sect (e : arr F) (off len : nat) : arr F := firstn len (skipn off e).
Definition unsect (e : arr F) (off : nat) (x : arr F) : arr F := firstn off e ++ x ++ skipn (off + length x) e.

Definition kkt_error (A : option (spmat F)) (G : spmat F) (Pb : arr F) (Pinv : arr nat)
  (dx dy dz : arr F) (n p m : nat) (C : cone F) (isinit : bool) (Px e truez Gdx : arr F)
  : option (F * F * F * arr F * arr F * arr F) :=
  let mtilde := (m + 2 * nsoc C)%nat in
  _ <- guard (n + p + mtilde <=? length e)%nat ;;
  let ex := sect e 0 n in
  ex <- for_ 0 n (fun i ex =>                                         (* line 146 *)
      pk <- get Pinv i ;; b <- get Pb pk ;; d <- get dx i ;; set ex i (b - DELTASTAT * d)) ex ;;
  ex <- (match A with None => Some ex | Some A => sparseMtVm A dy ex 0 false end) ;;
  ex <- sparseMtVm G dz ex 0 false ;;
  nex <- norminf ex n ;;
  let ey := sect e n p in
  '(ey, ney) <- (if Nat.ltb 0 p then                                  (* lines 156-166 *)
       ey <- for_ 0 p (fun i ey =>
          pk <- get Pinv (n + i)%nat ;; b <- get Pb pk ;; d <- get dy i ;; set ey i (b + DELTASTAT * d)) ey ;;
       A <- A ;;
       ey <- sparseMV A dx ey (-1) 0 ;;
       ney <- norminf ey p ;;
       Some (ey, ney)
     else Some (ey, f0)) ;;
  let ez := sect e (n + p) mtilde in
  Gdx <- sparseMV G dx Gdx 1 1 ;;                                     (* line 174 *)
  ez <- for_ 0 (lpp C) (fun i ez =>                                   (* lines 175-181 *)
      pk <- get Pinv (n + p + i)%nat ;; b <- get Pb pk ;; g <- get Gdx i ;; d <- get dz i ;;
      set ez i (b - g + DELTASTAT * d)) ez ;;
  '(ez, kk, j) <- for_each (co_soc C) (fun c st =>                    (* lines 182-196 *)
      let '(ez, kk, j) := st in
      ez <- for_ 0 (so_p c) (fun i ez =>
          pk <- get Pinv (n + p + kk + i)%nat ;; b <- get Pb pk ;;
          g <- get Gdx (j + i)%nat ;; d <- get dz (j + i)%nat ;;
          set ez (kk + i)%nat
            (if Nat.ltb i (so_p c - 1) then b - g + DELTASTAT * d else b - g - DELTASTAT * d)) ez ;;
      ez <- set ez (kk + so_p c)%nat f0 ;;
      ez <- set ez (kk + so_p c + 1)%nat f0 ;;
      Some (ez, (kk + so_p c + 2)%nat, (j + so_p c)%nat)) (ez, lpp C, lpp C) ;;
  '(ez, _, _) <- for_each (co_expc C) (fun _ st =>                    (* lines 198-208 *)
      let '(ez, kk, j) := st in
      ez <- for_ 0 3 (fun i ez =>
          pk <- get Pinv (n + p + kk + i)%nat ;; b <- get Pb pk ;;
          g <- get Gdx (j + i)%nat ;; d <- get dz (j + i)%nat ;;
          set ez (kk + i)%nat (b - g + DELTASTAT * d)) ez ;;
      Some (ez, (kk + 3)%nat, (j + 3)%nat)) (ez, kk, j) ;;
  truez <- for_ 0 mtilde (fun i t =>                                  (* line 210 *)
      pk <- get Pinv (n + p + i)%nat ;; v <- get Px pk ;; set t i v) truez ;;
  ez <- (if isinit then vadd mtilde truez ez else scale2add truez ez C) ;;
  nez <- norminf ez mtilde ;;
  Some (nex, ney, nez, unsect (unsect (unsect e 0 ex) n ey) (n + p) ez, truez, Gdx).

(* the mutable state of the refinement loop: Px, dPx, e, Pe, truez, Gdx, dx, dy, dz *)
Definition ir_state : Type :=
  (arr F * arr F * arr F * arr F * arr F * arr F * arr F * arr F * arr F)%type.

(* src/kkt.c:135-255, the refinement loop from iteration kItRef on, with
   fuel = nitref + 1 - kItRef; nerr_prev is meaningless when kItRef = 0.
   Returns the number of refinement steps taken. *)
Fixpoint kkt_refine (fuel : nat) (kIt nitref : Z) (K : kkt F) (A : option (spmat F)) (G : spmat F) (Pb : arr F)
  (n p m : nat) (C : cone F) (isinit : bool) (thr nerr_prev : F) (st : ir_state) : option (Z * ir_state) :=
  match fuel with
  | 0%nat => Some (kIt, st)                            (* loop condition kItRef <= nitref fails *)
  | Datatypes.S fuel =>
      let '(Px, dPx, e, Pe, truez, Gdx, dx, dy, dz) := st in
      let nK := sp_n (kk_PKPt K) in
      '(dx, dy, dz) <- unstretch n p C (kk_Pinv K) Px dx dy dz ;;
      '(nex, ney, nez, e, truez, Gdx) <-
         kkt_error A G Pb (kk_Pinv K) dx dy dz n p m C isinit Px e truez Gdx ;;
      let nerr := fmax nex nez in                                        (* lines 228-229 *)
      let nerr := if Nat.ltb 0 p then fmax nerr ney else nerr in
      if ((0 <? kIt)%Z && (nerr >? nerr_prev))%bool then                 (* lines 232-237 *)
        Px <- for_ 0 nK (fun i Px => x <- get Px i ;; d <- get dPx i ;; set Px i (x - d)) Px ;;
        Some ((kIt - 1)%Z, (Px, dPx, e, Pe, truez, Gdx, dx, dy, dz))
      else if ((kIt =? nitref)%Z || (nerr <? thr) || ((0 <? kIt)%Z && (nerr_prev <? IRERRFACT * nerr)))%bool
      then Some (kIt, (Px, dPx, e, Pe, truez, Gdx, dx, dy, dz))          (* line 240 *)
      else
        Pe <- for_ 0 nK (fun i Pe => pi <- get (kk_Pinv K) i ;; ei <- get e i ;; set Pe pi ei) Pe ;;
        dPx <- ldl_solve K Pe dPx ;;
        Px <- for_ 0 nK (fun i Px => x <- get Px i ;; d <- get dPx i ;; set Px i (x + d)) Px ;;
        kkt_refine fuel (kIt + 1)%Z nitref K A G Pb n p m C isinit thr nerr
          (Px, dPx, e, Pe, truez, Gdx, dx, dy, dz)
  end.

(* src/kkt.c:87-265 kkt_solve.  Pb, dx, dy, dz are passed and dx, dy, dz
   returned next to the updated kkt (work1..work6) and the return value. *)
Definition kkt_solve (K : kkt F) (A : option (spmat F)) (G : spmat F) (Pb dx dy dz : arr F)
  (n p m : nat) (C : cone F) (isinit : bool) (nitref : Z)
  : option (Z * kkt F * arr F * arr F * arr F) :=
  nb <- norminf Pb (n + p + (m + 2 * nsoc C))%nat ;;
  let bnorm := f1 + nb in
  let thr := bnorm * LINSYSACC in
  Px <- ldl_solve K Pb (kk_work1 K) ;;
  '(kIt, st) <- kkt_refine (Z.to_nat (nitref + 1)) 0 nitref K A G Pb n p m C isinit thr fnan
      (Px, kk_work2 K, kk_work3 K, kk_work4 K, kk_work5 K, kk_work6 K, dx, dy, dz) ;;
  let '(Px, dPx, e, Pe, truez, Gdx, dx, dy, dz) := st in
  '(dx, dy, dz) <- unstretch n p C (kk_Pinv K) Px dx dy dz ;;            (* line 262 *)
  let K := set_kk_work3 (set_kk_work2 (set_kk_work1 K Px) dPx) e in
  let K := set_kk_work6 (set_kk_work5 (set_kk_work4 K Pe) truez) Gdx in
  Some (kIt, K, dx, dy, dz).

(* PKP->pr[P[k]] = v *)
Definition setK (P : arr nat) (pr : arr F) (k : nat) (v : F) : option (arr F) :=
  pk <- get P k ;; set pr pk v.

(* src/kkt.c:287-317: one second-order cone; Dv, vv, uv give the values of the
   D, v and u columns (kkt_update and kkt_init write the same cells) *)
Definition kkt_write_soc (P : arr nat) (c : socone F) (D0 D1 : F) (v : nat -> option F) (vd u0 : F)
  (u : nat -> option F) (ud : F) (pr : arr F) : option (arr F) :=
  let cs := so_p c in
  let m1 := (cs - 1)%nat in
  d0 <- get (so_Didx c) 0 ;;
  pr <- setK P pr d0 D0 ;;
  pr <- for_ 1 cs (fun k pr => dk <- get (so_Didx c) k ;; setK P pr dk D1) pr ;;
  dm <- get (so_Didx c) m1 ;;
  pr <- for_ 0 m1 (fun k pr => x <- v k ;; setK P pr (dm + (1 + k))%nat x) pr ;;
  pr <- setK P pr (dm + (1 + m1))%nat vd ;;
  pr <- setK P pr (dm + (2 + m1))%nat u0 ;;
  pr <- for_ 0 m1 (fun k pr => x <- u k ;; setK P pr (dm + (3 + m1 + k))%nat x) pr ;;
  setK P pr (dm + (3 + m1 + m1))%nat ud.

(* src/kkt.c:271-357 kkt_update; returns PKP->pr *)
Definition kkt_update (pr : arr F) (P : arr nat) (C : cone F) : option (arr F) :=
  let lp := co_lpc C in
  pr <- for_ 0 (lpp C) (fun i pr =>                                      (* line 284 *)
      k <- get (lp_kkt_idx lp) i ;; v <- get (lp_v lp) i ;; setK P pr k (- v - DELTASTAT)) pr ;;
  pr <- for_each (co_soc C) (fun c pr =>                                 (* lines 287-317 *)
      es <- so_eta_square c ;; d1 <- so_d1 c ;; u0 <- so_u0 c ;; u1 <- so_u1 c ;; v1 <- so_v1 c ;;
      kkt_write_soc P c (- es * d1 - DELTASTAT) (- es - DELTASTAT)
        (fun k => q <- get (so_q c) k ;; Some (- es * v1 * q)) (- es)
        (- es * u0) (fun k => q <- get (so_q c) k ;; Some (- es * u1 * q)) (es + DELTASTAT) pr) pr ;;
  for_each (co_expc C) (fun e pr =>                                      (* lines 344-353 *)
      c0 <- get (ex_colstart e) 0 ;; c1 <- get (ex_colstart e) 1 ;; c2 <- get (ex_colstart e) 2 ;;
      v0 <- get (ex_v e) 0 ;; v1 <- get (ex_v e) 1 ;; v2 <- get (ex_v e) 2 ;;
      v3 <- get (ex_v e) 3 ;; v4 <- get (ex_v e) 4 ;; v5 <- get (ex_v e) 5 ;;
      pr <- setK P pr c0 (- v0 - DELTASTAT) ;;
      pr <- setK P pr c1 (- v1) ;;
      pr <- setK P pr (c1 + 1)%nat (- v2 - DELTASTAT) ;;
      pr <- setK P pr c2 (- v3) ;;
      pr <- setK P pr (c2 + 1)%nat (- v4) ;;
      setK P pr (c2 + 2)%nat (- v5 - DELTASTAT)) pr.

(* src/kkt.c:373-446 kkt_init; returns PKP->pr *)
Definition kkt_init (pr : arr F) (P : arr nat) (C : cone F) : option (arr F) :=
  pr <- for_ 0 (lpp C) (fun i pr =>
      k <- get (lp_kkt_idx (co_lpc C)) i ;; setK P pr k (- f1)) pr ;;
  for_each (co_soc C) (fun c pr =>
      kkt_write_soc P c (- f1) (- f1) (fun _ => Some f0) (- f1) f0 (fun _ => Some f0) f1 pr) pr.

End Kkt.
