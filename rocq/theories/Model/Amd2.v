(* Pivot selection: external/amd/src/amd_aat.c, amd_1.c and amd_2.c up to line
   1603.  Int is Z without overflow; debugging code (NDEBUG is defined), the Info
   and Control arrays and the counters that only feed Info (ncmpa, ndense, lnz,
   ndiv, ...) are left out.  A loop that does not end is [None]. *)
From Coq Require Import List Arith ZArith Bool.
From Verif Require Import Base.
From Verif.Model Require Import Amd.
Import ListNotations.
Open Scope Z_scope.

(* ------------------------------------------------------- amd_aat.c:20-184 *)

(* The two routines scan the columns in the same way; what they do with an
   off-diagonal pair (i, j) of A+A' is [pair].  S is the state of pair. *)
Section Scan.
Context {S : Type}.
Variable pair : Z -> Z -> S -> option S.
Variables Ap Ai : arr Z.

(* amd_aat.c:99-124, amd_1.c:121-147: the strictly lower part of column j up to
   row k, from pj on; the loop ends at pj2 or with a break *)
Definition scan_lower (k j pj2 : Z) (pj : Z) (s : S) : option (Z * S) :=
  '(pj, _, s) <- while_ (Z.to_nat (pj2 - pj) + 1)
    (fun '(pj, go, s) => Some (go && (pj <? pj2)))
    (fun '(pj, go, s) =>
       i <- getz Ai pj ;;
       if i <? k then s <- pair i j s ;; Some (pj + 1, true, s)
       else if i =? k then Some (pj + 1, false, s)
       else Some (pj, false, s)) (pj, true, s) ;;
  Some (pj, s).

(* amd_aat.c:64-125, amd_1.c:91-149: column k down to its diagonal *)
Definition scan_column (k p2 : Z) (p : Z) (Tp : arr Z) (s : S) : option (Z * arr Z * S) :=
  '(p, _, Tp, s) <- while_ (Z.to_nat (p2 - p) + 1)
    (fun '(p, go, Tp, s) => Some (go && (p <? p2)))
    (fun '(p, go, Tp, s) =>
       j <- getz Ai p ;;
       if j <? k then
         s <- pair j k s ;;
         pj2 <- getz Ap (j + 1) ;;
         t <- getz Tp j ;;
         '(pj, s) <- scan_lower k j pj2 t s ;;
         Tp <- setz Tp j pj ;;
         Some (p + 1, true, Tp, s)
       else if j =? k then Some (p + 1, false, Tp, s)
       else Some (p, false, Tp, s)) (p, true, Tp, s) ;;
  Some (p, Tp, s).

(* amd_aat.c:59-127 and 129-142, amd_1.c:86-151 and 153-166 *)
Definition scan_all (n : nat) (Tp : arr Z) (s : S) : option S :=
  '(Tp, s) <- for_ 0 n (fun k '(Tp, s) =>
     p1 <- get Ap k ;;
     p2 <- get Ap (k + 1) ;;
     '(p, Tp, s) <- scan_column (Z.of_nat k) p2 p1 Tp s ;;
     Tp <- set Tp k p ;;
     Some (Tp, s)) (Tp, s) ;;
  for_ 0 n (fun j s =>
     t <- get Tp j ;;
     e <- get Ap (j + 1) ;;
     for_loop 0 (Z.to_nat (e - t)) (fun q s =>
       i <- getz Ai (t + Z.of_nat q) ;; pair i (Z.of_nat j) s) s) s.
End Scan.

(* amd_aat.c:75-76, 106-107, 137-138: Len [i]++ ; Len [j]++ *)
Definition count_pair (i j : Z) (Len : arr Z) : option (arr Z) :=
  a <- getz Len i ;; Len <- setz Len i (a + 1) ;; b <- getz Len j ;; setz Len j (b + 1).

(* returns Len and nzaat *)
Definition AMD_aat (n : nat) (Ap Ai Len Tp : arr Z) : option (arr Z * Z) :=
  Len <- for_ 0 n (fun k Len => set Len k 0) Len ;;
  Len <- scan_all count_pair Ap Ai n Tp Len ;;
  nzaat <- for_ 0 n (fun k z => l <- get Len k ;; Some (z + l)) 0 ;;
  Some (Len, nzaat).

(* --------------------------------------------------------- amd_1.c:29-180 *)

(* amd_1.c:102-103, 130-131, 161-162: Iw [Sp [i]++] = j ; Iw [Sp [j]++] = i *)
Definition store_pair (i j : Z) (st : arr Z * arr Z) : option (arr Z * arr Z) :=
  let '(Iw, Sp) := st in
  a <- getz Sp i ;; Sp <- setz Sp i (a + 1) ;; Iw <- setz Iw a j ;;
  b <- getz Sp j ;; Sp <- setz Sp j (b + 1) ;; Iw <- setz Iw b i ;;
  Some (Iw, Sp).

(* lines 66-166: the graph of A+A' for AMD_2; returns Pe, Iw, pfree.  Sp and Tp
   are the arrays Nv and W, which AMD_2 rewrites before reading.  (In the code the
   upper scan stores (j, k) in the order Iw [Sp [j]++] = k ; Iw [Sp [k]++] = j.) *)
Definition AMD_1_graph (n : nat) (Ap Ai Len : arr Z) (Pe Iw Sp Tp : arr Z) : option (arr Z * arr Z * Z) :=
  '(Pe, Sp, pfree) <- for_ 0 n (fun j '(Pe, Sp, pfree) =>
     Pe <- set Pe j pfree ;; Sp <- set Sp j pfree ;; l <- get Len j ;; Some (Pe, Sp, pfree + l)) (Pe, Sp, 0) ;;
  '(Iw, _) <- scan_all store_pair Ap Ai n Tp (Iw, Sp) ;;
  Some (Pe, Iw, pfree).

(* -------------------------------------------------------- amd_2.c:22-35 *)

Definition clear_flag (wflg wbig : Z) (W : arr Z) (n : nat) : option (Z * arr Z) :=
  if (wflg <? 2) || (wbig <=? wflg) then
    W <- for_ 0 n (fun x W => v <- get W x ;; if negb (v =? 0) then set W x 1 else Some W) W ;;
    Some (2, W)
  else Some (wflg, W).

(* ----------------------------------------------------- the degree lists *)

(* Head, Next, Last *)
Definition lists := (arr Z * arr Z * arr Z)%type.

(* lines 674-678, 1473-1478: put i at the head of the list of degree deg; the
   first of the two does not write Last [i], which is EMPTY already (line 618) *)
Definition link (i deg : Z) (l : lists) : option lists :=
  let '(Head, Next, Last) := l in
  inext <- getz Head deg ;;
  Last <- (if negb (inext =? EMPTY) then setz Last inext i else Some Last) ;;
  Next <- setz Next i inext ;;
  Last <- setz Last i EMPTY ;;
  Head <- setz Head deg i ;;
  Some (Head, Next, Last).

(* lines 795-811, 955-971: take i out of its list *)
Definition unlink (Degree : arr Z) (i : Z) (l : lists) : option lists :=
  let '(Head, Next, Last) := l in
  ilast <- getz Last i ;;
  inext <- getz Next i ;;
  Last <- (if negb (inext =? EMPTY) then setz Last inext ilast else Some Last) ;;
  if negb (ilast =? EMPTY) then Next <- setz Next ilast inext ;; Some (Head, Next, Last)
  else d <- getz Degree i ;; Head <- setz Head d inext ;; Some (Head, Next, Last).

(* --------------------------------------------- amd_2.c:614-690, initialisation *)

(* the quotient graph and the lists.  Iw has iwlen cells. *)
Record quotient := Quotient {
  q_pe : arr Z; q_iw : arr Z; q_len : arr Z; q_pfree : Z;
  q_nv : arr Z; q_elen : arr Z; q_deg : arr Z; q_w : arr Z; q_wflg : Z;
  q_lists : lists; q_mindeg : Z; q_nel : Z; q_lemax : Z }.

(* lines 638-690: empty rows become elements, dense rows leave the graph; the
   others go to the degree lists.  State: Pe, Nv, Elen, W, lists, nel. *)
Definition init_row (dense : Z) (Degree : arr Z) (i : nat) (st : arr Z * arr Z * arr Z * arr Z * lists * Z)
  : option (arr Z * arr Z * arr Z * arr Z * lists * Z) :=
  let '(Pe, Nv, Elen, W, l, nel) := st in
  deg <- get Degree i ;;
  if deg =? 0 then
    Elen <- set Elen i (FLIP 1) ;; Pe <- set Pe i EMPTY ;; W <- set W i 0 ;; Some (Pe, Nv, Elen, W, l, nel + 1)
  else if deg >? dense then
    Nv <- set Nv i 0 ;; Elen <- set Elen i EMPTY ;; Pe <- set Pe i EMPTY ;; Some (Pe, Nv, Elen, W, l, nel + 1)
  else l <- link (Z.of_nat i) deg l ;; Some (Pe, Nv, Elen, W, l, nel).

(* lines 579-690.  The threshold [dense] of lines 595-606 is a parameter; a, b, ...
   are the arrays as they come from AMD_1 *)
Definition amd2_init (dense wbig : Z) (n : nat) (Pe Iw Len : arr Z) (pfree : Z) (Nv Next Last Head Elen Degree W : arr Z)
  : option quotient :=
  Last <- for_ 0 n (fun i a => set a i EMPTY) Last ;;
  Head <- for_ 0 n (fun i a => set a i EMPTY) Head ;;
  Next <- for_ 0 n (fun i a => set a i EMPTY) Next ;;
  Nv <- for_ 0 n (fun i a => set a i 1) Nv ;;
  W <- for_ 0 n (fun i a => set a i 1) W ;;
  Elen <- for_ 0 n (fun i a => set a i 0) Elen ;;
  Degree <- for_ 0 n (fun i a => l <- get Len i ;; set a i l) Degree ;;
  '(wflg, W) <- clear_flag 0 wbig W n ;;
  '(Pe, Nv, Elen, W, l, nel) <- for_ 0 n (init_row dense Degree) (Pe, Nv, Elen, W, (Head, Next, Last), 0) ;;
  Some (Quotient Pe Iw Len pfree Nv Elen Degree W wflg l 0 nel 0).

(* --------------------------------------------- amd_2.c:718-754, choosing the pivot *)

(* lines 719-724: the first degree from deg on with a non-empty list; c degrees are
   left.  Without one me is the last head read (EMPTY) *)
Fixpoint find_degree (c : nat) (deg me : Z) (Head : arr Z) : option (Z * Z) :=
  match c with
  | O => Some (deg, me)
  | S c => me <- getz Head deg ;; if negb (me =? EMPTY) then Some (deg, me) else find_degree c (deg + 1) me Head
  end.

(* lines 718-737; returns me, mindeg, lists *)
Definition choose_pivot (n : nat) (mindeg : Z) (l : lists) : option (Z * Z * lists) :=
  let '(Head, Next, Last) := l in
  '(deg, me) <- find_degree (Z.to_nat (Z.of_nat n - mindeg)) mindeg EMPTY Head ;;
  inext <- getz Next me ;;
  Last <- (if negb (inext =? EMPTY) then setz Last inext EMPTY else Some Last) ;;
  Head <- setz Head deg inext ;;
  Some (me, deg, (Head, Next, Last)).

(* --------------------------------------------- amd_2.c:756-998, the new element *)

(* lines 771-813: in place; returns pme2, degme, Iw, Nv, lists *)
Definition build_in_place (Degree : arr Z) (pme1 len : Z) (Iw Nv : arr Z) (l : lists)
  : option (Z * Z * arr Z * arr Z * lists) :=
  for_loop 0 (Z.to_nat len) (fun k '(pme2, degme, Iw, Nv, l) =>
    i <- getz Iw (pme1 + Z.of_nat k) ;;
    nvi <- getz Nv i ;;
    if nvi >? 0 then
      Nv <- setz Nv i (- nvi) ;;
      Iw <- setz Iw (pme2 + 1) i ;;
      l <- unlink Degree i l ;;
      Some (pme2 + 1, degme + nvi, Iw, Nv, l)
    else Some (pme2, degme, Iw, Nv, l)) (pme1 - 1, 0, Iw, Nv, l).

(* lines 891-901: FLIP the first entry of each object *)
Definition mark_objects (n : nat) (st : arr Z * arr Z) : option (arr Z * arr Z) :=
  for_ 0 n (fun j '(Pe, Iw) =>
    pn <- get Pe j ;;
    if pn >=? 0 then
      v <- getz Iw pn ;; Pe <- set Pe j v ;; Iw <- setz Iw pn (FLIP (Z.of_nat j)) ;; Some (Pe, Iw)
    else Some (Pe, Iw)) st.

(* lines 909-925: while (psrc <= pend); the state is psrc, pdst, Pe, Iw *)
Definition move_object (Len : arr Z) (st : Z * Z * arr Z * arr Z) : option (Z * Z * arr Z * arr Z) :=
  let '(psrc, pdst, Pe, Iw) := st in
  v <- getz Iw psrc ;;
  let psrc := psrc + 1 in
  let j := FLIP v in
  if j >=? 0 then
    v <- getz Pe j ;;
    Iw <- setz Iw pdst v ;;
    Pe <- setz Pe j pdst ;;
    lenj <- getz Len j ;;
    '(psrc, pdst, Iw) <- for_loop 0 (Z.to_nat (lenj - 1)) (fun _ '(psrc, pdst, Iw) =>
       v <- getz Iw psrc ;; Iw <- setz Iw pdst v ;; Some (psrc + 1, pdst + 1, Iw)) (psrc, pdst + 1, Iw) ;;
    Some (psrc, pdst, Pe, Iw)
  else Some (psrc, pdst, Pe, Iw).

(* lines 891-934: returns pme1, pfree, Pe, Iw *)
Definition collect_garbage (n : nat) (pme1 pfree : Z) (Len Pe Iw : arr Z) : option (Z * Z * arr Z * arr Z) :=
  '(Pe, Iw) <- mark_objects n (Pe, Iw) ;;
  '(_, pdst, Pe, Iw) <- while_ (Z.to_nat pme1 + 1) (fun '(psrc, _, _, _) => Some (psrc <=? pme1 - 1))
                          (move_object Len) (0, 0, Pe, Iw) ;;
  '(pdst', Iw) <- for_loop 0 (Z.to_nat (pfree - pme1)) (fun k '(pdst, Iw) =>
     v <- getz Iw (pme1 + Z.of_nat k) ;; Iw <- setz Iw pdst v ;; Some (pdst + 1, Iw)) (pdst, Iw) ;;
  Some (pdst, pdst', Pe, Iw).

(* the state of the loops that build an element in the free space *)
Record building := Building {
  b_pj : Z; b_p : Z; b_pme1 : Z; b_pfree : Z; b_degme : Z;
  b_pe : arr Z; b_len : arr Z; b_iw : arr Z; b_nv : arr Z; b_lists : lists }.

(* lines 876-936: make room.  Only the remaining entries of me and e are kept. *)
Definition compress (n : nat) (me e knt1 ln knt2 : Z) (b : building) : option building :=
  let '(Building pj p pme1 pfree degme Pe Len Iw Nv l) := b in
  Pe <- setz Pe me p ;;
  lme <- getz Len me ;;
  Len <- setz Len me (lme - knt1) ;;
  Pe <- (if lme - knt1 =? 0 then setz Pe me EMPTY else Some Pe) ;;
  Pe <- setz Pe e pj ;;
  Len <- setz Len e (ln - knt2) ;;
  Pe <- (if ln - knt2 =? 0 then setz Pe e EMPTY else Some Pe) ;;
  '(pme1, pfree, Pe, Iw) <- collect_garbage n pme1 pfree Len Pe Iw ;;
  pj <- getz Pe e ;;
  p <- getz Pe me ;;
  Some (Building pj p pme1 pfree degme Pe Len Iw Nv l).

(* lines 857-973: one entry of e (or of me itself) *)
Definition build_entry (n : nat) (iwlen : Z) (Degree : arr Z) (me e knt1 ln : Z) (k : nat) (b : building)
  : option building :=
  i <- getz (b_iw b) (b_pj b) ;;
  nvi <- getz (b_nv b) i ;;
  let '(Building pj p pme1 pfree degme Pe Len Iw Nv l) := b in
  let b := Building (pj + 1) p pme1 pfree degme Pe Len Iw Nv l in
  if nvi >? 0 then
    '(Building pj p pme1 pfree degme Pe Len Iw Nv l) <-
       (if pfree >=? iwlen then compress n me e knt1 ln (Z.of_nat k + 1) b else Some b) ;;
    Nv <- setz Nv i (- nvi) ;;
    Iw <- setz Iw pfree i ;;
    l <- unlink Degree i l ;;
    Some (Building pj p pme1 (pfree + 1) (degme + nvi) Pe Len Iw Nv l)
  else Some b.

(* lines 826-984: the element number k of me, or, after the last, me itself; W is
   only written *)
Definition build_step (n : nat) (iwlen : Z) (Degree : arr Z) (me elenme slenme : Z) (k : nat) (st : building * arr Z)
  : option (building * arr Z) :=
  let '(Building _ p pme1 pfree degme Pe Len Iw Nv l, W) := st in
  let knt1 := Z.of_nat k + 1 in
  '(e, pj, p, ln) <- (if knt1 >? elenme then Some (me, p, p, slenme)
                      else e <- getz Iw p ;; pj <- getz Pe e ;; ln <- getz Len e ;; Some (e, pj, p + 1, ln)) ;;
  b <- for_loop 0 (Z.to_nat ln) (build_entry n iwlen Degree me e knt1 ln)
         (Building pj p pme1 pfree degme Pe Len Iw Nv l) ;;
  if negb (e =? me) then
    let '(Building pj p pme1 pfree degme Pe Len Iw Nv l) := b in
    Pe <- setz Pe e (FLIP me) ;;
    W <- setz W e 0 ;;
    Some (Building pj p pme1 pfree degme Pe Len Iw Nv l, W)
  else Some (b, W).

(* lines 818-983: in the free space; returns pme1, degme, pfree, Pe, Len, Iw, Nv,
   lists, W *)
Definition build_new (n : nat) (iwlen : Z) (Degree : arr Z) (me elenme pfree : Z) (Pe Len Iw Nv W : arr Z) (l : lists)
  : option (building * arr Z) :=
  p <- getz Pe me ;;
  lme <- getz Len me ;;
  for_loop 0 (Z.to_nat (elenme + 1)) (build_step n iwlen Degree me elenme (lme - elenme))
    (Building p p pfree pfree 0 Pe Len Iw Nv l, W).

(* lines 739-998; returns the graph, pme1, pme2, degme.  elenme and nvpiv are
   Elen [me] and Nv [me] before. *)
Definition build_element (n : nat) (iwlen me elenme nvpiv : Z) (q : quotient)
  : option (quotient * Z * Z * Z) :=
  let '(Quotient Pe Iw Len pfree Nv Elen Degree W wflg l mindeg nel lemax) := q in
  let nel := nel + nvpiv in
  Nv <- setz Nv me (- nvpiv) ;;
  '(pme1, pme2, degme, pfree, Pe, Len, Iw, Nv, l, W) <-
    (if elenme =? 0 then
       pme1 <- getz Pe me ;;
       lme <- getz Len me ;;
       '(pme2, degme, Iw, Nv, l) <- build_in_place Degree pme1 lme Iw Nv l ;;
       Some (pme1, pme2, degme, pfree, Pe, Len, Iw, Nv, l, W)
     else
       '(Building _ _ pme1 pfree degme Pe Len Iw Nv l, W) <- build_new n iwlen Degree me elenme pfree Pe Len Iw Nv W l ;;
       Some (pme1, pfree - 1, degme, pfree, Pe, Len, Iw, Nv, l, W)) ;;
  Degree <- setz Degree me degme ;;
  Pe <- setz Pe me pme1 ;;
  Len <- setz Len me (pme2 - pme1 + 1) ;;
  Elen <- setz Elen me (FLIP (nvpiv + degme)) ;;
  Some (Quotient Pe Iw Len pfree Nv Elen Degree W wflg l mindeg nel lemax, pme1, pme2, degme).

(* --------------------------------------------- amd_2.c:1035-1073, scan 1 *)

(* lines 1049-1071: the elements of variable i, of which there are eln *)
Definition scan1_row (Iw Degree : arr Z) (wflg nvi pei : Z) (eln : Z) (W : arr Z) : option (arr Z) :=
  for_loop 0 (Z.to_nat eln) (fun k W =>
    e <- getz Iw (pei + Z.of_nat k) ;;
    we <- getz W e ;;
    we <- (if we >=? wflg then Some (we - nvi)
           else if negb (we =? 0) then d <- getz Degree e ;; Some (d + (wflg - nvi))
           else Some we) ;;
    setz W e we) W.

Definition scan1 (Iw Nv Elen Pe Degree : arr Z) (wflg pme1 : Z) (cnt : nat) (W : arr Z) : option (arr Z) :=
  for_loop 0 cnt (fun k W =>
    i <- getz Iw (pme1 + Z.of_nat k) ;;
    eln <- getz Elen i ;;
    if eln >? 0 then
      v <- getz Nv i ;;
      pei <- getz Pe i ;;
      scan1_row Iw Degree wflg (- v) pei eln W
    else Some W) W.

(* --------------------------------------------- amd_2.c:1084-1285, scan 2 *)

(* lines 1102-1149: the elements of i; the state is pn, deg, hash, Iw, Pe, W.  hash
   is unsigned; the sum of at most n indices does not wrap around. *)
Definition scan2_elements (aggressive : bool) (me wflg p1 : Z) (cnt : nat) (st : Z * Z * Z * arr Z * arr Z * arr Z)
  : option (Z * Z * Z * arr Z * arr Z * arr Z) :=
  for_loop 0 cnt (fun k '(pn, deg, hash, Iw, Pe, W) =>
    e <- getz Iw (p1 + Z.of_nat k) ;;
    we <- getz W e ;;
    if negb (we =? 0) then
      let dext := we - wflg in
      if negb aggressive || (dext >? 0) then
        Iw <- setz Iw pn e ;; Some (pn + 1, deg + dext, hash + e, Iw, Pe, W)
      else
        Pe <- setz Pe e (FLIP me) ;; W <- setz W e 0 ;; Some (pn, deg, hash, Iw, Pe, W)
    else Some (pn, deg, hash, Iw, Pe, W)) st.

(* lines 1162-1179: the variables of i; the state is pn, deg, hash, Iw *)
Definition scan2_variables (Nv : arr Z) (p : Z) (cnt : nat) (st : Z * Z * Z * arr Z) : option (Z * Z * Z * arr Z) :=
  for_loop 0 cnt (fun k '(pn, deg, hash, Iw) =>
    j <- getz Iw (p + Z.of_nat k) ;;
    nvj <- getz Nv j ;;
    if nvj >? 0 then Iw <- setz Iw pn j ;; Some (pn + 1, deg + nvj, hash + j, Iw)
    else Some (pn, deg, hash, Iw)) st.

(* lines 1265-1284: put i into its hash bucket *)
Definition hash_insert (i hash : Z) (l : lists) : option lists :=
  let '(Head, Next, Last) := l in
  j <- getz Head hash ;;
  '(Head, Next, Last) <-
    (if j <=? EMPTY then Next <- setz Next i (FLIP j) ;; Head <- setz Head hash (FLIP i) ;; Some (Head, Next, Last)
     else v <- getz Last j ;; Next <- setz Next i v ;; Last <- setz Last j i ;; Some (Head, Next, Last)) ;;
  Last <- setz Last i hash ;;
  Some (Head, Next, Last).

(* lines 1086-1285: one variable of the new element.  State: the graph, degme and
   nvpiv. *)
Definition scan2_row (aggressive : bool) (n : nat) (me pme1 : Z) (k : nat) (st : quotient * Z * Z) : option (quotient * Z * Z) :=
  let '(Quotient Pe Iw Len pfree Nv Elen Degree W wflg l mindeg nel lemax, degme, nvpiv) := st in
  i <- getz Iw (pme1 + Z.of_nat k) ;;
  p1 <- getz Pe i ;;
  eln <- getz Elen i ;;
  '(pn, deg, hash, Iw, Pe, W) <- scan2_elements aggressive me wflg p1 (Z.to_nat eln) (p1, 0, 0, Iw, Pe, W) ;;
  Elen <- setz Elen i (pn - p1 + 1) ;;
  let p3 := pn in
  li <- getz Len i ;;
  '(pn, deg, hash, Iw) <- scan2_variables Nv (p1 + eln) (Z.to_nat (li - eln)) (pn, deg, hash, Iw) ;;
  if (p3 - p1 + 1 =? 1) && (p3 =? pn) then
    Pe <- setz Pe i (FLIP me) ;;
    v <- getz Nv i ;;
    Nv <- setz Nv i 0 ;;
    Elen <- setz Elen i EMPTY ;;
    Some (Quotient Pe Iw Len pfree Nv Elen Degree W wflg l mindeg (nel + - v) lemax, degme - - v, nvpiv + - v)
  else
    d <- getz Degree i ;;
    Degree <- setz Degree i (Z.min d deg) ;;
    v <- getz Iw p3 ;; Iw <- setz Iw pn v ;;
    v <- getz Iw p1 ;; Iw <- setz Iw p3 v ;;
    Iw <- setz Iw p1 me ;;
    Len <- setz Len i (pn - p1 + 1) ;;
    l <- hash_insert i (hash mod Z.of_nat n) l ;;
    Some (Quotient Pe Iw Len pfree Nv Elen Degree W wflg l mindeg nel lemax, degme, nvpiv).

(* --------------------------------------------- amd_2.c:1303-1437, supervariables *)

(* lines 1319-1339: take the bucket out; returns its first variable or EMPTY *)
Definition hash_take (hash : Z) (l : lists) : option (Z * lists) :=
  let '(Head, Next, Last) := l in
  j <- getz Head hash ;;
  if j =? EMPTY then Some (EMPTY, (Head, Next, Last))
  else if j <? EMPTY then Head <- setz Head hash EMPTY ;; Some (FLIP j, (Head, Next, Last))
  else i <- getz Last j ;; Last <- setz Last j EMPTY ;; Some (i, (Head, Next, Last)).

(* lines 1364-1368 *)
Definition flag_row (Iw : arr Z) (wflg pei ln : Z) (W : arr Z) : option (arr Z) :=
  for_loop 1 (Z.to_nat (ln - 1)) (fun k W => x <- getz Iw (pei + Z.of_nat k) ;; setz W x wflg) W.

(* lines 1391-1396: the loop ends when ok becomes false *)
Definition compare_row (Iw W : arr Z) (wflg pej ln : Z) (ok : bool) : option bool :=
  for_loop 1 (Z.to_nat (ln - 1)) (fun k (ok : bool) =>
    if ok then x <- getz Iw (pej + Z.of_nat k) ;; v <- getz W x ;; Some (v =? wflg) else Some false) ok.

(* lines 1378-1424: the variables after i in the bucket; the state is jlast, j, Pe,
   Nv, Elen, Next *)
Definition absorb_step (Iw Len W : arr Z) (wflg i ln eln : Z) (st : Z * Z * arr Z * arr Z * arr Z * arr Z)
  : option (Z * Z * arr Z * arr Z * arr Z * arr Z) :=
  let '(jlast, j, Pe, Nv, Elen, Next) := st in
  lj <- getz Len j ;;
  ok <- (if lj =? ln then ej <- getz Elen j ;; Some (ej =? eln) else Some false) ;;
  pej <- getz Pe j ;;
  ok <- compare_row Iw W wflg pej ln ok ;;
  if ok then
    Pe <- setz Pe j (FLIP i) ;;
    a <- getz Nv i ;; b <- getz Nv j ;; Nv <- setz Nv i (a + b) ;;
    Nv <- setz Nv j 0 ;;
    Elen <- setz Elen j EMPTY ;;
    j <- getz Next j ;;
    Next <- setz Next jlast j ;;
    Some (jlast, j, Pe, Nv, Elen, Next)
  else jn <- getz Next j ;; Some (j, jn, Pe, Nv, Elen, Next).

(* lines 1350-1435: one pass of the outer while; the state is i, Pe, Nv, Elen, W,
   wflg, Next *)
Definition bucket_step (fuel : nat) (Iw Len : arr Z) (st : Z * arr Z * arr Z * arr Z * arr Z * Z * arr Z)
  : option (Z * arr Z * arr Z * arr Z * arr Z * Z * arr Z) :=
  let '(i, Pe, Nv, Elen, W, wflg, Next) := st in
  ln <- getz Len i ;;
  eln <- getz Elen i ;;
  pei <- getz Pe i ;;
  W <- flag_row Iw wflg pei ln W ;;
  j <- getz Next i ;;
  '(_, _, Pe, Nv, Elen, Next) <- while_ fuel (fun '(_, j, _, _, _, _) => Some (negb (j =? EMPTY)))
       (absorb_step Iw Len W wflg i ln eln) (i, j, Pe, Nv, Elen, Next) ;;
  i' <- getz Next i ;;
  Some (i', Pe, Nv, Elen, W, wflg + 1, Next).

(* lines 1304-1436: for one variable of Lme, if it is still principal *)
Definition detect_row (fuel : nat) (pme1 : Z) (k : nat) (q : quotient) : option quotient :=
  let '(Quotient Pe Iw Len pfree Nv Elen Degree W wflg l mindeg nel lemax) := q in
  i <- getz Iw (pme1 + Z.of_nat k) ;;
  v <- getz Nv i ;;
  if v <? 0 then
    let '(_, _, Last) := l in
    hash <- getz Last i ;;
    '(i, (Head, Next, Last)) <- hash_take hash l ;;
    '(_, Pe, Nv, Elen, W, wflg, Next) <-
      while_ fuel (fun '(i, _, _, _, _, _, Next) =>
                     if i =? EMPTY then Some false else x <- getz Next i ;; Some (negb (x =? EMPTY)))
             (bucket_step fuel Iw Len) (i, Pe, Nv, Elen, W, wflg, Next) ;;
    Some (Quotient Pe Iw Len pfree Nv Elen Degree W wflg (Head, Next, Last) mindeg nel lemax)
  else Some q.

(* --------------------------------------------- amd_2.c:1445-1516, restoring *)

(* lines 1447-1491: State: p and the graph *)
Definition restore_row (pme1 degme nleft : Z) (k : nat) (st : Z * quotient) : option (Z * quotient) :=
  let '(p, Quotient Pe Iw Len pfree Nv Elen Degree W wflg l mindeg nel lemax) := st in
  i <- getz Iw (pme1 + Z.of_nat k) ;;
  v <- getz Nv i ;;
  let nvi := - v in
  if nvi >? 0 then
    Nv <- setz Nv i nvi ;;
    d <- getz Degree i ;;
    let deg := Z.min (d + degme - nvi) (nleft - nvi) in
    l <- link i deg l ;;
    Degree <- setz Degree i deg ;;
    Iw <- setz Iw p i ;;
    Some (p + 1, Quotient Pe Iw Len pfree Nv Elen Degree W wflg l (Z.min mindeg deg) nel lemax)
  else Some (p, Quotient Pe Iw Len pfree Nv Elen Degree W wflg l mindeg nel lemax).

(* --------------------------------------------- amd_2.c:698-1546, one pivot *)

Definition eliminate_step (aggressive : bool) (wbig : Z) (n : nat) (iwlen : Z) (q : quotient) : option quotient :=
  let '(Quotient Pe Iw Len pfree Nv Elen Degree W wflg l mindeg nel lemax) := q in
  '(me, mindeg, l) <- choose_pivot n mindeg l ;;
  elenme <- getz Elen me ;;
  nvpiv <- getz Nv me ;;
  '(Quotient Pe Iw Len pfree Nv Elen Degree W wflg l mindeg nel lemax, pme1, pme2, degme) <-
    build_element n iwlen me elenme nvpiv (Quotient Pe Iw Len pfree Nv Elen Degree W wflg l mindeg nel lemax) ;;
  let cnt := Z.to_nat (pme2 - pme1 + 1) in
  '(wflg, W) <- clear_flag wflg wbig W n ;;
  W <- scan1 Iw Nv Elen Pe Degree wflg pme1 cnt W ;;
  '(Quotient Pe Iw Len pfree Nv Elen Degree W wflg l mindeg nel lemax, degme, nvpiv) <-
    for_loop 0 cnt (scan2_row aggressive n me pme1)
      (Quotient Pe Iw Len pfree Nv Elen Degree W wflg l mindeg nel lemax, degme, nvpiv) ;;
  Degree <- setz Degree me degme ;;
  let lemax := Z.max lemax degme in
  '(wflg, W) <- clear_flag (wflg + lemax) wbig W n ;;
  q <- for_loop 0 cnt (detect_row (n + 1) pme1) (Quotient Pe Iw Len pfree Nv Elen Degree W wflg l mindeg nel lemax) ;;
  '(p, Quotient Pe Iw Len pfree Nv Elen Degree W wflg l mindeg nel lemax) <-
    for_loop 0 cnt (restore_row pme1 degme (Z.of_nat n - nel)) (pme1, q) ;;
  Nv <- setz Nv me nvpiv ;;
  Len <- setz Len me (p - pme1) ;;
  '(Pe, W) <- (if p - pme1 =? 0 then Pe <- setz Pe me EMPTY ;; W <- setz W me 0 ;; Some (Pe, W) else Some (Pe, W)) ;;
  let pfree := if negb (elenme =? 0) then p else pfree in
  Some (Quotient Pe Iw Len pfree Nv Elen Degree W wflg l mindeg nel lemax).

(* lines 579-1548, from the graph to the assembly forest Pe, Nv, Elen *)
Definition amd2_select (dense wbig : Z) (aggressive : bool) (n : nat) (iwlen : Z) (Pe Iw Len : arr Z) (pfree : Z)
    (Nv Next Last Head Elen Degree W : arr Z) : option (arr Z * arr Z * arr Z) :=
  q <- amd2_init dense wbig n Pe Iw Len pfree Nv Next Last Head Elen Degree W ;;
  q <- while_ (n + 1) (fun q => Some (q_nel q <? Z.of_nat n)) (eliminate_step aggressive wbig n iwlen) q ;;
  Some (q_pe q, q_nv q, q_elen q).

(* amd_order.c:93-94 (Len, Pinv), 140-174 and amd_1.c: the workspace S of slen
   cells is split into six arrays of size n and Iw.  The threshold may depend on
   n; P is used as the workspace Tp of AMD_aat and as Last. *)
Definition amd_elim (dense : nat -> Z) (wbig : nat -> Z) (aggressive : bool) : elimination := fun n Cp Ci =>
  '(Len, nzaat) <- AMD_aat n Cp Ci (alloc n) (alloc n) ;;
  let iwlen := nzaat + nzaat / 5 + Z.of_nat n in
  '(Pe, Iw, pfree) <- AMD_1_graph n Cp Ci Len (alloc n) (alloc (Z.to_nat iwlen)) (alloc n) (alloc n) ;;
  amd2_select (dense n) (wbig n) aggressive n iwlen Pe Iw Len pfree
    (alloc n) (alloc n) (alloc n) (alloc n) (alloc n) (alloc n) (alloc n).

(* preproc.c:925-926, amd_defaults.c:20-37, amd_2.c:595-606 and 631: what ECOS_setup
   asks for: rows with more than max (16, 10 sqrt n) entries are dense, absorption is
   aggressive, Int_MAX is the largest 64-bit integer.  The square root is exact here. *)
Definition ecos_elim : elimination :=
  amd_elim (fun n => Z.min (Z.of_nat n) (Z.max 16 (Z.sqrt (100 * Z.of_nat n)))) (fun n => 2 ^ 63 - 1 - Z.of_nat n) true.
