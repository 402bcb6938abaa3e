(* C11-C13: sparse LDL' factorisation and triangular solves. *)
From Coq Require Import List Arith Bool ZArith QArith Reals Lia Lra.
From Verif Require Import Base Num NumH.
From Verif.Model Require Import Spla Ldl.
From Verif.Spec Require Import Matrix Fill.
From Verif.Proofs Require Import SplaP LdlSym LdlNum LdlR.
Import ListNotations.
Open Scope nat_scope.

(* a 4 x 4 matrix whose factor has a fill-in at (2,1):
   [ 2 1 1 0 ; 1 3 0 0 ; 1 0 -1 2 ; 0 0 2 -2 ], one column unsorted *)
Definition exK : spmat R :=
  mkSp (arr_of [0; 1; 3; 5; 7]) (arr_of [0; 0; 1; 2; 0; 2; 3]) (arr_of [2; 1; 3; -1; 1; 2; -2]%R) 4 4 7.

Lemma exK_wf : wf_sp exK.
Proof.
  constructor; cbn [exK sp_n sp_m sp_nnz sp_jc sp_ir sp_pr].
  - intros i Hi. do 5 (destruct i as [|i]; [reflexivity|]). lia.
  - reflexivity.
  - intros j Hj. do 4 (destruct j as [|j]; [vm_compute; lia|]). lia.
  - reflexivity.
  - intros i Hi. do 7 (destruct i as [|i]; [reflexivity|]). lia.
  - intros i Hi. do 7 (destruct i as [|i]; [vm_compute; lia|]). lia.
  - intros i Hi. do 7 (destruct i as [|i]; [eexists; reflexivity|]). lia.
Qed.

Lemma exK_upper : upper exK.
Proof.
  intros j k [Hj Hk]. cbn [exK sp_n] in Hj.
  do 4 (destruct j as [|j]; [vm_compute in Hk; do 7 (destruct k as [|k]; [try lia; vm_compute; lia|]); lia|]). lia.
Qed.

Lemma exK_nodup : nodup exK.
Proof.
  intros j p q [Hj Hp] [_ Hq]. cbn [exK sp_n] in Hj.
  do 4 (destruct j as [|j]; [vm_compute in Hp, Hq; do 7 (destruct p as [|p]; [try lia;
    do 7 (destruct q as [|q]; [try lia; vm_compute; lia|]); lia|]); lia|]). lia.
Qed.

Example exK_fill : fill exK 2 1.
Proof.
  apply (fill_elim exK 2 1 0); try lia; apply fill_adj; (split; [lia|]).
  - exists 1. split; [split; cbn; lia|reflexivity].
  - exists 4. split; [split; cbn; lia|reflexivity].
Qed.

(* ------------------------------------------------------------------- C11 *)

(* The symbolic phase always terminates, without touching anything outside its
   arrays.  Parent[i] is the first row below i in which column i of the factor
   has an entry (-1 if there is none), Lnz[i] is the number of such rows, and
   Lp holds the partial sums of Lnz. *)
Theorem C11_symbolic (T : Type) (M : spmat T) (Lp0 : arr nat) (Parent0 : arr Z) (Lnz0 Flag0 : arr nat) :
  let n := sp_n M in
  wf_sp M -> sp_m M = n -> upper M ->
  length Lp0 = n + 1 -> length Parent0 = n -> length Lnz0 = n -> length Flag0 = n ->
  exists Lp Parent Lnz Flag,
    LDL_symbolic2 n (sp_jc M) (sp_ir M) Lp0 Parent0 Lnz0 Flag0 = Some (Lp, Parent, Lnz, Flag) /\
    (forall i, i < n ->
       (get Parent i = Some (-1)%Z /\ (forall r, r < n -> ~ fill M r i)) \/
       (exists j, get Parent i = Some (Z.of_nat j) /\ i < j < n /\ fill M j i /\
          forall r, r < n -> fill M r i -> j <= r)) /\
    (forall i, i < n -> exists rows, NoDup rows /\ (forall r, In r rows <-> r < n /\ fill M r i) /\
       get Lnz i = Some (length rows)) /\
    get Lp 0 = Some 0 /\
    (forall i, i < n -> exists a c, get Lp i = Some a /\ get Lnz i = Some c /\ get Lp (i + 1) = Some (a + c)).
Proof.
  intros n W SQ U L1 L2 L3 L4.
  pose proof (LDL_symbolic2_wp M W U SQ Lp0 Parent0 Lnz0 Flag0 (fun res => let '(Lp', Pa', Ln', Fl') := res in
    exists par R, symst M n par R Pa' Ln' Fl' /\ vec Lp' (n + 1) (starts (cnt R n))) L1 L2 L3 L4) as H.
  apply wp_elim in H.
  2:{ intros par R Lp' Pa' Ln' Fl' S _ V. exists par, R. split; assumption. }
  destruct H as [[[[Lp Pa] Ln] Fl] [Eq [par [R [S V]]]]].
  exists Lp, Pa, Ln, Fl. split; [exact Eq|]. destruct S as [E S1 S2 S3 S4 S5 S6].
  split; [|split; [|split]].
  - intros i Hi. pose proof (par_first M SQ par R E i) as PF. rewrite (S4 i Hi).
    destruct (par i) as [j|] eqn:Pi; simpl.
    + right. exists j. destruct PF as [P1 [P2 P3]]. fold n in P2. split; auto. split; auto.
      split; [apply (et_fill M n par R E); auto; lia|]. intros r Hr Hf. apply P3; auto.
      apply (et_fill M n par R E); auto.
    + left. split; auto. intros r Hr Hf. apply (et_fill M n par R E) in Hf; auto.
      rewrite PF in Hf by auto. discriminate.
  - intros i Hi. exists (filter (fun r => R r i) (seq 0 n)). split; [apply NoDup_filter, seq_NoDup|]. split.
    + intros r. rewrite filter_In, in_seq. split.
      * intros [A B]. split; [lia|]. apply (et_fill M n par R E); auto; lia.
      * intros [A B]. split; [lia|]. apply (et_fill M n par R E); auto.
    + rewrite S5 by auto. f_equal. clear. generalize n. intros k. induction k as [|k IH]; auto.
      rewrite seq_S, filter_app, app_length. simpl. rewrite IH. destruct (R k i); simpl; lia.
  - apply (V 0). lia.
  - intros i Hi. exists (starts (cnt R n) i), (cnt R n i). split; [apply V; lia|]. split; [apply S5; auto|].
    rewrite V by lia. rewrite Nat.add_1_r. auto.
Qed.
Print Assumptions C11_symbolic.

(* Whatever the numbers are (any arithmetic, NaN and infinities included), the
   numeric phase run after the symbolic phase stays inside the storage the
   symbolic phase announced, terminates, and stores exactly the positions of
   the fill: Lp[n] entries, Lnz[i] of them in column i. *)
Theorem C11_storage (O : Ops) (M : spmat F) (Lp0 : arr nat) (Parent0 : arr Z) (Lnz0 Flag0 : arr nat) :
  let n := sp_n M in
  wf_sp M -> sp_m M = n -> upper M ->
  length Lp0 = n + 1 -> length Parent0 = n -> length Lnz0 = n -> length Flag0 = n ->
  exists Lp Parent Lnz Flag lnz,
    LDL_symbolic2 n (sp_jc M) (sp_ir M) Lp0 Parent0 Lnz0 Flag0 = Some (Lp, Parent, Lnz, Flag) /\
    get Lp n = Some lnz /\
    forall (Sign : arr Z) (sg : nat -> Z) (eps delta : F) (Lnz1 Li0 : arr nat) (Lx0 D0 Y0 : arr F) (Pattern0 Flag1 : arr nat),
      vec Sign n sg -> length Lnz1 = n -> length Li0 = lnz -> length Lx0 = lnz ->
      length D0 = n -> length Y0 = n -> length Pattern0 = n -> length Flag1 = n ->
      exists Lnz2 Li Lx D Y Pattern Flag2,
        LDL_numeric2 n (sp_jc M) (sp_ir M) (sp_pr M) Lp Parent Sign eps delta Lnz1 Li0 Lx0 D0 Y0 Pattern0 Flag1
          = Some (Lnz2, Li, Lx, D, Y, Pattern, Flag2) /\
        (forall i, i < n -> get Lnz2 i = get Lnz i) /\
        let L := mkSp Lp Li Lx n n lnz in
        wf_sp L /\ strictly_lower L /\ nodup L /\
        (forall r i, r < n -> (has_entry L r i <-> fill M r i)) /\
        (forall i, i < n -> exists d, get D i = Some d).
Proof.
  intros n W SQ U L1 L2 L3 L4.
  pose proof (LDL_symbolic2_wp M W U SQ Lp0 Parent0 Lnz0 Flag0 (fun res => let '(Lp', Pa', Ln', Fl') := res in
    exists par R, symst M n par R Pa' Ln' Fl' /\ vec Lp' (n + 1) (starts (cnt R n))) L1 L2 L3 L4) as H.
  apply wp_elim in H.
  2:{ intros par R Lp' Pa' Ln' Fl' S _ V. exists par, R. split; assumption. }
  destruct H as [[[[Lp Pa] Ln] Fl] [Eq [par [R [S V]]]]].
  exists Lp, Pa, Ln, Fl, (starts (cnt R n) n). split; [exact Eq|]. destruct S as [E S1 S2 S3 S4 S5 S6].
  split; [apply V; lia|].
  intros Sign sg eps delta Lnz1 Li0 Lx0 D0 Y0 Pt0 Fl1 VS M1 M2 M3 M4 M5 M6 M7.
  pose proof (LDL_numeric2_wp M W U SQ par R E sg eps delta Lp Pa Sign Lnz1 Li0 Lx0 D0 Y0 Pt0 Fl1
    (fun res => let '(Lnz', Li', Lx', D', Y', Pt', Fl') := res in exists Lv Dv,
       numst M par R sg eps delta n Lv Dv Lnz' Li' Lx' D' Y' Pt' Fl') V S4 VS M1 M2 M3 M4 M5 M6 M7
    ltac:(intros Lv Dv; intros; exists Lv, Dv; assumption)) as H.
  apply wp_elim in H. destruct H as [[[[[[[N' I'] X'] D'] Y'] P'] F'] [Eq' [Lv [Dv NS]]]].
  exists N', I', X', D', Y', P', F'. split; [exact Eq'|]. destruct NS.
  split; [intros i Hi; rewrite ns_N, S5 by auto; auto|].
  destruct (lmat_wf M SQ par R E Lv Lp I' X' V ns_S) as [W1 [W2 [W3 W4]]].
  simpl. split; [exact W1|]. split; [exact W2|]. split; [exact W3|].
  split; [intros r i Hr; rewrite <- (et_fill M n par R E r i Hr); exact (W4 r i Hr)|].
  intros i Hi. eauto.
Qed.
Print Assumptions C11_storage.

Example C11_applies : exists Lp Parent Lnz Flag,
  LDL_symbolic2 4 (sp_jc exK) (sp_ir exK) (alloc 5) (alloc 4) (alloc 4) (alloc 4) = Some (Lp, Parent, Lnz, Flag) /\
  Lp = arr_of [0; 2; 3; 4; 4] /\ Parent = arr_of [1; 2; 3; -1]%Z.
Proof. do 4 eexists. split; [vm_compute; reflexivity|]. auto. Qed.

(* ------------------------------------------------------------------- C12 *)

(* Exact arithmetic.  The factorisation always succeeds (the call has no
   failure path).  With L the stored factor, (I+L) D (I+L)' agrees with the
   matrix off the diagonal; on the diagonal row r it exceeds the matrix by
   D_r - d_r, where d_r, the pivot before correction, is kept (D_r = d_r, no
   perturbation) unless Sign_r * d_r <= eps, when it is replaced by
   Sign_r * delta.  Every pivot has the prescribed sign. *)
Theorem C12_numeric (M : spmat R) (Lp0 : arr nat) (Parent0 : arr Z) (Lnz0 Flag0 : arr nat) :
  let n := sp_n M in
  wf_sp M -> sp_m M = n -> upper M -> nodup M ->
  length Lp0 = n + 1 -> length Parent0 = n -> length Lnz0 = n -> length Flag0 = n ->
  exists Lp Parent Lnz Flag lnz,
    LDL_symbolic2 n (sp_jc M) (sp_ir M) Lp0 Parent0 Lnz0 Flag0 = Some (Lp, Parent, Lnz, Flag) /\
    get Lp n = Some lnz /\
    forall (Sign : arr Z) (sg : nat -> Z) (eps delta : R) (Lnz1 Li0 : arr nat) (Lx0 D0 Y0 : arr R) (Pattern0 Flag1 : arr nat),
      vec Sign n sg -> (forall r, r < n -> sg r = 1%Z \/ sg r = (-1)%Z) -> (0 <= eps)%R -> (0 < delta)%R ->
      length Lnz1 = n -> length Li0 = lnz -> length Lx0 = lnz ->
      length D0 = n -> length Y0 = n -> length Pattern0 = n -> length Flag1 = n ->
      exists Lnz2 Li Lx D Y Pattern Flag2 d,
        @LDL_numeric2 ROps n (sp_jc M) (sp_ir M) (sp_pr M) Lp Parent Sign eps delta Lnz1 Li0 Lx0 D0 Y0 Pattern0 Flag1
          = Some (Lnz2, Li, Lx, D, Y, Pattern, Flag2) /\
        vec D n d /\
        let L := mkSp Lp Li Lx n n lnz in
        wf_sp L /\ strictly_lower L /\
        (forall i r, i < r -> r < n -> ldl_prod n (dense L) d i r = dense M i r) /\
        (forall r, r < n -> exists pivot,
           ldl_prod n (dense L) d r r = (dense M r r + (d r - pivot))%R /\
           ((IZR (sg r) * pivot > eps /\ d r = pivot) \/
            (IZR (sg r) * pivot <= eps /\ d r = IZR (sg r) * delta))%R) /\
        (forall r, r < n -> (0 < IZR (sg r) * d r)%R).
Proof.
  intros n W SQ U ND L1 L2 L3 L4.
  pose proof (LDL_symbolic2_wp M W U SQ Lp0 Parent0 Lnz0 Flag0 (fun res => let '(Lp', Pa', Ln', Fl') := res in
    exists par R, symst M n par R Pa' Ln' Fl' /\ vec Lp' (n + 1) (starts (cnt R n))) L1 L2 L3 L4) as H.
  apply wp_elim in H.
  2:{ intros par R Lp' Pa' Ln' Fl' S _ V. exists par, R. split; assumption. }
  destruct H as [[[[Lp Pa] Ln] Fl] [Eq [par [R [S V]]]]].
  exists Lp, Pa, Ln, Fl, (starts (cnt R n) n). split; [exact Eq|]. destruct S as [E S1 S2 S3 S4 S5 S6].
  split; [apply V; lia|].
  intros Sign sg eps delta Lnz1 Li0 Lx0 D0 Y0 Pt0 Fl1 VS HS He Hd M1 M2 M3 M4 M5 M6 M7.
  destruct (numeric_R M sg eps delta par R Lp Pa Sign Lnz1 Li0 Lx0 D0 Y0 Pt0 Fl1 W U SQ ND E V S4 VS
    M1 M2 M3 M4 M5 M6 M7 He Hd HS) as (N' & I' & X' & D' & Y' & P' & F' & Dv & Eq' & W1 & W2 & W3 & _ & VD & _ & O1 & O2 & O3).
  exists N', I', X', D', Y', P', F', Dv. repeat (split; [assumption|]). split; auto.
  intros r Hr. destruct (O2 r Hr) as [d [A B]]. exists d. split; auto.
  revert B. destruct (Rleb_spec (IZR (sg r) * d) eps); intros B; [right|left]; split; auto; lra.
Qed.
Print Assumptions C12_numeric.

Example C12_applies : wf_sp exK /\ sp_m exK = sp_n exK /\ upper exK /\ nodup exK.
Proof. repeat split; try apply exK_wf; [apply exK_upper|apply exK_nodup]. Qed.

(* ------------------------------------------------------------------- C13 *)

(* Forward, diagonal and backward substitution solve (I+L) D (I+L)' x = b. *)
Theorem C13_solve (L : spmat R) (Dg rhs X0 : arr R) (d b : nat -> R) :
  let n := sp_n L in
  wf_sp L -> sp_m L = n -> strictly_lower L ->
  vec Dg n d -> (forall i, i < n -> d i <> 0%R) -> vec rhs n b -> length X0 = n ->
  exists X1 X2 X3 x,
    @LDL_lsolve2 ROps n rhs (sp_jc L) (sp_ir L) (sp_pr L) X0 = Some X1 /\
    @LDL_dsolve ROps n X1 Dg = Some X2 /\
    @LDL_ltsolve ROps n X2 (sp_jc L) (sp_ir L) (sp_pr L) = Some X3 /\
    length X3 = n /\ vec X3 n x /\
    forall i, i < n -> Rsum n (fun r => ldl_prod n (dense L) d i r * x r)%R = b i.
Proof.
  intros n W SQ SL VD Dn Vb LX.
  destruct (lsolve2_R L W SL SQ rhs X0 b LX Vb) as (X1 & x1 & E1 & L1 & V1 & S1).
  destruct (dsolve_R L SQ X1 Dg x1 d L1 V1 VD) as (X2 & E2 & L2 & V2).
  destruct (ltsolve_R L W SL SQ X2 (fun i => x1 i / d i)%R L2 V2) as (X3 & x3 & E3 & L3 & V3 & S3).
  exists X1, X2, X3, x3. repeat (split; [assumption|]).
  intros i Hi. rewrite <- (S1 i Hi). unfold mulv. unfold ldl_prod.
  rewrite (Rsum_ext n _ (fun r => Rsum n (fun j => unitL (dense L) i j * d j * (unitL (dense L) r j * x3 r))%R)).
  - rewrite <- Rsum_swap. apply Rsum_ext. intros j Hj. rewrite Rsum_scal.
    change (Rsum n (fun r => unitL (dense L) r j * x3 r)%R) with (mulvT n (unitL (dense L)) x3 j).
    rewrite S3 by auto. field. auto.
  - intros r Hr. rewrite <- Rsum_scal_r. apply Rsum_ext. intros; ring.
Qed.
Print Assumptions C13_solve.

(* it applies to the factors the factorisation produces *)
Example C13_applies : exists L d, wf_sp L /\ sp_m L = sp_n L /\ strictly_lower L /\ sp_n L = 4 /\
  (forall i, i < 4 -> d i <> 0%R) /\ forall i r, i < r -> r < 4 -> ldl_prod 4 (dense L) d i r = dense exK i r.
Proof.
  destruct (C12_numeric exK (alloc 5) (alloc 4) (alloc 4) (alloc 4) exK_wf eq_refl exK_upper exK_nodup
    eq_refl eq_refl eq_refl eq_refl) as (Lp & Pa & Ln & Fl & lnz & _ & _ & H).
  destruct (H (arr_of [1; 1; -1; -1]%Z) (fun i => if Nat.ltb i 2 then 1 else -1)%Z 0%R 1%R (alloc 4) (alloc lnz) (alloc lnz)
    (alloc 4) (alloc 4) (alloc 4) (alloc 4)) as (N & I & X & D & Y & P & F & d & _ & _ & W & SL & O1 & _ & O2);
    rewrite ?alloc_length; auto; try lra.
  - intros i Hi. cbn [exK sp_n] in Hi. do 4 (destruct i as [|i]; [reflexivity|]). lia.
  - intros r _. destruct (r <? 2); auto.
  - eexists. exists d. split; [exact W|]. split; [reflexivity|]. split; [exact SL|]. split; [reflexivity|].
    split; [|exact O1].
    intros i Hi E. specialize (O2 i Hi). rewrite E in O2. lra.
Qed.

(* ------------------------------------------------------------ duplicates *)

(* The scatter assigns instead of adding, so of two entries with the same
   coordinates the factorisation uses only the last, although the products
   (C01) use their sum. *)
Definition exDup : spmat hnum := mkSp (arr_of [0; 2]) (arr_of [0; 0]) (arr_of [HQ 1; HQ 2]) 1 1 2.

Theorem C12_refuted_duplicates : exists D Lnz Li Lx Y Pt Fl y,
  @LDL_numeric2 HOps 1 (sp_jc exDup) (sp_ir exDup) (sp_pr exDup) (arr_of [0; 0]) (arr_of [-1]%Z) (arr_of [1]%Z)
    (HQ 0) (HQ 1) (alloc 1) (alloc 0) (alloc 0) (alloc 1) (alloc 1) (alloc 1) (alloc 1)
      = Some (Lnz, Li, Lx, D, Y, Pt, Fl) /\
  get D 0 = Some (HQ 2) /\
  @sparseMV HOps exDup (arr_of [HQ 1]) (alloc 1) 1 1 = Some y /\ get y 0 = Some (HQ 3).
Proof. do 8 eexists. split; [vm_compute; reflexivity|]. split; [reflexivity|]. split; vm_compute; reflexivity. Qed.
Print Assumptions C12_refuted_duplicates.
