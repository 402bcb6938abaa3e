(* Values computed by the functions that build and combine the search
   directions.  First part: arbitrary arithmetic. *)
From Coq Require Import List Arith Bool ZArith Lia.
From Verif Require Import Base Num.
From Verif.Model Require Import Spla Splamm Types Consts Expcone Cone Ldl Kkt Equil Preproc Ecos.
From Verif.Spec Require Import Matrix Fill KktSpec KktMatrix Shape SetupSpec Direction.
From Verif.Proofs Require Import SplaP LoopLib SplammP LdlSym LdlNum KktAsm KktMat ConeP ScalP Scal2P LineP KktUpd Layout EquilP Work WorkUpd
  SafeLib Stretch SafeK KktErr SafeE SafeW SafeV ExitP LoopP SafeU IterP Wlp.
From Verif.Properties Require Import Kkt.
Import ListNotations.
Open Scope nat_scope.

Section DirG.
Context `{O : Ops}.
Notation W := (pwork F).

Lemma gd_some (d : F) (a : arr F) i v : get a i = Some v -> gd d a i = v.
Proof. apply gd_get. Qed.

Lemma axpy_val k a x y y' : axpy k a x y = Some y' -> length y' = length y /\ full x k /\ full y k /\
  vec y' k (fun i => gd f0 y i + a * gd f0 x i)%fl.
Proof.
  intros E. refine (wlp_elim _ (fun y' => _) _ _ E). clear E y'. unfold axpy.
  apply wlp_for with (Inv := fun i (y' : arr F) => length y' = length y /\ full x i /\ full y i /\
    vec y' i (fun j => gd f0 y j + a * gd f0 x j)%fl /\ forall j, i <= j -> get y' j = get y j); [lia| | |].
  - csplit; auto; intros j Hj; lia.
  - intros i y1 Hi (A & B & D & E & G). apply wlp_bind_eq. intros v Ev. apply wlp_bind_eq. intros u Eu. apply wlp_intro. intros y2 E2.
    apply set_inv in E2 as (Lt & L2 & G2). rewrite G in Ev by lia. csplit.
    + congruence.
    + intros j Hj. destruct (Nat.eq_dec j i) as [->|]; [eauto|apply B; lia].
    + intros j Hj. destruct (Nat.eq_dec j i) as [->|]; [eauto|apply D; lia].
    + intros j Hj. rewrite G2. destruct (Nat.eqb_spec j i) as [->|]; [|apply E; lia]. rewrite (gd_get _ _ _ _ Ev), (gd_get _ _ _ _ Eu). reflexivity.
    + intros j Hj. rewrite G2. destruct (Nat.eqb_spec j i); [lia|]. apply G. lia.
  - intros y1 (A & B & D & E & _). auto.
Qed.

Lemma get_nth (a : arr F) i v : get a i = Some v -> nth_error a i = Some (Some v).
Proof. unfold get. destruct (nth_error a i) as [[]|]; congruence. Qed.

Lemma cell2_val f m h a b d d' : cell2 f m a b d = Some d' -> h <= m -> full a h -> full b h ->
  length d' = length d /\ vec d' h (fun i => f (gd f0 a i) (gd f0 b i)).
Proof.
  intros E Hh Fa Fb. revert Fa Fb. refine (wlp_elim _ (fun d' => _) _ _ E). clear E d'. unfold cell2.
  apply wlp_for with (Inv := fun i (d' : arr F) => full a h -> full b h -> length d' = length d /\ forall j, j < i -> j < h -> get d' j = Some (f (gd f0 a j) (gd f0 b j))); [lia| | |].
  - intros _ _. split; auto. intros; lia.
  - intros i d1 Hi IH. apply wlp_bind_eq. intros x Ex. apply wlp_bind_eq. intros y Ey. apply wlp_intro. intros d2 E2 Fa Fb.
    destruct (IH Fa Fb) as (A & B). clear IH. destruct (Nat.ltb_spec i (length d1)); [|discriminate]. injection E2 as <-. split; [rewrite upd_length; auto|].
    intros j Hj Hjh. destruct (Nat.eq_dec j i) as [->|NE].
    + destruct (Fa i Hjh) as [u Eu]. destruct (Fb i Hjh) as [v Ev]. rewrite (gd_get _ _ _ _ Eu), (gd_get _ _ _ _ Ev).
      apply get_nth in Eu, Ev. assert (x = Some u) as -> by congruence. assert (y = Some v) as -> by congruence.
      unfold get. rewrite nth_error_upd. apply Nat.ltb_lt in H. rewrite Nat.eqb_refl, H. reflexivity.
    + unfold get. rewrite nth_error_upd. destruct (Nat.eqb_spec j i); [lia|]. cbn [andb]. apply B; lia.
  - intros d1 H Fa Fb. destruct (H Fa Fb) as (A & B). split; auto. intros j Hj. apply B; lia.
Qed.

Variable L : lay.
Hypothesis H1 : forall d, In d (ly_q L) -> 1 <= d.
Notation n := (ly_n L).
Notation p := (ly_p L).
Notation m := (ly_m L).
Notation N := (ly_nK L).
Notation pf := (ly_pf L).

(* a right-hand side of the KKT system, given by its three parts *)
Definition rhs_is (R : arr F) (fx fy fz : nat -> F) : Prop :=
  (forall i, i < n -> get R (pf i) = Some (fx i)) /\ (forall i, i < p -> get R (pf (n + i)) = Some (fy i)) /\
  (forall t, t < m + 2 * length (ly_q L) -> get R (pf (n + p + t)) = Some (stretch (ly_l L) (ly_q L) fz t)).

Lemma ws_cq lpv soc ex (w : W) : ws L lpv soc ex w -> lpp (w_C w) = ly_l L /\ map so_p (co_soc (w_C w)) = ly_q L /\ nexc (w_C w) = ly_e L.
Proof. intros WS. destruct (ws_C _ _ _ _ _ WS) as [_ A B D]. auto. Qed.

Lemma put3 (a b c d : arr F) fx fy fz : put N pf 0 n fx a b -> put N pf n p fy b c ->
  put N pf (n + p) (m + 2 * length (ly_q L)) (stretch (ly_l L) (ly_q L) fz) c d -> rhs_is d fx fy fz.
Proof.
  intros (a1 & a2 & a3) (b1 & b2 & b3) (c1 & c2 & c3). assert (N = n + p + (m + 2 * length (ly_q L))) by (unfold ly_nK, ly_mt; lia). split; [|split].
  - intros i Hi. rewrite c3, b3 by lia. apply (a2 i). auto.
  - intros i Hi. rewrite c3 by lia. auto.
  - intros i Hi. auto.
Qed.

Lemma RHS_affine_val lpv soc ex w R : going L lpv soc ex w -> RHS_affine w = Some R ->
  rhs_is R (gd f0 (w_rx w)) (fun i => - gd f0 (w_ry w) i)%fl (fun i => gd f0 (w_s w) i - gd f0 (w_rz w) i)%fl.
Proof.
  intros [WS [FX FY FZ FS] [RX RY RZ] SC LA FA R1 R2] E.
  assert (X : wp (RHS_affine w) (fun R => rhs_is R (gd f0 (w_rx w)) (fun i => - gd f0 (w_ry w) i)%fl (fun i => gd f0 (w_s w) i - gd f0 (w_rz w) i)%fl)).
  2:{ rewrite E in X. exact X. }
  clear E R. unfold RHS_affine. cbv zeta. pose proof (ws_K _ _ _ _ _ WS) as KW. pose proof (kws_dim _ _ _ _ _ KW) as (PP & _). pose proof (kw_Pinv _ _ _ _ _ KW) as VP.
  rewrite (ws_n _ _ _ _ _ WS), (ws_p _ _ _ _ _ WS). pose proof (ws_N L WS) as NN. assert (LR2 : length (kk_RHS2 (w_KKT w)) = N) by (destruct KW; auto).
  wb. apply (scatter_wp N pf _ VP PP 0 n _ (gd f0 (w_rx w))); [lia|lia|intros i Hi; apply (full_vecd _ _ RX); auto|]. intros a U1.
  wb. apply (scatter_wp N pf _ VP PP n p _ (fun i => - gd f0 (w_ry w) i)%fl); [lia|destruct U1; lia| |].
  { intros i Hi. pose proof (full_vecd _ _ RY i Hi) as E. rewrite E. reflexivity. }
  intros b U2.
  apply (rhs_conic_wp N pf _ VP PP (w_C w) (n + p) _ (fun i => gd f0 (w_s w) i - gd f0 (w_rz w) i)%fl); [lia|destruct U1, U2; lia| |].
  { intros i Hi. rewrite (ws_msize L WS) in Hi. pose proof (full_vecd _ _ FS i Hi) as E. rewrite E. pose proof (full_vecd _ _ RZ i Hi) as E'. cbn [bind]. rewrite E'. reflexivity. }
  intros d U3. rewrite (ws_msize L WS), (ws_nsoc L WS) in U3. destruct (ws_cq _ _ _ _ WS) as (E1 & E2 & _). rewrite E1, E2 in U3. eapply put3; eauto.
Qed.

(* one exponential cone of RHS_combined *)
Lemma comb_exp_val (K : kkt F) s rz oms sm e k j (R : arr F) r : vec (kk_Pinv K) N pf -> is_perm N pf -> k + 3 <= N -> N <= length R ->
  rhs_comb_exp (kk_Pinv K) s rz oms sm e k j R = Some r -> let '(e', R') := r in
  ex_v e' = ex_v e /\ vec (ex_g e') 3 (fun i => gd f0 s (j + i) + sm * gd f0 (ex_g e) i)%fl /\
  put N pf k 3 (fun i => - oms * gd f0 rz (j + i) + (gd f0 s (j + i) + sm * gd f0 (ex_g e) i))%fl R R'.
Proof.
  intros VP PP Hk LR E. refine (wlp_elim _ (fun r => _) _ _ E). clear E r. unfold rhs_comb_exp. apply wlp_bind.
  apply wlp_for with (Inv := fun i (st : arr F * arr F) => let '(g, R') := st in
    vec g i (fun i => gd f0 s (j + i) + sm * gd f0 (ex_g e) i)%fl /\ (forall t, i <= t -> get g t = get (ex_g e) t) /\
    put N pf k i (fun i => - oms * gd f0 rz (j + i) + (gd f0 s (j + i) + sm * gd f0 (ex_g e) i))%fl R R'); [lia| | |].
  - csplit; auto; [intros t Ht; lia|apply put_nil].
  - intros i [g R'] Hi (A & B & D). apply wlp_bind_eq. intros si Es. apply wlp_bind_eq. intros gi Eg. apply wlp_bind_eq. intros g2 E2.
    apply set_inv in E2 as (Lt & L2 & G2). assert (Eg2 : get g2 i = Some (si + sm * gi)%fl) by (rewrite G2, Nat.eqb_refl; auto). rewrite Eg2. cbn [bind].
    apply wlp_bind_eq. intros ri Er. apply wlp_bind_eq. intros pk Ep. rewrite VP in Ep by lia. injection Ep as <-. apply wlp_bind_eq. intros R2 ER. apply wlp_ret.
    apply set_inv in ER as (LtR & LR2 & GR2). rewrite B in Eg by lia.
    pose proof (gd_get f0 _ _ _ Es) as Xs. pose proof (gd_get f0 _ _ _ Eg) as Xg. pose proof (gd_get f0 _ _ _ Er) as Xr. csplit.
    + intros t Ht. rewrite G2. destruct (Nat.eqb_spec t i) as [->|]; [|apply A; lia]. rewrite Xs, Xg. reflexivity.
    + intros t Ht. rewrite G2. destruct (Nat.eqb_spec t i); [lia|]. apply B. lia.
    + destruct D as (D1 & D2 & D3). destruct PP as [P1 P2]. split; [congruence|]. split.
      * intros t Ht. rewrite GR2. destruct (Nat.eqb_spec (pf (k + t)) (pf (k + i))) as [Q|Q].
        -- apply P2 in Q; try lia. assert (t = i) as -> by lia. rewrite Xs, Xg, Xr. reflexivity.
        -- apply D2. assert (t <> i) by congruence. lia.
      * intros t Ht Ho. rewrite GR2. destruct (Nat.eqb_spec (pf t) (pf (k + i))) as [Q|Q]; [apply P2 in Q; lia|]. apply D3; auto. lia.
  - intros [g R'] (A & B & D). cbv beta iota. apply wlp_ret. cbn [ex_v ex_g]. auto.
Qed.

Lemma comb_exps_val (K : kkt F) s rz oms sm : vec (kk_Pinv K) N pf -> is_perm N pf ->
  forall l k j (R : arr F) r, k + 3 * length l <= N -> N <= length R ->
  rhs_comb_exps (kk_Pinv K) s rz oms sm l k j R = Some r -> let '(l', R') := r in
  map ex_v l' = map ex_v l /\
  (forall t e e', nth_error l t = Some e -> nth_error l' t = Some e' -> vec (ex_g e') 3 (fun i => gd f0 s (j + 3 * t + i) + sm * gd f0 (ex_g e) i)%fl) /\
  put N pf k (3 * length l) (fun i => match nth_error l (i / 3) with Some e => - oms * gd f0 rz (j + i) + (gd f0 s (j + i) + sm * gd f0 (ex_g e) (i mod 3)) | None => f0 end)%fl R R'.
Proof.
  intros VP PP. induction l as [|e t IH]; intros k j R r Hk LR E; cbn [rhs_comb_exps length] in *.
  - injection E as <-. csplit; auto; [intros [|] ? ? ?; discriminate|apply put_nil].
  - destruct (rhs_comb_exp _ _ _ _ _ e k j R) as [[e' R1]|] eqn:E1; [|discriminate]. cbn [bind] in E.
    destruct (rhs_comb_exps _ _ _ _ _ t _ _ R1) as [[t' R2]|] eqn:E2; [|discriminate]. cbn [bind] in E. injection E as <-.
    pose proof (comb_exp_val K s rz oms sm e k j R _ VP PP ltac:(lia) LR E1) as (A1 & A2 & A3).
    pose proof (IH (k + 3) (j + 3) R1 _ ltac:(lia) ltac:(destruct A3 as (-> & _); exact LR) E2) as (B1 & B2 & B3).
    cbn [map]. csplit; [congruence| |].
    + intros [|u] x x' Hx Hx'; cbn in Hx, Hx'.
      * injection Hx as <-. injection Hx' as <-. replace (j + 3 * 0) with j by lia. exact A2.
      * replace (j + 3 * Datatypes.S u) with (j + 3 + 3 * u) by lia. eapply B2; eauto.
    + replace (3 * Datatypes.S (length t)) with (3 + 3 * length t) by lia. eapply put_ext.
      * refine (put_app N pf k 3 _ _ _ R R1 R2 _ A3 B3); lia.
      * intros i Hi. cbv beta. destruct (Nat.ltb_spec i 3).
        -- rewrite Nat.div_small, Nat.mod_small by lia. reflexivity.
        -- replace (j + 3 + (i - 3)) with (j + i) by lia.
           assert (D3 : i / 3 = Datatypes.S ((i - 3) / 3)) by (replace i with ((i - 3) + 1 * 3) at 1 by lia; rewrite Nat.div_add by lia; lia).
           assert (M3 : i mod 3 = (i - 3) mod 3) by (replace i with ((i - 3) + 1 * 3) at 1 by lia; rewrite Nat.mod_add by lia; auto).
           rewrite D3, M3. reflexivity.
Qed.

(* ------------------------------------------------------------------ frames *)
(* what a pass computes before its directions and does not change until its step *)
Definition still (w : W) := (prob_of w, point_of w, (w_rx w, w_ry w, w_rz w, w_rt w), w_lambda w, st_mu (w_info w)).
(* the factorization and the first right-hand side *)
Definition kcore (K : kkt F) := (kk_PKPt K, kk_L K, kk_D K, kk_P K, kk_Pinv K, kk_PK K, kk_RHS1 K).
Definition kdir1 (K : kkt F) := (kk_dx1 K, kk_dy1 K, kk_dz1 K).
Definition kdir2 (K : kkt F) := (kk_dx2 K, kk_dy2 K, kk_dz2 K).

Lemma kkt_solve_keep K A G Pb dx dy dz n' p' m' C ii nit it K' dx' dy' dz' :
  kkt_solve K A G Pb dx dy dz n' p' m' C ii nit = Some (it, K', dx', dy', dz') ->
  kcore K' = kcore K /\ kk_RHS2 K' = kk_RHS2 K /\ kdir1 K' = kdir1 K /\ kdir2 K' = kdir2 K.
Proof. unfold kkt_solve. intros E. cbv zeta in E. repeat (binv1 E; cbv beta iota in E).
  destruct i as [[[[[[[[? ?] ?] ?] ?] ?] ?] ?] ?]. binv E. injection E as <- <- <- <- <-. csplit; reflexivity. Qed.

Record solved1 (w w' : W) : Prop := {
  s1_still : still w' = still w; s1_core : kcore (w_KKT w') = kcore (w_KKT w); s1_C : w_C w' = w_C w;
  s1_solve : exists it K' dx dy dz, kkt_solve (w_KKT w) (w_A w) (w_G w) (kk_RHS1 (w_KKT w)) dx dy dz (w_n w) (w_p w) (w_m w) (w_C w) false (sg_nitref (w_stgs w))
    = Some (it, K', kk_dx1 (w_KKT w'), kk_dy1 (w_KKT w'), kk_dz1 (w_KKT w'))
}.
Lemma solve1_val w w' : solve1 w = Some w' -> solved1 w w'.
Proof.
  unfold solve1, set_info. intros E. cbv zeta in E. destruct (kkt_solve _ _ _ _ _ _ _ _ _ _ _ _ _) as [[[[[it K'] dx] dy] dz]|] eqn:ES; [|discriminate].
  cbn [bind] in E. injection E as <-. pose proof (kkt_solve_keep _ _ _ _ _ _ _ _ _ _ _ _ _ _ _ _ _ _ ES) as (A & B & C & D).
  constructor; wcbn; auto. eexists _, _, _, _, _. exact ES.
Qed.

Record solved2 (R : arr F) (w w' : W) : Prop := {
  s2_still : still w' = still w; s2_core : kcore (w_KKT w') = kcore (w_KKT w); s2_C : w_C w' = w_C w; s2_R : kk_RHS2 (w_KKT w') = R;
  s2_d1 : kdir1 (w_KKT w') = kdir1 (w_KKT w); s2_sig : st_sigma (w_info w') = st_sigma (w_info w);
  s2_dw : w_dsaff_by_W w' = w_dsaff_by_W w; s2_wd : w_W_times_dzaff w' = w_W_times_dzaff w;
  s2_solve : exists K it K' dx dy dz, kcore K = kcore (w_KKT w) /\ kkt_solve K (w_A w) (w_G w) R dx dy dz (w_n w) (w_p w) (w_m w) (w_C w) false (sg_nitref (w_stgs w))
    = Some (it, K', kk_dx2 (w_KKT w'), kk_dy2 (w_KKT w'), kk_dz2 (w_KKT w'))
}.
Lemma solve2_val w it w' : solve2 w = Some (it, w') -> solved2 (kk_RHS2 (w_KKT w)) w w' /\ w_info w' = w_info w.
Proof.
  unfold solve2, set_info. intros E. cbv zeta in E. destruct (kkt_solve _ _ _ _ _ _ _ _ _ _ _ _ _) as [[[[[it' K'] dx] dy] dz]|] eqn:ES; [|discriminate].
  cbn [bind] in E. injection E as <- <-. pose proof (kkt_solve_keep _ _ _ _ _ _ _ _ _ _ _ _ _ _ _ _ _ _ ES) as (A & B & C & D).
  split; [|reflexivity]. constructor; wcbn; auto. eexists _, _, _, _, _, _. split; [reflexivity|exact ES].
Qed.

Lemma affine_solve_val w w' : affine_solve w = Some w' -> exists R, RHS_affine w = Some R /\ solved2 R w w'.
Proof.
  unfold affine_solve, set_info. intros E. binv E. injection E as <-. exists v. split; auto. apply solve2_val in E1 as [S2 I].
  destruct S2 as [A B C D G H J K (K0 & it & K' & dx & dy & dz & E & M)]. constructor; [exact A|exact B|exact C|exact D|exact G|exact H|exact J|exact K|].
  - exists K0, it, K', dx, dy, dz. split; [rewrite E; reflexivity|]. exact M.
Qed.

Record newton1 (w : W) (den dta dka : F) (w' : W) : Prop := {
  n1_still : still w' = still w; n1_core : kcore (w_KKT w') = kcore (w_KKT w); n1_C : w_C w' = w_C w;
  n1_R : kk_RHS2 (w_KKT w') = kk_RHS2 (w_KKT w); n1_d1 : kdir1 (w_KKT w') = kdir1 (w_KKT w);
  n1_den : exists a b c, dot3 w (kk_dx1 (w_KKT w)) (kk_dy1 (w_KKT w)) (kk_dz1 (w_KKT w)) = Some (a, b, c) /\ den = (w_kap w / w_tau w - a - b - c)%fl;
  n1_dta : exists a b c, dot3 w (kk_dx2 (w_KKT w)) (kk_dy2 (w_KKT w)) (kk_dz2 (w_KKT w)) = Some (a, b, c) /\ dta = ((w_rt w - w_kap w + a + b + c) / den)%fl;
  n1_dka : dka = (- w_kap w - w_kap w / w_tau w * dta)%fl;
  n1_dz : axpy (w_m w) dta (kk_dz1 (w_KKT w)) (kk_dz2 (w_KKT w)) = Some (kk_dz2 (w_KKT w'));
  n1_wdz : scale (kk_dz2 (w_KKT w')) (w_C w) (w_W_times_dzaff w) = Some (w_W_times_dzaff w');
  n1_dsw : cell2 (fun x y => - x - y)%fl (w_m w) (w_W_times_dzaff w') (w_lambda w) (w_dsaff_by_W w) = Some (w_dsaff_by_W w')
}.
Lemma affine_newton_val w den dta dka w' : affine_newton w = Some (den, dta, dka, w') -> newton1 w den dta dka w'.
Proof.
  unfold affine_newton, set_info. cbv zeta. intros E. binv E. injection E as <- <- <- <-.
  constructor; wcbn; auto; try reflexivity; try (eexists _, _, _; split; [eassumption|reflexivity]).
Qed.

Lemma bk_mu w dtau dkap : forall fuel alpha a b i r, bk_loop fuel w dtau dkap alpha a b i = Some r -> let '(_, _, _, i') := r in st_mu i' = st_mu i /\ st_sigma i' = st_sigma i.
Proof.
  induction fuel as [|fuel IH]; intros alpha a b i r E; cbn [bk_loop] in E; [injection E as <-; auto|].
  binv E. cbv zeta in E.
  repeat first [ match type of E with (if ?t then _ else _) = Some _ => destruct t end
    | match type of E with bind ?mm _ = Some _ => let v := fresh "v" in let E' := fresh "E" in destruct mm as [v|] eqn:E'; [cbn [bind] in E; dprod|discriminate E] end ];
  cbv beta iota; first [ injection E; intros; subst; split; reflexivity | apply IH in E; cbv beta iota in E; destruct E as [-> ->]; split; reflexivity ].
Qed.

Lemma expls_val w dtau dkap aff a w' : expConeLineSearch w dtau dkap aff = Some (a, w') ->
  exists k1 k2 i, w' = set_w_info (set_w_KKT w (set_kk_work2 (set_kk_work1 (w_KKT w) k1) k2)) i /\ st_mu i = st_mu (w_info w) /\ st_sigma i = st_sigma (w_info w).
Proof.
  unfold expConeLineSearch. cbv zeta. intros E. destruct (bk_loop _ _ _ _ _ _ _ _) as [[[[al k1] k2] i]|] eqn:EB; [|discriminate].
  cbn [bind] in E. injection E as <- <-. apply bk_mu in EB as [M S]. exists k1, k2, i. csplit; auto.
Qed.

Record exped1 (w w' : W) : Prop := {
  e1_still : still w' = still w; e1_core : kcore (w_KKT w') = kcore (w_KKT w); e1_C : w_C w' = w_C w;
  e1_R : kk_RHS2 (w_KKT w') = kk_RHS2 (w_KKT w); e1_d1 : kdir1 (w_KKT w') = kdir1 (w_KKT w);
  e1_wdz : w_W_times_dzaff w' = w_W_times_dzaff w; e1_dsw : w_dsaff_by_W w' = w_dsaff_by_W w; e1_dz : kk_dz2 (w_KKT w') = kk_dz2 (w_KKT w)
}.
Lemma affine_exp_val a b w w' : affine_exp a b w = Some w' -> exped1 w w'.
Proof.
  unfold affine_exp, set_info. cbv zeta. intros E. binv1 E. destruct (Nat.ltb _ _).
  - binv1 E. apply expls_val in E1 as (k1 & k2 & i & -> & M & S). injection E as <-.
    constructor; wcbn; auto; try reflexivity. unfold still. wcbn. match goal with |- (_, ?x) = (_, ?y) => replace x with y; [reflexivity|symmetry] end. match goal with |- context [if ?b then _ else _] => destruct b end; wcbn; exact M.
  - injection E as <-. constructor; reflexivity.
Qed.

Record newton2 (den dta dka : F) (w : W) (dtau dkap : F) (w' : W) : Prop := {
  n2_still : still w' = still w; n2_core : kcore (w_KKT w') = kcore (w_KKT w); n2_C : w_C w' = w_C w;
  n2_dtau : exists a b c, dot3 w (kk_dx2 (w_KKT w)) (kk_dy2 (w_KKT w)) (kk_dz2 (w_KKT w)) = Some (a, b, c) /\
    dtau = (((f1 - st_sigma (w_info w)) * w_rt w - (w_kap w * w_tau w + dka * dta - st_sigma (w_info w) * st_mu (w_info w)) / w_tau w + a + b + c) / den)%fl;
  n2_dkap : dkap = (- ((w_kap w * w_tau w + dka * dta - st_sigma (w_info w) * st_mu (w_info w)) + w_kap w * dtau) / w_tau w)%fl;
  n2_sig : st_sigma (w_info w') = st_sigma (w_info w);
  n2_dx : axpy (w_n w) dtau (kk_dx1 (w_KKT w)) (kk_dx2 (w_KKT w)) = Some (kk_dx2 (w_KKT w'));
  n2_dy : axpy (w_p w) dtau (kk_dy1 (w_KKT w)) (kk_dy2 (w_KKT w)) = Some (kk_dy2 (w_KKT w'));
  n2_dz : axpy (w_m w) dtau (kk_dz1 (w_KKT w)) (kk_dz2 (w_KKT w)) = Some (kk_dz2 (w_KKT w'));
  n2_dsw : exists wdz, scale (kk_dz2 (w_KKT w')) (w_C w) (w_W_times_dzaff w) = Some wdz /\
    cell2 (fun x y => - (x + y))%fl (w_m w) (w_dsaff_by_W w) wdz (w_dsaff_by_W w) = Some (w_dsaff_by_W w')
}.
Lemma combined_newton_val den dta dka w dtau dkap w' : combined_newton den dta dka w = Some (dtau, dkap, w') -> newton2 den dta dka w dtau dkap w'.
Proof.
  unfold combined_newton, set_info. cbv zeta. intros E. binv E. injection E as <- <- <-.
  constructor; wcbn; auto; try reflexivity; try (eexists _, _, _; split; [eassumption|reflexivity]). eexists. split; eassumption.
Qed.

Record exped2 (w w' : W) : Prop := {
  e2_still : still w' = still w; e2_core : kcore (w_KKT w') = kcore (w_KKT w); e2_C : w_C w' = w_C w;
  e2_d2 : kdir2 (w_KKT w') = kdir2 (w_KKT w); e2_sig : st_sigma (w_info w') = st_sigma (w_info w);
  e2_ds : ds_unscale w (expg (w_C w)) = Some (w_dsaff w')
}.
Lemma combined_exp_val a b w ok w' : combined_exp a b w = Some (ok, w') -> exped2 w w'.
Proof.
  unfold combined_exp, set_info. cbv zeta. intros E. binv1 E. destruct (Nat.ltb _ _).
  - binv1 E. apply expls_val in E1 as (k1 & k2 & i & -> & M & S). injection E as <- <-.
    constructor; wcbn; auto; try reflexivity. unfold still. wcbn. match goal with |- (_, ?x) = (_, ?y) => replace x with y; reflexivity end.
  - injection E as <- <-. constructor; try reflexivity; exact E0.
Qed.

Record stepped (dtau dkap : F) (w w' : W) : Prop := {
  st_prob : prob_of w' = prob_of w; st_K : w_KKT w' = w_KKT w; st_sC : w_C w' = w_C w; st_info : w_info w' = w_info w; st_ds : w_dsaff w' = w_dsaff w;
  st_la : w_lambda w' = w_lambda w;
  st_x : axpy (w_n w) (st_step (w_info w)) (kk_dx2 (w_KKT w)) (w_x w) = Some (w_x w');
  st_y : axpy (w_p w) (st_step (w_info w)) (kk_dy2 (w_KKT w)) (w_y w) = Some (w_y w');
  st_z : axpy (w_m w) (st_step (w_info w)) (kk_dz2 (w_KKT w)) (w_z w) = Some (w_z w');
  st_s : axpy (w_m w) (st_step (w_info w)) (w_dsaff w) (w_s w) = Some (w_s w');
  st_tau : w_tau w' = (w_tau w + st_step (w_info w) * dtau)%fl; st_kap : w_kap w' = (w_kap w + st_step (w_info w) * dkap)%fl
}.
Lemma take_step_val dtau dkap w w' : take_step dtau dkap w = Some w' -> stepped dtau dkap w w'.
Proof. unfold take_step. cbv zeta. intros E. binv E. injection E as <-. constructor; auto. Qed.

(* ------------------------------------------------ RHS_combined, value by value *)
Lemma heads_ge q : forall k i, i < k -> heads k q i = false.
Proof. induction q as [|d t IH]; intros k i Hi; cbn [heads]; auto. rewrite IH by lia. destruct (Nat.eqb_spec i k); [lia|auto]. Qed.
Lemma heads_end q : (forall d, In d q -> 1 <= d) -> forall k i, k + list_sum q <= i -> heads k q i = false.
Proof.
  induction q as [|d t IH]; intros Hq k i Hi; cbn [heads]; auto. change (list_sum (d :: t)) with (d + list_sum t) in Hi.
  pose proof (Hq d (or_introl eq_refl)). rewrite IH; [|intros; apply Hq; right; auto|lia]. destruct (Nat.eqb_spec i k); [lia|auto].
Qed.

Lemma comb_soc_val (ds2 : arr F) sm : forall (l : list (socone F)) k (d d' : arr F) k', (forall c, In c l -> 1 <= so_p c) ->
  for_each l (fun c st =>
      let '(ds1, k) := st in
      a <- get ds1 k ;; b <- get ds2 k ;;
      ds1 <- set ds1 k (a + (b - sm))%fl ;;
      ds1 <- for_ 1 (so_p c) (fun j ds1 =>
          a <- get ds1 (k + j)%nat ;; b <- get ds2 (k + j)%nat ;; set ds1 (k + j)%nat (a + b)%fl) ds1 ;;
      Some (ds1, (k + Nat.max 1 (so_p c))%nat)) (d, k) = Some (d', k') ->
  (forall i, k <= i < k + list_sum (map so_p l) ->
     get d' i = Some (gd f0 d i + (if heads k (map so_p l) i then gd f0 ds2 i - sm else gd f0 ds2 i))%fl) /\
  (forall i, i < k \/ k + list_sum (map so_p l) <= i -> get d' i = get d i).
Proof.
  induction l as [|c t IH]; intros k d d' k' Hp E; cbn [for_each] in E.
  - injection E as <- <-. cbn. split; [intros; lia|auto].
  - pose proof (Hp c (or_introl eq_refl)) as Pc. cbv beta iota in E. destruct (get d k) as [a|] eqn:Ea; [cbn [bind] in E|discriminate].
    destruct (get ds2 k) as [b|] eqn:Eb; [cbn [bind] in E|discriminate]. destruct (set d k _) as [d1|] eqn:E1; [cbn [bind] in E|discriminate].
    destruct (for_ 1 (so_p c) _ d1) as [d2|] eqn:E2; [cbn [bind] in E|discriminate].
    apply set_inv in E1 as (Lt1 & L1 & G1).
    assert (X : (forall j, 1 <= j < so_p c -> get d2 (k + j) = Some (gd f0 d (k + j) + gd f0 ds2 (k + j))%fl) /\ (forall i, i <= k \/ k + so_p c <= i -> get d2 i = get d1 i)).
    { refine (wlp_elim _ (fun d2 => _) _ _ E2). apply wlp_for with (Inv := fun u (d2 : arr F) =>
        (forall j, 1 <= j < u -> get d2 (k + j) = Some (gd f0 d (k + j) + gd f0 ds2 (k + j))%fl) /\ (forall i, i <= k \/ k + u <= i -> get d2 i = get d1 i)); [lia| | |].
      - split; [intros; lia|auto].
      - intros j x Hj (A & B). apply wlp_bind_eq. intros u Eu. apply wlp_bind_eq. intros v Ev. apply wlp_intro. intros y Ey. apply set_inv in Ey as (Lt & Ly & Gy).
        rewrite B in Eu by lia. rewrite G1 in Eu. destruct (Nat.eqb_spec (k + j) k); [lia|]. split.
        + intros i Hi. rewrite Gy. destruct (Nat.eqb_spec (k + i) (k + j)) as [Q|Q]; [|apply A; lia].
          assert (i = j) as -> by lia. rewrite (gd_get _ _ _ _ Eu), (gd_get _ _ _ _ Ev). reflexivity.
        + intros i Hi. rewrite Gy. destruct (Nat.eqb_spec i (k + j)); [lia|]. apply B. lia.
      - auto. }
    destruct X as [X1 X2]. replace (Nat.max 1 (so_p c)) with (so_p c) in E by lia.
    apply IH in E as [I1 I2]; [|intros; apply Hp; right; auto].
    cbn [map heads]. change (list_sum (so_p c :: map so_p t)) with (so_p c + list_sum (map so_p t)).
    assert (D2 : forall i, k + so_p c <= i -> get d2 i = get d i) by (intros i Hi; rewrite X2, G1 by lia; destruct (Nat.eqb_spec i k); [lia|auto]).
    split.
    + intros i Hi. destruct (Nat.lt_ge_cases i (k + so_p c)).
      * rewrite I2 by lia. rewrite heads_ge by lia. destruct (Nat.eqb_spec i k) as [->|NE]; cbn [orb].
        -- rewrite X2, G1, Nat.eqb_refl by lia. rewrite (gd_get _ _ _ _ Ea), (gd_get _ _ _ _ Eb). reflexivity.
        -- replace i with (k + (i - k)) by lia. apply X1. lia.
      * rewrite I1 by lia. destruct (Nat.eqb_spec i k); [lia|]. cbn [orb]. unfold gd. rewrite D2 by lia. reflexivity.
    + intros i Hi. rewrite I2 by lia. rewrite X2, G1 by lia. destruct (Nat.eqb_spec i k); [lia|auto].
Qed.

Lemma comb_lp_val (ds2 : arr F) sm l (d d' : arr F) :
  for_ 0 l (fun i ds1 => a <- get ds1 i ;; b <- get ds2 i ;; set ds1 i (a + (b - sm))%fl) d = Some d' ->
  (forall i, i < l -> get d' i = Some (gd f0 d i + (gd f0 ds2 i - sm))%fl) /\ (forall i, l <= i -> get d' i = get d i).
Proof.
  intros E. refine (wlp_elim _ (fun d' => _) _ _ E). apply wlp_for with (Inv := fun u (d' : arr F) =>
    (forall i, i < u -> get d' i = Some (gd f0 d i + (gd f0 ds2 i - sm))%fl) /\ (forall i, u <= i -> get d' i = get d i)); [lia| | |auto].
  - split; [intros; lia|auto].
  - intros j x Hj (A & B). apply wlp_bind_eq. intros u Eu. apply wlp_bind_eq. intros v Ev. apply wlp_intro. intros y Ey. apply set_inv in Ey as (Lt & Ly & Gy).
    rewrite B in Eu by lia. split.
    + intros i Hi. rewrite Gy. destruct (Nat.eqb_spec i j) as [->|]; [|apply A; lia]. rewrite (gd_get _ _ _ _ Eu), (gd_get _ _ _ _ Ev). reflexivity.
    + intros i Hi. rewrite Gy. destruct (Nat.eqb_spec i j); [lia|]. apply B. lia.
Qed.

(* the first two blocks of the right-hand side are scaled *)
Lemma comb_scale_val (Pinv : arr nat) oms np (R R' : arr F) : vec Pinv N pf -> is_perm N pf -> np <= N ->
  for_ 0 np (fun i R => pk <- get Pinv i ;; r <- get R pk ;; set R pk (r * oms)%fl) R = Some R' ->
  length R' = length R /\ (forall i, i < np -> get R' (pf i) = Some (gd f0 R (pf i) * oms)%fl).
Proof.
  intros VP [P1 P2] Hn E. refine (wlp_elim _ (fun R' => length R' = length R /\ (forall i, i < np -> get R' (pf i) = Some (gd f0 R (pf i) * oms)%fl)) _ _ E).
  apply wlp_for with (Inv := fun u (R' : arr F) => length R' = length R /\
    (forall i, i < u -> get R' (pf i) = Some (gd f0 R (pf i) * oms)%fl) /\ (forall i, u <= i -> i < N -> get R' (pf i) = get R (pf i))); [lia| | |].
  - csplit; auto. intros; lia.
  - intros j x Hj (A & B & D). rewrite VP by lia. cbn [bind]. apply wlp_bind_eq. intros u Eu. apply wlp_intro. intros y Ey. apply set_inv in Ey as (Lt & Ly & Gy).
    rewrite D in Eu by lia. csplit; [congruence| |].
    + intros i Hi. rewrite Gy. destruct (Nat.eqb_spec (pf i) (pf j)) as [Q|Q].
      * apply P2 in Q; try lia. subst i. rewrite (gd_get _ _ _ _ Eu). reflexivity.
      * apply B. assert (i <> j) by congruence. lia.
    + intros i Hi Hi'. rewrite Gy. destruct (Nat.eqb_spec (pf i) (pf j)) as [Q|Q]; [apply P2 in Q; lia|]. apply D; lia.
  - intros x (A & B & _). auto.
Qed.

Definition smu (w : W) : F := (st_sigma (w_info w) * st_mu (w_info w))%fl.
Definition oms (w : W) : F := (f1 - st_sigma (w_info w))%fl.

(* the conic part of the combined right-hand side *)
Definition comb_z (w : W) (g : arr F) (i : nat) : F :=
  let h := hsize (w_C w) in
  if i <? h then (- oms w * gd f0 (w_rz w) i + gd f0 g i)%fl
  else match nth_error (co_expc (w_C w)) ((i - h) / 3) with
       | Some e => (- oms w * gd f0 (w_rz w) i + (gd f0 (w_s w) i + smu w * gd f0 (ex_g e) ((i - h) mod 3)))%fl
       | None => f0
       end.

Record combined1 (w w' : W) : Prop := {
  c1_still : still w' = still w; c1_core : kcore (w_KKT w') = kcore (w_KKT w); c1_d1 : kdir1 (w_KKT w') = kdir1 (w_KKT w);
  c1_info : w_info w' = w_info w; c1_wd : w_W_times_dzaff w' = w_W_times_dzaff w;
  c1_C : exists l', w_C w' = set_co_expc (w_C w) l' /\ map ex_v l' = map ex_v (co_expc (w_C w)) /\
    forall t e e', nth_error (co_expc (w_C w)) t = Some e -> nth_error l' t = Some e' ->
      vec (ex_g e') 3 (fun i => gd f0 (w_s w) (hsize (w_C w) + 3 * t + i) + smu w * gd f0 (ex_g e) i)%fl;
  c1_conic : exists a b k1 k2 d1 d2 d4 g,
    conicProduct (w_lambda w) (w_lambda w) (w_C w) k1 = Some (a, d1) /\
    conicProduct (w_dsaff_by_W w) (w_W_times_dzaff w) (w_C w) k2 = Some (b, d2) /\
    (forall i, i < hsize (w_C w) -> get d4 i = Some (gd f0 d1 i + (if unit_at (ly_l L) (ly_q L) i then gd f0 d2 i - smu w else gd f0 d2 i))%fl) /\
    conicDivision (w_lambda w) d4 (w_C w) (w_dsaff_by_W w) = Some (w_dsaff_by_W w') /\
    scale (w_dsaff_by_W w') (w_C w) d4 = Some g /\
    hsize (w_C w) <= length k1 /\ hsize (w_C w) <= length k2 /\ hsize (w_C w) <= length (w_dsaff_by_W w) /\
    forall fx fy fz, rhs_is (kk_RHS2 (w_KKT w)) fx fy fz ->
      rhs_is (kk_RHS2 (w_KKT w')) (fun i => fx i * oms w)%fl (fun i => fy i * oms w)%fl
        (comb_z w g)
}.

Lemma scatter_val (Pinv : arr nat) k cnt f fv (a a' : arr F) : vec Pinv N pf -> is_perm N pf -> k + cnt <= N -> N <= length a ->
  (forall i, i < cnt -> f i = Some (fv i)) -> scatter Pinv k cnt f a = Some a' -> put N pf k cnt fv a a'.
Proof.
  intros VP PP Hk Hl Hf E. assert (X : wp (scatter Pinv k cnt f a) (put N pf k cnt fv a)) by (apply (scatter_wp N pf Pinv VP PP k cnt f fv); auto).
  rewrite E in X. exact X.
Qed.

Lemma RHS_combined_val lpv soc ex w w' : going L lpv soc ex w -> affined L w -> RHS_combined w = Some w' -> combined1 w w'.
Proof.
  intros GO [D1 FW FD] E. pose proof GO as [WS [PX PY PZ PS] [RX RY RZ] SC LA FA R1 R2]. unfold RHS_combined in E. cbv zeta in E.
  pose proof (ws_K _ _ _ _ _ WS) as KW. pose proof (ws_pos L WS) as HP. pose proof (ws_hm L WS) as HM. pose proof (ws_mN L) as MN.
  pose proof (ws_N L WS) as NN. pose proof (kws_dim _ _ _ _ _ KW) as (PP & _). pose proof (kw_Pinv _ _ _ _ _ KW) as VP.
  destruct (ws_cq _ _ _ _ WS) as (CL & CQ & CE).
  destruct (conicProduct (w_lambda w) (w_lambda w) _ _) as [[mu1 d1]|] eqn:E1; [cbn [bind] in E|discriminate].
  destruct (conicProduct (w_dsaff_by_W w) _ _ _) as [[mu2 d2]|] eqn:E2; [cbn [bind] in E|discriminate].
  fold (smu w) (oms w) in E.
  destruct (for_ 0 (lpp (w_C w)) _ d1) as [d3|] eqn:E3; [cbn [bind] in E|discriminate].
  destruct (for_each _ _ (d3, _)) as [[d4 k4]|] eqn:E4; [cbn [bind] in E|discriminate].
  destruct (conicDivision _ d4 _ _) as [dsw|] eqn:E5; [cbn [bind] in E|discriminate].
  destruct (scale dsw _ d4) as [g|] eqn:E6; [cbn [bind] in E|discriminate].
  destruct (for_ 0 (w_n w + w_p w) _ _) as [Ra|] eqn:E7; [cbn [bind] in E|discriminate].
  set (val := fun j => r <- get (w_rz w) j ;; d <- get g j ;; Some (- oms w * r + d)%fl) in E.
  destruct (scatter _ _ _ val Ra) as [Rb|] eqn:E8; [cbn [bind] in E|discriminate].
  destruct (for_each _ _ (Rb, _, _)) as [[[Rc kc] jc]|] eqn:E9; [cbn [bind] in E|discriminate].
  destruct (rhs_comb_exps _ _ _ _ _ _ _ _ _) as [[l' Rd]|] eqn:E10; [cbn [bind] in E|discriminate].
  injection E as <-.
  assert (LH : lpp (w_C w) <= hsize (w_C w)) by (unfold hsize; lia).
  assert (V4 : forall i, i < hsize (w_C w) -> get d4 i = Some (gd f0 d1 i + (if unit_at (ly_l L) (ly_q L) i then gd f0 d2 i - smu w else gd f0 d2 i))%fl).
  { apply comb_lp_val in E3 as [A3 B3]. apply comb_soc_val in E4 as [A4 B4]; [|exact HP]. intros i Hi. unfold unit_at. rewrite <- CL, <- CQ.
    destruct (Nat.ltb_spec i (lpp (w_C w))); cbn [orb].
    - rewrite B4 by lia. rewrite A3 by lia. reflexivity.
    - unfold hsize in Hi. rewrite A4 by lia. unfold gd at 1. rewrite B3 by lia. reflexivity. }
  clear E3 E4.
  assert (F4 : full d4 (hsize (w_C w))) by (intros i Hi; rewrite V4 by auto; eauto).
  destruct (conicDivision_eq (w_C w) (w_lambda w) d4 (gd f0 (w_lambda w)) (gd f0 d4) (w_dsaff_by_W w)) as (dsw' & E5' & F5);
    [auto|apply full_vecd; auto|apply full_vecd; auto|destruct WS; lia|].
  rewrite E5 in E5'. injection E5' as <-. apply filled_full in F5.
  destruct (scale_eq (w_C w) dsw (gd f0 dsw) d4) as (g' & E6' & F6); [auto|apply scaled_W; auto|apply full_vecd; auto|apply full_len; auto|].
  rewrite E6 in E6'. injection E6' as <-. apply filled_full in F6.
  rewrite (ws_n _ _ _ _ _ WS), (ws_p _ _ _ _ _ WS) in *.
  assert (LR2 : length (kk_RHS2 (w_KKT w)) = N) by (destruct KW; auto).
  apply comb_scale_val in E7 as [L7 V7]; [|exact VP|exact PP|lia].
  assert (EXS : exsum (map so_p (co_soc (w_C w))) = list_sum (map so_p (co_soc (w_C w))) + 2 * nsoc (w_C w)) by (unfold exsum, nsoc; rewrite map_length; auto).
  assert (HV : forall j, j < hsize (w_C w) -> val j = Some (- oms w * gd f0 (w_rz w) j + gd f0 g j)%fl).
  { intros j Hj. unfold val. pose proof (full_vecd _ _ RZ j ltac:(lia)) as Q. rewrite Q. cbn [bind]. pose proof (full_vecd _ _ F6 j Hj) as Q'. rewrite Q'. reflexivity. }
  assert (NN' : N = n + p + (lpp (w_C w) + list_sum (map so_p (co_soc (w_C w))) + 3 * nexc (w_C w) + 2 * nsoc (w_C w))) by (unfold msize, hsize in NN; lia).
  apply (scatter_val _ _ _ _ (fun j => - oms w * gd f0 (w_rz w) j + gd f0 g j)%fl) in E8; [|exact VP|exact PP|lia|lia|intros i Hi; apply HV; lia].
  assert (X9 : put N pf (n + p + lpp (w_C w)) (exsum (map so_p (co_soc (w_C w)))) (stretchsoc (map so_p (co_soc (w_C w))) (fun i => - oms w * gd f0 (w_rz w) (lpp (w_C w) + i) + gd f0 g (lpp (w_C w) + i))%fl) Rb Rc
     /\ kc = n + p + lpp (w_C w) + exsum (map so_p (co_soc (w_C w)))).
  { match type of E9 with ?t = _ => assert (X : wp t (fun '(Rc, kc, jc) => put N pf (n + p + lpp (w_C w)) (exsum (map so_p (co_soc (w_C w)))) (stretchsoc (map so_p (co_soc (w_C w))) (fun i => - oms w * gd f0 (w_rz w) (lpp (w_C w) + i) + gd f0 g (lpp (w_C w) + i))%fl) Rb Rc
     /\ kc = n + p + lpp (w_C w) + exsum (map so_p (co_soc (w_C w))))) end.
    { apply (rhs_socs_wp N pf _ VP PP val (fun j => - oms w * gd f0 (w_rz w) j + gd f0 g j)%fl); [lia|destruct E8; lia| |].
      - intros i Hi. apply HV. unfold hsize. lia.
      - intros a' Ha. split; auto. }
    rewrite E9 in X. exact X. }
  destruct X9 as [X9 ->]. rewrite (ws_fexv L WS) in E10.
  pose proof (comb_exps_val (w_KKT w) (w_s w) (w_rz w) (oms w) (smu w) VP PP (co_expc (w_C w)) (n + p + lpp (w_C w) + exsum (map so_p (co_soc (w_C w)))) (hsize (w_C w)) Rc (l', Rd) ltac:(fold (nexc (w_C w)); unfold hsize in NN; lia) ltac:(destruct E8, X9; lia) E10) as (Y1 & Y2 & Y3).
  assert (LX : length l' = length (co_expc (w_C w))) by (rewrite <- (map_length ex_v l'), Y1, map_length; auto).
  constructor; wcbn; auto; try reflexivity.
  - exists l'. csplit; auto.
  - exists mu1, mu2, (kk_work1 (w_KKT w)), (kk_work2 (w_KKT w)), d1, d2, d4, g. csplit; auto; try (destruct KW, WS; lia).
    intros fx fy fz (Q1 & Q2 & Q3).
    assert (PUT : put N pf (n + p) (ly_l L + list_sum (ly_q L) + 3 * length (co_expc (w_C w)) + 2 * length (ly_q L))
       (stretch (ly_l L) (ly_q L) (comb_z w g)) Ra Rd).
    { apply (stretch_put N pf (ly_l L) (ly_q L) (n + p) (3 * length (co_expc (w_C w))) _ Ra Rb Rc Rd).
      - rewrite <- CL, <- CQ, map_length. fold (nexc (w_C w)) (nsoc (w_C w)). lia.
      - rewrite <- CL. eapply put_ext; [exact E8|]. intros i Hi. unfold comb_z. cbv zeta. destruct (Nat.ltb_spec i (hsize (w_C w))); [auto|lia].
      - rewrite <- CL, <- CQ. eapply put_ext; [exact X9|]. intros i Hi. unfold stretchsoc, comb_z. cbv zeta. destruct (unzsoc _ i) as [uu|] eqn:U; [|auto].
        apply unzsoc_lt in U; [|auto]. destruct (Nat.ltb_spec (lpp (w_C w) + uu) (hsize (w_C w))); [auto|unfold hsize in *; lia].
      - rewrite <- CL, <- CQ. eapply put_ext; [exact Y3|]. intros i Hi. unfold comb_z. cbv zeta. fold (hsize (w_C w)).
        destruct (Nat.ltb_spec (hsize (w_C w) + i) (hsize (w_C w))); [lia|]. replace (hsize (w_C w) + i - hsize (w_C w)) with i by lia. reflexivity. }
    destruct PUT as (U1 & U2 & U3). split; [|split].
    + intros i Hi. rewrite U3 by lia. rewrite V7 by lia. unfold gd. rewrite Q1 by auto. reflexivity.
    + intros i Hi. rewrite U3 by lia. rewrite V7 by lia. unfold gd. rewrite Q2 by auto. reflexivity.
    + intros t Ht. apply U2. rewrite <- CL, <- CQ, map_length. rewrite <- CQ, map_length in Ht. fold (nexc (w_C w)). pose proof (ws_msize L WS) as MS. unfold msize, hsize in MS. lia.
Qed.

Lemma combined_solve_val lpv soc ex w w' : going L lpv soc ex w -> affined L w -> combined_solve w = Some w' ->
  exists w1, combined1 w w1 /\ solved2 (kk_RHS2 (w_KKT w1)) w1 w' /\ st_sigma (w_info w') = st_sigma (w_info w).
Proof.
  unfold combined_solve, set_info. intros GO AF E. destruct (RHS_combined w) as [w1|] eqn:E1; [cbn [bind] in E|discriminate].
  destruct (solve2 w1) as [[it w2]|] eqn:E2; [cbn [bind] in E|discriminate]. injection E as <-.
  pose proof (RHS_combined_val _ _ _ _ _ GO AF E1) as C1. apply solve2_val in E2 as [S2 I]. exists w1. split; [exact C1|]. split.
  - destruct S2 as [A B C D G H J K M]. constructor; auto.
  - wcbn. rewrite I. f_equal. apply C1.
Qed.
End DirG.
