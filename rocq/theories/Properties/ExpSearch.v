(* C29: the backtracking line search on the exponential cones. *)
From Coq Require Import List Arith Bool ZArith QArith Qreals Reals Lra Lia.
From Verif Require Import Base Num NumE.
From Verif.Model Require Import Spla Splamm Types Consts Expcone Cone Ldl Kkt Equil Preproc Ecos.
From Verif.Spec Require Import Matrix Fill KktSpec KktMatrix Shape SetupSpec UpdateSpec Exp ExpSearch Inside.
From Verif.Proofs Require Import SplaP LoopLib Work SetupP ConeP ScalP Scal2P WorkUpd SafeLib KktUpd SafeE SafeK SafeW SafeV SafeU ExitP LoopP UpdP ExpP ExpSearchP ExpSearchX ExpGuard IterP.
From Verif.Properties Require Import Kkt Exit Exp Solve.
Import ListNotations.
Open Scope nat_scope.

(* The search, in every arithmetic.  It tries the points moved by the step lengths
   alpha, alpha*scale, alpha*scale^2, ... in this order, at most max_bk_iter of
   them; all but the last have failed one of the four tests; it returns gamma times
   the step length that passed, or -1 if none did; the four counters of the
   statistics say how often each test failed; nothing else but two scratch vectors
   of the workspace and the statistics changes. *)
Theorem C29_search : forall (O : Ops) (w : pwork F) dtau dkap (aff : bool) a w',
  w_m w = (co_fexv (w_C w) + 3 * nexc (w_C w))%nat -> (0 < nexc (w_C w))%nat ->
  expConeLineSearch w dtau dkap aff = Some (a, w') ->
  let g := w_stgs w in
  let d := mkPoint (gd f0 (w_dsaff w)) (gd f0 (kk_dz2 (w_KKT w))) dtau dkap in
  let alpha := shrunk (if aff then st_step_aff (w_info w) else st_step (w_info w)) (sg_bk_scale g) in
  let test := fun i => judged (w_C w) (w_m w) (w_D w) (sg_centrality g) (moved (here w) d (alpha i)) in
  exists os, ~ In Passed os /\ (forall i o, nth_error os i = Some o -> test i o) /\
    (Z.of_nat (length os) = Z.max 0 (sg_max_bk_iter g) /\ a = fconst (-1) \/
     (Z.of_nat (length os) < sg_max_bk_iter g)%Z /\ test (length os) Passed /\ a = (alpha (length os) * sg_gamma g)%fl) /\
    (st_db (w_info w'), st_pb (w_info w'), st_cob (w_info w'), st_cb (w_info w'))
      = (count FailDual os, count FailPrimal os, count FailBalance os, count FailCentral os) /\
    exists k1 k2 i, w' = set_w_info (set_w_KKT w (set_kk_work2 (set_kk_work1 (w_KKT w) k1) k2)) i.
Proof. intros O w dtau dkap aff a w' Hm He H. exact (expls_spec w dtau dkap aff a w' Hm He H). Qed.

(* The sizes of every workspace in the main loop *)
Lemma looping_sizes `{O : Ops} L (w w' : pwork F) : looping L w w' ->
  (w_m w' = co_fexv (w_C w') + 3 * nexc (w_C w') /\ lpp (w_C w') <= w_m w' /\ lpp (w_C w') = ly_l L /\ nexc (w_C w') = ly_e L /\
   co_fexv (w_C w') = ly_l L + list_sum (ly_q L) /\ w_m w' = ly_m L /\ w_D w' = ly_l L + length (ly_q L) + 3 * ly_e L)%nat.
Proof.
  intros [(lpv & soc & ex & WS) PT BO RH SG]. pose proof (ws_hm L WS) as A. pose proof (ws_fexv L WS) as B. pose proof (ws_hsize L WS) as D.
  pose proof (ws_m _ _ _ _ _ WS) as M. pose proof (ws_C _ _ _ _ _ WS) as C.
  assert (lpp (w_C w') = ly_l L /\ nexc (w_C w') = ly_e L) by (destruct C; split; auto).
  destruct H as [HL HE]. pose proof (ws_D _ _ _ _ _ WS). repeat split; try lia.
Qed.

(* With exponential cones present every step the solver takes, in every iteration
   of every solve of a session, is gamma times a step length that passed all four
   tests within max_bk_iter trials, in every arithmetic where -1 == -1. *)
Theorem C29_step : forall (O : Ops) w sig k pp w1 pp' w2 w3 w4, session w -> (0 < nexc (w_C w))%nat ->
  feq (fconst (-1)) (fconst (-1)) = true ->
  iterates sig w k pp w1 ->
  iter_exit (sig k) pp (set_info w1 (fun i => set_st_iter i k)) = Some (VGo, pp', w2) ->
  iter_save w2 = Some w3 -> iter_step w3 = Some (VGo, w4) ->
  exists (d : point) a0 j, let g := w_stgs w in let a := shrunk a0 (sg_bk_scale g) j in
    (Z.of_nat j < sg_max_bk_iter g)%Z /\
    judged (w_C w4) (w_m w) (w_D w) (sg_centrality g) (moved (here w1) d a) Passed /\
    (let q := moved (here w1) d (a * sg_gamma g)%fl in
     (forall i, (i < w_m w)%nat -> get (w_s w4) i = Some (p_s q i) /\ get (w_z w4) i = Some (p_z q i)) /\
     w_tau w4 = p_tau q /\ w_kap w4 = p_kap q).
Proof.
  intros O w sig k pp w1 pp' w2 w3 w4 SE He HQ HI E1 E2 E3. destruct (session_layout _ SE) as (L & H1 & US).
  destruct (iterates_ok L H1 _ _ _ _ _ US HI) as (LO & Hk & NB).
  destruct (pass_ok L sig w k pp w1 pp' w2 w3 LO NB E1 E2) as (lpv & soc & ex & WS & PT & RE & BO & WB & RH & SG & EC & EK & EP).
  destruct (iterates_ok L H1 _ _ _ _ _ US (it_next _ _ _ _ _ _ _ _ _ HI E1 E2 E3)) as (LO4 & _ & _).
  apply looping_sizes in LO4 as (M4 & _ & _ & X4 & _ & ML & DL).
  destruct US as [(lpv0 & soc0 & ex0 & WS0) _].
  assert (X0 : nexc (w_C w) = ly_e L) by (destruct (ws_C _ _ _ _ _ WS0); auto).
  pose proof (ws_m _ _ _ _ _ WS0) as Mw. pose proof (ws_D _ _ _ _ _ WS0) as Dw. pose proof (ws_m _ _ _ _ _ WS) as M3. pose proof (ws_D _ _ _ _ _ WS) as D3.
  destruct (iter_step_exp w3 w4 E3) as (d & a0 & j & Hj & J & P); [lia|lia|exact HQ|].
  exists d, a0, j. cbv zeta.
  assert (Eh : here w3 = here w1). { unfold point_of in EP. injection EP as. unfold here. congruence. }
  rewrite SG, Eh in *. replace (w_m w3) with (w_m w) in * by lia. replace (w_D w3) with (w_D w) in * by lia. auto.
Qed.

(* with exponential cones present every solve starts from the same point *)
Lemma start_spec `{O : Ops} L (w w1 : pwork F) c : (forall d, In d (ly_q L) -> 1 <= d) -> usable L w -> scaled_c w c ->
  init (set_w_c w c) = Some (true, w1) -> 0 < ly_e L ->
  w_tau w1 = f1 /\ w_kap w1 = f1 /\ (forall i, i < ly_l L -> get (w_s w1) i = Some f1 /\ get (w_z w1) i = Some f1) /\
  forall j i, j < ly_e L -> i < 3 -> let k := ly_l L + list_sum (ly_q L) + 3 * j + i in
    get (w_s w1) k = Some (f1 * list_fun expray i)%fl /\ get (w_z w1) k = Some (f1 * list_fun expray i)%fl.
Proof.
  intros H1 [(lpv0 & soc0 & ex0 & WS0) BO0] Ec Ei He.
  destruct (wp_elim _ _ (scale_loop_full (ly_n L) (fun v e => v / e)%fl (w_c w) (w_xequil w) (fun d => full d (ly_n L)) (ws_c _ _ _ _ _ WS0) (ws_xe _ _ _ _ _ WS0) (fun d _ F => F)))
    as (c' & Ec' & Fc'). unfold scaled_c in Ec. rewrite (ws_n _ _ _ _ _ WS0) in Ec. rewrite Ec in Ec'. injection Ec' as <-.
  assert (WSc : ws L lpv0 soc0 ex0 (set_w_c w c)) by (clear - WS0 Fc'; destruct WS0; constructor; wcbn; assumption).
  unfold init in Ei. binv1 Ei.
  destruct (wp_elim _ _ (init_rhs_safe L lpv0 soc0 ex0 (set_w_c w c) (fun w' => exists soc', ws L lp_unit soc' ex0 w' /\ w_C w' = w_C (set_w_c w c)) WSc ltac:(intros w' soc' A _ _ _ B; exists soc'; auto)))
    as (wr & Er & socr & WSr & ECr). rewrite E in Er. injection Er as <-.
  assert (X : lpp (w_C v) = ly_l L /\ nexc (w_C v) = ly_e L) by (destruct (ws_C _ _ _ _ _ WSr); split; auto). destruct X as [XL XE].
  assert (XF : co_fexv (w_C v) = ly_l L + list_sum (ly_q L)) by (rewrite (ws_fexv L WSr); apply (ws_hsize L WSr)).
  replace (nexc (w_C v) =? 0) with false in Ei by (symmetry; apply Nat.eqb_neq; lia).
  destruct (init_unit v) as [wu|] eqn:Eu; [|discriminate]. cbn [bind negb] in Ei. binv1 Ei. injection Ei as <-.
  unfold init_unit in Eu. binv Eu. injection Eu as <-.
  unfold unitInitialization in E1. binv E1. injection E1 as <- <-.
  destruct (lens L _ _ _ _ WSr) as (_ & _ & Lz & Ls & _). pose proof (ws_msize L WSr) as MS.
  destruct (unitInit1_eq (w_C v) (w_s v) f1 (ws_pos L WSr) (ws_fexv L WSr)) as (s' & Es & _ & sA & _ & sD & _); [lia|].
  destruct (unitInit1_eq (w_C v) (w_z v) f1 (ws_pos L WSr) (ws_fexv L WSr)) as (z' & Ez & _ & zA & _ & zD & _); [lia|].
  rewrite E4 in Es. injection Es as <-. rewrite E5 in Ez. injection Ez as <-.
  unfold set_info. wcbn. repeat split; auto.
  - apply sA. lia.
  - apply zA. lia.
  - destruct (nth_error (co_expc (w_C v)) j) as [e|] eqn:Ej; [|apply nth_error_None in Ej; unfold nexc in XE; lia].
    apply (sD (ly_l L + list_sum (ly_q L) + 3 * j) e i); [|lia]. unfold eblocks. rewrite XF. apply lay3_nth. exact Ej.
  - destruct (nth_error (co_expc (w_C v)) j) as [e|] eqn:Ej; [|apply nth_error_None in Ej; unfold nexc in XE; lia].
    apply (zD (ly_l L + list_sum (ly_q L) + 3 * j) e i); [|lia]. unfold eblocks. rewrite XF. apply lay3_nth. exact Ej.
Qed.

(* In exact arithmetic (with the infinities of IEEE arithmetic) the iterates never
   leave the exponential cones: the triples of s and z are numbers and stay inside
   the cone and its dual, in every iteration of every solve of a session, whatever
   the data. *)
Theorem C29_inside : forall (w : pwork ext) sig k pp w' gam, @session EOps w -> (0 < @nexc EOps (w_C w))%nat ->
  sg_gamma (w_stgs w) = Fin gam -> (0 < gam < 1)%R ->
  @iterates EOps sig w k pp w' ->
  inside (co_fexv (w_C w)) (@nexc EOps (w_C w)) (@here EOps w').
Proof.
  intros w sig k pp w' gam SE He Hg G HI. destruct (@session_layout EOps _ SE) as (L & H1 & US).
  pose proof US as [(lpv0 & soc0 & ex0 & WS0) BO0].
  assert (S0 : @nexc EOps (w_C w) = @ly_e EOps L /\ co_fexv (w_C w) = (@ly_l EOps L + list_sum (@ly_q EOps L))%nat).
  { pose proof (ws_fexv L WS0) as B. pose proof (ws_hsize L WS0) as D. pose proof (ws_C _ _ _ _ _ WS0) as C. destruct C. repeat split; auto. etransitivity; [exact B|exact D]. }
  destruct S0 as (S2 & S3). rewrite S2, S3. rewrite S2 in He.
  induction HI as [c w1 Ec Ei|k pp w1 pp' w2 w3 w4 HI IH E1 E2 E3].
  - destruct (@start_spec EOps L w w1 c H1 US Ec Ei He) as (_ & _ & _ & Ee). destruct ray_inside as [RP RD].
    assert (XM : forall q, @fmul EOps (@f1 EOps) (Fin (Q2R q)) = Fin (Q2R q)). { intros q. unfold f1. cbn. f_equal. replace (Q2R 1) with 1%R by (unfold Q2R; cbn; lra). ring. }
    intros j Hj. unfold here; cbn [p_s p_z].
    pose proof (Ee j 0 Hj ltac:(lia)) as [A0 B0]. pose proof (Ee j 1 Hj ltac:(lia)) as [A1 B1]. pose proof (Ee j 2 Hj ltac:(lia)) as [A2 B2].
    rewrite Nat.add_0_r in A0, B0. cbn [list_fun expray nth] in *.
    rewrite (gd_get _ _ _ _ A0), (gd_get _ _ _ _ A1), (gd_get _ _ _ _ A2), (gd_get _ _ _ _ B0), (gd_get _ _ _ _ B1), (gd_get _ _ _ _ B2).
    do 6 eexists. repeat (split; [apply XM|]). split; [exact RP|exact RD].
  - assert (HE : (0 < @nexc EOps (w_C w))%nat) by (rewrite S2; exact He).
    assert (HQ : @feq EOps (fconst (-1)) (fconst (-1)) = true). { cbn. unfold Reqb. destruct (Req_EM_T _ _); congruence. }
    destruct (@C29_step EOps w sig k pp w1 pp' w2 w3 w4 SE HE HQ HI E1 E2 E3) as (d & a0 & j & Hj & J & P & _ & _).
    destruct (@iterates_ok EOps L H1 _ _ _ _ _ US (@it_next EOps _ _ _ _ _ _ _ _ _ HI E1 E2 E3)) as (LO4 & _ & _).
    apply (@looping_sizes EOps) in LO4 as (M4 & N4 & L4 & X4 & F4 & ML & DL).
    assert (Mw : w_m w = @ly_m EOps L) by apply (ws_m _ _ _ _ _ WS0).
    assert (MM : w_m w = w_m w4) by (etransitivity; [exact Mw|symmetry; exact ML]).
    change (@F EOps) with ext in *. cbv zeta in J, P. rewrite MM in J, P.
    rewrite <- F4, <- X4 in IH.
    pose proof (inside_step (w_C w4) (w_m w4) (w_D w) _ _ d _ gam G M4 IH J) as Ie.
    rewrite Hg in P. rewrite <- F4, <- X4. unfold here; cbn [p_s p_z].
    intros i Hi. destruct (Ie i Hi) as (x & y & z & u & v & t & A1 & A2 & A3 & A4 & A5 & A6 & IP & ID).
    assert (Q : forall o, (o < 3)%nat -> let q := (co_fexv (w_C w4) + 3 * i + o)%nat in
      @gd ext (@f0 EOps) (w_s w4) q = p_s (@moved EOps (@here EOps w1) d (@fmul EOps (@shrunk EOps a0 (sg_bk_scale (w_stgs w)) j) (Fin gam))) q /\
      @gd ext (@f0 EOps) (w_z w4) q = p_z (@moved EOps (@here EOps w1) d (@fmul EOps (@shrunk EOps a0 (sg_bk_scale (w_stgs w)) j) (Fin gam))) q).
    { intros o Ho q. destruct (P q) as [A B]; [unfold q; change (@F EOps) with ext in *; lia|]. split; apply gd_get; assumption. }
    pose proof (Q 0%nat ltac:(lia)) as [Q0 Z0]. pose proof (Q 1%nat ltac:(lia)) as [Q1 Z1]. pose proof (Q 2%nat ltac:(lia)) as [Q2 Z2].
    rewrite Nat.add_0_r in Q0, Z0.
    exists x, y, z, u, v, t. split; [etransitivity; [exact Q0|exact A1]|]. split; [etransitivity; [exact Q1|exact A2]|]. split; [etransitivity; [exact Q2|exact A3]|].
    split; [etransitivity; [exact Z0|exact A4]|]. split; [etransitivity; [exact Z1|exact A5]|]. split; [etransitivity; [exact Z2|exact A6]|]. auto.
Qed.

(* Every solve of a session on a problem with exponential cones has a first
   iterate, so that C29_inside is about something. *)
Lemma C29_start : forall (w : pwork ext), @session EOps w -> (0 < @nexc EOps (w_C w))%nat ->
  exists c w1, @scaled_c EOps w c /\ @init EOps (set_w_c w c) = Some (true, w1).
Proof.
  intros w SE He. destruct (@session_layout EOps _ SE) as (L & H1 & US).
  exact (@init_exists EOps L H1 w US).
Qed.

(* The test cannot do more: a trial point outside the positive orthant, or with tau
   or kappa not positive, is given the barrier value minus infinity instead of plus
   infinity (src/cone.c:245-247), and then passes the centrality test whatever the
   limit. *)
Theorem C29_refuted_guard : forall (C : cone ext) m D lim (p : @point EOps) (s z : nat -> R) tau kap b mu,
  m = (co_fexv C + 3 * @nexc EOps C)%nat -> (forall c, In c (co_soc C) -> (1 <= so_p c)%nat) ->
  (@lpp EOps C + list_sum (map so_p (co_soc C)))%nat = co_fexv C ->
  (forall i, (i < m)%nat -> p_s p i = Fin (s i) /\ p_z p i = Fin (z i)) -> p_tau p = Fin tau -> p_kap p = Fin kap ->
  (tau <= 0 \/ kap <= 0 \/ exists i, (i < @lpp EOps C)%nat /\ (s i <= 0 \/ z i <= 0))%R ->
  @dual_ok EOps (co_fexv C) (@nexc EOps C) p -> @primal_ok EOps (co_fexv C) (@nexc EOps C) p -> @balanced EOps (co_fexv C) (@nexc EOps C) m D p ->
  @evalBarrierValue EOps (arr_fun m (p_s p)) (arr_fun m (p_z p)) (co_fexv C) (@nexc EOps C) = Some (Fin b) ->
  @mu_all EOps m D p = Fin mu -> (0 < mu)%R ->
  @judged EOps C m D (Fin lim) p Passed.
Proof.
  intros C m D lim p s z tau kap b mu Hm H1 HL HV Ht Hk HO HD HP HB EB EM Pm.
  split; [exact HD|]. split; [exact HP|]. split; [exact HB|].
  assert (EG : @evalSymmetricBarrierValue EOps (arr_fun m (p_s p)) (arr_fun m (p_z p)) (p_tau p) (p_kap p) C (@fofn EOps D) = Some NInf).
  { rewrite Ht, Hk, fofn_E. apply (guard_value C _ _ tau kap (INR D) s z H1); [|exact HO].
    intros i Hi. destruct (HV i) as [A B]; [lia|]. rewrite !get_arr_fun by lia. rewrite A, B. auto. }
  eexists. split.
  - exists (arr_fun m (p_s p)), (arr_fun m (p_z p)), (Fin b), NInf. split; [intros i Hi; apply get_arr_fun; exact Hi|].
    split; [intros i Hi; apply get_arr_fun; exact Hi|]. split; [exact EB|]. split; [exact EG|]. reflexivity.
  - rewrite EM. change (@F EOps) with ext. cbn [flog EOps]. destruct (Rlt_dec 0 mu); [|contradiction]. rewrite fofn_E. reflexivity.
Qed.

(* such a point: one exponential cone, tau = kappa = -1 *)
Definition out_cone : cone ext := mkCone (mkLp 0 [] [] []) [] [mkEx [] [] []] 0.
Definition out_point : @point EOps :=
  @mkPoint EOps (fun i => Fin (nth i [-1; 1; 1] 0)%R) (fun i => Fin (nth i [-1; 1; 0] 0)%R) (Fin (-1)) (Fin (-1)).

Lemma C29_out_mu : @mu_all EOps 3 3 out_point = Fin (3/4).
Proof.
  unfold mu_all. rewrite fofn_E. cbn [fsum out_point p_s p_z p_tau p_kap nth]. rewrite f0_E.
  cbn [fadd fmul EOps eadd emul]. rewrite div_E; [|cbn; lra]. f_equal. cbn. lra.
Qed.
Lemma C29_out_barrier : exists b, @evalBarrierValue EOps (arr_fun 3 (p_s out_point)) (arr_fun 3 (p_z out_point)) 0 1 = Some (Fin b).
Proof.
  destruct omega2 as (o & Ho & Po). unfold evalBarrierValue, for_. cbn [Nat.sub for_loop bind get nth_error arr_fun seq map Nat.add Nat.mul out_point p_s p_z nth].
  rewrite f1_E, f0_E. cbn [fneg EOps eneg]. rewrite !div_E by lra. rewrite (log_E (- (1) / -1)) by lra. rewrite (log_E 1) by lra.
  replace (- (1) / -1)%R with 1%R by lra. rewrite ln_1. cbn [fadd fsub fmul fneg EOps eadd emul eneg].
  rewrite (log_E (0 + - -1 + - (-1 * 0))) by lra. rewrite (log_E (- -1)) by lra.
  replace (1 + - (-1 / 1) + - 0 + 0)%R with 2%R by lra. change (@F EOps) with ext in *. rewrite Ho.
  cbn [fadd fsub fmul fneg EOps eadd emul eneg]. rewrite div_E by lra. rewrite log_E.
  2:{ apply Rlt_not_le. apply Rdiv_lt_0_compat; [|lra]. apply Rmult_lt_0_compat; lra. }
  unfold f2. rewrite !const_E. cbn [fadd fsub fmul fneg EOps eadd emul eneg]. eexists. reflexivity.
Qed.

Theorem C29_refuted_guard_example : forall lim, @judged EOps out_cone 3 3 (Fin lim) out_point Passed.
Proof.
  intros lim. destruct C29_out_barrier as (b & EB).
  apply (C29_refuted_guard out_cone 3 3 lim out_point (fun i => nth i [-1; 1; 1] 0)%R (fun i => nth i [-1; 1; 0] 0)%R (-1) (-1) b (3/4)); auto.
  - intros c [].
  - left. lra.
  - intros j Hj. cbn in Hj. assert (j = 0)%nat as -> by lia. unfold expDualOk. cbn [out_cone co_fexv out_point p_z Nat.add Nat.mul nth].
    cbn [fneg EOps eneg]. rewrite !div_E by lra. rewrite log_E by lra. replace (- (1) / -1)%R with 1%R by lra. rewrite ln_1, f0_E.
    cbn [fadd fsub fmul fneg flt EOps eadd emul eneg elt]. unfold Rltb.
    destruct (Rlt_dec 0 (-1)), (Rlt_dec 1 0), (Rlt_dec _ 0); try lra; reflexivity.
  - intros j Hj. cbn in Hj. assert (j = 0)%nat as -> by lia. unfold expPrimalOk. cbn [out_cone co_fexv out_point p_s Nat.add Nat.mul nth].
    rewrite !div_E by lra. rewrite log_E by lra. replace (1 / 1)%R with 1%R by lra. rewrite ln_1, f0_E.
    cbn [fadd fsub fmul fneg flt EOps eadd emul eneg elt]. unfold Rltb.
    destruct (Rlt_dec (1 * 0 + - -1) 0), (Rlt_dec 1 0); try lra; reflexivity.
  - intros j Hj. cbn in Hj. assert (j = 0)%nat as -> by lia. rewrite C29_out_mu. unfold mu_at, MIN_DISTANCE. cbn [out_cone co_fexv out_point p_s p_z Nat.add Nat.mul nth].
    rewrite !const_E. cbn [fadd fsub fmul fneg EOps eadd emul eneg]. rewrite div_E by (unfold Q2R; cbn; lra).
    cbn [flt EOps elt]. unfold Rltb. destruct (Rlt_dec _ _) as [|K]; [reflexivity|]. exfalso. apply K. unfold Q2R. cbn. lra.
  - exact C29_out_mu.
  - lra.
Qed.

Print Assumptions C29_search.
Print Assumptions C29_step.
Print Assumptions C29_inside.
Print Assumptions C29_refuted_guard.
