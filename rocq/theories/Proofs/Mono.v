(* The definedness order: memory that holds more values.  A computation that
   succeeds on some memory succeeds with the same values on memory in which more
   cells have been written.  This file has the order, its rules and the routines
   below the solver. *)
From Coq Require Import List Arith Bool ZArith QArith Lia.
From Verif Require Import Base Num.
From Verif.Model Require Import Spla Types Consts Expcone Cone Ldl Kkt.
Import ListNotations.
Open Scope nat_scope.

(* ------------------------------------------------------------- the order *)

Class Le (T : Type) := le : T -> T -> Prop.

Definition sub {T} (a b : arr T) : Prop := forall i v, get a i = Some v -> get b i = Some v.

#[global] Instance Le_eq T : Le T | 100 := @eq T.
#[global] Instance Le_arr T : Le (list (option T)) | 1 := fun a b => length a = length b /\ sub a b.
#[global] Instance Le_list T `{Le T} : Le (list T) | 5 := Forall2 le.
#[global] Instance Le_opt T : Le (option T) | 5 := fun a b => forall v, a = Some v -> b = Some v.
#[global] Instance Le_prod A B `{Le A} `{Le B} : Le (A * B) | 1 := fun x y => le (fst x) (fst y) /\ le (snd x) (snd y).
#[global] Instance Le_so F : Le (socone F) | 1 := fun c d =>
  so_p c = so_p d /\ le (so_skbar c) (so_skbar d) /\ le (so_zkbar c) (so_zkbar d) /\ le (so_a c) (so_a d) /\ le (so_d1 c) (so_d1 d) /\
  le (so_w c) (so_w d) /\ le (so_eta c) (so_eta d) /\ le (so_eta_square c) (so_eta_square d) /\ le (so_q c) (so_q d) /\
  so_Didx c = so_Didx d /\ le (so_u0 c) (so_u0 d) /\ le (so_u1 c) (so_u1 d) /\ le (so_v1 c) (so_v1 d).
#[global] Instance Le_ex F : Le (expcone F) | 1 := fun c d => ex_colstart c = ex_colstart d /\ le (ex_v c) (ex_v d) /\ le (ex_g c) (ex_g d).
#[global] Instance Le_lp F : Le (lpcone F) | 1 := fun c d => lp_p c = lp_p d /\ le (lp_w c) (lp_w d) /\ le (lp_v c) (lp_v d) /\ lp_kkt_idx c = lp_kkt_idx d.
#[global] Instance Le_cone F : Le (cone F) | 1 := fun c d =>
  le (co_lpc c) (co_lpc d) /\ le (co_soc c) (co_soc d) /\ le (co_expc c) (co_expc d) /\ co_fexv c = co_fexv d.

(* success and results on the left carry over to the right *)
Definition rel {A} (R : A -> A -> Prop) (m m' : option A) : Prop := forall x, m = Some x -> exists x', m' = Some x' /\ R x x'.

Lemma rel_ret {A} (R : A -> A -> Prop) x y : R x y -> rel R (Some x) (Some y).
Proof. intros H z [= <-]. eauto. Qed.
Lemma rel_none {A} (R : A -> A -> Prop) m : rel R None m.
Proof. intros z. discriminate. Qed.
Lemma rel_bind {A B} (R : A -> A -> Prop) (Q : B -> B -> Prop) m m' k k' :
  rel R m m' -> (forall x x', R x x' -> rel Q (k x) (k' x')) -> rel Q (bind m k) (bind m' k').
Proof.
  intros H K z E. destruct m as [x|]; [|discriminate]. destruct (H x eq_refl) as (x' & -> & Rx). exact (K x x' Rx z E).
Qed.
Lemma rel_conseq {A} (R Q : A -> A -> Prop) m m' : rel R m m' -> (forall x y, R x y -> Q x y) -> rel Q m m'.
Proof. intros H K x E. destruct (H x E) as (x' & E' & Hr). eauto. Qed.

Lemma le_refl_arr {T} (a : arr T) : le a a.
Proof. split; auto. intros i v; auto. Qed.
Lemma sub_refl {T} (a : arr T) : sub a a.
Proof. intros i v; auto. Qed.

Lemma rel_get' {T} (a a' : arr T) i : sub a a' -> rel le (get a i) (get a' i).
Proof. intros H x E. exists x. split; [apply H; auto|reflexivity]. Qed.
Lemma rel_get {T} (a a' : arr T) i : le a a' -> rel le (get a i) (get a' i).
Proof. intros [_ H]. apply rel_get'; auto. Qed.
Lemma rel_set {T} (a a' : arr T) i (v : T) : le a a' -> rel le (set a i v) (set a' i v).
Proof.
  intros [L H] x E. apply set_inv in E as E'. destruct E' as (Lt & Lx & G). exists (upd a' i (Some v)). split; [apply set_ok; lia|].
  split; [rewrite upd_length; congruence|]. intros j w. rewrite G, get_upd by lia. destruct (j =? i); auto.
Qed.
Lemma rel_opt {T} (o o' : option T) : le o o' -> rel le o o'.
Proof. intros H x E. exists x. split; [apply H; auto|reflexivity]. Qed.

Lemma rel_for_loop {St} (R : St -> St -> Prop) n : forall lo body body' s s',
  (forall i s s', R s s' -> rel R (body i s) (body' i s')) -> R s s' -> rel R (for_loop lo n body s) (for_loop lo n body' s').
Proof.
  induction n as [|n IH]; intros lo body body' s s' H Rs; cbn [for_loop]; [apply rel_ret; auto|].
  eapply rel_bind; [apply H; eauto|]. intros; apply IH; auto.
Qed.
Lemma rel_for {St} `{Le St} lo hi body body' s s' :
  (forall i s s', le s s' -> rel le (body i s) (body' i s')) -> le s s' -> rel le (for_ lo hi body s) (for_ lo hi body' s').
Proof. intros. apply rel_for_loop; auto. Qed.
Lemma rel_for_down {St} `{Le St} n : forall body body' (s s' : St),
  (forall i s s', le s s' -> rel le (body i s) (body' i s')) -> le s s' -> rel le (for_down n body s) (for_down n body' s').
Proof.
  induction n as [|n IH]; intros body body' s s' HB Rs; cbn [for_down]; [apply rel_ret; auto|].
  eapply rel_bind; [apply HB; eauto|]. intros; apply IH; auto.
Qed.
Lemma rel_for_each {A St} `{Le A} `{Le St} (l l' : list A) : Forall2 le l l' -> forall body body' (s s' : St),
  (forall x x' s s', le x x' -> le s s' -> rel le (body x s) (body' x' s')) -> le s s' -> rel le (for_each l body s) (for_each l' body' s').
Proof.
  induction 1 as [|x x' l l' Hx Hl IH]; intros body body' s s' HB Rs; cbn [for_each]; [apply rel_ret; auto|].
  eapply rel_bind; [apply HB; eauto|]. intros; apply IH; auto.
Qed.
Lemma rel_guard b : rel le (guard b) (guard b).
Proof. intros x E. exists x. split; auto. reflexivity. Qed.
Lemma rel_same {T} (m : option T) : rel le m m.
Proof. intros x E. exists x. split; [auto|reflexivity]. Qed.

Create HintDb mono.
#[global] Hint Resolve le_refl_arr : mono.

Lemma le_pair {A B} `{Le A} `{Le B} (a a' : A) (b b' : B) : le a a' -> le b b' -> le (a, b) (a', b').
Proof. split; auto. Qed.
Lemma le_pair_inv {A B} `{Le A} `{Le B} (a a' : A) (b b' : B) : le (a, b) (a', b') -> le a a' /\ le b b'.
Proof. auto. Qed.

#[global] Hint Resolve le_pair : mono.
Lemma le_some {T} (x : T) : le (Some x) (Some x).
Proof. intros v; auto. Qed.
Lemma le_mkSo {F} p (a a' b b' : arr F) (c c' d d' e e' f f' g g' : option F) (q q' : arr F) Di (u u' v v' x x' : option F) :
  le a a' -> le b b' -> le c c' -> le d d' -> le e e' -> le f f' -> le g g' -> le q q' -> le u u' -> le v v' -> le x x' ->
  le (mkSo p a b c d e f g q Di u v x) (mkSo p a' b' c' d' e' f' g' q' Di u' v' x').
Proof. intros. repeat (split; [first [assumption|reflexivity]|]). assumption. Qed.
Lemma le_mkEx {F} cs (a a' b b' : arr F) : le a a' -> le b b' -> le (mkEx cs a b) (mkEx cs a' b').
Proof. intros. repeat (split; [first [assumption|reflexivity]|]). assumption. Qed.
Lemma le_mkLp {F} p (a a' b b' : arr F) k : le a a' -> le b b' -> le (mkLp p a b k) (mkLp p a' b' k).
Proof. intros. repeat (split; [first [assumption|reflexivity]|]). reflexivity. Qed.
Lemma le_mkCone {F} (a a' : lpcone F) b b' c c' k : le a a' -> Forall2 le b b' -> Forall2 le c c' -> le (mkCone a b c k) (mkCone a' b' c' k).
Proof. intros. repeat (split; [first [assumption|reflexivity]|]). reflexivity. Qed.
#[global] Hint Resolve le_some le_mkSo le_mkEx le_mkLp le_mkCone : mono.

(* take hypotheses of the order apart *)
Ltac lehyp1 :=
  match goal with
  | H : le ?x ?y |- _ => match type of x with
      | prod _ _ => first [is_var x; destruct x | idtac]; first [is_var y; destruct y | idtac]; apply le_pair_inv in H; destruct H
      | nat => change (x = y) in H; subst
      | Z => change (x = y) in H; subst
      | bool => change (x = y) in H; subst
      | unit => clear H
      | spmat _ => change (x = y) in H; subst
      | best _ => change (x = y) in H; subst
      | @F _ => change (x = y) in H; subst
      end
  end.
Ltac lehyp := repeat lehyp1; cbv beta iota.
Ltac lerec1 :=
  match goal with
  | H : le ?x ?y |- _ => match type of x with
      | socone _ => is_var x; is_var y; destruct x, y; destruct H as (?H & ?H & ?H & ?H & ?H & ?H & ?H & ?H & ?H & ?H & ?H & ?H & ?H);
          cbv beta iota delta [so_p so_skbar so_zkbar so_a so_d1 so_w so_eta so_eta_square so_q so_Didx so_u0 so_u1 so_v1] in *; subst
      | expcone _ => is_var x; is_var y; destruct x, y; destruct H as (?H & ?H & ?H); cbv beta iota delta [ex_colstart ex_v ex_g] in *; subst
      | lpcone _ => is_var x; is_var y; destruct x, y; destruct H as (?H & ?H & ?H & ?H); cbv beta iota delta [lp_p lp_w lp_v lp_kkt_idx] in *; subst
      | cone _ => is_var x; is_var y; destruct x, y; destruct H as (?H & ?H & ?H & ?H);
          cbv beta iota delta [co_lpc co_soc co_expc co_fexv] in *; subst
      end
  end.
Ltac lerec := repeat lerec1; lehyp.

Ltac le1 := first [ assumption | reflexivity | apply le_refl_arr
  | match goal with |- @le (prod _ _) _ _ _ => apply le_pair end
  | apply le_some | apply le_mkSo | apply le_mkEx | apply le_mkLp | apply le_mkCone | apply Forall2_cons | apply Forall2_nil
  | progress auto with mono ].
Ltac letac := repeat le1.

Ltac mono1 :=
  cbv beta iota;
  lazymatch goal with
  | |- rel _ (bind _ _) (bind _ _) => eapply (rel_bind le); [|let x := fresh "x" in let y := fresh "y" in intros x y ?; lehyp]
  | |- rel ?R (let x := ?e in @?k x) (let y := ?e in @?k' y) =>
      let x := fresh "v" in change (rel R (k e) (k' e)); generalize e; intros x; cbv beta iota
  | |- rel _ (let x := _ in _) _ => cbv zeta
  | |- rel _ (if ?b then _ else _) (if ?b then _ else _) => destruct b
  | |- rel _ None _ => apply rel_none
  | |- rel _ (Some _) (Some _) => apply rel_ret; solve [letac]
  | |- rel _ (get _ _) (get _ _) => apply rel_get; solve [letac]
  | |- rel _ (set _ _ _) (set _ _ _) => apply rel_set; solve [letac]
  | |- rel _ (guard _) (guard _) => apply rel_guard
  | |- rel _ (for_ _ _ _ _) (for_ _ _ _ _) => apply rel_for; [let i := fresh "i" in intros i ? ? ?; lehyp|solve [letac]]
  | |- rel _ (for_down _ _ _) (for_down _ _ _) => apply rel_for_down; [let i := fresh "i" in intros i ? ? ?; lehyp|solve [letac]]
  | |- rel _ (for_each _ _ _) (for_each _ _ _) => apply rel_for_each; [assumption|intros ? ? ? ? ? ?; lerec|solve [letac]]
  | |- rel _ _ _ => first [ solve [apply rel_opt; assumption] | solve [auto 12 with mono] | solve [apply rel_same] ]
  end.
Ltac mono := repeat mono1.

(* ------------------------------------------------------ src/spla.c, ldl.c *)
Section Low.
Context `{O : Ops}.
Notation A := (arr F).

Lemma sparseMV_mono M (x x' y y' : A) a nv : le x x' -> le y y' -> rel le (sparseMV M x y a nv) (sparseMV M x' y' a nv).
Proof. intros. cbv beta delta [sparseMV  col_loop]. mono. Qed.
Lemma sparseMtVm_mono M (x x' y y' : A) nv sd : le x x' -> le y y' -> rel le (sparseMtVm M x y nv sd) (sparseMtVm M x' y' nv sd).
Proof. intros. cbv beta delta [sparseMtVm  col_loop]. mono. Qed.
Lemma vadd_mono n (x x' y y' : A) : le x x' -> le y y' -> rel le (vadd n x y) (vadd n x' y').
Proof. intros. cbv beta delta [vadd]. mono. Qed.
Lemma vsubscale_mono n a (x x' y y' : A) : le x x' -> le y y' -> rel le (vsubscale n a x y) (vsubscale n a x' y').
Proof. intros. cbv beta delta [vsubscale]. mono. Qed.
Lemma norm2_mono n (x x' : A) : le x x' -> rel le (norm2 x n) (norm2 x' n).
Proof. intros. cbv beta delta [norm2]. mono. Qed.
Lemma norminf_mono n (x x' : A) : le x x' -> rel le (norminf x n) (norminf x' n).
Proof. intros. cbv beta delta [norminf]. mono. Qed.
Lemma eddot_mono n (x x' y y' : A) : le x x' -> le y y' -> rel le (eddot n x y) (eddot n x' y').
Proof. intros. cbv beta delta [eddot]. mono. Qed.
Lemma eddot_at_mono n k (x x' y y' : A) : le x x' -> le y y' -> rel le (eddot_at n k x y) (eddot_at n k x' y').
Proof. intros. cbv beta delta [eddot_at]. mono. Qed.
Hint Resolve sparseMV_mono sparseMtVm_mono vadd_mono vsubscale_mono norm2_mono norminf_mono eddot_mono eddot_at_mono : mono.

Lemma num_path_mono k Parent : forall fuel i len (P P' Fl Fl' : arr nat), le P P' -> le Fl Fl' ->
  rel le (num_path fuel k i len Parent P Fl) (num_path fuel k i len Parent P' Fl').
Proof. induction fuel as [|fuel IH]; intros; cbn [num_path]; mono. Qed.
Lemma num_push_mono : forall len top (P P' : arr nat), le P P' -> rel le (num_push len top P) (num_push len top P').
Proof. induction len as [|len IH]; intros; cbn [num_push]; mono. Qed.
Hint Resolve num_path_mono num_push_mono : mono.

Lemma num_pattern_mono n k Ap Ai Ax Ax' Parent (Y Y' : A) (P P' Fl Fl' : arr nat) : sub Ax Ax' -> le Y Y' -> le P P' -> le Fl Fl' ->
  rel le (num_pattern n k Ap Ai Ax Parent Y P Fl) (num_pattern n k Ap Ai Ax' Parent Y' P' Fl').
Proof.
  intros. cbv beta delta [num_pattern]. mono. apply rel_get'. assumption.
Qed.
Lemma num_elim_mono k i Lp st st' : le st st' -> rel le (num_elim k i Lp st) (num_elim k i Lp st').
Proof. intros. lehyp. cbv beta delta [num_elim]. mono. Qed.
Hint Resolve num_pattern_mono num_elim_mono : mono.
Lemma LDL_numeric2_mono n Ap Ai Ax Ax' Lp Parent Sign eps delta (Lnz Lnz' Li Li' : arr nat) (Lx Lx' D D' Y Y' : A) (P P' Fl Fl' : arr nat) :
  sub Ax Ax' -> le Lnz Lnz' -> le Li Li' -> le Lx Lx' -> le D D' -> le Y Y' -> le P P' -> le Fl Fl' ->
  rel le (LDL_numeric2 n Ap Ai Ax Lp Parent Sign eps delta Lnz Li Lx D Y P Fl) (LDL_numeric2 n Ap Ai Ax' Lp Parent Sign eps delta Lnz' Li' Lx' D' Y' P' Fl').
Proof. intros. cbv beta delta [LDL_numeric2]. mono. Qed.
Lemma LDL_lsolve_mono n (x x' : A) Lp (Li Li' : arr nat) (Lx Lx' : A) : le x x' -> le Li Li' -> le Lx Lx' ->
  rel le (LDL_lsolve n x Lp Li Lx) (LDL_lsolve n x' Lp Li' Lx').
Proof. intros. cbv beta delta [LDL_lsolve]. mono. Qed.
Hint Resolve LDL_numeric2_mono LDL_lsolve_mono : mono.
Lemma LDL_lsolve2_mono n (b b' x x' : A) Lp (Li Li' : arr nat) (Lx Lx' : A) : le b b' -> le x x' -> le Li Li' -> le Lx Lx' ->
  rel le (LDL_lsolve2 n b Lp Li Lx x) (LDL_lsolve2 n b' Lp Li' Lx' x').
Proof. intros. cbv beta delta [LDL_lsolve2]. mono. Qed.
Lemma LDL_dsolve_mono n (x x' D D' : A) : le x x' -> le D D' -> rel le (LDL_dsolve n x D) (LDL_dsolve n x' D').
Proof. intros. cbv beta delta [LDL_dsolve]. mono. Qed.
Lemma LDL_ltsolve_mono n (x x' : A) Lp (Li Li' : arr nat) (Lx Lx' : A) : le x x' -> le Li Li' -> le Lx Lx' ->
  rel le (LDL_ltsolve n x Lp Li Lx) (LDL_ltsolve n x' Lp Li' Lx').
Proof. intros. cbv beta delta [LDL_ltsolve]. mono. Qed.
Hint Resolve LDL_lsolve2_mono LDL_dsolve_mono LDL_ltsolve_mono : mono.

(* ------------------------------------------------- src/expcone.c, cone.c *)
Lemma evalExpHessian_mono (w w' : A) k (v v' : A) mu : le w w' -> le v v' -> rel le (evalExpHessian w k v mu) (evalExpHessian w' k v' mu).
Proof. intros. cbv beta delta [evalExpHessian]. mono. Qed.
Lemma evalExpGradient_mono (w w' : A) k (v v' : A) : le w w' -> le v v' -> rel le (evalExpGradient w k v) (evalExpGradient w' k v').
Proof. intros. cbv beta delta [evalExpGradient]. mono. Qed.
Lemma evalBarrierValue_mono (s s' z z' : A) fc ne : le s s' -> le z z' -> rel le (evalBarrierValue s z fc ne) (evalBarrierValue s' z' fc ne).
Proof. intros. cbv beta delta [evalBarrierValue]. mono. Qed.
Lemma scaleToAddExpcone_mono (y y' x x' : A) e e' fc : le y y' -> le x x' -> Forall2 le e e' ->
  rel le (scaleToAddExpcone y x e fc) (scaleToAddExpcone y' x' e' fc).
Proof. intros. cbv beta delta [scaleToAddExpcone]. mono. Qed.
Lemma evalExpPrimalFeas_mono (s s' : A) : le s s' -> forall ne k, rel le (evalExpPrimalFeas s k ne) (evalExpPrimalFeas s' k ne).
Proof. intros H. induction ne as [|ne IH]; intros; cbn [evalExpPrimalFeas]; mono. Qed.
Lemma evalExpDualFeas_mono (s s' : A) : le s s' -> forall ne k, rel le (evalExpDualFeas s k ne) (evalExpDualFeas s' k ne).
Proof. intros H. induction ne as [|ne IH]; intros; cbn [evalExpDualFeas]; mono. Qed.
Hint Resolve evalExpHessian_mono evalExpGradient_mono evalBarrierValue_mono scaleToAddExpcone_mono evalExpPrimalFeas_mono evalExpDualFeas_mono : mono.

Lemma Forall2_len {X} (R : X -> X -> Prop) l l' : Forall2 R l l' -> length l = length l'.
Proof. induction 1; cbn; auto. Qed.
Lemma le_nexc (C C' : cone F) : le C C' -> nexc C = nexc C'.
Proof. intros (_ & _ & H & _). unfold nexc. eapply Forall2_len; eauto. Qed.
Lemma le_nsoc (C C' : cone F) : le C C' -> nsoc C = nsoc C'.
Proof. intros (_ & H & _). unfold nsoc. eapply Forall2_len; eauto. Qed.
Lemma le_lpp (C C' : cone F) : le C C' -> lpp C = lpp C'.
Proof. intros ((H & _) & _). exact H. Qed.

Ltac cone H := cbv beta delta [lpp]; lerec; cbv beta iota delta [co_lpc co_soc co_expc co_fexv lp_p lp_w lp_v lp_kkt_idx].

Lemma socres_mono (u u' : A) k p : le u u' -> rel le (socres u k p) (socres u' k p).
Proof. intros. cbv beta delta [socres]. mono. Qed.
Hint Resolve socres_mono : mono.
Lemma bring2cone_mono C C' (r r' s s' : A) : le C C' -> le r r' -> le s s' -> rel le (bring2cone C r s) (bring2cone C' r' s').
Proof. intros. cbv beta delta [bring2cone]. cone H. mono. Qed.
Lemma unitInit1_mono C C' (s s' : A) sc : le C C' -> le s s' -> rel le (unitInit1 C s sc) (unitInit1 C' s' sc).
Proof. intros. cbv beta delta [unitInit1]. cone H. mono. Qed.
Hint Resolve unitInit1_mono : mono.
Lemma unitInitialization_mono C C' (s s' z z' : A) sc : le C C' -> le s s' -> le z z' -> rel le (unitInitialization C s z sc) (unitInitialization C' s' z' sc).
Proof. intros. cbv beta delta [unitInitialization]. mono. Qed.
Lemma scale_mono C C' (z z' l l' : A) : le C C' -> le z z' -> le l l' -> rel le (scale z C l) (scale z' C' l').
Proof. intros. cbv beta delta [scale]. cone H. mono. Qed.
Lemma updateSoc_mono c c' (s s' z z' : A) k : le c c' -> le s s' -> le z z' -> rel le (updateSoc c s z k) (updateSoc c' s' z' k).
Proof. intros. cbv beta delta [updateSoc]. lerec. mono. Qed.
Hint Resolve bring2cone_mono unitInitialization_mono scale_mono updateSoc_mono : mono.
Lemma updateSocs_mono (s s' z z' : A) : le s s' -> le z z' -> forall l l', Forall2 le l l' -> forall k, rel le (updateSocs l s z k) (updateSocs l' s' z' k).
Proof.
  intros Hs Hz. induction 1 as [|c c' l l' Hc Hl IH]; intros k; cbn [updateSocs]; [mono|].
  replace (so_p c') with (so_p c) by apply Hc. mono.
Qed.
Lemma updateExps_mono (z z' : A) mu : le z z' -> forall l l', Forall2 le l l' -> forall k, rel (Forall2 le) (updateExps l z k mu) (updateExps l' z' k mu).
Proof.
  intros Hz. induction 1 as [|c c' l l' Hc Hl IH]; intros k; cbn [updateExps]; [mono; apply Forall2_nil|].
  destruct Hc as (Hc1 & Hc2 & Hc3). rewrite Hc1. mono.
Qed.
Hint Resolve updateSocs_mono updateExps_mono : mono.
Lemma updateScalings_mono C C' (s s' z z' l l' : A) mu : le C C' -> le s s' -> le z z' -> le l l' ->
  rel le (updateScalings C s z l mu) (updateScalings C' s' z' l' mu).
Proof. intros. cbv beta delta [updateScalings]. cone H. mono. Qed.
Lemma evalSym_mono C C' (s s' z z' : A) t k D : le C C' -> le s s' -> le z z' ->
  rel le (evalSymmetricBarrierValue s z t k C D) (evalSymmetricBarrierValue s' z' t k C' D).
Proof. intros. cbv beta delta [evalSymmetricBarrierValue]. cone H. mono. Qed.
Lemma scale2add_mono C C' (x x' y y' : A) : le C C' -> le x x' -> le y y' -> rel le (scale2add x y C) (scale2add x' y' C').
Proof. intros. cbv beta delta [scale2add]. cone H. mono. Qed.
Lemma conicProduct_mono C C' (u u' v v' w w' : A) : le C C' -> le u u' -> le v v' -> le w w' -> rel le (conicProduct u v C w) (conicProduct u' v' C' w').
Proof. intros. cbv beta delta [conicProduct]. cone H. mono. Qed.
Lemma conicDivision_mono C C' (u u' v v' w w' : A) : le C C' -> le u u' -> le v v' -> le w w' -> rel le (conicDivision u v C w) (conicDivision u' v' C' w').
Proof. intros. cbv beta delta [conicDivision]. cone H. mono. Qed.
Lemma gather_mono (P P' : A) Pinv k cnt (d d' : A) j : le P P' -> le d d' -> rel le (gather P Pinv k cnt d j) (gather P' Pinv k cnt d' j).
Proof. intros. cbv beta delta [gather]. mono. Qed.
Hint Resolve gather_mono : mono.
Lemma unstretch_mono n p C C' Pinv (P P' x x' y y' z z' : A) : le C C' -> le P P' -> le x x' -> le y y' -> le z z' ->
  rel le (unstretch n p C Pinv P x y z) (unstretch n p C' Pinv P' x' y' z').
Proof. intros. cbv beta delta [unstretch]. cone H. mono. Qed.
Hint Resolve updateScalings_mono evalSym_mono scale2add_mono conicProduct_mono conicDivision_mono unstretch_mono : mono.
End Low.
#[global] Hint Resolve sparseMV_mono sparseMtVm_mono vadd_mono vsubscale_mono norm2_mono norminf_mono eddot_mono eddot_at_mono num_path_mono num_push_mono num_pattern_mono num_elim_mono LDL_numeric2_mono LDL_lsolve_mono LDL_lsolve2_mono LDL_dsolve_mono LDL_ltsolve_mono evalExpHessian_mono evalExpGradient_mono evalBarrierValue_mono scaleToAddExpcone_mono evalExpPrimalFeas_mono evalExpDualFeas_mono socres_mono bring2cone_mono unitInit1_mono unitInitialization_mono scale_mono updateSoc_mono updateSocs_mono updateExps_mono updateScalings_mono evalSym_mono scale2add_mono conicProduct_mono conicDivision_mono gather_mono unstretch_mono : mono.
