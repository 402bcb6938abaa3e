(* Reproducibility of a solve: what two callers must have in common, and what they
   then see. *)
From Coq Require Import List Arith ZArith.
From Verif Require Import Base Num.
From Verif.Model Require Import Spla Types Consts Cone Ecos.
From Verif.Spec Require Import Matrix SetupSpec UpdateSpec.
Open Scope nat_scope.

Section Repro.
Context `{O : Ops}.
Notation W := (pwork F).

(* w' comes from w by a history of calls: solves, changes of the settings, changes
   of single entries of h and c and updates of the data, in any number and order *)
Inductive since (w : W) : W -> Prop :=
| si_here : since w w
| si_solve w1 sig t code t' w' : since w w1 -> ECOS_solve sig t w1 = Some (code, t', w') -> since w w'
| si_settings w1 g : since w w1 -> since w (set_w_stgs w1 g)
| si_h w1 idx v w' : since w w1 -> idx < w_m w1 -> ecos_updateDataEntry_h w1 idx v = Some w' -> since w w'
| si_c w1 idx v w' : since w w1 -> idx < w_n w1 -> ecos_updateDataEntry_c w1 idx v = Some w' -> since w w'
| si_update w1 ap Gpr Apr c h b w' old : since w w1 -> new_values w1 Gpr Apr c h b ->
    ECOS_updateData w1 ap Gpr Apr c h b = Some (w', old) -> since w w'.

(* the two workspaces hold the same problem data, in the same scaling, and the same settings *)
Record same_problem (w1 w2 : W) : Prop := {
  sp_same_A : w_A w2 = w_A w1; sp_same_G : w_G w2 = w_G w1;
  sp_same_c : w_c w2 = w_c w1; sp_same_h : w_h w2 = w_h w1; sp_same_b : w_b w2 = w_b w1;
  sp_same_xe : w_xequil w2 = w_xequil w1; sp_same_Ae : w_Aequil w2 = w_Aequil w1; sp_same_Ge : w_Gequil w2 = w_Gequil w1;
  sp_same_stgs : w_stgs w2 = w_stgs w1
}.

(* the solution and the scalars that go with it *)
Record same_answer (w1 w2 : W) : Prop := {
  sa_x : w_x w2 = w_x w1; sa_y : w_y w2 = w_y w1; sa_z : w_z w2 = w_z w1; sa_s : w_s w2 = w_s w1;
  sa_tau : w_tau w2 = w_tau w1; sa_kap : w_kap w2 = w_kap w1;
  sa_iter : st_iter (w_info w2) = st_iter (w_info w1);
  sa_pinf : st_pinf (w_info w2) = st_pinf (w_info w1); sa_dinf : st_dinf (w_info w2) = st_dinf (w_info w1);
  sa_step : st_step (w_info w2) = st_step (w_info w1);
  sa_nitref1 : st_nitref1 (w_info w2) = st_nitref1 (w_info w1); sa_nitref2 : st_nitref2 (w_info w2) = st_nitref2 (w_info w1)
}.

(* the figures that are computed in each pass *)
Record same_figures (w1 w2 : W) : Prop := {
  sf_pcost : st_pcost (w_info w2) = st_pcost (w_info w1); sf_dcost : st_dcost (w_info w2) = st_dcost (w_info w1);
  sf_pres : st_pres (w_info w2) = st_pres (w_info w1); sf_dres : st_dres (w_info w2) = st_dres (w_info w1);
  sf_pinfres : st_pinfres (w_info w2) = st_pinfres (w_info w1); sf_dinfres : st_dinfres (w_info w2) = st_dinfres (w_info w1);
  sf_gap : st_gap (w_info w2) = st_gap (w_info w1); sf_relgap : st_relgap (w_info w2) = st_relgap (w_info w1);
  sf_mu : st_mu (w_info w2) = st_mu (w_info w1); sf_kapovert : st_kapovert (w_info w2) = st_kapovert (w_info w1)
}.

(* w2 is the workspace at the starting point of a solve of w, after the residuals
   and the statistics have been computed there *)
Definition at_start (w w2 : W) : Prop := exists c w0 w1,
  for_ 0 (w_n w) (fun i a => v <- get a i ;; e <- get (w_xequil w) i ;; set a i (v / e)%fl) (w_c w) = Some c /\
  init (set_w_c w c) = Some (true, w0) /\
  computeResiduals (set_info w0 (fun i => set_st_iter i 0%Z)) = Some w1 /\ updateStatistics w1 = Some w2.

(* The solve is abandoned in its first pass: the exit tests do not stop at the
   starting point, but an interrupt, an iteration limit of 0 or an objective that is
   not a number does. *)
Definition abandoned_in_first_pass (sig : Z -> bool) (w : W) : Prop :=
  (0 <= sg_maxit (w_stgs w))%Z /\
  exists w2, at_start w w2 /\ fst (checkExitConditions w2 0) = ECOS_NOT_CONVERGED_YET /\
    (sig 0%Z = true \/ sg_maxit (w_stgs w) = 0%Z \/ fisnan (st_pcost (w_info w2)) = true).

(* both calls return, with the same exit flag, the same handler installed, the same
   answer and, when there was a pass at all, the same figures; and c is left in the same state *)
Definition same_result (sig : Z -> bool) (t : ctrlc) (w1 w2 : W) : Prop :=
  exists code t' u1 u2, ECOS_solve sig t w1 = Some (code, t', u1) /\ ECOS_solve sig t w2 = Some (code, t', u2) /\
    same_answer u1 u2 /\ w_c u2 = w_c u1 /\ ((0 <= sg_maxit (w_stgs w1))%Z -> same_figures u1 u2).
End Repro.
