(* Types of the mixed-integer module (include/ecos_bb.h:76-182). *)
From Coq Require Import List ZArith.
From Verif Require Import Base.
From Verif.Model Require Import Types Ecos.
Import ListNotations.

(* include/ecos_bb.h:76-90 the two enumerations; [OtherStrategy] is any other value *)
Inductive strategy := MostInfeasible | StrongBranching | Pseudocost | Reliability | RandomBranching | OtherStrategy.
Inductive selection := BreadthFirst | DiveLower | DiveUpper.

(* include/ecos_bb.h:92-102 settings_bb; verbose only controls printing and is
   left out *)
Record bbset (T : Type) := mkBs {
  bs_maxit : Z;
  bs_abs : T;
  bs_rel : T;
  bs_itol : T;
  bs_strategy : strategy;
  bs_eta : Z;
  bs_select : selection
}.
Arguments mkBs {T}.
Arguments bs_maxit {T}.
Arguments bs_abs {T}.
Arguments bs_rel {T}.
Arguments bs_itol {T}.
Arguments bs_strategy {T}.
Arguments bs_eta {T}.
Arguments bs_select {T}.
Definition set_bs_maxit {T} (r : bbset T) (v : Z) : bbset T :=
  mkBs v (bs_abs r) (bs_rel r) (bs_itol r) (bs_strategy r) (bs_eta r) (bs_select r).
Definition set_bs_abs {T} (r : bbset T) (v : T) : bbset T :=
  mkBs (bs_maxit r) v (bs_rel r) (bs_itol r) (bs_strategy r) (bs_eta r) (bs_select r).
Definition set_bs_rel {T} (r : bbset T) (v : T) : bbset T :=
  mkBs (bs_maxit r) (bs_abs r) v (bs_itol r) (bs_strategy r) (bs_eta r) (bs_select r).
Definition set_bs_itol {T} (r : bbset T) (v : T) : bbset T :=
  mkBs (bs_maxit r) (bs_abs r) (bs_rel r) v (bs_strategy r) (bs_eta r) (bs_select r).
Definition set_bs_strategy {T} (r : bbset T) (v : strategy) : bbset T :=
  mkBs (bs_maxit r) (bs_abs r) (bs_rel r) (bs_itol r) v (bs_eta r) (bs_select r).
Definition set_bs_eta {T} (r : bbset T) (v : Z) : bbset T :=
  mkBs (bs_maxit r) (bs_abs r) (bs_rel r) (bs_itol r) (bs_strategy r) v (bs_select r).
Definition set_bs_select {T} (r : bbset T) (v : selection) : bbset T :=
  mkBs (bs_maxit r) (bs_abs r) (bs_rel r) (bs_itol r) (bs_strategy r) (bs_eta r) v.

(* include/ecos_bb.h:104-116 node *)
Record node (T : Type) := mkNode {
  nd_status : Z;
  nd_L : T;
  nd_U : T;
  nd_relax : T;
  nd_split : Z;
  nd_val : T;
  nd_psplit : Z;
  nd_pval : T;
  nd_prelax : T;
  nd_up : bool
}.
Arguments mkNode {T}.
Arguments nd_status {T}.
Arguments nd_L {T}.
Arguments nd_U {T}.
Arguments nd_relax {T}.
Arguments nd_split {T}.
Arguments nd_val {T}.
Arguments nd_psplit {T}.
Arguments nd_pval {T}.
Arguments nd_prelax {T}.
Arguments nd_up {T}.
Definition set_nd_status {T} (r : node T) (v : Z) : node T :=
  mkNode v (nd_L r) (nd_U r) (nd_relax r) (nd_split r) (nd_val r) (nd_psplit r) (nd_pval r) (nd_prelax r) (nd_up r).
Definition set_nd_L {T} (r : node T) (v : T) : node T :=
  mkNode (nd_status r) v (nd_U r) (nd_relax r) (nd_split r) (nd_val r) (nd_psplit r) (nd_pval r) (nd_prelax r) (nd_up r).
Definition set_nd_U {T} (r : node T) (v : T) : node T :=
  mkNode (nd_status r) (nd_L r) v (nd_relax r) (nd_split r) (nd_val r) (nd_psplit r) (nd_pval r) (nd_prelax r) (nd_up r).
Definition set_nd_relax {T} (r : node T) (v : T) : node T :=
  mkNode (nd_status r) (nd_L r) (nd_U r) v (nd_split r) (nd_val r) (nd_psplit r) (nd_pval r) (nd_prelax r) (nd_up r).
Definition set_nd_split {T} (r : node T) (v : Z) : node T :=
  mkNode (nd_status r) (nd_L r) (nd_U r) (nd_relax r) v (nd_val r) (nd_psplit r) (nd_pval r) (nd_prelax r) (nd_up r).
Definition set_nd_val {T} (r : node T) (v : T) : node T :=
  mkNode (nd_status r) (nd_L r) (nd_U r) (nd_relax r) (nd_split r) v (nd_psplit r) (nd_pval r) (nd_prelax r) (nd_up r).
Definition set_nd_psplit {T} (r : node T) (v : Z) : node T :=
  mkNode (nd_status r) (nd_L r) (nd_U r) (nd_relax r) (nd_split r) (nd_val r) v (nd_pval r) (nd_prelax r) (nd_up r).
Definition set_nd_pval {T} (r : node T) (v : T) : node T :=
  mkNode (nd_status r) (nd_L r) (nd_U r) (nd_relax r) (nd_split r) (nd_val r) (nd_psplit r) v (nd_prelax r) (nd_up r).
Definition set_nd_prelax {T} (r : node T) (v : T) : node T :=
  mkNode (nd_status r) (nd_L r) (nd_U r) (nd_relax r) (nd_split r) (nd_val r) (nd_psplit r) (nd_pval r) v (nd_up r).
Definition set_nd_up {T} (r : node T) (v : bool) : node T :=
  mkNode (nd_status r) (nd_L r) (nd_U r) (nd_relax r) (nd_split r) (nd_val r) (nd_psplit r) (nd_pval r) (nd_prelax r) v.

(* include/ecos_bb.h:119-182 ecos_bb_pwork.  The copies A, G, c, b, h of pointers
   into the solver's workspace, the memory handles Gpr_new, Gjc_new, Gir_new,
   h_new, ecos_stgs and default_settings are left out.  The last three fields are
   not in the struct: the number of calls of rand() and of ECOS_solve so far, and
   what the process does on SIGINT. *)
Record bbwork (T : Type) := mkBb {
  bb_nb : nat;
  bb_ni : nat;
  bb_nodes : arr (node T);
  bb_bids : arr Z;
  bb_iids : arr T;
  bb_bidx : arr nat;
  bb_iidx : arr nat;
  bb_prob : pwork T;
  bb_x : arr T;
  bb_y : arr T;
  bb_z : arr T;
  bb_s : arr T;
  bb_kap : T;
  bb_tau : T;
  bb_info : stats T;
  bb_U : T;
  bb_L : T;
  bb_tmpb : arr Z;
  bb_tmpi : arr T;
  bb_iter : nat;
  bb_dive : Z;
  bb_tbb : arr Z;
  bb_tbi : arr T;
  bb_psb : arr T;
  bb_psi : arr T;
  bb_pcb : arr Z;
  bb_pci : arr Z;
  bb_stgs : bbset T;
  bb_draws : nat;
  bb_solves : nat;
  bb_ctrlc : ctrlc
}.
Arguments mkBb {T}.
Arguments bb_nb {T}.
Arguments bb_ni {T}.
Arguments bb_nodes {T}.
Arguments bb_bids {T}.
Arguments bb_iids {T}.
Arguments bb_bidx {T}.
Arguments bb_iidx {T}.
Arguments bb_prob {T}.
Arguments bb_x {T}.
Arguments bb_y {T}.
Arguments bb_z {T}.
Arguments bb_s {T}.
Arguments bb_kap {T}.
Arguments bb_tau {T}.
Arguments bb_info {T}.
Arguments bb_U {T}.
Arguments bb_L {T}.
Arguments bb_tmpb {T}.
Arguments bb_tmpi {T}.
Arguments bb_iter {T}.
Arguments bb_dive {T}.
Arguments bb_tbb {T}.
Arguments bb_tbi {T}.
Arguments bb_psb {T}.
Arguments bb_psi {T}.
Arguments bb_pcb {T}.
Arguments bb_pci {T}.
Arguments bb_stgs {T}.
Arguments bb_draws {T}.
Arguments bb_solves {T}.
Arguments bb_ctrlc {T}.
Definition set_bb_nb {T} (r : bbwork T) (v : nat) : bbwork T :=
  mkBb v (bb_ni r) (bb_nodes r) (bb_bids r) (bb_iids r) (bb_bidx r) (bb_iidx r) (bb_prob r) (bb_x r) (bb_y r) (bb_z r) (bb_s r) (bb_kap r) (bb_tau r) (bb_info r) (bb_U r) (bb_L r) (bb_tmpb r) (bb_tmpi r) (bb_iter r) (bb_dive r) (bb_tbb r) (bb_tbi r) (bb_psb r) (bb_psi r) (bb_pcb r) (bb_pci r) (bb_stgs r) (bb_draws r) (bb_solves r) (bb_ctrlc r).
Definition set_bb_ni {T} (r : bbwork T) (v : nat) : bbwork T :=
  mkBb (bb_nb r) v (bb_nodes r) (bb_bids r) (bb_iids r) (bb_bidx r) (bb_iidx r) (bb_prob r) (bb_x r) (bb_y r) (bb_z r) (bb_s r) (bb_kap r) (bb_tau r) (bb_info r) (bb_U r) (bb_L r) (bb_tmpb r) (bb_tmpi r) (bb_iter r) (bb_dive r) (bb_tbb r) (bb_tbi r) (bb_psb r) (bb_psi r) (bb_pcb r) (bb_pci r) (bb_stgs r) (bb_draws r) (bb_solves r) (bb_ctrlc r).
Definition set_bb_nodes {T} (r : bbwork T) (v : arr (node T)) : bbwork T :=
  mkBb (bb_nb r) (bb_ni r) v (bb_bids r) (bb_iids r) (bb_bidx r) (bb_iidx r) (bb_prob r) (bb_x r) (bb_y r) (bb_z r) (bb_s r) (bb_kap r) (bb_tau r) (bb_info r) (bb_U r) (bb_L r) (bb_tmpb r) (bb_tmpi r) (bb_iter r) (bb_dive r) (bb_tbb r) (bb_tbi r) (bb_psb r) (bb_psi r) (bb_pcb r) (bb_pci r) (bb_stgs r) (bb_draws r) (bb_solves r) (bb_ctrlc r).
Definition set_bb_bids {T} (r : bbwork T) (v : arr Z) : bbwork T :=
  mkBb (bb_nb r) (bb_ni r) (bb_nodes r) v (bb_iids r) (bb_bidx r) (bb_iidx r) (bb_prob r) (bb_x r) (bb_y r) (bb_z r) (bb_s r) (bb_kap r) (bb_tau r) (bb_info r) (bb_U r) (bb_L r) (bb_tmpb r) (bb_tmpi r) (bb_iter r) (bb_dive r) (bb_tbb r) (bb_tbi r) (bb_psb r) (bb_psi r) (bb_pcb r) (bb_pci r) (bb_stgs r) (bb_draws r) (bb_solves r) (bb_ctrlc r).
Definition set_bb_iids {T} (r : bbwork T) (v : arr T) : bbwork T :=
  mkBb (bb_nb r) (bb_ni r) (bb_nodes r) (bb_bids r) v (bb_bidx r) (bb_iidx r) (bb_prob r) (bb_x r) (bb_y r) (bb_z r) (bb_s r) (bb_kap r) (bb_tau r) (bb_info r) (bb_U r) (bb_L r) (bb_tmpb r) (bb_tmpi r) (bb_iter r) (bb_dive r) (bb_tbb r) (bb_tbi r) (bb_psb r) (bb_psi r) (bb_pcb r) (bb_pci r) (bb_stgs r) (bb_draws r) (bb_solves r) (bb_ctrlc r).
Definition set_bb_bidx {T} (r : bbwork T) (v : arr nat) : bbwork T :=
  mkBb (bb_nb r) (bb_ni r) (bb_nodes r) (bb_bids r) (bb_iids r) v (bb_iidx r) (bb_prob r) (bb_x r) (bb_y r) (bb_z r) (bb_s r) (bb_kap r) (bb_tau r) (bb_info r) (bb_U r) (bb_L r) (bb_tmpb r) (bb_tmpi r) (bb_iter r) (bb_dive r) (bb_tbb r) (bb_tbi r) (bb_psb r) (bb_psi r) (bb_pcb r) (bb_pci r) (bb_stgs r) (bb_draws r) (bb_solves r) (bb_ctrlc r).
Definition set_bb_iidx {T} (r : bbwork T) (v : arr nat) : bbwork T :=
  mkBb (bb_nb r) (bb_ni r) (bb_nodes r) (bb_bids r) (bb_iids r) (bb_bidx r) v (bb_prob r) (bb_x r) (bb_y r) (bb_z r) (bb_s r) (bb_kap r) (bb_tau r) (bb_info r) (bb_U r) (bb_L r) (bb_tmpb r) (bb_tmpi r) (bb_iter r) (bb_dive r) (bb_tbb r) (bb_tbi r) (bb_psb r) (bb_psi r) (bb_pcb r) (bb_pci r) (bb_stgs r) (bb_draws r) (bb_solves r) (bb_ctrlc r).
Definition set_bb_prob {T} (r : bbwork T) (v : pwork T) : bbwork T :=
  mkBb (bb_nb r) (bb_ni r) (bb_nodes r) (bb_bids r) (bb_iids r) (bb_bidx r) (bb_iidx r) v (bb_x r) (bb_y r) (bb_z r) (bb_s r) (bb_kap r) (bb_tau r) (bb_info r) (bb_U r) (bb_L r) (bb_tmpb r) (bb_tmpi r) (bb_iter r) (bb_dive r) (bb_tbb r) (bb_tbi r) (bb_psb r) (bb_psi r) (bb_pcb r) (bb_pci r) (bb_stgs r) (bb_draws r) (bb_solves r) (bb_ctrlc r).
Definition set_bb_x {T} (r : bbwork T) (v : arr T) : bbwork T :=
  mkBb (bb_nb r) (bb_ni r) (bb_nodes r) (bb_bids r) (bb_iids r) (bb_bidx r) (bb_iidx r) (bb_prob r) v (bb_y r) (bb_z r) (bb_s r) (bb_kap r) (bb_tau r) (bb_info r) (bb_U r) (bb_L r) (bb_tmpb r) (bb_tmpi r) (bb_iter r) (bb_dive r) (bb_tbb r) (bb_tbi r) (bb_psb r) (bb_psi r) (bb_pcb r) (bb_pci r) (bb_stgs r) (bb_draws r) (bb_solves r) (bb_ctrlc r).
Definition set_bb_y {T} (r : bbwork T) (v : arr T) : bbwork T :=
  mkBb (bb_nb r) (bb_ni r) (bb_nodes r) (bb_bids r) (bb_iids r) (bb_bidx r) (bb_iidx r) (bb_prob r) (bb_x r) v (bb_z r) (bb_s r) (bb_kap r) (bb_tau r) (bb_info r) (bb_U r) (bb_L r) (bb_tmpb r) (bb_tmpi r) (bb_iter r) (bb_dive r) (bb_tbb r) (bb_tbi r) (bb_psb r) (bb_psi r) (bb_pcb r) (bb_pci r) (bb_stgs r) (bb_draws r) (bb_solves r) (bb_ctrlc r).
Definition set_bb_z {T} (r : bbwork T) (v : arr T) : bbwork T :=
  mkBb (bb_nb r) (bb_ni r) (bb_nodes r) (bb_bids r) (bb_iids r) (bb_bidx r) (bb_iidx r) (bb_prob r) (bb_x r) (bb_y r) v (bb_s r) (bb_kap r) (bb_tau r) (bb_info r) (bb_U r) (bb_L r) (bb_tmpb r) (bb_tmpi r) (bb_iter r) (bb_dive r) (bb_tbb r) (bb_tbi r) (bb_psb r) (bb_psi r) (bb_pcb r) (bb_pci r) (bb_stgs r) (bb_draws r) (bb_solves r) (bb_ctrlc r).
Definition set_bb_s {T} (r : bbwork T) (v : arr T) : bbwork T :=
  mkBb (bb_nb r) (bb_ni r) (bb_nodes r) (bb_bids r) (bb_iids r) (bb_bidx r) (bb_iidx r) (bb_prob r) (bb_x r) (bb_y r) (bb_z r) v (bb_kap r) (bb_tau r) (bb_info r) (bb_U r) (bb_L r) (bb_tmpb r) (bb_tmpi r) (bb_iter r) (bb_dive r) (bb_tbb r) (bb_tbi r) (bb_psb r) (bb_psi r) (bb_pcb r) (bb_pci r) (bb_stgs r) (bb_draws r) (bb_solves r) (bb_ctrlc r).
Definition set_bb_kap {T} (r : bbwork T) (v : T) : bbwork T :=
  mkBb (bb_nb r) (bb_ni r) (bb_nodes r) (bb_bids r) (bb_iids r) (bb_bidx r) (bb_iidx r) (bb_prob r) (bb_x r) (bb_y r) (bb_z r) (bb_s r) v (bb_tau r) (bb_info r) (bb_U r) (bb_L r) (bb_tmpb r) (bb_tmpi r) (bb_iter r) (bb_dive r) (bb_tbb r) (bb_tbi r) (bb_psb r) (bb_psi r) (bb_pcb r) (bb_pci r) (bb_stgs r) (bb_draws r) (bb_solves r) (bb_ctrlc r).
Definition set_bb_tau {T} (r : bbwork T) (v : T) : bbwork T :=
  mkBb (bb_nb r) (bb_ni r) (bb_nodes r) (bb_bids r) (bb_iids r) (bb_bidx r) (bb_iidx r) (bb_prob r) (bb_x r) (bb_y r) (bb_z r) (bb_s r) (bb_kap r) v (bb_info r) (bb_U r) (bb_L r) (bb_tmpb r) (bb_tmpi r) (bb_iter r) (bb_dive r) (bb_tbb r) (bb_tbi r) (bb_psb r) (bb_psi r) (bb_pcb r) (bb_pci r) (bb_stgs r) (bb_draws r) (bb_solves r) (bb_ctrlc r).
Definition set_bb_info {T} (r : bbwork T) (v : stats T) : bbwork T :=
  mkBb (bb_nb r) (bb_ni r) (bb_nodes r) (bb_bids r) (bb_iids r) (bb_bidx r) (bb_iidx r) (bb_prob r) (bb_x r) (bb_y r) (bb_z r) (bb_s r) (bb_kap r) (bb_tau r) v (bb_U r) (bb_L r) (bb_tmpb r) (bb_tmpi r) (bb_iter r) (bb_dive r) (bb_tbb r) (bb_tbi r) (bb_psb r) (bb_psi r) (bb_pcb r) (bb_pci r) (bb_stgs r) (bb_draws r) (bb_solves r) (bb_ctrlc r).
Definition set_bb_U {T} (r : bbwork T) (v : T) : bbwork T :=
  mkBb (bb_nb r) (bb_ni r) (bb_nodes r) (bb_bids r) (bb_iids r) (bb_bidx r) (bb_iidx r) (bb_prob r) (bb_x r) (bb_y r) (bb_z r) (bb_s r) (bb_kap r) (bb_tau r) (bb_info r) v (bb_L r) (bb_tmpb r) (bb_tmpi r) (bb_iter r) (bb_dive r) (bb_tbb r) (bb_tbi r) (bb_psb r) (bb_psi r) (bb_pcb r) (bb_pci r) (bb_stgs r) (bb_draws r) (bb_solves r) (bb_ctrlc r).
Definition set_bb_L {T} (r : bbwork T) (v : T) : bbwork T :=
  mkBb (bb_nb r) (bb_ni r) (bb_nodes r) (bb_bids r) (bb_iids r) (bb_bidx r) (bb_iidx r) (bb_prob r) (bb_x r) (bb_y r) (bb_z r) (bb_s r) (bb_kap r) (bb_tau r) (bb_info r) (bb_U r) v (bb_tmpb r) (bb_tmpi r) (bb_iter r) (bb_dive r) (bb_tbb r) (bb_tbi r) (bb_psb r) (bb_psi r) (bb_pcb r) (bb_pci r) (bb_stgs r) (bb_draws r) (bb_solves r) (bb_ctrlc r).
Definition set_bb_tmpb {T} (r : bbwork T) (v : arr Z) : bbwork T :=
  mkBb (bb_nb r) (bb_ni r) (bb_nodes r) (bb_bids r) (bb_iids r) (bb_bidx r) (bb_iidx r) (bb_prob r) (bb_x r) (bb_y r) (bb_z r) (bb_s r) (bb_kap r) (bb_tau r) (bb_info r) (bb_U r) (bb_L r) v (bb_tmpi r) (bb_iter r) (bb_dive r) (bb_tbb r) (bb_tbi r) (bb_psb r) (bb_psi r) (bb_pcb r) (bb_pci r) (bb_stgs r) (bb_draws r) (bb_solves r) (bb_ctrlc r).
Definition set_bb_tmpi {T} (r : bbwork T) (v : arr T) : bbwork T :=
  mkBb (bb_nb r) (bb_ni r) (bb_nodes r) (bb_bids r) (bb_iids r) (bb_bidx r) (bb_iidx r) (bb_prob r) (bb_x r) (bb_y r) (bb_z r) (bb_s r) (bb_kap r) (bb_tau r) (bb_info r) (bb_U r) (bb_L r) (bb_tmpb r) v (bb_iter r) (bb_dive r) (bb_tbb r) (bb_tbi r) (bb_psb r) (bb_psi r) (bb_pcb r) (bb_pci r) (bb_stgs r) (bb_draws r) (bb_solves r) (bb_ctrlc r).
Definition set_bb_iter {T} (r : bbwork T) (v : nat) : bbwork T :=
  mkBb (bb_nb r) (bb_ni r) (bb_nodes r) (bb_bids r) (bb_iids r) (bb_bidx r) (bb_iidx r) (bb_prob r) (bb_x r) (bb_y r) (bb_z r) (bb_s r) (bb_kap r) (bb_tau r) (bb_info r) (bb_U r) (bb_L r) (bb_tmpb r) (bb_tmpi r) v (bb_dive r) (bb_tbb r) (bb_tbi r) (bb_psb r) (bb_psi r) (bb_pcb r) (bb_pci r) (bb_stgs r) (bb_draws r) (bb_solves r) (bb_ctrlc r).
Definition set_bb_dive {T} (r : bbwork T) (v : Z) : bbwork T :=
  mkBb (bb_nb r) (bb_ni r) (bb_nodes r) (bb_bids r) (bb_iids r) (bb_bidx r) (bb_iidx r) (bb_prob r) (bb_x r) (bb_y r) (bb_z r) (bb_s r) (bb_kap r) (bb_tau r) (bb_info r) (bb_U r) (bb_L r) (bb_tmpb r) (bb_tmpi r) (bb_iter r) v (bb_tbb r) (bb_tbi r) (bb_psb r) (bb_psi r) (bb_pcb r) (bb_pci r) (bb_stgs r) (bb_draws r) (bb_solves r) (bb_ctrlc r).
Definition set_bb_tbb {T} (r : bbwork T) (v : arr Z) : bbwork T :=
  mkBb (bb_nb r) (bb_ni r) (bb_nodes r) (bb_bids r) (bb_iids r) (bb_bidx r) (bb_iidx r) (bb_prob r) (bb_x r) (bb_y r) (bb_z r) (bb_s r) (bb_kap r) (bb_tau r) (bb_info r) (bb_U r) (bb_L r) (bb_tmpb r) (bb_tmpi r) (bb_iter r) (bb_dive r) v (bb_tbi r) (bb_psb r) (bb_psi r) (bb_pcb r) (bb_pci r) (bb_stgs r) (bb_draws r) (bb_solves r) (bb_ctrlc r).
Definition set_bb_tbi {T} (r : bbwork T) (v : arr T) : bbwork T :=
  mkBb (bb_nb r) (bb_ni r) (bb_nodes r) (bb_bids r) (bb_iids r) (bb_bidx r) (bb_iidx r) (bb_prob r) (bb_x r) (bb_y r) (bb_z r) (bb_s r) (bb_kap r) (bb_tau r) (bb_info r) (bb_U r) (bb_L r) (bb_tmpb r) (bb_tmpi r) (bb_iter r) (bb_dive r) (bb_tbb r) v (bb_psb r) (bb_psi r) (bb_pcb r) (bb_pci r) (bb_stgs r) (bb_draws r) (bb_solves r) (bb_ctrlc r).
Definition set_bb_psb {T} (r : bbwork T) (v : arr T) : bbwork T :=
  mkBb (bb_nb r) (bb_ni r) (bb_nodes r) (bb_bids r) (bb_iids r) (bb_bidx r) (bb_iidx r) (bb_prob r) (bb_x r) (bb_y r) (bb_z r) (bb_s r) (bb_kap r) (bb_tau r) (bb_info r) (bb_U r) (bb_L r) (bb_tmpb r) (bb_tmpi r) (bb_iter r) (bb_dive r) (bb_tbb r) (bb_tbi r) v (bb_psi r) (bb_pcb r) (bb_pci r) (bb_stgs r) (bb_draws r) (bb_solves r) (bb_ctrlc r).
Definition set_bb_psi {T} (r : bbwork T) (v : arr T) : bbwork T :=
  mkBb (bb_nb r) (bb_ni r) (bb_nodes r) (bb_bids r) (bb_iids r) (bb_bidx r) (bb_iidx r) (bb_prob r) (bb_x r) (bb_y r) (bb_z r) (bb_s r) (bb_kap r) (bb_tau r) (bb_info r) (bb_U r) (bb_L r) (bb_tmpb r) (bb_tmpi r) (bb_iter r) (bb_dive r) (bb_tbb r) (bb_tbi r) (bb_psb r) v (bb_pcb r) (bb_pci r) (bb_stgs r) (bb_draws r) (bb_solves r) (bb_ctrlc r).
Definition set_bb_pcb {T} (r : bbwork T) (v : arr Z) : bbwork T :=
  mkBb (bb_nb r) (bb_ni r) (bb_nodes r) (bb_bids r) (bb_iids r) (bb_bidx r) (bb_iidx r) (bb_prob r) (bb_x r) (bb_y r) (bb_z r) (bb_s r) (bb_kap r) (bb_tau r) (bb_info r) (bb_U r) (bb_L r) (bb_tmpb r) (bb_tmpi r) (bb_iter r) (bb_dive r) (bb_tbb r) (bb_tbi r) (bb_psb r) (bb_psi r) v (bb_pci r) (bb_stgs r) (bb_draws r) (bb_solves r) (bb_ctrlc r).
Definition set_bb_pci {T} (r : bbwork T) (v : arr Z) : bbwork T :=
  mkBb (bb_nb r) (bb_ni r) (bb_nodes r) (bb_bids r) (bb_iids r) (bb_bidx r) (bb_iidx r) (bb_prob r) (bb_x r) (bb_y r) (bb_z r) (bb_s r) (bb_kap r) (bb_tau r) (bb_info r) (bb_U r) (bb_L r) (bb_tmpb r) (bb_tmpi r) (bb_iter r) (bb_dive r) (bb_tbb r) (bb_tbi r) (bb_psb r) (bb_psi r) (bb_pcb r) v (bb_stgs r) (bb_draws r) (bb_solves r) (bb_ctrlc r).
Definition set_bb_stgs {T} (r : bbwork T) (v : bbset T) : bbwork T :=
  mkBb (bb_nb r) (bb_ni r) (bb_nodes r) (bb_bids r) (bb_iids r) (bb_bidx r) (bb_iidx r) (bb_prob r) (bb_x r) (bb_y r) (bb_z r) (bb_s r) (bb_kap r) (bb_tau r) (bb_info r) (bb_U r) (bb_L r) (bb_tmpb r) (bb_tmpi r) (bb_iter r) (bb_dive r) (bb_tbb r) (bb_tbi r) (bb_psb r) (bb_psi r) (bb_pcb r) (bb_pci r) v (bb_draws r) (bb_solves r) (bb_ctrlc r).
Definition set_bb_draws {T} (r : bbwork T) (v : nat) : bbwork T :=
  mkBb (bb_nb r) (bb_ni r) (bb_nodes r) (bb_bids r) (bb_iids r) (bb_bidx r) (bb_iidx r) (bb_prob r) (bb_x r) (bb_y r) (bb_z r) (bb_s r) (bb_kap r) (bb_tau r) (bb_info r) (bb_U r) (bb_L r) (bb_tmpb r) (bb_tmpi r) (bb_iter r) (bb_dive r) (bb_tbb r) (bb_tbi r) (bb_psb r) (bb_psi r) (bb_pcb r) (bb_pci r) (bb_stgs r) v (bb_solves r) (bb_ctrlc r).
Definition set_bb_solves {T} (r : bbwork T) (v : nat) : bbwork T :=
  mkBb (bb_nb r) (bb_ni r) (bb_nodes r) (bb_bids r) (bb_iids r) (bb_bidx r) (bb_iidx r) (bb_prob r) (bb_x r) (bb_y r) (bb_z r) (bb_s r) (bb_kap r) (bb_tau r) (bb_info r) (bb_U r) (bb_L r) (bb_tmpb r) (bb_tmpi r) (bb_iter r) (bb_dive r) (bb_tbb r) (bb_tbi r) (bb_psb r) (bb_psi r) (bb_pcb r) (bb_pci r) (bb_stgs r) (bb_draws r) v (bb_ctrlc r).
Definition set_bb_ctrlc {T} (r : bbwork T) (v : ctrlc) : bbwork T :=
  mkBb (bb_nb r) (bb_ni r) (bb_nodes r) (bb_bids r) (bb_iids r) (bb_bidx r) (bb_iidx r) (bb_prob r) (bb_x r) (bb_y r) (bb_z r) (bb_s r) (bb_kap r) (bb_tau r) (bb_info r) (bb_U r) (bb_L r) (bb_tmpb r) (bb_tmpi r) (bb_iter r) (bb_dive r) (bb_tbb r) (bb_tbi r) (bb_psb r) (bb_psi r) (bb_pcb r) (bb_pci r) (bb_stgs r) (bb_draws r) (bb_solves r) v.
