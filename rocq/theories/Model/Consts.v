(* Compile-time constants of include/ecos.h and the SAFEDIV_POS macro. *)
From Coq Require Import List Arith Bool ZArith QArith.
From Verif Require Import Base Num.

Section Consts.
Context `{O : Ops}.
Local Open Scope fl_scope.

Definition GAMMA : F := fconst (99 # 100).                        (* include/ecos.h:52 *)
Definition DELTASTAT : F := fconst (7 # 100000000).               (* include/ecos.h:54 *)
Definition DELTA : F := fconst (2 # 10000000).                    (* include/ecos.h:55 *)
Definition EPS : F := fconst (1 # 10000000000000).                (* include/ecos.h:56 *)
Definition NITREF : Z := 9.                                       (* include/ecos.h:58 *)
Definition IRERRFACT : F := fconst 6.                             (* include/ecos.h:59 *)
Definition LINSYSACC : F := fconst (1 # 100000000000000).         (* include/ecos.h:60 *)
Definition SIGMAMIN : F := fconst (1 # 10000).                    (* include/ecos.h:61 *)
Definition SIGMAMAX : F := fconst 1.                              (* include/ecos.h:62 *)
Definition STEPMIN : F := fconst (1 # 1000000).                   (* include/ecos.h:63 *)
Definition STEPMAX : F := fconst (999 # 1000).                    (* include/ecos.h:64 *)
Definition SAFEGUARD : F := fconst 500.                           (* include/ecos.h:65 *)
Definition MIN_DISTANCE : F := fconst (1 # 10).                   (* include/ecos.h:71 *)
Definition MAXIT : Z := 100.                                      (* include/ecos.h:45 *)
Definition FEASTOL : F := fconst (1 # 100000000).                 (* include/ecos.h:46 *)
Definition ABSTOL : F := fconst (1 # 100000000).                  (* include/ecos.h:47 *)
Definition RELTOL : F := fconst (1 # 100000000).                  (* include/ecos.h:48 *)
Definition FTOL_INACC : F := fconst (1 # 10000).                  (* include/ecos.h:49 *)
Definition ATOL_INACC : F := fconst (5 # 100000).                 (* include/ecos.h:50 *)
Definition RTOL_INACC : F := fconst (5 # 100000).                 (* include/ecos.h:51 *)
Definition MAX_BK : Z := 90.                                      (* include/ecos.h:69 *)
Definition BK_SCALE : F := fconst (8 # 10).                       (* include/ecos.h:70 *)
Definition CENTRALITY : F := fconst 1.                            (* include/ecos.h:74 *)
Definition half : F := fconst (1 # 2).                            (* the literal 0.5 *)

(* include/ecos.h:255  SAFEDIV_POS(X,Y)  ( (Y) < EPS ? ((X)/EPS) : (X)/(Y) ) *)
Definition safediv (x y : F) : F := if y <? EPS then x / EPS else x / y.

End Consts.

(* exit codes, include/ecos.h:87-95; internal code src/ecos.c:39 *)
Definition ECOS_OPTIMAL : Z := 0.
Definition ECOS_PINF : Z := 1.
Definition ECOS_DINF : Z := 2.
Definition ECOS_INACC_OFFSET : Z := 10.
Definition ECOS_MAXIT : Z := -1.
Definition ECOS_NUMERICS : Z := -2.
Definition ECOS_OUTCONE : Z := -3.
Definition ECOS_SIGINT : Z := -4.
Definition ECOS_FATAL : Z := -7.
Definition ECOS_NOT_CONVERGED_YET : Z := -87.
