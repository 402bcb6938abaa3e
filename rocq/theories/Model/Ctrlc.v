(* Interrupt handling, src/ctrlc.c:82-110 (the POSIX variant), at the granularity at
   which signals can arrive: between any two accesses to the process's signal state. *)
From Coq Require Import List ZArith Bool.
Import ListNotations.

(* what the process does on SIGINT: whatever the application installed (a handler,
   ignore or default), or the library's handle_ctrlc *)
Inductive disposition := App (h : nat) | Lib.

(* The process as far as SIGINT is concerned: disposition, src/ctrlc.c:88 oact,
   src/ctrlc.c:87 int_detected, and the log of what the application was told
   (newest first). *)
Record process := mkProc { pr_disp : disposition; pr_oact : disposition; pr_flag : Z; pr_told : list nat }.

(* delivery of one SIGINT (number 2); src/ctrlc.c:89-92 handle_ctrlc *)
Definition deliver (p : process) : process :=
  match pr_disp p with
  | Lib => mkProc (pr_disp p) (pr_oact p) (if (2 =? 0)%Z then -1 else 2)%Z (pr_told p)
  | App h => mkProc (pr_disp p) (pr_oact p) (pr_flag p) (h :: pr_told p)
  end.

(* the accesses: src/ctrlc.c:95 (Clear), :100 (Install), :105 (Remove), :109 (Check) *)
Inductive action := Clear | Install | Check | Remove.

Definition act (a : action) (p : process) : process :=
  match a with
  | Clear => mkProc (pr_disp p) (pr_oact p) 0 (pr_told p)
  | Install => mkProc Lib (pr_disp p) (pr_flag p) (pr_told p)
  | Check => p
  | Remove => mkProc (pr_oact p) (pr_oact p) (pr_flag p) (pr_told p)
  end.

(* A history of the process: signals and accesses, in order. *)
Inductive event := Sig | Do (a : action).

(* the final state and the answers of the checks, oldest first *)
Fixpoint run (tr : list event) (p : process) : process * list bool :=
  match tr with
  | [] => (p, [])
  | Sig :: tr => run tr (deliver p)
  | Do a :: tr =>
      let '(p', bs) := run tr (act a p) in
      (p', match a with Check => negb (pr_flag p =? 0)%Z :: bs | _ => bs end)
  end.

(* the accesses of a history *)
Fixpoint accesses (tr : list event) : list action :=
  match tr with [] => [] | Sig :: tr => accesses tr | Do a :: tr => a :: accesses tr end.

(* src/ecos.c:1109 (init_ctrlc), :1172 (one check per pass), :1613 (remove_ctrlc, not
   reached from the early returns at :1118, :1307 and :1342): the accesses of one call
   of ECOS_solve that makes k checks *)
Definition solve_accesses (k : nat) (early : bool) : list action :=
  [Clear; Install] ++ repeat Check k ++ (if early then [] else [Remove]).
