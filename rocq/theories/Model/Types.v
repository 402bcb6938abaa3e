(* The solver's data structures.  Generated mechanically from the field lists
   of include/*.h: every record comes with one setter per field.

   Pointers to arrays are arrays ([arr]), pointers that may be NULL are
   options.  Structures are polymorphic in the element type so that the same
   definitions serve every reading of pfloat.  Scalars that the code leaves
   uninitialised at setup are ordinary fields with an arbitrary initial value,
   except where a definition says otherwise. *)
From Coq Require Import List Arith Bool ZArith.
From Verif Require Import Base.
From Verif.Model Require Import Spla.
Import ListNotations.

(* include/cone.h:35-40 struct lpcone *)
Record lpcone (T : Type) := mkLp {
  lp_p : nat;
  lp_w : arr T;
  lp_v : arr T;
  lp_kkt_idx : arr nat
}.
Arguments mkLp {T}.
Arguments lp_p {T}.
Arguments lp_w {T}.
Arguments lp_v {T}.
Arguments lp_kkt_idx {T}.
Definition set_lp_p {T} (r : lpcone T) (v : nat) : lpcone T :=
  mkLp v (lp_w r) (lp_v r) (lp_kkt_idx r).
Definition set_lp_w {T} (r : lpcone T) (v : arr T) : lpcone T :=
  mkLp (lp_p r) v (lp_v r) (lp_kkt_idx r).
Definition set_lp_v {T} (r : lpcone T) (v : arr T) : lpcone T :=
  mkLp (lp_p r) (lp_w r) v (lp_kkt_idx r).
Definition set_lp_kkt_idx {T} (r : lpcone T) (v : arr nat) : lpcone T :=
  mkLp (lp_p r) (lp_w r) (lp_v r) v.

(* include/cone.h:45-69 struct socone, CONEMODE 0; a scalar that was never
   assigned is None and reading it is undefined behaviour *)
Record socone (T : Type) := mkSo {
  so_p : nat;
  so_skbar : arr T;
  so_zkbar : arr T;
  so_a : option T;
  so_d1 : option T;
  so_w : option T;
  so_eta : option T;
  so_eta_square : option T;
  so_q : arr T;
  so_Didx : arr nat;
  so_u0 : option T;
  so_u1 : option T;
  so_v1 : option T
}.
Arguments mkSo {T}.
Arguments so_p {T}.
Arguments so_skbar {T}.
Arguments so_zkbar {T}.
Arguments so_a {T}.
Arguments so_d1 {T}.
Arguments so_w {T}.
Arguments so_eta {T}.
Arguments so_eta_square {T}.
Arguments so_q {T}.
Arguments so_Didx {T}.
Arguments so_u0 {T}.
Arguments so_u1 {T}.
Arguments so_v1 {T}.
Definition set_so_p {T} (r : socone T) (v : nat) : socone T :=
  mkSo v (so_skbar r) (so_zkbar r) (so_a r) (so_d1 r) (so_w r) (so_eta r) (so_eta_square r) (so_q r) (so_Didx r) (so_u0 r) (so_u1 r) (so_v1 r).
Definition set_so_skbar {T} (r : socone T) (v : arr T) : socone T :=
  mkSo (so_p r) v (so_zkbar r) (so_a r) (so_d1 r) (so_w r) (so_eta r) (so_eta_square r) (so_q r) (so_Didx r) (so_u0 r) (so_u1 r) (so_v1 r).
Definition set_so_zkbar {T} (r : socone T) (v : arr T) : socone T :=
  mkSo (so_p r) (so_skbar r) v (so_a r) (so_d1 r) (so_w r) (so_eta r) (so_eta_square r) (so_q r) (so_Didx r) (so_u0 r) (so_u1 r) (so_v1 r).
Definition set_so_a {T} (r : socone T) (v : option T) : socone T :=
  mkSo (so_p r) (so_skbar r) (so_zkbar r) v (so_d1 r) (so_w r) (so_eta r) (so_eta_square r) (so_q r) (so_Didx r) (so_u0 r) (so_u1 r) (so_v1 r).
Definition set_so_d1 {T} (r : socone T) (v : option T) : socone T :=
  mkSo (so_p r) (so_skbar r) (so_zkbar r) (so_a r) v (so_w r) (so_eta r) (so_eta_square r) (so_q r) (so_Didx r) (so_u0 r) (so_u1 r) (so_v1 r).
Definition set_so_w {T} (r : socone T) (v : option T) : socone T :=
  mkSo (so_p r) (so_skbar r) (so_zkbar r) (so_a r) (so_d1 r) v (so_eta r) (so_eta_square r) (so_q r) (so_Didx r) (so_u0 r) (so_u1 r) (so_v1 r).
Definition set_so_eta {T} (r : socone T) (v : option T) : socone T :=
  mkSo (so_p r) (so_skbar r) (so_zkbar r) (so_a r) (so_d1 r) (so_w r) v (so_eta_square r) (so_q r) (so_Didx r) (so_u0 r) (so_u1 r) (so_v1 r).
Definition set_so_eta_square {T} (r : socone T) (v : option T) : socone T :=
  mkSo (so_p r) (so_skbar r) (so_zkbar r) (so_a r) (so_d1 r) (so_w r) (so_eta r) v (so_q r) (so_Didx r) (so_u0 r) (so_u1 r) (so_v1 r).
Definition set_so_q {T} (r : socone T) (v : arr T) : socone T :=
  mkSo (so_p r) (so_skbar r) (so_zkbar r) (so_a r) (so_d1 r) (so_w r) (so_eta r) (so_eta_square r) v (so_Didx r) (so_u0 r) (so_u1 r) (so_v1 r).
Definition set_so_Didx {T} (r : socone T) (v : arr nat) : socone T :=
  mkSo (so_p r) (so_skbar r) (so_zkbar r) (so_a r) (so_d1 r) (so_w r) (so_eta r) (so_eta_square r) (so_q r) v (so_u0 r) (so_u1 r) (so_v1 r).
Definition set_so_u0 {T} (r : socone T) (v : option T) : socone T :=
  mkSo (so_p r) (so_skbar r) (so_zkbar r) (so_a r) (so_d1 r) (so_w r) (so_eta r) (so_eta_square r) (so_q r) (so_Didx r) v (so_u1 r) (so_v1 r).
Definition set_so_u1 {T} (r : socone T) (v : option T) : socone T :=
  mkSo (so_p r) (so_skbar r) (so_zkbar r) (so_a r) (so_d1 r) (so_w r) (so_eta r) (so_eta_square r) (so_q r) (so_Didx r) (so_u0 r) v (so_v1 r).
Definition set_so_v1 {T} (r : socone T) (v : option T) : socone T :=
  mkSo (so_p r) (so_skbar r) (so_zkbar r) (so_a r) (so_d1 r) (so_w r) (so_eta r) (so_eta_square r) (so_q r) (so_Didx r) (so_u0 r) (so_u1 r) v.

(* include/expcone.h:40-48 struct expcone *)
Record expcone (T : Type) := mkEx {
  ex_colstart : arr nat;
  ex_v : arr T;
  ex_g : arr T
}.
Arguments mkEx {T}.
Arguments ex_colstart {T}.
Arguments ex_v {T}.
Arguments ex_g {T}.
Definition set_ex_colstart {T} (r : expcone T) (v : arr nat) : expcone T :=
  mkEx v (ex_v r) (ex_g r).
Definition set_ex_v {T} (r : expcone T) (v : arr T) : expcone T :=
  mkEx (ex_colstart r) v (ex_g r).
Definition set_ex_g {T} (r : expcone T) (v : arr T) : expcone T :=
  mkEx (ex_colstart r) (ex_v r) v.

(* include/cone.h:73-83 struct cone; nsoc and nexc are the lengths of the lists *)
Record cone (T : Type) := mkCone {
  co_lpc : lpcone T;
  co_soc : list (socone T);
  co_expc : list (expcone T);
  co_fexv : nat
}.
Arguments mkCone {T}.
Arguments co_lpc {T}.
Arguments co_soc {T}.
Arguments co_expc {T}.
Arguments co_fexv {T}.
Definition set_co_lpc {T} (r : cone T) (v : lpcone T) : cone T :=
  mkCone v (co_soc r) (co_expc r) (co_fexv r).
Definition set_co_soc {T} (r : cone T) (v : list (socone T)) : cone T :=
  mkCone (co_lpc r) v (co_expc r) (co_fexv r).
Definition set_co_expc {T} (r : cone T) (v : list (expcone T)) : cone T :=
  mkCone (co_lpc r) (co_soc r) v (co_fexv r).
Definition set_co_fexv {T} (r : cone T) (v : nat) : cone T :=
  mkCone (co_lpc r) (co_soc r) (co_expc r) v.

(* include/kkt.h:37-68 struct kkt *)
Record kkt (T : Type) := mkKkt {
  kk_PKPt : spmat T;
  kk_L : spmat T;
  kk_D : arr T;
  kk_work1 : arr T;
  kk_work2 : arr T;
  kk_work3 : arr T;
  kk_work4 : arr T;
  kk_work5 : arr T;
  kk_work6 : arr T;
  kk_RHS1 : arr T;
  kk_RHS2 : arr T;
  kk_dx1 : arr T;
  kk_dx2 : arr T;
  kk_dy1 : arr T;
  kk_dy2 : arr T;
  kk_dz1 : arr T;
  kk_dz2 : arr T;
  kk_P : arr nat;
  kk_Pinv : arr nat;
  kk_PK : arr nat;
  kk_Parent : arr Z;
  kk_Sign : arr Z;
  kk_Pattern : arr nat;
  kk_Flag : arr nat;
  kk_Lnz : arr nat;
  kk_delta : T
}.
Arguments mkKkt {T}.
Arguments kk_PKPt {T}.
Arguments kk_L {T}.
Arguments kk_D {T}.
Arguments kk_work1 {T}.
Arguments kk_work2 {T}.
Arguments kk_work3 {T}.
Arguments kk_work4 {T}.
Arguments kk_work5 {T}.
Arguments kk_work6 {T}.
Arguments kk_RHS1 {T}.
Arguments kk_RHS2 {T}.
Arguments kk_dx1 {T}.
Arguments kk_dx2 {T}.
Arguments kk_dy1 {T}.
Arguments kk_dy2 {T}.
Arguments kk_dz1 {T}.
Arguments kk_dz2 {T}.
Arguments kk_P {T}.
Arguments kk_Pinv {T}.
Arguments kk_PK {T}.
Arguments kk_Parent {T}.
Arguments kk_Sign {T}.
Arguments kk_Pattern {T}.
Arguments kk_Flag {T}.
Arguments kk_Lnz {T}.
Arguments kk_delta {T}.
Definition set_kk_PKPt {T} (r : kkt T) (v : spmat T) : kkt T :=
  mkKkt v (kk_L r) (kk_D r) (kk_work1 r) (kk_work2 r) (kk_work3 r) (kk_work4 r) (kk_work5 r) (kk_work6 r) (kk_RHS1 r) (kk_RHS2 r) (kk_dx1 r) (kk_dx2 r) (kk_dy1 r) (kk_dy2 r) (kk_dz1 r) (kk_dz2 r) (kk_P r) (kk_Pinv r) (kk_PK r) (kk_Parent r) (kk_Sign r) (kk_Pattern r) (kk_Flag r) (kk_Lnz r) (kk_delta r).
Definition set_kk_L {T} (r : kkt T) (v : spmat T) : kkt T :=
  mkKkt (kk_PKPt r) v (kk_D r) (kk_work1 r) (kk_work2 r) (kk_work3 r) (kk_work4 r) (kk_work5 r) (kk_work6 r) (kk_RHS1 r) (kk_RHS2 r) (kk_dx1 r) (kk_dx2 r) (kk_dy1 r) (kk_dy2 r) (kk_dz1 r) (kk_dz2 r) (kk_P r) (kk_Pinv r) (kk_PK r) (kk_Parent r) (kk_Sign r) (kk_Pattern r) (kk_Flag r) (kk_Lnz r) (kk_delta r).
Definition set_kk_D {T} (r : kkt T) (v : arr T) : kkt T :=
  mkKkt (kk_PKPt r) (kk_L r) v (kk_work1 r) (kk_work2 r) (kk_work3 r) (kk_work4 r) (kk_work5 r) (kk_work6 r) (kk_RHS1 r) (kk_RHS2 r) (kk_dx1 r) (kk_dx2 r) (kk_dy1 r) (kk_dy2 r) (kk_dz1 r) (kk_dz2 r) (kk_P r) (kk_Pinv r) (kk_PK r) (kk_Parent r) (kk_Sign r) (kk_Pattern r) (kk_Flag r) (kk_Lnz r) (kk_delta r).
Definition set_kk_work1 {T} (r : kkt T) (v : arr T) : kkt T :=
  mkKkt (kk_PKPt r) (kk_L r) (kk_D r) v (kk_work2 r) (kk_work3 r) (kk_work4 r) (kk_work5 r) (kk_work6 r) (kk_RHS1 r) (kk_RHS2 r) (kk_dx1 r) (kk_dx2 r) (kk_dy1 r) (kk_dy2 r) (kk_dz1 r) (kk_dz2 r) (kk_P r) (kk_Pinv r) (kk_PK r) (kk_Parent r) (kk_Sign r) (kk_Pattern r) (kk_Flag r) (kk_Lnz r) (kk_delta r).
Definition set_kk_work2 {T} (r : kkt T) (v : arr T) : kkt T :=
  mkKkt (kk_PKPt r) (kk_L r) (kk_D r) (kk_work1 r) v (kk_work3 r) (kk_work4 r) (kk_work5 r) (kk_work6 r) (kk_RHS1 r) (kk_RHS2 r) (kk_dx1 r) (kk_dx2 r) (kk_dy1 r) (kk_dy2 r) (kk_dz1 r) (kk_dz2 r) (kk_P r) (kk_Pinv r) (kk_PK r) (kk_Parent r) (kk_Sign r) (kk_Pattern r) (kk_Flag r) (kk_Lnz r) (kk_delta r).
Definition set_kk_work3 {T} (r : kkt T) (v : arr T) : kkt T :=
  mkKkt (kk_PKPt r) (kk_L r) (kk_D r) (kk_work1 r) (kk_work2 r) v (kk_work4 r) (kk_work5 r) (kk_work6 r) (kk_RHS1 r) (kk_RHS2 r) (kk_dx1 r) (kk_dx2 r) (kk_dy1 r) (kk_dy2 r) (kk_dz1 r) (kk_dz2 r) (kk_P r) (kk_Pinv r) (kk_PK r) (kk_Parent r) (kk_Sign r) (kk_Pattern r) (kk_Flag r) (kk_Lnz r) (kk_delta r).
Definition set_kk_work4 {T} (r : kkt T) (v : arr T) : kkt T :=
  mkKkt (kk_PKPt r) (kk_L r) (kk_D r) (kk_work1 r) (kk_work2 r) (kk_work3 r) v (kk_work5 r) (kk_work6 r) (kk_RHS1 r) (kk_RHS2 r) (kk_dx1 r) (kk_dx2 r) (kk_dy1 r) (kk_dy2 r) (kk_dz1 r) (kk_dz2 r) (kk_P r) (kk_Pinv r) (kk_PK r) (kk_Parent r) (kk_Sign r) (kk_Pattern r) (kk_Flag r) (kk_Lnz r) (kk_delta r).
Definition set_kk_work5 {T} (r : kkt T) (v : arr T) : kkt T :=
  mkKkt (kk_PKPt r) (kk_L r) (kk_D r) (kk_work1 r) (kk_work2 r) (kk_work3 r) (kk_work4 r) v (kk_work6 r) (kk_RHS1 r) (kk_RHS2 r) (kk_dx1 r) (kk_dx2 r) (kk_dy1 r) (kk_dy2 r) (kk_dz1 r) (kk_dz2 r) (kk_P r) (kk_Pinv r) (kk_PK r) (kk_Parent r) (kk_Sign r) (kk_Pattern r) (kk_Flag r) (kk_Lnz r) (kk_delta r).
Definition set_kk_work6 {T} (r : kkt T) (v : arr T) : kkt T :=
  mkKkt (kk_PKPt r) (kk_L r) (kk_D r) (kk_work1 r) (kk_work2 r) (kk_work3 r) (kk_work4 r) (kk_work5 r) v (kk_RHS1 r) (kk_RHS2 r) (kk_dx1 r) (kk_dx2 r) (kk_dy1 r) (kk_dy2 r) (kk_dz1 r) (kk_dz2 r) (kk_P r) (kk_Pinv r) (kk_PK r) (kk_Parent r) (kk_Sign r) (kk_Pattern r) (kk_Flag r) (kk_Lnz r) (kk_delta r).
Definition set_kk_RHS1 {T} (r : kkt T) (v : arr T) : kkt T :=
  mkKkt (kk_PKPt r) (kk_L r) (kk_D r) (kk_work1 r) (kk_work2 r) (kk_work3 r) (kk_work4 r) (kk_work5 r) (kk_work6 r) v (kk_RHS2 r) (kk_dx1 r) (kk_dx2 r) (kk_dy1 r) (kk_dy2 r) (kk_dz1 r) (kk_dz2 r) (kk_P r) (kk_Pinv r) (kk_PK r) (kk_Parent r) (kk_Sign r) (kk_Pattern r) (kk_Flag r) (kk_Lnz r) (kk_delta r).
Definition set_kk_RHS2 {T} (r : kkt T) (v : arr T) : kkt T :=
  mkKkt (kk_PKPt r) (kk_L r) (kk_D r) (kk_work1 r) (kk_work2 r) (kk_work3 r) (kk_work4 r) (kk_work5 r) (kk_work6 r) (kk_RHS1 r) v (kk_dx1 r) (kk_dx2 r) (kk_dy1 r) (kk_dy2 r) (kk_dz1 r) (kk_dz2 r) (kk_P r) (kk_Pinv r) (kk_PK r) (kk_Parent r) (kk_Sign r) (kk_Pattern r) (kk_Flag r) (kk_Lnz r) (kk_delta r).
Definition set_kk_dx1 {T} (r : kkt T) (v : arr T) : kkt T :=
  mkKkt (kk_PKPt r) (kk_L r) (kk_D r) (kk_work1 r) (kk_work2 r) (kk_work3 r) (kk_work4 r) (kk_work5 r) (kk_work6 r) (kk_RHS1 r) (kk_RHS2 r) v (kk_dx2 r) (kk_dy1 r) (kk_dy2 r) (kk_dz1 r) (kk_dz2 r) (kk_P r) (kk_Pinv r) (kk_PK r) (kk_Parent r) (kk_Sign r) (kk_Pattern r) (kk_Flag r) (kk_Lnz r) (kk_delta r).
Definition set_kk_dx2 {T} (r : kkt T) (v : arr T) : kkt T :=
  mkKkt (kk_PKPt r) (kk_L r) (kk_D r) (kk_work1 r) (kk_work2 r) (kk_work3 r) (kk_work4 r) (kk_work5 r) (kk_work6 r) (kk_RHS1 r) (kk_RHS2 r) (kk_dx1 r) v (kk_dy1 r) (kk_dy2 r) (kk_dz1 r) (kk_dz2 r) (kk_P r) (kk_Pinv r) (kk_PK r) (kk_Parent r) (kk_Sign r) (kk_Pattern r) (kk_Flag r) (kk_Lnz r) (kk_delta r).
Definition set_kk_dy1 {T} (r : kkt T) (v : arr T) : kkt T :=
  mkKkt (kk_PKPt r) (kk_L r) (kk_D r) (kk_work1 r) (kk_work2 r) (kk_work3 r) (kk_work4 r) (kk_work5 r) (kk_work6 r) (kk_RHS1 r) (kk_RHS2 r) (kk_dx1 r) (kk_dx2 r) v (kk_dy2 r) (kk_dz1 r) (kk_dz2 r) (kk_P r) (kk_Pinv r) (kk_PK r) (kk_Parent r) (kk_Sign r) (kk_Pattern r) (kk_Flag r) (kk_Lnz r) (kk_delta r).
Definition set_kk_dy2 {T} (r : kkt T) (v : arr T) : kkt T :=
  mkKkt (kk_PKPt r) (kk_L r) (kk_D r) (kk_work1 r) (kk_work2 r) (kk_work3 r) (kk_work4 r) (kk_work5 r) (kk_work6 r) (kk_RHS1 r) (kk_RHS2 r) (kk_dx1 r) (kk_dx2 r) (kk_dy1 r) v (kk_dz1 r) (kk_dz2 r) (kk_P r) (kk_Pinv r) (kk_PK r) (kk_Parent r) (kk_Sign r) (kk_Pattern r) (kk_Flag r) (kk_Lnz r) (kk_delta r).
Definition set_kk_dz1 {T} (r : kkt T) (v : arr T) : kkt T :=
  mkKkt (kk_PKPt r) (kk_L r) (kk_D r) (kk_work1 r) (kk_work2 r) (kk_work3 r) (kk_work4 r) (kk_work5 r) (kk_work6 r) (kk_RHS1 r) (kk_RHS2 r) (kk_dx1 r) (kk_dx2 r) (kk_dy1 r) (kk_dy2 r) v (kk_dz2 r) (kk_P r) (kk_Pinv r) (kk_PK r) (kk_Parent r) (kk_Sign r) (kk_Pattern r) (kk_Flag r) (kk_Lnz r) (kk_delta r).
Definition set_kk_dz2 {T} (r : kkt T) (v : arr T) : kkt T :=
  mkKkt (kk_PKPt r) (kk_L r) (kk_D r) (kk_work1 r) (kk_work2 r) (kk_work3 r) (kk_work4 r) (kk_work5 r) (kk_work6 r) (kk_RHS1 r) (kk_RHS2 r) (kk_dx1 r) (kk_dx2 r) (kk_dy1 r) (kk_dy2 r) (kk_dz1 r) v (kk_P r) (kk_Pinv r) (kk_PK r) (kk_Parent r) (kk_Sign r) (kk_Pattern r) (kk_Flag r) (kk_Lnz r) (kk_delta r).
Definition set_kk_P {T} (r : kkt T) (v : arr nat) : kkt T :=
  mkKkt (kk_PKPt r) (kk_L r) (kk_D r) (kk_work1 r) (kk_work2 r) (kk_work3 r) (kk_work4 r) (kk_work5 r) (kk_work6 r) (kk_RHS1 r) (kk_RHS2 r) (kk_dx1 r) (kk_dx2 r) (kk_dy1 r) (kk_dy2 r) (kk_dz1 r) (kk_dz2 r) v (kk_Pinv r) (kk_PK r) (kk_Parent r) (kk_Sign r) (kk_Pattern r) (kk_Flag r) (kk_Lnz r) (kk_delta r).
Definition set_kk_Pinv {T} (r : kkt T) (v : arr nat) : kkt T :=
  mkKkt (kk_PKPt r) (kk_L r) (kk_D r) (kk_work1 r) (kk_work2 r) (kk_work3 r) (kk_work4 r) (kk_work5 r) (kk_work6 r) (kk_RHS1 r) (kk_RHS2 r) (kk_dx1 r) (kk_dx2 r) (kk_dy1 r) (kk_dy2 r) (kk_dz1 r) (kk_dz2 r) (kk_P r) v (kk_PK r) (kk_Parent r) (kk_Sign r) (kk_Pattern r) (kk_Flag r) (kk_Lnz r) (kk_delta r).
Definition set_kk_PK {T} (r : kkt T) (v : arr nat) : kkt T :=
  mkKkt (kk_PKPt r) (kk_L r) (kk_D r) (kk_work1 r) (kk_work2 r) (kk_work3 r) (kk_work4 r) (kk_work5 r) (kk_work6 r) (kk_RHS1 r) (kk_RHS2 r) (kk_dx1 r) (kk_dx2 r) (kk_dy1 r) (kk_dy2 r) (kk_dz1 r) (kk_dz2 r) (kk_P r) (kk_Pinv r) v (kk_Parent r) (kk_Sign r) (kk_Pattern r) (kk_Flag r) (kk_Lnz r) (kk_delta r).
Definition set_kk_Parent {T} (r : kkt T) (v : arr Z) : kkt T :=
  mkKkt (kk_PKPt r) (kk_L r) (kk_D r) (kk_work1 r) (kk_work2 r) (kk_work3 r) (kk_work4 r) (kk_work5 r) (kk_work6 r) (kk_RHS1 r) (kk_RHS2 r) (kk_dx1 r) (kk_dx2 r) (kk_dy1 r) (kk_dy2 r) (kk_dz1 r) (kk_dz2 r) (kk_P r) (kk_Pinv r) (kk_PK r) v (kk_Sign r) (kk_Pattern r) (kk_Flag r) (kk_Lnz r) (kk_delta r).
Definition set_kk_Sign {T} (r : kkt T) (v : arr Z) : kkt T :=
  mkKkt (kk_PKPt r) (kk_L r) (kk_D r) (kk_work1 r) (kk_work2 r) (kk_work3 r) (kk_work4 r) (kk_work5 r) (kk_work6 r) (kk_RHS1 r) (kk_RHS2 r) (kk_dx1 r) (kk_dx2 r) (kk_dy1 r) (kk_dy2 r) (kk_dz1 r) (kk_dz2 r) (kk_P r) (kk_Pinv r) (kk_PK r) (kk_Parent r) v (kk_Pattern r) (kk_Flag r) (kk_Lnz r) (kk_delta r).
Definition set_kk_Pattern {T} (r : kkt T) (v : arr nat) : kkt T :=
  mkKkt (kk_PKPt r) (kk_L r) (kk_D r) (kk_work1 r) (kk_work2 r) (kk_work3 r) (kk_work4 r) (kk_work5 r) (kk_work6 r) (kk_RHS1 r) (kk_RHS2 r) (kk_dx1 r) (kk_dx2 r) (kk_dy1 r) (kk_dy2 r) (kk_dz1 r) (kk_dz2 r) (kk_P r) (kk_Pinv r) (kk_PK r) (kk_Parent r) (kk_Sign r) v (kk_Flag r) (kk_Lnz r) (kk_delta r).
Definition set_kk_Flag {T} (r : kkt T) (v : arr nat) : kkt T :=
  mkKkt (kk_PKPt r) (kk_L r) (kk_D r) (kk_work1 r) (kk_work2 r) (kk_work3 r) (kk_work4 r) (kk_work5 r) (kk_work6 r) (kk_RHS1 r) (kk_RHS2 r) (kk_dx1 r) (kk_dx2 r) (kk_dy1 r) (kk_dy2 r) (kk_dz1 r) (kk_dz2 r) (kk_P r) (kk_Pinv r) (kk_PK r) (kk_Parent r) (kk_Sign r) (kk_Pattern r) v (kk_Lnz r) (kk_delta r).
Definition set_kk_Lnz {T} (r : kkt T) (v : arr nat) : kkt T :=
  mkKkt (kk_PKPt r) (kk_L r) (kk_D r) (kk_work1 r) (kk_work2 r) (kk_work3 r) (kk_work4 r) (kk_work5 r) (kk_work6 r) (kk_RHS1 r) (kk_RHS2 r) (kk_dx1 r) (kk_dx2 r) (kk_dy1 r) (kk_dy2 r) (kk_dz1 r) (kk_dz2 r) (kk_P r) (kk_Pinv r) (kk_PK r) (kk_Parent r) (kk_Sign r) (kk_Pattern r) (kk_Flag r) v (kk_delta r).
Definition set_kk_delta {T} (r : kkt T) (v : T) : kkt T :=
  mkKkt (kk_PKPt r) (kk_L r) (kk_D r) (kk_work1 r) (kk_work2 r) (kk_work3 r) (kk_work4 r) (kk_work5 r) (kk_work6 r) (kk_RHS1 r) (kk_RHS2 r) (kk_dx1 r) (kk_dx2 r) (kk_dy1 r) (kk_dy2 r) (kk_dz1 r) (kk_dz2 r) (kk_P r) (kk_Pinv r) (kk_PK r) (kk_Parent r) (kk_Sign r) (kk_Pattern r) (kk_Flag r) (kk_Lnz r) v.

(* include/ecos.h:121-170 struct stats, without the timing fields *)
Record stats (T : Type) := mkStats {
  st_pcost : T;
  st_dcost : T;
  st_pres : T;
  st_dres : T;
  st_pinf : T;
  st_dinf : T;
  st_pinfres : T;
  st_dinfres : T;
  st_gap : T;
  st_relgap : T;
  st_sigma : T;
  st_mu : T;
  st_step : T;
  st_step_aff : T;
  st_kapovert : T;
  st_iter : Z;
  st_nitref1 : Z;
  st_nitref2 : Z;
  st_nitref3 : Z;
  st_pob : Z;
  st_cb : Z;
  st_cob : Z;
  st_pb : Z;
  st_db : Z;
  st_affBack : Z;
  st_cmbBack : Z;
  st_centrality : T
}.
Arguments mkStats {T}.
Arguments st_pcost {T}.
Arguments st_dcost {T}.
Arguments st_pres {T}.
Arguments st_dres {T}.
Arguments st_pinf {T}.
Arguments st_dinf {T}.
Arguments st_pinfres {T}.
Arguments st_dinfres {T}.
Arguments st_gap {T}.
Arguments st_relgap {T}.
Arguments st_sigma {T}.
Arguments st_mu {T}.
Arguments st_step {T}.
Arguments st_step_aff {T}.
Arguments st_kapovert {T}.
Arguments st_iter {T}.
Arguments st_nitref1 {T}.
Arguments st_nitref2 {T}.
Arguments st_nitref3 {T}.
Arguments st_pob {T}.
Arguments st_cb {T}.
Arguments st_cob {T}.
Arguments st_pb {T}.
Arguments st_db {T}.
Arguments st_affBack {T}.
Arguments st_cmbBack {T}.
Arguments st_centrality {T}.
Definition set_st_pcost {T} (r : stats T) (v : T) : stats T :=
  mkStats v (st_dcost r) (st_pres r) (st_dres r) (st_pinf r) (st_dinf r) (st_pinfres r) (st_dinfres r) (st_gap r) (st_relgap r) (st_sigma r) (st_mu r) (st_step r) (st_step_aff r) (st_kapovert r) (st_iter r) (st_nitref1 r) (st_nitref2 r) (st_nitref3 r) (st_pob r) (st_cb r) (st_cob r) (st_pb r) (st_db r) (st_affBack r) (st_cmbBack r) (st_centrality r).
Definition set_st_dcost {T} (r : stats T) (v : T) : stats T :=
  mkStats (st_pcost r) v (st_pres r) (st_dres r) (st_pinf r) (st_dinf r) (st_pinfres r) (st_dinfres r) (st_gap r) (st_relgap r) (st_sigma r) (st_mu r) (st_step r) (st_step_aff r) (st_kapovert r) (st_iter r) (st_nitref1 r) (st_nitref2 r) (st_nitref3 r) (st_pob r) (st_cb r) (st_cob r) (st_pb r) (st_db r) (st_affBack r) (st_cmbBack r) (st_centrality r).
Definition set_st_pres {T} (r : stats T) (v : T) : stats T :=
  mkStats (st_pcost r) (st_dcost r) v (st_dres r) (st_pinf r) (st_dinf r) (st_pinfres r) (st_dinfres r) (st_gap r) (st_relgap r) (st_sigma r) (st_mu r) (st_step r) (st_step_aff r) (st_kapovert r) (st_iter r) (st_nitref1 r) (st_nitref2 r) (st_nitref3 r) (st_pob r) (st_cb r) (st_cob r) (st_pb r) (st_db r) (st_affBack r) (st_cmbBack r) (st_centrality r).
Definition set_st_dres {T} (r : stats T) (v : T) : stats T :=
  mkStats (st_pcost r) (st_dcost r) (st_pres r) v (st_pinf r) (st_dinf r) (st_pinfres r) (st_dinfres r) (st_gap r) (st_relgap r) (st_sigma r) (st_mu r) (st_step r) (st_step_aff r) (st_kapovert r) (st_iter r) (st_nitref1 r) (st_nitref2 r) (st_nitref3 r) (st_pob r) (st_cb r) (st_cob r) (st_pb r) (st_db r) (st_affBack r) (st_cmbBack r) (st_centrality r).
Definition set_st_pinf {T} (r : stats T) (v : T) : stats T :=
  mkStats (st_pcost r) (st_dcost r) (st_pres r) (st_dres r) v (st_dinf r) (st_pinfres r) (st_dinfres r) (st_gap r) (st_relgap r) (st_sigma r) (st_mu r) (st_step r) (st_step_aff r) (st_kapovert r) (st_iter r) (st_nitref1 r) (st_nitref2 r) (st_nitref3 r) (st_pob r) (st_cb r) (st_cob r) (st_pb r) (st_db r) (st_affBack r) (st_cmbBack r) (st_centrality r).
Definition set_st_dinf {T} (r : stats T) (v : T) : stats T :=
  mkStats (st_pcost r) (st_dcost r) (st_pres r) (st_dres r) (st_pinf r) v (st_pinfres r) (st_dinfres r) (st_gap r) (st_relgap r) (st_sigma r) (st_mu r) (st_step r) (st_step_aff r) (st_kapovert r) (st_iter r) (st_nitref1 r) (st_nitref2 r) (st_nitref3 r) (st_pob r) (st_cb r) (st_cob r) (st_pb r) (st_db r) (st_affBack r) (st_cmbBack r) (st_centrality r).
Definition set_st_pinfres {T} (r : stats T) (v : T) : stats T :=
  mkStats (st_pcost r) (st_dcost r) (st_pres r) (st_dres r) (st_pinf r) (st_dinf r) v (st_dinfres r) (st_gap r) (st_relgap r) (st_sigma r) (st_mu r) (st_step r) (st_step_aff r) (st_kapovert r) (st_iter r) (st_nitref1 r) (st_nitref2 r) (st_nitref3 r) (st_pob r) (st_cb r) (st_cob r) (st_pb r) (st_db r) (st_affBack r) (st_cmbBack r) (st_centrality r).
Definition set_st_dinfres {T} (r : stats T) (v : T) : stats T :=
  mkStats (st_pcost r) (st_dcost r) (st_pres r) (st_dres r) (st_pinf r) (st_dinf r) (st_pinfres r) v (st_gap r) (st_relgap r) (st_sigma r) (st_mu r) (st_step r) (st_step_aff r) (st_kapovert r) (st_iter r) (st_nitref1 r) (st_nitref2 r) (st_nitref3 r) (st_pob r) (st_cb r) (st_cob r) (st_pb r) (st_db r) (st_affBack r) (st_cmbBack r) (st_centrality r).
Definition set_st_gap {T} (r : stats T) (v : T) : stats T :=
  mkStats (st_pcost r) (st_dcost r) (st_pres r) (st_dres r) (st_pinf r) (st_dinf r) (st_pinfres r) (st_dinfres r) v (st_relgap r) (st_sigma r) (st_mu r) (st_step r) (st_step_aff r) (st_kapovert r) (st_iter r) (st_nitref1 r) (st_nitref2 r) (st_nitref3 r) (st_pob r) (st_cb r) (st_cob r) (st_pb r) (st_db r) (st_affBack r) (st_cmbBack r) (st_centrality r).
Definition set_st_relgap {T} (r : stats T) (v : T) : stats T :=
  mkStats (st_pcost r) (st_dcost r) (st_pres r) (st_dres r) (st_pinf r) (st_dinf r) (st_pinfres r) (st_dinfres r) (st_gap r) v (st_sigma r) (st_mu r) (st_step r) (st_step_aff r) (st_kapovert r) (st_iter r) (st_nitref1 r) (st_nitref2 r) (st_nitref3 r) (st_pob r) (st_cb r) (st_cob r) (st_pb r) (st_db r) (st_affBack r) (st_cmbBack r) (st_centrality r).
Definition set_st_sigma {T} (r : stats T) (v : T) : stats T :=
  mkStats (st_pcost r) (st_dcost r) (st_pres r) (st_dres r) (st_pinf r) (st_dinf r) (st_pinfres r) (st_dinfres r) (st_gap r) (st_relgap r) v (st_mu r) (st_step r) (st_step_aff r) (st_kapovert r) (st_iter r) (st_nitref1 r) (st_nitref2 r) (st_nitref3 r) (st_pob r) (st_cb r) (st_cob r) (st_pb r) (st_db r) (st_affBack r) (st_cmbBack r) (st_centrality r).
Definition set_st_mu {T} (r : stats T) (v : T) : stats T :=
  mkStats (st_pcost r) (st_dcost r) (st_pres r) (st_dres r) (st_pinf r) (st_dinf r) (st_pinfres r) (st_dinfres r) (st_gap r) (st_relgap r) (st_sigma r) v (st_step r) (st_step_aff r) (st_kapovert r) (st_iter r) (st_nitref1 r) (st_nitref2 r) (st_nitref3 r) (st_pob r) (st_cb r) (st_cob r) (st_pb r) (st_db r) (st_affBack r) (st_cmbBack r) (st_centrality r).
Definition set_st_step {T} (r : stats T) (v : T) : stats T :=
  mkStats (st_pcost r) (st_dcost r) (st_pres r) (st_dres r) (st_pinf r) (st_dinf r) (st_pinfres r) (st_dinfres r) (st_gap r) (st_relgap r) (st_sigma r) (st_mu r) v (st_step_aff r) (st_kapovert r) (st_iter r) (st_nitref1 r) (st_nitref2 r) (st_nitref3 r) (st_pob r) (st_cb r) (st_cob r) (st_pb r) (st_db r) (st_affBack r) (st_cmbBack r) (st_centrality r).
Definition set_st_step_aff {T} (r : stats T) (v : T) : stats T :=
  mkStats (st_pcost r) (st_dcost r) (st_pres r) (st_dres r) (st_pinf r) (st_dinf r) (st_pinfres r) (st_dinfres r) (st_gap r) (st_relgap r) (st_sigma r) (st_mu r) (st_step r) v (st_kapovert r) (st_iter r) (st_nitref1 r) (st_nitref2 r) (st_nitref3 r) (st_pob r) (st_cb r) (st_cob r) (st_pb r) (st_db r) (st_affBack r) (st_cmbBack r) (st_centrality r).
Definition set_st_kapovert {T} (r : stats T) (v : T) : stats T :=
  mkStats (st_pcost r) (st_dcost r) (st_pres r) (st_dres r) (st_pinf r) (st_dinf r) (st_pinfres r) (st_dinfres r) (st_gap r) (st_relgap r) (st_sigma r) (st_mu r) (st_step r) (st_step_aff r) v (st_iter r) (st_nitref1 r) (st_nitref2 r) (st_nitref3 r) (st_pob r) (st_cb r) (st_cob r) (st_pb r) (st_db r) (st_affBack r) (st_cmbBack r) (st_centrality r).
Definition set_st_iter {T} (r : stats T) (v : Z) : stats T :=
  mkStats (st_pcost r) (st_dcost r) (st_pres r) (st_dres r) (st_pinf r) (st_dinf r) (st_pinfres r) (st_dinfres r) (st_gap r) (st_relgap r) (st_sigma r) (st_mu r) (st_step r) (st_step_aff r) (st_kapovert r) v (st_nitref1 r) (st_nitref2 r) (st_nitref3 r) (st_pob r) (st_cb r) (st_cob r) (st_pb r) (st_db r) (st_affBack r) (st_cmbBack r) (st_centrality r).
Definition set_st_nitref1 {T} (r : stats T) (v : Z) : stats T :=
  mkStats (st_pcost r) (st_dcost r) (st_pres r) (st_dres r) (st_pinf r) (st_dinf r) (st_pinfres r) (st_dinfres r) (st_gap r) (st_relgap r) (st_sigma r) (st_mu r) (st_step r) (st_step_aff r) (st_kapovert r) (st_iter r) v (st_nitref2 r) (st_nitref3 r) (st_pob r) (st_cb r) (st_cob r) (st_pb r) (st_db r) (st_affBack r) (st_cmbBack r) (st_centrality r).
Definition set_st_nitref2 {T} (r : stats T) (v : Z) : stats T :=
  mkStats (st_pcost r) (st_dcost r) (st_pres r) (st_dres r) (st_pinf r) (st_dinf r) (st_pinfres r) (st_dinfres r) (st_gap r) (st_relgap r) (st_sigma r) (st_mu r) (st_step r) (st_step_aff r) (st_kapovert r) (st_iter r) (st_nitref1 r) v (st_nitref3 r) (st_pob r) (st_cb r) (st_cob r) (st_pb r) (st_db r) (st_affBack r) (st_cmbBack r) (st_centrality r).
Definition set_st_nitref3 {T} (r : stats T) (v : Z) : stats T :=
  mkStats (st_pcost r) (st_dcost r) (st_pres r) (st_dres r) (st_pinf r) (st_dinf r) (st_pinfres r) (st_dinfres r) (st_gap r) (st_relgap r) (st_sigma r) (st_mu r) (st_step r) (st_step_aff r) (st_kapovert r) (st_iter r) (st_nitref1 r) (st_nitref2 r) v (st_pob r) (st_cb r) (st_cob r) (st_pb r) (st_db r) (st_affBack r) (st_cmbBack r) (st_centrality r).
Definition set_st_pob {T} (r : stats T) (v : Z) : stats T :=
  mkStats (st_pcost r) (st_dcost r) (st_pres r) (st_dres r) (st_pinf r) (st_dinf r) (st_pinfres r) (st_dinfres r) (st_gap r) (st_relgap r) (st_sigma r) (st_mu r) (st_step r) (st_step_aff r) (st_kapovert r) (st_iter r) (st_nitref1 r) (st_nitref2 r) (st_nitref3 r) v (st_cb r) (st_cob r) (st_pb r) (st_db r) (st_affBack r) (st_cmbBack r) (st_centrality r).
Definition set_st_cb {T} (r : stats T) (v : Z) : stats T :=
  mkStats (st_pcost r) (st_dcost r) (st_pres r) (st_dres r) (st_pinf r) (st_dinf r) (st_pinfres r) (st_dinfres r) (st_gap r) (st_relgap r) (st_sigma r) (st_mu r) (st_step r) (st_step_aff r) (st_kapovert r) (st_iter r) (st_nitref1 r) (st_nitref2 r) (st_nitref3 r) (st_pob r) v (st_cob r) (st_pb r) (st_db r) (st_affBack r) (st_cmbBack r) (st_centrality r).
Definition set_st_cob {T} (r : stats T) (v : Z) : stats T :=
  mkStats (st_pcost r) (st_dcost r) (st_pres r) (st_dres r) (st_pinf r) (st_dinf r) (st_pinfres r) (st_dinfres r) (st_gap r) (st_relgap r) (st_sigma r) (st_mu r) (st_step r) (st_step_aff r) (st_kapovert r) (st_iter r) (st_nitref1 r) (st_nitref2 r) (st_nitref3 r) (st_pob r) (st_cb r) v (st_pb r) (st_db r) (st_affBack r) (st_cmbBack r) (st_centrality r).
Definition set_st_pb {T} (r : stats T) (v : Z) : stats T :=
  mkStats (st_pcost r) (st_dcost r) (st_pres r) (st_dres r) (st_pinf r) (st_dinf r) (st_pinfres r) (st_dinfres r) (st_gap r) (st_relgap r) (st_sigma r) (st_mu r) (st_step r) (st_step_aff r) (st_kapovert r) (st_iter r) (st_nitref1 r) (st_nitref2 r) (st_nitref3 r) (st_pob r) (st_cb r) (st_cob r) v (st_db r) (st_affBack r) (st_cmbBack r) (st_centrality r).
Definition set_st_db {T} (r : stats T) (v : Z) : stats T :=
  mkStats (st_pcost r) (st_dcost r) (st_pres r) (st_dres r) (st_pinf r) (st_dinf r) (st_pinfres r) (st_dinfres r) (st_gap r) (st_relgap r) (st_sigma r) (st_mu r) (st_step r) (st_step_aff r) (st_kapovert r) (st_iter r) (st_nitref1 r) (st_nitref2 r) (st_nitref3 r) (st_pob r) (st_cb r) (st_cob r) (st_pb r) v (st_affBack r) (st_cmbBack r) (st_centrality r).
Definition set_st_affBack {T} (r : stats T) (v : Z) : stats T :=
  mkStats (st_pcost r) (st_dcost r) (st_pres r) (st_dres r) (st_pinf r) (st_dinf r) (st_pinfres r) (st_dinfres r) (st_gap r) (st_relgap r) (st_sigma r) (st_mu r) (st_step r) (st_step_aff r) (st_kapovert r) (st_iter r) (st_nitref1 r) (st_nitref2 r) (st_nitref3 r) (st_pob r) (st_cb r) (st_cob r) (st_pb r) (st_db r) v (st_cmbBack r) (st_centrality r).
Definition set_st_cmbBack {T} (r : stats T) (v : Z) : stats T :=
  mkStats (st_pcost r) (st_dcost r) (st_pres r) (st_dres r) (st_pinf r) (st_dinf r) (st_pinfres r) (st_dinfres r) (st_gap r) (st_relgap r) (st_sigma r) (st_mu r) (st_step r) (st_step_aff r) (st_kapovert r) (st_iter r) (st_nitref1 r) (st_nitref2 r) (st_nitref3 r) (st_pob r) (st_cb r) (st_cob r) (st_pb r) (st_db r) (st_affBack r) v (st_centrality r).
Definition set_st_centrality {T} (r : stats T) (v : T) : stats T :=
  mkStats (st_pcost r) (st_dcost r) (st_pres r) (st_dres r) (st_pinf r) (st_dinf r) (st_pinfres r) (st_dinfres r) (st_gap r) (st_relgap r) (st_sigma r) (st_mu r) (st_step r) (st_step_aff r) (st_kapovert r) (st_iter r) (st_nitref1 r) (st_nitref2 r) (st_nitref3 r) (st_pob r) (st_cb r) (st_cob r) (st_pb r) (st_db r) (st_affBack r) (st_cmbBack r) v.

(* include/ecos.h:99-117 struct settings, without verbose *)
Record settings (T : Type) := mkStgs {
  sg_gamma : T;
  sg_delta : T;
  sg_eps : T;
  sg_feastol : T;
  sg_abstol : T;
  sg_reltol : T;
  sg_feastol_inacc : T;
  sg_abstol_inacc : T;
  sg_reltol_inacc : T;
  sg_nitref : Z;
  sg_maxit : Z;
  sg_max_bk_iter : Z;
  sg_bk_scale : T;
  sg_centrality : T
}.
Arguments mkStgs {T}.
Arguments sg_gamma {T}.
Arguments sg_delta {T}.
Arguments sg_eps {T}.
Arguments sg_feastol {T}.
Arguments sg_abstol {T}.
Arguments sg_reltol {T}.
Arguments sg_feastol_inacc {T}.
Arguments sg_abstol_inacc {T}.
Arguments sg_reltol_inacc {T}.
Arguments sg_nitref {T}.
Arguments sg_maxit {T}.
Arguments sg_max_bk_iter {T}.
Arguments sg_bk_scale {T}.
Arguments sg_centrality {T}.
Definition set_sg_gamma {T} (r : settings T) (v : T) : settings T :=
  mkStgs v (sg_delta r) (sg_eps r) (sg_feastol r) (sg_abstol r) (sg_reltol r) (sg_feastol_inacc r) (sg_abstol_inacc r) (sg_reltol_inacc r) (sg_nitref r) (sg_maxit r) (sg_max_bk_iter r) (sg_bk_scale r) (sg_centrality r).
Definition set_sg_delta {T} (r : settings T) (v : T) : settings T :=
  mkStgs (sg_gamma r) v (sg_eps r) (sg_feastol r) (sg_abstol r) (sg_reltol r) (sg_feastol_inacc r) (sg_abstol_inacc r) (sg_reltol_inacc r) (sg_nitref r) (sg_maxit r) (sg_max_bk_iter r) (sg_bk_scale r) (sg_centrality r).
Definition set_sg_eps {T} (r : settings T) (v : T) : settings T :=
  mkStgs (sg_gamma r) (sg_delta r) v (sg_feastol r) (sg_abstol r) (sg_reltol r) (sg_feastol_inacc r) (sg_abstol_inacc r) (sg_reltol_inacc r) (sg_nitref r) (sg_maxit r) (sg_max_bk_iter r) (sg_bk_scale r) (sg_centrality r).
Definition set_sg_feastol {T} (r : settings T) (v : T) : settings T :=
  mkStgs (sg_gamma r) (sg_delta r) (sg_eps r) v (sg_abstol r) (sg_reltol r) (sg_feastol_inacc r) (sg_abstol_inacc r) (sg_reltol_inacc r) (sg_nitref r) (sg_maxit r) (sg_max_bk_iter r) (sg_bk_scale r) (sg_centrality r).
Definition set_sg_abstol {T} (r : settings T) (v : T) : settings T :=
  mkStgs (sg_gamma r) (sg_delta r) (sg_eps r) (sg_feastol r) v (sg_reltol r) (sg_feastol_inacc r) (sg_abstol_inacc r) (sg_reltol_inacc r) (sg_nitref r) (sg_maxit r) (sg_max_bk_iter r) (sg_bk_scale r) (sg_centrality r).
Definition set_sg_reltol {T} (r : settings T) (v : T) : settings T :=
  mkStgs (sg_gamma r) (sg_delta r) (sg_eps r) (sg_feastol r) (sg_abstol r) v (sg_feastol_inacc r) (sg_abstol_inacc r) (sg_reltol_inacc r) (sg_nitref r) (sg_maxit r) (sg_max_bk_iter r) (sg_bk_scale r) (sg_centrality r).
Definition set_sg_feastol_inacc {T} (r : settings T) (v : T) : settings T :=
  mkStgs (sg_gamma r) (sg_delta r) (sg_eps r) (sg_feastol r) (sg_abstol r) (sg_reltol r) v (sg_abstol_inacc r) (sg_reltol_inacc r) (sg_nitref r) (sg_maxit r) (sg_max_bk_iter r) (sg_bk_scale r) (sg_centrality r).
Definition set_sg_abstol_inacc {T} (r : settings T) (v : T) : settings T :=
  mkStgs (sg_gamma r) (sg_delta r) (sg_eps r) (sg_feastol r) (sg_abstol r) (sg_reltol r) (sg_feastol_inacc r) v (sg_reltol_inacc r) (sg_nitref r) (sg_maxit r) (sg_max_bk_iter r) (sg_bk_scale r) (sg_centrality r).
Definition set_sg_reltol_inacc {T} (r : settings T) (v : T) : settings T :=
  mkStgs (sg_gamma r) (sg_delta r) (sg_eps r) (sg_feastol r) (sg_abstol r) (sg_reltol r) (sg_feastol_inacc r) (sg_abstol_inacc r) v (sg_nitref r) (sg_maxit r) (sg_max_bk_iter r) (sg_bk_scale r) (sg_centrality r).
Definition set_sg_nitref {T} (r : settings T) (v : Z) : settings T :=
  mkStgs (sg_gamma r) (sg_delta r) (sg_eps r) (sg_feastol r) (sg_abstol r) (sg_reltol r) (sg_feastol_inacc r) (sg_abstol_inacc r) (sg_reltol_inacc r) v (sg_maxit r) (sg_max_bk_iter r) (sg_bk_scale r) (sg_centrality r).
Definition set_sg_maxit {T} (r : settings T) (v : Z) : settings T :=
  mkStgs (sg_gamma r) (sg_delta r) (sg_eps r) (sg_feastol r) (sg_abstol r) (sg_reltol r) (sg_feastol_inacc r) (sg_abstol_inacc r) (sg_reltol_inacc r) (sg_nitref r) v (sg_max_bk_iter r) (sg_bk_scale r) (sg_centrality r).
Definition set_sg_max_bk_iter {T} (r : settings T) (v : Z) : settings T :=
  mkStgs (sg_gamma r) (sg_delta r) (sg_eps r) (sg_feastol r) (sg_abstol r) (sg_reltol r) (sg_feastol_inacc r) (sg_abstol_inacc r) (sg_reltol_inacc r) (sg_nitref r) (sg_maxit r) v (sg_bk_scale r) (sg_centrality r).
Definition set_sg_bk_scale {T} (r : settings T) (v : T) : settings T :=
  mkStgs (sg_gamma r) (sg_delta r) (sg_eps r) (sg_feastol r) (sg_abstol r) (sg_reltol r) (sg_feastol_inacc r) (sg_abstol_inacc r) (sg_reltol_inacc r) (sg_nitref r) (sg_maxit r) (sg_max_bk_iter r) v (sg_centrality r).
Definition set_sg_centrality {T} (r : settings T) (v : T) : settings T :=
  mkStgs (sg_gamma r) (sg_delta r) (sg_eps r) (sg_feastol r) (sg_abstol r) (sg_reltol r) (sg_feastol_inacc r) (sg_abstol_inacc r) (sg_reltol_inacc r) (sg_nitref r) (sg_maxit r) (sg_max_bk_iter r) (sg_bk_scale r) v.

(* include/ecos.h:196-201: best_kap, best_tau, best_cx, best_by, best_hz and the
   fields of best_info that saveIterateAsBest assigns.  They are only ever
   assigned together. *)
Record best (T : Type) := mkBest {
  be_kap : T;
  be_tau : T;
  be_cx : T;
  be_by : T;
  be_hz : T;
  be_pcost : T;
  be_dcost : T;
  be_pres : T;
  be_dres : T;
  be_pinfres : T;
  be_dinfres : T;
  be_gap : T;
  be_relgap : T;
  be_mu : T;
  be_kapovert : T;
  be_iter : Z
}.
Arguments mkBest {T}.
Arguments be_kap {T}.
Arguments be_tau {T}.
Arguments be_cx {T}.
Arguments be_by {T}.
Arguments be_hz {T}.
Arguments be_pcost {T}.
Arguments be_dcost {T}.
Arguments be_pres {T}.
Arguments be_dres {T}.
Arguments be_pinfres {T}.
Arguments be_dinfres {T}.
Arguments be_gap {T}.
Arguments be_relgap {T}.
Arguments be_mu {T}.
Arguments be_kapovert {T}.
Arguments be_iter {T}.
Definition set_be_kap {T} (r : best T) (v : T) : best T :=
  mkBest v (be_tau r) (be_cx r) (be_by r) (be_hz r) (be_pcost r) (be_dcost r) (be_pres r) (be_dres r) (be_pinfres r) (be_dinfres r) (be_gap r) (be_relgap r) (be_mu r) (be_kapovert r) (be_iter r).
Definition set_be_tau {T} (r : best T) (v : T) : best T :=
  mkBest (be_kap r) v (be_cx r) (be_by r) (be_hz r) (be_pcost r) (be_dcost r) (be_pres r) (be_dres r) (be_pinfres r) (be_dinfres r) (be_gap r) (be_relgap r) (be_mu r) (be_kapovert r) (be_iter r).
Definition set_be_cx {T} (r : best T) (v : T) : best T :=
  mkBest (be_kap r) (be_tau r) v (be_by r) (be_hz r) (be_pcost r) (be_dcost r) (be_pres r) (be_dres r) (be_pinfres r) (be_dinfres r) (be_gap r) (be_relgap r) (be_mu r) (be_kapovert r) (be_iter r).
Definition set_be_by {T} (r : best T) (v : T) : best T :=
  mkBest (be_kap r) (be_tau r) (be_cx r) v (be_hz r) (be_pcost r) (be_dcost r) (be_pres r) (be_dres r) (be_pinfres r) (be_dinfres r) (be_gap r) (be_relgap r) (be_mu r) (be_kapovert r) (be_iter r).
Definition set_be_hz {T} (r : best T) (v : T) : best T :=
  mkBest (be_kap r) (be_tau r) (be_cx r) (be_by r) v (be_pcost r) (be_dcost r) (be_pres r) (be_dres r) (be_pinfres r) (be_dinfres r) (be_gap r) (be_relgap r) (be_mu r) (be_kapovert r) (be_iter r).
Definition set_be_pcost {T} (r : best T) (v : T) : best T :=
  mkBest (be_kap r) (be_tau r) (be_cx r) (be_by r) (be_hz r) v (be_dcost r) (be_pres r) (be_dres r) (be_pinfres r) (be_dinfres r) (be_gap r) (be_relgap r) (be_mu r) (be_kapovert r) (be_iter r).
Definition set_be_dcost {T} (r : best T) (v : T) : best T :=
  mkBest (be_kap r) (be_tau r) (be_cx r) (be_by r) (be_hz r) (be_pcost r) v (be_pres r) (be_dres r) (be_pinfres r) (be_dinfres r) (be_gap r) (be_relgap r) (be_mu r) (be_kapovert r) (be_iter r).
Definition set_be_pres {T} (r : best T) (v : T) : best T :=
  mkBest (be_kap r) (be_tau r) (be_cx r) (be_by r) (be_hz r) (be_pcost r) (be_dcost r) v (be_dres r) (be_pinfres r) (be_dinfres r) (be_gap r) (be_relgap r) (be_mu r) (be_kapovert r) (be_iter r).
Definition set_be_dres {T} (r : best T) (v : T) : best T :=
  mkBest (be_kap r) (be_tau r) (be_cx r) (be_by r) (be_hz r) (be_pcost r) (be_dcost r) (be_pres r) v (be_pinfres r) (be_dinfres r) (be_gap r) (be_relgap r) (be_mu r) (be_kapovert r) (be_iter r).
Definition set_be_pinfres {T} (r : best T) (v : T) : best T :=
  mkBest (be_kap r) (be_tau r) (be_cx r) (be_by r) (be_hz r) (be_pcost r) (be_dcost r) (be_pres r) (be_dres r) v (be_dinfres r) (be_gap r) (be_relgap r) (be_mu r) (be_kapovert r) (be_iter r).
Definition set_be_dinfres {T} (r : best T) (v : T) : best T :=
  mkBest (be_kap r) (be_tau r) (be_cx r) (be_by r) (be_hz r) (be_pcost r) (be_dcost r) (be_pres r) (be_dres r) (be_pinfres r) v (be_gap r) (be_relgap r) (be_mu r) (be_kapovert r) (be_iter r).
Definition set_be_gap {T} (r : best T) (v : T) : best T :=
  mkBest (be_kap r) (be_tau r) (be_cx r) (be_by r) (be_hz r) (be_pcost r) (be_dcost r) (be_pres r) (be_dres r) (be_pinfres r) (be_dinfres r) v (be_relgap r) (be_mu r) (be_kapovert r) (be_iter r).
Definition set_be_relgap {T} (r : best T) (v : T) : best T :=
  mkBest (be_kap r) (be_tau r) (be_cx r) (be_by r) (be_hz r) (be_pcost r) (be_dcost r) (be_pres r) (be_dres r) (be_pinfres r) (be_dinfres r) (be_gap r) v (be_mu r) (be_kapovert r) (be_iter r).
Definition set_be_mu {T} (r : best T) (v : T) : best T :=
  mkBest (be_kap r) (be_tau r) (be_cx r) (be_by r) (be_hz r) (be_pcost r) (be_dcost r) (be_pres r) (be_dres r) (be_pinfres r) (be_dinfres r) (be_gap r) (be_relgap r) v (be_kapovert r) (be_iter r).
Definition set_be_kapovert {T} (r : best T) (v : T) : best T :=
  mkBest (be_kap r) (be_tau r) (be_cx r) (be_by r) (be_hz r) (be_pcost r) (be_dcost r) (be_pres r) (be_dres r) (be_pinfres r) (be_dinfres r) (be_gap r) (be_relgap r) (be_mu r) v (be_iter r).
Definition set_be_iter {T} (r : best T) (v : Z) : best T :=
  mkBest (be_kap r) (be_tau r) (be_cx r) (be_by r) (be_hz r) (be_pcost r) (be_dcost r) (be_pres r) (be_dres r) (be_pinfres r) (be_dinfres r) (be_gap r) (be_relgap r) (be_mu r) (be_kapovert r) v.

(* include/ecos.h:174-249 struct pwork, without the never used dzaff, saff,
   zaff and sz.  [w_best] is None until the first saveIterateAsBest: the
   struct is malloc'ed and its fields indeterminate.  ry is set to NULL by
   computeResiduals when p = 0; here it is an array of length p either way. *)
Record pwork (T : Type) := mkW {
  w_n : nat;
  w_m : nat;
  w_p : nat;
  w_D : nat;
  w_x : arr T;
  w_y : arr T;
  w_z : arr T;
  w_s : arr T;
  w_lambda : arr T;
  w_kap : T;
  w_tau : T;
  w_best_x : arr T;
  w_best_y : arr T;
  w_best_z : arr T;
  w_best_s : arr T;
  w_best : option (best T);
  w_dsaff : arr T;
  w_W_times_dzaff : arr T;
  w_dsaff_by_W : arr T;
  w_C : cone T;
  w_A : option (spmat T);
  w_G : spmat T;
  w_c : arr T;
  w_b : arr T;
  w_h : arr T;
  w_AtoK : arr nat;
  w_GtoK : arr nat;
  w_xequil : arr T;
  w_Aequil : arr T;
  w_Gequil : arr T;
  w_resx0 : T;
  w_resy0 : T;
  w_resz0 : T;
  w_rx : arr T;
  w_ry : arr T;
  w_rz : arr T;
  w_rt : T;
  w_hresx : T;
  w_hresy : T;
  w_hresz : T;
  w_nx : T;
  w_ny : T;
  w_nz : T;
  w_ns : T;
  w_cx : T;
  w_by : T;
  w_hz : T;
  w_KKT : kkt T;
  w_info : stats T;
  w_stgs : settings T
}.
Arguments mkW {T}.
Arguments w_n {T}.
Arguments w_m {T}.
Arguments w_p {T}.
Arguments w_D {T}.
Arguments w_x {T}.
Arguments w_y {T}.
Arguments w_z {T}.
Arguments w_s {T}.
Arguments w_lambda {T}.
Arguments w_kap {T}.
Arguments w_tau {T}.
Arguments w_best_x {T}.
Arguments w_best_y {T}.
Arguments w_best_z {T}.
Arguments w_best_s {T}.
Arguments w_best {T}.
Arguments w_dsaff {T}.
Arguments w_W_times_dzaff {T}.
Arguments w_dsaff_by_W {T}.
Arguments w_C {T}.
Arguments w_A {T}.
Arguments w_G {T}.
Arguments w_c {T}.
Arguments w_b {T}.
Arguments w_h {T}.
Arguments w_AtoK {T}.
Arguments w_GtoK {T}.
Arguments w_xequil {T}.
Arguments w_Aequil {T}.
Arguments w_Gequil {T}.
Arguments w_resx0 {T}.
Arguments w_resy0 {T}.
Arguments w_resz0 {T}.
Arguments w_rx {T}.
Arguments w_ry {T}.
Arguments w_rz {T}.
Arguments w_rt {T}.
Arguments w_hresx {T}.
Arguments w_hresy {T}.
Arguments w_hresz {T}.
Arguments w_nx {T}.
Arguments w_ny {T}.
Arguments w_nz {T}.
Arguments w_ns {T}.
Arguments w_cx {T}.
Arguments w_by {T}.
Arguments w_hz {T}.
Arguments w_KKT {T}.
Arguments w_info {T}.
Arguments w_stgs {T}.
Definition set_w_n {T} (r : pwork T) (v : nat) : pwork T :=
  mkW v (w_m r) (w_p r) (w_D r) (w_x r) (w_y r) (w_z r) (w_s r) (w_lambda r) (w_kap r) (w_tau r) (w_best_x r) (w_best_y r) (w_best_z r) (w_best_s r) (w_best r) (w_dsaff r) (w_W_times_dzaff r) (w_dsaff_by_W r) (w_C r) (w_A r) (w_G r) (w_c r) (w_b r) (w_h r) (w_AtoK r) (w_GtoK r) (w_xequil r) (w_Aequil r) (w_Gequil r) (w_resx0 r) (w_resy0 r) (w_resz0 r) (w_rx r) (w_ry r) (w_rz r) (w_rt r) (w_hresx r) (w_hresy r) (w_hresz r) (w_nx r) (w_ny r) (w_nz r) (w_ns r) (w_cx r) (w_by r) (w_hz r) (w_KKT r) (w_info r) (w_stgs r).
Definition set_w_m {T} (r : pwork T) (v : nat) : pwork T :=
  mkW (w_n r) v (w_p r) (w_D r) (w_x r) (w_y r) (w_z r) (w_s r) (w_lambda r) (w_kap r) (w_tau r) (w_best_x r) (w_best_y r) (w_best_z r) (w_best_s r) (w_best r) (w_dsaff r) (w_W_times_dzaff r) (w_dsaff_by_W r) (w_C r) (w_A r) (w_G r) (w_c r) (w_b r) (w_h r) (w_AtoK r) (w_GtoK r) (w_xequil r) (w_Aequil r) (w_Gequil r) (w_resx0 r) (w_resy0 r) (w_resz0 r) (w_rx r) (w_ry r) (w_rz r) (w_rt r) (w_hresx r) (w_hresy r) (w_hresz r) (w_nx r) (w_ny r) (w_nz r) (w_ns r) (w_cx r) (w_by r) (w_hz r) (w_KKT r) (w_info r) (w_stgs r).
Definition set_w_p {T} (r : pwork T) (v : nat) : pwork T :=
  mkW (w_n r) (w_m r) v (w_D r) (w_x r) (w_y r) (w_z r) (w_s r) (w_lambda r) (w_kap r) (w_tau r) (w_best_x r) (w_best_y r) (w_best_z r) (w_best_s r) (w_best r) (w_dsaff r) (w_W_times_dzaff r) (w_dsaff_by_W r) (w_C r) (w_A r) (w_G r) (w_c r) (w_b r) (w_h r) (w_AtoK r) (w_GtoK r) (w_xequil r) (w_Aequil r) (w_Gequil r) (w_resx0 r) (w_resy0 r) (w_resz0 r) (w_rx r) (w_ry r) (w_rz r) (w_rt r) (w_hresx r) (w_hresy r) (w_hresz r) (w_nx r) (w_ny r) (w_nz r) (w_ns r) (w_cx r) (w_by r) (w_hz r) (w_KKT r) (w_info r) (w_stgs r).
Definition set_w_D {T} (r : pwork T) (v : nat) : pwork T :=
  mkW (w_n r) (w_m r) (w_p r) v (w_x r) (w_y r) (w_z r) (w_s r) (w_lambda r) (w_kap r) (w_tau r) (w_best_x r) (w_best_y r) (w_best_z r) (w_best_s r) (w_best r) (w_dsaff r) (w_W_times_dzaff r) (w_dsaff_by_W r) (w_C r) (w_A r) (w_G r) (w_c r) (w_b r) (w_h r) (w_AtoK r) (w_GtoK r) (w_xequil r) (w_Aequil r) (w_Gequil r) (w_resx0 r) (w_resy0 r) (w_resz0 r) (w_rx r) (w_ry r) (w_rz r) (w_rt r) (w_hresx r) (w_hresy r) (w_hresz r) (w_nx r) (w_ny r) (w_nz r) (w_ns r) (w_cx r) (w_by r) (w_hz r) (w_KKT r) (w_info r) (w_stgs r).
Definition set_w_x {T} (r : pwork T) (v : arr T) : pwork T :=
  mkW (w_n r) (w_m r) (w_p r) (w_D r) v (w_y r) (w_z r) (w_s r) (w_lambda r) (w_kap r) (w_tau r) (w_best_x r) (w_best_y r) (w_best_z r) (w_best_s r) (w_best r) (w_dsaff r) (w_W_times_dzaff r) (w_dsaff_by_W r) (w_C r) (w_A r) (w_G r) (w_c r) (w_b r) (w_h r) (w_AtoK r) (w_GtoK r) (w_xequil r) (w_Aequil r) (w_Gequil r) (w_resx0 r) (w_resy0 r) (w_resz0 r) (w_rx r) (w_ry r) (w_rz r) (w_rt r) (w_hresx r) (w_hresy r) (w_hresz r) (w_nx r) (w_ny r) (w_nz r) (w_ns r) (w_cx r) (w_by r) (w_hz r) (w_KKT r) (w_info r) (w_stgs r).
Definition set_w_y {T} (r : pwork T) (v : arr T) : pwork T :=
  mkW (w_n r) (w_m r) (w_p r) (w_D r) (w_x r) v (w_z r) (w_s r) (w_lambda r) (w_kap r) (w_tau r) (w_best_x r) (w_best_y r) (w_best_z r) (w_best_s r) (w_best r) (w_dsaff r) (w_W_times_dzaff r) (w_dsaff_by_W r) (w_C r) (w_A r) (w_G r) (w_c r) (w_b r) (w_h r) (w_AtoK r) (w_GtoK r) (w_xequil r) (w_Aequil r) (w_Gequil r) (w_resx0 r) (w_resy0 r) (w_resz0 r) (w_rx r) (w_ry r) (w_rz r) (w_rt r) (w_hresx r) (w_hresy r) (w_hresz r) (w_nx r) (w_ny r) (w_nz r) (w_ns r) (w_cx r) (w_by r) (w_hz r) (w_KKT r) (w_info r) (w_stgs r).
Definition set_w_z {T} (r : pwork T) (v : arr T) : pwork T :=
  mkW (w_n r) (w_m r) (w_p r) (w_D r) (w_x r) (w_y r) v (w_s r) (w_lambda r) (w_kap r) (w_tau r) (w_best_x r) (w_best_y r) (w_best_z r) (w_best_s r) (w_best r) (w_dsaff r) (w_W_times_dzaff r) (w_dsaff_by_W r) (w_C r) (w_A r) (w_G r) (w_c r) (w_b r) (w_h r) (w_AtoK r) (w_GtoK r) (w_xequil r) (w_Aequil r) (w_Gequil r) (w_resx0 r) (w_resy0 r) (w_resz0 r) (w_rx r) (w_ry r) (w_rz r) (w_rt r) (w_hresx r) (w_hresy r) (w_hresz r) (w_nx r) (w_ny r) (w_nz r) (w_ns r) (w_cx r) (w_by r) (w_hz r) (w_KKT r) (w_info r) (w_stgs r).
Definition set_w_s {T} (r : pwork T) (v : arr T) : pwork T :=
  mkW (w_n r) (w_m r) (w_p r) (w_D r) (w_x r) (w_y r) (w_z r) v (w_lambda r) (w_kap r) (w_tau r) (w_best_x r) (w_best_y r) (w_best_z r) (w_best_s r) (w_best r) (w_dsaff r) (w_W_times_dzaff r) (w_dsaff_by_W r) (w_C r) (w_A r) (w_G r) (w_c r) (w_b r) (w_h r) (w_AtoK r) (w_GtoK r) (w_xequil r) (w_Aequil r) (w_Gequil r) (w_resx0 r) (w_resy0 r) (w_resz0 r) (w_rx r) (w_ry r) (w_rz r) (w_rt r) (w_hresx r) (w_hresy r) (w_hresz r) (w_nx r) (w_ny r) (w_nz r) (w_ns r) (w_cx r) (w_by r) (w_hz r) (w_KKT r) (w_info r) (w_stgs r).
Definition set_w_lambda {T} (r : pwork T) (v : arr T) : pwork T :=
  mkW (w_n r) (w_m r) (w_p r) (w_D r) (w_x r) (w_y r) (w_z r) (w_s r) v (w_kap r) (w_tau r) (w_best_x r) (w_best_y r) (w_best_z r) (w_best_s r) (w_best r) (w_dsaff r) (w_W_times_dzaff r) (w_dsaff_by_W r) (w_C r) (w_A r) (w_G r) (w_c r) (w_b r) (w_h r) (w_AtoK r) (w_GtoK r) (w_xequil r) (w_Aequil r) (w_Gequil r) (w_resx0 r) (w_resy0 r) (w_resz0 r) (w_rx r) (w_ry r) (w_rz r) (w_rt r) (w_hresx r) (w_hresy r) (w_hresz r) (w_nx r) (w_ny r) (w_nz r) (w_ns r) (w_cx r) (w_by r) (w_hz r) (w_KKT r) (w_info r) (w_stgs r).
Definition set_w_kap {T} (r : pwork T) (v : T) : pwork T :=
  mkW (w_n r) (w_m r) (w_p r) (w_D r) (w_x r) (w_y r) (w_z r) (w_s r) (w_lambda r) v (w_tau r) (w_best_x r) (w_best_y r) (w_best_z r) (w_best_s r) (w_best r) (w_dsaff r) (w_W_times_dzaff r) (w_dsaff_by_W r) (w_C r) (w_A r) (w_G r) (w_c r) (w_b r) (w_h r) (w_AtoK r) (w_GtoK r) (w_xequil r) (w_Aequil r) (w_Gequil r) (w_resx0 r) (w_resy0 r) (w_resz0 r) (w_rx r) (w_ry r) (w_rz r) (w_rt r) (w_hresx r) (w_hresy r) (w_hresz r) (w_nx r) (w_ny r) (w_nz r) (w_ns r) (w_cx r) (w_by r) (w_hz r) (w_KKT r) (w_info r) (w_stgs r).
Definition set_w_tau {T} (r : pwork T) (v : T) : pwork T :=
  mkW (w_n r) (w_m r) (w_p r) (w_D r) (w_x r) (w_y r) (w_z r) (w_s r) (w_lambda r) (w_kap r) v (w_best_x r) (w_best_y r) (w_best_z r) (w_best_s r) (w_best r) (w_dsaff r) (w_W_times_dzaff r) (w_dsaff_by_W r) (w_C r) (w_A r) (w_G r) (w_c r) (w_b r) (w_h r) (w_AtoK r) (w_GtoK r) (w_xequil r) (w_Aequil r) (w_Gequil r) (w_resx0 r) (w_resy0 r) (w_resz0 r) (w_rx r) (w_ry r) (w_rz r) (w_rt r) (w_hresx r) (w_hresy r) (w_hresz r) (w_nx r) (w_ny r) (w_nz r) (w_ns r) (w_cx r) (w_by r) (w_hz r) (w_KKT r) (w_info r) (w_stgs r).
Definition set_w_best_x {T} (r : pwork T) (v : arr T) : pwork T :=
  mkW (w_n r) (w_m r) (w_p r) (w_D r) (w_x r) (w_y r) (w_z r) (w_s r) (w_lambda r) (w_kap r) (w_tau r) v (w_best_y r) (w_best_z r) (w_best_s r) (w_best r) (w_dsaff r) (w_W_times_dzaff r) (w_dsaff_by_W r) (w_C r) (w_A r) (w_G r) (w_c r) (w_b r) (w_h r) (w_AtoK r) (w_GtoK r) (w_xequil r) (w_Aequil r) (w_Gequil r) (w_resx0 r) (w_resy0 r) (w_resz0 r) (w_rx r) (w_ry r) (w_rz r) (w_rt r) (w_hresx r) (w_hresy r) (w_hresz r) (w_nx r) (w_ny r) (w_nz r) (w_ns r) (w_cx r) (w_by r) (w_hz r) (w_KKT r) (w_info r) (w_stgs r).
Definition set_w_best_y {T} (r : pwork T) (v : arr T) : pwork T :=
  mkW (w_n r) (w_m r) (w_p r) (w_D r) (w_x r) (w_y r) (w_z r) (w_s r) (w_lambda r) (w_kap r) (w_tau r) (w_best_x r) v (w_best_z r) (w_best_s r) (w_best r) (w_dsaff r) (w_W_times_dzaff r) (w_dsaff_by_W r) (w_C r) (w_A r) (w_G r) (w_c r) (w_b r) (w_h r) (w_AtoK r) (w_GtoK r) (w_xequil r) (w_Aequil r) (w_Gequil r) (w_resx0 r) (w_resy0 r) (w_resz0 r) (w_rx r) (w_ry r) (w_rz r) (w_rt r) (w_hresx r) (w_hresy r) (w_hresz r) (w_nx r) (w_ny r) (w_nz r) (w_ns r) (w_cx r) (w_by r) (w_hz r) (w_KKT r) (w_info r) (w_stgs r).
Definition set_w_best_z {T} (r : pwork T) (v : arr T) : pwork T :=
  mkW (w_n r) (w_m r) (w_p r) (w_D r) (w_x r) (w_y r) (w_z r) (w_s r) (w_lambda r) (w_kap r) (w_tau r) (w_best_x r) (w_best_y r) v (w_best_s r) (w_best r) (w_dsaff r) (w_W_times_dzaff r) (w_dsaff_by_W r) (w_C r) (w_A r) (w_G r) (w_c r) (w_b r) (w_h r) (w_AtoK r) (w_GtoK r) (w_xequil r) (w_Aequil r) (w_Gequil r) (w_resx0 r) (w_resy0 r) (w_resz0 r) (w_rx r) (w_ry r) (w_rz r) (w_rt r) (w_hresx r) (w_hresy r) (w_hresz r) (w_nx r) (w_ny r) (w_nz r) (w_ns r) (w_cx r) (w_by r) (w_hz r) (w_KKT r) (w_info r) (w_stgs r).
Definition set_w_best_s {T} (r : pwork T) (v : arr T) : pwork T :=
  mkW (w_n r) (w_m r) (w_p r) (w_D r) (w_x r) (w_y r) (w_z r) (w_s r) (w_lambda r) (w_kap r) (w_tau r) (w_best_x r) (w_best_y r) (w_best_z r) v (w_best r) (w_dsaff r) (w_W_times_dzaff r) (w_dsaff_by_W r) (w_C r) (w_A r) (w_G r) (w_c r) (w_b r) (w_h r) (w_AtoK r) (w_GtoK r) (w_xequil r) (w_Aequil r) (w_Gequil r) (w_resx0 r) (w_resy0 r) (w_resz0 r) (w_rx r) (w_ry r) (w_rz r) (w_rt r) (w_hresx r) (w_hresy r) (w_hresz r) (w_nx r) (w_ny r) (w_nz r) (w_ns r) (w_cx r) (w_by r) (w_hz r) (w_KKT r) (w_info r) (w_stgs r).
Definition set_w_best {T} (r : pwork T) (v : option (best T)) : pwork T :=
  mkW (w_n r) (w_m r) (w_p r) (w_D r) (w_x r) (w_y r) (w_z r) (w_s r) (w_lambda r) (w_kap r) (w_tau r) (w_best_x r) (w_best_y r) (w_best_z r) (w_best_s r) v (w_dsaff r) (w_W_times_dzaff r) (w_dsaff_by_W r) (w_C r) (w_A r) (w_G r) (w_c r) (w_b r) (w_h r) (w_AtoK r) (w_GtoK r) (w_xequil r) (w_Aequil r) (w_Gequil r) (w_resx0 r) (w_resy0 r) (w_resz0 r) (w_rx r) (w_ry r) (w_rz r) (w_rt r) (w_hresx r) (w_hresy r) (w_hresz r) (w_nx r) (w_ny r) (w_nz r) (w_ns r) (w_cx r) (w_by r) (w_hz r) (w_KKT r) (w_info r) (w_stgs r).
Definition set_w_dsaff {T} (r : pwork T) (v : arr T) : pwork T :=
  mkW (w_n r) (w_m r) (w_p r) (w_D r) (w_x r) (w_y r) (w_z r) (w_s r) (w_lambda r) (w_kap r) (w_tau r) (w_best_x r) (w_best_y r) (w_best_z r) (w_best_s r) (w_best r) v (w_W_times_dzaff r) (w_dsaff_by_W r) (w_C r) (w_A r) (w_G r) (w_c r) (w_b r) (w_h r) (w_AtoK r) (w_GtoK r) (w_xequil r) (w_Aequil r) (w_Gequil r) (w_resx0 r) (w_resy0 r) (w_resz0 r) (w_rx r) (w_ry r) (w_rz r) (w_rt r) (w_hresx r) (w_hresy r) (w_hresz r) (w_nx r) (w_ny r) (w_nz r) (w_ns r) (w_cx r) (w_by r) (w_hz r) (w_KKT r) (w_info r) (w_stgs r).
Definition set_w_W_times_dzaff {T} (r : pwork T) (v : arr T) : pwork T :=
  mkW (w_n r) (w_m r) (w_p r) (w_D r) (w_x r) (w_y r) (w_z r) (w_s r) (w_lambda r) (w_kap r) (w_tau r) (w_best_x r) (w_best_y r) (w_best_z r) (w_best_s r) (w_best r) (w_dsaff r) v (w_dsaff_by_W r) (w_C r) (w_A r) (w_G r) (w_c r) (w_b r) (w_h r) (w_AtoK r) (w_GtoK r) (w_xequil r) (w_Aequil r) (w_Gequil r) (w_resx0 r) (w_resy0 r) (w_resz0 r) (w_rx r) (w_ry r) (w_rz r) (w_rt r) (w_hresx r) (w_hresy r) (w_hresz r) (w_nx r) (w_ny r) (w_nz r) (w_ns r) (w_cx r) (w_by r) (w_hz r) (w_KKT r) (w_info r) (w_stgs r).
Definition set_w_dsaff_by_W {T} (r : pwork T) (v : arr T) : pwork T :=
  mkW (w_n r) (w_m r) (w_p r) (w_D r) (w_x r) (w_y r) (w_z r) (w_s r) (w_lambda r) (w_kap r) (w_tau r) (w_best_x r) (w_best_y r) (w_best_z r) (w_best_s r) (w_best r) (w_dsaff r) (w_W_times_dzaff r) v (w_C r) (w_A r) (w_G r) (w_c r) (w_b r) (w_h r) (w_AtoK r) (w_GtoK r) (w_xequil r) (w_Aequil r) (w_Gequil r) (w_resx0 r) (w_resy0 r) (w_resz0 r) (w_rx r) (w_ry r) (w_rz r) (w_rt r) (w_hresx r) (w_hresy r) (w_hresz r) (w_nx r) (w_ny r) (w_nz r) (w_ns r) (w_cx r) (w_by r) (w_hz r) (w_KKT r) (w_info r) (w_stgs r).
Definition set_w_C {T} (r : pwork T) (v : cone T) : pwork T :=
  mkW (w_n r) (w_m r) (w_p r) (w_D r) (w_x r) (w_y r) (w_z r) (w_s r) (w_lambda r) (w_kap r) (w_tau r) (w_best_x r) (w_best_y r) (w_best_z r) (w_best_s r) (w_best r) (w_dsaff r) (w_W_times_dzaff r) (w_dsaff_by_W r) v (w_A r) (w_G r) (w_c r) (w_b r) (w_h r) (w_AtoK r) (w_GtoK r) (w_xequil r) (w_Aequil r) (w_Gequil r) (w_resx0 r) (w_resy0 r) (w_resz0 r) (w_rx r) (w_ry r) (w_rz r) (w_rt r) (w_hresx r) (w_hresy r) (w_hresz r) (w_nx r) (w_ny r) (w_nz r) (w_ns r) (w_cx r) (w_by r) (w_hz r) (w_KKT r) (w_info r) (w_stgs r).
Definition set_w_A {T} (r : pwork T) (v : option (spmat T)) : pwork T :=
  mkW (w_n r) (w_m r) (w_p r) (w_D r) (w_x r) (w_y r) (w_z r) (w_s r) (w_lambda r) (w_kap r) (w_tau r) (w_best_x r) (w_best_y r) (w_best_z r) (w_best_s r) (w_best r) (w_dsaff r) (w_W_times_dzaff r) (w_dsaff_by_W r) (w_C r) v (w_G r) (w_c r) (w_b r) (w_h r) (w_AtoK r) (w_GtoK r) (w_xequil r) (w_Aequil r) (w_Gequil r) (w_resx0 r) (w_resy0 r) (w_resz0 r) (w_rx r) (w_ry r) (w_rz r) (w_rt r) (w_hresx r) (w_hresy r) (w_hresz r) (w_nx r) (w_ny r) (w_nz r) (w_ns r) (w_cx r) (w_by r) (w_hz r) (w_KKT r) (w_info r) (w_stgs r).
Definition set_w_G {T} (r : pwork T) (v : spmat T) : pwork T :=
  mkW (w_n r) (w_m r) (w_p r) (w_D r) (w_x r) (w_y r) (w_z r) (w_s r) (w_lambda r) (w_kap r) (w_tau r) (w_best_x r) (w_best_y r) (w_best_z r) (w_best_s r) (w_best r) (w_dsaff r) (w_W_times_dzaff r) (w_dsaff_by_W r) (w_C r) (w_A r) v (w_c r) (w_b r) (w_h r) (w_AtoK r) (w_GtoK r) (w_xequil r) (w_Aequil r) (w_Gequil r) (w_resx0 r) (w_resy0 r) (w_resz0 r) (w_rx r) (w_ry r) (w_rz r) (w_rt r) (w_hresx r) (w_hresy r) (w_hresz r) (w_nx r) (w_ny r) (w_nz r) (w_ns r) (w_cx r) (w_by r) (w_hz r) (w_KKT r) (w_info r) (w_stgs r).
Definition set_w_c {T} (r : pwork T) (v : arr T) : pwork T :=
  mkW (w_n r) (w_m r) (w_p r) (w_D r) (w_x r) (w_y r) (w_z r) (w_s r) (w_lambda r) (w_kap r) (w_tau r) (w_best_x r) (w_best_y r) (w_best_z r) (w_best_s r) (w_best r) (w_dsaff r) (w_W_times_dzaff r) (w_dsaff_by_W r) (w_C r) (w_A r) (w_G r) v (w_b r) (w_h r) (w_AtoK r) (w_GtoK r) (w_xequil r) (w_Aequil r) (w_Gequil r) (w_resx0 r) (w_resy0 r) (w_resz0 r) (w_rx r) (w_ry r) (w_rz r) (w_rt r) (w_hresx r) (w_hresy r) (w_hresz r) (w_nx r) (w_ny r) (w_nz r) (w_ns r) (w_cx r) (w_by r) (w_hz r) (w_KKT r) (w_info r) (w_stgs r).
Definition set_w_b {T} (r : pwork T) (v : arr T) : pwork T :=
  mkW (w_n r) (w_m r) (w_p r) (w_D r) (w_x r) (w_y r) (w_z r) (w_s r) (w_lambda r) (w_kap r) (w_tau r) (w_best_x r) (w_best_y r) (w_best_z r) (w_best_s r) (w_best r) (w_dsaff r) (w_W_times_dzaff r) (w_dsaff_by_W r) (w_C r) (w_A r) (w_G r) (w_c r) v (w_h r) (w_AtoK r) (w_GtoK r) (w_xequil r) (w_Aequil r) (w_Gequil r) (w_resx0 r) (w_resy0 r) (w_resz0 r) (w_rx r) (w_ry r) (w_rz r) (w_rt r) (w_hresx r) (w_hresy r) (w_hresz r) (w_nx r) (w_ny r) (w_nz r) (w_ns r) (w_cx r) (w_by r) (w_hz r) (w_KKT r) (w_info r) (w_stgs r).
Definition set_w_h {T} (r : pwork T) (v : arr T) : pwork T :=
  mkW (w_n r) (w_m r) (w_p r) (w_D r) (w_x r) (w_y r) (w_z r) (w_s r) (w_lambda r) (w_kap r) (w_tau r) (w_best_x r) (w_best_y r) (w_best_z r) (w_best_s r) (w_best r) (w_dsaff r) (w_W_times_dzaff r) (w_dsaff_by_W r) (w_C r) (w_A r) (w_G r) (w_c r) (w_b r) v (w_AtoK r) (w_GtoK r) (w_xequil r) (w_Aequil r) (w_Gequil r) (w_resx0 r) (w_resy0 r) (w_resz0 r) (w_rx r) (w_ry r) (w_rz r) (w_rt r) (w_hresx r) (w_hresy r) (w_hresz r) (w_nx r) (w_ny r) (w_nz r) (w_ns r) (w_cx r) (w_by r) (w_hz r) (w_KKT r) (w_info r) (w_stgs r).
Definition set_w_AtoK {T} (r : pwork T) (v : arr nat) : pwork T :=
  mkW (w_n r) (w_m r) (w_p r) (w_D r) (w_x r) (w_y r) (w_z r) (w_s r) (w_lambda r) (w_kap r) (w_tau r) (w_best_x r) (w_best_y r) (w_best_z r) (w_best_s r) (w_best r) (w_dsaff r) (w_W_times_dzaff r) (w_dsaff_by_W r) (w_C r) (w_A r) (w_G r) (w_c r) (w_b r) (w_h r) v (w_GtoK r) (w_xequil r) (w_Aequil r) (w_Gequil r) (w_resx0 r) (w_resy0 r) (w_resz0 r) (w_rx r) (w_ry r) (w_rz r) (w_rt r) (w_hresx r) (w_hresy r) (w_hresz r) (w_nx r) (w_ny r) (w_nz r) (w_ns r) (w_cx r) (w_by r) (w_hz r) (w_KKT r) (w_info r) (w_stgs r).
Definition set_w_GtoK {T} (r : pwork T) (v : arr nat) : pwork T :=
  mkW (w_n r) (w_m r) (w_p r) (w_D r) (w_x r) (w_y r) (w_z r) (w_s r) (w_lambda r) (w_kap r) (w_tau r) (w_best_x r) (w_best_y r) (w_best_z r) (w_best_s r) (w_best r) (w_dsaff r) (w_W_times_dzaff r) (w_dsaff_by_W r) (w_C r) (w_A r) (w_G r) (w_c r) (w_b r) (w_h r) (w_AtoK r) v (w_xequil r) (w_Aequil r) (w_Gequil r) (w_resx0 r) (w_resy0 r) (w_resz0 r) (w_rx r) (w_ry r) (w_rz r) (w_rt r) (w_hresx r) (w_hresy r) (w_hresz r) (w_nx r) (w_ny r) (w_nz r) (w_ns r) (w_cx r) (w_by r) (w_hz r) (w_KKT r) (w_info r) (w_stgs r).
Definition set_w_xequil {T} (r : pwork T) (v : arr T) : pwork T :=
  mkW (w_n r) (w_m r) (w_p r) (w_D r) (w_x r) (w_y r) (w_z r) (w_s r) (w_lambda r) (w_kap r) (w_tau r) (w_best_x r) (w_best_y r) (w_best_z r) (w_best_s r) (w_best r) (w_dsaff r) (w_W_times_dzaff r) (w_dsaff_by_W r) (w_C r) (w_A r) (w_G r) (w_c r) (w_b r) (w_h r) (w_AtoK r) (w_GtoK r) v (w_Aequil r) (w_Gequil r) (w_resx0 r) (w_resy0 r) (w_resz0 r) (w_rx r) (w_ry r) (w_rz r) (w_rt r) (w_hresx r) (w_hresy r) (w_hresz r) (w_nx r) (w_ny r) (w_nz r) (w_ns r) (w_cx r) (w_by r) (w_hz r) (w_KKT r) (w_info r) (w_stgs r).
Definition set_w_Aequil {T} (r : pwork T) (v : arr T) : pwork T :=
  mkW (w_n r) (w_m r) (w_p r) (w_D r) (w_x r) (w_y r) (w_z r) (w_s r) (w_lambda r) (w_kap r) (w_tau r) (w_best_x r) (w_best_y r) (w_best_z r) (w_best_s r) (w_best r) (w_dsaff r) (w_W_times_dzaff r) (w_dsaff_by_W r) (w_C r) (w_A r) (w_G r) (w_c r) (w_b r) (w_h r) (w_AtoK r) (w_GtoK r) (w_xequil r) v (w_Gequil r) (w_resx0 r) (w_resy0 r) (w_resz0 r) (w_rx r) (w_ry r) (w_rz r) (w_rt r) (w_hresx r) (w_hresy r) (w_hresz r) (w_nx r) (w_ny r) (w_nz r) (w_ns r) (w_cx r) (w_by r) (w_hz r) (w_KKT r) (w_info r) (w_stgs r).
Definition set_w_Gequil {T} (r : pwork T) (v : arr T) : pwork T :=
  mkW (w_n r) (w_m r) (w_p r) (w_D r) (w_x r) (w_y r) (w_z r) (w_s r) (w_lambda r) (w_kap r) (w_tau r) (w_best_x r) (w_best_y r) (w_best_z r) (w_best_s r) (w_best r) (w_dsaff r) (w_W_times_dzaff r) (w_dsaff_by_W r) (w_C r) (w_A r) (w_G r) (w_c r) (w_b r) (w_h r) (w_AtoK r) (w_GtoK r) (w_xequil r) (w_Aequil r) v (w_resx0 r) (w_resy0 r) (w_resz0 r) (w_rx r) (w_ry r) (w_rz r) (w_rt r) (w_hresx r) (w_hresy r) (w_hresz r) (w_nx r) (w_ny r) (w_nz r) (w_ns r) (w_cx r) (w_by r) (w_hz r) (w_KKT r) (w_info r) (w_stgs r).
Definition set_w_resx0 {T} (r : pwork T) (v : T) : pwork T :=
  mkW (w_n r) (w_m r) (w_p r) (w_D r) (w_x r) (w_y r) (w_z r) (w_s r) (w_lambda r) (w_kap r) (w_tau r) (w_best_x r) (w_best_y r) (w_best_z r) (w_best_s r) (w_best r) (w_dsaff r) (w_W_times_dzaff r) (w_dsaff_by_W r) (w_C r) (w_A r) (w_G r) (w_c r) (w_b r) (w_h r) (w_AtoK r) (w_GtoK r) (w_xequil r) (w_Aequil r) (w_Gequil r) v (w_resy0 r) (w_resz0 r) (w_rx r) (w_ry r) (w_rz r) (w_rt r) (w_hresx r) (w_hresy r) (w_hresz r) (w_nx r) (w_ny r) (w_nz r) (w_ns r) (w_cx r) (w_by r) (w_hz r) (w_KKT r) (w_info r) (w_stgs r).
Definition set_w_resy0 {T} (r : pwork T) (v : T) : pwork T :=
  mkW (w_n r) (w_m r) (w_p r) (w_D r) (w_x r) (w_y r) (w_z r) (w_s r) (w_lambda r) (w_kap r) (w_tau r) (w_best_x r) (w_best_y r) (w_best_z r) (w_best_s r) (w_best r) (w_dsaff r) (w_W_times_dzaff r) (w_dsaff_by_W r) (w_C r) (w_A r) (w_G r) (w_c r) (w_b r) (w_h r) (w_AtoK r) (w_GtoK r) (w_xequil r) (w_Aequil r) (w_Gequil r) (w_resx0 r) v (w_resz0 r) (w_rx r) (w_ry r) (w_rz r) (w_rt r) (w_hresx r) (w_hresy r) (w_hresz r) (w_nx r) (w_ny r) (w_nz r) (w_ns r) (w_cx r) (w_by r) (w_hz r) (w_KKT r) (w_info r) (w_stgs r).
Definition set_w_resz0 {T} (r : pwork T) (v : T) : pwork T :=
  mkW (w_n r) (w_m r) (w_p r) (w_D r) (w_x r) (w_y r) (w_z r) (w_s r) (w_lambda r) (w_kap r) (w_tau r) (w_best_x r) (w_best_y r) (w_best_z r) (w_best_s r) (w_best r) (w_dsaff r) (w_W_times_dzaff r) (w_dsaff_by_W r) (w_C r) (w_A r) (w_G r) (w_c r) (w_b r) (w_h r) (w_AtoK r) (w_GtoK r) (w_xequil r) (w_Aequil r) (w_Gequil r) (w_resx0 r) (w_resy0 r) v (w_rx r) (w_ry r) (w_rz r) (w_rt r) (w_hresx r) (w_hresy r) (w_hresz r) (w_nx r) (w_ny r) (w_nz r) (w_ns r) (w_cx r) (w_by r) (w_hz r) (w_KKT r) (w_info r) (w_stgs r).
Definition set_w_rx {T} (r : pwork T) (v : arr T) : pwork T :=
  mkW (w_n r) (w_m r) (w_p r) (w_D r) (w_x r) (w_y r) (w_z r) (w_s r) (w_lambda r) (w_kap r) (w_tau r) (w_best_x r) (w_best_y r) (w_best_z r) (w_best_s r) (w_best r) (w_dsaff r) (w_W_times_dzaff r) (w_dsaff_by_W r) (w_C r) (w_A r) (w_G r) (w_c r) (w_b r) (w_h r) (w_AtoK r) (w_GtoK r) (w_xequil r) (w_Aequil r) (w_Gequil r) (w_resx0 r) (w_resy0 r) (w_resz0 r) v (w_ry r) (w_rz r) (w_rt r) (w_hresx r) (w_hresy r) (w_hresz r) (w_nx r) (w_ny r) (w_nz r) (w_ns r) (w_cx r) (w_by r) (w_hz r) (w_KKT r) (w_info r) (w_stgs r).
Definition set_w_ry {T} (r : pwork T) (v : arr T) : pwork T :=
  mkW (w_n r) (w_m r) (w_p r) (w_D r) (w_x r) (w_y r) (w_z r) (w_s r) (w_lambda r) (w_kap r) (w_tau r) (w_best_x r) (w_best_y r) (w_best_z r) (w_best_s r) (w_best r) (w_dsaff r) (w_W_times_dzaff r) (w_dsaff_by_W r) (w_C r) (w_A r) (w_G r) (w_c r) (w_b r) (w_h r) (w_AtoK r) (w_GtoK r) (w_xequil r) (w_Aequil r) (w_Gequil r) (w_resx0 r) (w_resy0 r) (w_resz0 r) (w_rx r) v (w_rz r) (w_rt r) (w_hresx r) (w_hresy r) (w_hresz r) (w_nx r) (w_ny r) (w_nz r) (w_ns r) (w_cx r) (w_by r) (w_hz r) (w_KKT r) (w_info r) (w_stgs r).
Definition set_w_rz {T} (r : pwork T) (v : arr T) : pwork T :=
  mkW (w_n r) (w_m r) (w_p r) (w_D r) (w_x r) (w_y r) (w_z r) (w_s r) (w_lambda r) (w_kap r) (w_tau r) (w_best_x r) (w_best_y r) (w_best_z r) (w_best_s r) (w_best r) (w_dsaff r) (w_W_times_dzaff r) (w_dsaff_by_W r) (w_C r) (w_A r) (w_G r) (w_c r) (w_b r) (w_h r) (w_AtoK r) (w_GtoK r) (w_xequil r) (w_Aequil r) (w_Gequil r) (w_resx0 r) (w_resy0 r) (w_resz0 r) (w_rx r) (w_ry r) v (w_rt r) (w_hresx r) (w_hresy r) (w_hresz r) (w_nx r) (w_ny r) (w_nz r) (w_ns r) (w_cx r) (w_by r) (w_hz r) (w_KKT r) (w_info r) (w_stgs r).
Definition set_w_rt {T} (r : pwork T) (v : T) : pwork T :=
  mkW (w_n r) (w_m r) (w_p r) (w_D r) (w_x r) (w_y r) (w_z r) (w_s r) (w_lambda r) (w_kap r) (w_tau r) (w_best_x r) (w_best_y r) (w_best_z r) (w_best_s r) (w_best r) (w_dsaff r) (w_W_times_dzaff r) (w_dsaff_by_W r) (w_C r) (w_A r) (w_G r) (w_c r) (w_b r) (w_h r) (w_AtoK r) (w_GtoK r) (w_xequil r) (w_Aequil r) (w_Gequil r) (w_resx0 r) (w_resy0 r) (w_resz0 r) (w_rx r) (w_ry r) (w_rz r) v (w_hresx r) (w_hresy r) (w_hresz r) (w_nx r) (w_ny r) (w_nz r) (w_ns r) (w_cx r) (w_by r) (w_hz r) (w_KKT r) (w_info r) (w_stgs r).
Definition set_w_hresx {T} (r : pwork T) (v : T) : pwork T :=
  mkW (w_n r) (w_m r) (w_p r) (w_D r) (w_x r) (w_y r) (w_z r) (w_s r) (w_lambda r) (w_kap r) (w_tau r) (w_best_x r) (w_best_y r) (w_best_z r) (w_best_s r) (w_best r) (w_dsaff r) (w_W_times_dzaff r) (w_dsaff_by_W r) (w_C r) (w_A r) (w_G r) (w_c r) (w_b r) (w_h r) (w_AtoK r) (w_GtoK r) (w_xequil r) (w_Aequil r) (w_Gequil r) (w_resx0 r) (w_resy0 r) (w_resz0 r) (w_rx r) (w_ry r) (w_rz r) (w_rt r) v (w_hresy r) (w_hresz r) (w_nx r) (w_ny r) (w_nz r) (w_ns r) (w_cx r) (w_by r) (w_hz r) (w_KKT r) (w_info r) (w_stgs r).
Definition set_w_hresy {T} (r : pwork T) (v : T) : pwork T :=
  mkW (w_n r) (w_m r) (w_p r) (w_D r) (w_x r) (w_y r) (w_z r) (w_s r) (w_lambda r) (w_kap r) (w_tau r) (w_best_x r) (w_best_y r) (w_best_z r) (w_best_s r) (w_best r) (w_dsaff r) (w_W_times_dzaff r) (w_dsaff_by_W r) (w_C r) (w_A r) (w_G r) (w_c r) (w_b r) (w_h r) (w_AtoK r) (w_GtoK r) (w_xequil r) (w_Aequil r) (w_Gequil r) (w_resx0 r) (w_resy0 r) (w_resz0 r) (w_rx r) (w_ry r) (w_rz r) (w_rt r) (w_hresx r) v (w_hresz r) (w_nx r) (w_ny r) (w_nz r) (w_ns r) (w_cx r) (w_by r) (w_hz r) (w_KKT r) (w_info r) (w_stgs r).
Definition set_w_hresz {T} (r : pwork T) (v : T) : pwork T :=
  mkW (w_n r) (w_m r) (w_p r) (w_D r) (w_x r) (w_y r) (w_z r) (w_s r) (w_lambda r) (w_kap r) (w_tau r) (w_best_x r) (w_best_y r) (w_best_z r) (w_best_s r) (w_best r) (w_dsaff r) (w_W_times_dzaff r) (w_dsaff_by_W r) (w_C r) (w_A r) (w_G r) (w_c r) (w_b r) (w_h r) (w_AtoK r) (w_GtoK r) (w_xequil r) (w_Aequil r) (w_Gequil r) (w_resx0 r) (w_resy0 r) (w_resz0 r) (w_rx r) (w_ry r) (w_rz r) (w_rt r) (w_hresx r) (w_hresy r) v (w_nx r) (w_ny r) (w_nz r) (w_ns r) (w_cx r) (w_by r) (w_hz r) (w_KKT r) (w_info r) (w_stgs r).
Definition set_w_nx {T} (r : pwork T) (v : T) : pwork T :=
  mkW (w_n r) (w_m r) (w_p r) (w_D r) (w_x r) (w_y r) (w_z r) (w_s r) (w_lambda r) (w_kap r) (w_tau r) (w_best_x r) (w_best_y r) (w_best_z r) (w_best_s r) (w_best r) (w_dsaff r) (w_W_times_dzaff r) (w_dsaff_by_W r) (w_C r) (w_A r) (w_G r) (w_c r) (w_b r) (w_h r) (w_AtoK r) (w_GtoK r) (w_xequil r) (w_Aequil r) (w_Gequil r) (w_resx0 r) (w_resy0 r) (w_resz0 r) (w_rx r) (w_ry r) (w_rz r) (w_rt r) (w_hresx r) (w_hresy r) (w_hresz r) v (w_ny r) (w_nz r) (w_ns r) (w_cx r) (w_by r) (w_hz r) (w_KKT r) (w_info r) (w_stgs r).
Definition set_w_ny {T} (r : pwork T) (v : T) : pwork T :=
  mkW (w_n r) (w_m r) (w_p r) (w_D r) (w_x r) (w_y r) (w_z r) (w_s r) (w_lambda r) (w_kap r) (w_tau r) (w_best_x r) (w_best_y r) (w_best_z r) (w_best_s r) (w_best r) (w_dsaff r) (w_W_times_dzaff r) (w_dsaff_by_W r) (w_C r) (w_A r) (w_G r) (w_c r) (w_b r) (w_h r) (w_AtoK r) (w_GtoK r) (w_xequil r) (w_Aequil r) (w_Gequil r) (w_resx0 r) (w_resy0 r) (w_resz0 r) (w_rx r) (w_ry r) (w_rz r) (w_rt r) (w_hresx r) (w_hresy r) (w_hresz r) (w_nx r) v (w_nz r) (w_ns r) (w_cx r) (w_by r) (w_hz r) (w_KKT r) (w_info r) (w_stgs r).
Definition set_w_nz {T} (r : pwork T) (v : T) : pwork T :=
  mkW (w_n r) (w_m r) (w_p r) (w_D r) (w_x r) (w_y r) (w_z r) (w_s r) (w_lambda r) (w_kap r) (w_tau r) (w_best_x r) (w_best_y r) (w_best_z r) (w_best_s r) (w_best r) (w_dsaff r) (w_W_times_dzaff r) (w_dsaff_by_W r) (w_C r) (w_A r) (w_G r) (w_c r) (w_b r) (w_h r) (w_AtoK r) (w_GtoK r) (w_xequil r) (w_Aequil r) (w_Gequil r) (w_resx0 r) (w_resy0 r) (w_resz0 r) (w_rx r) (w_ry r) (w_rz r) (w_rt r) (w_hresx r) (w_hresy r) (w_hresz r) (w_nx r) (w_ny r) v (w_ns r) (w_cx r) (w_by r) (w_hz r) (w_KKT r) (w_info r) (w_stgs r).
Definition set_w_ns {T} (r : pwork T) (v : T) : pwork T :=
  mkW (w_n r) (w_m r) (w_p r) (w_D r) (w_x r) (w_y r) (w_z r) (w_s r) (w_lambda r) (w_kap r) (w_tau r) (w_best_x r) (w_best_y r) (w_best_z r) (w_best_s r) (w_best r) (w_dsaff r) (w_W_times_dzaff r) (w_dsaff_by_W r) (w_C r) (w_A r) (w_G r) (w_c r) (w_b r) (w_h r) (w_AtoK r) (w_GtoK r) (w_xequil r) (w_Aequil r) (w_Gequil r) (w_resx0 r) (w_resy0 r) (w_resz0 r) (w_rx r) (w_ry r) (w_rz r) (w_rt r) (w_hresx r) (w_hresy r) (w_hresz r) (w_nx r) (w_ny r) (w_nz r) v (w_cx r) (w_by r) (w_hz r) (w_KKT r) (w_info r) (w_stgs r).
Definition set_w_cx {T} (r : pwork T) (v : T) : pwork T :=
  mkW (w_n r) (w_m r) (w_p r) (w_D r) (w_x r) (w_y r) (w_z r) (w_s r) (w_lambda r) (w_kap r) (w_tau r) (w_best_x r) (w_best_y r) (w_best_z r) (w_best_s r) (w_best r) (w_dsaff r) (w_W_times_dzaff r) (w_dsaff_by_W r) (w_C r) (w_A r) (w_G r) (w_c r) (w_b r) (w_h r) (w_AtoK r) (w_GtoK r) (w_xequil r) (w_Aequil r) (w_Gequil r) (w_resx0 r) (w_resy0 r) (w_resz0 r) (w_rx r) (w_ry r) (w_rz r) (w_rt r) (w_hresx r) (w_hresy r) (w_hresz r) (w_nx r) (w_ny r) (w_nz r) (w_ns r) v (w_by r) (w_hz r) (w_KKT r) (w_info r) (w_stgs r).
Definition set_w_by {T} (r : pwork T) (v : T) : pwork T :=
  mkW (w_n r) (w_m r) (w_p r) (w_D r) (w_x r) (w_y r) (w_z r) (w_s r) (w_lambda r) (w_kap r) (w_tau r) (w_best_x r) (w_best_y r) (w_best_z r) (w_best_s r) (w_best r) (w_dsaff r) (w_W_times_dzaff r) (w_dsaff_by_W r) (w_C r) (w_A r) (w_G r) (w_c r) (w_b r) (w_h r) (w_AtoK r) (w_GtoK r) (w_xequil r) (w_Aequil r) (w_Gequil r) (w_resx0 r) (w_resy0 r) (w_resz0 r) (w_rx r) (w_ry r) (w_rz r) (w_rt r) (w_hresx r) (w_hresy r) (w_hresz r) (w_nx r) (w_ny r) (w_nz r) (w_ns r) (w_cx r) v (w_hz r) (w_KKT r) (w_info r) (w_stgs r).
Definition set_w_hz {T} (r : pwork T) (v : T) : pwork T :=
  mkW (w_n r) (w_m r) (w_p r) (w_D r) (w_x r) (w_y r) (w_z r) (w_s r) (w_lambda r) (w_kap r) (w_tau r) (w_best_x r) (w_best_y r) (w_best_z r) (w_best_s r) (w_best r) (w_dsaff r) (w_W_times_dzaff r) (w_dsaff_by_W r) (w_C r) (w_A r) (w_G r) (w_c r) (w_b r) (w_h r) (w_AtoK r) (w_GtoK r) (w_xequil r) (w_Aequil r) (w_Gequil r) (w_resx0 r) (w_resy0 r) (w_resz0 r) (w_rx r) (w_ry r) (w_rz r) (w_rt r) (w_hresx r) (w_hresy r) (w_hresz r) (w_nx r) (w_ny r) (w_nz r) (w_ns r) (w_cx r) (w_by r) v (w_KKT r) (w_info r) (w_stgs r).
Definition set_w_KKT {T} (r : pwork T) (v : kkt T) : pwork T :=
  mkW (w_n r) (w_m r) (w_p r) (w_D r) (w_x r) (w_y r) (w_z r) (w_s r) (w_lambda r) (w_kap r) (w_tau r) (w_best_x r) (w_best_y r) (w_best_z r) (w_best_s r) (w_best r) (w_dsaff r) (w_W_times_dzaff r) (w_dsaff_by_W r) (w_C r) (w_A r) (w_G r) (w_c r) (w_b r) (w_h r) (w_AtoK r) (w_GtoK r) (w_xequil r) (w_Aequil r) (w_Gequil r) (w_resx0 r) (w_resy0 r) (w_resz0 r) (w_rx r) (w_ry r) (w_rz r) (w_rt r) (w_hresx r) (w_hresy r) (w_hresz r) (w_nx r) (w_ny r) (w_nz r) (w_ns r) (w_cx r) (w_by r) (w_hz r) v (w_info r) (w_stgs r).
Definition set_w_info {T} (r : pwork T) (v : stats T) : pwork T :=
  mkW (w_n r) (w_m r) (w_p r) (w_D r) (w_x r) (w_y r) (w_z r) (w_s r) (w_lambda r) (w_kap r) (w_tau r) (w_best_x r) (w_best_y r) (w_best_z r) (w_best_s r) (w_best r) (w_dsaff r) (w_W_times_dzaff r) (w_dsaff_by_W r) (w_C r) (w_A r) (w_G r) (w_c r) (w_b r) (w_h r) (w_AtoK r) (w_GtoK r) (w_xequil r) (w_Aequil r) (w_Gequil r) (w_resx0 r) (w_resy0 r) (w_resz0 r) (w_rx r) (w_ry r) (w_rz r) (w_rt r) (w_hresx r) (w_hresy r) (w_hresz r) (w_nx r) (w_ny r) (w_nz r) (w_ns r) (w_cx r) (w_by r) (w_hz r) (w_KKT r) v (w_stgs r).
Definition set_w_stgs {T} (r : pwork T) (v : settings T) : pwork T :=
  mkW (w_n r) (w_m r) (w_p r) (w_D r) (w_x r) (w_y r) (w_z r) (w_s r) (w_lambda r) (w_kap r) (w_tau r) (w_best_x r) (w_best_y r) (w_best_z r) (w_best_s r) (w_best r) (w_dsaff r) (w_W_times_dzaff r) (w_dsaff_by_W r) (w_C r) (w_A r) (w_G r) (w_c r) (w_b r) (w_h r) (w_AtoK r) (w_GtoK r) (w_xequil r) (w_Aequil r) (w_Gequil r) (w_resx0 r) (w_resy0 r) (w_resz0 r) (w_rx r) (w_ry r) (w_rz r) (w_rt r) (w_hresx r) (w_hresy r) (w_hresz r) (w_nx r) (w_ny r) (w_nz r) (w_ns r) (w_cx r) (w_by r) (w_hz r) (w_KKT r) (w_info r) v.

(* reduce projections of updated records *)
Tactic Notation "wcbn" := cbn [lp_p lp_w lp_v lp_kkt_idx so_p so_skbar so_zkbar so_a so_d1 so_w so_eta so_eta_square so_q so_Didx
    so_u0 so_u1 so_v1 ex_colstart ex_v ex_g co_lpc co_soc co_expc co_fexv kk_PKPt kk_L kk_D kk_work1
    kk_work2 kk_work3 kk_work4 kk_work5 kk_work6 kk_RHS1 kk_RHS2 kk_dx1 kk_dx2 kk_dy1 kk_dy2 kk_dz1
    kk_dz2 kk_P kk_Pinv kk_PK kk_Parent kk_Sign kk_Pattern kk_Flag kk_Lnz kk_delta st_pcost st_dcost
    st_pres st_dres st_pinf st_dinf st_pinfres st_dinfres st_gap st_relgap st_sigma st_mu st_step
    st_step_aff st_kapovert st_iter st_nitref1 st_nitref2 st_nitref3 st_pob st_cb st_cob st_pb st_db
    st_affBack st_cmbBack st_centrality sg_gamma sg_delta sg_eps sg_feastol sg_abstol sg_reltol
    sg_feastol_inacc sg_abstol_inacc sg_reltol_inacc sg_nitref sg_maxit sg_max_bk_iter sg_bk_scale
    sg_centrality be_kap be_tau be_cx be_by be_hz be_pcost be_dcost be_pres be_dres be_pinfres
    be_dinfres be_gap be_relgap be_mu be_kapovert be_iter w_n w_m w_p w_D w_x w_y w_z w_s w_lambda w_kap
    w_tau w_best_x w_best_y w_best_z w_best_s w_best w_dsaff w_W_times_dzaff w_dsaff_by_W w_C w_A w_G
    w_c w_b w_h w_AtoK w_GtoK w_xequil w_Aequil w_Gequil w_resx0 w_resy0 w_resz0 w_rx w_ry w_rz w_rt
    w_hresx w_hresy w_hresz w_nx w_ny w_nz w_ns w_cx w_by w_hz w_KKT w_info w_stgs set_lp_p set_lp_w
    set_lp_v set_lp_kkt_idx set_so_p set_so_skbar set_so_zkbar set_so_a set_so_d1 set_so_w set_so_eta
    set_so_eta_square set_so_q set_so_Didx set_so_u0 set_so_u1 set_so_v1 set_ex_colstart set_ex_v
    set_ex_g set_co_lpc set_co_soc set_co_expc set_co_fexv set_kk_PKPt set_kk_L set_kk_D set_kk_work1
    set_kk_work2 set_kk_work3 set_kk_work4 set_kk_work5 set_kk_work6 set_kk_RHS1 set_kk_RHS2 set_kk_dx1
    set_kk_dx2 set_kk_dy1 set_kk_dy2 set_kk_dz1 set_kk_dz2 set_kk_P set_kk_Pinv set_kk_PK set_kk_Parent
    set_kk_Sign set_kk_Pattern set_kk_Flag set_kk_Lnz set_kk_delta set_st_pcost set_st_dcost set_st_pres
    set_st_dres set_st_pinf set_st_dinf set_st_pinfres set_st_dinfres set_st_gap set_st_relgap
    set_st_sigma set_st_mu set_st_step set_st_step_aff set_st_kapovert set_st_iter set_st_nitref1
    set_st_nitref2 set_st_nitref3 set_st_pob set_st_cb set_st_cob set_st_pb set_st_db set_st_affBack
    set_st_cmbBack set_st_centrality set_sg_gamma set_sg_delta set_sg_eps set_sg_feastol set_sg_abstol
    set_sg_reltol set_sg_feastol_inacc set_sg_abstol_inacc set_sg_reltol_inacc set_sg_nitref
    set_sg_maxit set_sg_max_bk_iter set_sg_bk_scale set_sg_centrality set_be_kap set_be_tau set_be_cx
    set_be_by set_be_hz set_be_pcost set_be_dcost set_be_pres set_be_dres set_be_pinfres set_be_dinfres
    set_be_gap set_be_relgap set_be_mu set_be_kapovert set_be_iter set_w_n set_w_m set_w_p set_w_D
    set_w_x set_w_y set_w_z set_w_s set_w_lambda set_w_kap set_w_tau set_w_best_x set_w_best_y
    set_w_best_z set_w_best_s set_w_best set_w_dsaff set_w_W_times_dzaff set_w_dsaff_by_W set_w_C
    set_w_A set_w_G set_w_c set_w_b set_w_h set_w_AtoK set_w_GtoK set_w_xequil set_w_Aequil set_w_Gequil
    set_w_resx0 set_w_resy0 set_w_resz0 set_w_rx set_w_ry set_w_rz set_w_rt set_w_hresx set_w_hresy
    set_w_hresz set_w_nx set_w_ny set_w_nz set_w_ns set_w_cx set_w_by set_w_hz set_w_KKT set_w_info
    set_w_stgs].
Tactic Notation "wcbn" "in" hyp(H) := cbn [lp_p lp_w lp_v lp_kkt_idx so_p so_skbar so_zkbar so_a so_d1 so_w so_eta so_eta_square so_q so_Didx
    so_u0 so_u1 so_v1 ex_colstart ex_v ex_g co_lpc co_soc co_expc co_fexv kk_PKPt kk_L kk_D kk_work1
    kk_work2 kk_work3 kk_work4 kk_work5 kk_work6 kk_RHS1 kk_RHS2 kk_dx1 kk_dx2 kk_dy1 kk_dy2 kk_dz1
    kk_dz2 kk_P kk_Pinv kk_PK kk_Parent kk_Sign kk_Pattern kk_Flag kk_Lnz kk_delta st_pcost st_dcost
    st_pres st_dres st_pinf st_dinf st_pinfres st_dinfres st_gap st_relgap st_sigma st_mu st_step
    st_step_aff st_kapovert st_iter st_nitref1 st_nitref2 st_nitref3 st_pob st_cb st_cob st_pb st_db
    st_affBack st_cmbBack st_centrality sg_gamma sg_delta sg_eps sg_feastol sg_abstol sg_reltol
    sg_feastol_inacc sg_abstol_inacc sg_reltol_inacc sg_nitref sg_maxit sg_max_bk_iter sg_bk_scale
    sg_centrality be_kap be_tau be_cx be_by be_hz be_pcost be_dcost be_pres be_dres be_pinfres
    be_dinfres be_gap be_relgap be_mu be_kapovert be_iter w_n w_m w_p w_D w_x w_y w_z w_s w_lambda w_kap
    w_tau w_best_x w_best_y w_best_z w_best_s w_best w_dsaff w_W_times_dzaff w_dsaff_by_W w_C w_A w_G
    w_c w_b w_h w_AtoK w_GtoK w_xequil w_Aequil w_Gequil w_resx0 w_resy0 w_resz0 w_rx w_ry w_rz w_rt
    w_hresx w_hresy w_hresz w_nx w_ny w_nz w_ns w_cx w_by w_hz w_KKT w_info w_stgs set_lp_p set_lp_w
    set_lp_v set_lp_kkt_idx set_so_p set_so_skbar set_so_zkbar set_so_a set_so_d1 set_so_w set_so_eta
    set_so_eta_square set_so_q set_so_Didx set_so_u0 set_so_u1 set_so_v1 set_ex_colstart set_ex_v
    set_ex_g set_co_lpc set_co_soc set_co_expc set_co_fexv set_kk_PKPt set_kk_L set_kk_D set_kk_work1
    set_kk_work2 set_kk_work3 set_kk_work4 set_kk_work5 set_kk_work6 set_kk_RHS1 set_kk_RHS2 set_kk_dx1
    set_kk_dx2 set_kk_dy1 set_kk_dy2 set_kk_dz1 set_kk_dz2 set_kk_P set_kk_Pinv set_kk_PK set_kk_Parent
    set_kk_Sign set_kk_Pattern set_kk_Flag set_kk_Lnz set_kk_delta set_st_pcost set_st_dcost set_st_pres
    set_st_dres set_st_pinf set_st_dinf set_st_pinfres set_st_dinfres set_st_gap set_st_relgap
    set_st_sigma set_st_mu set_st_step set_st_step_aff set_st_kapovert set_st_iter set_st_nitref1
    set_st_nitref2 set_st_nitref3 set_st_pob set_st_cb set_st_cob set_st_pb set_st_db set_st_affBack
    set_st_cmbBack set_st_centrality set_sg_gamma set_sg_delta set_sg_eps set_sg_feastol set_sg_abstol
    set_sg_reltol set_sg_feastol_inacc set_sg_abstol_inacc set_sg_reltol_inacc set_sg_nitref
    set_sg_maxit set_sg_max_bk_iter set_sg_bk_scale set_sg_centrality set_be_kap set_be_tau set_be_cx
    set_be_by set_be_hz set_be_pcost set_be_dcost set_be_pres set_be_dres set_be_pinfres set_be_dinfres
    set_be_gap set_be_relgap set_be_mu set_be_kapovert set_be_iter set_w_n set_w_m set_w_p set_w_D
    set_w_x set_w_y set_w_z set_w_s set_w_lambda set_w_kap set_w_tau set_w_best_x set_w_best_y
    set_w_best_z set_w_best_s set_w_best set_w_dsaff set_w_W_times_dzaff set_w_dsaff_by_W set_w_C
    set_w_A set_w_G set_w_c set_w_b set_w_h set_w_AtoK set_w_GtoK set_w_xequil set_w_Aequil set_w_Gequil
    set_w_resx0 set_w_resy0 set_w_resz0 set_w_rx set_w_ry set_w_rz set_w_rt set_w_hresx set_w_hresy
    set_w_hresz set_w_nx set_w_ny set_w_nz set_w_ns set_w_cx set_w_by set_w_hz set_w_KKT set_w_info
    set_w_stgs] in H.
