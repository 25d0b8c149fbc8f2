(** Model of the settings API (src/core/Presolver.c). *)
From Verif Require Import M_Num.

(** include/PSLP/PSLP_API.h: struct Settings *)
Record settings := mkSettings {
  ston_cols_on : bool;  dton_eq_on : bool;  parallel_rows_on : bool;  parallel_cols_on : bool;
  primal_propagation_on : bool;  dual_fix_on : bool;  finite_bound_tightening_on : bool;
  relax_bounds_on : bool;  max_shift : nat;  max_time : Q;  verbose_on : bool }.

(** src/core/Presolver.c:77-94 (the malloc-failure branch, which returns NULL, is in M_Alloc). *)
Definition default_settings : settings :=
  mkSettings true true true true true true true true 10 60 true.

(** src/core/Presolver.c:146-158 *)
Definition set_settings_true (s : settings) : settings :=
  mkSettings true true true true true true true true (max_shift s) (max_time s) true.

(** src/core/Presolver.c:160-172 *)
Definition set_settings_false (s : settings) : settings :=
  mkSettings false false false false false false false false (max_shift s) (max_time s) false.
