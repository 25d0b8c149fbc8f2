(** Specification for allocation failures. *)
From Coq Require Import List Bool.
Import ListNotations.
From Verif Require Import M_Alloc.

(** new_presolver when exactly the allocations with [ok s = false] fail *)
Definition outcome_of (ok : site -> bool) (answer : question -> bool) : outcome ptr := run ok answer new_presolver empty_heap.
(** NULL is returned, and nothing undefined happened on the way *)
Definition handled (o : outcome ptr) : Prop := exists h, o = Returns Null h.
(** ... and nothing stays allocated *)
Definition handled_without_leak (o : outcome ptr) : Prop := exists h, o = Returns Null h /\ live h = [].
Definition all_ok : site -> bool := fun _ => true.
(** every question about the input is answered with yes *)
Definition yes : question -> bool := fun _ => true.
Definition only_fails (s : site) : site -> bool := fun s' => negb (site_beq s s').

(** The allocations whose failure is dealt with, without and with a leak *)
Definition clean_sites : list site :=
  [s_lhs; s_rhs; s_c; s_ctags; s_bounds; s_rsz; s_csz; s_work; s_iw1; s_iw2; s_iw3; s_iw4; s_map_cols; s_map_rows;
   s_A; s_A_i; s_A_p; s_A_x; s_locks; s_acts; s_state; s_cons].
Definition leaky_sites : list site :=
  [s_AT; s_AT_i; s_AT_p; s_AT_x; s_vec starts; s_vec_data starts; s_vec indices; s_vec_data indices; s_vec vals; s_vec_data vals; s_vec types; s_vec_data types].
(** The allocations whose failure is not dealt with *)
Definition unhandled_sites : list site :=
  [s_vec int_vec; s_vec_data int_vec; s_map; s_rtags; s_info; s_pres; s_obj; s_prob; s_stats; s_red; s_sol; s_sol_x; s_sol_y; s_sol_z] ++
  map s_vec [ston_rows; ston_cols; dton_rows; empty_cols; empty_rows; updated_acts; fixed_del; sub_del; rows_del] ++
  map s_vec_data [ston_rows; ston_cols; dton_rows; empty_cols; empty_rows; updated_acts; fixed_del; sub_del; rows_del] ++
  map s_vec_more [ston_rows; ston_cols; dton_rows; empty_cols; empty_rows; updated_acts].
