(** Properties that the code does NOT have.  Each theorem exhibits a problem on which the
    modelled run_presolver / postsolve violates the English claim.  All runs use exact
    arithmetic, so none of these is a rounding effect. *)
From Coq Require Import NArith Lqa.
From Verif Require Import M_Num S_LP M_Settings M_Driver M_State M_Act M_Core M_Simple M_StonCols
  M_Dton M_Parallel M_Propagate M_Init M_Post M_Run S_Run L_Refute.

(** In each: [run P r]: new_presolver followed by run_presolver with the default settings, with
    as much storage as needed, with a clock that never runs out, returned and left [r]. *)

(** ** C21: the offset counts some variables twice *)
Theorem C21_refuted : exists P r x y z x0,
  wf_input P /\ run P r /\ res_status r = REDUCED /\ res_reduced r = true /\
  optimal (reduced_lp (res_state r)) x0 /\
  solution_is P (postsolve_state (res_state r) x0 (fun _ => 0) (fun _ => 0)) x y z /\
  feasible (lp_of_input P) x /\
  ~ objective (lp_of_input P) x == objective (reduced_lp (res_state r)) x0.
Proof. exact offset_twice. Qed.
Print Assumptions C21_refuted.

(** ** C23: a variable sent to infinity is recovered at a value that violates its row *)
Theorem C23_refuted : exists P r x y z x0,
  wf_input P /\ run P r /\ res_status r = REDUCED /\
  optimal (reduced_lp (res_state r)) x0 /\
  solution_is P (postsolve_state (res_state r) x0 (fun _ => 0) (fun _ => 0)) x y z /\
  ~ feasible (lp_of_input P) x /\
  (exists xo, feasible (lp_of_input P) xo).
Proof. exact inf_fix_bad. Qed.
Print Assumptions C23_refuted.

(** ** C23, C38: a variable of a row without sides is recovered at infinity *)
Theorem C38_refuted : exists P r,
  wf_input P /\ run P r /\ res_status r = REDUCED /\
  forall x0 y0 z0, s_err (postsolve_state (res_state r) x0 y0 z0) = true.
Proof. exact free_row_inf. Qed.
Print Assumptions C38_refuted.

(** ** C27, C26: an infeasible problem is reduced to a feasible one *)
Theorem C27_refuted : exists P r x0,
  wf_input P /\ run P r /\ res_status r = REDUCED /\
  infeasible (lp_of_input P) /\ feasible (reduced_lp (res_state r)) x0.
Proof. exact hidden_infeasibility. Qed.
Print Assumptions C27_refuted.

(** ** C28: three exactly parallel rows, one is forgotten *)
Theorem C28_refuted : exists P r x0,
  wf_input P /\ (forall i i', (i < in_m P)%nat -> (i' < in_m P)%nat -> in_A P i = in_A P i') /\
  run P r /\ res_status r = REDUCED /\
  infeasible (lp_of_input P) /\ feasible (reduced_lp (res_state r)) x0.
Proof. exact parallel_rows_drop. Qed.
Print Assumptions C28_refuted.

(** ** C14, C26, C32: a row is dropped as redundant because of a stale maximal activity *)
Theorem C32_refuted : exists P r x y z x0,
  wf_input P /\ run P r /\ res_status r = REDUCED /\
  optimal (reduced_lp (res_state r)) x0 /\
  solution_is P (postsolve_state (res_state r) x0 (fun _ => 0) (fun _ => 0)) x y z /\
  ~ feasible (lp_of_input P) x /\
  (exists xo, feasible (lp_of_input P) xo).
Proof. exact stale_activity. Qed.
Print Assumptions C32_refuted.

(** The activity itself: after the substitution the recorded maximum of an active row is flagged
    finite and some point within the bounds gives the row a larger value. *)
Theorem C14_refuted : exists P s x i,
  wf_input P /\ s = fst (remove_dton_eq_rows (fun _ => true) (new_presolver P)) /\
  t_inact (rt s i) = false /\ n_inf_max (acts s i) = 0%Z /\
  (forall k a, In (k, a) (mA s i) -> ext_le (lb s k) (x k) /\ le_ext (x k) (ub s k)) /\
  a_max (acts s i) < dot (mA s i) x.
Proof. exact stale_activity_value. Qed.
Print Assumptions C14_refuted.

(** ** C30: a merged pair of columns is split outside the bounds *)
Theorem C30_refuted : exists P r x y z x0,
  wf_input P /\ run P r /\ res_status r = REDUCED /\
  feasible (reduced_lp (res_state r)) x0 /\
  solution_is P (postsolve_state (res_state r) x0 (fun _ => 0) (fun _ => 0)) x y z /\
  ~ feasible (lp_of_input P) x.
Proof. exact parallel_col_split. Qed.
Print Assumptions C30_refuted.

(** ** C36: two side changes taken from the same row, both multipliers become zero *)
Theorem C36_refuted : exists P r x y z x0 y0 z0,
  wf_input P /\ run P r /\ res_status r = REDUCED /\
  feasible (reduced_lp (res_state r)) x0 /\ stationary (reduced_lp (res_state r)) y0 z0 /\
  solution_is P (postsolve_state (res_state r) x0 y0 z0) x y z /\
  ~ stationary (lp_of_input P) y z.
Proof. exact both_sides_change. Qed.
Print Assumptions C36_refuted.

(** ** C41: UNCHANGED although bounds have been changed *)
Theorem C41_refuted : exists P r k,
  wf_input P /\ run P r /\ res_status r = UNCHANGED /\ (k < in_n P)%nat /\
  ub (res_state r) k <> in_ub P k.
Proof. exact unchanged_changed. Qed.
Print Assumptions C41_refuted.

(** ** C44: INFEASIBLE for a feasible problem: bounds closer than the tolerance and a large
    coefficient *)
Theorem C44_refuted : exists P r x,
  wf_input P /\ run P r /\ res_status r = INFEASIBLE /\ feasible (lp_of_input P) x.
Proof. exact false_infeasible. Qed.
Print Assumptions C44_refuted.

(** the same for two rows that are parallel up to the tolerance only *)
Theorem C44_parallel_refuted : exists P r x,
  wf_input P /\ run P r /\ res_status r = INFEASIBLE /\ feasible (lp_of_input P) x.
Proof. exact false_infeasible_parallel. Qed.
Print Assumptions C44_parallel_refuted.

(** ** C11: a surviving row of the reduced problem refers to a column that has been removed *)
Theorem C11_refuted : exists P r i k a,
  wf_input P /\ run P r /\ res_status r = REDUCED /\ res_reduced r = true /\
  (i < in_m P)%nat /\ (k < in_n P)%nat /\
  rsz (res_state r) i <> (-1)%Z /\ In (k, a) (mA (res_state r) i) /\
  csz (res_state r) k = (-1)%Z /\ mAT (res_state r) k = [].
Proof. exact copies_disagree. Qed.
Print Assumptions C11_refuted.

(** ** C45: a run that deletes an entry that does not exist (a memmove of SIZE_MAX elements) *)
Theorem C45_refuted : exists P r, wf_input P /\ run P r /\ bad (res_state r) = true.
Proof. exact missing_entry. Qed.
Print Assumptions C45_refuted.
