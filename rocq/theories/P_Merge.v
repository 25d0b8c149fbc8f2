(** C28: merging parallel rows, from one reached state to the next. *)
From Coq Require Import NArith.
From Verif Require Import M_Num S_LP M_Settings M_Driver M_State M_Parallel M_Init M_Run S_Run S_Sem S_Merge
  L_ParRow2 L_ParRow3.
Import M_Driver.
Open Scope Q_scope.

(** When rows that look parallel are exactly parallel: a report of infeasibility is right except,
    possibly, for points where a row is exactly one tolerance above its left side; otherwise every
    feasible point stays feasible up to FEAS_TOL per kept row with the same objective, and, if no
    equation is parallel to two inequalities, every point of the new problem satisfies every old
    row up to FEAS_TOL times the ratio of the row to the row that was kept.  Missing (see
    C28_refuted, C28_edge_refuted): rows parallel only up to the tolerance, an equation among several
    parallel inequalities, and the edge case. *)
Theorem C28_parallel_rows_partial : forall stgs fits P s s' st, wf_input P -> reached stgs fits P s ->
  w_empty_rows s = [] -> clear_cut (reduced_lp s) -> remove_parallel_rows s = (s', st) ->
  (st = INFEASIBLE -> forall x, feasible (reduced_lp s) x -> on_the_edge (reduced_lp s) x) /\
  (st <> INFEASIBLE ->
    (forall x, feasible (reduced_lp s) x ->
       feasible_up_to feas_tol exactly (reduced_lp s') x /\ objective (reduced_lp s') x == objective (reduced_lp s) x) /\
    (unmixed s -> forall x, feasible (reduced_lp s') x ->
       (forall k, In k (lp_cols (reduced_lp s)) -> col_sat (reduced_lp s) x k) /\
       (forall i, In i (lp_rows (reduced_lp s)) -> holds_by_parallel (reduced_lp s) (reduced_lp s') x i) /\
       objective (reduced_lp s) x == objective (reduced_lp s') x)).
Proof. exact parallel_rows_sem. Qed.
Print Assumptions C28_parallel_rows_partial.

(** Two pairs of parallel rows (inequalities with a negative ratio, equations): one of each pair is
    kept. *)
Example C28_case : wf_input mp /\ reached default_settings (fun _ => true) mp (new_presolver mp) /\
  w_empty_rows (new_presolver mp) = [] /\ clear_cut (reduced_lp (new_presolver mp)) /\ unmixed (new_presolver mp) /\
  length (live_rows (new_presolver mp)) = 4%nat /\
  length (live_rows (fst (remove_parallel_rows (new_presolver mp)))) = 2%nat /\
  snd (remove_parallel_rows (new_presolver mp)) = UNCHANGED /\
  feasible (reduced_lp (new_presolver mp)) (fun k => match k with O => 2 | _ => 1 end).
Proof. exact mp_case. Qed.

(** The edge case is real: three equal rows, one feasible value, reported infeasible. *)
Theorem C28_edge_refuted : exists P x, wf_input P /\
  reached default_settings (fun _ => true) P (new_presolver P) /\ w_empty_rows (new_presolver P) = [] /\
  clear_cut (reduced_lp (new_presolver P)) /\ unmixed (new_presolver P) /\
  feasible (reduced_lp (new_presolver P)) x /\
  snd (remove_parallel_rows (new_presolver P)) = INFEASIBLE.
Proof. exact (ex_intro _ ep (ex_intro _ _ ep_case)). Qed.
Print Assumptions C28_edge_refuted.
