(** C26: substituting variables through equations with two entries, from one reached state to the
    next. *)
From Coq Require Import NArith.
From Verif Require Import M_Num S_LP M_Settings M_Driver M_State M_Dton M_Init M_Run S_Run S_Sem S_Dton L_Dton3.
Import M_Driver.
Open Scope Q_scope.

(** As long as the listed rows are equations and no nonzero coefficient is dropped: the feasible
    points of the old problem are feasible for the new one, with the same objective value.  If there
    is one, every feasible point of the new problem extends to a point of the old one with the same
    objective value that satisfies all rows exactly and all bounds up to [drift] of the number of
    variables removed.  Missing: rows that lost a nonzero coefficient below ZERO_TOL; problems
    without feasible points, where the explorer may hide the infeasibility (C27_refuted). *)
Theorem C26_dton_partial : forall stgs fits P s s' st, wf_input P -> reached stgs fits P s -> clear_dton fits s ->
  remove_dton_eq_rows fits s = (s', st) ->
  carries_over anything (reduced_lp s) (reduced_lp s') /\
  ((exists x, feasible (reduced_lp s) x) ->
   lifts_back exactly (fun _ => drift (length (lp_cols (reduced_lp s)) - length (lp_cols (reduced_lp s')))) (reduced_lp s) (reduced_lp s')).
Proof. exact dton_sem. Qed.
Print Assumptions C26_dton_partial.

(** Two of five variables go; the second equation with two entries comes from the first
    substitution. *)
Example C26_case : let s := new_presolver de in let s' := fst (remove_dton_eq_rows (fun _ => true) s) in
  wf_input de /\ reached default_settings (fun _ => true) de s /\ clear_dton (fun _ => true) s /\
  live_cols s = [0%nat; 1%nat; 2%nat; 3%nat; 4%nat] /\ length (live_cols s') = 3%nat /\ live_rows s' = [2%nat; 3%nat] /\
  feasible (reduced_lp s) de_x.
Proof. exact de_case. Qed.
