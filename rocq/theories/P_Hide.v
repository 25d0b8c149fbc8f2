(** C27 and C38 for runs that neither substitute nor merge. *)
From Coq Require Import NArith Lqa.
From Verif Require Import M_Num S_LP M_Settings M_Driver S_Driver M_State M_Act M_Core M_Simple M_StonCols
  M_Dton M_Parallel M_Propagate M_Init M_Post M_Run S_Run S_Sem S_Sem4 S_Post S_Kkt S_Prim L_Refute L_Prim8 L_Hide.
Open Scope Q_scope.

(** ** C38: without substitution and dual fixing every entry is assigned, whatever the log. *)
Theorem C38_plain_runs_partial : forall stgs fits clock fuel P r, wf_input P -> values_kept stgs -> dual_fix_on stgs = false ->
  run_presolver stgs fits clock fuel P = Some r -> res_reduced r = true ->
  forall x y z, exists x' y' z', solution_is P (postsolve_state (res_state r) x y z) x' y' z'.
Proof. exact run_assigned. Qed.
Print Assumptions C38_plain_runs_partial.

(** ** C27: if the reduced problem has a point that is feasible up to tolerances, so has the original
    problem. *)
Theorem C27_not_hidden_partial : forall stgs fits clock fuel P r rtol c, wf_input P -> values_kept stgs -> dual_fix_on stgs = false ->
  run_presolver stgs fits clock fuel P = Some r -> res_reduced r = true ->
  wide rtol c (lp_of_input P) -> bounds_meet (lp_of_input P) ->
  forall x, feasible_up_to rtol (fun _ => c) (reduced_lp (res_state r)) x ->
  exists x', feasible_up_to rtol (fun _ => c) (lp_of_input P) x'.
Proof. exact not_hidden. Qed.
Print Assumptions C27_not_hidden_partial.

(** With dual fixing, when what it recorded can be undone. *)
Theorem C27_dual_fix_partial : forall stgs fits clock fuel P r rtol c, wf_input P -> values_kept stgs ->
  run_presolver stgs fits clock fuel P = Some r -> res_reduced r = true ->
  Forall invertible (log (res_state r)) -> neighbours_known (log (res_state r)) ->
  wide rtol c (lp_of_input P) -> bounds_meet (lp_of_input P) ->
  forall x, feasible_up_to rtol (fun _ => c) (reduced_lp (res_state r)) x ->
  exists x', feasible_up_to rtol (fun _ => c) (lp_of_input P) x'.
Proof. exact not_hidden_log. Qed.
Print Assumptions C27_dual_fix_partial.

(** ** The hypotheses are met: a singleton row, an empty column, a row that propagation turns into bounds. *)
Definition sH := mkSettings false false false false true false true true 10 60 true.
Definition PH := prob
  [[(0%nat, 1); (1%nat, 2); (2%nat, 1)]; [(1%nat, 1); (2%nat, 1); (4%nat, 1)]; [(4%nat, 2)]; [(0%nat, 1); (1%nat, -(1)); (4%nat, 3)]]
  [Fin 4; NInf; NInf; Fin 0] [Fin 4; Fin 5; Fin 4; Fin 9] [Fin 0; Fin 0; Fin 0; Fin 1; Fin 0]
  [PInf; PInf; PInf; Fin 2; PInf] [1; 1; 2; 3; -(1)].
Definition enoughH (i : nat) : Q := FEAS_TOL + (FEAS_TOL + FEAS_TOL) * norm1 (in_A PH i).
Definition xH (k : nat) : Q := match k with 0%nat => 2 | 1%nat => 1 | _ => 0 end.
Example PH_ok : wf_input PH /\ values_kept sH /\ wide enoughH FEAS_TOL (lp_of_input PH) /\ bounds_meet (lp_of_input PH) /\
  match run_presolver sH (fun _ => true) (fun _ => false) 20 PH with
  | Some r => res_reduced r = true /\ res_status r = REDUCED /\ live_rows (res_state r) = [0; 1; 3]%nat /\ live_cols (res_state r) = [0; 1; 2; 4]%nat /\
      feasible_up_to enoughH (fun _ => FEAS_TOL) (reduced_lp (res_state r)) xH
  | None => False end.
Proof.
  split; [apply wfb_ok; vm_compute; reflexivity|]. split; [repeat split|].
  split; [apply wideb_ok; vm_compute; reflexivity|]. split; [apply meetb_ok; vm_compute; reflexivity|].
  assert (E : match run_presolver sH (fun _ => true) (fun _ => false) 20 PH with
    | Some r => (res_reduced r, res_status r, live_rows (res_state r), live_cols (res_state r), feasupb enoughH FEAS_TOL (reduced_lp (res_state r)) xH)
    | None => (false, 9%N, [], [], false) end = (true, REDUCED, [0; 1; 3]%nat, [0; 1; 2; 4]%nat, true)) by (vm_compute; reflexivity).
  destruct (run_presolver sH (fun _ => true) (fun _ => false) 20 PH) as [r|]; [|discriminate].
  injection E as E1 E2 E3 E4 E5. repeat (split; [assumption|]). apply feasupb_ok; assumption.
Qed.
