(** C21, C34, C35, C43 on whole runs: the objective value of the solution handed back, and postsolve
    through the API.  Theorems only; vocabulary in S_LP.v, S_Run.v, S_Log.v, S_Post.v.

    Reductions that rewrite coefficients (doubleton rows, parallel columns) are switched off.  With
    the full set C21 is false of the code (P_Refute.v); it is also false when the log names a column
    twice (the empty column with equal bounds), which the hypothesis [NoDup] excludes. *)
From Coq Require Import NArith Lqa.
From Verif Require Import M_Num S_LP M_Settings M_Driver S_Driver M_State M_Act M_Core M_Simple M_StonCols
  M_Dton M_Parallel M_Propagate M_Init M_Post M_Log M_Run S_Run S_Struct S_Sem S_Sem4 S_Log S_Post L_Refute
  L_Obj4 P_Post.
Open Scope Q_scope.

(** ** C21: the objective of the reduced problem, offset included, is the objective of the original
    problem at the solution postsolve returns *)
Theorem C21_objective_partial : forall stgs fits clock fuel P r, wf_input P -> coefficients_kept stgs ->
  run_presolver stgs fits clock fuel P = Some r -> res_reduced r = true ->
  NoDup (removed_cols (log (res_state r))) ->
  forall x y z x' y' z', solution_is P (postsolve_state (res_state r) x y z) x' y' z' ->
  objective (lp_of_input P) x' == objective (reduced_lp (res_state r)) x.
Proof. exact run_objective. Qed.
Print Assumptions C21_objective_partial.

(** ** C34: the log of a run has complete groups of bound changes and mentions only rows and columns
    of the input *)
Theorem C34_run_log_partial : forall stgs fits clock fuel P r, wf_input P -> coefficients_kept stgs ->
  run_presolver stgs fits clock fuel P = Some r -> res_reduced r = true ->
  Forall (in_range (in_n P) (in_m P)) (log (res_state r)) /\ grouped 0 (log (res_state r)).
Proof. exact run_log. Qed.
Print Assumptions C34_run_log_partial.

(** ** C35: after a run, postsolve called with a solution in the numbering of the reduced problem never
    reads outside the log and gives the solution obtained by undoing the reductions one by one *)
Theorem C35_api_partial : forall stgs fits clock fuel P r, wf_input P -> coefficients_kept stgs ->
  run_presolver stgs fits clock fuel P = Some r -> res_reduced r = true ->
  forall old x y z, exists h, api_postsolve x y z (handle_of P (res_state r) old) = Some h /\
    same_sol (in_n P) (in_m P) (h_sol h)
      (postsolve_state (res_state r) (fun k => x (rank (kept_col (res_state r)) k)) (fun i => y (rank (kept_row (res_state r)) i))
                       (fun k => z (rank (kept_col (res_state r)) k))).
Proof. exact run_api. Qed.
Print Assumptions C35_api_partial.

(** ** The hypotheses are met by the run of P_Post.v: six columns leave, by five kinds of record *)
Example PB_removed : removed_cols (log stB) = [8; 3; 7; 0; 6; 5]%nat /\ NoDup (removed_cols (log stB)).
Proof.
  assert (E : removed_cols (log stB) = [8; 3; 7; 0; 6; 5]%nat) by (vm_compute; reflexivity).
  rewrite E. split; [reflexivity|]. repeat constructor; cbn; intuition discriminate.
Qed.
Example PB_objective : objective (reduced_lp stB) xB == 8 # 3 /\
  objective (lp_of_input PB) (fun k => val (sx (postsolve_state stB xB yB zB) k)) == 8 # 3.
Proof. split; vm_compute; reflexivity. Qed.
(** The maps of that run *)
Example PB_maps : map (index_map (kept_col stB)) (seq 0 9) = [-1; 0; 1; -1; 2; -1; -1; -1; -1]%Z /\
  map (index_map (kept_row stB)) (seq 0 7) = [0; -1; 1; 2; -1; -1; -1]%Z.
Proof. split; vm_compute; reflexivity. Qed.
