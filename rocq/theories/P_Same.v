(** C41, what holds of it: a run that answers UNCHANGED hands back the matrix, the costs and the offset
    it was given, for all settings, all problems, every clock and every storage behaviour. *)
From Coq Require Import NArith Lqa.
From Verif Require Import M_Num S_LP M_Settings M_Driver M_State M_Act M_Core M_Simple M_StonCols
  M_Dton M_Parallel M_Propagate M_Init M_Post M_Run S_Run S_Same L_Refute L_Same2 L_Same3.

(** ** C41.  Missing: the bounds may be tighter and sides may have been dropped (C41_refuted). *)
Theorem C41_same_matrix_partial : forall stgs fits clock fuel P r, wf_input P ->
  run_presolver stgs fits clock fuel P = Some r -> tiny (res_state r) = false ->
  res_status r = UNCHANGED ->
  same_matrix (lp_of_input P) (reduced_lp (res_state r)) /\
  same_costs (lp_of_input P) (reduced_lp (res_state r)).
Proof. exact UNCHANGED_same'. Qed.
Print Assumptions C41_same_matrix_partial.

(** ** C41 in full for the settings without propagation and without singleton columns, whatever the
    others are: bounds and sides are the given ones as well.  Missing: the other settings, for which it is
    false (C41_refuted). *)
Theorem C41_same_problem_partial : forall stgs fits clock fuel P r, wf_input P ->
  primal_propagation_on stgs = false -> ston_cols_on stgs = false ->
  run_presolver stgs fits clock fuel P = Some r -> tiny (res_state r) = false ->
  res_status r = UNCHANGED ->
  same_matrix (lp_of_input P) (reduced_lp (res_state r)) /\
  same_costs (lp_of_input P) (reduced_lp (res_state r)) /\
  same_bounds (lp_of_input P) (reduced_lp (res_state r)).
Proof. exact UNCHANGED_problem. Qed.
Print Assumptions C41_same_problem_partial.

(** ** With doubleton equations off too, nothing is assumed about small coefficients. *)
Theorem C41_same_problem_no_dton_partial : forall stgs fits clock fuel P r, wf_input P ->
  primal_propagation_on stgs = false -> ston_cols_on stgs = false -> dton_eq_on stgs = false ->
  run_presolver stgs fits clock fuel P = Some r -> res_status r = UNCHANGED ->
  same_matrix (lp_of_input P) (reduced_lp (res_state r)) /\
  same_costs (lp_of_input P) (reduced_lp (res_state r)) /\
  same_bounds (lp_of_input P) (reduced_lp (res_state r)).
Proof. exact UNCHANGED_problem_no_dton. Qed.
Print Assumptions C41_same_problem_no_dton_partial.

(** ** The hypotheses are met: by the problem of C41_refuted, with the default settings; its bounds do
    change. *)
Example C41_case : wf_input Pu /\ run Pu (outcome Pu) /\ tiny (res_state (outcome Pu)) = false /\
  res_status (outcome Pu) = UNCHANGED /\
  ub (res_state (outcome Pu)) 0%nat <> in_ub Pu 0%nat.
Proof.
  split; [apply wfb_ok; vm_compute; reflexivity|]. split; [apply run_outcome; vm_compute; reflexivity|].
  split; [vm_compute; reflexivity|]. split; [vm_compute; reflexivity|].
  vm_compute. discriminate.
Qed.

(** The same problem, with all other reductions on. *)
Definition sS : settings := mkSettings false true true true false true true true 10 60 true.
Example C41_case2 : wf_input Pu /\ primal_propagation_on sS = false /\ ston_cols_on sS = false /\
  option_map (fun r => (res_status r, tiny (res_state r)))
    (run_presolver sS (fun _ => true) (fun _ => false) 20 Pu) = Some (UNCHANGED, false).
Proof.
  split; [apply wfb_ok; vm_compute; reflexivity|]. split; [reflexivity|]. split; [reflexivity|].
  vm_compute. reflexivity.
Qed.

Definition sT : settings := mkSettings false false true true false true true true 10 60 true.
Example C41_case3 : wf_input Pu /\ primal_propagation_on sT = false /\ ston_cols_on sT = false /\
  dton_eq_on sT = false /\
  option_map (fun r => res_status r) (run_presolver sT (fun _ => true) (fun _ => false) 20 Pu) = Some UNCHANGED.
Proof.
  split; [apply wfb_ok; vm_compute; reflexivity|]. split; [reflexivity|]. split; [reflexivity|].
  split; [reflexivity|]. vm_compute. reflexivity.
Qed.
