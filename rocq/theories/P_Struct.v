(** C01, C02, C11, C39, C40, C45: whole runs.  Theorems only; vocabulary in S_Run.v, S_Struct.v.

    [fits] answers, for each substitution of a doubleton row, whether the storage has room for the
    fill-in; [clock] answers whether the time limit is over; [fuel] bounds the number of phases the
    model looks at ([None] means it was not enough).  The theorems hold for all of them.

    [tiny s = false]: on the way to [s] no doubleton substitution wrote a near-zero (<= 1e-10)
    coefficient for an absent column (the flag is set at that write, M_Dton.v, and never reset).
    Without this hypothesis C11 and C45 are false of the code (P_Refute.v).  With doubleton rows
    switched off it always holds ([C11_no_dton_no_tiny]). *)
From Coq Require Import NArith.
From Verif Require Import M_Num S_LP M_Settings M_Driver S_Driver M_State M_Act M_Core M_Simple M_StonCols
  M_Dton M_Parallel M_Propagate M_Init M_Post M_Run S_Run S_Struct L_Driver L_Refute L_Run L_Struct12.
Open Scope nat_scope.
Notation bad := M_State.bad.

Theorem C11_no_dton_no_tiny : forall stgs fits P, wf_input P -> dton_eq_on stgs = false ->
  no_tiny_fill stgs fits (new_presolver P).
Proof. exact no_dton_no_tiny. Qed.
Print Assumptions C11_no_dton_no_tiny.

(** ** C01: run_presolver returns, after at most 3*nnz+3 phases *)
Theorem C01_run_terminates_partial : forall stgs fits clock P, wf_input P ->
  no_tiny_fill stgs fits (new_presolver P) ->
  let bound := 3 * Z.to_nat (total_len (in_m P) (in_A P)) + 3 in
  exists r, run_presolver stgs fits clock bound P = Some r /\ res_phases r <= bound.
Proof. exact run_terminates. Qed.
Print Assumptions C01_run_terminates_partial.

Theorem C01_run_terminates_no_dton : forall stgs fits clock P, wf_input P ->
  dton_eq_on stgs = false ->
  let bound := 3 * Z.to_nat (total_len (in_m P) (in_A P)) + 3 in
  exists r, run_presolver stgs fits clock bound P = Some r /\ res_phases r <= bound.
Proof. exact (fun stgs fits clock P WF D => run_terminates stgs fits clock P WF (no_dton_no_tiny stgs fits P WF D)). Qed.
Print Assumptions C01_run_terminates_no_dton.

(** ** C02: the status of a run of the modelled explorers *)
Theorem C02_status_of_run : forall stgs fits clock fuel P r,
  run_presolver_gen (observed (the_explorers stgs fits)) stgs (fun t => S (S (nc (fst t)))) clock fuel
    (in_m P) (in_n P) (Z.to_nat (total_len (in_m P) (in_A P))) (new_presolver P, []) = Some r ->
  let reported := snd (res_state r) in
  let s' := fst (res_state r) in
  let same_size := in_m P = length (live_rows s') /\ in_n P = length (live_cols s') /\
                   Z.to_nat (total_len (in_m P) (in_A P)) = Z.to_nat (nnz s') in
  (trouble (res_status r) <-> exists st, In st reported /\ trouble st) /\
  (res_reduced r = false <-> exists st, In st reported /\ trouble st) /\
  (~ (exists st, In st reported /\ trouble st) ->
     (res_status r = UNCHANGED <-> same_size) /\ (res_status r = REDUCED <-> ~ same_size)).
Proof. exact (fun stgs fits clock fuel P => run_presolver_status (the_explorers stgs fits) stgs (fun s => S (S (nc s))) (the_status_ranges stgs fits) clock fuel _ _ _ (new_presolver P)). Qed.
Print Assumptions C02_status_of_run.

(** ** C11: after a run that hands out a reduced problem, the rows and columns in store agree *)
Theorem C11_run_consistent_partial : forall stgs fits clock P fuel r, wf_input P ->
  run_presolver stgs fits clock fuel P = Some r -> tiny (res_state r) = false -> res_reduced r = true ->
  consistent (res_state r).
Proof. exact (fun stgs fits clock P fuel r WF H NT R => proj2 (proj2 (proj2 (proj2 (proj2 (run_structure stgs fits clock P fuel r WF H NT))))) R). Qed.
Print Assumptions C11_run_consistent_partial.

Theorem C11_run_consistent_no_dton : forall stgs fits clock P fuel r, wf_input P ->
  dton_eq_on stgs = false ->
  run_presolver stgs fits clock fuel P = Some r -> res_reduced r = true ->
  consistent (res_state r).
Proof. exact (fun stgs fits clock P fuel r WF D H R => proj2 (proj2 (proj2 (proj2 (proj2 (run_structure stgs fits clock P fuel r WF H (run_tiny stgs fits clock P fuel r WF H (no_dton_no_tiny stgs fits P WF D))))))) R). Qed.
Print Assumptions C11_run_consistent_no_dton.

(** ** C39: neither the non-zero count nor any row grows *)
Theorem C39_nnz_never_grows_partial : forall stgs fits clock P fuel r, wf_input P ->
  run_presolver stgs fits clock fuel P = Some r -> tiny (res_state r) = false ->
  (nnz (res_state r) <= total_len (in_m P) (in_A P))%Z /\
  forall i, i < in_m P -> length (mA (res_state r) i) <= length (in_A P i).
Proof. exact run_nnz. Qed.
Print Assumptions C39_nnz_never_grows_partial.

(** ** C40, C45: no inner loop runs out of fuel and no entry that does not exist is read or deleted
    (the flag [bad] records both) *)
Theorem C40_C45_run_safe_partial : forall stgs fits clock P fuel r, wf_input P ->
  run_presolver stgs fits clock fuel P = Some r -> tiny (res_state r) = false -> bad (res_state r) = false.
Proof. exact (fun stgs fits clock P fuel r WF H NT => proj1 (run_structure stgs fits clock P fuel r WF H NT)). Qed.
Print Assumptions C40_C45_run_safe_partial.

(** Non-vacuity: a problem on which several reductions fire (a singleton row, bound propagation,
    and, with the default settings, a doubleton substitution with fill-in). *)
Definition Ps := prob
  [[(c0, 1%Q); (c1, 1%Q)]; [(c1, 1%Q); (c2, 1%Q); (c3, 1%Q)]; [(c0, 1%Q); (c2, 2%Q); (c3, 1%Q)];
   [(c3, 2%Q)]; [(c0, 1%Q); (c1, (-1)%Q); (c2, 3%Q); (c3, 3%Q)]]
  [Fin 1; Fin 1; Fin 1; NInf; NInf] [Fin 1; PInf; Fin 3; Fin 16; Fin 4]
  [Fin 0; Fin 0; Fin 0; Fin 0] [Fin 10; Fin 10; Fin 10; Fin 10] [1%Q; 2%Q; 2%Q; (-1)%Q].
Definition look o := option_map (fun r => (res_status r, res_reduced r, tiny (res_state r), length (live_rows (res_state r)), length (live_cols (res_state r)), nnz (res_state r))) o.
Example Ps_ok : wf_input Ps /\
  look (run_presolver default_settings (fun _ => true) (fun _ => false) 50 Ps)
  = Some (REDUCED, true, false, 3, 3, 9%Z) /\
  look (run_presolver (set_settings_false default_settings) (fun _ => true) (fun _ => false) 50 Ps)
  = Some (REDUCED, true, false, 4, 4, 12%Z).
Proof. split; [apply wfb_ok; vm_compute; reflexivity | split; vm_compute; reflexivity]. Qed.
