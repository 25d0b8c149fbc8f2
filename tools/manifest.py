# Writes MANIFEST.json.
import json
C=[]
def c(prop,status,thms,note=""): C.append(dict(property=prop,status=status,theorems=thms.split(),note=note))
c("C01","partial","C01_run_presolver_terminates C01_run_terminates_partial C01_run_terminates_no_dton","for arbitrary tame explorers; for the modelled explorers unconditionally with doubleton rows off, and in general when no near-zero fill-in is written (the code is undefined there, see C45_refuted)")
c("C02","proved","C02_status_meaning C02_observation_is_faithful C02_status_of_run C02_result_is_reached_partial","for arbitrary explorers and for the modelled ones")
c("C03","proved","C03_settings")
c("C04","proved","C04_vector_history C04_vector_contains C04_capacity_zero_refuted","capacity > 0 is necessary: see the refuted theorem")
c("C05","partial","C05_input_copy_partial C05_documented_size_refuted","false for the documented length of Ap (one cell is read past its end); proved when Ap has one more cell")
c("C06","proved","C06_transpose C06_transpose_with_duplicates")
c("C07","proved","C07_shift_row")
c("C08","partial","C08_insert C08_put_is_insertion C08_insert_zero_partial C08_insert_zero_refuted C08_remove_partial C08_remove_refuted C08_substitute_partial","two boundary cases are false of the code and refuted")
c("C09","proved","C09_reduced_csr","from any state with consistent copies; reachability of such states is C11")
c("C10","proved","C10_index_maps C10_arrays_compacted C10_lists_compacted C09_reduced_csr")
c("C11","partial","C11_compaction C11_run_consistent_partial C11_run_consistent_no_dton C11_no_dton_no_tiny C11_refuted","holds at the end of every run without near-zero fill-in (always with doubleton rows off); false of the code otherwise, see C11_refuted")
CK="for every state of every run with doubleton rows and parallel columns off (and, with singleton columns on, through states without crossed sides or bounds)"
c("C14","partial","C14_activities_valid_partial C14_refuted","proved "+CK+"; false of the code after a doubleton substitution: the stale maximum is exhibited")
c("C15","partial","C15_activities_exact_partial","for every state of every run with doubleton rows, parallel columns and singleton columns off; with singleton columns on the activities are valid (C14) but can be loose")
c("C24","partial","C24_singleton_col_eq_partial C25_singleton_cols_partial",CK)
c("C25","partial","C25_singleton_cols_partial",CK)
c("C31","partial","C31_propagation_partial",CK+"; up to the variables the code itself fixes because their bounds are within the tolerance")
c("C33","partial","C33_implied_by_row_partial C33_implied_free_partial",CK)
c("C21","partial","C21_refuted C21_objective_partial","false of the code: an empty column with equal bounds is counted twice; proved for whole runs when doubleton rows and parallel columns are off and no column is removed twice")
c("C23","partial","C23_refuted C38_refuted C46_feasible_back_partial","false of the code: two witnesses; recovered rightly (within the tolerances of C46) when the other variables of its rows have their values already")
c("C46","partial","C46_feasible_back_partial C46_no_dual_fix_partial","for every run with close bounds, empty and singleton rows, empty columns, dual fixing, redundant rows and propagation; with dual fixing, when no neighbour of a variable sent to infinity was fixed before it (false otherwise, C23_refuted); substitutions and merges are missing")
c("C47","partial","C47_optimal_back_partial","for every run with close bounds, empty and singleton rows, empty columns, dual fixing and redundant rows")
c("C26","partial","C26_dton_partial","proved at every reached state when every listed row is an equation and no nonzero coefficient is dropped; bounds of a removed variable are recovered up to drift of the number of removed variables (each step allows MAX_RATIO_PIVOT*FEAS_TOL); needs a feasible point, otherwise infeasibility may be hidden (C27_refuted)")
c("C27","partial","C27_not_hidden_partial C27_dual_fix_partial C27_refuted","false of the code in general: doubleton rows hide an infeasible bound (C27_refuted); proved up to tolerances for runs that neither substitute nor merge, with dual fixing when what it recorded can be undone")
c("C28","partial","C28_parallel_rows_partial C28_rows_exact_partial C28_refuted C28_edge_refuted","false of the code in general: a third parallel row is dropped after an inequality/equality swap (C28_refuted), and a feasible edge value can be reported infeasible (C28_edge_refuted); proved at every reached state when rows that look parallel are exactly parallel and no equation is parallel to two inequalities; forward exactly, without the edge, when in addition the sides parallel rows give are equal or further apart than the tolerance")
c("C29","proved","C29_search C29_comparator C29_refines")
c("C30","partial","C30_parallel_cols_partial C30_split_partial C30_refuted","the reduction keeps the optimal value and reports unboundedness rightly when columns that look parallel are; the split is right when no finite bound is lost in the merge; false of the code otherwise: the split uses the merged infinity tags")
c("C32","partial","C32_redundant_rows_partial C32_refuted","proved "+CK+", within the tolerance; false of the code after a doubleton substitution (stale maximal activity)")
c("C36","partial","C36_stationarity_partial C36_parallel_rows_partial C36_refuted","proved for every run with doubleton rows, parallel rows and parallel columns off; with parallel rows on for problems whose nearly proportional rows are proportional and runs in which no removed row gave both its sides; false of the code when both sides of a row are taken from the same other row")
c("C37","partial","C37_step_partial C37_run_partial C37_refuted","kept by close bounds, empty rows and columns, singleton rows, dual fixing and redundant rows, step by step and for runs with these only; false of the code with default settings: closing a row for one singleton column and substituting another singleton column of the same row returns a dual value of the wrong sign")
c("C38","partial","C38_all_assigned_partial C38_refuted C38_plain_runs_partial","proved for every run with doubleton rows and parallel columns off whose log has only invertible records; false of the code: a variable of a row without sides becomes infinite; without substitution, merging and dual fixing for every run")
c("C41","partial","C41_refuted C41_same_matrix_partial C41_same_problem_partial C41_same_problem_no_dton_partial","false of the code as stated: bounds may be tightened while the sizes stay. What holds, for all settings: rows, columns, matrix, costs and offset are those of the given problem; for the settings without propagation and singleton columns the bounds and sides too (hypothesis: no coefficient below the storage tolerance arose; not needed with doubleton equations off)")
c("C44","partial","C44_exact_runs_all_settings_partial C44_exact_runs_partial C44_refuted C44_parallel_refuted","false of the code in general: two witnesses (close bounds; near-parallel rows); proved for all settings for every run in which no tolerance comes into play (S_Exact.v); without doubleton equations and parallel rows and columns that means: (bounds that differ differ by more than the tolerance when close bounds are looked for, variables fixed by propagation have that value in all feasible points, the list of empty columns is up to date)")
c("C48","partial","C48_no_loss_all_settings_partial C48_no_loss_partial C48_calls_faithful","for all settings for every run in which no tolerance comes into play (S_Exact.v), with weaker conditions when doubleton equations and parallel rows and columns are off; as in C44")
c("C49","proved","C49_matrix_kept C49_matrix_kept_between C49_doubleton_refuted","every run with doubleton rows off; the last theorem shows that the hypothesis is needed")
c("C39","partial","C39_nnz_never_grows_partial","every run without near-zero fill-in")
c("C40","partial","C40_C45_run_safe_partial","every run without near-zero fill-in; the flag bad also records loops that run out of fuel")
c("C45","partial","C40_C45_run_safe_partial C45_refuted","false of the code with near-zero fill-in")
NT="for every state of every run without near-zero fill-in (all runs with doubleton rows off)"
c("C16","partial","C16_locks_partial",NT)
c("C17","partial","C17_singleton_rows_partial",NT+"; within the tolerance of the row's variable")
c("C18","partial","C18_empty_rows_partial",NT)
c("C19","partial","C19_empty_cols_partial C19_values_partial",NT+"; when the list of empty columns is up to date (see C21_refuted)")
c("C20","partial","C20_fixed_columns_partial C20_close_bounds_partial",NT)
c("C22","partial","C22_dual_fix_partial",NT+"; off by the tolerance in a variable whose bounds are crossed")
c("C34","proved","C34_records C34_replay C34_run_log_partial")
c("C35","proved","C35_placement C10_index_maps C35_api_partial")
c("C42","partial","C42_refuted","false of the code: the second clean-up overwrites the index maps while the log still uses the first numbering")
c("C43","proved","C43_repeatable")
c("C12","proved","C12_no_race C12_one_result C12_schedules_end","sequentially consistent memory, which the C memory model gives to programs without races")
c("C13","partial","C13_refuted C13_handled_partial C13_no_leak_partial C13_leaks C13_built_and_freed","false of the code for the listed allocations; proved for every set of failures among the others")
json.dump(dict(claims=C),open("/verif/MANIFEST.json","w"),indent=1)
