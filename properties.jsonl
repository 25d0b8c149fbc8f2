{"id": "C01", "title": "run_presolver terminates", "statement": "For every problem, every settings struct and every behaviour of the clock, the fast/medium phase loop of run_presolver stops after finitely many phases, and the number of phases is bounded by the initial number of non-zeros; the time limit is never needed for termination.", "quantifier": "all initial nnz counts, all sequences of explorer outcomes in which nnz does not grow, all clock readings", "why_tests_cant": "a test observes termination on one input; the claim is about every possible sequence of explorer effects and clock readings", "anchors": ["src/core/Presolver.c:run_presolver", "src/core/Presolver.c:update_termination", "src/core/Presolver.c:update_complexity"]}
{"id": "C02", "title": "Meaning of the returned status", "statement": "run_presolver returns exactly one of UNCHANGED, REDUCED, INFEASIBLE, UNBNDORINFEAS; INFEASIBLE/UNBNDORINFEAS is returned exactly when some explorer reported it; otherwise UNCHANGED is returned exactly when rows, columns and non-zeros all equal those of the input, else REDUCED.", "quantifier": "all runs, all combinations of explorer statuses OR-ed together", "why_tests_cant": "status values are OR-ed bit patterns; tests cannot enumerate all the combinations and orders", "anchors": ["src/core/Presolver.c:run_presolver", "src/core/Presolver.c:final_status", "include/PSLP/PSLP_status.h"]}
{"id": "C03", "title": "Settings helpers", "statement": "default_settings, set_settings_true and set_settings_false set every reduction switch as documented and set_settings_true/false leave max_shift and max_time alone, from any prior contents.", "quantifier": "all prior contents of the settings struct", "why_tests_cant": "a test checks some prior contents; the frame condition ranges over all of them", "anchors": ["src/core/Presolver.c:default_settings", "src/core/Presolver.c:set_settings_true", "src/core/Presolver.c:set_settings_false"]}
{"id": "C04", "title": "Growable vectors", "statement": "Any sequence of append, append_array and clear operations leaves the vector holding exactly the appended elements in order, never writes outside the allocation, and keeps length <= capacity.", "quantifier": "all operation sequences, all initial capacities > 0, all element values", "why_tests_cant": "growth happens at data-dependent points; all histories of operations are quantified over", "anchors": ["include/data_structures/Vec_macros.h"]}
{"id": "C05", "title": "Input matrix is copied faithfully", "statement": "After new_presolver the internal row-wise matrix contains exactly the rows of the caller's CSR arrays, and building it reads and writes only inside the arrays the caller passed and the allocations made.", "quantifier": "all CSR inputs (m, n, nnz, Ap, Ai, Ax)", "why_tests_cant": "out-of-bounds reads are silent in tests; equality is for all sizes", "anchors": ["src/core/Matrix.c:matrix_new_no_extra_space"]}
{"id": "C06", "title": "Transpose is the transpose", "statement": "The column-wise copy contains the entry (i,j,v) exactly when the row-wise matrix does, each column lists its rows in increasing order, and building it never writes outside its allocation.", "quantifier": "all matrices, including empty rows/columns", "why_tests_cant": "needs to hold for all sparsity patterns and sizes", "anchors": ["src/core/Matrix.c:transpose", "src/core/Matrix.c:calc_memory", "src/core/Matrix.c:calc_memory_row"]}
{"id": "C07", "title": "Making room in a column never corrupts others", "statement": "When the presolver shifts neighbouring columns to make room for fill-in, every column keeps exactly its entries in order, no two columns overlap, nothing is written outside the allocation, and on success the requested extra space is available; on failure nothing changes.", "quantifier": "all matrices in the gap layout, all rows, all requested sizes, all max_shift", "why_tests_cant": "the shifting code walks left or right depending on data; all layouts are quantified over", "anchors": ["src/core/Matrix.c:shift_row"]}
{"id": "C08", "title": "Coefficient removal and insertion", "statement": "Removing a coefficient from a row deletes exactly that entry; inserting or updating one sets exactly that entry, keeps indices sorted and changes the stored size by the right amount; both touch only the row's own storage.", "quantifier": "all rows (sorted), all positions, all values", "why_tests_cant": "all positions and lengths including the boundaries", "anchors": ["src/core/Matrix.c:remove_coeff", "src/core/Matrix.c:insert_or_update_coeff", "src/explorers/DtonsEq.c:update_row_A_dton"]}
{"id": "C09", "title": "Reduced problem arrays are a well-formed CSR matrix", "statement": "The Ap/Ai/Ax arrays handed to the user after run_presolver are a gap-free CSR matrix: Ap starts at 0, is non-decreasing and ends at nnz, and row r of it is the r-th surviving row with surviving columns renumbered.", "quantifier": "all gap layouts, all sets of surviving rows and columns", "why_tests_cant": "the in-place compaction reads and writes the same arrays; correctness is for all layouts", "anchors": ["src/core/Matrix.c:remove_extra_space", "src/core/Presolver.c:populate_presolved_problem"]}
{"id": "C10", "title": "Index maps are exact", "statement": "The maps used by postsolve send the r-th surviving original index to r, all removed indices to -1, are strictly increasing on survivors and onto the reduced range; every per-row/column array is compacted by the same map.", "quantifier": "all sets of surviving rows/columns", "why_tests_cant": "all subsets, all sizes", "anchors": ["src/core/utils.c", "src/core/Constraints.c:constraints_clean", "src/core/Matrix.c:remove_extra_space"]}
{"id": "C11", "title": "Row and column copies stay in agreement", "statement": "After rows or columns are deleted, the row-wise and the column-wise copy still hold the same active entries, row/column sizes equal the number of active entries, and the non-zero count is right.", "quantifier": "all states in which the two copies agree, all sets of deletions", "why_tests_cant": "agreement between redundant structures is an invariant over all histories", "anchors": ["src/core/Constraints.c:delete_inactive_rows", "src/core/Constraints.c:delete_inactive_cols_from_A_and_AT"]}
{"id": "C12", "title": "Parallel initialisation is deterministic", "statement": "The presolver produced by new_presolver is the same for every interleaving of the initialisation thread with the main thread.", "quantifier": "all interleavings of the two threads", "why_tests_cant": "tests see a few schedules only", "anchors": ["src/core/Presolver.c:new_presolver", "src/core/Presolver.c:init_thread_func", "include/core/pslp_thread.h"]}
{"id": "C13", "title": "Allocation failure is handled", "statement": "If any allocation inside new_presolver fails, new_presolver returns NULL and no memory is freed twice and no invalid pointer is dereferenced.", "quantifier": "all allocation-failure points", "why_tests_cant": "the failure points are rarely exercised; the claim ranges over each of them", "anchors": ["src/core/Presolver.c:new_presolver", "src/core/Presolver.c:presolver_clean_up", "src/core/Workspace.c", "src/core/Constraints.c:free_constraints"]}
{"id": "C14", "title": "Activity bounds are valid", "statement": "Whenever the recorded minimal (maximal) activity of a row is flagged finite, no point within the variable bounds gives the row a smaller (larger) value, and the infinity counters count exactly the infinite contributions.", "quantifier": "all rows, all bounds, all points within the bounds", "why_tests_cant": "universally quantified over real vectors", "anchors": ["src/core/Activity.c:new_activities", "src/core/Activity.c:Activity_init"]}
{"id": "C15", "title": "Incremental activity maintenance is exact", "statement": "After a bound change, a variable fix or a coefficient change, the incrementally maintained activity equals the one recomputed from scratch.", "quantifier": "all rows, bounds, changes; any history of changes", "why_tests_cant": "drift accumulates over histories; the invariant must hold after each of them", "anchors": ["src/core/Activity.c:update_act_bound_change", "src/core/Activity.c:update_activities_fixed_col", "src/core/Activity.c:update_activity_coeff_change"]}
{"id": "C16", "title": "Lock counters are exact", "statement": "For every column the up/down lock counters equal the number of rows that can be violated by increasing/decreasing the variable, initially and after side changes and row deletions.", "quantifier": "all matrices, sides and histories of the covered updates", "why_tests_cant": "all histories", "anchors": ["src/core/Locks.c", "include/core/Locks.h"]}
{"id": "C17", "title": "Singleton rows", "statement": "Removing a singleton row and transferring it to the variable's bounds keeps exactly the feasible set (up to the documented feasibility tolerance), and INFEASIBLE is reported only when the row and the bounds contradict each other.", "quantifier": "all states, all singleton rows, all points", "why_tests_cant": "quantifies over all points and data", "anchors": ["src/explorers/SimpleReductions.c:remove_stonrow", "src/core/CoreTransformation.c:update_lb", "src/core/CoreTransformation.c:update_ub"]}
{"id": "C18", "title": "Empty rows", "statement": "An empty row is dropped only if 0 lies within its sides up to tolerance; INFEASIBLE is reported exactly when it does not.", "quantifier": "all sides", "why_tests_cant": "all values", "anchors": ["src/explorers/SimpleReductions.c:remove_empty_rows"]}
{"id": "C19", "title": "Empty columns", "statement": "An empty column is fixed at a value inside its bounds that minimises its cost, its cost is moved to the offset exactly once, and UNBNDORINFEAS is reported exactly when the cost can be driven to minus infinity.", "quantifier": "all bounds and costs", "why_tests_cant": "all values and infinite bounds", "anchors": ["src/explorers/SimpleReductions.c:remove_empty_cols"]}
{"id": "C20", "title": "Fixed columns are substituted correctly", "statement": "Deleting a fixed column shifts the row sides and the objective offset so that the remaining problem, extended by the fixed value, has the same feasible points and objective values.", "quantifier": "all states, all fixed columns, all points", "why_tests_cant": "all points and data", "anchors": ["src/explorers/SimpleReductions.c:delete_fixed_cols_from_problem", "src/core/CoreTransformation.c:fix_col", "src/core/Problem.c:fix_var_in_obj"]}
{"id": "C21", "title": "Objective offset accounts for every removed variable exactly once", "statement": "For every problem the objective of the reduced problem plus obj_offset equals the original objective at the postsolved point.", "quantifier": "all problems", "why_tests_cant": "an arithmetic identity over all problems and all points", "anchors": ["src/core/Problem.c", "src/explorers/SimpleReductions.c:remove_variables_with_close_bounds", "src/explorers/SimpleReductions.c:remove_empty_cols"]}
{"id": "C22", "title": "Dual fixing keeps an optimal solution", "statement": "Fixing a variable without down-locks (up-locks) and with non-negative (non-positive) cost at its lower (upper) bound never loses all optimal solutions; UNBNDORINFEAS is reported only when the LP is indeed unbounded or infeasible.", "quantifier": "all states with exact locks, all feasible points", "why_tests_cant": "optimality quantifies over all feasible points", "anchors": ["src/explorers/Simple_dual_fix.c:_simple_dual_fix", "src/explorers/Simple_dual_fix.c:simple_dual_fix"]}
{"id": "C23", "title": "Variables fixed at infinity are recovered feasibly", "statement": "When a variable is sent to infinity and its rows are dropped, postsolve gives it a finite value such that every dropped row and the variable's own bounds are satisfied.", "quantifier": "all dropped rows, all values of the other variables", "why_tests_cant": "all row data and points", "anchors": ["src/core/CoreTransformation.c:fix_col_to_negative_inf", "src/core/Postsolver.c:retrieve_fix_col_inf"]}
{"id": "C24", "title": "Free column singletons in equality rows", "statement": "Eliminating an (implied) free column singleton with its equality row keeps the set of feasible points of the other variables and the objective; postsolve restores the value that satisfies the row and lies within the variable's bounds.", "quantifier": "all states, all points", "why_tests_cant": "all points and data", "anchors": ["src/explorers/StonCols.c:process_colston_eq", "src/core/CoreTransformation.c:implied_free_from_above_by_row", "src/core/Postsolver.c:retrieve_sub_col"]}
{"id": "C25", "title": "Column singletons in inequality rows", "statement": "Dual-fixing, eliminating or turning an inequality into an equality because of a column singleton keeps at least one optimal solution; UNBNDORINFEAS is only reported when some ray improves the objective.", "quantifier": "all states, all feasible points", "why_tests_cant": "optimality is over all feasible points", "anchors": ["src/explorers/StonCols.c:process_colston_ineq"]}
{"id": "C26", "title": "Doubleton equality substitution", "statement": "Substituting a variable through a two-variable equality keeps the feasible set and objective, transfers the variable's bounds to the variable that stays, and postsolve restores the value.", "quantifier": "all states, all points", "why_tests_cant": "all points and data", "anchors": ["src/explorers/DtonsEq.c:execute_substitution", "src/explorers/DtonsEq.c:modify_bounds", "src/explorers/DtonsEq.c:subst_col_in_obj_dton"]}
{"id": "C27", "title": "Infeasibility is never hidden", "statement": "If run_presolver returns REDUCED or UNCHANGED and the reduced problem is feasible, then the original problem is feasible.", "quantifier": "all problems", "why_tests_cant": "all problems", "anchors": ["src/explorers/DtonsEq.c:modify_bounds", "src/explorers/Parallel_rows.c:process_single_bin"]}
{"id": "C28", "title": "Parallel rows are merged correctly", "statement": "Merging a group of exactly parallel rows into one keeps exactly the feasible set; INFEASIBLE is reported only if the group is contradictory.", "quantifier": "all groups of parallel rows, all sides, all points", "why_tests_cant": "all group sizes and orders", "anchors": ["src/explorers/Parallel_rows.c:process_single_bin", "src/core/CoreTransformation.c:change_rhs_of_ineq", "src/core/CoreTransformation.c:change_lhs_of_ineq"]}
{"id": "C29", "title": "Parallel rows are found safely", "statement": "The search for parallel rows only groups active rows that have the same support and proportional coefficients (up to tolerance), groups are disjoint, and the in-place construction never overwrites rows it still has to read, whatever hash values occur and in whatever order qsort leaves equal keys.", "quantifier": "all matrices, all hash values, all permutations qsort may return", "why_tests_cant": "hash collisions and sort order cannot be enumerated", "anchors": ["src/explorers/Parallel_rows.c:find_parallel_rows", "src/explorers/Parallel_rows.c:find_parallel_rows_in_bin", "src/explorers/Parallel_rows.c:get_bin_size"]}
{"id": "C30", "title": "Parallel columns", "statement": "Merging two parallel columns with proportional costs keeps the set of attainable row activities and objectives, and postsolve splits the merged value into two values within the original bounds.", "quantifier": "all bounds (finite or not), all ratios, all merged values", "why_tests_cant": "all values including infinite bounds", "anchors": ["src/explorers/Parallel_cols.c:process_single_bin", "src/core/Postsolver.c:retrieve_parallel_col"]}
{"id": "C31", "title": "Propagated bounds are implied", "statement": "Every bound tightened by primal propagation is satisfied by every feasible point of the problem before tightening, and INFEASIBLE is returned only if there is none.", "quantifier": "all rows, activities, bounds, feasible points", "why_tests_cant": "all points", "anchors": ["src/explorers/Primal_propagation.c:bound_tightening_single_row_rhs", "src/explorers/Primal_propagation.c:bound_tightening_single_row_lhs", "src/explorers/Primal_propagation.c:update_lb_within_propagation"]}
{"id": "C32", "title": "Redundant rows and sides", "statement": "A row (or a side of it) is dropped by the activity check only if every point within the bounds satisfies it up to the feasibility tolerance, and INFEASIBLE is reported only if no point within the bounds does; forcing rows force.", "quantifier": "all rows, bounds and points", "why_tests_cant": "all points", "anchors": ["src/explorers/SimpleReductions.c:check_activity", "src/explorers/SimpleReductions.c:check_activities"]}
{"id": "C33", "title": "Implied-free tests are sound", "statement": "A bound is treated as redundant only if the row (with the other variables within bounds) enforces it.", "quantifier": "all rows, bounds and points", "why_tests_cant": "all points", "anchors": ["src/core/CoreTransformation.c:implied_free_from_above_by_row", "src/core/CoreTransformation.c:implied_free_from_below_by_row", "src/core/CoreTransformation.c:is_ub_implied_free"]}
{"id": "C34", "title": "The reduction log is read back exactly as written", "statement": "Postsolve decodes from the flat type/index/value log exactly the sequence of reductions recorded, in reverse order.", "quantifier": "all sequences of reductions of any kind and length", "why_tests_cant": "all sequences", "anchors": ["src/core/Postsolver.c:save_retrieval_fixed_col", "src/core/Postsolver.c:postsolver_run"]}
{"id": "C35", "title": "Postsolve places the reduced solution", "statement": "Before replaying reductions, postsolve copies each reduced x, y, z entry to the original index it belongs to and nothing else.", "quantifier": "all maps and reduced solutions", "why_tests_cant": "all maps", "anchors": ["src/core/Postsolver.c:postsolver_update", "src/core/Postsolver.c:postsolver_run"]}
{"id": "C36", "title": "Postsolve preserves dual stationarity", "statement": "If the reduced solution satisfies z = c - A^T y on the reduced problem, each replayed reduction keeps z = c - A^T y on all variables recovered so far, so the postsolved duals satisfy it for the original problem.", "quantifier": "all reduction logs, all reduced solutions", "why_tests_cant": "a telescoping identity over all logs", "anchors": ["src/core/Postsolver.c:postsolver_run", "src/core/Postsolver.c:retrieve_fix_col", "src/core/Postsolver.c:retrieve_sub_col", "src/core/Postsolver.c:retrieve_bound_change"]}
{"id": "C37", "title": "Dual signs and complementary slackness survive postsolve", "statement": "For each reduction, if the reduced solution satisfies the sign conditions and complementary slackness, so does the postsolved one.", "quantifier": "all reduced primal-dual solutions", "why_tests_cant": "all points", "anchors": ["src/core/Postsolver.c:retrieve_bound_change", "src/core/Postsolver.c:retrieve_lhs_change", "src/core/Postsolver.c:retrieve_rhs_change"]}
{"id": "C38", "title": "Every entry of the postsolved solution is assigned", "statement": "After postsolve no entry of x, y or z is left at the internal 'not retrieved' marker.", "quantifier": "all runs", "why_tests_cant": "all logs", "anchors": ["src/core/Postsolver.c:postsolver_run"]}
{"id": "C39", "title": "Non-zeros never grow", "statement": "No reduction increases the number of stored non-zeros, so the removed-non-zeros statistics never wrap around.", "quantifier": "all states and reductions", "why_tests_cant": "fill-in depends on data", "anchors": ["src/explorers/DtonsEq.c:update_row_A_dton", "include/PSLP/PSLP_stats.h"]}
{"id": "C40", "title": "Exhaustive inner loops terminate", "statement": "The exhaustive singleton-row, singleton-column, doubleton-row and propagation loops terminate from every state.", "quantifier": "all states", "why_tests_cant": "all states", "anchors": ["src/explorers/SimpleReductions.c:remove_ston_rows", "src/explorers/StonCols.c:remove_ston_cols", "src/explorers/DtonsEq.c:remove_dton_eq_rows", "src/explorers/Primal_propagation.c:propagate_primal"]}
{"id": "C41", "title": "UNCHANGED means the same problem", "statement": "If run_presolver returns UNCHANGED, the reduced problem is the original problem (same matrix, sides, bounds, costs).", "quantifier": "all problems", "why_tests_cant": "all problems", "anchors": ["src/core/Presolver.c:final_status"]}
{"id": "C42", "title": "run_presolver can be called once more", "statement": "Calling run_presolver again on an already presolved presolver and then postsolving still yields a solution of the original problem.", "quantifier": "all histories of API calls", "why_tests_cant": "API histories are unbounded", "anchors": ["src/core/Presolver.c:run_presolver", "src/core/Presolver.c:postsolve"]}
{"id": "C43", "title": "postsolve can be repeated", "statement": "Calling postsolve several times with different reduced solutions gives for each the same result as a first call.", "quantifier": "all histories of postsolve calls", "why_tests_cant": "all histories", "anchors": ["src/core/Presolver.c:postsolve", "src/core/Postsolver.c:postsolver_update"]}
{"id": "C44", "title": "INFEASIBLE is only reported for infeasible problems", "statement": "If run_presolver returns INFEASIBLE, no point satisfies all rows and bounds of the original problem.", "quantifier": "all problems", "why_tests_cant": "all problems and all points", "anchors": ["src/core/Presolver.c:run_presolver", "src/explorers/SimpleReductions.c:remove_variables_with_close_bounds", "src/explorers/Parallel_rows.c:process_single_bin"]}
{"id": "C45", "title": "No access to entries that do not exist", "statement": "run_presolver never reads the first entry of an empty row or column and never deletes a matrix entry that is not there, on any well-formed problem.", "quantifier": "all problems, settings, storage layouts and clock behaviours", "why_tests_cant": "the faulty access depends on exact cancellation or near-zero data", "anchors": ["src/core/Matrix.c:insert_or_update_coeff", "src/explorers/DtonsEq.c:update_row_A_dton", "src/explorers/SimpleReductions.c:remove_stonrow", "src/explorers/StonCols.c:remove_ston_cols"]}
{"id": "C46", "title": "The postsolved point is feasible", "statement": "If the point given to postsolve satisfies the rows and bounds of the reduced problem up to a tolerance, the point returned satisfies the rows and bounds of the original problem up to a tolerance that depends only on the original data.", "quantifier": "all problems, all points of the reduced problem", "why_tests_cant": "all problems and all points; errors may add up over any number of reductions", "anchors": ["src/core/Presolver.c:postsolve", "src/core/Postsolver.c:postsolver_run", "src/core/Postsolver.c:retrieve_fix_col_inf", "src/explorers/Primal_propagation.c:propagate_primal"]}
{"id": "C47", "title": "The postsolved solution is as good as any", "statement": "If the primal-dual solution given to postsolve satisfies the optimality conditions of the reduced problem up to tolerances, no feasible point of the original problem has an objective value lower than that of the returned point by more than the tolerances weighed with the returned multipliers.", "quantifier": "all problems, all primal-dual solutions of the reduced problem, all feasible points", "why_tests_cant": "quantifies over all feasible points", "anchors": ["src/core/Presolver.c:postsolve", "src/core/Postsolver.c:postsolver_run"]}
{"id": "C48", "title": "Presolving loses no optimum", "statement": "For every feasible point of the original problem the reduced problem has a feasible point, objective offset included, at least as good; so the optimal value of the reduced problem is not above that of the original.", "quantifier": "all problems, all feasible points, all sequences of reductions a run makes", "why_tests_cant": "quantifies over all feasible points and all runs", "anchors": ["src/core/Presolver.c:run_presolver"]}
{"id": "C49", "title": "The matrix handed out is cut out of the matrix given", "statement": "If substitution through equations with two entries is switched off, the matrix of the reduced problem consists of the rows and columns of the original one that were not removed, in the original order, with every coefficient unchanged: no entry is lost, changed or added.", "quantifier": "all problems, all settings with that reduction off, all runs", "why_tests_cant": "rows and columns are deleted, compacted and merged any number of times in any order; one entry lost by a stale size goes unnoticed on most problems", "anchors": ["src/core/Constraints.c:delete_inactive_rows", "src/core/Constraints.c:delete_inactive_cols_from_A_and_AT", "src/explorers/StonCols.c:process_colston_eq", "src/explorers/Parallel_cols.c:remove_parallel_cols", "src/core/Presolver.c:run_presolver"]}
