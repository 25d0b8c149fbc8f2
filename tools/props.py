import json
P=[]
def p(i,t,s,q,w,a): P.append(dict(id=i,title=t,statement=s,quantifier=q,why_tests_cant=w,anchors=a))
p("C01","run_presolver terminates","For every problem, every settings struct and every behaviour of the clock, the fast/medium phase loop of run_presolver stops after finitely many phases, and the number of phases is bounded by the initial number of non-zeros; the time limit is never needed for termination.","all initial nnz counts, all sequences of explorer outcomes in which nnz does not grow, all clock readings","a test observes termination on one input; the claim is about every possible sequence of explorer effects and clock readings",["src/core/Presolver.c:run_presolver","src/core/Presolver.c:update_termination","src/core/Presolver.c:update_complexity"])
p("C02","Meaning of the returned status","run_presolver returns exactly one of UNCHANGED, REDUCED, INFEASIBLE, UNBNDORINFEAS; INFEASIBLE/UNBNDORINFEAS is returned exactly when some explorer reported it; otherwise UNCHANGED is returned exactly when rows, columns and non-zeros all equal those of the input, else REDUCED.","all runs, all combinations of explorer statuses OR-ed together","status values are OR-ed bit patterns; tests cannot enumerate all the combinations and orders",["src/core/Presolver.c:run_presolver","src/core/Presolver.c:final_status","include/PSLP/PSLP_status.h"])
p("C03","Settings helpers","default_settings, set_settings_true and set_settings_false set every reduction switch as documented and set_settings_true/false leave max_shift and max_time alone, from any prior contents.","all prior contents of the settings struct","a test checks some prior contents; the frame condition ranges over all of them",["src/core/Presolver.c:default_settings","src/core/Presolver.c:set_settings_true","src/core/Presolver.c:set_settings_false"])
p("C04","Growable vectors","Any sequence of append, append_array and clear operations leaves the vector holding exactly the appended elements in order, never writes outside the allocation, and keeps length <= capacity.","all operation sequences, all initial capacities > 0, all element values","growth happens at data-dependent points; all histories of operations are quantified over",["include/data_structures/Vec_macros.h"])
p("C05","Input matrix is copied faithfully","After new_presolver the internal row-wise matrix contains exactly the rows of the caller's CSR arrays, and building it reads and writes only inside the arrays the caller passed and the allocations made.","all CSR inputs (m, n, nnz, Ap, Ai, Ax)","out-of-bounds reads are silent in tests; equality is for all sizes",["src/core/Matrix.c:matrix_new_no_extra_space"])
p("C06","Transpose is the transpose","The column-wise copy contains the entry (i,j,v) exactly when the row-wise matrix does, each column lists its rows in increasing order, and building it never writes outside its allocation.","all matrices, including empty rows/columns","needs to hold for all sparsity patterns and sizes",["src/core/Matrix.c:transpose","src/core/Matrix.c:calc_memory","src/core/Matrix.c:calc_memory_row"])
p("C07","Making room in a column never corrupts others","When the presolver shifts neighbouring columns to make room for fill-in, every column keeps exactly its entries in order, no two columns overlap, nothing is written outside the allocation, and on success the requested extra space is available; on failure nothing changes.","all matrices in the gap layout, all rows, all requested sizes, all max_shift","the shifting code walks left or right depending on data; all layouts are quantified over",["src/core/Matrix.c:shift_row"])
p("C08","Coefficient removal and insertion","Removing a coefficient from a row deletes exactly that entry; inserting or updating one sets exactly that entry, keeps indices sorted and changes the stored size by the right amount; both touch only the row's own storage.","all rows (sorted), all positions, all values","all positions and lengths including the boundaries",["src/core/Matrix.c:remove_coeff","src/core/Matrix.c:insert_or_update_coeff","src/explorers/DtonsEq.c:update_row_A_dton"])
p("C09","Reduced problem arrays are a well-formed CSR matrix","The Ap/Ai/Ax arrays handed to the user after run_presolver are a gap-free CSR matrix: Ap starts at 0, is non-decreasing and ends at nnz, and row r of it is the r-th surviving row with surviving columns renumbered.","all gap layouts, all sets of surviving rows and columns","the in-place compaction reads and writes the same arrays; correctness is for all layouts",["src/core/Matrix.c:remove_extra_space","src/core/Presolver.c:populate_presolved_problem"])
p("C10","Index maps are exact","The maps used by postsolve send the r-th surviving original index to r, all removed indices to -1, are strictly increasing on survivors and onto the reduced range; every per-row/column array is compacted by the same map.","all sets of surviving rows/columns","all subsets, all sizes",["src/core/utils.c","src/core/Constraints.c:constraints_clean","src/core/Matrix.c:remove_extra_space"])
p("C11","Row and column copies stay in agreement","After rows or columns are deleted, the row-wise and the column-wise copy still hold the same active entries, row/column sizes equal the number of active entries, and the non-zero count is right.","all states in which the two copies agree, all sets of deletions","agreement between redundant structures is an invariant over all histories",["src/core/Constraints.c:delete_inactive_rows","src/core/Constraints.c:delete_inactive_cols_from_A_and_AT"])
p("C12","Parallel initialisation is deterministic","The presolver produced by new_presolver is the same for every interleaving of the initialisation thread with the main thread.","all interleavings of the two threads","tests see a few schedules only",["src/core/Presolver.c:new_presolver","src/core/Presolver.c:init_thread_func","include/core/pslp_thread.h"])
p("C13","Allocation failure is handled","If any allocation inside new_presolver fails, new_presolver returns NULL and no memory is freed twice and no invalid pointer is dereferenced.","all allocation-failure points","the failure points are rarely exercised; the claim ranges over each of them",["src/core/Presolver.c:new_presolver","src/core/Presolver.c:presolver_clean_up","src/core/Workspace.c","src/core/Constraints.c:free_constraints"])
p("C14","Activity bounds are valid","Whenever the recorded minimal (maximal) activity of a row is flagged finite, no point within the variable bounds gives the row a smaller (larger) value, and the infinity counters count exactly the infinite contributions.","all rows, all bounds, all points within the bounds","universally quantified over real vectors",["src/core/Activity.c:new_activities","src/core/Activity.c:Activity_init"])
p("C15","Incremental activity maintenance is exact","After a bound change, a variable fix or a coefficient change, the incrementally maintained activity equals the one recomputed from scratch.","all rows, bounds, changes; any history of changes","drift accumulates over histories; the invariant must hold after each of them",["src/core/Activity.c:update_act_bound_change","src/core/Activity.c:update_activities_fixed_col","src/core/Activity.c:update_activity_coeff_change"])
p("C16","Lock counters are exact","For every column the up/down lock counters equal the number of rows that can be violated by increasing/decreasing the variable, initially and after side changes and row deletions.","all matrices, sides and histories of the covered updates","all histories",["src/core/Locks.c","include/core/Locks.h"])
p("C17","Singleton rows","Removing a singleton row and transferring it to the variable's bounds keeps exactly the feasible set (up to the documented feasibility tolerance), and INFEASIBLE is reported only when the row and the bounds contradict each other.","all states, all singleton rows, all points","quantifies over all points and data",["src/explorers/SimpleReductions.c:remove_stonrow","src/core/CoreTransformation.c:update_lb","src/core/CoreTransformation.c:update_ub"])
p("C18","Empty rows","An empty row is dropped only if 0 lies within its sides up to tolerance; INFEASIBLE is reported exactly when it does not.","all sides","all values",["src/explorers/SimpleReductions.c:remove_empty_rows"])
p("C19","Empty columns","An empty column is fixed at a value inside its bounds that minimises its cost, its cost is moved to the offset exactly once, and UNBNDORINFEAS is reported exactly when the cost can be driven to minus infinity.","all bounds and costs","all values and infinite bounds",["src/explorers/SimpleReductions.c:remove_empty_cols"])
p("C20","Fixed columns are substituted correctly","Deleting a fixed column shifts the row sides and the objective offset so that the remaining problem, extended by the fixed value, has the same feasible points and objective values.","all states, all fixed columns, all points","all points and data",["src/explorers/SimpleReductions.c:delete_fixed_cols_from_problem","src/core/CoreTransformation.c:fix_col","src/core/Problem.c:fix_var_in_obj"])
p("C21","Objective offset accounts for every removed variable exactly once","For every problem the objective of the reduced problem plus obj_offset equals the original objective at the postsolved point.","all problems","an arithmetic identity over all problems and all points",["src/core/Problem.c","src/explorers/SimpleReductions.c:remove_variables_with_close_bounds","src/explorers/SimpleReductions.c:remove_empty_cols"])
p("C22","Dual fixing keeps an optimal solution","Fixing a variable without down-locks (up-locks) and with non-negative (non-positive) cost at its lower (upper) bound never loses all optimal solutions; UNBNDORINFEAS is reported only when the LP is indeed unbounded or infeasible.","all states with exact locks, all feasible points","optimality quantifies over all feasible points",["src/explorers/Simple_dual_fix.c:_simple_dual_fix","src/explorers/Simple_dual_fix.c:simple_dual_fix"])
p("C23","Variables fixed at infinity are recovered feasibly","When a variable is sent to infinity and its rows are dropped, postsolve gives it a finite value such that every dropped row and the variable's own bounds are satisfied.","all dropped rows, all values of the other variables","all row data and points",["src/core/CoreTransformation.c:fix_col_to_negative_inf","src/core/Postsolver.c:retrieve_fix_col_inf"])
p("C24","Free column singletons in equality rows","Eliminating an (implied) free column singleton with its equality row keeps the set of feasible points of the other variables and the objective; postsolve restores the value that satisfies the row and lies within the variable's bounds.","all states, all points","all points and data",["src/explorers/StonCols.c:process_colston_eq","src/core/CoreTransformation.c:implied_free_from_above_by_row","src/core/Postsolver.c:retrieve_sub_col"])
p("C25","Column singletons in inequality rows","Dual-fixing, eliminating or turning an inequality into an equality because of a column singleton keeps at least one optimal solution; UNBNDORINFEAS is only reported when some ray improves the objective.","all states, all feasible points","optimality is over all feasible points",["src/explorers/StonCols.c:process_colston_ineq"])
p("C26","Doubleton equality substitution","Substituting a variable through a two-variable equality keeps the feasible set and objective, transfers the variable's bounds to the variable that stays, and postsolve restores the value.","all states, all points","all points and data",["src/explorers/DtonsEq.c:execute_substitution","src/explorers/DtonsEq.c:modify_bounds","src/explorers/DtonsEq.c:subst_col_in_obj_dton"])
p("C27","Infeasibility is never hidden","If run_presolver returns REDUCED or UNCHANGED and the reduced problem is feasible, then the original problem is feasible.","all problems","all problems",["src/explorers/DtonsEq.c:modify_bounds","src/explorers/Parallel_rows.c:process_single_bin"])
p("C28","Parallel rows are merged correctly","Merging a group of exactly parallel rows into one keeps exactly the feasible set; INFEASIBLE is reported only if the group is contradictory.","all groups of parallel rows, all sides, all points","all group sizes and orders",["src/explorers/Parallel_rows.c:process_single_bin","src/core/CoreTransformation.c:change_rhs_of_ineq","src/core/CoreTransformation.c:change_lhs_of_ineq"])
p("C29","Parallel rows are found safely","The search for parallel rows only groups active rows that have the same support and proportional coefficients (up to tolerance), groups are disjoint, and the in-place construction never overwrites rows it still has to read, whatever hash values occur and in whatever order qsort leaves equal keys.","all matrices, all hash values, all permutations qsort may return","hash collisions and sort order cannot be enumerated",["src/explorers/Parallel_rows.c:find_parallel_rows","src/explorers/Parallel_rows.c:find_parallel_rows_in_bin","src/explorers/Parallel_rows.c:get_bin_size"])
p("C30","Parallel columns","Merging two parallel columns with proportional costs keeps the set of attainable row activities and objectives, and postsolve splits the merged value into two values within the original bounds.","all bounds (finite or not), all ratios, all merged values","all values including infinite bounds",["src/explorers/Parallel_cols.c:process_single_bin","src/core/Postsolver.c:retrieve_parallel_col"])
p("C31","Propagated bounds are implied","Every bound tightened by primal propagation is satisfied by every feasible point of the problem before tightening, and INFEASIBLE is returned only if there is none.","all rows, activities, bounds, feasible points","all points",["src/explorers/Primal_propagation.c:bound_tightening_single_row_rhs","src/explorers/Primal_propagation.c:bound_tightening_single_row_lhs","src/explorers/Primal_propagation.c:update_lb_within_propagation"])
p("C32","Redundant rows and sides","A row (or a side of it) is dropped by the activity check only if every point within the bounds satisfies it up to the feasibility tolerance, and INFEASIBLE is reported only if no point within the bounds does; forcing rows force.","all rows, bounds and points","all points",["src/explorers/SimpleReductions.c:check_activity","src/explorers/SimpleReductions.c:check_activities"])
p("C33","Implied-free tests are sound","A bound is treated as redundant only if the row (with the other variables within bounds) enforces it.","all rows, bounds and points","all points",["src/core/CoreTransformation.c:implied_free_from_above_by_row","src/core/CoreTransformation.c:implied_free_from_below_by_row","src/core/CoreTransformation.c:is_ub_implied_free"])
p("C34","The reduction log is read back exactly as written","Postsolve decodes from the flat type/index/value log exactly the sequence of reductions recorded, in reverse order.","all sequences of reductions of any kind and length","all sequences",["src/core/Postsolver.c:save_retrieval_fixed_col","src/core/Postsolver.c:postsolver_run"])
p("C35","Postsolve places the reduced solution","Before replaying reductions, postsolve copies each reduced x, y, z entry to the original index it belongs to and nothing else.","all maps and reduced solutions","all maps",["src/core/Postsolver.c:postsolver_update","src/core/Postsolver.c:postsolver_run"])
p("C36","Postsolve preserves dual stationarity","If the reduced solution satisfies z = c - A^T y on the reduced problem, each replayed reduction keeps z = c - A^T y on all variables recovered so far, so the postsolved duals satisfy it for the original problem.","all reduction logs, all reduced solutions","a telescoping identity over all logs",["src/core/Postsolver.c:postsolver_run","src/core/Postsolver.c:retrieve_fix_col","src/core/Postsolver.c:retrieve_sub_col","src/core/Postsolver.c:retrieve_bound_change"])
p("C37","Dual signs and complementary slackness survive postsolve","For each reduction, if the reduced solution satisfies the sign conditions and complementary slackness, so does the postsolved one.","all reduced primal-dual solutions","all points",["src/core/Postsolver.c:retrieve_bound_change","src/core/Postsolver.c:retrieve_lhs_change","src/core/Postsolver.c:retrieve_rhs_change"])
p("C38","Every entry of the postsolved solution is assigned","After postsolve no entry of x, y or z is left at the internal 'not retrieved' marker.","all runs","all logs",["src/core/Postsolver.c:postsolver_run"])
p("C39","Non-zeros never grow","No reduction increases the number of stored non-zeros, so the removed-non-zeros statistics never wrap around.","all states and reductions","fill-in depends on data",["src/explorers/DtonsEq.c:update_row_A_dton","include/PSLP/PSLP_stats.h"])
p("C40","Exhaustive inner loops terminate","The exhaustive singleton-row, singleton-column, doubleton-row and propagation loops terminate from every state.","all states","all states",["src/explorers/SimpleReductions.c:remove_ston_rows","src/explorers/StonCols.c:remove_ston_cols","src/explorers/DtonsEq.c:remove_dton_eq_rows","src/explorers/Primal_propagation.c:propagate_primal"])
p("C41","UNCHANGED means the same problem","If run_presolver returns UNCHANGED, the reduced problem is the original problem (same matrix, sides, bounds, costs).","all problems","all problems",["src/core/Presolver.c:final_status"])
p("C42","run_presolver can be called once more","Calling run_presolver again on an already presolved presolver and then postsolving still yields a solution of the original problem.","all histories of API calls","API histories are unbounded",["src/core/Presolver.c:run_presolver","src/core/Presolver.c:postsolve"])
p("C43","postsolve can be repeated","Calling postsolve several times with different reduced solutions gives for each the same result as a first call.","all histories of postsolve calls","all histories",["src/core/Presolver.c:postsolve","src/core/Postsolver.c:postsolver_update"])
p("C44","INFEASIBLE is only reported for infeasible problems","If run_presolver returns INFEASIBLE, no point satisfies all rows and bounds of the original problem.","all problems","all problems and all points",["src/core/Presolver.c:run_presolver","src/explorers/SimpleReductions.c:remove_variables_with_close_bounds","src/explorers/Parallel_rows.c:process_single_bin"])
p("C45","No access to entries that do not exist","run_presolver never reads the first entry of an empty row or column and never deletes a matrix entry that is not there, on any well-formed problem.","all problems, settings, storage layouts and clock behaviours","the faulty access depends on exact cancellation or near-zero data",["src/core/Matrix.c:insert_or_update_coeff","src/explorers/DtonsEq.c:update_row_A_dton","src/explorers/SimpleReductions.c:remove_stonrow","src/explorers/StonCols.c:remove_ston_cols"])
p("C46","The postsolved point is feasible","If the point given to postsolve satisfies the rows and bounds of the reduced problem up to a tolerance, the point returned satisfies the rows and bounds of the original problem up to a tolerance that depends only on the original data.","all problems, all points of the reduced problem","all problems and all points; errors may add up over any number of reductions",["src/core/Presolver.c:postsolve","src/core/Postsolver.c:postsolver_run","src/core/Postsolver.c:retrieve_fix_col_inf","src/explorers/Primal_propagation.c:propagate_primal"])
p("C47","The postsolved solution is as good as any","If the primal-dual solution given to postsolve satisfies the optimality conditions of the reduced problem up to tolerances, no feasible point of the original problem has an objective value lower than that of the returned point by more than the tolerances weighed with the returned multipliers.","all problems, all primal-dual solutions of the reduced problem, all feasible points","quantifies over all feasible points",["src/core/Presolver.c:postsolve","src/core/Postsolver.c:postsolver_run"])
p("C48","Presolving loses no optimum","For every feasible point of the original problem the reduced problem has a feasible point, objective offset included, at least as good; so the optimal value of the reduced problem is not above that of the original.","all problems, all feasible points, all sequences of reductions a run makes","quantifies over all feasible points and all runs",["src/core/Presolver.c:run_presolver"])
open("/verif/properties.jsonl","w").write("".join(json.dumps(x)+"\n" for x in P))
