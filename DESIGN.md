# Formal model of PSLP in Coq 8.16.1

PSLP is an LP presolver: `min c'x  s.t. lhs <= Ax <= rhs, lbs <= x <= ubs`.
API: `default_settings`, `set_settings_true/false`, `new_presolver`,
`run_presolver`, `postsolve`, `free_presolver`.

## Layout

    properties.jsonl       the English properties (C01 ...)
    MANIFEST.json          property -> theorems, status
    seeded/LOG.jsonl       seeded-bug experiments
    rocq/theories/         the Coq development (logical name Verif)

Three kinds of files:
* `M_*.v`   model: computable Gallina definitions, each citing /repo file:lines; no proofs.
* `S_*.v`   specification: small, independent of the model (what a transpose is, what a
            feasible point is, ...).
* `L_*.v`   lemmas and proofs.
* `P_*.v`   property theorems only; each closed by `exact`, with `Print Assumptions`, and a
            concrete non-vacuity `Example` beside it.

## Modelling decisions (trusted base, see the end for the full list)

* C `double` -> exact rational `Q`, extended with +-infinity (`ext`) where the code stores
  bounds and sides.  **Rounding, NaN, overflow are not modelled.**  All tolerances of the code
  (FEAS_TOL, ZERO_TOL, ...) are kept, as exact rationals.
* C `int`/`size_t` -> `nat`/`Z`, no wrap-around (problem sizes below 2^31 assumed).
* Release build (`NDEBUG`): `assert` does nothing.  Where the code relies on an assertion the
  theorem carries the condition as a hypothesis, or the model has an explicit error outcome.
* Array layer (CSR with gaps, vectors, in-place compaction, row shifting): arrays are lists with
  *checked* access; out-of-bounds access is the distinct outcome `None`.
* Reduction layer: the matrix is a function from row index to list of (column, coefficient) and
  its transpose likewise.  The array layer theorems say that the array code implements these
  list operations.
* The reduction log of postsolve is modelled both as the flat arrays of the code and as a list of
  typed records; the round-trip theorem (C34) links the two.

## Plan per property

| id  | what is modelled | how it is proved |
|-----|------------------|------------------|
| C01 | phase loop with arbitrary explorer outcomes and clock oracle | measure on nnz and phase kind; explicit bound on the number of iterations |
| C02 | status bits, OR-ing, early exits | exhaustive over explorer statuses, invariant of the loop |
| C03 | settings record | computation |
| C04 | vector with capacity and checked writes | refinement to list, induction over op lists |
| C05 | matrix_new_no_extra_space with checked access | exact result; the OOB read is refuted/witnessed |
| C06 | transpose on arrays | invariant of the scatter loop |
| C07 | shift_row on arrays | invariant of the two walks and of the block moves |
| C08 | remove_coeff / insert_or_update_coeff / update_row_A_dton | array-level lemma to sorted-list operations |
| C09 | remove_extra_space, Ap construction | loop invariant of in-place compaction |
| C10 | *_shrink, shrink_idx_vector, maps | loop invariants, refinement to filter |
| C11 | delete_inactive_rows / cols | invariant: A and AT are transposes on active part |
| C12 | two threads as sequences of atomic writes on disjoint locations | every interleaving gives the same memory |
| C13 | allocation/free trace with failure oracle | refuted by witness, plus the paths that are fine |
| C14-C16 | activities, locks | sums over rows; incremental = recompute |
| C17-C33 | reductions on the state | feasible-set / objective equivalence lemmas |
| C34-C38 | log and postsolve | round trip; stationarity invariant per record, for merged rows under the conditions of `S_Sides.v` |
| C39,C40 | nnz monotone, inner loops | measures |
| C41 | a step keeps costs and offset, or some row or column is gone for good (Kc); the matrix likewise (Keep) | refuted as stated; C41_same_matrix_partial: matrix, costs and offset are the given ones, all settings; C41_same_problem_partial: bounds and sides too when propagation and singleton columns are off (Kb: a step keeps bounds and sides, or some row or column is gone); C41_same_problem_no_dton_partial: the same with doubleton equations off and no hypothesis on small coefficients; missing: bounds and sides for the other settings, where it is false |
| C42 | witness | refuted |
| C43 | postsolve is a function of log, maps and inputs | frame lemma |
| C44 | runs with their calls noted (`S_Trace.v`), exact calls of every explorer (`S_Exact.v`) | refuted by witnesses; forward induction over the calls of exact runs |
| C45 | error flag `bad` of the state | structural invariant over all runs; refuted with near-zero fill-in |
| C46 | replay of the log on values | invariant per record: feasible up to tolerances |
| C47 | C37 and C46 combined | weak duality with tolerances |
| C48 | runs with their calls noted | as C44 |
| C49 | the matrix of the problem handed out | every explorer keeps each entry unless its row or column goes |

C03, C10, C12, C13 and C29 have models of their own (`M_Settings`, `M_Clean`, `M_Threads`, `M_Alloc`,
`M_ParSearch`); the others share the array layer (`M_Mem`, `M_Csr`, `M_Vec`) or the state
(`M_State` and the explorers).  Nothing in the list was found to be inexpressible.

## What is modelled

| code | model | comment |
|------|-------|---------|
| include/core/Numerics.h, glbopts.h | M_Num.v | tolerances as exact rationals, IS_ZERO_FEAS_TOL, IS_EQUAL_FEAS_TOL, ... |
| include/PSLP/PSLP_API.h, settings part of Presolver.c | M_Settings.v | all fields |
| include/data_structures/Vec_macros.h (iVec, dVec, u16Vec) | M_Vec.v | append, append_array, contains, clear, growth |
| src/core/Matrix.c, RowColViews.h | M_Mem.v, M_Csr.v | matrix_new_no_extra_space, transpose, shift_row, insert_or_update_coeff, remove_coeff, remove_extra_space |
| src/core/Constraints.c, Problem.c, State.c (clean-up), utils.c | M_Clean.v, M_Init.v | index maps, *_shrink, problem_clean |
| src/core/Activity.c, Locks.c, Bounds.h, Tags.c | M_Act.v, M_Core.v, M_Init.v | initialisation and incremental updates |
| src/core/CoreTransformation.c | M_Core.v | fix_col, update_lb, update_ub, side changes, implied free tests |
| src/explorers/SimpleReductions.c | M_Simple.v | close bounds, empty rows and columns, singleton rows, activity check, deletions |
| src/explorers/Simple_dual_fix.c | M_Simple.v | |
| src/explorers/StonCols.c | M_StonCols.v | |
| src/explorers/DtonsEq.c | M_Dton.v | |
| src/explorers/Parallel_rows.c, Parallel_cols.c | M_ParSearch.v (search on arrays), M_Parallel.v (merging) | |
| src/explorers/Primal_propagation.c | M_Propagate.v | propagation and remove_redundant_bounds |
| src/core/Postsolver.c | M_Log.v (flat log), M_Post.v (replay) | |
| src/core/Presolver.c | M_Driver.v, M_Run.v, M_Again.v (second run), M_Threads.v, M_Alloc.v | |

Every definition cites the lines it models.

## What is not modelled

* Rounding, NaN and overflow of `double`; the result of `sqrt`-free arithmetic is exact.
* Wrap-around of `int` and `size_t`; conversion of negative `double` to `uint32_t` in the hash
  (Parallel_rows.c), which is undefined in C: the hash is an arbitrary function in C29.
* Addresses: freed memory, aliasing and uninitialised reads appear only in `M_Alloc` (allocation),
  `M_Mem` (bounds) and `M_Threads` (races).
* Printing, statistics, timers (the clock is an arbitrary function of the phase number), Debugger.c and
  `assert` (release build).
* The C memory model below sequential consistency; C12 proves that there is no race.
* The order in which `qsort` leaves equal keys: C29 quantifies over all of them, the state model
  (`M_Parallel`) uses one.
* The storage question whether a row that gets a new entry still fits in its gap (`shift_row` may
  refuse): an arbitrary function `fits` of the number of questions asked, in all run-level theorems.

## Links between the layers

* C04, C06-C10 and C29 are about arrays; the state model uses the lists they are shown to represent.
* C34 links the flat log with the typed one; `C29_refines` the search on arrays with the grouping used by
  the state model.  The step from the state model's matrix functions to the array functions is by
  reading: C07-C09 say what each array function does to the lists, the state model does just that.
* `reached` (S_Sem.v) is the set of states between two explorers of a run before trouble is reported;
  `C02_result_is_reached_partial` proves that the state handed out is one of them.

## Trusted base

* Coq 8.16.1's kernel, including its virtual machine (`vm_compute` is used for examples and witnesses).
* `Print Assumptions` says "Closed under the global context" under every theorem of every `P_*.v`
  file: no axiom is used, not even one of the standard library.  Only the standard library is imported.
  The checker's list for all loaded files names seven constants of `Coq.ssr.ssrunder` (parameters of a module type of
  the standard library, loaded with it); no theorem depends on them.
* The definitions in the `M_*.v` files being a faithful reading of the code, and those in the `S_*.v`
  files saying what the English means.

## Findings

Behaviour of the code found while modelling.  (T) theorem in the development, (R) found by reading.

 1. T C21_refuted: an empty column with equal bounds is counted twice in the offset.
 2. T C05_documented_size_refuted: matrix_new_no_extra_space reads Ap[n_rows+1].
 3. T C08_remove_refuted: remove_coeff reads one past the end of the row.
 4. T C13_refuted, C13_leaks: double free, NULL dereference and leaks on failed allocations.
 5. T C42_refuted: a second run_presolver corrupts later postsolves.
 6. T C38_refuted: a variable of a row without sides is recovered as infinity.
 7. T C11_refuted, C45_refuted: a near-zero fill-in of an absent entry deletes another coefficient or
    moves a huge block of memory.
 8. T C23_refuted: a variable sent to infinity in the pass in which a neighbour is fixed is recovered as if
    that neighbour were 0.
 9. T C27_refuted: doubleton substitution hides an infeasible bound.
10. T C28_refuted: with an equation and two inequalities parallel to each other one inequality is lost.
11. T C28_edge_refuted, C44_parallel_refuted: parallel rows give a wrong INFEASIBLE at the edge of the
    tolerance and for nearly parallel rows; C44_refuted: wrong INFEASIBLE through close bounds.
12. T C14_refuted, C32_refuted: an entry dropped in a doubleton substitution is still counted in the
    activity, and a row that can be violated is removed as redundant.
13. T C30_refuted: the tags of a merged column are saved after the merge, so that a finite bound is taken
    for an infinite one when the value is split.
14. T C36_refuted: two side changes of one row from the same other row overwrite each other's dual.
15. T C37_refuted: closing a row for one singleton column and substituting another one of the same row gives a
    dual of the wrong sign.
16. T C41_refuted: UNCHANGED although bounds have been changed.
17. T C04_capacity_zero_refuted: appending to a vector of capacity 0 writes out of bounds.
18. R update_lb and update_ub ignore improvements below FEAS_TOL; close bounds are compared unscaled.
19. R simple_dual_fix drops the INFEASIBLE that fix_col may return.
20. R (uint32_t) cast of a negative double in the hash of parallel rows.
21. R update_activity_coeff_change returns only the request to recompute the minimum.
22. R relax_bounds only changes tags in a release build.
23. R explorers go on after INFEASIBLE has been reported within a phase (medium phase).
24. R C_TAG_INACTIVE does not contain R_TAG_INACTIVE although a comment asks for it.
25. R singleton column substitution can magnify a violation by 1/|a|.
26. R find_substitution only asserts that a listed doubleton row is still an equation.

## Seeded bugs

`seeded/LOG.jsonl` has one line per edit of a model definition in a scratch copy.  `tools/seed.py` and
`tools/seed1.py` apply the edits of `seeded/batch*.json`, rebuild, and record the lemmas at which files stop.

What a line shows, and what it does not:

* `lemmas_failed` is observed: the proof script of that lemma stopped in the edited copy (an error, or the
  limit of 240 s per command).
* `theorems_failed` is inferred in most lines (field `evidence`): the theorems whose proofs mention, directly or
  through other lemmas, one that stopped.  In 61 of the first 68 lines no property theorem stopped itself.
* A script can stop although the statement is still true of the edited program.  A stopped script is therefore
  weaker evidence than the task asks for: it does not exclude that the theorem is too weak.
* In three lines (`lock_sign`, `lock_eq2ineq`, `locks_init`) the tool missed theorems proved inside sections; those
  in `added_by_hand` were added from reading the dependencies.
* `statement_shown_false` names the theorems whose statement is refuted by a concrete witness, checked by Coq in
  the edited copy (scripts in `seeded/witness.json`, run by `tools/witness.py`); the same script fails in the
  unedited model.  This is the evidence that counts.  It has been produced for 62 of the first 68 edits
  and for all 52 of `batch3.json` and `batch4.json`, where it is the only evidence collected (no rebuild of the proofs).
* `judged` says for the other six why there is no such theorem: five edits break no listed property, and one
  (`prop_one`) does not change the model although it would change the C program.  These are arguments, not proofs.
* The inferred lists are longer than what is really broken: a theorem listed there may still be true.
* Two statements turned out too weak in this way and were tightened: `C19_values_partial` was added, and
  `C31_propagation_partial` now ties the values at which variables were fixed to the reduced problem (before, they
  could be contradictory and the forward half was empty).
