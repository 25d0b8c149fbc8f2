(** Calling run_presolver a second time on the same presolver.

    problem_clean (src/core/Problem.c:85-93) renumbers everything in place, so the second call starts
    from the renumbered state; the reduction log is not renumbered and not cleared; the maps of the
    second clean-up overwrite the first entries of the maps of the first (src/core/Matrix.c:245-260
    writes as many entries as there are columns, resp. rows, before that clean-up). *)
From Coq Require Import NArith.
From Verif Require Import M_Num S_LP M_Settings M_Driver M_State M_Act M_Core M_Simple M_StonCols
  M_Dton M_Parallel M_Propagate M_Init M_Post M_Log M_Run.

(** The maps, src/core/Matrix.c:245-260: number of survivors before an index, -1 for a removed one *)
Definition survivors_before (alive : nat -> bool) (k : nat) : nat := length (filter alive (seq 0 k)).
Definition alive_row (s : state) (i : nat) : bool := negb (Z.eqb (rsz s i) (-1)).
Definition alive_col (s : state) (k : nat) : bool := negb (Z.eqb (csz s k) (-1)).
(** One more clean-up: the first [n] entries are written, the rest keep their value *)
Definition write_map (alive : nat -> bool) (n : nat) (old : nat -> Z) (k : nat) : Z :=
  if Nat.ltb k n then (if alive k then Z.of_nat (survivors_before alive k) else -1)%Z else old k.

(** dPtr_shrink, bounds_shrink, shrink_locks, ...: entry k' of the new array is the entry of the k'-th
    survivor (src/core/utils.c, src/core/Constraints.c:294-303, src/core/State.c:174-194) *)
Definition shrink {A} (l : list nat) (f : nat -> A) (k : nat) : A := f (nth k l k).
(** src/core/Matrix.c:262-270 *)
Definition renumber_row (alive : nat -> bool) (r : row) : row :=
  map (fun e => (survivors_before alive (fst e), snd e)) r.
(** src/core/utils.c, shrink_idx_vector *)
Definition shrink_list (alive : nat -> bool) (l : list nat) : list nat :=
  map (survivors_before alive) (filter alive l).

(** problem_clean on the state of the reductions; src/core/Problem.c:85-93,
    src/core/Constraints.c:305-320, src/core/State.c:196-209.  The lists of columns and rows to delete
    are empty at this point. *)
Definition clean (s : state) : state :=
  let ar := alive_row s in let ac := alive_col s in
  let lr := live_rows s in let lc := live_cols s in
  mkState (length lr) (length lc)
    (fun i => renumber_row ac (shrink lr (mA s) i)) (fun k => renumber_row ar (shrink lc (mAT s) k))
    (shrink lr (lhs s)) (shrink lr (rhs s)) (shrink lc (lb s)) (shrink lc (ub s))
    (shrink lr (rt s)) (shrink lc (ct s)) (shrink lr (rsz s)) (shrink lc (csz s))
    (shrink lc (ups s)) (shrink lc (dns s)) (shrink lr (acts s)) (shrink lc (cst s)) (off s) (nnz s)
    (shrink_list ar (w_ston_rows s)) (shrink_list ac (w_ston_cols s)) (shrink_list ar (w_dton s))
    (shrink_list ar (w_empty_rows s)) (shrink_list ac (w_empty_cols s)) (shrink_list ar (w_acts s))
    (w_fixed s) (w_sub s) (w_rows s) (shrink lr (stale s)) (tick s) (bad s) (tiny s) (log s).

(** The second call (src/core/Presolver.c:653-758).  The original sizes are those recorded by
    new_presolver; the storage has no gaps left, which only matters for [fits]. *)
Definition run_again (stgs : settings) (fits : nat -> bool) (clock : nat -> bool) (fuel : nat) (P : input)
           (s : state) : option (run_result state) :=
  run_presolver_gen (the_explorers stgs fits) stgs (fun s => S (S (nc s))) clock fuel
    (in_m P) (in_n P) (Z.to_nat (total_len (in_m P) (in_A P))) (clean s).

(** What postsolve sees after the second call: the log of both runs, the maps written twice *)
Definition handle_again (P : input) (s1 s2 : state) (old : solution) : handle :=
  mkHandle (write_log (log s2)) (in_n P) (in_m P)
    (write_map (alive_col s2) (nc s2) (write_map (alive_col s1) (nc s1) (fun _ => 0%Z)))
    (write_map (alive_row s2) (nr s2) (write_map (alive_row s1) (nr s1) (fun _ => 0%Z))) old.

(** a solution in which nothing has been retrieved: src/core/Postsolver.c, before a postsolve *)
Definition blank : solution := mkSol (fun _ => None) (fun _ => None) (fun _ => None) false.
