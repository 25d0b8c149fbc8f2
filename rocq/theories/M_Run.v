(** run_presolver on the modelled explorers, and the reduced problem it hands out. *)
From Coq Require Import NArith.
From Verif Require Import M_Num S_LP M_Settings M_Driver M_State M_Act M_Core M_Simple M_StonCols
  M_Dton M_Parallel M_Propagate M_Init M_Post.

(** The explorers, as called from src/core/Presolver.c:422-571.  problem_clean renumbers; at this
    level the state is kept with the original indices and the renumbering is applied when the
    reduced problem and the solution are read off (C09, C10 justify it). *)
Definition the_explorers (stgs : settings) (fits : nat -> bool) : explorers state :=
  mkExplorers (S := state)
    (fun s => Z.to_nat (nnz s))
    (fun s => length (filter (fun i => negb (Z.eqb (rsz s i) (-1))) (seq 0 (nr s))))
    (fun s => length (filter (fun k => negb (Z.eqb (csz s k) (-1))) (seq 0 (nc s))))
    remove_variables_with_close_bounds remove_empty_cols simple_dual_fix remove_ston_rows
    remove_empty_rows remove_ston_cols (remove_dton_eq_rows fits) check_activities
    (propagate_primal (finite_bound_tightening_on stgs)) remove_parallel_rows
    remove_parallel_cols remove_redundant_bounds (fun s => s).

(** Fuel for the loops of the driver that the model needs to be total; running out is the outcome
    [None]. *)
Definition run_presolver (stgs : settings) (fits : nat -> bool) (clock : nat -> bool)
           (fuel : nat) (P : input) : option (run_result state) :=
  run_presolver_gen (the_explorers stgs fits) stgs (fun s => S (S (nc s))) clock fuel
    (in_m P) (in_n P) (Z.to_nat (total_len (in_m P) (in_A P))) (new_presolver P).

(** The rows and columns that survive, with the original indices: what populate_presolved_problem
    (src/core/Presolver.c:573-603) hands out before renumbering. *)
Definition live_rows (s : state) : list nat :=
  filter (fun i => negb (Z.eqb (rsz s i) (-1))) (seq 0 (nr s)).
Definition live_cols (s : state) : list nat :=
  filter (fun k => negb (Z.eqb (csz s k) (-1))) (seq 0 (nc s)).
Definition reduced_lp (s : state) : LP :=
  mkLP (live_rows s) (live_cols s) (mA s) (lhs s) (rhs s) (lb s) (ub s) (cst s) (off s).

(** postsolve with a solution of the reduced problem given at the original indices *)
Definition keep_map (alive : nat -> bool) (k : nat) : option nat := if alive k then Some k else None.
Definition postsolve_state (s : state) (x y z : nat -> Q) : solution :=
  postsolve (keep_map (fun k => negb (Z.eqb (csz s k) (-1))))
            (keep_map (fun i => negb (Z.eqb (rsz s i) (-1)))) (log s) x y z.
