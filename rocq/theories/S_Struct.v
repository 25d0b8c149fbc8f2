(** Vocabulary for the statements about whole runs: the states a run can go through, and what it
    means for the stored problem to be consistent. *)
From Coq Require Import NArith.
From Verif Require Import M_Num S_LP M_Settings M_Driver M_State M_Act M_Core M_Simple M_StonCols
  M_Dton M_Parallel M_Propagate M_Init M_Post M_Run S_Run.

(** The steps a run is made of: one call of one explorer. *)
Definition steps (stgs : settings) (fits : nat -> bool) : list (state -> state * status) :=
  [ remove_variables_with_close_bounds; remove_empty_cols; simple_dual_fix; remove_ston_rows;
    remove_empty_rows; remove_ston_cols; check_activities;
    propagate_primal (finite_bound_tightening_on stgs); remove_parallel_rows;
    remove_parallel_cols ] ++ (if dton_eq_on stgs then [remove_dton_eq_rows fits] else []).

(** Every state reachable from [s0] by calling explorers in any order (in particular every state
    the driver goes through). *)
Inductive visited (stgs : settings) (fits : nat -> bool) (s0 : state) : state -> Prop :=
| v_start : visited stgs fits s0 s0
| v_step : forall f t, In f (steps stgs fits) -> visited stgs fits s0 t ->
           visited stgs fits s0 (fst (f t)).

(** The rows and the columns in store describe one matrix; sizes are exact.
    A row or column that has been removed has size -1. *)
Record consistent (s : state) : Prop := {
  co_row_sorted : forall i, (i < nr s)%nat -> sorted_row (mA s i);
  co_col_sorted : forall k, (k < nc s)%nat -> sorted_row (mAT s k);
  co_row_range : forall i k a, (i < nr s)%nat -> In (k, a) (mA s i) ->
                 (k < nc s)%nat /\ csz s k <> (-1)%Z /\ ~ a == 0;
  co_col_range : forall i k a, (k < nc s)%nat -> In (i, a) (mAT s k) ->
                 (i < nr s)%nat /\ rsz s i <> (-1)%Z /\ ~ a == 0;
  co_agree : forall i k a, (i < nr s)%nat -> (k < nc s)%nat ->
             (In (k, a) (mA s i) <-> In (i, a) (mAT s k));
  co_row_size : forall i, (i < nr s)%nat -> rsz s i <> (-1)%Z -> rsz s i = Z_len (mA s i);
  co_col_size : forall k, (k < nc s)%nat -> csz s k <> (-1)%Z -> csz s k = Z_len (mAT s k);
  co_row_gone : forall i, (i < nr s)%nat -> rsz s i = (-1)%Z -> mA s i = [];
  co_col_gone : forall k, (k < nc s)%nat -> csz s k = (-1)%Z -> mAT s k = [];
  co_nnz : nnz s = total_len (nr s) (mA s) }.

(** In a run from [s0] no substitution of a doubleton row ever wrote a coefficient of absolute
    value at most 1e-10 (ZERO_TOL) for a column that was absent from the row.  The flag [tiny] is
    set by the model at exactly that write (M_Dton.v, update_row_A_dton) and nowhere else. *)
Definition no_tiny_fill (stgs : settings) (fits : nat -> bool) (s0 : state) : Prop :=
  forall t, visited stgs fits s0 t -> tiny t = false.
