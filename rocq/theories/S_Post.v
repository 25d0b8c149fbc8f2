(** Vocabulary for the statements about postsolve. *)
From Coq Require Import NArith.
From Verif Require Import M_Num S_LP M_Settings M_Driver S_Driver M_State M_Act M_Core M_Simple M_StonCols
  M_Dton M_Parallel M_Propagate M_Init M_Post M_Log M_Run S_Run S_Struct S_Sem S_Sem4 S_Log.

(** A record from which the values can be computed back: the side of the row used for a substituted
    column is finite; for a variable sent to infinity, so are the sides of its rows, and there is a
    bound or a row to stop at (src/core/Postsolver.c:133-216). *)
Definition invertible (r : reduction) : Prop :=
  match r with
  | SUB_COL _ _ b _ _ => is_fin b = true
  | FIXED_COL_INF pos _ b rows =>
      (is_fin b = true \/ rows <> [] /\ b = (if pos then NInf else PInf)) /\
      forall e, In e rows -> is_fin (fst e) = true
  | _ => True
  end.

(** Settings under which each reduction keeps the dual equations exactly. *)
Definition duals_kept (stgs : settings) : Prop := coefficients_kept stgs /\ parallel_rows_on stgs = false.

(** The columns the log says have been removed, newest record first. *)
Definition removed_col (r : reduction) : list nat :=
  match r with
  | FIXED_COL k _ _ _ | SUB_COL k _ _ _ _ | FIXED_COL_INF _ k _ _ | PARALLEL_COL _ k _ _ _ _ _ _ _ => [k]
  | _ => []
  end.
Definition removed_cols (l : list reduction) : list nat := flat_map removed_col l.

(** What run_presolver leaves for postsolve: the flat log, the maps of the final clean-up (a kept index
    is sent to the number of kept indices before it, a removed one to -1; C10) and the buffers of the
    solution, whatever they contain. *)
Definition rank (keep : nat -> bool) (k : nat) : nat := length (filter keep (seq 0 k)).
Definition index_map (keep : nat -> bool) (k : nat) : Z := if keep k then Z.of_nat (rank keep k) else (-1)%Z.
Definition kept_col (s : state) (k : nat) : bool := negb (Z.eqb (csz s k) (-1)).
Definition kept_row (s : state) (i : nat) : bool := negb (Z.eqb (rsz s i) (-1)).
Definition handle_of (P : input) (s : state) (old : solution) : handle :=
  mkHandle (write_log (log s)) (in_n P) (in_m P) (index_map (kept_col s)) (index_map (kept_row s)) old.
