(** Vocabulary for the statements about the primal point that postsolve returns. *)
From Verif Require Import M_Num S_LP M_Settings M_Driver S_Driver M_State M_Act M_Core M_Simple M_StonCols
  M_Dton M_Parallel M_Propagate M_Init M_Post M_Run S_Run S_Sem S_Sem4 S_Post.
Open Scope Q_scope.

(** Sum of the absolute values of the coefficients of a row. *)
Fixpoint norm1 (r : row) : Q := match r with [] => 0 | (_, a) :: r' => Qabs a + norm1 r' end.

(** A tolerance [c] for the bounds, and for each row one that covers a change of [c + FEAS_TOL] in each of
    its variables, plus [FEAS_TOL]. *)
Definition wide (rtol : nat -> Q) (c : Q) (P : LP) : Prop :=
  FEAS_TOL <= c /\ forall i, In i (lp_rows P) -> FEAS_TOL + (c + FEAS_TOL) * norm1 (lp_A P i) <= rtol i.

(** Settings with reductions that neither substitute variables nor merge rows or columns. *)
Definition values_kept (stgs : settings) : Prop :=
  coefficients_kept stgs /\ parallel_rows_on stgs = false /\ ston_cols_on stgs = false.

(** When a variable that was sent to infinity is recovered, the other variables of its rows have their
    values already: none of them had been fixed before it (the log is replayed backwards). *)
Definition neighbours_known (lg : list reduction) : Prop :=
  forall later pos k b rows earlier, lg = later ++ FIXED_COL_INF pos k b rows :: earlier ->
  forall side r j a v c col, In (side, r) rows -> In (j, a) r -> ~ In (FIXED_COL j v c col) earlier.

(** Bounds that cross, cross by at most the tolerance. *)
Definition bounds_meet (P : LP) : Prop :=
  forall k l u, In k (lp_cols P) -> lp_lb P k = Fin l -> lp_ub P k = Fin u -> l <= u + FEAS_TOL.

(** How far the value of a point can be above the optimal one when its multipliers are [y] and [z] and
    the tolerances are [rtol] for the rows and [c] for the columns. *)
Definition gap (rtol : nat -> Q) (c : Q) (P : LP) (y z : nat -> Q) : Q :=
  sumQ (lp_rows P) (fun i => rtol i * Qabs (y i)) + sumQ (lp_cols P) (fun k => c * Qabs (z k)).
