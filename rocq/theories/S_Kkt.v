(** Vocabulary for the statements about the signs of the duals and complementary slackness. *)
From Verif Require Import M_Num S_LP M_Settings M_Driver S_Driver M_State M_Act M_Core M_Simple M_StonCols
  M_Dton M_Parallel M_Propagate M_Init M_Post M_Run S_Run S_Sem S_Sem4 S_Post.
Open Scope Q_scope.

(** A positive multiplier says that the value sits at the lower side, a negative one that it sits at the
    upper side; both up to [t]. *)
Definition pressed (t : Q) (mult : Q) (low : ext) (v : Q) (upp : ext) : Prop :=
  (0 < mult -> exists q, low = Fin q /\ Qabs (v - q) <= t) /\
  (mult < 0 -> exists q, upp = Fin q /\ Qabs (v - q) <= t).

(** Sign conditions and complementary slackness, for rows up to [rtol i] and for columns up to [ctol]. *)
Definition complementary (rtol : nat -> Q) (ctol : Q) (P : LP) (x y z : nat -> Q) : Prop :=
  (forall i, In i (lp_rows P) -> pressed (rtol i) (y i) (lp_lhs P i) (dot (lp_A P i) x) (lp_rhs P i)) /\
  (forall k, In k (lp_cols P) -> pressed ctol (z k) (lp_lb P k) (x k) (lp_ub P k)).

(** The tolerance of a row covers a change of [ctol] in any one of its variables. *)
Definition covers (rtol : nat -> Q) (ctol : Q) (P : LP) : Prop :=
  forall i, In i (lp_rows P) -> 0 <= rtol i /\ forall k a, In (k, a) (lp_A P i) -> Qabs a * ctol <= rtol i.

(** Settings with the reductions below only. *)
Definition signs_kept (stgs : settings) : Prop :=
  duals_kept stgs /\ ston_cols_on stgs = false /\ primal_propagation_on stgs = false.
Definition simple_steps : list (state -> state * status) :=
  [ remove_variables_with_close_bounds; remove_empty_cols; remove_ston_rows; remove_empty_rows; simple_dual_fix;
    check_activities ].
(** The solution [x], [y], [z] of the problem left in [s] taken back through the records [new] only. *)
Definition taken_back (new : list reduction) (s : state) (x y z : nat -> Q) : solution :=
  postsolve (keep_map (kept_col s)) (keep_map (kept_row s)) new x y z.
