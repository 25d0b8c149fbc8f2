(** Vocabulary for the statements about single reductions: the states a run goes through before
    anything is reported infeasible or unbounded, and solutions up to tolerances. *)
From Coq Require Import NArith.
From Verif Require Import M_Num S_LP M_Settings M_Driver S_Driver M_State M_Act M_Core M_Simple M_StonCols
  M_Dton M_Parallel M_Propagate M_Init M_Post M_Run S_Run S_Struct.

(** The explorers a run may call with the given settings (src/core/Presolver.c:422-571), other than
    the two below. *)
Definition common_steps (stgs : settings) : list (state -> state * status) :=
  [ remove_variables_with_close_bounds; remove_empty_cols; remove_ston_rows; remove_empty_rows ] ++
  (if dual_fix_on stgs then [simple_dual_fix] else []) ++
  (if ston_cols_on stgs then [remove_ston_cols] else []) ++
  (if primal_propagation_on stgs
   then [check_activities; propagate_primal (finite_bound_tightening_on stgs)] else []).

(** The states between two explorers of a run, as long as no explorer has reported INFEASIBLE or
    UNBNDORINFEAS.  The reductions may come in any order, except that the driver looks for parallel
    rows only when no empty row is waiting and for parallel columns only when no singleton row is
    (src/core/Presolver.c:495-571), and they may be repeated any number of times. *)
Inductive reached (stgs : settings) (fits : nat -> bool) (P : input) : state -> Prop :=
| rc_start : reached stgs fits P (new_presolver P)
| rc_any : forall f s s' st, In f (common_steps stgs) ->
    reached stgs fits P s -> f s = (s', st) -> ~ trouble st -> reached stgs fits P s'
| rc_prow : forall s s' st, parallel_rows_on stgs = true -> w_empty_rows s = [] ->
    reached stgs fits P s -> remove_parallel_rows s = (s', st) -> ~ trouble st -> reached stgs fits P s'
| rc_pcol : forall s s' st, parallel_cols_on stgs = true -> w_ston_rows s = [] ->
    reached stgs fits P s -> remove_parallel_cols s = (s', st) -> ~ trouble st -> reached stgs fits P s'
| rc_dton : forall s s' st, dton_eq_on stgs = true ->
    reached stgs fits P s -> remove_dton_eq_rows fits s = (s', st) -> ~ trouble st ->
    tiny s' = false -> reached stgs fits P s'.

(** Lower bound [l] and upper bound [u] hold for [v] up to [t]. *)
Definition within (t : Q) (l : ext) (v : Q) (u : ext) : Prop :=
  ext_le l (v + t) /\ le_ext (v - t) u.

(** Feasible up to a tolerance per row and per column. *)
Definition feasible_up_to (rtol ctol : nat -> Q) (P : LP) (x : nat -> Q) : Prop :=
  (forall i, In i (lp_rows P) -> within (rtol i) (lp_lhs P i) (dot (lp_A P i) x) (lp_rhs P i)) /\
  (forall k, In k (lp_cols P) -> within (ctol k) (lp_lb P k) (x k) (lp_ub P k)).

(** [x] and [y] agree on the columns of [P]. *)
Definition agree (P : LP) (x y : nat -> Q) : Prop := forall k, In k (lp_cols P) -> x k == y k.

(** The tags say which sides and bounds are infinite, for rows and columns still active. *)
Record tags_right (s : state) : Prop := {
  tr_lhs : forall i, (i < nr s)%nat -> t_inact (rt s i) = false ->
           if t_lhs_inf (rt s i) then lhs s i = NInf else is_fin (lhs s i) = true;
  tr_rhs : forall i, (i < nr s)%nat -> t_inact (rt s i) = false ->
           if t_rhs_inf (rt s i) then rhs s i = PInf else is_fin (rhs s i) = true;
  tr_eq : forall i, (i < nr s)%nat -> t_inact (rt s i) = false -> t_eq (rt s i) = true ->
          exists p q, lhs s i = Fin p /\ rhs s i = Fin q /\ p == q;
  tr_lb : forall k, (k < nc s)%nat -> t_cinact (ct s k) = false ->
          if t_lb_inf (ct s k) then lb s k = NInf else is_fin (lb s k) = true;
  tr_ub : forall k, (k < nc s)%nat -> t_cinact (ct s k) = false ->
          if t_ub_inf (ct s k) then ub s k = PInf else is_fin (ub s k) = true }.

(** Going forward from [P] to [P']: every feasible point of [P] satisfying [C] is feasible for
    [P'], with the same objective value. *)
Definition carries_over (C : (nat -> Q) -> Prop) (P P' : LP) : Prop :=
  forall x, feasible P x -> C x -> feasible P' x /\ objective P' x == objective P x.
(** Going back: every feasible point of [P'] extends to a point of [P] (unchanged on the columns
    of [P']) that is feasible up to the tolerances, with the same objective value. *)
Definition lifts_back (rtol ctol : nat -> Q) (P P' : LP) : Prop :=
  forall x', feasible P' x' -> exists x, agree P' x x' /\ feasible_up_to rtol ctol P x /\
    objective P x == objective P' x'.
Definition anything (x : nat -> Q) : Prop := True.
Definition exactly : nat -> Q := fun _ => 0.
(** Going forward without getting worse: every feasible point of [P] is feasible for [P'] with an
    objective value at most as large. *)
Definition no_worse (P P' : LP) : Prop :=
  forall x, feasible P x -> feasible P' x /\ objective P' x <= objective P x.
(** The columns on the list of empty columns are there once, have not been removed, and their
    bounds are not crossed. *)
Definition empty_cols_fresh (s : state) : Prop :=
  NoDup (w_empty_cols s) /\
  forall k, In k (w_empty_cols s) -> t_cinact (ct s k) = false /\
    (is_fin (lb s k) = true -> is_fin (ub s k) = true -> fin (lb s k) <= fin (ub s k)).

(** ** Tolerances *)
Definition feas_tol : nat -> Q := fun _ => FEAS_TOL.
(** A row with one entry holds up to the tolerance for its variable. *)
Definition ston_tol (P : LP) (i : nat) : Q :=
  match lp_A P i with [(_, a)] => Qabs.Qabs a * FEAS_TOL | _ => 0 end.
(** The variables whose bounds are equal up to the tolerance are at their lower bound. *)
Definition at_close_bounds (P : LP) (x : nat -> Q) : Prop :=
  forall k l u, In k (lp_cols P) -> lp_lb P k = Fin l -> lp_ub P k = Fin u ->
    Qabs.Qabs (l - u) <= FEAS_TOL -> x k == l.

(** ** Locks *)
Definition moved_by (x : nat -> Q) (k : nat) (d : Q) : nat -> Q :=
  fun j => if Nat.eqb j k then x j + d else x j.
(** Whatever the point, moving variable [k] far enough in direction [dir] violates row [i]. *)
Definition stops (P : LP) (dir : Q) (k i : nat) : Prop :=
  forall x, exists d, 0 <= d /\ ~ row_sat P (moved_by x k (dir * d)) i.
(** Moving variable [k] in direction [dir] never makes row [i] violated. *)
Definition lets_go (P : LP) (dir : Q) (k i : nat) : Prop :=
  forall x d, 0 <= d -> row_sat P x i -> row_sat P (moved_by x k (dir * d)) i.
(** [n] is the number of rows that stop variable [k] in direction [dir]; all others let it go. *)
Definition locks_are (P : LP) (dir : Q) (k : nat) (n : Z) : Prop :=
  exists l, NoDup l /\ incl l (lp_rows P) /\ n = Z.of_nat (length l) /\
    forall i, In i (lp_rows P) -> if in_dec Nat.eq_dec i l then stops P dir k i else lets_go P dir k i.

(** ** Empty rows and columns *)
(** A row without entries whose sides do not admit 0, by at least the tolerance. *)
Definition excludes_zero (P : LP) (i : nat) : Prop :=
  lp_A P i = [] /\ ((exists l, lp_lhs P i = Fin l /\ FEAS_TOL <= l) \/
                    (exists u, lp_rhs P i = Fin u /\ u <= - FEAS_TOL)).
(** A column without entries. *)
Definition in_no_row (P : LP) (k : nat) : Prop :=
  forall i a, In i (lp_rows P) -> ~ In (k, a) (lp_A P i).
(** Its cost pulls it towards a missing bound. *)
Definition pulled_away (P : LP) (k : nat) : Prop :=
  lp_c P k < 0 /\ lp_ub P k = PInf \/ 0 < lp_c P k /\ lp_lb P k = NInf.
