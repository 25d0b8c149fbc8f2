(** When a call is exact, for all explorers. *)
From Coq Require Import NArith.
From Verif Require Import M_Num S_LP M_Settings M_Driver S_Driver M_State M_Act M_Run S_Run S_Sem S_Sem4 S_Trace S_Dton S_Merge S_MergeCol.
Open Scope Q_scope.

(** What is stored about the rows is right; it may be wrong after a doubleton equation or parallel
    columns (C14_refuted). *)
Definition stored_right (s : state) : Prop :=
  forall i, In i (lp_rows (reduced_lp s)) -> activity_valid (reduced_lp s) i (acts s i).
(** Row [j] is a multiple of row [i], and the value of row [i] is at most [u], at least [l], by row [j]. *)
Definition at_most (P : LP) (i j : nat) (u : Q) : Prop := exists q w, scaled q (lp_A P j) (lp_A P i) /\ w == q * u /\
  (0 < q /\ lp_rhs P j = Fin w \/ q < 0 /\ lp_lhs P j = Fin w).
Definition at_least (P : LP) (i j : nat) (l : Q) : Prop := exists q w, scaled q (lp_A P j) (lp_A P i) /\ w == q * l /\
  (0 < q /\ lp_lhs P j = Fin w \/ q < 0 /\ lp_rhs P j = Fin w).
(** The ends parallel rows give to the value of a row differ by more than the tolerance, if the lower
    is below the upper. *)
Definition sides_apart (P : LP) : Prop := forall i j k l u, In i (lp_rows P) -> In j (lp_rows P) -> In k (lp_rows P) ->
  at_least P i j l -> at_most P i k u -> l < u -> FEAS_TOL < u - l.

Definition exact_here (fits : nat -> bool) (c : call) : Prop :=
  exact_call c /\
  match c_kind c with
  | StonCols | CheckActs | Propagate => stored_right (c_before c)
  | DtonEq => clear_dton fits (c_before c) /\ tiny (c_after c) = false
  | ParRows => w_empty_rows (c_before c) = [] /\ clear_cut (reduced_lp (c_before c)) /\ sides_apart (reduced_lp (c_before c))
  | ParCols => w_ston_rows (c_before c) = [] /\ all_used (reduced_lp (c_before c)) /\ clear_cut_cols (reduced_lp (c_before c))
  | _ => True
  end.
(** All calls are exact, up to the first that reports INFEASIBLE or UNBNDORINFEAS. *)
Fixpoint exact_run (fits : nat -> bool) (l : list call) : Prop :=
  match l with
  | [] => True
  | c :: l' => exact_here fits c /\ (~ trouble (c_status c) -> exact_run fits l')
  end.
