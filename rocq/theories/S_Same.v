(** What it means that two problems have the same matrix and the same objective. *)
From Verif Require Import M_Num S_LP.

Record same_matrix (P P' : LP) : Prop := {
  sa_rows : lp_rows P' = lp_rows P;
  sa_cols : lp_cols P' = lp_cols P;
  sa_A : forall i, In i (lp_rows P) -> lp_A P' i = lp_A P i }.
Definition same_costs (P P' : LP) : Prop :=
  (forall k, In k (lp_cols P) -> lp_c P' k = lp_c P k) /\ lp_off P' = lp_off P.
(** … and the same bounds and sides. *)
Definition same_bounds (P P' : LP) : Prop :=
  (forall k, In k (lp_cols P) -> lp_lb P' k = lp_lb P k /\ lp_ub P' k = lp_ub P k) /\
  (forall i, In i (lp_rows P) -> lp_lhs P' i = lp_lhs P i /\ lp_rhs P' i = lp_rhs P i).
