(** Vocabulary for the multipliers of merged rows. *)
From Coq Require Import Qabs.
From Verif Require Import M_Num S_LP M_State M_Init S_Run.
Open Scope Q_scope.

(** Two rows of the original problem that look proportional, up to the tolerance, in two of their
    common columns are proportional in these. *)
Definition clear_ratios (P : input) : Prop := forall i j k l a b c d,
  (i < in_m P)%nat -> (j < in_m P)%nat -> i <> j ->
  In (k, a) (in_A P i) -> In (k, b) (in_A P j) -> In (l, c) (in_A P i) -> In (l, d) (in_A P j) ->
  Qabs (c - a / b * d) <= FEAS_TOL -> c == a / b * d.
(** No removed row is noted as the origin of both the left and the right side of another row. *)
Definition one_side (log : list reduction) : Prop := forall i r v j q i' r' v' q',
  In (LHS_CHANGE i r v j q) log -> In (RHS_CHANGE i' r' v' j q') log -> False.
