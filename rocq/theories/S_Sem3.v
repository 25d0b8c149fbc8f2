(** Vocabulary for the statements about activities and bound propagation. *)
From Coq Require Import NArith Qabs.
From Verif Require Import M_Num S_LP M_Settings M_Driver S_Driver M_State M_Act M_Core M_Simple M_StonCols
  M_Dton M_Parallel M_Propagate M_Init M_Run S_Run S_Sem.

(** Some variables have given values. *)
Definition fixed_at (l : list (nat * Q)) (x : nat -> Q) : Prop := forall k v, In (k, v) l -> x k == v.
(** The variables in [l] are fixed one after the other; a feasible point that agrees with the
    values so far is, for the next one, so close to its value that no row notices (up to the
    feasibility tolerance). *)
Definition nearly_forced (P : LP) (l : list (nat * Q)) : Prop :=
  forall l1 k v l2, l = l1 ++ (k, v) :: l2 -> forall x, feasible P x -> fixed_at l1 x ->
  forall i a, In i (lp_rows P) -> In (k, a) (lp_A P i) -> Qabs (x k - v) * Qabs a <= FEAS_TOL.
