(** Specification of what a caller may pass to new_presolver and of the relation between the
    original problem, the reduced problem and the postsolved point. *)
From Coq Require Import NArith.
From Verif Require Import M_Num S_LP M_Settings M_Driver M_State M_Init M_Post M_Run.

(** A row as the API documents it: column indices increasing, in range, coefficients not zero. *)
Fixpoint sorted_row (r : row) : Prop :=
  match r with
  | [] => True
  | (j, _) :: r' => (match r' with [] => True | (k, _) :: _ => (j < k)%nat end) /\ sorted_row r'
  end.
Definition wf_row (n : nat) (r : row) : Prop :=
  sorted_row r /\ forall j a, In (j, a) r -> (j < n)%nat /\ ~ a == 0.

Record wf_input (P : input) : Prop := {
  wf_rows : forall i, (i < in_m P)%nat -> wf_row (in_n P) (in_A P i);
  wf_lhs : forall i, (i < in_m P)%nat -> in_lhs P i <> PInf;
  wf_rhs : forall i, (i < in_m P)%nat -> in_rhs P i <> NInf;
  wf_lb : forall k, (k < in_n P)%nat -> in_lb P k <> PInf;
  wf_ub : forall k, (k < in_n P)%nat -> in_ub P k <> NInf }.

(** The postsolved solution is complete and its entries are x, y, z. *)
Definition solution_is (P : input) (sol : solution) (x y z : nat -> Q) : Prop :=
  s_err sol = false /\
  (forall k, (k < in_n P)%nat -> sx sol k = Some (x k) /\ sz sol k = Some (z k)) /\
  (forall i, (i < in_m P)%nat -> sy sol i = Some (y i)).
