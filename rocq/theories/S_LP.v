(** Specification: what a linear program is and what a solution of it is.
    Independent of the model of the code. *)
From Verif Require Import M_Num.

(** A row is a list of (column, coefficient). *)
Definition row := list (nat * Q).

Fixpoint dot (r : row) (x : nat -> Q) : Q :=
  match r with [] => 0 | (j, a) :: r' => a * x j + dot r' x end.

(** [min offset + sum_j c_j x_j  s.t.  lhs_i <= row_i x <= rhs_i,  lb_j <= x_j <= ub_j],
    i ranging over [lp_rows], j over [lp_cols]. *)
Record LP := mkLP {
  lp_rows : list nat;  lp_cols : list nat;
  lp_A : nat -> row;
  lp_lhs : nat -> ext;  lp_rhs : nat -> ext;
  lp_lb : nat -> ext;   lp_ub : nat -> ext;
  lp_c : nat -> Q;      lp_off : Q }.

Definition row_sat (P : LP) (x : nat -> Q) (i : nat) : Prop :=
  ext_le (lp_lhs P i) (dot (lp_A P i) x) /\ le_ext (dot (lp_A P i) x) (lp_rhs P i).

Definition col_sat (P : LP) (x : nat -> Q) (j : nat) : Prop :=
  ext_le (lp_lb P j) (x j) /\ le_ext (x j) (lp_ub P j).

Definition feasible (P : LP) (x : nat -> Q) : Prop :=
  (forall i, In i (lp_rows P) -> row_sat P x i) /\
  (forall j, In j (lp_cols P) -> col_sat P x j).

Fixpoint sumQ (l : list nat) (f : nat -> Q) : Q :=
  match l with [] => 0 | j :: l' => f j + sumQ l' f end.

Definition objective (P : LP) (x : nat -> Q) : Q :=
  lp_off P + sumQ (lp_cols P) (fun j => lp_c P j * x j).

Definition optimal (P : LP) (x : nat -> Q) : Prop :=
  feasible P x /\ forall x', feasible P x' -> objective P x <= objective P x'.

Definition infeasible (P : LP) : Prop := forall x, ~ feasible P x.

(** Feasible values go below every level. *)
Definition unbounded (P : LP) : Prop :=
  forall M : Q, exists x, feasible P x /\ objective P x < M.

(** Dual feasibility (stationarity): z_j = c_j - sum_i A_ij y_i for every column. *)
Fixpoint coeff (r : row) (j : nat) : Q :=
  match r with [] => 0 | (k, a) :: r' => (if Nat.eqb k j then a else 0) + coeff r' j end.

Definition stationary (P : LP) (y z : nat -> Q) : Prop :=
  forall j, In j (lp_cols P) ->
    z j == lp_c P j - sumQ (lp_rows P) (fun i => coeff (lp_A P i) j * y i).
