(** What it means that one problem's matrix is cut out of another's. *)
From Verif Require Import M_Num S_LP.

(** The entries of row [r] whose column is one of [cols], in the order of the row. *)
Definition restricted (cols : list nat) (r : row) : row := filter (fun e => existsb (Nat.eqb (fst e)) cols) r.
(** Rows and columns of [P'] are rows and columns of [P], in the same order, and every row of [P'] has
    exactly the coefficients of the same row of [P] in the columns of [P']. *)
Record submatrix (P P' : LP) : Prop := {
  sm_rows : lp_rows P' = filter (fun i => existsb (Nat.eqb i) (lp_rows P')) (lp_rows P);
  sm_cols : lp_cols P' = filter (fun k => existsb (Nat.eqb k) (lp_cols P')) (lp_cols P);
  sm_A : forall i, In i (lp_rows P') -> lp_A P' i = restricted (lp_cols P') (lp_A P i) }.
