(** Vocabulary for the merging of parallel columns. *)
From Coq Require Import Qabs.
From Verif Require Import M_Num S_LP S_Sem S_Sem2.

(** Column [j] is [q] times column [k]. *)
Definition col_ratio (P : LP) (q : Q) (j k : nat) : Prop := forall i, In i (lp_rows P) ->
  coeff (lp_A P i) j == q * coeff (lp_A P i) k.
(** The two columns have their zeros in the same rows and the same holds up to the tolerance. *)
Definition nearly_col_ratio (P : LP) (q : Q) (j k : nat) : Prop := forall i, In i (lp_rows P) ->
  (coeff (lp_A P i) j == 0 <-> coeff (lp_A P i) k == 0) /\
  Qabs (coeff (lp_A P i) j - q * coeff (lp_A P i) k) <= FEAS_TOL.

(** Columns that look parallel up to the tolerance are; costs that look proportional in the same
    way are. *)
Record clear_cut_cols (P : LP) : Prop := {
  cc_ratio : forall i j k, In i (lp_rows P) -> In j (lp_cols P) -> In k (lp_cols P) -> j <> k ->
    ~ coeff (lp_A P i) k == 0 -> let q := coeff (lp_A P i) j / coeff (lp_A P i) k in
    nearly_col_ratio P q j k -> col_ratio P q j k;
  cc_cost : forall i j k, In i (lp_rows P) -> In j (lp_cols P) -> In k (lp_cols P) -> j <> k ->
    ~ coeff (lp_A P i) k == 0 -> let q := coeff (lp_A P i) j / coeff (lp_A P i) k in
    col_ratio P q j k ->
    Qabs (lp_c P j * coeff (lp_A P i) k - lp_c P k * coeff (lp_A P i) j) <= FEAS_TOL ->
    lp_c P j * coeff (lp_A P i) k == lp_c P k * coeff (lp_A P i) j }.

(** Every variable occurs in some row. *)
Definition all_used (P : LP) : Prop := forall k, In k (lp_cols P) ->
  exists i, In i (lp_rows P) /\ ~ coeff (lp_A P i) k == 0.

(** Every feasible point of [P'] comes from one of [P] with the same objective value. *)
Definition nothing_gained (P P' : LP) : Prop :=
  forall x', feasible P' x' -> exists x, feasible P x /\ objective P x == objective P' x'.
