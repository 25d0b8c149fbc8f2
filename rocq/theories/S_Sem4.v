(** Vocabulary for the statements about activities and singleton columns. *)
From Coq Require Import NArith.
From Verif Require Import M_Num S_LP M_Settings M_Driver S_Driver M_State M_Act M_Core M_Simple M_StonCols
  M_Dton M_Parallel M_Propagate M_Init M_Run S_Run S_Sem.

(** The sides of the rows and the bounds of the columns are not crossed. *)
Definition not_above (l u : ext) : Prop := match l, u with Fin p, Fin q => p <= q | _, _ => True end.
Definition not_crossed (P : LP) : Prop :=
  (forall i, In i (lp_rows P) -> not_above (lp_lhs P i) (lp_rhs P i)) /\
  (forall k, In k (lp_cols P) -> not_above (lp_lb P k) (lp_ub P k)).

(** As [reached] (S_Sem.v), through states that satisfy [K]. *)
Inductive reached_via (K : state -> Prop) (stgs : settings) (fits : nat -> bool) (P : input) : state -> Prop :=
| rv_start : reached_via K stgs fits P (new_presolver P)
| rv_any : forall f s s' st, In f (common_steps stgs) ->
    reached_via K stgs fits P s -> K s -> f s = (s', st) -> ~ trouble st -> reached_via K stgs fits P s'
| rv_prow : forall s s' st, parallel_rows_on stgs = true -> w_empty_rows s = [] ->
    reached_via K stgs fits P s -> K s -> remove_parallel_rows s = (s', st) -> ~ trouble st -> reached_via K stgs fits P s'
| rv_pcol : forall s s' st, parallel_cols_on stgs = true -> w_ston_rows s = [] ->
    reached_via K stgs fits P s -> K s -> remove_parallel_cols s = (s', st) -> ~ trouble st -> reached_via K stgs fits P s'
| rv_dton : forall s s' st, dton_eq_on stgs = true ->
    reached_via K stgs fits P s -> K s -> remove_dton_eq_rows fits s = (s', st) -> ~ trouble st ->
    tiny s' = false -> reached_via K stgs fits P s'.

(** Settings without the two reductions that change coefficients of rows. *)
Definition coefficients_kept (stgs : settings) : Prop := dton_eq_on stgs = false /\ parallel_cols_on stgs = false.
(** While singleton columns are removed nothing may be crossed. *)
Definition uncrossed_for_ston_cols (stgs : settings) (s : state) : Prop :=
  ston_cols_on stgs = true -> not_crossed (reduced_lp s).

(** The bound at which variable [k] makes [a * x_k] smallest, largest. *)
Definition low_end (P : LP) (k : nat) (a : Q) : ext := if Qgtb a 0 then lp_lb P k else lp_ub P k.
Definition high_end (P : LP) (k : nat) (a : Q) : ext := if Qgtb a 0 then lp_ub P k else lp_lb P k.
Definition infinite_ones (b : nat -> Q -> ext) (r : row) : nat :=
  length (filter (fun e => negb (is_fin (b (fst e) (snd e)))) r).
Definition within_bounds (P : LP) (x : nat -> Q) : Prop := forall k, In k (lp_cols P) -> col_sat P x k.

(** The stored activity of row [i] says how many infinite contributions there are, and bounds the
    row when there are none. *)
Record activity_valid (P : LP) (i : nat) (a : activity) : Prop := {
  va_ninf_min : n_inf_min a = Z.of_nat (infinite_ones (low_end P) (lp_A P i));
  va_ninf_max : n_inf_max a = Z.of_nat (infinite_ones (high_end P) (lp_A P i));
  va_min : n_inf_min a = 0%Z -> forall x, within_bounds P x -> a_min a <= dot (lp_A P i) x;
  va_max : n_inf_max a = 0%Z -> forall x, within_bounds P x -> dot (lp_A P i) x <= a_max a }.
(** It is the smallest, largest value when every variable of the row is at that bound. *)
Definition at_ends (b : nat -> Q -> ext) (r : row) (x : nat -> Q) : Prop :=
  forall k a, In (k, a) r -> b k a = Fin (x k).
Record activity_exact (P : LP) (i : nat) (a : activity) : Prop := {
  xa_ninf_min : n_inf_min a = Z.of_nat (infinite_ones (low_end P) (lp_A P i));
  xa_ninf_max : n_inf_max a = Z.of_nat (infinite_ones (high_end P) (lp_A P i));
  xa_min : n_inf_min a = 0%Z -> exists x, at_ends (low_end P) (lp_A P i) x /\ a_min a == dot (lp_A P i) x;
  xa_max : n_inf_max a = 0%Z -> exists x, at_ends (high_end P) (lp_A P i) x /\ a_max a == dot (lp_A P i) x }.

(** All variables but [k] are within their bounds. *)
Definition others_within (P : LP) (k : nat) (x : nat -> Q) : Prop := forall j, In j (lp_cols P) -> j <> k -> col_sat P x j.
(** All rows hold, and the bounds of all variables but [k]. *)
Definition feasible_but (P : LP) (k : nat) (x : nat -> Q) : Prop :=
  (forall i, In i (lp_rows P) -> row_sat P x i) /\ others_within P k x.
