(** Vocabulary for the merging of parallel rows and columns. *)
From Verif Require Import M_Num S_LP M_Settings M_State M_Run S_Sem.

(** Same columns in the same order, every coefficient of [r] is [q] times that of [r']. *)
Definition scaled (q : Q) (r r' : row) : Prop :=
  Forall2 (fun e e' => fst e = fst e' /\ snd e == q * snd e') r r'.
(** The same up to the tolerance. *)
Definition nearly_scaled (q : Q) (r r' : row) : Prop :=
  Forall2 (fun e e' => fst e = fst e' /\ Qabs.Qabs (snd e - q * snd e') <= FEAS_TOL) r r'.
Definition first_entry (r : row) : Q := match r with (_, a) :: _ => a | [] => 0 end.

(** Rows that look parallel up to the tolerance, with the ratio of their first entries, are. *)
Definition clear_cut (P : LP) : Prop := forall i j, In i (lp_rows P) -> In j (lp_rows P) -> i <> j ->
  let q := first_entry (lp_A P i) / first_entry (lp_A P j) in
  nearly_scaled q (lp_A P i) (lp_A P j) -> scaled q (lp_A P i) (lp_A P j).

(** No equation is parallel to two rows that are not equations ([t_eq]: the row is marked as an
    equation). *)
Definition unmixed (s : state) : Prop := forall i j k q p,
  In i (live_rows s) -> In j (live_rows s) -> In k (live_rows s) -> j <> k ->
  scaled q (mA s j) (mA s i) -> scaled p (mA s k) (mA s i) ->
  t_eq (rt s i) = true -> t_eq (rt s j) = false -> t_eq (rt s k) = false -> False.

(** Row [i] of [P] is parallel to a row of [P'], with ratio q, and holds up to |q| times the
    tolerance. *)
Definition holds_by_parallel (P P' : LP) (x : nat -> Q) (i : nat) : Prop :=
  exists r q, In r (lp_rows P') /\ scaled q (lp_A P i) (lp_A P' r) /\
    within (Qabs.Qabs q * FEAS_TOL) (lp_lhs P i) (dot (lp_A P i) x) (lp_rhs P i).

(** The one case left open: the value of some row is its finite left side plus exactly the
    tolerance. *)
Definition on_the_edge (P : LP) (x : nat -> Q) : Prop :=
  exists i l, In i (lp_rows P) /\ lp_lhs P i = Fin l /\ dot (lp_A P i) x == l + FEAS_TOL.
