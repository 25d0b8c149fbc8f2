(** Vocabulary for the substitution of a variable through an equation with two entries. *)
From Coq Require Import Qabs NArith.
From Verif Require Import M_Num S_LP M_Driver M_State M_Dton M_Run.
Import M_Driver.
Open Scope Q_scope.

(** Row [i] is an equation. *)
Definition equation (P : LP) (i : nat) : Prop :=
  exists p q, lp_lhs P i = Fin p /\ lp_rhs P i = Fin q /\ p == q.
(** Substituting one variable of row [i] by means of another gives coefficients that are zero or
    larger than ZERO_TOL: none is dropped that is not zero. *)
Definition clear_fill (P : LP) (i : nat) : Prop := forall j k q, In q (lp_rows P) -> j <> k ->
  ~ coeff (lp_A P i) j == 0 -> ~ coeff (lp_A P i) k == 0 -> ~ coeff (lp_A P q) k == 0 ->
  let new := coeff (lp_A P q) j - coeff (lp_A P i) j / coeff (lp_A P i) k * coeff (lp_A P q) k in
  new == 0 \/ ZERO_TOL < Qabs new.

(** [good] holds of every row the explorer looks at, in the state in which it looks at it. *)
Fixpoint along_rows (fits : nat -> bool) (good : state -> nat -> Prop) (l : list nat)
    (a : state * list nat * status) : Prop :=
  match l with
  | [] => True
  | i :: l' => good (fst (fst a)) i /\ along_rows fits good l' (dton_row fits a i)
  end.
Fixpoint along_passes (fits : nat -> bool) (good : state -> nat -> Prop) (fuel : nat) (s : state) : Prop :=
  match w_dton s, fuel with
  | [], _ => True
  | _, O => True
  | l, S f => along_rows fits good l (s, [], UNCHANGED) /\
              (snd (remove_dton_eq_rows__ fits s) = REDUCED ->
               along_passes fits good f (fst (remove_dton_eq_rows__ fits s)))
  end.
(** Every listed row that is still there is an equation when the explorer comes to it, and its
    substitution drops no coefficient other than zeros. *)
Definition clear_dton (fits : nat -> bool) (s : state) : Prop :=
  along_passes fits (fun t i => In i (lp_rows (reduced_lp t)) ->
    equation (reduced_lp t) i /\ clear_fill (reduced_lp t) i) (S (nr s)) s.

(** How far a bound may be missed after [m] substitutions, each with a ratio of coefficients of at
    most MAX_RATIO_PIVOT, when each may leave a bound off by FEAS_TOL. *)
Fixpoint drift (m : nat) : Q :=
  match m with O => 0 | S m' => MAX_RATIO_PIVOT * (drift m' + FEAS_TOL) end.
