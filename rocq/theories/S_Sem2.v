(** More vocabulary for the statements about single reductions. *)
From Coq Require Import NArith Qabs.
From Verif Require Import M_Num S_LP S_Sem.

(** Nothing is lost: for every feasible point of [P] there is a feasible point of [P'] that is at
    least as good. *)
Definition no_loss (P P' : LP) : Prop :=
  forall x, feasible P x -> exists x', feasible P' x' /\ objective P' x' <= objective P x.

(** A variable whose bounds are crossed may be off by the tolerance; the others are exact. *)
Definition crossed_tol (P : LP) (k : nat) : Q :=
  match lp_lb P k, lp_ub P k with
  | Fin l, Fin u => if Qle_bool l u then 0 else FEAS_TOL
  | _, _ => 0
  end.

(** No row limits variable [k] in the given direction: where the row grows it has no right side,
    where it shrinks it has no left side. *)
Definition unstopped (P : LP) (up : bool) (k : nat) : Prop := forall i a,
  In i (lp_rows P) -> In (k, a) (lp_A P i) ->
  (0 < a -> if up then lp_rhs P i = PInf else lp_lhs P i = NInf) /\
  (a < 0 -> if up then lp_lhs P i = NInf else lp_rhs P i = PInf).
(** The cost gets better without end while [k] goes off in a direction nothing limits. *)
Definition runs_away (P : LP) (k : nat) : Prop :=
  0 < lp_c P k /\ lp_lb P k = NInf /\ unstopped P false k \/
  lp_c P k < 0 /\ lp_ub P k = PInf /\ unstopped P true k.
