(** Vocabulary for columns fixed one after the other (C19, C20). *)
From Verif Require Import M_Num S_LP M_State M_Core.
Open Scope Q_scope.

(** The columns of a list of (column, value) pairs fixed in the order given. *)
Definition fix_cols (l : list (nat * Q)) (s : state) : state :=
  fold_left (fun s kv => fst (fix_col (fst kv) (snd kv) (cst s (fst kv)) s)) l s.

(** What postsolve is told about a column fixed at a value while it had no entries. *)
Definition note_fixed (c : nat -> Q) (kv : nat * Q) : reduction := FIXED_COL (fst kv) (snd kv) (c (fst kv)) [].
(** The cost of a list of fixed columns. *)
Fixpoint cost_of (c : nat -> Q) (vs : list (nat * Q)) : Q :=
  match vs with [] => 0 | (k, v) :: t => c k * v + cost_of c t end.
(** A value within the bounds of the column, no more expensive than any other such value. *)
Definition best_value (P : LP) (k : nat) (v : Q) : Prop :=
  ext_le (lp_lb P k) v /\ le_ext v (lp_ub P k) /\
  forall w, ext_le (lp_lb P k) w -> le_ext w (lp_ub P k) -> lp_c P k * v <= lp_c P k * w.
