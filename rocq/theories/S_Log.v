(** Specification for the reduction log. *)
From Coq Require Import NArith.
From Verif Require Import M_Num S_LP M_State M_Post M_Log.

(** Newest record first: each BOUND_CHANGE_THE_ROW record for [n] changes is preceded in time by [n]
    BOUND_CHANGE_NO_ROW records, with only FIXED_COL records in between. *)
Fixpoint grouped (n : nat) (l : list reduction) : Prop :=
  match l with
  | [] => n = O
  | r :: l' =>
      match n, r with
      | O, BOUND_CHANGE_THE_ROW _ _ m => grouped m l'
      | O, _ => grouped O l'
      | S _, FIXED_COL _ _ _ _ => grouped n l'
      | S m, BOUND_CHANGE_NO_ROW _ _ _ _ => grouped m l'
      | S _, _ => False
      end
  end.

(** [s] holds the values of the reduced solution at the places the maps give them, and the marker
    "not retrieved" everywhere else. *)
Definition placed (n : nat) (mp : nat -> Z) (v : nat -> Q) (b : nat -> option Q) : Prop :=
  forall i, (i < n)%nat -> b i = if Z.eqb (mp i) (-1) then None else Some (v (Z.to_nat (mp i))).

(** A history of postsolve calls. *)
Fixpoint calls (l : list ((nat -> Q) * (nat -> Q) * (nat -> Q))) (h : handle) : option handle :=
  match l with
  | [] => Some h
  | (x, y, z) :: l' => match api_postsolve x y z h with Some h' => calls l' h' | None => None end
  end.
(** Same solution on the columns and rows of the problem *)
Definition same_sol (n m : nat) (a b : solution) : Prop :=
  (forall k, (k < n)%nat -> sx a k = sx b k /\ sz a k = sz b k) /\ (forall i, (i < m)%nat -> sy a i = sy b i) /\ s_err a = s_err b.
(** The rows and columns a record mentions belong to a problem with [n] columns and [m] rows. *)
Definition below (n : nat) (r : row) : Prop := forall k a, In (k, a) r -> (k < n)%nat.
Definition in_range (n m : nat) (r : reduction) : Prop :=
  match r with
  | FIXED_COL k _ _ c => (k < n)%nat /\ below m c
  | FIXED_COL_INF _ k _ rows => (k < n)%nat /\ forall e, In e rows -> below n (snd e)
  | SUB_COL k r _ i _ => (k < n)%nat /\ below n r /\ (i < m)%nat
  | PARALLEL_COL j k _ _ _ _ _ _ _ => (j < n)%nat /\ (k < n)%nat
  | DELETED_ROW i _ => (i < m)%nat
  | ADDED_ROW i j _ => (i < m)%nat /\ (j < m)%nat
  | ADDED_ROWS i c _ => (i < m)%nat /\ below m c
  | BOUND_CHANGE_NO_ROW j _ _ _ => (j < n)%nat
  | BOUND_CHANGE_THE_ROW i r _ => (i < m)%nat /\ below n r
  | LHS_CHANGE i r _ j _ | RHS_CHANGE i r _ j _ => (i < m)%nat /\ (j < m)%nat /\ below n r
  | EQ_TO_INEQ i _ => (i < m)%nat
  end.
