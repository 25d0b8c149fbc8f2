(* Specification of coefficient insertion / deletion in a row given as a list of (index, value). *)
From Coq Require Import ZArith QArith List.
Import ListNotations.
Local Open Scope Z_scope.

(* store value v at index j, keeping the list sorted by index; replaces an existing entry *)
Fixpoint put (j : Z) (v : Q) (l : list (Z * Q)) : list (Z * Q) :=
  match l with
  | nil => [(j, v)]
  | e :: t => if fst e <? j then e :: put j v t
              else if fst e =? j then (j, v) :: t else (j, v) :: e :: t
  end.

(* erase index j *)
Definition erase (j : Z) (l : list (Z * Q)) : list (Z * Q) := filter (fun e => negb (fst e =? j)) l.

(* value at index j, 0 when absent *)
Fixpoint value_at (j : Z) (l : list (Z * Q)) : Q :=
  match l with nil => 0%Q | e :: t => if fst e =? j then snd e else value_at j t end.

Definition mem (j : Z) (l : list (Z * Q)) : Prop := In j (map fst l).
Definition memb (j : Z) (l : list (Z * Q)) : bool := existsb (fun e => fst e =? j) l.

(* strictly increasing indices *)
Fixpoint sorted (l : list (Z * Q)) : Prop :=
  match l with
  | nil => True
  | e :: t => (forall f, In f t -> fst e < fst f) /\ sorted t
  end.
