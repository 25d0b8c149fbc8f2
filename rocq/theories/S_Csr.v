(* Specification vocabulary for the array layer, independent of the code. *)
From Verif Require Import M_Mem.
Local Open Scope Z_scope.

(* the integers lo, lo+1, ..., hi-1 *)
Fixpoint zseq (lo : Z) (k : nat) : list Z :=
  match k with O => nil | S k' => lo :: zseq (lo + 1) k' end.
Definition zrange (lo hi : Z) : list Z := zseq lo (Z.to_nat (hi - lo)).

(* the cells lo..hi-1 of an array *)
Definition slice {V} (a : arr V) (lo hi : Z) : list V := map (adat a) (zrange lo hi).

(* what a vector history should contain: a plain list *)
Inductive hist (V : Type) := HPush (x : V) | HPushAll (xs : list V) | HClear.
Arguments HPush {V}. Arguments HPushAll {V}. Arguments HClear {V}.
Definition hist1 {V} (l : list V) (h : hist V) : list V :=
  match h with HPush x => l ++ [x] | HPushAll xs => l ++ xs | HClear => nil end.
Definition hist_contents {V} (hs : list (hist V)) : list V := fold_left hist1 hs nil.

(* strictly increasing list of integers *)
Fixpoint increasing (l : list Z) : Prop :=
  match l with
  | nil => True
  | a :: l' => match l' with nil => True | b :: _ => a < b end /\ increasing l'
  end.

(* sum of the elements of a list *)
Definition zsum (l : list Z) : Z := fold_right Z.add 0 l.
