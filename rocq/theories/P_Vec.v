(* C04: vectors never lose or corrupt an element, whatever the history. *)
From Verif Require Import M_Mem M_Vec S_Csr S_Vec L_Vec.
Local Open Scope Z_scope.

(* For every element type, every initial capacity > 0, every content of fresh memory and every
   sequence of append / append_array / clear: no access is out of bounds, the doubling loop ends,
   and the vector holds exactly the elements the history says, in order. *)
Theorem C04_vector_history :
  forall (V : Type) (d : V) (junk : Z -> V) (cap : Z) (os : list (vop V)),
    0 < cap ->
    exists v, run_vops junk d (vec_new cap junk) os = Some v
      /\ vlen v = Z.of_nat (length (hist_contents (map hist_of os)))
      /\ vlen v <= vcap v
      /\ slice (vdata v) 0 (vlen v) = hist_contents (map hist_of os).
Proof. exact C04_lemma. Qed.
Print Assumptions C04_vector_history.

(* membership test agrees with the history *)
Theorem C04_vector_contains :
  forall (V : Type) (eqb : V -> V -> bool) (d : V) (junk : Z -> V) (cap : Z) (os : list (vop V)) (x : V),
    (forall a b, eqb a b = true <-> a = b) -> 0 < cap ->
    exists v b, run_vops junk d (vec_new cap junk) os = Some v
      /\ vec_contains eqb v x = Some b /\ (b = true <-> In x (hist_contents (map hist_of os))).
Proof. exact C04_contains_lemma. Qed.
Print Assumptions C04_vector_contains.

(* The capacity hypothesis is necessary: a vector created with capacity 0 writes out of bounds. *)
Theorem C04_capacity_zero_refuted :
  forall (V : Type) (junk : Z -> V) (x : V), vec_append junk (vec_new 0 junk) x = None.
Proof. exact C04_zero_lemma. Qed.
Print Assumptions C04_capacity_zero_refuted.

Example C04_example :
  option_map (fun v => slice (vdata v) 0 (vlen v))
    (run_vops (fun _ => 77) 0 (vec_new 1 (fun _ => 99))
       [OpAppend 5; OpAppendArray [6; 7; 8; 9; 10]; OpAppend 11]) = Some [5; 6; 7; 8; 9; 10; 11].
Proof. vm_compute. reflexivity. Qed.
