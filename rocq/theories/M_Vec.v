(* Generic growable vector, include/data_structures/Vec_macros.h (instances iVec,
   dVec, u16Vec).  The out-of-memory exit(1) branches are not modelled here. *)
From Verif Require Import M_Mem.
Local Open Scope Z_scope.

(* Vec_macros.h:38-43 *)
Record vec (V : Type) := mkvec { vdata : arr V; vlen : Z; vcap : Z }.
Arguments mkvec {V}. Arguments vdata {V}. Arguments vlen {V}. Arguments vcap {V}.

Section VEC.
Context {V : Type}.

(* Vec_macros.h:45-61 *)
Definition vec_new (capacity : Z) (junk : Z -> V) : vec V :=
  mkvec (malloc capacity junk) 0 capacity.

(* Vec_macros.h:69-72 *)
Definition vec_clear_no_resize (v : vec V) : vec V := mkvec (vdata v) 0 (vcap v).

(* Vec_macros.h:74-93 *)
Definition vec_append (junk : Z -> V) (v : vec V) (value : V) : option (vec V) :=
  let v := if vcap v <=? vlen v
           then mkvec (realloc (vdata v) (vcap v * 2) junk) (vlen v) (vcap v * 2)
           else v in
  do d <- aset (vdata v) (vlen v) value;
  Some (mkvec d (vlen v + 1) (vcap v)).

(* the while loop of Vec_macros.h:101-104; [None] = fuel exhausted *)
Fixpoint grow (fuel : nat) (need cap : Z) : option Z :=
  match fuel with
  | O => if need >? cap then None else Some cap
  | S f => if need >? cap then grow f need (cap * 2) else Some cap
  end.

(* Vec_macros.h:95-121; [values] is a C array, its first n cells are read *)
Definition vec_append_array (junk : Z -> V) (fuel : nat) (v : vec V) (values : arr V) (n : Z)
  : option (vec V) :=
  do v <- (if vlen v + n >? vcap v
           then do nc <- grow fuel (vlen v + n) (if vcap v >? 0 then vcap v else 1);
                Some (mkvec (realloc (vdata v) nc junk) (vlen v) nc)
           else Some v);
  do d <- memcpy (vdata v) (vlen v) values 0 n;
  Some (mkvec d (vlen v + n) (vcap v)).

(* Vec_macros.h:122-133 *)
Fixpoint contains_from (eqb : V -> V -> bool) (v : vec V) (x : V) (k : nat) (i : Z) : option bool :=
  match k with
  | O => Some false
  | S k' => do y <- aget (vdata v) i;
            if eqb y x then Some true else contains_from eqb v x k' (i + 1)
  end.
Definition vec_contains (eqb : V -> V -> bool) (v : vec V) (x : V) : option bool :=
  contains_from eqb v x (Z.to_nat (vlen v)) 0.

(* A client program: any sequence of vector operations. *)
Inductive vop := OpAppend (x : V) | OpAppendArray (xs : list V) | OpClear.

(* the C array holding a list of values *)
Definition arr_of_list (d : V) (l : list V) : arr V :=
  mkarr (Z.of_nat (length l)) (fun i => nth (Z.to_nat i) l d).

Definition run_vop (junk : Z -> V) (d : V) (v : vec V) (o : vop) : option (vec V) :=
  match o with
  | OpAppend x => vec_append junk v x
  | OpAppendArray xs =>
      vec_append_array junk (Z.to_nat (vlen v) + length xs)%nat v (arr_of_list d xs)
                       (Z.of_nat (length xs))
  | OpClear => Some (vec_clear_no_resize v)
  end.

Fixpoint run_vops (junk : Z -> V) (d : V) (v : vec V) (os : list vop) : option (vec V) :=
  match os with
  | nil => Some v
  | o :: os' => do v' <- run_vop junk d v o; run_vops junk d v' os'
  end.
End VEC.
Arguments vop : clear implicits.
