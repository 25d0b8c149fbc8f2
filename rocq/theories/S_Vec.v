(* The abstract history of a sequence of calls on a vector. *)
From Verif Require Import M_Mem M_Vec S_Csr.

(* append, append_array and clear as operations on a list (S_Csr.v) *)
Definition hist_of {V : Type} (o : vop V) : hist V :=
  match o with OpAppend x => HPush x | OpAppendArray xs => HPushAll xs | OpClear => HClear end.
