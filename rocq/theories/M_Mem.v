(* Memory model of the array layer.

   A C array is a length and a content function; every access is checked
   against the length and an access outside it is the distinct outcome [None]
   (undefined behaviour).  Content that was never written (malloc) is an
   arbitrary function supplied from outside ("junk").
   C [int]/[size_t] are [Z]; wrap-around is not modelled. *)
From Coq Require Export ZArith Bool List.
Export ListNotations.
Local Open Scope Z_scope.

Definition bind {A B} (x : option A) (f : A -> option B) : option B :=
  match x with Some a => f a | None => None end.
Notation "'do' p <- e ; k" := (bind e (fun p => k))
  (at level 200, p pattern, e at level 100, k at level 200, right associativity).

Record arr (V : Type) := mkarr { alen : Z; adat : Z -> V }.
Arguments mkarr {V}. Arguments alen {V}. Arguments adat {V}.

(* a[i] as an rvalue *)
Definition aget {V} (a : arr V) (i : Z) : option V :=
  if (0 <=? i) && (i <? alen a) then Some (adat a i) else None.

(* a[i] = v *)
Definition aset {V} (a : arr V) (i : Z) (v : V) : option (arr V) :=
  if (0 <=? i) && (i <? alen a)
  then Some (mkarr (alen a) (fun k => if k =? i then v else adat a k)) else None.

(* memmove(a + dst, a + src, n * sizeof) ; memcpy within one array.
   A negative n is a huge size_t in C: error. *)
Definition memmove {V} (a : arr V) (dst src n : Z) : option (arr V) :=
  if (0 <=? n) && (0 <=? dst) && (dst + n <=? alen a) && (0 <=? src) && (src + n <=? alen a)
  then Some (mkarr (alen a)
         (fun k => if (dst <=? k) && (k <? dst + n) then adat a (k - dst + src) else adat a k))
  else None.

(* memcpy(a + dst, b + src, n * sizeof) between two different arrays *)
Definition memcpy {V} (a : arr V) (dst : Z) (b : arr V) (src n : Z) : option (arr V) :=
  if (0 <=? n) && (0 <=? dst) && (dst + n <=? alen a) && (0 <=? src) && (src + n <=? alen b)
  then Some (mkarr (alen a)
         (fun k => if (dst <=? k) && (k <? dst + n) then adat b (k - dst + src) else adat a k))
  else None.

(* malloc(n): content is whatever [junk] says *)
Definition malloc {V} (n : Z) (junk : Z -> V) : arr V := mkarr n junk.

(* realloc(a, n): common prefix kept, the rest is junk *)
Definition realloc {V} (a : arr V) (n : Z) (junk : Z -> V) : arr V :=
  mkarr n (fun k => if k <? Z.min n (alen a) then adat a k else junk k).

(* for (j = lo; j < hi; ++j) body *)
Fixpoint for_n {S} (k : nat) (j : Z) (body : Z -> S -> option S) (s : S) : option S :=
  match k with
  | O => Some s
  | Datatypes.S k' => do s' <- body j s; for_n k' (j + 1) body s'
  end.
Definition for_z {S} (lo hi : Z) (body : Z -> S -> option S) (s : S) : option S :=
  for_n (Z.to_nat (hi - lo)) lo body s.

(* for over the entries of an index vector *)
Fixpoint for_list {A S} (l : list A) (body : A -> S -> option S) (s : S) : option S :=
  match l with
  | nil => Some s
  | a :: l' => do s' <- body a s; for_list l' body s'
  end.
