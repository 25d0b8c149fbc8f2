(** Vocabulary for the search for parallel rows (C29): rows of a stored matrix, groups of a result. *)
From Coq Require Import QArith Qabs Permutation.
From Verif Require Import M_Mem S_Csr M_Csr.
Local Open Scope Z_scope.

(** the column indices and the coefficients of row i *)
Definition row_ix (A : matrix) (i : Z) : list Z := slice (mi A) (adat (ps A) i) (adat (pe A) i).
Definition row_len (A : matrix) (i : Z) : Z := adat (pe A) i - adat (ps A) i.
Definition row_val (A : matrix) (i j : Z) : Q := adat (mx A) (adat (ps A) i + j).

(** A stored matrix: every row lies inside the arrays; a row that is still there has an entry and no
    stored zero; a removed row has none *)
Record searchable (A : matrix) (removed : Z -> bool) : Prop := {
  se_m : 0 <= mm A;
  se_ps : mm A <= alen (ps A);
  se_pe : mm A <= alen (pe A);
  se_in : forall i, 0 <= i < mm A -> 0 <= adat (ps A) i <= adat (pe A) i /\
            adat (pe A) i <= alen (mi A) /\ adat (pe A) i <= alen (mx A);
  se_live : forall i, 0 <= i < mm A -> removed i = false ->
            0 < row_len A i /\ forall j, 0 <= j < row_len A i -> ~ (row_val A i j == 0)%Q;
  se_dead : forall i, 0 <= i < mm A -> removed i = true -> row_len A i = 0 }.

(** Same columns, and the coefficients of i times one number are those of r, up to tol *)
Definition parallel_within (tol : Q) (A : matrix) (r i : Z) : Prop :=
  row_ix A i = row_ix A r /\ row_len A i = row_len A r /\
  exists ratio : Q, (forall j, 0 <= j < row_len A r ->
    (Qabs (row_val A r j - ratio * row_val A i j) <= tol)%Q) /\ (row_val A r 0 == ratio * row_val A i 0)%Q.

(** The groups: group k is made of the cells starts[k] .. starts[k+1]-1 *)
Fixpoint groups (a : arr Z) (starts : list Z) : list (list Z) :=
  match starts with
  | s :: t => match t with e :: _ => slice a s e :: groups a t | nil => nil end
  | nil => nil
  end.
