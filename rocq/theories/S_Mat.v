(* What a stored sparse matrix means: the list of (index, value) pairs of each row. *)
From Coq Require Import QArith.
From Verif Require Import M_Mem S_Csr M_Csr.
Local Open Scope Z_scope.

(* entries of stored row r, in memory order *)
Definition row_entries (M : matrix) (r : Z) : list (Z * Q) :=
  map (fun k => (adat (mi M) k, adat (mx M) k)) (zrange (adat (ps M) r) (adat (pe M) r)).

(* rows lie one after the other, possibly with gaps, inside the allocated arrays *)
Record wf_mat (M : matrix) : Prop := {
  wf_m : 0 <= mm M;
  wf_lps : alen (ps M) = mm M + 1;
  wf_lpe : alen (pe M) = mm M + 1;
  wf_lmi : alen (mi M) = alen (mx M);
  wf_s0 : 0 <= adat (ps M) 0;
  wf_rng : forall r, 0 <= r < mm M -> adat (ps M) r <= adat (pe M) r <= adat (ps M) (r + 1);
  wf_end : adat (ps M) (mm M) <= alen (mx M)
}.

(* number of stored entries *)
Definition n_entries (M : matrix) : Z :=
  zsum (map (fun r => Z.of_nat (length (row_entries M r))) (zrange 0 (mm M))).

(* every stored index is a column of the matrix *)
Definition cols_ok (M : matrix) : Prop :=
  forall r e, 0 <= r < mm M -> In e (row_entries M r) -> 0 <= fst e < mn M.

(* column c of a matrix given by its rows: pairs (row, value), rows ascending *)
Definition column (m : Z) (rows : Z -> list (Z * Q)) (c : Z) : list (Z * Q) :=
  flat_map (fun r => map (fun e => (r, snd e)) (filter (fun e => fst e =? c) (rows r))) (zrange 0 m).

(* A compressed-sparse-row input as documented in PSLP_API.h: row pointers Ap[0..m], 0 = Ap[0] <= ... <= Ap[m] = nnz *)
Record csr_input (Ax : arr Q) (Ai Ap : arr Z) (m n nnz : Z) : Prop := {
  ci_m : 0 <= m;
  ci_x : alen Ax = nnz;
  ci_i : alen Ai = nnz;
  ci_0 : adat Ap 0 = 0;
  ci_mono : forall r, 0 <= r < m -> adat Ap r <= adat Ap (r + 1);
  ci_end : adat Ap m = nnz;
  ci_col : forall k, 0 <= k < nnz -> 0 <= adat Ai k < n
}.
Definition input_row (Ax : arr Q) (Ai Ap : arr Z) (r : Z) : list (Z * Q) :=
  map (fun k => (adat Ai k, adat Ax k)) (zrange (adat Ap r) (adat Ap (r + 1))).
