(* What an operation on one row of a matrix with gaps may change. *)
From Coq Require Import QArith.
From Verif Require Import M_Mem M_Csr S_Csr S_Mat S_Row.
Local Open Scope Z_scope.

(* B is well formed, its row r is l, everything else is as in A *)
Record one_row (A B : matrix) (r : Z) (l : list (Z * Q)) : Prop := {
  or_wf : wf_mat B; or_mm : mm B = mm A; or_mn : mn B = mn A; or_ps : ps B = ps A;
  or_alen : alen (mx B) = alen (mx A); or_cap : mcap B = mcap A;
  or_row : row_entries B r = l;
  or_len : adat (pe B) r = adat (ps A) r + Z.of_nat (length l);
  or_other : forall q, 0 <= q < mm A -> q <> r -> row_entries B q = row_entries A q /\ adat (pe B) q = adat (pe A) q }.
