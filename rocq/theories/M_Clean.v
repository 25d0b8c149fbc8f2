(* Final clean-up at array level: src/core/Constraints.c:305-320, src/core/Problem.c:85-93,
   src/core/Presolver.c:573-603, and the in-place compaction loop of
   src/core/Constraints.c:153-169 and 267-285. *)
From Coq Require Import QArith.
From Verif Require Import M_Mem M_Num M_Csr.
Local Open Scope Z_scope.

(* the per-row and per-column data the caller sees; T: element type of the row side arrays *)
Record carrays := mkca {
  ca_A : matrix;  ca_AT : matrix;
  ca_rsz : arr Z;  ca_csz : arr Z;                   (* row_sizes, col_sizes *)
  ca_lhs : arr ext;  ca_rhs : arr ext;
  ca_lb : arr ext;  ca_ub : arr ext;                 (* bounds[.].lb, bounds[.].ub *)
  ca_c : arr Q;
  ca_cmap : arr Z;  ca_rmap : arr Z                  (* mappings->cols, mappings->rows *)
}.

(* Problem.c:85-93 = Constraints.c:305-320 + Problem.c:92 (objective_shrink); remove_all = true, the
   only call (Presolver.c:742).  Tags, activities, locks and the index lists are shrunk by the
   same loops (ptr_shrink, shrink_idx_vector) but are never read again, and are left out. *)
Definition problem_clean (jx : Z -> Q) (ji : Z -> Z) (P : carrays) : option carrays :=
  let m := mm (ca_A P) in let n := mn (ca_A P) in
  do (A, cmap) <- remove_extra_space jx ji (ca_A P) (ca_rsz P) (ca_csz P) true (ca_cmap P);
  do (AT, rmap) <- remove_extra_space jx ji (ca_AT P) (ca_csz P) (ca_rsz P) true (ca_rmap P);
  do rhs <- ptr_shrink (ca_rhs P) rmap m;
  do lhs <- ptr_shrink (ca_lhs P) rmap m;
  do lb <- ptr_shrink (ca_lb P) cmap n;
  do ub <- ptr_shrink (ca_ub P) cmap n;
  do rsz <- ptr_shrink (ca_rsz P) rmap m;
  do csz <- ptr_shrink (ca_csz P) cmap n;
  do c <- ptr_shrink (ca_c P) cmap n;
  Some (mkca A AT rsz csz lhs rhs lb ub c cmap rmap).

(* include/PSLP/PSLP_API.h: struct PresolvedProblem (obj_offset is a scalar, see M_State.v) *)
Record presolved := mkpp {
  pp_m : Z;  pp_n : Z;  pp_nnz : Z;
  pp_Ax : arr Q;  pp_Ai : arr Z;  pp_Ap : arr Z;
  pp_lhs : arr ext;  pp_rhs : arr ext;  pp_lbs : arr ext;  pp_ubs : arr ext;  pp_c : arr Q }.

(* Presolver.c:573-603 *)
Definition populate (jb : Z -> ext) (ji : Z -> Z) (P : carrays) : option presolved :=
  let A := ca_A P in
  do (l, u) <- for_z 0 (mn A) (fun i '(l, u) =>
      do a <- aget (ca_lb P) i; do l <- aset l i a;
      do b <- aget (ca_ub P) i; do u <- aset u i b; Some (l, u))
      (malloc (mn A) jb, malloc (mn A) jb);
  do ap <- for_z 0 (mm A + 1) (fun i ap => do s <- aget (ps A) i; aset ap i s) (malloc (mm A + 1) ji);
  Some (mkpp (mm A) (mn A) (mnnz A) (mx A) (mi A) ap (ca_lhs P) (ca_rhs P) l u (ca_c P)).

(* Constraints.c:153-169: keep the entries whose index is not dead (size -1), in place *)
Definition compact_row (M : matrix) (r : Z) (sizes : arr Z) : option (matrix * Z) :=
  do s <- aget (ps M) r; do e <- aget (pe M) r;
  do (x, i, shift) <- for_z s e (fun j '(x, i, shift) =>
      do k <- aget i j;
      do sz <- aget sizes k;
      if sz =? SIZE_INACTIVE then Some (x, i, shift + 1) else
      do v <- aget x j; do x <- aset x (j - shift) v;
      do i <- aset i (j - shift) k;
      Some (x, i, shift)) (mx M, mi M, 0);
  do pe' <- aset (pe M) r (e - shift);
  Some (with_p (with_xi M x i) (ps M) pe', shift).
