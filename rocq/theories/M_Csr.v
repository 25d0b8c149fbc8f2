(* The sparse matrix with gaps: src/core/Matrix.c, include/core/Matrix.h, src/core/utils.c and the
   array part of src/core/Constraints.c and src/explorers/DtonsEq.c.

   Simplifications: the struct array A->p of {start,end} is two arrays [ps], [pe];
   allocation failure is not modelled here (see M_Alloc.v); [realloc] to a smaller
   size is modelled by the length; release build (assert and DEBUG do nothing). *)
From Coq Require Import QArith Qabs.
From Verif Require Import M_Mem M_Num.
Local Open Scope Z_scope.

(* include/core/Matrix.h: struct Matrix *)
Record matrix := mkmat {
  mm : Z;  mn : Z;  mnnz : Z;  mcap : Z;        (* m, n, nnz, n_alloc *)
  mi : arr Z;  mx : arr Q;                       (* i, x *)
  ps : arr Z;  pe : arr Z                        (* p[.].start, p[.].end *)
}.
Definition with_xi (M : matrix) (x : arr Q) (i : arr Z) : matrix :=
  mkmat (mm M) (mn M) (mnnz M) (mcap M) i x (ps M) (pe M).
Definition with_p (M : matrix) (s e : arr Z) : matrix :=
  mkmat (mm M) (mn M) (mnnz M) (mcap M) (mi M) (mx M) s e.
Definition with_nnz (M : matrix) (z : Z) : matrix :=
  mkmat (mm M) (mn M) z (mcap M) (mi M) (mx M) (ps M) (pe M).

(* include/core/glbopts.h:29-34 (release values), :44-45 *)
Definition EXTRA_ROW_SPACE : Z := 4.
Definition EXTRA_MEMORY_RATIO : Z := 2.
Definition SIZE_INACTIVE : Z := -1.

(* Matrix.c:169-182 and 184-187; the double memory_ratio is always 1.0 or 2 *)
Definition calc_memory (nnz n_rows extra ratio : Z) : Z := nnz * ratio + n_rows * extra.
Definition calc_memory_row (size extra ratio : Z) : Z := size * ratio + extra.

(* Matrix.c:87-117 *)
Definition matrix_new_no_extra_space (jx : Z -> Q) (ji jp : Z -> Z)
  (Ax : arr Q) (Ai Ap : arr Z) (n_rows n_cols nnz : Z) : option matrix :=
  do x <- memcpy (malloc nnz jx) 0 Ax 0 nnz;
  do i <- memcpy (malloc nnz ji) 0 Ai 0 nnz;
  do (s, e) <- for_z 0 (n_rows + 1) (fun k '(s, e) =>
        do a <- aget Ap k;
        do s' <- aset s k a;
        do b <- aget Ap (k + 1);
        do e' <- aset e k b;
        Some (s', e'))
      (malloc (n_rows + 1) jp, malloc (n_rows + 1) jp);
  Some (mkmat n_rows n_cols nnz nnz i x s e).

(* Matrix.c:58-85 *)
Definition matrix_alloc (jx : Z -> Q) (ji jp : Z -> Z) (n_rows n_cols nnz : Z) : matrix :=
  let n_alloc := calc_memory nnz n_rows EXTRA_ROW_SPACE EXTRA_MEMORY_RATIO in
  mkmat n_rows n_cols nnz n_alloc (malloc n_alloc ji) (malloc n_alloc jx)
        (malloc (n_rows + 1) jp) (malloc (n_rows + 1) jp).

(* Matrix.c:29-55 *)
Definition matrix_new (jx : Z -> Q) (ji jp : Z -> Z)
  (Ax : arr Q) (Ai Ap : arr Z) (n_rows n_cols nnz : Z) : option matrix :=
  let A := matrix_alloc jx ji jp n_rows n_cols nnz in
  do (off, A) <- for_z 0 n_rows (fun k '(off, A) =>
      do a <- aget Ap k;
      do b <- aget Ap (k + 1);
      do s <- aset (ps A) k (a + off);
      do x <- memcpy (mx A) (a + off) Ax a (b - a);
      do i <- memcpy (mi A) (a + off) Ai a (b - a);
      do e <- aset (pe A) k (b + off);
      let row_size := (b + off) - (a + off) in
      let row_alloc := calc_memory_row row_size EXTRA_ROW_SPACE EXTRA_MEMORY_RATIO in
      Some (off + (row_alloc - row_size), with_p (with_xi A x i) s e)) (0, A);
  do a <- aget Ap n_rows;
  do s <- aset (ps A) n_rows (a + off);
  do e <- aset (pe A) n_rows (a + off);
  Some (with_p A s e).

(* Matrix.c:119-167 *)
Definition transpose (jx : Z -> Q) (ji jp : Z -> Z) (A : matrix) (work : arr Z) : option matrix :=
  let AT := matrix_alloc jx ji jp (mn A) (mm A) (mnnz A) in
  (* memset(count, 0, n) *)
  do count <- for_z 0 (mn A) (fun k c => aset c k 0) work;
  (* 130-136 *)
  do count <- for_z 0 (mm A) (fun i c =>
      do s <- aget (ps A) i; do e <- aget (pe A) i;
      for_z s e (fun j c => do col <- aget (mi A) j; do o <- aget c col; aset c col (o + 1)) c) count;
  (* 140-148 *)
  do s0 <- aset (ps AT) 0 0;
  do (s, e, count) <- for_z 0 (mn A) (fun i '(s, e, count) =>
      do start <- aget s i;
      do ci <- aget count i;
      do e' <- aset e i (start + ci);
      do s' <- aset s (i + 1) (start + calc_memory_row ci EXTRA_ROW_SPACE EXTRA_MEMORY_RATIO);
      do count' <- aset count i start;
      Some (s', e', count')) (s0, pe AT, count);
  (* 150-151 *)
  do s <- aset s (mn A) (mcap AT);
  do e <- aset e (mn A) (mcap AT);
  (* 156-164 *)
  do (x, idx, count) <- for_z 0 (mm A) (fun i st =>
      do a <- aget (ps A) i; do b <- aget (pe A) i;
      for_z a b (fun j '(x, idx, count) =>
        do col <- aget (mi A) j;
        do p <- aget count col;
        do v <- aget (mx A) j;
        do x' <- aset x p v;
        do idx' <- aset idx p i;
        do count' <- aset count col (p + 1);
        Some (x', idx', count')) st) (mx AT, mi AT, count);
  Some (mkmat (mm AT) (mn AT) (mnnz AT) (mcap AT) idx x s e).

(* Matrix.c:531-537 *)
Definition count_rows (A : matrix) (row_sizes : arr Z) : option (arr Z) :=
  for_z 0 (mm A) (fun i r => do s <- aget (ps A) i; do e <- aget (pe A) i; aset r i (e - s)) row_sizes.

(* ------------------------------------------------------------------ *)
(* Matrix.c:272-422, the direction search 295-379.  Result [None]: out of bounds;
   [Some None]: return false; otherwise (left, right, left_shifts, right_shifts).
   The comparison of two double quotients is done exactly, by cross multiplication. *)
Fixpoint shift_search (fuel : nat) (A : matrix)
   (left right missing remaining lsh rsh : Z) : option (option (Z * Z * Z * Z)) :=
  if missing >? 0 then
    match fuel with
    | O => None
    | S f =>
      if (left =? 0) && (right =? mm A) then Some None else
      do space_left <- (if left =? 0 then Some 0 else
            do a <- aget (ps A) left; do b <- aget (pe A) (left - 1); Some (a - b));
      do space_right <- (if right =? mm A then Some 0 else
            do a <- aget (ps A) (right + 1); do b <- aget (pe A) right; Some (a - b));
      do re <- aget (pe A) right; do rs <- aget (ps A) right;
      do le <- aget (pe A) left; do ls <- aget (ps A) left;
      let n_move_right := re - rs in
      let n_move_left := le - ls in
      let dir : option bool :=           (* Some true = left, None = return false *)
        if left =? 0 then
          (if negb (right =? mm A) && (n_move_right <=? remaining) then Some false else None)
        else if right =? mm A then
          (if negb (left =? 0) && (n_move_left <=? remaining) then Some true else None)
        else if n_move_left =? 0 then Some true
        else if n_move_right =? 0 then Some false
        else if (n_move_left <=? remaining) &&
                (space_right * n_move_left <=? space_left * n_move_right) then Some true
        else if n_move_right <=? remaining then Some false
        else None in
      match dir with
      | None => Some None
      | Some true =>
          let l := Z.min missing space_left in
          shift_search f A (left - 1) right (missing - l) (remaining - n_move_left) l rsh
      | Some false =>
          let r := Z.min missing space_right in
          shift_search f A left (right + 1) (missing - r) (remaining - n_move_right) lsh r
      end
    end
  else Some (Some (left, right, lsh, rsh)).

(* Matrix.c:385-399: rows left+1 .. row, in this order *)
Definition shift_left_exec (A : matrix) (left row lsh : Z) : option matrix :=
  do s0 <- aget (ps A) (left + 1);
  do (next, A) <- for_z left row (fun l '(next_start, A) =>
      do e <- aget (pe A) (l + 1); do s <- aget (ps A) (l + 1);
      let len := e - s in
      do x <- (if len >? 0 then memmove (mx A) next_start s len else Some (mx A));
      do i <- (if len >? 0 then memmove (mi A) next_start s len else Some (mi A));
      do s' <- aset (ps A) (l + 1) next_start;
      do e' <- aset (pe A) (l + 1) (next_start + len);
      Some (next_start + len, with_p (with_xi A x i) s' e')) (s0 - lsh, A);
  Some A.

(* Matrix.c:404-418: rows right-1 .. row+1, in this (descending) order *)
Definition shift_right_exec (A : matrix) (right row rsh : Z) : option matrix :=
  do e0 <- aget (pe A) (right - 1);
  do (next, A) <- for_z 0 (right - (row + 1)) (fun k '(next_end, A) =>
      let r := right - 1 - k in
      do e <- aget (pe A) r; do s <- aget (ps A) r;
      let len := e - s in
      do x <- (if len >? 0 then memmove (mx A) (next_end - len) s len else Some (mx A));
      do i <- (if len >? 0 then memmove (mi A) (next_end - len) s len else Some (mi A));
      do s' <- aset (ps A) r (next_end - len);
      do e' <- aset (pe A) r next_end;
      Some (next_end - len, with_p (with_xi A x i) s' e')) (e0 + rsh, A);
  Some A.

(* Matrix.c:272-422 *)
Definition shift_row (A : matrix) (row extra_space max_shift : Z) : option (bool * matrix) :=
  do a <- aget (ps A) (row + 1);
  do b <- aget (pe A) row;
  let missing := extra_space - (a - b) in
  if missing <=? 0 then Some (true, A) else
  do r <- shift_search (Z.to_nat (mm A) + 1) A row (row + 1) missing max_shift 0 0;
  match r with
  | None => Some (false, A)
  | Some (lf, rt, lsh, rsh) =>
      do A <- shift_left_exec A lf row lsh;
      do A <- shift_right_exec A rt row rsh;
      Some (true, A)
  end.

(* ------------------------------------------------------------------ *)
(* first position in [i, i+k) whose index satisfies the test, else [dflt] *)
Fixpoint find_from (k : nat) (p : Z -> bool) (a : arr Z) (i dflt : Z) : option Z :=
  match k with
  | O => Some dflt
  | S k' => do c <- aget a i; if p c then Some i else find_from k' p a (i + 1) dflt
  end.

Definition ABSQ (q : Q) : Q := Qabs q.
Definition tiny (v : Q) : bool := negb (Qgtb (ABSQ v) ZERO_TOL).   (* !(ABS(val) > ZERO_TOL) *)

(* Matrix.c:433-509; returns old value, matrix and the new row size *)
Definition insert_or_update_coeff (A : matrix) (row col : Z) (val : Q) (row_size : Z)
  : option (Q * matrix * Z) :=
  do start <- aget (ps A) row;
  do end_ <- aget (pe A) row;
  do insertion <- find_from (Z.to_nat (end_ - start)) (fun c => col <=? c) (mi A) start end_;
  if negb (tiny val) then
    if insertion =? end_ then
      do x <- aset (mx A) insertion val;
      do i <- aset (mi A) insertion col;
      do e <- aset (pe A) row (end_ + 1);
      Some (0%Q, with_nnz (with_p (with_xi A x i) (ps A) e) (mnnz A + 1), row_size + 1)
    else
      do c <- aget (mi A) insertion;
      if c =? col then
        do old <- aget (mx A) insertion;
        do x <- aset (mx A) insertion val;
        Some (old, with_xi A x (mi A), row_size)
      else
        let len := end_ - insertion in
        do x <- memmove (mx A) (insertion + 1) insertion len;
        do i <- memmove (mi A) (insertion + 1) insertion len;
        do x <- aset x insertion val;
        do i <- aset i insertion col;
        do e <- aset (pe A) row (end_ + 1);
        Some (0%Q, with_nnz (with_p (with_xi A x i) (ps A) e) (mnnz A + 1), row_size + 1)
  else
    do xi <- (if insertion =? end_ - 1 then Some (mx A, mi A) else
              let len := end_ - insertion - 1 in
              do x <- memmove (mx A) insertion (insertion + 1) len;
              do i <- memmove (mi A) insertion (insertion + 1) len;
              Some (x, i));
    do e <- aset (pe A) row (end_ - 1);
    Some (0%Q, with_nnz (with_p (with_xi A (fst xi) (snd xi)) (ps A) e) (mnnz A - 1), row_size - 1).

(* Matrix.c:511-529; the RowView points at cells start.. of A (RowColViews.h:70-84).
   [len] is *row->len.  The loop reads cell i+shift, also for the last i. *)
Definition remove_coeff (A : matrix) (row col len : Z) : option (matrix * Z) :=
  do start <- aget (ps A) row;
  do (shift, x, i) <- for_z 0 len (fun k '(shift, x, idx) =>
      do c <- aget idx (start + k);
      let shift := if c =? col then 1 else shift in
      do v <- aget x (start + k + shift);
      do x <- aset x (start + k) v;
      do c2 <- aget idx (start + k + shift);
      do idx <- aset idx (start + k) c2;
      Some (shift, x, idx)) (0, mx A, mi A);
  do end_ <- aget (pe A) row;
  do e <- aset (pe A) row (end_ - 1);
  Some (with_p (with_xi A x i) (ps A) e, len - 1).

(* DtonsEq.c:236-368 (without the postsolve record, which is in M_Dton.v).
   Result: (old coeff of j, old coeff of k, new coeff of j), matrix, new row size. *)
Definition update_row_A_dton (A : matrix) (q j k : Z) (aij aik : Q) (row_size : Z)
  : option ((Q * Q * Q) * matrix * Z) :=
  do start <- aget (ps A) q;
  do end_ <- aget (pe A) q;
  let cnt := Z.to_nat (end_ - start) in
  do subst_idx <- find_from cnt (fun c => c =? k) (mi A) start (-1);
  do insertion <- find_from cnt (fun c => j <=? c) (mi A) start end_;
  do old_val <- (if insertion =? end_ then Some 0%Q else
        do c <- aget (mi A) insertion;
        if c =? j then aget (mx A) insertion else Some 0%Q);
  do xk <- aget (mx A) subst_idx;
  let new_val := (old_val - (aij / aik) * xk)%Q in
  let len := end_ - subst_idx - 1 in
  do x <- memmove (mx A) subst_idx (subst_idx + 1) len;
  do i <- memmove (mi A) subst_idx (subst_idx + 1) len;
  let end1 := end_ - 1 in
  let insertion := if subst_idx <? insertion then insertion - 1 else insertion in
  do (x, i, end2, diff) <-
    (if tiny new_val then
       let len := end1 - insertion - 1 in
       do x <- memmove x insertion (insertion + 1) len;
       do i <- memmove i insertion (insertion + 1) len;
       Some (x, i, end1 - 1, 2)
     else if insertion =? end1 then
       do x <- aset x insertion new_val;
       do i <- aset i insertion j;
       Some (x, i, end1 + 1, 0)
     else
       do c <- aget i insertion;
       if c =? j then do x <- aset x insertion new_val; Some (x, i, end1, 1)
       else
         let len := end1 - insertion in
         do x <- memmove x (insertion + 1) insertion len;
         do i <- memmove i (insertion + 1) insertion len;
         do x <- aset x insertion new_val;
         do i <- aset i insertion j;
         Some (x, i, end1 + 1, 0));
  do e <- aset (pe A) q end2;
  Some ((old_val, xk, new_val),
        with_nnz (with_p (with_xi A x i) (ps A) e) (mnnz A - diff), row_size - diff).

(* DtonsEq.c:66-83, the merge that counts the fill-in *)
Fixpoint fill_in_count (fuel : nat) (AT : matrix) (sj sk lj lk jj kk fill : Z) : option Z :=
  if (jj <? lj) && (kk <? lk) then
    match fuel with
    | O => None
    | S f =>
      do rj <- aget (mi AT) (sj + jj);
      do rk <- aget (mi AT) (sk + kk);
      if rj =? rk then fill_in_count f AT sj sk lj lk (jj + 1) (kk + 1) fill
      else if rk <? rj then fill_in_count f AT sj sk lj lk jj (kk + 1) (fill + 1)
      else fill_in_count f AT sj sk lj lk (jj + 1) kk fill
    end
  else Some (fill + (lk - kk)).

(* DtonsEq.c:42-91 *)
Definition sufficient_space_AT (AT : matrix) (j k max_shift : Z) : option (bool * matrix) :=
  do sj <- aget (ps AT) j; do ej <- aget (pe AT) j;
  do sk <- aget (ps AT) k; do ek <- aget (pe AT) k;
  do fill <- fill_in_count (Z.to_nat (ej - sj + (ek - sk))) AT sj sk (ej - sj) (ek - sk) 0 0 (-1);
  do nxt <- aget (ps AT) (j + 1);
  if fill <=? nxt - ej then Some (true, AT) else shift_row AT j fill max_shift.

(* ------------------------------------------------------------------ *)
(* utils.c:22-64, Constraints.c:294-303, State.c:174-194: the six identical *_shrink loops *)
Definition ptr_shrink {T} (ptr : arr T) (map : arr Z) (len : Z) : option (arr T) :=
  for_z 0 len (fun i p =>
    do d <- aget map i;
    if d =? -1 then Some p else do v <- aget p i; aset p d v) ptr.

(* utils.c:66-81; the vector is its data array and length *)
Definition shrink_idx_vector (data : arr Z) (len : Z) (map : arr Z) : option (arr Z * Z) :=
  for_z 0 len (fun i '(data, curr) =>
    do a <- aget data i;
    do d <- aget map a;
    if d =? -1 then Some (data, curr) else
    do data <- aset data curr d;
    Some (data, curr + 1)) (data, 0).

(* Matrix.c:201-270 *)
Definition remove_extra_space (jx : Z -> Q) (ji : Z -> Z) (A : matrix)
  (row_sizes col_sizes : arr Z) (remove_all : bool) (col_map : arr Z) : option (matrix * arr Z) :=
  let extra := if remove_all then 0 else EXTRA_ROW_SPACE in
  let ratio := if remove_all then 1 else EXTRA_MEMORY_RATIO in
  (* 215-232 *)
  do (curr, ndel, A1) <- for_z 0 (mm A) (fun i '(curr, ndel, A) =>
      do sz <- aget row_sizes i;
      if sz =? SIZE_INACTIVE then Some (curr, ndel + 1, A) else
      do start <- aget (ps A) i; do end_ <- aget (pe A) i;
      let len := end_ - start in
      do x <- memmove (mx A) curr start len;
      do ix <- memmove (mi A) curr start len;
      do s <- aset (ps A) (i - ndel) curr;
      do e <- aset (pe A) (i - ndel) (curr + len);
      Some (curr + calc_memory_row len extra ratio, ndel, with_p (with_xi A x ix) s e)) (0, 0, A);
  let m1 := mm A - ndel in
  do s <- aset (ps A1) m1 curr;
  do e <- aset (pe A1) m1 curr;
  (* 239-241 *)
  let x := realloc (mx A1) (Z.max curr 1) jx in
  let ix := realloc (mi A1) (Z.max curr 1) ji in
  let s := realloc s (m1 + 1) ji in
  let e := realloc e (m1 + 1) ji in
  (* 246-258 *)
  do (cnt, cm) <- for_z 0 (mn A) (fun i '(cnt, cm) =>
      do sz <- aget col_sizes i;
      if sz =? SIZE_INACTIVE then do cm <- aset cm i (-1); Some (cnt, cm)
      else do cm <- aset cm i cnt; Some (cnt + 1, cm)) (0, col_map);
  (* 263-269 *)
  do ix <- for_z 0 m1 (fun i ix =>
      do a <- aget s i; do b <- aget e i;
      for_z a b (fun j ix => do c <- aget ix j; do d <- aget cm c; aset ix j d) ix) ix;
  Some (mkmat m1 cnt (mnnz A) (mcap A) ix x s e, cm).
