(** The search for parallel rows at the level of arrays (src/explorers/Parallel_rows.c:41-368), used for
    rows with A and for columns with AT.

    The two hash functions are parameters ([hs] of the indices, [hc] of the values of a row): nothing
    depends on what they compute.  The result of qsort is a parameter ([order]).  [tags i]: does row i
    have the inactive tag.  A read outside an array, and a division by zero, is [None].  The vector
    group_starts is a list (its growth is the subject of M_Vec.v). *)
From Coq Require Import QArith.
From Verif Require Import M_Mem M_Num M_Csr.
Local Open Scope Z_scope.

(** the entries lo..hi-1, each read with a check *)
Fixpoint read_n {V} (a : arr V) (k : nat) (i : Z) : option (list V) :=
  match k with O => Some nil | S k' => do v <- aget a i; do r <- read_n a k' (i + 1); Some (v :: r) end.
Definition read_range {V} (a : arr V) (lo hi : Z) : option (list V) := read_n a (Z.to_nat (hi - lo)) lo.

(** src/explorers/Parallel_rows.c:88-112; hash_double_array_with_scale reads arr[0] before looking at
    the size (line 64) *)
Definition compute_hashes (hs : list Z -> Z) (hc : list Q -> Z) (INT_MAX : Z) (A : matrix) (tags : Z -> bool)
           (sid coh : arr Z) : option (arr Z * arr Z) :=
  for_z 0 (mm A) (fun i '(sid, coh) =>
    if tags i then do sid' <- aset sid i INT_MAX; Some (sid', coh)
    else
      do s <- aget (ps A) i;
      do e <- aget (pe A) i;
      do is <- read_range (mi A) s e;
      do sid' <- aset sid i (hs is);
      do x0 <- aget (mx A) s;
      do xs <- read_range (mx A) s e;
      do coh' <- aset coh i (hc xs);
      Some (sid', coh')) (sid, coh).

(** src/explorers/Parallel_rows.c:114-140 *)
Definition comparator (sid coh : Z -> Z) (a b : Z) : Z :=
  if sid a <? sid b then -1 else if sid a >? sid b then 1
  else if coh a <? coh b then -1 else if coh a >? coh b then 1 else 0.

(** src/explorers/Parallel_rows.c:151-166; [k] bounds the number of iterations *)
Fixpoint bin_scan (k : nat) (rows sid coh : arr Z) (s0 c0 i : Z) : option Z :=
  match k with
  | O => Some i
  | S k' =>
      do r <- aget rows i;
      do s <- aget sid r;
      if negb (s =? s0) then Some i else
      do c <- aget coh r;
      if negb (c =? c0) then Some i else bin_scan k' rows sid coh s0 c0 (i + 1)
  end.
Definition get_bin_size (start n_rows : Z) (rows sid coh : arr Z) : option Z :=
  do r <- aget rows start;
  do s0 <- aget sid r;
  do c0 <- aget coh r;
  do i <- bin_scan (Z.to_nat (n_rows - (start + 1))) rows sid coh s0 c0 (start + 1);
  Some (i - start).

(** src/explorers/Parallel_rows.c:274-292: the loop over j; true iff it runs to the end *)
Fixpoint same_up_to (k : nat) (A : matrix) (s1 s2 : Z) (ratio : Q) (j : Z) : option bool :=
  match k with
  | O => Some true
  | S k' =>
      do v1 <- aget (mx A) (s1 + j);
      do v2 <- aget (mx A) (s2 + j);
      if negb (IS_ZERO_FEAS_TOL (v1 - ratio * v2)) then Some false else
      do c1 <- aget (mi A) (s1 + j);
      do c2 <- aget (mi A) (s2 + j);
      if negb (c1 =? c2) then Some false else same_up_to k' A s1 s2 ratio (j + 1)
  end.

(** One row of a bin against the first one; src/explorers/Parallel_rows.c:260-294 *)
Definition rows_parallel (A : matrix) (r1 r2 : Z) : option bool :=
  do s1 <- aget (ps A) r1;
  do e1 <- aget (pe A) r1;
  do s2 <- aget (ps A) r2;
  do e2 <- aget (pe A) r2;
  if negb (e1 - s1 =? e2 - s2) then Some false else
  do v1 <- aget (mx A) s1;
  do v2 <- aget (mx A) s2;
  if Qeqb v2 0 then None else
  same_up_to (Z.to_nat (e2 - s2)) A s1 s2 (v1 / v2) 0.

(** src/explorers/Parallel_rows.c:247-304.  [bin] and [dst] are the offsets of the two pointers into
    the one array [rows]. *)
Definition find_parallel_rows_in_bin (A : matrix) (bin bin_size dst : Z) (rows : arr Z) (gs : list Z)
  : option (arr Z * list Z * Z) :=
  do first <- aget rows bin;
  do (rows, n) <- for_z 1 bin_size (fun i '(rows, n) =>
      do r <- aget rows (bin + i);
      do p <- rows_parallel A first r;
      if p then do rows' <- aset rows (dst + n) r; Some (rows', n + 1) else Some (rows, n))
    (rows, 0);
  if 0 <? n then
    do rows' <- aset rows (dst + n) first;
    Some (rows', gs ++ [last gs 0 + (n + 1)], n + 1)
  else Some (rows, gs, n).

(** src/explorers/Parallel_rows.c:341-365; the loop over i, [fuel] bounds the number of iterations *)
Fixpoint search (fuel : nat) (A : matrix) (tags : Z -> bool) (sid coh : arr Z) (i total : Z)
         (rows : arr Z) (gs : list Z) : option (arr Z * list Z) :=
  match fuel with
  | O => Some (rows, gs)
  | S f =>
      if i <? mm A then
        do r <- aget rows i;
        if tags r then Some (rows, gs) else
        do bs <- get_bin_size i (mm A) rows sid coh;
        if 1 <? bs then
          do (rows', gs', n) <- find_parallel_rows_in_bin A i bs total rows gs;
          search f A tags sid coh (i + (bs - 1) + 1) (total + n) rows' gs'
        else search f A tags sid coh (i + 1) total rows gs
      else Some (rows, gs)
  end.

(** src/explorers/Parallel_rows.c:307-368.  [rows0], [sid0], [coh0] are the work arrays as they were;
    [order] is what qsort makes of 0, 1, ..., m-1. *)
Definition find_parallel_rows (hs : list Z -> Z) (hc : list Q -> Z) (INT_MAX : Z)
           (order : (Z -> Z) -> (Z -> Z) -> list Z) (A : matrix) (tags : Z -> bool)
           (rows0 sid0 coh0 : arr Z) : option (arr Z * list Z) :=
  do (sid, coh) <- compute_hashes hs hc INT_MAX A tags sid0 coh0;
  do rows1 <- for_z 0 (mm A) (fun i rows => aset rows i i) rows0;
  (* sort_rows *)
  let sorted := order (adat sid) (adat coh) in
  let rows2 := mkarr (alen rows1)
    (fun k => if (0 <=? k) && (k <? mm A) then nth (Z.to_nat k) sorted 0 else adat rows1 k) in
  search (S (Z.to_nat (mm A))) A tags sid coh 0 0 rows2 [0].
