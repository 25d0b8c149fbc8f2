(** The flat reduction log (PostsolveInfo: type, starts, indices, vals), as written by the
    save_retrieval_* functions and read by postsolver_run (src/core/Postsolver.c).

    Simplifications: lengths are unbounded (the casts to int at the ends of the save functions never
    overflow), doubles are exact ([ext]); a read outside an array is the outcome [None]. *)
From Coq Require Import NArith.
From Verif Require Import M_Num S_LP M_State M_Post.
Open Scope Z_scope.

(** include/core/Postsolver.h:54-76 *)
Record flog := mkFlog { fl_type : list N;  fl_starts : list Z;  fl_idx : list Z;  fl_vals : list ext }.

(** include/core/Postsolver.h:35-52 *)
Definition T_FIXED_COL : N := 0.
Definition T_FIXED_COL_INF : N := 1.
Definition T_SUB_COL : N := 2.
Definition T_PARALLEL_COL : N := 4.
Definition T_DELETED_ROW : N := 8.
Definition T_ADDED_ROW : N := 16.
Definition T_ADDED_ROWS : N := 32.
Definition T_LHS_CHANGE : N := 64.
Definition T_RHS_CHANGE : N := 128.
Definition T_EQ_TO_INEQ : N := 256.
Definition T_BOUND_CHANGE_NO_ROW : N := 512.
Definition T_BOUND_CHANGE_THE_ROW : N := 1024.
(** src/core/Postsolver.c:36 *)
Definition DUMMY_VALUE : Z := -382749.
(** include/core/Tags.h:41-55, the tags that occur *)
Definition tag_code (t : coltag) : Z :=
  (if t_lb_inf t then 1 else 0) + (if t_ub_inf t then 4 else 0) + (if t_fixed t then 16 else 0) + (if t_sub t then 32 else 0).

(** src/core/Postsolver.c:38-66 *)
Definition postsolve_info_new : flog := mkFlog [] [0] [] [].

(** The arrays a record consists of: row indices or column indices, and values *)
Definition icols (r : row) : list Z := map (fun e => Z.of_nat (fst e)) r.
Definition ivals (r : row) : list ext := map (fun e => Fin (snd e)) r.

(** All save functions: append the type, the indices, the values, and the length of indices. *)
Definition append_record (t : N) (ix : list Z) (vs : list ext) (f : flog) : flog :=
  let idx := fl_idx f ++ ix in
  mkFlog (fl_type f ++ [t]) (fl_starts f ++ [Z.of_nat (length idx)]) idx (fl_vals f ++ vs).

(** src/core/Postsolver.c:668-681 *)
Definition save_fixed_col (col : nat) (v ck : Q) (c : row) : flog -> flog :=
  append_record T_FIXED_COL ([Z.of_nat col; DUMMY_VALUE] ++ icols c) ([Fin v; Fin ck] ++ ivals c).
(** src/core/Postsolver.c:683-724; the rows are given with their side *)
Definition save_fixed_col_inf (pos : bool) (col : nat) (bound : ext) (rows : list (ext * row)) : flog -> flog :=
  append_record T_FIXED_COL_INF
    ([if pos then 1 else -1; Z.of_nat col] ++ flat_map (fun e => Z.of_nat (length (snd e)) :: icols (snd e)) rows)
    ([Fin (inject_Z (Z.of_nat (length rows))); bound] ++ flat_map (fun e => fst e :: ivals (snd e)) rows).
(** src/core/Postsolver.c:726-739 *)
Definition save_sub_col (col : nat) (r : row) (b : ext) (i : nat) (ck : Q) : flog -> flog :=
  append_record T_SUB_COL ([Z.of_nat col] ++ icols r ++ [Z.of_nat i]) ([b] ++ ivals r ++ [Fin ck]).
(** src/core/Postsolver.c:741-759 *)
Definition save_parallel_col (j k : nat) (tj tk : coltag) (lbj ubj lbk ubk : ext) (ratio : Q) : flog -> flog :=
  append_record T_PARALLEL_COL [Z.of_nat j; Z.of_nat k; tag_code tj; tag_code tk; DUMMY_VALUE] [lbj; ubj; lbk; ubk; Fin ratio].
(** src/core/Postsolver.c:761-769 *)
Definition save_deleted_row (i : nat) (v : Q) : flog -> flog := append_record T_DELETED_ROW [Z.of_nat i] [Fin v].
(** src/core/Postsolver.c:771-781 *)
Definition save_added_row (i j : nat) (ratio : Q) : flog -> flog :=
  append_record T_ADDED_ROW [Z.of_nat i; Z.of_nat j] [Fin ratio; Fin (inject_Z DUMMY_VALUE)].
(** src/core/Postsolver.c:783-794 *)
Definition save_added_rows (i : nat) (c : row) (aik : Q) : flog -> flog :=
  append_record T_ADDED_ROWS ([Z.of_nat i] ++ icols c) ([Fin aik] ++ ivals c).
(** src/core/Postsolver.c:797-810 *)
Definition save_bound_change_no_row (j : nat) (implied : Q) (other : ext) (low : bool) : flog -> flog :=
  append_record T_BOUND_CHANGE_NO_ROW [Z.of_nat j; if low then 1 else 0] [Fin implied; other].
(** src/core/Postsolver.c:812-824 *)
Definition save_bound_change_the_row (i : nat) (r : row) (n : nat) : flog -> flog :=
  append_record T_BOUND_CHANGE_THE_ROW ([Z.of_nat i] ++ icols r) ([Fin (inject_Z (Z.of_nat n))] ++ ivals r).
(** src/core/Postsolver.c:826-848 *)
Definition save_side_change (lhs_ : bool) (i : nat) (r : row) (side : Q) (j : nat) (ratio : Q) : flog -> flog :=
  append_record (if lhs_ then T_LHS_CHANGE else T_RHS_CHANGE)
    ([Z.of_nat i; Z.of_nat j] ++ icols r) ([Fin side; Fin ratio] ++ ivals r).
(** src/core/Postsolver.c:850-858 *)
Definition save_eq_to_ineq (i : nat) (v : Q) : flog -> flog := append_record T_EQ_TO_INEQ [Z.of_nat i] [Fin v].

Definition save (r : reduction) : flog -> flog :=
  match r with
  | FIXED_COL k v ck c => save_fixed_col k v ck c
  | FIXED_COL_INF pos k b rows => save_fixed_col_inf pos k b rows
  | SUB_COL k r b i ck => save_sub_col k r b i ck
  | PARALLEL_COL j k tj tk lbj ubj lbk ubk ratio => save_parallel_col j k tj tk lbj ubj lbk ubk ratio
  | DELETED_ROW i v => save_deleted_row i v
  | ADDED_ROW i j ratio => save_added_row i j ratio
  | ADDED_ROWS i c aik => save_added_rows i c aik
  | BOUND_CHANGE_NO_ROW j implied other low => save_bound_change_no_row j implied other low
  | BOUND_CHANGE_THE_ROW i r n => save_bound_change_the_row i r n
  | LHS_CHANGE i r side j ratio => save_side_change true i r side j ratio
  | RHS_CHANGE i r side j ratio => save_side_change false i r side j ratio
  | EQ_TO_INEQ i v => save_eq_to_ineq i v
  end.
(** The log after a sequence of reductions, given newest first *)
Fixpoint write_log (l : list reduction) : flog :=
  match l with [] => postsolve_info_new | r :: l' => save r (write_log l') end.

(** ** Reading *)
Definition rd {A} (l : list A) (i : Z) : option A := if i <? 0 then None else nth_error l (Z.to_nat i).
Notation "'do' x <- m ; k" := (match m with Some x => k | None => None end) (at level 200, x name, k at level 200).
(** an index, which must not be negative to be used as a subscript *)
Definition rd_idx (f : flog) (i : Z) : option nat :=
  do z <- rd (fl_idx f) i; if z <? 0 then None else Some (Z.to_nat z).
(** a value that is used in arithmetic; computing with an infinite one is not modelled *)
Definition rd_val (f : flog) (i : Z) : option Q :=
  do v <- rd (fl_vals f) i; match v with Fin q => Some q | _ => None end.
(** [len] pairs (indices[start + ..], vals[start + ..]) *)
Fixpoint rd_row (f : flog) (start : Z) (len : nat) : option row :=
  match len with
  | O => Some []
  | S l => do k <- rd_idx f start; do v <- rd_val f start; do r <- rd_row f (start + 1) l; Some ((k, v) :: r)
  end.
(** (int) x *)
Definition to_int (q : Q) : Z := Z.quot (Qnum q) (Zpos (Qden q)).
(** HAS_TAG on the saved tag *)
Definition tag_decode (z : Z) : coltag := CT (Z.testbit z 0) (Z.testbit z 2) (Z.testbit z 4) (Z.testbit z 5).

(** src/core/Postsolver.c:168-206: the rows of a FIXED_COL_INF record *)
Fixpoint rd_inf_rows (f : flog) (counter : Z) (n : nat) : option (list (ext * row)) :=
  match n with
  | O => Some []
  | S n' => do side <- rd (fl_vals f) counter; do len <- rd_idx f counter;
            do r <- rd_row f (counter + 1) len;
            do rest <- rd_inf_rows f (counter + Z.of_nat len + 1) n'; Some ((side, r) :: rest)
  end.

(** src/core/Postsolver.c:529-642: the arguments each branch passes on, for record [i].  A loop bound
    [len] that is negative runs zero times. *)
Definition read_record (f : flog) (i : Z) : option reduction :=
  do t <- rd (fl_type f) i; do start <- rd (fl_starts f) i; do next <- rd (fl_starts f) (i + 1);
  let len d := Z.to_nat (next - start - d) in
  if N.eqb t T_FIXED_COL then
    do k <- rd_idx f start; do v <- rd_val f start; do ck <- rd_val f (start + 1);
    do c <- rd_row f (start + 2) (len 2); Some (FIXED_COL k v ck c)
  else if N.eqb t T_SUB_COL then
    do k <- rd_idx f start; do r <- rd_row f (start + 1) (len 2); do b <- rd (fl_vals f) start;
    do i <- rd_idx f (start + Z.of_nat (len 2) + 1); do ck <- rd_val f (start + Z.of_nat (len 2) + 1);
    Some (SUB_COL k r b i ck)
  else if N.eqb t T_FIXED_COL_INF then
    do n <- rd_val f start; do b <- rd (fl_vals f) (start + 1); do p <- rd (fl_idx f) start;
    do k <- rd_idx f (start + 1); do rows <- rd_inf_rows f (start + 2) (Z.to_nat (to_int n));
    Some (FIXED_COL_INF (0 <? p) k b rows)
  else if N.eqb t T_PARALLEL_COL then
    do j <- rd_idx f start; do k <- rd_idx f (start + 1);
    do tj <- rd (fl_idx f) (start + 2); do tk <- rd (fl_idx f) (start + 3);
    do lbj <- rd (fl_vals f) start; do ubj <- rd (fl_vals f) (start + 1);
    do lbk <- rd (fl_vals f) (start + 2); do ubk <- rd (fl_vals f) (start + 3); do ratio <- rd_val f (start + 4);
    Some (PARALLEL_COL j k (tag_decode tj) (tag_decode tk) lbj ubj lbk ubk ratio)
  else if N.eqb t T_DELETED_ROW then
    do i <- rd_idx f start; do v <- rd_val f start; Some (DELETED_ROW i v)
  else if N.eqb t T_ADDED_ROW then
    do i <- rd_idx f start; do j <- rd_idx f (start + 1); do v <- rd_val f start; Some (ADDED_ROW i j v)
  else if N.eqb t T_ADDED_ROWS then
    do i <- rd_idx f start; do c <- rd_row f (start + 1) (len 1); do a <- rd_val f start; Some (ADDED_ROWS i c a)
  else if N.eqb t T_BOUND_CHANGE_THE_ROW then
    do n <- rd_val f start; do i <- rd_idx f start; do r <- rd_row f (start + 1) (len 1);
    Some (BOUND_CHANGE_THE_ROW i r (Z.to_nat (to_int n)))
  else if N.eqb t T_LHS_CHANGE || N.eqb t T_RHS_CHANGE then
    do i <- rd_idx f start; do r <- rd_row f (start + 2) (len 2); do side <- rd_val f start;
    do j <- rd_idx f (start + 1); do ratio <- rd_val f (start + 1);
    Some ((if N.eqb t T_LHS_CHANGE then LHS_CHANGE else RHS_CHANGE) i r side j ratio)
  else if N.eqb t T_EQ_TO_INEQ then
    do i <- rd_idx f start; do v <- rd_val f start; Some (EQ_TO_INEQ i v)
  else
    (* 640-641, not read outside a group *)
    do j <- rd_idx f start; do implied <- rd_val f start; do other <- rd (fl_vals f) (start + 1);
    do low <- rd (fl_idx f) (start + 1); Some (BOUND_CHANGE_NO_ROW j implied other (negb (low =? 0))).

(** src/core/Postsolver.c:603-606: inside a group everything that is not FIXED_COL is read as a bound
    change *)
Definition read_bound_change (f : flog) (i : Z) : option (nat * Q * ext * bool) :=
  do start <- rd (fl_starts f) i;
  do j <- rd_idx f start; do implied <- rd_val f start; do other <- rd (fl_vals f) (start + 1);
  do low <- rd (fl_idx f) (start + 1); Some (j, implied, other, negb (low =? 0)).

(** src/core/Postsolver.c:526-643: the two nested loops, from record [n - 1] down.  [grp] as in
    M_Post.replay. *)
Fixpoint replay_flat (f : flog) (grp : option (nat * row * nat)) (n : nat) (s : solution) : option solution :=
  match n with
  | O => match grp with None => Some s | Some _ => None end
  | S i =>
      match grp with
      | Some (row, ents, todo) =>
          do t <- rd (fl_type f) (Z.of_nat i);
          if N.eqb t T_FIXED_COL then
            do r <- read_record f (Z.of_nat i); replay_flat f grp i (retrieve_one r s)
          else
            do b <- read_bound_change f (Z.of_nat i);
            replay_flat f (match todo with S (S l) => Some (row, ents, S l) | _ => None end) i
              (let '(j, implied, other, low) := b in retrieve_bound_change row j ents implied other low s)
      | None =>
          do r <- read_record f (Z.of_nat i);
          match r with
          | BOUND_CHANGE_THE_ROW row ents (S l) => replay_flat f (Some (row, ents, S l)) i s
          | _ => replay_flat f None i (retrieve_one r s)
          end
      end
  end.

(** src/core/Postsolver.c:84-114 on the three buffers of the solution, whatever they contained *)
Definition place (dim_x dim_y : nat) (col_map row_map : nat -> Z) (x y z : nat -> Q) (old : solution) : solution :=
  let look (mp : nat -> Z) (v : nat -> Q) (i : nat) := if mp i =? -1 then None else Some (v (Z.to_nat (mp i))) in
  mkSol (fold_left (fun b i => upd b i (look col_map x i)) (seq 0 dim_x) (sx old))
        (fold_left (fun b i => upd b i (look row_map y i)) (seq 0 dim_y) (sy old))
        (fold_left (fun b i => upd b i (look col_map z i)) (seq 0 dim_x) (sz old)) false.

(** src/core/Postsolver.c:513-664 *)
Definition postsolver_run (f : flog) (dim_x dim_y : nat) (col_map row_map : nat -> Z) (x y z : nat -> Q) (old : solution)
  : option solution :=
  replay_flat f None (length (fl_type f)) (place dim_x dim_y col_map row_map x y z old).

(** The presolver as postsolve sees it (src/core/Presolver.c:760-779): the log, the maps and the
    buffer presolver->sol.  Times and printing are left out. *)
Record handle := mkHandle {
  h_log : flog;  h_cols : nat;  h_rows : nat;  h_cmap : nat -> Z;  h_rmap : nat -> Z;  h_sol : solution }.
Definition api_postsolve (x y z : nat -> Q) (h : handle) : option handle :=
  do s <- postsolver_run (h_log h) (h_cols h) (h_rows h) (h_cmap h) (h_rmap h) x y z (h_sol h);
  Some (mkHandle (h_log h) (h_cols h) (h_rows h) (h_cmap h) (h_rmap h) s).
