(** Core transformations (src/core/CoreTransformation.c, include/core/CoreTransformations.h),
    locks (src/core/Locks.c), deletion of rows and columns (src/core/Constraints.c), objective
    updates (src/core/Problem.c). *)
From Coq Require Import NArith.
From Verif Require Import M_Num S_LP M_Driver M_State M_Act.

(** ** Locks *)

(** One coefficient of a row adds (d = 1) or removes (d = -1) locks.  rhs finite: a positive
    coefficient gives an up-lock, any other a down-lock; lhs finite: the other way round.
    src/core/Locks.c:36-62, include/core/Locks.h:53-79 *)
Definition lock_rhs (d : Z) (j : nat) (a : Q) (s : state) : state :=
  if Qgtb a 0 then set_ups (upd (ups s) j (ups s j + d)%Z) s
  else set_dns (upd (dns s) j (dns s j + d)%Z) s.
Definition lock_lhs (d : Z) (j : nat) (a : Q) (s : state) : state :=
  if Qgtb a 0 then set_dns (upd (dns s) j (dns s j + d)%Z) s
  else set_ups (upd (ups s) j (ups s j + d)%Z) s.
Definition lock_coeff (d : Z) (rhs_inf lhs_inf : bool) (j : nat) (a : Q) (s : state) : state :=
  let s1 := if rhs_inf then s else lock_rhs d j a s in
  if lhs_inf then s1 else lock_lhs d j a s1.

(** src/core/Locks.c:73-112 *)
Definition update_locks_eq_to_ineq (r : row) (to_upper : bool) : state -> state :=
  foldS (fun s e => if to_upper then lock_lhs (-1) (fst e) (snd e) s
                    else lock_rhs (-1) (fst e) (snd e) s) r.
(** src/core/Locks.c:114-153 *)
Definition update_locks_ineq_to_eq (r : row) (new_lhs : bool) : state -> state :=
  foldS (fun s e => if new_lhs then lock_lhs 1 (fst e) (snd e) s
                    else lock_rhs 1 (fst e) (snd e) s) r.
(** src/core/Locks.c:155-190 *)
Definition count_locks_one_column (col : row) (k : nat) (s : state) : state :=
  foldS (fun s e => lock_coeff 1 (t_rhs_inf (rt s (fst e))) (t_lhs_inf (rt s (fst e)))
                               k (snd e) s)
        col (set_dns (upd (dns s) k 0%Z) (set_ups (upd (ups s) k 0%Z) s)).

(** ** Marking rows and columns, include/core/CoreTransformations.h:95-124 *)
Definition set_col_to_fixed (k : nat) (s : state) : state :=
  push_fixed k (set_ct1 k (tag_fixed (ct s k)) s).
Definition set_col_to_substituted (k : nat) (s : state) : state :=
  push_sub k (set_ct1 k (tag_sub (ct s k)) s).
Definition set_row_to_inactive (i : nat) (val : Q) (s : state) : state :=
  record (DELETED_ROW i val) (set_rt1 i (tag_inactive (rt s i)) (push_rows i s)).

(** ** Fixing a column, src/core/CoreTransformation.c:30-68 *)
Definition fix_col (col : nat) (val ck : Q) (s : state) : state * status :=
  let old_lb := lb s col in
  let old_ub := ub s col in
  let is_ub_inf := t_ub_inf (ct s col) in
  let is_lb_inf := t_lb_inf (ct s col) in
  if (negb is_ub_inf && Qgeb val (fin old_ub + FEAS_TOL))
     || (negb is_lb_inf && Qleb val (fin old_lb - FEAS_TOL))
  then (s, INFEASIBLE)
  else
    let view := mAT s col in
    let s1 := record (FIXED_COL col val ck view) (set_col_to_fixed col s) in
    let ub_update := is_ub_inf || negb (Qeqb val (fin old_ub)) in
    let lb_update := is_lb_inf || negb (Qeqb val (fin old_lb)) in
    let s2 := set_lb1 col (Fin val) (set_ub1 col (Fin val) s1) in
    (update_activities_fixed_col view old_ub old_lb val ub_update lb_update is_ub_inf is_lb_inf s2,
     REDUCED).

(** Rows stored by save_retrieval_fixed_col_inf, src/core/Postsolver.c:705-719 *)
Definition inf_rows (s : state) (col : nat) : list (ext * row) :=
  map (fun e => let i := fst e in
                (if t_lhs_inf (rt s i) then rhs s i else lhs s i, row_view s i)) (mAT s col).

(** src/core/CoreTransformation.c:70-104 (pos = false), 106-141 (pos = true) *)
Definition fix_col_to_inf (pos : bool) (col : nat) (s : state) : state :=
  let rows := mAT s col in
  let s1 := record (FIXED_COL_INF pos col (if pos then lb s col else ub s col) (inf_rows s col)) s in
  let s2 := foldS (fun s e => if t_inact (rt s (fst e)) then s
                              else set_row_to_inactive (fst e) 0 s) rows s1 in
  let v := if pos then PInf else NInf in
  set_ub1 col v (set_lb1 col v (setAT col [] (set_csz1 col (-1)%Z
    (set_ct1 col (tag_fixed (ct s2 col)) s2)))).

(** src/core/CoreTransformation.c:143-193 *)
Definition update_lb (col : nat) (new_lb : Q) (i : nat) (s : state) : state * status :=
  let old := lb s col in
  if negb (t_ub_inf (ct s col)) && Qgeb new_lb (fin (ub s col) + FEAS_TOL) then (s, INFEASIBLE)
  else if t_lb_inf (ct s col) || Qgeb new_lb (fin old + FEAS_TOL) then
    let is_lb_inf := t_lb_inf (ct s col) in
    let s1 := update_activities_bound_change (mAT s col) old new_lb (negb is_lb_inf) true
                (set_lb1 col (Fin new_lb) s) in
    let s2 := set_ct1 col (untag_lb_inf (ct s1 col)) s1 in
    (record (BOUND_CHANGE_THE_ROW i (mA s2 i) 1)
       (record (BOUND_CHANGE_NO_ROW col new_lb (ub s2 col) false) s2), UNCHANGED)
  else (s, UNCHANGED).

(** src/core/CoreTransformation.c:195-246 *)
Definition update_ub (col : nat) (new_ub : Q) (i : nat) (s : state) : state * status :=
  let old := ub s col in
  if negb (t_lb_inf (ct s col)) && Qleb new_ub (fin (lb s col) - FEAS_TOL) then (s, INFEASIBLE)
  else if t_ub_inf (ct s col) || Qleb new_ub (fin old - FEAS_TOL) then
    let is_ub_inf := t_ub_inf (ct s col) in
    let s1 := update_activities_bound_change (mAT s col) old new_ub (negb is_ub_inf) false
                (set_ub1 col (Fin new_ub) s) in
    let s2 := set_ct1 col (untag_ub_inf (ct s1 col)) s1 in
    (record (BOUND_CHANGE_THE_ROW i (mA s2 i) 1)
       (record (BOUND_CHANGE_NO_ROW col new_ub (lb s2 col) true) s2), UNCHANGED)
  else (s, UNCHANGED).

(** ** Implied-free tests *)

(** src/core/CoreTransformation.c:248-298.  [r] is the row's entries (row->vals, row->cols,
    *row->len).  implied_ub = INF makes the final test fail. *)
Definition implied_free_from_above_by_row (s : state) (aik : Q) (i : nat) (r : row) (l u : ext)
           (t : coltag) (a : activity) : bool :=
  if t_ub_inf t then true
  else if Qgtb aik 0 && negb (t_rhs_inf (rt s i)) then
    if Z.eqb (n_inf_min a) 0 then
      Qleb (fin l + (fin (rhs s i) - a_min a) / aik - fin u) 0
    else if Z.eqb (n_inf_min a) 1 && t_lb_inf t then
      Qleb ((fin (rhs s i) - compute_min_act_tags (lb s) (ub s) (ct s) r) / aik - fin u) 0
    else false
  else if Qltb aik 0 && negb (t_lhs_inf (rt s i)) then
    if Z.eqb (n_inf_max a) 0 then
      Qleb (fin l + (fin (lhs s i) - a_max a) / aik - fin u) 0
    else if Z.eqb (n_inf_max a) 1 && t_lb_inf t then
      Qleb ((fin (lhs s i) - compute_max_act_tags (lb s) (ub s) (ct s) r) / aik - fin u) 0
    else false
  else false.

(** src/core/CoreTransformation.c:300-352 *)
Definition implied_free_from_below_by_row (s : state) (aik : Q) (i : nat) (r : row) (l u : ext)
           (t : coltag) (a : activity) : bool :=
  if t_lb_inf t then true
  else if Qgtb aik 0 && negb (t_lhs_inf (rt s i)) then
    if Z.eqb (n_inf_max a) 0 then
      Qleb (fin l - (fin u + (fin (lhs s i) - a_max a) / aik)) 0
    else if Z.eqb (n_inf_max a) 1 && t_ub_inf t then
      Qleb (fin l - (fin (lhs s i) - compute_max_act_tags (lb s) (ub s) (ct s) r) / aik) 0
    else false
  else if Qltb aik 0 && negb (t_rhs_inf (rt s i)) then
    if Z.eqb (n_inf_min a) 0 then
      Qleb (fin l - (fin u + (fin (rhs s i) - a_min a) / aik)) 0
    else if Z.eqb (n_inf_min a) 1 && t_ub_inf t then
      Qleb (fin l - (fin (rhs s i) - compute_min_act_tags (lb s) (ub s) (ct s) r) / aik) 0
    else false
  else false.

(** src/core/CoreTransformation.c:472-505, 507-542 (col->len = col_sizes[k]) *)
Definition is_ub_implied_free (s : state) (k : nat) : bool :=
  existsb (fun e => implied_free_from_above_by_row s (snd e) (fst e) (mA s (fst e))
                      (lb s k) (ub s k) (ct s k) (acts s (fst e))) (col_view s k).
Definition is_lb_implied_free (s : state) (k : nat) : bool :=
  existsb (fun e => implied_free_from_below_by_row s (snd e) (fst e) (mA s (fst e))
                      (lb s k) (ub s k) (ct s k) (acts s (fst e))) (col_view s k).

(** ** Side changes *)

(** src/core/CoreTransformation.c:354-411 *)
Definition change_rhs_of_ineq (i : nat) (new_rhs : Q) (other : nat) (ratio : Q) (s : state)
  : state * status :=
  if negb (t_lhs_inf (rt s i)) && Qgeb (fin (lhs s i)) (new_rhs + FEAS_TOL) then (s, INFEASIBLE)
  else
    let r := row_view s i in
    let s1 := if t_rhs_inf (rt s i) then update_locks_ineq_to_eq r false s else s in
    let s2 := set_rt1 i (untag_rhs_inf (rt s1 i)) (set_rhs1 i (Fin new_rhs) s1) in
    let s3 :=
      if negb (t_lhs_inf (rt s2 i)) && IS_EQUAL_FEAS_TOL (fin (lhs s2 i)) new_rhs then
        let s' := set_rt1 i (tag_eq_or (rt s2 i)) (set_rhs1 i (lhs s2 i) s2) in
        if Nat.eqb (length r) 2 then push_dton i s' else s'
      else s2 in
    (record (RHS_CHANGE i r new_rhs other ratio) s3, REDUCED).

(** src/core/CoreTransformation.c:413-470 *)
Definition change_lhs_of_ineq (i : nat) (new_lhs : Q) (other : nat) (ratio : Q) (s : state)
  : state * status :=
  if negb (t_rhs_inf (rt s i)) && Qleb (fin (rhs s i)) (new_lhs - FEAS_TOL) then (s, INFEASIBLE)
  else
    let r := row_view s i in
    let s1 := if t_lhs_inf (rt s i) then update_locks_ineq_to_eq r true s else s in
    let s2 := set_rt1 i (untag_lhs_inf (rt s1 i)) (set_lhs1 i (Fin new_lhs) s1) in
    let s3 :=
      if negb (t_rhs_inf (rt s2 i)) && IS_EQUAL_FEAS_TOL (fin (rhs s2 i)) new_lhs then
        let s' := set_rt1 i (tag_eq_or (rt s2 i)) (set_lhs1 i (rhs s2 i) s2) in
        if Nat.eqb (length r) 2 then push_dton i s' else s'
      else s2 in
    (record (LHS_CHANGE i r new_lhs other ratio) s3, REDUCED).

(** ** Deleting rows and columns *)

Definition Z_len (r : row) : Z := Z.of_nat (length r).

(** First loop of delete_inactive_rows, src/core/Constraints.c:91-120, one listed row *)
Definition delete_row (s : state) (i : nat) : state :=
  if Z.eqb (rsz s i) 0 then set_rsz1 i (-1)%Z s
  else
    let s1 := set_rsz1 i (-1)%Z (set_nnz (nnz s - rsz s i)%Z s) in
    let ri := t_rhs_inf (rt s i) in
    let li := t_lhs_inf (rt s i) in
    let s2 := foldS (fun s e =>
                let k := fst e in
                if Z.eqb (csz s k) (-1) then s
                else lock_coeff (-1) ri li k (snd e) (set_csz1 k (csz s k - 1)%Z s))
              (mA s1 i) s1 in
    setA i [] s2.

(** Entries of a column of AT whose row is still there; src/core/Constraints.c:153-169 *)
Definition drop_rows (s : state) (r : row) : row :=
  filter (fun e => negb (Z.eqb (rsz s (fst e)) (-1))) r.

(** Second loop, src/core/Constraints.c:130-171, one column *)
Definition compact_col (s : state) (k : nat) : state :=
  if t_cinact (ct s k) || Z.eqb (csz s k) (Z_len (mAT s k)) then s
  else if Z.eqb (csz s k) 0 then setAT k [] (push_empty_cols k s)
  else let s1 := if Z.eqb (csz s k) 1 then push_ston_cols k s else s in
       setAT k (drop_rows s (mAT s k)) s1.

(** src/core/Constraints.c:67-175 *)
Definition delete_inactive_rows (s : state) : state :=
  match w_rows s with
  | [] => s
  | l => set_w_rows [] (foldS compact_col (seq 0 (nc s)) (foldS delete_row l s))
  end.

(** First two loops of delete_inactive_cols_from_A_and_AT, src/core/Constraints.c:193-225 *)
Definition delete_col (s : state) (k : nat) : state :=
  let s1 := set_csz1 k (-1)%Z s in
  let s2 := foldS (fun s e => if Z.eqb (rsz s (fst e)) (-1) then s
                              else set_rsz1 (fst e) (rsz s (fst e) - 1)%Z s) (mAT s1 k) s1 in
  setAT k [] s2.

Definition drop_cols (s : state) (r : row) : row :=
  filter (fun e => negb (Z.eqb (csz s (fst e)) (-1))) r.

(** Third loop, src/core/Constraints.c:233-287, one row.  When the row becomes empty the memory
    at its start keeps its old first entry; [stale] remembers that column. *)
Definition compact_row (s : state) (i : nat) : state :=
  if t_inact (rt s i) || Z.eqb (rsz s i) (Z_len (mA s i)) then s
  else if Z.eqb (rsz s i) 0 then
    let s1 := push_empty_rows i (set_nnz (nnz s - Z_len (mA s i))%Z s) in
    setA i [] (set_stale (upd (stale s1) i (match mA s i with e :: _ => fst e | [] => stale s1 i end))
                         s1)
  else
    let s1 := if Z.eqb (rsz s i) 1 then push_ston_rows i s
              else if Z.eqb (rsz s i) 2 && t_eq (rt s i) then push_dton i s else s in
    let r' := drop_cols s (mA s i) in
    setA i r' (set_nnz (nnz s1 - (Z_len (mA s i) - Z_len r'))%Z s1).

(** src/core/Constraints.c:177-292 *)
Definition delete_inactive_cols_from_A_and_AT (s : state) : state :=
  let s1 := foldS delete_col (w_fixed s) s in
  let s2 := foldS delete_col (w_sub s) s1 in
  let s3 := foldS compact_row (seq 0 (nr s)) s2 in
  set_w_sub [] (set_w_fixed [] s3).

(** ** Objective, src/core/Problem.c *)

(** src/core/Problem.c:80-83 *)
Definition fix_var_in_obj (k : nat) (v : Q) (s : state) : state :=
  set_off (off s + cst s k * v) s.

(** src/core/Problem.c:95-110 *)
Definition sub_var_in_obj (r : row) (k : nat) (aik rhs_ : Q) (s : state) : state :=
  if Qeqb (cst s k) 0 then s
  else
    let ratio := cst s k / aik in
    let s1 := foldS (fun s e => set_cst1 (fst e) (cst s (fst e) - ratio * snd e) s) r s in
    set_off (off s1 + rhs_ * ratio) s1.
