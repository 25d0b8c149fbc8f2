(** The presolver's state (include/core/Constraints.h, State.h, Problem.h, Activity.h,
    Locks.h, Tags.h): one record.

    Matrices are kept as lists of (index, coefficient) per row of A and per row of AT; that the
    array code in Matrix.c and Constraints.c implements the list operations used here is the
    subject of the array layer (M_Csr.v, M_Clean.v).  A and AT are two separate copies, as in
    the code: nothing in the model makes them agree.  Arrays indexed by row or column are total
    functions; worklists (iVec) are lists, appended at the end. *)
From Coq Require Import NArith.
From Verif Require Import M_Num S_LP M_Driver.

(** include/core/Tags.h:26-41  RowTag bits LHS_INF, RHS_INF, EQ, INACTIVE (INFEAS is only used
    as a return value of check_activity). *)
Record rowtag := RT { t_lhs_inf : bool; t_rhs_inf : bool; t_eq : bool; t_inact : bool }.

(** include/core/Tags.h:43-52  ColTag bits LB_INF, UB_INF, FIXED, SUBSTITUTED (LB_HUGE and
    UB_HUGE are never set); INACTIVE = FIXED | SUBSTITUTED. *)
Record coltag := CT { t_lb_inf : bool; t_ub_inf : bool; t_fixed : bool; t_sub : bool }.
Definition t_cinact (t : coltag) : bool := t_fixed t || t_sub t.

(** include/core/Activity.h:35-60 *)
Inductive astatus := NOT_ADDED | ADDED | PROPAGATED_THIS_ROUND | PROPAGATE_NEXT_ROUND.
Record activity := Act { a_min : Q; a_max : Q; n_inf_min : Z; n_inf_max : Z; a_st : astatus }.

(** The reduction log, src/core/Postsolver.c:666-858, one constructor per record type.  The
    flat encoding in three vectors is modelled in M_Log.v. *)
Inductive reduction :=
| FIXED_COL (col : nat) (val ck : Q) (colview : row)
| FIXED_COL_INF (pos : bool) (col : nat) (bound : ext) (rows : list (ext * row))
| SUB_COL (col : nat) (ents : row) (rhs : ext) (i : nat) (ck : Q)
| PARALLEL_COL (j k : nat) (tagj tagk : coltag) (lbj ubj lbk ubk : ext) (ratio : Q)
| DELETED_ROW (i : nat) (val : Q)
| ADDED_ROW (i j : nat) (ratio : Q)
| ADDED_ROWS (i : nat) (ents : row) (aik : Q)
| BOUND_CHANGE_NO_ROW (j : nat) (implied : Q) (other : ext) (other_is_lower : bool)
| BOUND_CHANGE_THE_ROW (i : nat) (ents : row) (n : nat)
| LHS_CHANGE (i : nat) (ents : row) (side : Q) (j : nat) (ratio : Q)
| RHS_CHANGE (i : nat) (ents : row) (side : Q) (j : nat) (ratio : Q)
| EQ_TO_INEQ (i : nat) (val : Q).

Record state := mkState {
  nr : nat; (* constraints->m *)
  nc : nat; (* constraints->n *)
  mA : nat -> row; (* A: row i as the list of its stored entries A->i, A->x in [p[i].start, p[i].end) *)
  mAT : nat -> row; (* AT: column k likewise *)
  lhs : nat -> ext; (* constraints->lhs *)
  rhs : nat -> ext; (* constraints->rhs *)
  lb : nat -> ext; (* bounds[k].lb *)
  ub : nat -> ext; (* bounds[k].ub *)
  rt : nat -> rowtag; (* row_tags *)
  ct : nat -> coltag; (* col_tags *)
  rsz : nat -> Z; (* state->row_sizes *)
  csz : nat -> Z; (* state->col_sizes *)
  ups : nat -> Z; (* col_locks[k].up *)
  dns : nat -> Z; (* col_locks[k].down *)
  acts : nat -> activity; (* state->activities *)
  cst : nat -> Q; (* obj->c *)
  off : Q; (* obj->offset *)
  nnz : Z; (* A->nnz (AT->nnz is a copy of it) *)
  w_ston_rows : list nat; (* state->ston_rows *)
  w_ston_cols : list nat; (* state->ston_cols *)
  w_dton : list nat; (* state->dton_rows *)
  w_empty_rows : list nat; (* state->empty_rows *)
  w_empty_cols : list nat; (* state->empty_cols *)
  w_acts : list nat; (* state->updated_activities *)
  w_fixed : list nat; (* state->fixed_cols_to_delete *)
  w_sub : list nat; (* state->sub_cols_to_delete *)
  w_rows : list nat; (* state->rows_to_delete *)
  stale : nat -> nat; (* column stored at A->i[p[i].start] when row i has become empty *)
  tick : nat; (* number of answers taken from the space oracle (M_Dton.v) *)
  bad : bool; (* set when the code would read an entry that does not exist, or a loop of the model ran out of fuel *)
  tiny : bool; (* ghost, never read: set when a coefficient of absolute value at most ZERO_TOL is written for a column that is not in the row (M_Dton.v) *)
  log : list reduction (* postsolve_info, newest record first *)
}.

(** Writes to one component (record update). *)
Definition set_mA (v : nat -> row) (s : state) : state :=
  mkState (nr s) (nc s) v (mAT s) (lhs s) (rhs s) (lb s) (ub s) (rt s) (ct s) (rsz s) (csz s) (ups s) (dns s) (acts s) (cst s) (off s) (nnz s) (w_ston_rows s) (w_ston_cols s) (w_dton s) (w_empty_rows s) (w_empty_cols s) (w_acts s) (w_fixed s) (w_sub s) (w_rows s) (stale s) (tick s) (bad s) (tiny s) (log s).
Definition set_mAT (v : nat -> row) (s : state) : state :=
  mkState (nr s) (nc s) (mA s) v (lhs s) (rhs s) (lb s) (ub s) (rt s) (ct s) (rsz s) (csz s) (ups s) (dns s) (acts s) (cst s) (off s) (nnz s) (w_ston_rows s) (w_ston_cols s) (w_dton s) (w_empty_rows s) (w_empty_cols s) (w_acts s) (w_fixed s) (w_sub s) (w_rows s) (stale s) (tick s) (bad s) (tiny s) (log s).
Definition set_lhs (v : nat -> ext) (s : state) : state :=
  mkState (nr s) (nc s) (mA s) (mAT s) v (rhs s) (lb s) (ub s) (rt s) (ct s) (rsz s) (csz s) (ups s) (dns s) (acts s) (cst s) (off s) (nnz s) (w_ston_rows s) (w_ston_cols s) (w_dton s) (w_empty_rows s) (w_empty_cols s) (w_acts s) (w_fixed s) (w_sub s) (w_rows s) (stale s) (tick s) (bad s) (tiny s) (log s).
Definition set_rhs (v : nat -> ext) (s : state) : state :=
  mkState (nr s) (nc s) (mA s) (mAT s) (lhs s) v (lb s) (ub s) (rt s) (ct s) (rsz s) (csz s) (ups s) (dns s) (acts s) (cst s) (off s) (nnz s) (w_ston_rows s) (w_ston_cols s) (w_dton s) (w_empty_rows s) (w_empty_cols s) (w_acts s) (w_fixed s) (w_sub s) (w_rows s) (stale s) (tick s) (bad s) (tiny s) (log s).
Definition set_lb (v : nat -> ext) (s : state) : state :=
  mkState (nr s) (nc s) (mA s) (mAT s) (lhs s) (rhs s) v (ub s) (rt s) (ct s) (rsz s) (csz s) (ups s) (dns s) (acts s) (cst s) (off s) (nnz s) (w_ston_rows s) (w_ston_cols s) (w_dton s) (w_empty_rows s) (w_empty_cols s) (w_acts s) (w_fixed s) (w_sub s) (w_rows s) (stale s) (tick s) (bad s) (tiny s) (log s).
Definition set_ub (v : nat -> ext) (s : state) : state :=
  mkState (nr s) (nc s) (mA s) (mAT s) (lhs s) (rhs s) (lb s) v (rt s) (ct s) (rsz s) (csz s) (ups s) (dns s) (acts s) (cst s) (off s) (nnz s) (w_ston_rows s) (w_ston_cols s) (w_dton s) (w_empty_rows s) (w_empty_cols s) (w_acts s) (w_fixed s) (w_sub s) (w_rows s) (stale s) (tick s) (bad s) (tiny s) (log s).
Definition set_rt (v : nat -> rowtag) (s : state) : state :=
  mkState (nr s) (nc s) (mA s) (mAT s) (lhs s) (rhs s) (lb s) (ub s) v (ct s) (rsz s) (csz s) (ups s) (dns s) (acts s) (cst s) (off s) (nnz s) (w_ston_rows s) (w_ston_cols s) (w_dton s) (w_empty_rows s) (w_empty_cols s) (w_acts s) (w_fixed s) (w_sub s) (w_rows s) (stale s) (tick s) (bad s) (tiny s) (log s).
Definition set_ct (v : nat -> coltag) (s : state) : state :=
  mkState (nr s) (nc s) (mA s) (mAT s) (lhs s) (rhs s) (lb s) (ub s) (rt s) v (rsz s) (csz s) (ups s) (dns s) (acts s) (cst s) (off s) (nnz s) (w_ston_rows s) (w_ston_cols s) (w_dton s) (w_empty_rows s) (w_empty_cols s) (w_acts s) (w_fixed s) (w_sub s) (w_rows s) (stale s) (tick s) (bad s) (tiny s) (log s).
Definition set_rsz (v : nat -> Z) (s : state) : state :=
  mkState (nr s) (nc s) (mA s) (mAT s) (lhs s) (rhs s) (lb s) (ub s) (rt s) (ct s) v (csz s) (ups s) (dns s) (acts s) (cst s) (off s) (nnz s) (w_ston_rows s) (w_ston_cols s) (w_dton s) (w_empty_rows s) (w_empty_cols s) (w_acts s) (w_fixed s) (w_sub s) (w_rows s) (stale s) (tick s) (bad s) (tiny s) (log s).
Definition set_csz (v : nat -> Z) (s : state) : state :=
  mkState (nr s) (nc s) (mA s) (mAT s) (lhs s) (rhs s) (lb s) (ub s) (rt s) (ct s) (rsz s) v (ups s) (dns s) (acts s) (cst s) (off s) (nnz s) (w_ston_rows s) (w_ston_cols s) (w_dton s) (w_empty_rows s) (w_empty_cols s) (w_acts s) (w_fixed s) (w_sub s) (w_rows s) (stale s) (tick s) (bad s) (tiny s) (log s).
Definition set_ups (v : nat -> Z) (s : state) : state :=
  mkState (nr s) (nc s) (mA s) (mAT s) (lhs s) (rhs s) (lb s) (ub s) (rt s) (ct s) (rsz s) (csz s) v (dns s) (acts s) (cst s) (off s) (nnz s) (w_ston_rows s) (w_ston_cols s) (w_dton s) (w_empty_rows s) (w_empty_cols s) (w_acts s) (w_fixed s) (w_sub s) (w_rows s) (stale s) (tick s) (bad s) (tiny s) (log s).
Definition set_dns (v : nat -> Z) (s : state) : state :=
  mkState (nr s) (nc s) (mA s) (mAT s) (lhs s) (rhs s) (lb s) (ub s) (rt s) (ct s) (rsz s) (csz s) (ups s) v (acts s) (cst s) (off s) (nnz s) (w_ston_rows s) (w_ston_cols s) (w_dton s) (w_empty_rows s) (w_empty_cols s) (w_acts s) (w_fixed s) (w_sub s) (w_rows s) (stale s) (tick s) (bad s) (tiny s) (log s).
Definition set_acts (v : nat -> activity) (s : state) : state :=
  mkState (nr s) (nc s) (mA s) (mAT s) (lhs s) (rhs s) (lb s) (ub s) (rt s) (ct s) (rsz s) (csz s) (ups s) (dns s) v (cst s) (off s) (nnz s) (w_ston_rows s) (w_ston_cols s) (w_dton s) (w_empty_rows s) (w_empty_cols s) (w_acts s) (w_fixed s) (w_sub s) (w_rows s) (stale s) (tick s) (bad s) (tiny s) (log s).
Definition set_cst (v : nat -> Q) (s : state) : state :=
  mkState (nr s) (nc s) (mA s) (mAT s) (lhs s) (rhs s) (lb s) (ub s) (rt s) (ct s) (rsz s) (csz s) (ups s) (dns s) (acts s) v (off s) (nnz s) (w_ston_rows s) (w_ston_cols s) (w_dton s) (w_empty_rows s) (w_empty_cols s) (w_acts s) (w_fixed s) (w_sub s) (w_rows s) (stale s) (tick s) (bad s) (tiny s) (log s).
Definition set_off (v : Q) (s : state) : state :=
  mkState (nr s) (nc s) (mA s) (mAT s) (lhs s) (rhs s) (lb s) (ub s) (rt s) (ct s) (rsz s) (csz s) (ups s) (dns s) (acts s) (cst s) v (nnz s) (w_ston_rows s) (w_ston_cols s) (w_dton s) (w_empty_rows s) (w_empty_cols s) (w_acts s) (w_fixed s) (w_sub s) (w_rows s) (stale s) (tick s) (bad s) (tiny s) (log s).
Definition set_nnz (v : Z) (s : state) : state :=
  mkState (nr s) (nc s) (mA s) (mAT s) (lhs s) (rhs s) (lb s) (ub s) (rt s) (ct s) (rsz s) (csz s) (ups s) (dns s) (acts s) (cst s) (off s) v (w_ston_rows s) (w_ston_cols s) (w_dton s) (w_empty_rows s) (w_empty_cols s) (w_acts s) (w_fixed s) (w_sub s) (w_rows s) (stale s) (tick s) (bad s) (tiny s) (log s).
Definition set_w_ston_rows (v : list nat) (s : state) : state :=
  mkState (nr s) (nc s) (mA s) (mAT s) (lhs s) (rhs s) (lb s) (ub s) (rt s) (ct s) (rsz s) (csz s) (ups s) (dns s) (acts s) (cst s) (off s) (nnz s) v (w_ston_cols s) (w_dton s) (w_empty_rows s) (w_empty_cols s) (w_acts s) (w_fixed s) (w_sub s) (w_rows s) (stale s) (tick s) (bad s) (tiny s) (log s).
Definition set_w_ston_cols (v : list nat) (s : state) : state :=
  mkState (nr s) (nc s) (mA s) (mAT s) (lhs s) (rhs s) (lb s) (ub s) (rt s) (ct s) (rsz s) (csz s) (ups s) (dns s) (acts s) (cst s) (off s) (nnz s) (w_ston_rows s) v (w_dton s) (w_empty_rows s) (w_empty_cols s) (w_acts s) (w_fixed s) (w_sub s) (w_rows s) (stale s) (tick s) (bad s) (tiny s) (log s).
Definition set_w_dton (v : list nat) (s : state) : state :=
  mkState (nr s) (nc s) (mA s) (mAT s) (lhs s) (rhs s) (lb s) (ub s) (rt s) (ct s) (rsz s) (csz s) (ups s) (dns s) (acts s) (cst s) (off s) (nnz s) (w_ston_rows s) (w_ston_cols s) v (w_empty_rows s) (w_empty_cols s) (w_acts s) (w_fixed s) (w_sub s) (w_rows s) (stale s) (tick s) (bad s) (tiny s) (log s).
Definition set_w_empty_rows (v : list nat) (s : state) : state :=
  mkState (nr s) (nc s) (mA s) (mAT s) (lhs s) (rhs s) (lb s) (ub s) (rt s) (ct s) (rsz s) (csz s) (ups s) (dns s) (acts s) (cst s) (off s) (nnz s) (w_ston_rows s) (w_ston_cols s) (w_dton s) v (w_empty_cols s) (w_acts s) (w_fixed s) (w_sub s) (w_rows s) (stale s) (tick s) (bad s) (tiny s) (log s).
Definition set_w_empty_cols (v : list nat) (s : state) : state :=
  mkState (nr s) (nc s) (mA s) (mAT s) (lhs s) (rhs s) (lb s) (ub s) (rt s) (ct s) (rsz s) (csz s) (ups s) (dns s) (acts s) (cst s) (off s) (nnz s) (w_ston_rows s) (w_ston_cols s) (w_dton s) (w_empty_rows s) v (w_acts s) (w_fixed s) (w_sub s) (w_rows s) (stale s) (tick s) (bad s) (tiny s) (log s).
Definition set_w_acts (v : list nat) (s : state) : state :=
  mkState (nr s) (nc s) (mA s) (mAT s) (lhs s) (rhs s) (lb s) (ub s) (rt s) (ct s) (rsz s) (csz s) (ups s) (dns s) (acts s) (cst s) (off s) (nnz s) (w_ston_rows s) (w_ston_cols s) (w_dton s) (w_empty_rows s) (w_empty_cols s) v (w_fixed s) (w_sub s) (w_rows s) (stale s) (tick s) (bad s) (tiny s) (log s).
Definition set_w_fixed (v : list nat) (s : state) : state :=
  mkState (nr s) (nc s) (mA s) (mAT s) (lhs s) (rhs s) (lb s) (ub s) (rt s) (ct s) (rsz s) (csz s) (ups s) (dns s) (acts s) (cst s) (off s) (nnz s) (w_ston_rows s) (w_ston_cols s) (w_dton s) (w_empty_rows s) (w_empty_cols s) (w_acts s) v (w_sub s) (w_rows s) (stale s) (tick s) (bad s) (tiny s) (log s).
Definition set_w_sub (v : list nat) (s : state) : state :=
  mkState (nr s) (nc s) (mA s) (mAT s) (lhs s) (rhs s) (lb s) (ub s) (rt s) (ct s) (rsz s) (csz s) (ups s) (dns s) (acts s) (cst s) (off s) (nnz s) (w_ston_rows s) (w_ston_cols s) (w_dton s) (w_empty_rows s) (w_empty_cols s) (w_acts s) (w_fixed s) v (w_rows s) (stale s) (tick s) (bad s) (tiny s) (log s).
Definition set_w_rows (v : list nat) (s : state) : state :=
  mkState (nr s) (nc s) (mA s) (mAT s) (lhs s) (rhs s) (lb s) (ub s) (rt s) (ct s) (rsz s) (csz s) (ups s) (dns s) (acts s) (cst s) (off s) (nnz s) (w_ston_rows s) (w_ston_cols s) (w_dton s) (w_empty_rows s) (w_empty_cols s) (w_acts s) (w_fixed s) (w_sub s) v (stale s) (tick s) (bad s) (tiny s) (log s).
Definition set_stale (v : nat -> nat) (s : state) : state :=
  mkState (nr s) (nc s) (mA s) (mAT s) (lhs s) (rhs s) (lb s) (ub s) (rt s) (ct s) (rsz s) (csz s) (ups s) (dns s) (acts s) (cst s) (off s) (nnz s) (w_ston_rows s) (w_ston_cols s) (w_dton s) (w_empty_rows s) (w_empty_cols s) (w_acts s) (w_fixed s) (w_sub s) (w_rows s) v (tick s) (bad s) (tiny s) (log s).
Definition set_tick (v : nat) (s : state) : state :=
  mkState (nr s) (nc s) (mA s) (mAT s) (lhs s) (rhs s) (lb s) (ub s) (rt s) (ct s) (rsz s) (csz s) (ups s) (dns s) (acts s) (cst s) (off s) (nnz s) (w_ston_rows s) (w_ston_cols s) (w_dton s) (w_empty_rows s) (w_empty_cols s) (w_acts s) (w_fixed s) (w_sub s) (w_rows s) (stale s) v (bad s) (tiny s) (log s).
Definition set_bad (v : bool) (s : state) : state :=
  mkState (nr s) (nc s) (mA s) (mAT s) (lhs s) (rhs s) (lb s) (ub s) (rt s) (ct s) (rsz s) (csz s) (ups s) (dns s) (acts s) (cst s) (off s) (nnz s) (w_ston_rows s) (w_ston_cols s) (w_dton s) (w_empty_rows s) (w_empty_cols s) (w_acts s) (w_fixed s) (w_sub s) (w_rows s) (stale s) (tick s) v (tiny s) (log s).
Definition set_tiny (v : bool) (s : state) : state :=
  mkState (nr s) (nc s) (mA s) (mAT s) (lhs s) (rhs s) (lb s) (ub s) (rt s) (ct s) (rsz s) (csz s) (ups s) (dns s) (acts s) (cst s) (off s) (nnz s) (w_ston_rows s) (w_ston_cols s) (w_dton s) (w_empty_rows s) (w_empty_cols s) (w_acts s) (w_fixed s) (w_sub s) (w_rows s) (stale s) (tick s) (bad s) v (log s).
Definition set_log (v : list reduction) (s : state) : state :=
  mkState (nr s) (nc s) (mA s) (mAT s) (lhs s) (rhs s) (lb s) (ub s) (rt s) (ct s) (rsz s) (csz s) (ups s) (dns s) (acts s) (cst s) (off s) (nnz s) (w_ston_rows s) (w_ston_cols s) (w_dton s) (w_empty_rows s) (w_empty_cols s) (w_acts s) (w_fixed s) (w_sub s) (w_rows s) (stale s) (tick s) (bad s) (tiny s) v.

(** Appending to a worklist (iVec_append) and to the log. *)
Definition push_ston_rows i s := set_w_ston_rows (w_ston_rows s ++ [i]) s.
Definition push_ston_cols i s := set_w_ston_cols (w_ston_cols s ++ [i]) s.
Definition push_dton i s := set_w_dton (w_dton s ++ [i]) s.
Definition push_empty_rows i s := set_w_empty_rows (w_empty_rows s ++ [i]) s.
Definition push_empty_cols i s := set_w_empty_cols (w_empty_cols s ++ [i]) s.
Definition push_acts i s := set_w_acts (w_acts s ++ [i]) s.
Definition push_fixed i s := set_w_fixed (w_fixed s ++ [i]) s.
Definition push_sub i s := set_w_sub (w_sub s ++ [i]) s.
Definition push_rows i s := set_w_rows (w_rows s ++ [i]) s.
Definition record r s := set_log (r :: log s) s.

(** Row (column) view of length row_sizes[i] (include/core/RowColViews.h): the first
    row_sizes[i] stored entries. *)
Definition row_view (s : state) (i : nat) : row := firstn (Z.to_nat (rsz s i)) (mA s i).
Definition col_view (s : state) (k : nat) : row := firstn (Z.to_nat (csz s k)) (mAT s k).

(** Tag macros UPDATE_TAG / REMOVE_TAG / RESET_TAG (include/core/Tags.h:54-59). *)
Definition tag_inactive (t : rowtag) : rowtag := RT (t_lhs_inf t) (t_rhs_inf t) (t_eq t) true.
Definition tag_eq_or (t : rowtag) : rowtag := RT (t_lhs_inf t) (t_rhs_inf t) true (t_inact t).
Definition untag_rhs_inf (t : rowtag) : rowtag := RT (t_lhs_inf t) false (t_eq t) (t_inact t).
Definition untag_lhs_inf (t : rowtag) : rowtag := RT false (t_rhs_inf t) (t_eq t) (t_inact t).
Definition R_INACTIVE : rowtag := RT false false false true.
Definition R_EQ : rowtag := RT false false true false.
Definition R_LHS_INF : rowtag := RT true false false false.
Definition R_RHS_INF : rowtag := RT false true false false.
Definition tag_fixed (t : coltag) : coltag := CT (t_lb_inf t) (t_ub_inf t) true (t_sub t).
Definition tag_sub (t : coltag) : coltag := CT (t_lb_inf t) (t_ub_inf t) (t_fixed t) true.
Definition untag_lb_inf (t : coltag) : coltag := CT false (t_ub_inf t) (t_fixed t) (t_sub t).
Definition untag_ub_inf (t : coltag) : coltag := CT (t_lb_inf t) false (t_fixed t) (t_sub t).

(** Pointwise writes. *)
Definition setA i r s := set_mA (upd (mA s) i r) s.
Definition setAT k r s := set_mAT (upd (mAT s) k r) s.
Definition set_lhs1 i v s := set_lhs (upd (lhs s) i v) s.
Definition set_rhs1 i v s := set_rhs (upd (rhs s) i v) s.
Definition set_lb1 i v s := set_lb (upd (lb s) i v) s.
Definition set_ub1 i v s := set_ub (upd (ub s) i v) s.
Definition set_rt1 i v s := set_rt (upd (rt s) i v) s.
Definition set_ct1 i v s := set_ct (upd (ct s) i v) s.
Definition set_rsz1 i v s := set_rsz (upd (rsz s) i v) s.
Definition set_csz1 i v s := set_csz (upd (csz s) i v) s.
Definition set_act1 i v s := set_acts (upd (acts s) i v) s.
Definition set_cst1 i v s := set_cst (upd (cst s) i v) s.

(** Removing the entry of column k from a row (RowView remove_coeff). *)
Definition del_entry (k : nat) (r : row) : row := filter (fun e => negb (Nat.eqb (fst e) k)) r.

(** Iteration over a list threading the state (a C for loop without break). *)
Fixpoint foldS {X} (f : state -> X -> state) (l : list X) (s : state) : state :=
  match l with [] => s | x :: l' => foldS f l' (f s x) end.
