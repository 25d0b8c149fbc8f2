(** Singleton columns (src/explorers/StonCols.c). *)
From Coq Require Import NArith.
From Verif Require Import M_Num S_LP M_Driver M_State M_Act M_Core M_Simple.

(** remove_coeff on row i of A (src/core/Matrix.c:511-535) and the decrement of A->nnz *)
Definition remove_from_row (i k : nat) (s : state) : state :=
  set_nnz (nnz s - 1)%Z (set_rsz1 i (rsz s i - 1)%Z (setA i (del_entry k (row_view s i)) s)).

(** src/explorers/StonCols.c:35-122 ([above] = true) and 126-210 ([above] = false).  Column k of
    row i has been substituted in the objective already; [ck] is its old cost.  The bound that is
    not implied is v = lb (above) or ub (below), the other one [o].  The row keeps its rhs when
    (above and Aik > 0) or (below and Aik < 0). *)
Definition handle_impl_free_eq (above : bool) (i k : nat) (aik ck : Q) (s : state) : state :=
  let v := fin (if above then lb s k else ub s k) in
  let o := if above then ub s k else lb s k in
  let o_inf := if above then t_ub_inf (ct s k) else t_lb_inf (ct s k) in
  let s1 := record (SUB_COL k (row_view s i) (rhs s i) i 0) (record (EQ_TO_INEQ i (ck / aik)) s) in
  let s2 := remove_from_row i k s1 in
  let r := row_view s2 i in
  let keep_rhs := Bool.eqb above (Qgtb aik 0) in
  let s3 :=
    if keep_rhs
    then set_rt1 i R_LHS_INF (set_lhs1 i NInf (set_rhs1 i (ext_sub (rhs s2 i) (v * aik)) s2))
    else set_rt1 i R_RHS_INF (set_rhs1 i PInf (set_lhs1 i (ext_sub (lhs s2 i) (v * aik)) s2)) in
  let s4 := update_locks_eq_to_ineq r keep_rhs s3 in
  let a := acts s4 i in
  let a' :=
    if keep_rhs then
      let mn := if Z.eqb (n_inf_min a) 0 then a_min a - v * aik else a_min a in
      if o_inf then
        let n := (n_inf_max a - 1)%Z in
        Act mn (if Z.eqb n 0 then compute_max_act_no_tags (lb s4) (ub s4) r else a_max a)
            (n_inf_min a) n (a_st a)
      else Act mn (if Z.eqb (n_inf_max a) 0 then a_max a - fin o * aik else a_max a)
               (n_inf_min a) (n_inf_max a) (a_st a)
    else
      let mx := if Z.eqb (n_inf_max a) 0 then a_max a - v * aik else a_max a in
      if o_inf then
        let n := (n_inf_min a - 1)%Z in
        Act (if Z.eqb n 0 then compute_min_act_no_tags (lb s4) (ub s4) r else a_min a) mx
            n (n_inf_max a) (a_st a)
      else Act (if Z.eqb (n_inf_min a) 0 then a_min a - fin o * aik else a_min a) mx
               (n_inf_min a) (n_inf_max a) (a_st a) in
  set_act1 i a' s4.

(** Marking a column as substituted without listing it, and emptying its row of AT;
    src/explorers/StonCols.c:237-239, 475-477 *)
Definition sub_col_now (k : nat) (s : state) : state :=
  setAT k [] (set_csz1 k (-1)%Z (set_ct1 k (tag_sub (ct s k)) s)).

(** src/explorers/StonCols.c:212-288 *)
Definition process_colston_eq (i k : nat) (aik : Q) (above below : bool) (s : state)
  : state * status :=
  if negb above && negb below then (s, UNCHANGED)
  else
    let ck := cst s k in
    let s1 := sub_col_now k (sub_var_in_obj (row_view s i) k aik (fin (rhs s i)) s) in
    if above && below then
      (set_row_to_inactive i (ck / aik)
         (record (SUB_COL k (row_view s1 i) (rhs s1 i) i ck) s1), REDUCED)
    else
      let s2 := handle_impl_free_eq above i k aik ck s1 in
      ((if Z.eqb (rsz s2 i) 1 then push_ston_rows i s2
        else if Z.eqb (rsz s2 i) 2 && t_eq (rt s2 i) then push_dton i s2
        else s2), REDUCED).

(** src/explorers/StonCols.c:309-374 *)
Definition fix_col_ston (i k : nat) (val aik : Q) (s : state) : state :=
  let s1 := remove_from_row i k s in
  let r := row_view s1 i in
  let s2 := set_ct1 k (tag_fixed (ct s1 k)) (set_csz1 k (-1)%Z (setAT k [] s1)) in
  let s3 := if t_lhs_inf (rt s2 i) then s2 else set_lhs1 i (ext_sub (lhs s2 i) (aik * val)) s2 in
  let s4 := if t_rhs_inf (rt s3 i) then s3 else set_rhs1 i (ext_sub (rhs s3 i) (aik * val)) s3 in
  let a := acts s4 i in
  let t := ct s4 k in
  let a1 :=
    if Z.eqb (n_inf_min a) 0
    then Act (a_min a - aik * val) (a_max a) (n_inf_min a) (n_inf_max a) (a_st a)
    else if (Qgtb aik 0 && t_lb_inf t) || (Qltb aik 0 && t_ub_inf t) then
      let n := (n_inf_min a - 1)%Z in
      Act (if Z.eqb n 0 then compute_min_act_no_tags (lb s4) (ub s4) r else a_min a) (a_max a)
          n (n_inf_max a) (a_st a)
    else a in
  let a2 :=
    if Z.eqb (n_inf_max a1) 0
    then Act (a_min a1) (a_max a1 - aik * val) (n_inf_min a1) (n_inf_max a1) (a_st a1)
    else if (Qgtb aik 0 && t_ub_inf t) || (Qltb aik 0 && t_lb_inf t) then
      let n := (n_inf_max a1 - 1)%Z in
      Act (a_min a1) (if Z.eqb n 0 then compute_max_act_no_tags (lb s4) (ub s4) r else a_max a1)
          (n_inf_min a1) n (a_st a1)
    else a1 in
  let s5 := fix_var_in_obj k val (set_act1 i a2 s4) in
  record (FIXED_COL k val (cst s5 k) [(i, aik)]) s5.

Definition push_if_ston (i : nat) (s : state) : state :=
  if Z.eqb (rsz s i) 1 then push_ston_rows i s else s.

(** The row becomes an equality at its upper ([upper]) or lower side;
    src/explorers/StonCols.c:494-510, 520-537 *)
Definition close_row (upper : bool) (i : nat) (s : state) : state :=
  let other_inf := if upper then t_lhs_inf (rt s i) else t_rhs_inf (rt s i) in
  let s1 := if other_inf then update_locks_ineq_to_eq (row_view s i) upper s else s in
  let s2 := if upper then set_lhs1 i (rhs s1 i) s1 else set_rhs1 i (lhs s1 i) s1 in
  let s3 := set_rt1 i R_EQ s2 in
  if Z.eqb (rsz s3 i) 2 then push_dton i s3 else s3.

(** src/explorers/StonCols.c:376-541 *)
Definition process_colston_ineq (i k : nat) (aik : Q) (above below : bool) (s : state)
  : state * status :=
  let lhs_inf := t_lhs_inf (rt s i) in
  let rhs_inf := t_rhs_inf (rt s i) in
  let ck := cst s k in
  let cp := Qgtb ck 0 in let cn := Qltb ck 0 in
  let ap := Qgtb aik 0 in let an := Qltb aik 0 in
  if ((cp && ap) && lhs_inf) || ((cp && an) && rhs_inf) then
    if t_lb_inf (ct s k) then (s, UNBNDORINFEAS)
    else (push_if_ston i (fix_col_ston i k (fin (lb s k)) aik s), REDUCED)
  else if ((cn && an) && lhs_inf) || ((cn && ap) && rhs_inf) then
    if t_ub_inf (ct s k) then (s, UNBNDORINFEAS)
    else (push_if_ston i (fix_col_ston i k (fin (ub s k)) aik s), REDUCED)
  else if above && below then
    let finish (side : ext) :=
      let s1 := sub_col_now k (sub_var_in_obj (row_view s i) k aik (fin side) s) in
      (set_row_to_inactive i (ck / aik) (record (SUB_COL k (row_view s1 i) side i ck) s1),
       REDUCED) in
    if (cp && ap) || (cn && an) then
      if lhs_inf then (s, UNBNDORINFEAS) else finish (lhs s i)
    else if (cp && an) || (cn && ap) then
      if rhs_inf then (s, UNBNDORINFEAS) else finish (rhs s i)
    else finish (if lhs_inf then rhs s i else lhs s i)
  else if ((cn && ap) && above) || ((cp && an) && below) then (close_row true i s, REDUCED)
  else if ((cp && ap) && below) || ((cn && an) && above) then (close_row false i s, REDUCED)
  else (s, UNCHANGED).

(** One singleton column; src/explorers/StonCols.c:606-673 *)
Definition ston_col (s : state) (k : nat) : state * status :=
  match mAT s k with
  | [] => (set_bad true s, UNCHANGED)
  | (i, aik) :: _ =>
      if t_inact (rt s i) || Z.leb (rsz s i) 1 then (s, UNCHANGED)
      else
        let r := row_view s i in
        let above := implied_free_from_above_by_row s aik i r (lb s k) (ub s k) (ct s k) (acts s i) in
        let below := implied_free_from_below_by_row s aik i r (lb s k) (ub s k) (ct s k) (acts s i) in
        if t_eq (rt s i) then process_colston_eq i k aik above below s
        else process_colston_ineq i k aik above below s
  end.

(** A for loop that ORs the statuses. *)
Fixpoint fold_or {X} (f : state -> X -> state * status) (l : list X) (s : state) (st : status)
  : state * status :=
  match l with
  | [] => (s, st)
  | x :: l' => let '(s1, st1) := f s x in fold_or f l' s1 (N.lor st st1)
  end.

(** src/explorers/StonCols.c:549-569 *)
Definition refresh_ston_cols (s : state) : state :=
  set_w_ston_cols (filter (fun k => Z.eqb (csz s k) 1) (w_ston_cols s)) s.

(** src/explorers/StonCols.c:571-692 *)
Definition remove_ston_cols__ (s : state) : state * status :=
  let s0 := refresh_ston_cols s in
  let '(s1, st) := fold_or ston_col (w_ston_cols s0) s0 UNCHANGED in
  let s2 := delete_inactive_rows s1 in
  (s2, if HAS_STATUS st UNBNDORINFEAS then UNBNDORINFEAS
       else if HAS_STATUS st REDUCED then REDUCED else UNCHANGED).

(** src/explorers/StonCols.c:694-714, do .. while (status == REDUCED).  The fuel is the
    model's; that it never runs out is a theorem (C40). *)
Fixpoint ston_cols_loop (fuel : nat) (s : state) : state * status :=
  match fuel with
  | O => (set_bad true s, UNCHANGED)
  | S f => let '(s1, st) := remove_ston_cols__ s in
           if N.eqb st REDUCED then ston_cols_loop f s1 else (s1, st)
  end.
Definition remove_ston_cols (s : state) : state * status :=
  ston_cols_loop (S (2 * nc s + nr s)) s.
