(** The simple reductions (src/explorers/SimpleReductions.c) and dual fixing
    (src/explorers/Simple_dual_fix.c). *)
From Coq Require Import NArith.
From Verif Require Import M_Num S_LP M_Driver M_State M_Act M_Core.

(** Subtraction from a side that is known to be finite. *)
Definition ext_sub (e : ext) (q : Q) : ext := match e with Fin p => Fin (p - q) | _ => e end.

(** src/explorers/SimpleReductions.c:75-117, one row of a fixed column *)
Definition shift_sides (v : Q) (s : state) (e : nat * Q) : state :=
  let i := fst e in
  if t_inact (rt s i) then s else
  let contribution := snd e * v in
  let s1 := if t_lhs_inf (rt s i) then s else set_lhs1 i (ext_sub (lhs s i) contribution) s in
  let s2 := if t_rhs_inf (rt s1 i) then s1 else set_rhs1 i (ext_sub (rhs s1 i) contribution) s1 in
  let a := acts s2 i in
  set_act1 i (Act (if Z.eqb (n_inf_min a) 0 then a_min a - contribution else a_min a)
                  (if Z.eqb (n_inf_max a) 0 then a_max a - contribution else a_max a)
                  (n_inf_min a) (n_inf_max a) (a_st a)) s2.

(** src/explorers/SimpleReductions.c:33-122 *)
Definition delete_fixed_col_from_problem (s : state) (k : nat) : state :=
  let v := fin (ub s k) in
  if Qeqb v 0 then s
  else fix_var_in_obj k v (foldS (shift_sides v) (mAT s k) s).
Definition delete_fixed_cols_from_problem (s : state) : state :=
  foldS delete_fixed_col_from_problem (w_fixed s) s.

(** src/explorers/SimpleReductions.c:124-217.  A listed row can have become empty since it was
    listed; the code then reads the stale first entry, of which it uses the tag only, as long as
    that column is FIXED. *)
Definition remove_stonrow (i : nat) (s : state) : state * status :=
  match mA s i with
  | [] => if t_fixed (ct s (stale s i)) then (s, UNCHANGED) else (set_bad true s, UNCHANGED)
  | (k, aik) :: _ =>
      if t_fixed (ct s k) then (s, UNCHANGED)
      else if t_eq (rt s i) then
        let '(s1, st) := fix_col k (fin (rhs s i) / aik) (cst s k) s in
        if N.eqb st INFEASIBLE then (s1, INFEASIBLE)
        else
          let s2 := set_nnz (nnz s1 - 1)%Z (setA i [] (set_rt1 i R_INACTIVE
                      (set_rsz1 i (-1)%Z s1))) in
          (record (DELETED_ROW i (cst s2 k / aik))
             (record (ADDED_ROWS i (mAT s2 k) aik) s2), REDUCED)
      else
        let rhs_inf := t_rhs_inf (rt s i) in
        let lhs_inf := t_lhs_inf (rt s i) in
        let '(s1, st1) :=
          if rhs_inf then (s, UNCHANGED)
          else if Qgtb aik 0 then update_ub k (fin (rhs s i) / aik) i s
          else update_lb k (fin (rhs s i) / aik) i s in
        if N.eqb st1 INFEASIBLE then (s1, INFEASIBLE) else
        let '(s2, st2) :=
          if lhs_inf then (s1, UNCHANGED)
          else if Qgtb aik 0 then update_lb k (fin (lhs s i) / aik) i s1
          else update_ub k (fin (lhs s i) / aik) i s1 in
        if N.eqb st2 INFEASIBLE then (s2, INFEASIBLE) else
        (set_row_to_inactive i 0 s2, REDUCED)
  end.

(** One of the two passes over the list, leaving at the first INFEASIBLE;
    src/explorers/SimpleReductions.c:235-251 ([eq] = true), 253-271 ([eq] = false) *)
Fixpoint ston_pass (eq : bool) (l : list nat) (s : state) : state * status :=
  match l with
  | [] => (s, UNCHANGED)
  | i :: l' =>
      let skip := if eq then negb (t_eq (rt s i)) || t_inact (rt s i)
                  else t_inact (rt s i) || t_eq (rt s i) in
      if skip then ston_pass eq l' s
      else
        let '(s1, st) := remove_stonrow i s in
        if N.eqb st INFEASIBLE then (s1, INFEASIBLE) else ston_pass eq l' s1
  end.

(** src/explorers/SimpleReductions.c:219-291 *)
Definition remove_ston_rows (s : state) : state * status :=
  match w_ston_rows s with
  | [] => (s, UNCHANGED)
  | l =>
      let '(s1, st1) := ston_pass true l s in
      if N.eqb st1 INFEASIBLE then (s1, INFEASIBLE) else
      let '(s2, st2) := ston_pass false l s1 in
      if N.eqb st2 INFEASIBLE then (s2, INFEASIBLE) else
      let s3 := set_w_ston_rows [] s2 in
      let s4 := delete_inactive_rows s3 in
      let s5 := delete_fixed_cols_from_problem s4 in
      (delete_inactive_cols_from_A_and_AT s5, REDUCED)
  end.

(** Result of check_activity: infeasible, or which finite sides are redundant. *)
Inductive act_check := AC_INFEAS | AC_RED (lhs_red rhs_red : bool).

(** src/explorers/SimpleReductions.c:296-345 *)
Definition check_activity (a : activity) (l r : ext) (t : rowtag) : act_check :=
  if negb (t_rhs_inf t) && (Z.eqb (n_inf_min a) 0 && Qgeb (a_min a) (fin r + FEAS_TOL))
  then AC_INFEAS
  else
    let rr := negb (t_rhs_inf t) && (Z.eqb (n_inf_max a) 0 && Qleb (a_max a) (fin r + FEAS_TOL)) in
    if negb (t_lhs_inf t) && (Z.eqb (n_inf_max a) 0 && Qleb (a_max a) (fin l - FEAS_TOL))
    then AC_INFEAS
    else
      AC_RED (negb (t_lhs_inf t) && (Z.eqb (n_inf_min a) 0 && Qgeb (a_min a) (fin l - FEAS_TOL)))
             rr.

(** src/explorers/SimpleReductions.c:367-457, one listed row.  (INFEAS together with a row whose
    own tags carry both LHS_INF and RHS_INF cannot occur: check_activity then tests nothing.) *)
Definition check_row (i : nat) (s : state) : state * status :=
  if (t_inact (rt s i) || t_eq (rt s i)) || Z.leb (rsz s i) 1 then (s, UNCHANGED)
  else
    match check_activity (acts s i) (lhs s i) (rhs s i) (rt s i) with
    | AC_INFEAS => (s, INFEASIBLE)
    | AC_RED lr rr =>
        if (lr || t_lhs_inf (rt s i)) && (rr || t_rhs_inf (rt s i))
        then (set_row_to_inactive i 0 s, UNCHANGED)
        else if lr then
          (set_lhs1 i NInf (foldS (fun s e => lock_lhs (-1) (fst e) (snd e) s) (mA s i)
                                  (set_rt1 i R_LHS_INF s)), UNCHANGED)
        else if rr then
          (set_rhs1 i PInf (foldS (fun s e => lock_rhs (-1) (fst e) (snd e) s) (mA s i)
                                  (set_rt1 i R_RHS_INF s)), UNCHANGED)
        else (s, UNCHANGED)
    end.

(** A for loop that leaves the function at the first status [bad_st]. *)
Fixpoint for_until (bad_st : status) (f : nat -> state -> state * status) (l : list nat)
         (s : state) : state * status :=
  match l with
  | [] => (s, UNCHANGED)
  | i :: l' => let '(s1, st) := f i s in
               if N.eqb st bad_st then (s1, bad_st) else for_until bad_st f l' s1
  end.

(** src/explorers/SimpleReductions.c:347-465 *)
Definition check_activities (s : state) : state * status :=
  let '(s1, st) := for_until INFEASIBLE check_row (w_acts s) s in
  if N.eqb st INFEASIBLE then (s1, INFEASIBLE)
  else (delete_inactive_rows s1, UNCHANGED).

(** src/explorers/SimpleReductions.c:484-501 *)
Definition remove_empty_row (i : nat) (s : state) : state * status :=
  if (negb (t_lhs_inf (rt s i)) && Qgeb (fin (lhs s i)) FEAS_TOL)
     || (negb (t_rhs_inf (rt s i)) && Qleb (fin (rhs s i)) (- FEAS_TOL))
  then (s, INFEASIBLE)
  else (record (DELETED_ROW i 0) (set_rsz1 i (-1)%Z (set_rt1 i (tag_inactive (rt s i)) s)),
        UNCHANGED).
(** src/explorers/SimpleReductions.c:467-505 *)
Definition remove_empty_rows (s : state) : state * status :=
  let '(s1, st) := for_until INFEASIBLE remove_empty_row (w_empty_rows s) s in
  if N.eqb st INFEASIBLE then (s1, INFEASIBLE) else (set_w_empty_rows [] s1, UNCHANGED).

(** src/explorers/SimpleReductions.c:528-592, the part common to the three cases *)
Definition close_empty_col (k : nat) (val : Q) (s : state) : state :=
  record (FIXED_COL k val (cst s k) [])
    (set_csz1 k (-1)%Z (set_ct1 k (tag_fixed (ct s k)) (set_off (off s + cst s k * val) s))).
Definition remove_empty_col (k : nat) (s : state) : state * status :=
  if Qeqb (cst s k) 0 then
    let val := if negb (t_lb_inf (ct s k)) && Qgtb (fin (lb s k)) 0 then fin (lb s k)
               else if negb (t_ub_inf (ct s k)) && Qltb (fin (ub s k)) 0 then fin (ub s k)
               else 0 in
    (close_empty_col k val s, UNCHANGED)
  else if Qltb (cst s k) 0 then
    if t_ub_inf (ct s k) then (s, UNBNDORINFEAS)
    else (close_empty_col k (fin (ub s k)) (set_lb1 k (ub s k) s), UNCHANGED)
  else
    if t_lb_inf (ct s k) then (s, UNBNDORINFEAS)
    else (close_empty_col k (fin (lb s k)) (set_ub1 k (lb s k) s), UNCHANGED).
(** src/explorers/SimpleReductions.c:507-596 *)
Definition remove_empty_cols (s : state) : state * status :=
  let '(s1, st) := for_until UNBNDORINFEAS remove_empty_col (w_empty_cols s) s in
  if N.eqb st UNBNDORINFEAS then (s1, UNBNDORINFEAS) else (set_w_empty_cols [] s1, UNCHANGED).

(** src/explorers/SimpleReductions.c:682-701, one column (fix_col's status is not looked at) *)
Definition close_bounds_col (k : nat) (s : state) : state * status :=
  if Z.ltb (csz s k) 0 || (t_lb_inf (ct s k) || t_ub_inf (ct s k)) then (s, UNCHANGED)
  else if IS_EQUAL_FEAS_TOL (fin (lb s k)) (fin (ub s k)) then
    (fst (fix_col k (fin (lb s k)) (cst s k) s), UNCHANGED)
  else if Qgtb (fin (lb s k)) (fin (ub s k) + FEAS_TOL) then (s, INFEASIBLE)
  else (s, UNCHANGED).
(** src/explorers/SimpleReductions.c:673-707 *)
Definition remove_variables_with_close_bounds (s : state) : state * status :=
  let '(s1, st) := for_until INFEASIBLE close_bounds_col (seq 0 (nc s)) s in
  if N.eqb st INFEASIBLE then (s1, INFEASIBLE)
  else (delete_inactive_cols_from_A_and_AT (delete_fixed_cols_from_problem s1), UNCHANGED).

(** src/explorers/Simple_dual_fix.c:32-108.  The list cols_to_inf holds -col or col; here
    (false, col) / (true, col).  For column 0 the sign is lost, see [inf_sign]. *)
Definition simple_dual_fix_col (k : nat) (s : state) (to_inf : list (bool * nat))
  : state * list (bool * nat) * status :=
  let ck := cst s k in
  let t := ct s k in
  if Qgtb ck 0 && Z.eqb (dns s k) 0 then
    if t_lb_inf t then (s, to_inf, UNBNDORINFEAS)
    else (fst (fix_col k (fin (lb s k)) ck s), to_inf, UNCHANGED)
  else if Qltb ck 0 && Z.eqb (ups s k) 0 then
    if t_ub_inf t then (s, to_inf, UNBNDORINFEAS)
    else (fst (fix_col k (fin (ub s k)) ck s), to_inf, UNCHANGED)
  else if Qeqb ck 0 then
    if Z.eqb (dns s k) 0 then
      if t_lb_inf t then (s, to_inf ++ [(false, k)], UNCHANGED)
      else (fst (fix_col k (fin (lb s k)) ck s), to_inf, UNCHANGED)
    else if Z.eqb (ups s k) 0 then
      if t_ub_inf t then (s, to_inf ++ [(true, k)], UNCHANGED)
      else (fst (fix_col k (fin (ub s k)) ck s), to_inf, UNCHANGED)
    else (s, to_inf, UNCHANGED)
  else (s, to_inf, UNCHANGED).

(** src/explorers/Simple_dual_fix.c:125-139 *)
Fixpoint dual_fix_loop (l : list nat) (s : state) (to_inf : list (bool * nat)) (st : status)
  : state * list (bool * nat) * status :=
  match l with
  | [] => (s, to_inf, st)
  | k :: l' =>
      if t_cinact (ct s k) || (Z.gtb (ups s k) 0 && Z.gtb (dns s k) 0)
      then dual_fix_loop l' s to_inf st
      else let '(s1, ti, st1) := simple_dual_fix_col k s to_inf in
           dual_fix_loop l' s1 ti (N.lor st st1)
  end.

(** src/explorers/Simple_dual_fix.c:144-169: for column 0, whose sign is lost, the locks decide *)
Definition inf_step (s : state) (e : bool * nat) : state :=
  let '(pos, k) := e in
  if Nat.eqb k 0 then
    if Z.eqb (dns s k) 0 then fix_col_to_inf false k s
    else if Z.eqb (ups s k) 0 then fix_col_to_inf true k s
    else s
  else fix_col_to_inf pos k s.

(** src/explorers/Simple_dual_fix.c:110-178 *)
Definition simple_dual_fix (s : state) : state * status :=
  let '(s1, to_inf, st) := dual_fix_loop (seq 0 (nc s)) s [] UNCHANGED in
  let s2 := foldS inf_step to_inf s1 in
  let s3 := delete_inactive_rows s2 in
  let s4 := delete_fixed_cols_from_problem s3 in
  (delete_inactive_cols_from_A_and_AT s4, st).
