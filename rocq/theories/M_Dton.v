(** Doubleton equality rows (src/explorers/DtonsEq.c).

    Whether a substitution finds enough free space in the storage of AT (sufficient_space_AT,
    38-91, and shift_row) depends on the gaps of the storage, which this layer does not have.
    [fits] is an arbitrary sequence of answers: theorems hold for all of them. *)
From Coq Require Import NArith.
From Verif Require Import M_Num S_LP M_Driver M_State M_Act M_Core M_Simple M_StonCols.

(** include/core/Numerics.h:46  x == (int) x; the C cast is undefined beyond the int range,
    here it is the mathematical test *)
Definition IS_INTEGRAL (x : Q) : bool := Pos.eqb (Qden (Qred x)) 1.

Section Dton.
Variable fits : nat -> bool.

(** src/explorers/DtonsEq.c:99-186 on the row [(c0, v0); (c1, v1)]: the (stay, subst) columns
    with (aij, aik) = their coefficients, and the number of answers taken from [fits] *)
Definition can_dton_be_eliminated (tk : nat) (c0 c1 : nat) (v0 v1 : Q) (size0 size1 : Z)
  : option (nat * nat * Q * Q) * nat :=
  let is_integral0 := IS_INTEGRAL (ABSq v0 / ABSq v1) in
  let is_integral1 := IS_INTEGRAL (ABSq v1 / ABSq v0) in
  let subst0 :=  (* subst = 0 *)
    if Z.eqb size0 1 && negb (Z.eqb size1 1) then true
    else if negb (Z.eqb size0 1) && Z.eqb size1 1 then false
    else if is_integral0 && negb is_integral1 then false
    else if is_integral1 && negb is_integral0 then true
    else Z.ltb size0 size1 in
  let '(j, k, aij, aik) := if subst0 then (c1, c0, v1, v0) else (c0, c1, v0, v1) in
  let abs_pivot := ABSq (aij / aik) in
  if Qgtb abs_pivot MAX_RATIO_PIVOT || Qltb abs_pivot (1 / MAX_RATIO_PIVOT) then (None, tk)
  else if fits tk then (Some (j, k, aij, aik), S tk) else (None, S tk).

(** src/explorers/DtonsEq.c:189-234 *)
Definition modify_bounds (i : nat) (aij aik b : Q) (lbk ubk : ext) (j : nat) (tk : coltag)
           (s : state) : state :=
  if Qgtb (aik * aij) 0 then
    let s1 := if t_lb_inf tk then s else fst (update_ub j ((b - aik * fin lbk) / aij) i s) in
    if negb (t_lb_inf tk) && t_fixed (ct s1 j) then s1
    else if t_ub_inf tk then s1 else fst (update_lb j ((b - aik * fin ubk) / aij) i s1)
  else
    let s1 := if t_lb_inf tk then s else fst (update_lb j ((b - aik * fin lbk) / aij) i s) in
    if negb (t_lb_inf tk) && t_fixed (ct s1 j) then s1
    else if t_ub_inf tk then s1 else fst (update_ub j ((b - aik * fin ubk) / aij) i s1).

(** Coefficient of column j in a sorted row, 0 when absent (the search stops at the first
    index >= j); src/explorers/DtonsEq.c:266-283 *)
Fixpoint find_coeff (j : nat) (r : row) : Q :=
  match r with
  | [] => 0
  | (c, v) :: r' => if Nat.leb j c then (if Nat.eqb c j then v else 0) else find_coeff j r'
  end.
(** Insertion of a nonzero value at the first index >= j, replacing an entry of the same index;
    src/explorers/DtonsEq.c:336-356, src/core/Matrix.c:460-491 (the list operation is [put] in
    S_Row.v) *)
Fixpoint put_entry (j : nat) (v : Q) (r : row) : row :=
  match r with
  | [] => [(j, v)]
  | (c, w) :: r' =>
      if Nat.leb j c then (if Nat.eqb c j then (j, v) :: r' else (j, v) :: (c, w) :: r')
      else (c, w) :: put_entry j v r'
  end.
(** What happens for a (near) zero value: the entry found at the first index >= j is removed,
    whatever its index is; [None]: there is none and the code calls memmove with a negative
    length.  src/explorers/DtonsEq.c:322-329, src/core/Matrix.c:493-510 *)
Fixpoint drop_entry (j : nat) (r : row) : option row :=
  match r with
  | [] => None
  | (c, w) :: r' => if Nat.leb j c then Some r'
                    else match drop_entry j r' with Some l => Some ((c, w) :: l) | None => None end
  end.
Definition set_coeff (j : nat) (v : Q) (r : row) : option row :=
  if Qleb (ABSq v) ZERO_TOL then drop_entry j r else Some (put_entry j v r).

Fixpoint coeff_of (k : nat) (r : row) : Q :=
  match r with [] => 0 | (c, v) :: r' => if Nat.eqb c k then v else coeff_of k r' end.

(** src/explorers/DtonsEq.c:236-368, row q: (new state, old coeff of j, new coeff of j, old coeff
    of k) *)
Definition update_row_A_dton (i q j k : nat) (aij aik : Q) (s : state) : state * Q * Q * Q :=
  let r := mA s q in
  let aqk := coeff_of k r in
  let old := find_coeff j r in
  let new := old - (aij / aik) * aqk in
  let s1 := record (ADDED_ROW i q (- aqk / aik))
              (if Qleb (ABSq new) ZERO_TOL && negb (existsb (fun e => Nat.eqb (fst e) j) r)
               then set_tiny true s else s) in
  match set_coeff j new (del_entry k r) with
  | None => (set_bad true s1, old, new, aqk)
  | Some r' =>
      let d := (Z_len r - Z_len r')%Z in
      (set_nnz (nnz s1 - d)%Z (set_rsz1 q (rsz s1 q - d)%Z (setA q r' s1)), old, new, aqk)
  end.

(** insert_or_update_coeff on column j of AT, src/core/Matrix.c:433-509 *)
Definition update_col_AT (j q : nat) (v : Q) (s : state) : state :=
  match set_coeff q v (mAT s j) with
  | None => set_bad true s
  | Some c' => set_csz1 j (csz s j + (Z_len c' - Z_len (mAT s j)))%Z (setAT j c' s)
  end.

Definition note_added (q : nat) (s : state) : state :=
  match a_st (acts s q) with
  | NOT_ADDED => let a := acts s q in
      push_acts q (set_act1 q (Act (a_min a) (a_max a) (n_inf_min a) (n_inf_max a) ADDED) s)
  | _ => s
  end.

(** One row q of the substituted column; src/explorers/DtonsEq.c:522-616.  [nd] is the buffer of
    new doubleton rows. *)
Definition subst_row (i j k : nat) (aij aik : Q) (sn : state * list nat) (e : nat * Q)
  : state * list nat :=
  let '(s, nd) := sn in
  let q := fst e in
  if t_inact (rt s q) then (s, nd)
  else
    let old_len := rsz s q in
    let '(s1, old, new, aqk) := update_row_A_dton i q j k aij aik s in
    let len := rsz s1 q in
    let '(s2, nd') :=
      if Z.eqb len 0 then (push_empty_rows q s1, nd)
      else if Z.eqb len 1 then (if Z.eqb old_len 1 then s1 else push_ston_rows q s1, nd)
      else if Z.eqb len 2 then
        (s1, if t_eq (rt s1 q) && negb (Z.eqb old_len 2) then nd ++ [q] else nd)
      else (s1, nd) in
    let s3 := update_col_AT j q new s2 in
    let b := fin (rhs s3 i) in
    let s4 :=
      if Qeqb b 0 then s3
      else
        let change := aqk / aik * b in
        let s' := if t_lhs_inf (rt s3 q) then s3
                  else set_lhs1 q (ext_sub (lhs s3 q) change) s3 in
        if t_rhs_inf (rt s' q) then s' else set_rhs1 q (ext_sub (rhs s' q) change) s' in
    let '(a1, alt1) := update_activity_coeff_change (acts s4 q) (lb s4 j) (ub s4 j) old new
                                                    (ct s4 j) in
    let '(a2, alt2) := update_activity_coeff_change a1 (lb s4 k) (ub s4 k) aqk 0 (ct s4 k) in
    let s5 := set_act1 q a2 s4 in
    let is_min r := match r with MIN_RECOMPUTE => true | _ => false end in
    let is_max r := match r with MAX_RECOMPUTE => true | _ => false end in
    let r := row_view s5 q in
    let s6 :=
      if is_min alt1 || is_min alt2 then
        let a := acts s5 q in
        note_added q (set_act1 q (Act (compute_min_act_no_tags (lb s5) (ub s5) r) (a_max a)
                                      (n_inf_min a) (n_inf_max a) (a_st a)) s5)
      else s5 in
    let s7 :=
      if is_max alt1 || is_max alt2 then
        let a := acts s6 q in
        note_added q (set_act1 q (Act (a_min a) (compute_max_act_no_tags (lb s6) (ub s6) r)
                                      (n_inf_min a) (n_inf_max a) (a_st a)) s6)
      else s6 in
    (s7, nd').

(** src/explorers/DtonsEq.c:488-648.  [ents] are the two entries of row i, which is inactive and
    empty by now; [ck] the cost of the substituted column. *)
Definition execute_substitution (i j k : nat) (aij aik ck : Q) (ents : row) (s : state)
           (nd : list nat) : state * list nat :=
  let rows_subst := mAT s k in
  let s1 := setAT k [] (set_csz1 j (csz s j - 1)%Z (setAT j (del_entry i (mAT s j)) s)) in
  let '(s2, nd') := fold_left (subst_row i j k aij aik) rows_subst (s1, nd) in
  let s3 := if Z.eqb (csz s2 j) 0 then push_empty_cols j s2
            else if Z.eqb (csz s2 j) 1 then push_ston_cols j s2 else s2 in
  (* col_tags[k] = C_TAG_INACTIVE (= FIXED | SUBSTITUTED) *)
  let s4 := set_csz1 k (-1)%Z (set_ct1 k (CT false false true true) s3) in
  let s5 := count_locks_one_column (mAT s4 j) j s4 in
  (record (DELETED_ROW i (ck / aik)) (record (SUB_COL k ents (rhs s5 i) i ck) s5), nd').

(** One listed row; src/explorers/DtonsEq.c:676-724 with find_substitution 400-486 *)
Definition dton_row (sn : state * list nat * status) (i : nat) : state * list nat * status :=
  let '(s, nd, st) := sn in
  if Z.ltb (rsz s i) 2 then (s, nd, st)
  else
    match row_view s i with
    | (c0, v0) :: (c1, v1) :: _ =>
        if t_cinact (ct s c0) || t_cinact (ct s c1) then (s, nd, st)
        else
          match can_dton_be_eliminated (tick s) c0 c1 v0 v1 (csz s c0) (csz s c1) with
          | (None, tk) => (set_tick tk s, nd ++ [i], st)
          | (Some (j, k, aij, aik), tk) =>
              let s0 := set_tick tk s in
              let b := fin (rhs s0 i) in
              let s1 := modify_bounds i aij aik b (lb s0 k) (ub s0 k) j (ct s0 k) s0 in
              if t_cinact (ct s1 j) then (s1, nd, REDUCED)
              else
                let ents := row_view s1 i in
                let ck := cst s1 k in
                (* subst_col_in_obj_dton, 370-375 *)
                let s2 := set_off (off s1 + (b / aik) * ck)
                            (set_cst1 j (cst s1 j - (aij / aik) * ck) s1) in
                let s3 := set_nnz (nnz s2 - 2)%Z (setA i [] (set_rsz1 i (-1)%Z
                            (set_rt1 i R_INACTIVE s2))) in
                let '(s4, nd') := execute_substitution i j k aij aik ck ents s3 nd in
                (s4, nd', REDUCED)
          end
    | _ => (set_bad true s, nd, st)
    end.

(** src/explorers/DtonsEq.c:653-740 *)
Definition remove_dton_eq_rows__ (s : state) : state * status :=
  let '(s1, nd, st) := fold_left dton_row (w_dton s) (s, [], UNCHANGED) in
  (set_w_dton nd s1, st).

(** src/explorers/DtonsEq.c:742-759 *)
Fixpoint dton_loop (fuel : nat) (s : state) : state :=
  match w_dton s with
  | [] => s
  | _ =>
      match fuel with
      | O => set_bad true s
      | S f => let '(s1, st) := remove_dton_eq_rows__ s in
               if N.eqb st REDUCED then dton_loop f s1 else s1
      end
  end.

(** src/explorers/DtonsEq.c:742-772; always UNCHANGED *)
Definition remove_dton_eq_rows (s : state) : state * status :=
  let s1 := dton_loop (S (nr s)) s in
  let s2 := match w_fixed s1 with
            | [] => s1
            | _ => delete_inactive_cols_from_A_and_AT (delete_fixed_cols_from_problem s1)
            end in
  (s2, UNCHANGED).
End Dton.
