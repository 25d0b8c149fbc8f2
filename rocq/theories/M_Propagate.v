(** Bound propagation and removal of redundant bounds (src/explorers/Primal_propagation.c). *)
From Coq Require Import NArith.
From Verif Require Import M_Num S_LP M_Driver M_State M_Act M_Core M_Simple M_StonCols M_Dton.

(** src/core/utils.c:83-92 *)
Definition get_max_abs (l : row) : Q := fold_left (fun m e => MAXq m (ABSq (snd e))) l 0.

Section Prop_.
Variable finite_tightening : bool.   (* settings: finite_bound_tightening *)

(** src/explorers/Primal_propagation.c:33-107 *)
Definition update_lb_prop (k : nat) (new_lb : Q) (s : state) : state * status :=
  let is_ub_inf := t_ub_inf (ct s k) in
  let is_lb_inf := t_lb_inf (ct s k) in
  let old := lb s k in
  let u := ub s k in
  if negb is_ub_inf && Qgeb new_lb (fin u + FEAS_TOL) then (s, INFEASIBLE)
  else if negb is_ub_inf &&
          (Qgeb new_lb (fin u) || Qleb ((fin u - new_lb) * get_max_abs (mAT s k)) FEAS_TOL) then
    (fst (fix_col k (fin u) (cst s k) (record (BOUND_CHANGE_NO_ROW k new_lb u false) s)), REDUCED)
  else if is_lb_inf ||
          (finite_tightening && (Qgtb (new_lb - fin old) (FEAS_TOL * 10000) &&
                                 Qgtb (new_lb - fin old) ((1 # 100) * ABSq (fin old)))) then
    let b := if IS_INTEGRAL new_lb then new_lb else new_lb - BOUND_MARGINAL * ABSq new_lb in
    let s1 := set_lb1 k (Fin b) (set_ct1 k (untag_lb_inf (ct s k)) s) in
    let s2 := update_activities_bound_change (mAT s1 k) old b (negb is_lb_inf) true s1 in
    (record (BOUND_CHANGE_NO_ROW k b u false) s2, REDUCED)
  else (s, UNCHANGED).

(** src/explorers/Primal_propagation.c:109-182 *)
Definition update_ub_prop (k : nat) (new_ub : Q) (s : state) : state * status :=
  let is_ub_inf := t_ub_inf (ct s k) in
  let is_lb_inf := t_lb_inf (ct s k) in
  let old := ub s k in
  let l := lb s k in
  if negb is_lb_inf && Qleb new_ub (fin l - FEAS_TOL) then (s, INFEASIBLE)
  else if negb is_lb_inf &&
          (Qleb new_ub (fin l) || Qleb ((new_ub - fin l) * get_max_abs (mAT s k)) FEAS_TOL) then
    (fst (fix_col k (fin l) (cst s k) (record (BOUND_CHANGE_NO_ROW k new_ub l true) s)), REDUCED)
  else if is_ub_inf ||
          (finite_tightening && (Qgtb (fin old - new_ub) (FEAS_TOL * 10000) &&
                                 Qgtb (fin old - new_ub) ((1 # 100) * ABSq (fin old)))) then
    let b := if IS_INTEGRAL new_ub then new_ub else new_ub + BOUND_MARGINAL * ABSq new_ub in
    let s1 := set_ub1 k (Fin b) (set_ct1 k (untag_ub_inf (ct s k)) s) in
    let s2 := update_activities_bound_change (mAT s1 k) old b (negb is_ub_inf) false s1 in
    (record (BOUND_CHANGE_NO_ROW k b l true) s2, REDUCED)
  else (s, UNCHANGED).

(** State of the loop over one row: problem, OR-ed status, number of bounds changed. *)
Definition tight := (state * status * nat)%type.
Definition tally (p : tight) (r : state * status) : tight :=
  let '(_, st, n) := p in
  (fst r, N.lor st (snd r), if N.eqb (snd r) REDUCED then S n else n).

(** Try an implied upper (lower) bound: only if tighter than the current one and not huge *)
Definition try_ub (k : nat) (b : Q) (p : tight) : tight :=
  let '(s, _, _) := p in
  if (t_ub_inf (ct s k) || Qltb b (fin (ub s k))) && negb (IS_HUGE b)
  then tally p (update_ub_prop k b s) else p.
Definition try_lb (k : nat) (b : Q) (p : tight) : tight :=
  let '(s, _, _) := p in
  if (t_lb_inf (ct s k) || Qgtb b (fin (lb s k))) && negb (IS_HUGE b)
  then tally p (update_lb_prop k b s) else p.

(** Case 1 for the right-hand side, one entry; src/explorers/Primal_propagation.c:229-295.
    The activity is re-read for each entry: it changes as bounds change. *)
Definition rhs_entry (i : nat) (p : tight) (e : nat * Q) : tight :=
  let '(k, aik) := e in
  let '(s, _, _) := p in
  if t_cinact (ct s k) then p
  else if Qgtb aik 0 then try_ub k (fin (lb s k) + (fin (rhs s i) - a_min (acts s i)) / aik) p
  else try_lb k (fin (ub s k) + (fin (rhs s i) - a_min (acts s i)) / aik) p.
(** src/explorers/Primal_propagation.c:428-494 *)
Definition lhs_entry (i : nat) (p : tight) (e : nat * Q) : tight :=
  let '(k, aik) := e in
  let '(s, _, _) := p in
  if t_cinact (ct s k) then p
  else if Qgtb aik 0 then try_lb k (fin (ub s k) + (fin (lhs s i) - a_max (acts s i)) / aik) p
  else try_ub k (fin (lb s k) + (fin (lhs s i) - a_max (acts s i)) / aik) p.

(** The first active entry with an infinite contribution to the min (max) activity; if there is
    none the code goes on with the last entry (the assertion at 335, 535 excludes it) *)
Fixpoint find_inf (s : state) (mn : bool) (r : row) (last : option (nat * Q)) : option (nat * Q) :=
  match r with
  | [] => last
  | (k, a) :: r' =>
      let t := ct s k in
      let l := if mn then t_lb_inf t else t_ub_inf t in
      let u := if mn then t_ub_inf t else t_lb_inf t in
      if ((Qgtb a 0 && l) || (Qltb a 0 && u)) && negb (t_cinact t) then Some (k, a)
      else find_inf s mn r' (Some (k, a))
  end.

(** src/explorers/Primal_propagation.c:202-386 *)
Definition tighten_rhs (i : nat) (r : row) (p : tight) : tight :=
  let '(s, _, _) := p in
  let a := acts s i in
  let rhs_inf := t_rhs_inf (rt s i) in
  if negb rhs_inf && Z.eqb (n_inf_min a) 0 then fold_left (rhs_entry i) r p
  else if (negb rhs_inf || Z.eqb (n_inf_max a) 0) && Z.eqb (n_inf_min a) 1 then
    match find_inf s true r None with
    | None => p
    | Some (k, aik) =>
        let m := compute_min_act_one_tag (lb s) (ub s) k r in
        let b := if rhs_inf then (a_max a - m) / aik else (fin (rhs s i) - m) / aik in
        if Qgtb aik 0 then try_ub k b p else try_lb k b p
    end
  else p.
(** src/explorers/Primal_propagation.c:401-590 *)
Definition tighten_lhs (i : nat) (r : row) (p : tight) : tight :=
  let '(s, _, _) := p in
  let a := acts s i in
  let lhs_inf := t_lhs_inf (rt s i) in
  if negb lhs_inf && Z.eqb (n_inf_max a) 0 then fold_left (lhs_entry i) r p
  else if (negb lhs_inf || Z.eqb (n_inf_min a) 0) && Z.eqb (n_inf_max a) 1 then
    match find_inf s false r None with
    | None => p
    | Some (k, aik) =>
        let m := compute_max_act_one_tag (lb s) (ub s) k r in
        let b := if lhs_inf then (a_min a - m) / aik else (fin (lhs s i) - m) / aik in
        if Qgtb aik 0 then try_lb k b p else try_ub k b p
    end
  else p.

(** src/explorers/Primal_propagation.c:595-625 *)
Definition bound_tightening_single_row (i : nat) (s : state) : state * status :=
  let r := row_view s i in
  let '(s1, st, n) := tighten_lhs i r (tighten_rhs i r (s, UNCHANGED, O)) in
  (match n with O => s1 | _ => record (BOUND_CHANGE_THE_ROW i r n) s1 end, st).

Definition set_ast (i : nat) (t : astatus) (s : state) : state :=
  let a := acts s i in set_act1 i (Act (a_min a) (a_max a) (n_inf_min a) (n_inf_max a) t) s.
Definition ast_is (t : astatus) (a : activity) : bool :=
  match t, a_st a with
  | NOT_ADDED, NOT_ADDED | ADDED, ADDED | PROPAGATED_THIS_ROUND, PROPAGATED_THIS_ROUND
  | PROPAGATE_NEXT_ROUND, PROPAGATE_NEXT_ROUND => true
  | _, _ => false
  end.

(** src/explorers/Primal_propagation.c:683-689 *)
Definition skip_row (s : state) (i : nat) : bool :=
  let a := acts s i in
  Z.leb (rsz s i) 1 || negb (ast_is ADDED a) ||
  negb (Z.eqb (n_inf_min a) 0 || Z.eqb (n_inf_max a) 0
        || (Z.eqb (n_inf_min a) 1 && negb (t_rhs_inf (rt s i)))
        || (Z.eqb (n_inf_max a) 1 && negb (t_lhs_inf (rt s i)))).

(** src/explorers/Primal_propagation.c:670-711: the list grows while it is walked *)
Fixpoint prop_loop (fuel ii : nat) (s : state) : state * status :=
  match nth_error (w_acts s) ii with
  | None => (s, UNCHANGED)
  | Some i =>
      match fuel with
      | O => (set_bad true s, UNCHANGED)
      | S f =>
          if skip_row s i then prop_loop f (S ii) s
          else
            let '(s1, st) := bound_tightening_single_row i (set_ast i PROPAGATED_THIS_ROUND s) in
            if HAS_STATUS st INFEASIBLE then (s1, INFEASIBLE) else prop_loop f (S ii) s1
      end
  end.

(** src/explorers/Primal_propagation.c:738-761 *)
Definition next_round (s : state) : state :=
  let keep := filter (fun i => ast_is PROPAGATE_NEXT_ROUND (acts s i)) (w_acts s) in
  (* the code sets the status to ADDED when it keeps a row, so a second occurrence of the row is
     not kept again *)
  let keep := nodup Nat.eq_dec keep in
  let s1 := foldS (fun s i => set_ast i NOT_ADDED s) (seq 0 (nr s)) s in
  set_w_acts keep (foldS (fun s i => set_ast i ADDED s) keep s1).

(** src/explorers/Primal_propagation.c:627-783 *)
Definition propagate_primal (s : state) : state * status :=
  let '(s1, st) := prop_loop (length (w_acts s) + 2 * nr s) 0 s in
  if N.eqb st INFEASIBLE then (s1, INFEASIBLE) else
  let s2 := next_round s1 in
  let s3 := delete_inactive_cols_from_A_and_AT (delete_fixed_cols_from_problem s2) in
  let '(s4, st4) := remove_empty_rows s3 in
  if N.eqb st4 INFEASIBLE then (s4, INFEASIBLE) else (s4, UNCHANGED).
End Prop_.

(** Column order of remove_redundant_bounds, src/explorers/Primal_propagation.c:788-804 *)
Definition col_le (s : state) (a b : nat) : bool :=
  Z.ltb (csz s a) (csz s b) || (Z.eqb (csz s a) (csz s b) && Nat.leb a b).
Fixpoint insert_col (s : state) (a : nat) (l : list nat) : list nat :=
  match l with
  | [] => [a]
  | b :: l' => if col_le s a b then a :: l else b :: insert_col s a l'
  end.

(** src/explorers/Primal_propagation.c:837-882.  In the release build the bound itself stays and
    only the tag is set. *)
Definition relax_col (s : state) (k : nat) : state :=
  let t := ct s k in
  if t_cinact t then s
  else if t_ub_inf t && t_lb_inf t then s
  else if t_ub_inf t then
    if is_lb_implied_free s k then
      let s1 := remove_finite_lb_from_activities (col_view s k) (fin (lb s k)) s in
      set_ct1 k (CT true (t_ub_inf t) (t_fixed t) (t_sub t)) s1
    else s
  else
    if is_ub_implied_free s k then
      let s1 := remove_finite_ub_from_activities (col_view s k) (fin (ub s k)) s in
      set_ct1 k (CT (t_lb_inf t) true (t_fixed t) (t_sub t)) s1
    else s.
(** src/explorers/Primal_propagation.c:806-885 *)
Definition remove_redundant_bounds (s : state) : state :=
  foldS relax_col (fold_right (insert_col s) [] (seq 0 (nc s))) s.
