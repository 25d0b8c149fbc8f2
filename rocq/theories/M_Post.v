(** Postsolve (src/core/Postsolver.c, src/core/Presolver.c:760-779) on the typed log. *)
From Verif Require Import M_Num S_LP M_State.

(** The solution being rebuilt.  An entry that still holds the marker COL_NOT_RETRIEVED /
    ROW_NOT_RETRIEVED is [None].  [s_err] is set when the code would compute with a marker or
    produce an infinite value or read before the start of the log; the C code does not notice. *)
Record solution := mkSol {
  sx : nat -> option Q;  sy : nat -> option Q;  sz : nat -> option Q;  s_err : bool }.

Definition put_x (k : nat) (v : Q) (s : solution) : solution :=
  mkSol (upd (sx s) k (Some v)) (sy s) (sz s) (s_err s).
Definition put_y (i : nat) (v : Q) (s : solution) : solution :=
  mkSol (sx s) (upd (sy s) i (Some v)) (sz s) (s_err s).
Definition put_z (k : nat) (v : Q) (s : solution) : solution :=
  mkSol (sx s) (sy s) (upd (sz s) k (Some v)) (s_err s).
Definition err_if (b : bool) (s : solution) : solution :=
  mkSol (sx s) (sy s) (sz s) (s_err s || b).

Definition known (o : option Q) : bool := match o with Some _ => true | None => false end.
Definition val (o : option Q) : Q := match o with Some v => v | None => 0 end.
Definition all_known (f : nat -> option Q) (l : row) : bool :=
  forallb (fun e => known (f (fst e))) l.

(** Sum of coefficient times entry *)
Fixpoint wsum (f : nat -> option Q) (l : row) : Q :=
  match l with [] => 0 | (i, a) :: l' => a * val (f i) + wsum f l' end.

(** src/core/Postsolver.c:84-114; the maps send a removed index to [None] (-1 in the code) *)
Definition copy_reduced_sol (cmap rmap : nat -> option nat) (x y z : nat -> Q) : solution :=
  mkSol (fun k => match cmap k with Some j => Some (x j) | None => None end)
        (fun i => match rmap i with Some j => Some (y j) | None => None end)
        (fun k => match cmap k with Some j => Some (z j) | None => None end) false.

(** src/core/Postsolver.c:117-130 *)
Definition retrieve_fix_col (k : nat) (v ck : Q) (col : row) (s : solution) : solution :=
  put_z k (ck - wsum (sy s) col) (put_x k v (err_if (negb (all_known (sy s) col)) s)).

Definition others (k : nat) (r : row) : row := filter (fun e => negb (Nat.eqb (fst e) k)) r.
(** last coefficient of column k in r, [d] if there is none *)
Fixpoint last_coeff (k : nat) (d : Q) (r : row) : Q :=
  match r with [] => d | (j, a) :: r' => last_coeff k (if Nat.eqb j k then a else d) r' end.

(** src/core/Postsolver.c:133-157 *)
Definition retrieve_sub_col (k : nat) (r : row) (b : ext) (i : nat) (ck : Q) (s : solution)
  : solution :=
  let aik := last_coeff k 0 r in
  let s' := err_if (negb (is_fin b) || negb (all_known (sx s) (others k r))
                    || negb (known (sy s i)) || Qeqb aik 0) s in
  put_x k ((fin b - wsum (sx s) (others k r)) / aik) (put_z k (ck - aik * val (sy s i)) s').

(** Arithmetic on sides that may be infinite *)
Definition ext_minus (e : ext) (q : Q) : ext := match e with Fin p => Fin (p - q) | _ => e end.
Definition ext_div (e : ext) (q : Q) : ext :=
  match e with
  | Fin p => Fin (p / q)
  | NInf => if Qltb q 0 then PInf else NInf
  | PInf => if Qltb q 0 then NInf else PInf
  end.
Definition ext_ltb (a b : ext) : bool :=
  match a, b with
  | Fin p, Fin q => Qltb p q
  | NInf, NInf => false | NInf, _ => true
  | PInf, _ => false | _, PInf => true
  | Fin _, NInf => false
  end.

(** src/core/Postsolver.c:159-216, one row.  Entries not yet retrieved count as zero (193-196) *)
Definition inf_row (pos : bool) (k : nat) (s : solution) (st : ext * Q * bool) (e : ext * row)
  : ext * Q * bool :=
  let '(extreme, coeff0, err) := st in
  let '(side, r) := e in
  let a := last_coeff k coeff0 r in
  let v := ext_div (ext_minus side (wsum (sx s) (others k r))) a in
  ((if pos then (if ext_ltb v extreme then extreme else v)
    else (if ext_ltb extreme v then extreme else v)), a, err || Qeqb a 0).
Definition retrieve_fix_col_inf (pos : bool) (k : nat) (bound : ext) (rows : list (ext * row))
           (s : solution) : solution :=
  let '(extreme, _, err) := fold_left (inf_row pos k s) rows (bound, 0, false) in
  put_z k 0 (put_x k (fin extreme) (err_if (err || negb (is_fin extreme)) s)).

Definition eq_tol_ext (x : Q) (e : ext) : bool :=
  match e with Fin q => IS_EQUAL_FEAS_TOL x q | _ => false end.

(** src/core/Postsolver.c:218-313 (release build: the checks 284-312 are not there) *)
Definition retrieve_parallel_col (j k : nat) (tj tk : coltag) (lbj ubj lbk ubk : ext) (ratio : Q)
           (s : solution) : solution :=
  let x_new := val (sx s j) in
  let xj0 := if negb (t_lb_inf tj) then fin lbj else if negb (t_ub_inf tj) then fin ubj else 0 in
  let xk0 := (x_new - xj0) / ratio in
  let '(xj, xk) :=
    if negb (t_lb_inf tk) && Qgeb (fin lbk) (xk0 + FEAS_TOL)
    then (x_new - ratio * fin lbk, fin lbk)
    else if negb (t_ub_inf tk) && Qgeb xk0 (fin ubk + FEAS_TOL)
    then (x_new - ratio * fin ubk, fin ubk)
    else (xj0, xk0) in
  let at_bound (v : Q) (t : coltag) (l u : ext) :=
    (negb (t_lb_inf t) && IS_EQUAL_FEAS_TOL v (fin l))
    || (negb (t_ub_inf t) && IS_EQUAL_FEAS_TOL v (fin u)) in
  let zk := if at_bound xj tj lbj ubj && at_bound xk tk lbk ubk then ratio * val (sz s j) else 0 in
  put_z k zk (put_x k xk (put_x j xj (err_if (negb (known (sx s j)) || negb (known (sz s j))) s))).

(** src/core/Postsolver.c:315-321 *)
Definition retrieve_deleted_row (i : nat) (v : Q) (s : solution) : solution := put_y i v s.
(** src/core/Postsolver.c:323-333 *)
Definition retrieve_added_row (i j : nat) (ratio : Q) (s : solution) : solution :=
  put_y i (val (sy s i) + val (sy s j) * ratio)
        (err_if (negb (known (sy s i)) || negb (known (sy s j))) s).
(** src/core/Postsolver.c:335-348 *)
Definition retrieve_added_rows (i : nat) (col : row) (aik : Q) (s : solution) : solution :=
  fold_left (fun s e => if Nat.eqb (fst e) i then s
                        else put_y i (val (sy s i) - (snd e / aik) * val (sy s (fst e)))
                               (err_if (negb (known (sy s (fst e)))) s))
            col (err_if (negb (known (sy s i))) s).

(** src/core/Postsolver.c:350-414 *)
Fixpoint first_of (j : nat) (d : Q) (r : row) : Q :=
  match r with [] => d | (c, a) :: r' => if Nat.eqb c j then a else first_of j d r' end.
Definition retrieve_bound_change (i j : nat) (r : row) (implied : Q) (other : ext)
           (other_is_lower : bool) (s : solution) : solution :=
  let xj := val (sx s j) in
  let zj := val (sz s j) in
  let s0 := err_if (negb (known (sx s j)) || negb (known (sz s j)) || negb (known (sy s i))) s in
  if eq_tol_ext xj other && ((other_is_lower && Qgeb zj 0) || (negb other_is_lower && Qleb zj 0))
  then s0
  else if negb (IS_EQUAL_FEAS_TOL xj implied) then s0
  else
    let aij := first_of j 1 r in
    let s1 := put_y i (val (sy s0 i) + zj / aij) s0 in
    let s2 := fold_left (fun s e =>
                let k := fst e in
                if Nat.eqb k j then s
                else if negb (known (sz s k)) then s
                else put_z k (val (sz s k) - (snd e / aij) * zj) s) r s1 in
    put_z j 0 s2.

(** src/core/Postsolver.c:416-444 ([lhs_] = true) and 446-474 *)
Definition retrieve_side_change (lhs_ : bool) (i : nat) (r : row) (side : Q) (j : nat) (ratio : Q)
           (s : solution) : solution :=
  let s0 := err_if (negb (all_known (sx s) r) || negb (known (sy s i))) s in
  let residual := - side + wsum (sx s) r in
  if negb (IS_ZERO_FEAS_TOL residual) then s0
  else
    let cand := ratio * val (sy s i) in
    if (if lhs_ then Qltb (ratio * cand) 0 else Qgtb (ratio * cand) 0) then put_y j 0 s0
    else put_y i 0 (put_y j cand s0).

(** src/core/Postsolver.c:476-480 *)
Definition retrieve_eq_to_ineq (i : nat) (v : Q) (s : solution) : solution :=
  put_y i (val (sy s i) + v) (err_if (negb (known (sy s i))) s).

(** One record outside a group of bound changes; src/core/Postsolver.c:529-580, 614-642.
    A BOUND_CHANGE_NO_ROW outside a group is skipped (the assertions at 640-641 are off). *)
Definition retrieve_one (r : reduction) (s : solution) : solution :=
  match r with
  | FIXED_COL k v ck col => retrieve_fix_col k v ck col s
  | SUB_COL k ents b i ck => retrieve_sub_col k ents b i ck s
  | FIXED_COL_INF pos k bound rows => retrieve_fix_col_inf pos k bound rows s
  | PARALLEL_COL j k tj tk lbj ubj lbk ubk ratio =>
      retrieve_parallel_col j k tj tk lbj ubj lbk ubk ratio s
  | DELETED_ROW i v => retrieve_deleted_row i v s
  | ADDED_ROW i j ratio => retrieve_added_row i j ratio s
  | ADDED_ROWS i col aik => retrieve_added_rows i col aik s
  | BOUND_CHANGE_NO_ROW _ _ _ _ => s
  | BOUND_CHANGE_THE_ROW _ _ _ => s
  | LHS_CHANGE i ents side j ratio => retrieve_side_change true i ents side j ratio s
  | RHS_CHANGE i ents side j ratio => retrieve_side_change false i ents side j ratio s
  | EQ_TO_INEQ i v => retrieve_eq_to_ineq i v s
  end.

(** src/core/Postsolver.c:526-643: the log from its newest record; [grp] = inside the inner loop
    581-612 over the bound changes derived from one row (row, entries, changes left) *)
Fixpoint replay (grp : option (nat * row * nat)) (l : list reduction) (s : solution) : solution :=
  match l with
  | [] => match grp with None => s | Some _ => err_if true s end
  | r :: l' =>
      match grp with
      | Some (i, ents, n) =>
          match r with
          | FIXED_COL k v ck col => replay grp l' (retrieve_fix_col k v ck col s)
          | BOUND_CHANGE_NO_ROW j implied other low =>
              replay (match n with S (S n') => Some (i, ents, S n') | _ => None end) l'
                     (retrieve_bound_change i j ents implied other low s)
          | _ => replay None l' (err_if true s)
          end
      | None =>
          match r with
          | BOUND_CHANGE_THE_ROW i ents n =>
              replay (match n with O => None | _ => Some (i, ents, n) end) l' s
          | _ => replay None l' (retrieve_one r s)
          end
      end
  end.

(** src/core/Postsolver.c:513-664, src/core/Presolver.c:760-779 *)
Definition postsolve (cmap rmap : nat -> option nat) (lg : list reduction) (x y z : nat -> Q)
  : solution :=
  replay None lg (copy_reduced_sol cmap rmap x y z).
