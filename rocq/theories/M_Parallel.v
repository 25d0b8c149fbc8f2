(** Parallel rows and parallel columns (src/explorers/Parallel_rows.c, Parallel_cols.c). *)
From Coq Require Import NArith Qround.
From Verif Require Import M_Num S_LP M_Driver M_State M_Act M_Core M_Simple M_StonCols.

(** ** The search *)

(** uint32_t arithmetic *)
Definition u32 (z : Z) : Z := Z.modulo z 4294967296.
(** conversion of uint32_t to int (implementation defined, two's complement) *)
Definition to_int (z : Z) : Z := if Z.ltb z 2147483648 then z else (z - 4294967296)%Z.

(** src/explorers/Parallel_rows.c:41-56 *)
Definition hash_int_array (l : list nat) : Z :=
  fold_left (fun h c => u32 (h * 33 + Z.of_nat c)%Z) l 5381%Z.

(** round half away from zero *)
Definition round_away (q : Q) : Z :=
  if Qltb q 0 then (- Qfloor (- q + (1 # 2)))%Z else Qfloor (q + (1 # 2)).
(** src/explorers/Parallel_rows.c:60-83.  The cast of a negative double to uint32_t is undefined
    in C; here it wraps. *)
Definition hash_double_array_with_scale (l : list Q) : Z :=
  match l with
  | [] => 0%Z
  | v0 :: l' =>
      let mx := fold_left (fun m v => if Qgtb (ABSq v) m then ABSq v else m) l' (ABSq v0) in
      let scale := if Qgtb v0 0 then 1 / mx else - (1) / mx in
      fold_left (fun h v => u32 (h * 33 + u32 (round_away (v * scale * 1000000)))%Z) l 5381%Z
  end.

Section Search.
Variable M : nat -> row.           (* the matrix: A, or AT for columns *)
Variable inact : nat -> bool.      (* HAS_TAG(tags[i], INACTIVE_TAG) *)

Definition INT_MAX : Z := 2147483647.
(** src/explorers/Parallel_rows.c:88-112 (the second hash of an inactive row is whatever the
    work array held; here 0) *)
Definition row_hash (i : nat) : Z * Z :=
  if inact i then (INT_MAX, 0%Z)
  else (to_int (hash_int_array (map fst (M i))),
        to_int (hash_double_array_with_scale (map snd (M i)))).

(** src/explorers/Parallel_rows.c:114-140 *)
Definition hash_le (a b : Z * Z) : bool :=
  Z.ltb (fst a) (fst b) || (Z.eqb (fst a) (fst b) && Z.leb (snd a) (snd b)).
Definition hash_eq (a b : Z * Z) : bool := Z.eqb (fst a) (fst b) && Z.eqb (snd a) (snd b).

(** qsort; the C standard leaves the order of equal elements open.  Here a stable insertion
    sort; the theorems do not depend on it (see [bins_ok] in L_ParRows.v). *)
Fixpoint insert_row (i : nat) (l : list nat) : list nat :=
  match l with
  | [] => [i]
  | k :: l' => if hash_le (row_hash i) (row_hash k) then i :: k :: l' else k :: insert_row i l'
  end.
Definition sort_rows (l : list nat) : list nat := fold_right insert_row [] l.

(** Cutting the sorted list into bins of equal hash; src/explorers/Parallel_rows.c:151-166,
    344-365.  Inactive rows come last and end the search. *)
Fixpoint take_bin (h : Z * Z) (l : list nat) : list nat * list nat :=
  match l with
  | [] => ([], [])
  | k :: l' => if hash_eq (row_hash k) h
               then let '(b, rest) := take_bin h l' in (k :: b, rest) else ([], l)
  end.
Fixpoint cut_bins (fuel : nat) (l : list nat) : list (list nat) :=
  match fuel, l with
  | S f, i :: l' =>
      if inact i then []
      else let '(b, rest) := take_bin (row_hash i) l' in
           match b with [] => cut_bins f rest | _ => (i :: b) :: cut_bins f rest end
  | _, _ => []
  end.
Definition hash_bins (n : nat) : list (list nat) := cut_bins n (sort_rows (seq 0 n)).

(** src/explorers/Parallel_rows.c:265-292: same length, and position by position the same index
    and proportional coefficients within FEAS_TOL *)
Fixpoint same_pattern (ratio : Q) (r1 r2 : row) : bool :=
  match r1, r2 with
  | [], [] => true
  | (c1, v1) :: t1, (c2, v2) :: t2 =>
      IS_ZERO_FEAS_TOL (v1 - ratio * v2) && Nat.eqb c1 c2 && same_pattern ratio t1 t2
  | _, _ => false
  end.
Definition parallel (r1 r2 : row) : bool :=
  match r1, r2 with
  | (_, v1) :: _, (_, v2) :: _ => same_pattern (v1 / v2) r1 r2
  | [], [] => true
  | _, _ => false
  end.

(** src/explorers/Parallel_rows.c:247-304: the rows parallel to the first one, then the first *)
Definition find_parallel_rows_in_bin (bin : list nat) : list nat :=
  match bin with
  | [] => []
  | f :: l => match filter (fun i => parallel (M f) (M i)) l with
              | [] => []
              | g => g ++ [f]
              end
  end.

(** src/explorers/Parallel_rows.c:307-368; [bins] the bins the sort produced *)
Definition groups_of (bins : list (list nat)) : list (list nat) :=
  filter (fun g => negb (Nat.eqb (length g) 0)) (map find_parallel_rows_in_bin bins).
End Search.

(** ** Rows, src/explorers/Parallel_rows.c:370-577 *)

Definition first_coeff (r : row) : Q := match r with (_, v) :: _ => v | [] => 0 end.
Definition ext_eqb (a b : ext) : bool :=
  match a, b with
  | Fin p, Fin q => Qeqb p q | NInf, NInf => true | PInf, PInf => true | _, _ => false
  end.

(** Local variables of process_single_bin: the remaining row, what is known about it and where
    the new sides came from. *)
Record merge := mkMerge {
  m_idx : nat;  m_eq : bool;  m_rhs_inf : bool;  m_lhs_inf : bool;
  m_rhs : ext;  m_lhs : ext;  m_coeff : Q;
  m_rhs_from : nat;  m_rhs_ratio : Q;  m_lhs_from : nat;  m_lhs_ratio : Q }.

(** src/explorers/Parallel_rows.c:391-397 *)
Definition merge_init (s : state) (i : nat) : merge :=
  mkMerge i (t_eq (rt s i)) (t_rhs_inf (rt s i)) (t_lhs_inf (rt s i)) (rhs s i) (lhs s i)
          (first_coeff (mA s i)) 0 1 0 1.

(** One other row; src/explorers/Parallel_rows.c:399-511.  [None]: INFEASIBLE. *)
Definition merge_step (s : state) (m : merge) (o : nat) : option merge :=
  let o_eq := t_eq (rt s o) in
  let swap := negb (m_eq m) && o_eq in
  (* swap(remaining_row, other_row), 404-416: the inf flags and sources stay *)
  let '(m1, o1, o_eq1) :=
    if swap then
      (mkMerge o true (m_rhs_inf m) (m_lhs_inf m) (rhs s o) (lhs s o) (first_coeff (mA s o))
               (m_rhs_from m) (m_rhs_ratio m) (m_lhs_from m) (m_lhs_ratio m), m_idx m, false)
    else (m, o, o_eq) in
  let ratio := m_coeff m1 / first_coeff (mA s o1) in
  let orhs := fin (rhs s o1) * ratio in
  let olhs := fin (lhs s o1) * ratio in
  let o_rhs_inf := t_rhs_inf (rt s o1) in
  let o_lhs_inf := t_lhs_inf (rt s o1) in
  if m_eq m1 && o_eq1 then
    if IS_EQUAL_FEAS_TOL (fin (m_rhs m1)) orhs then Some m1 else None
  else if m_eq m1 then
    let b := fin (m_rhs m1) in
    let infeas_rhs := negb o_rhs_inf &&
      ((Qgtb ratio 0 && Qgtb b orhs) || (Qltb ratio 0 && Qltb b orhs)) in
    let infeas_lhs := negb o_lhs_inf &&
      ((Qgtb ratio 0 && Qltb b olhs) || (Qltb ratio 0 && Qgtb b olhs)) in
    if infeas_rhs || infeas_lhs then None else Some m1
  else
    let set_rhs_ (v : Q) (m : merge) :=
      mkMerge (m_idx m) (m_eq m) false (m_lhs_inf m) (Fin v) (m_lhs m) (m_coeff m)
              o1 ratio (m_lhs_from m) (m_lhs_ratio m) in
    let set_lhs_ (v : Q) (m : merge) :=
      mkMerge (m_idx m) (m_eq m) (m_rhs_inf m) false (m_rhs m) (Fin v) (m_coeff m)
              (m_rhs_from m) (m_rhs_ratio m) o1 ratio in
    if Qgtb ratio 0 then
      let m2 := if negb o_rhs_inf && (m_rhs_inf m1 || Qltb orhs (fin (m_rhs m1)))
                then set_rhs_ orhs m1 else m1 in
      Some (if negb o_lhs_inf && (m_lhs_inf m2 || Qgtb olhs (fin (m_lhs m2)))
            then set_lhs_ olhs m2 else m2)
    else
      let m2 := if negb o_rhs_inf && (m_lhs_inf m1 || Qgtb orhs (fin (m_lhs m1)))
                then set_lhs_ orhs m1 else m1 in
      Some (if negb o_lhs_inf && (m_rhs_inf m2 || Qltb olhs (fin (m_rhs m2)))
            then set_rhs_ olhs m2 else m2).

Fixpoint merge_loop (s : state) (m : merge) (l : list nat) : option merge :=
  match l with
  | [] => Some m
  | o :: l' => match merge_step s m o with Some m' => merge_loop s m' l' | None => None end
  end.

(** src/explorers/Parallel_rows.c:370-577 *)
Definition process_row_bin (bin : list nat) (s : state) : state * status :=
  match bin with
  | [] => (s, UNCHANGED)
  | i0 :: l =>
      match merge_loop s (merge_init s i0) l with
      | None => (s, INFEASIBLE)
      | Some m =>
          let i := m_idx m in
          let '(s1, st1) :=
            if negb (m_eq m) && (negb (m_rhs_inf m) && negb (ext_eqb (m_rhs m) (rhs s i)))
            then change_rhs_of_ineq i (fin (m_rhs m)) (m_rhs_from m) (m_rhs_ratio m) s
            else (s, UNCHANGED) in
          if N.eqb st1 INFEASIBLE then (s1, INFEASIBLE) else
          let '(s2, st2) :=
            if negb (m_eq m) && (negb (m_lhs_inf m) && negb (ext_eqb (m_lhs m) (lhs s1 i)))
            then change_lhs_of_ineq i (fin (m_lhs m)) (m_lhs_from m) (m_lhs_ratio m) s1
            else (s1, UNCHANGED) in
          if N.eqb st2 INFEASIBLE then (s2, INFEASIBLE) else
          (foldS (fun s j => if Nat.eqb j i then s else set_row_to_inactive j 0 s) bin s2,
           UNCHANGED)
      end
  end.

(** src/explorers/Parallel_rows.c:581-598 *)
Fixpoint process_row_bins (gs : list (list nat)) (s : state) : state * status :=
  match gs with
  | [] => (s, UNCHANGED)
  | g :: gs' => let '(s1, st) := process_row_bin g s in
                if N.eqb st INFEASIBLE then (s1, INFEASIBLE) else process_row_bins gs' s1
  end.

(** src/explorers/Parallel_rows.c:600-623.  [bins] is the outcome of hashing and sorting. *)
Definition remove_parallel_rows_with (bins : list (list nat)) (s : state) : state * status :=
  let '(s1, st) := process_row_bins (groups_of (mA s) bins) s in
  (delete_inactive_rows s1, st).
Definition remove_parallel_rows (s : state) : state * status :=
  remove_parallel_rows_with (hash_bins (mA s) (fun i => t_inact (rt s i)) (nr s)) s.

(** ** Columns, src/explorers/Parallel_cols.c *)

(** lb_j += lb_k * ratio for finite bounds *)
Definition ext_addmul (a b : ext) (q : Q) : ext := Fin (fin a + fin b * q).

(** Merging column k into column j; src/explorers/Parallel_cols.c:98-165.  The tags saved are
    those after the merge (163-165). *)
Definition merge_cols (j k : nat) (ratio : Q) (s : state) : state :=
  let lbj := lb s j in let ubj := ub s j in
  let tj := ct s j in let tk := ct s k in
  let '(lbk, ubk, lk_inf, uk_inf) :=
    if Qgtb ratio 0 then (lb s k, ub s k, t_lb_inf tk, t_ub_inf tk)
    else (ub s k, lb s k, t_ub_inf tk, t_lb_inf tk) in
  let l_inf := t_lb_inf tj || lk_inf in
  let u_inf := t_ub_inf tj || uk_inf in
  let s1 := set_lb1 j (if l_inf then NInf else ext_addmul lbj lbk ratio) s in
  let s2 := set_ub1 j (if u_inf then PInf else ext_addmul ubj ubk ratio) s1 in
  let s3 := set_ct1 j (CT l_inf u_inf (t_fixed tj) (t_sub tj)) s2 in
  let s4 := set_col_to_substituted k s3 in
  record (PARALLEL_COL j k (ct s4 j) (ct s4 k) lbj ubj (lb s4 k) (ub s4 k) ratio) s4.

(** Result of looking at one pair: go on, stop with column j, leave the function. *)
Inductive pair_res := PNext | PBreak | PReturn.

(** src/explorers/Parallel_cols.c:72-266, one pair (j, k); [aj0] = first coefficient of column j,
    [cj] its cost.  The bool says whether n_infs must be recounted. *)
Definition col_pair (j k : nat) (s : state) (rec : bool) : state * bool * pair_res :=
  if t_cinact (ct s k) then (s, rec, PNext)
  else
    let cj := cst s j in
    let ck := cst s k in
    let ak0 := first_coeff (mAT s k) in
    let aj0 := first_coeff (mAT s j) in
    let ratio := ak0 / aj0 in
    if IS_EQUAL_FEAS_TOL (ck * aj0) (cj * ak0) then (merge_cols j k ratio s, true, PNext)
    else
      let gt := Qgtb ck (ratio * cj) in
      let pos := Qgtb ratio 0 in
      let tj := ct s j in let tk := ct s k in
      let k_lower := gt && (if pos then t_ub_inf tj else t_lb_inf tj) in
      let k_upper := negb gt && (if pos then t_lb_inf tj else t_ub_inf tj) in
      let j_upper := if gt then pos && t_lb_inf tk else negb pos && t_ub_inf tk in
      let j_lower := if gt then negb pos && t_lb_inf tk else pos && t_ub_inf tk in
      if k_lower then
        if t_lb_inf tk then (s, rec, PReturn)
        else (fst (fix_col k (fin (lb s k)) ck s), rec, PNext)
      else if k_upper then
        if t_ub_inf tk then (s, rec, PReturn)
        else (fst (fix_col k (fin (ub s k)) ck s), rec, PNext)
      else if j_lower then
        if t_lb_inf tj then (s, rec, PReturn)
        else (fst (fix_col j (fin (lb s j)) cj s), rec, PBreak)
      else if j_upper then
        if t_ub_inf tj then (s, rec, PReturn)
        else (fst (fix_col j (fin (ub s j)) cj s), rec, PBreak)
      else (s, rec, PNext).

Fixpoint col_pairs (j : nat) (ks : list nat) (s : state) (rec : bool) : state * bool * pair_res :=
  match ks with
  | [] => (s, rec, PNext)
  | k :: ks' =>
      let '(s1, rec1, res) := col_pair j k s rec in
      match res with PNext => col_pairs j ks' s1 rec1 | _ => (s1, rec1, res) end
  end.

(** src/explorers/Parallel_cols.c:270-282 *)
Definition recount (j : nat) (s : state) : state :=
  foldS (fun s e => set_act1 (fst e) (recompute_n_infs (ct s) (acts s (fst e)) (mA s (fst e))) s)
        (mAT s j) s.

(** src/explorers/Parallel_cols.c:35-286 *)
Fixpoint process_col_bin (bin : list nat) (s : state) : state * status :=
  match bin with
  | [] => (s, UNCHANGED)
  | j :: rest =>
      match rest with
      | [] => (s, UNCHANGED)
      | _ =>
          if t_cinact (ct s j) then process_col_bin rest s
          else
            let '(s1, rec, res) := col_pairs j rest s false in
            match res with
            | PReturn => (s1, UNBNDORINFEAS)
            | _ => process_col_bin rest (if rec then recount j s1 else s1)
            end
      end
  end.

(** src/explorers/Parallel_cols.c:288-348 *)
Definition remove_parallel_cols_with (bins : list (list nat)) (s : state) : state * status :=
  let '(s1, st) := fold_or (fun s g => process_col_bin g s) (groups_of (mAT s) bins) s UNCHANGED in
  (delete_inactive_cols_from_A_and_AT (delete_fixed_cols_from_problem s1), st).
Definition remove_parallel_cols (s : state) : state * status :=
  remove_parallel_cols_with (hash_bins (mAT s) (fun k => t_cinact (ct s k)) (nc s)) s.
