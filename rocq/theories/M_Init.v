(** Building the presolver state from the caller's problem (src/core/Presolver.c:212-351,
    new_presolver), at the level of the reductions.  That the arrays built by
    matrix_new_no_extra_space and transpose hold these rows is C05 and C06 (P_Csr.v); allocation
    failures are in M_Alloc.v, the two threads in M_Threads.v. *)
From Coq Require Import NArith.
From Verif Require Import M_Num S_LP M_Driver M_State M_Act M_Core.

(** The caller's arrays: m, n, the rows of (Ap, Ai, Ax), lhs, rhs, lbs, ubs, c. *)
Record input := mkInput {
  in_m : nat;  in_n : nat;  in_A : nat -> row;
  in_lhs : nat -> ext;  in_rhs : nat -> ext;
  in_lb : nat -> ext;  in_ub : nat -> ext;  in_c : nat -> Q }.

(** src/core/Tags.c:23-48 *)
Definition ext_same (a b : ext) : bool :=
  match a, b with
  | Fin p, Fin q => Qeqb p q | NInf, NInf => true | PInf, PInf => true | _, _ => false
  end.
Definition new_rowtag (l r : ext) : rowtag :=
  RT (is_ninf l) (is_pinf r) (negb (is_ninf l) && ext_same l r) false.

(** src/core/Presolver.c:123-138 (col_tags) *)
Definition new_coltag (l u : ext) : coltag := CT (is_ninf l) (is_pinf u) false false.

(** Column k of the transpose: its entries by increasing row (src/core/Matrix.c, transpose; C06) *)
Definition transposed (m : nat) (A : nat -> row) (k : nat) : row :=
  flat_map (fun i => map (fun e => (i, snd e)) (filter (fun e => Nat.eqb (fst e) k) (A i)))
           (seq 0 m).

(** src/core/Locks.c:25-66 *)
Definition add_row_locks (s : state) (i : nat) : state :=
  foldS (fun s e => lock_coeff 1 (t_rhs_inf (rt s i)) (t_lhs_inf (rt s i)) (fst e) (snd e) s)
        (mA s i) s.

(** Worklists; src/core/State.c:98-149 *)
Definition list_row (s : state) (i : nat) : state :=
  if Z.eqb (rsz s i) 0 then push_empty_rows i s
  else if Z.eqb (rsz s i) 1 then push_ston_rows i s
  else if Z.eqb (rsz s i) 2 && t_eq (rt s i) then push_dton i s else s.
Definition list_col (s : state) (k : nat) : state :=
  if Z.eqb (csz s k) 0 then push_empty_cols k s
  else if Z.eqb (csz s k) 1 then push_ston_cols k s else s.
Definition list_act (s : state) (i : nat) : state :=
  let a := acts s i in
  if Z.eqb (n_inf_min a) 0 || Z.eqb (n_inf_max a) 0 then
    push_acts i (set_act1 i (Act (a_min a) (a_max a) (n_inf_min a) (n_inf_max a) ADDED) s)
  else s.

Definition total_len (m : nat) (A : nat -> row) : Z :=
  fold_right (fun i z => (Z_len (A i) + z)%Z) 0%Z (seq 0 m).

(** src/core/Presolver.c:212-351 *)
Definition new_presolver (P : input) : state :=
  let A := in_A P in
  let AT := transposed (in_m P) A in
  let cts := fun k => new_coltag (in_lb P k) (in_ub P k) in
  let s0 := mkState (in_m P) (in_n P) A AT (in_lhs P) (in_rhs P) (in_lb P) (in_ub P)
      (fun i => new_rowtag (in_lhs P i) (in_rhs P i)) cts
      (fun i => Z_len (A i)) (fun k => Z_len (AT k)) (fun _ => 0%Z) (fun _ => 0%Z)
      (fun i => Activity_init (in_lb P) (in_ub P) cts (A i))
      (in_c P) 0 (total_len (in_m P) A)
      [] [] [] [] [] [] [] [] [] (fun _ => O) O false false [] in
  let s1 := foldS add_row_locks (seq 0 (in_m P)) s0 in
  let s2 := foldS list_row (seq 0 (in_m P)) s1 in
  let s3 := foldS list_col (seq 0 (in_n P)) s2 in
  foldS list_act (seq 0 (in_m P)) s3.

(** The problem the caller passed in. *)
Definition lp_of_input (P : input) : LP :=
  mkLP (seq 0 (in_m P)) (seq 0 (in_n P)) (in_A P) (in_lhs P) (in_rhs P) (in_lb P) (in_ub P)
       (in_c P) 0.
