(** Model of the driver: status bits, phase loop, order of the explorers
    (src/core/Presolver.c:353-758).

    The explorers are parameters (a record of functions on an arbitrary state type), so that
    the theorems about the driver hold whatever the explorers do; M_Run.v instantiates them with
    the modelled explorers. *)
From Coq Require Import NArith.
From Verif Require Import M_Num M_Settings.

(** include/PSLP/PSLP_status.h  (PresolveStatus is a uint8_t bit set) *)
Definition status := N.
Definition UNCHANGED : status := 0%N.
Definition REDUCED : status := 1%N.
Definition INFEASIBLE : status := 2%N.
Definition UNBNDORINFEAS : status := 6%N.

(** include/core/Tags.h:59 *)
Definition HAS_STATUS (s c : status) : bool := negb (N.eqb (N.land s c) 0).

Section Driver.
Context {S : Type}.

(** One function per explorer called from Presolver.c.  Settings that are arguments of an
    explorer (max_shift, finite_bound_tightening) are already applied. *)
Record explorers := mkExplorers {
  x_nnz : S -> nat;             (* constraints->A->nnz *)
  x_rows : S -> nat;            (* constraints->A->m   *)
  x_cols : S -> nat;            (* constraints->A->n   *)
  x_close_bounds : S -> S * status;
  x_empty_cols : S -> S * status;
  x_dual_fix : S -> S * status;
  x_ston_rows : S -> S * status;
  x_empty_rows : S -> S * status;
  x_ston_cols : S -> S * status;
  x_dton_eq : S -> S * status;
  x_check_acts : S -> S * status;
  x_propagate : S -> S * status;
  x_par_rows : S -> S * status;
  x_par_cols : S -> S * status;
  x_relax : S -> S;             (* remove_redundant_bounds *)
  x_clean : S -> S }.           (* problem_clean *)

Variable ex : explorers.
Variable stgs : settings.
(** fuel for the do/while over singleton rows; running out of fuel is the outcome [None] *)
Variable ston_fuel : S -> nat.

(** src/core/Presolver.c:442-446   do { status = remove_ston_rows } while (status == REDUCED) *)
Fixpoint ston_loop (fuel : nat) (s : S) : option (S * status) :=
  match fuel with
  | O => None
  | Datatypes.S f =>
      let '(s1, st) := x_ston_rows ex s in
      if N.eqb st INFEASIBLE then Some (s1, INFEASIBLE)
      else if N.eqb st REDUCED then ston_loop f s1
      else Some (s1, st)
  end.

(** src/core/Presolver.c:442-457, the part after the optional dual fixing *)
Definition trivial_tail (s : S) : option (S * status) :=
  match ston_loop (ston_fuel s) s with
  | None => None
  | Some (s1, st1) =>
      if N.eqb st1 INFEASIBLE then Some (s1, INFEASIBLE) else
      let '(s2, st2) := x_empty_rows ex s1 in
      if N.eqb st2 INFEASIBLE then Some (s2, INFEASIBLE) else
      let '(s3, st3) := x_empty_cols ex s2 in
      if N.eqb st3 UNBNDORINFEAS then Some (s3, UNBNDORINFEAS) else
      Some (s3, UNCHANGED)
  end.

(** src/core/Presolver.c:422-458 *)
Definition run_trivial (s : S) : option (S * status) :=
  let '(s1, st1) := x_close_bounds ex s in
  if N.eqb st1 INFEASIBLE then Some (s1, INFEASIBLE) else
  if dual_fix_on stgs then
    let '(s2, st2) := x_empty_cols ex s1 in
    let '(s3, st3) := x_dual_fix ex s2 in
    if N.eqb (N.lor (N.lor st1 st2) st3) UNBNDORINFEAS then Some (s3, UNBNDORINFEAS)
    else trivial_tail s3
  else trivial_tail s1.

(** src/core/Presolver.c:464-489 *)
Definition run_fast (s : S) : option (S * status) :=
  let first :=
    if ston_cols_on stgs then
      let '(s1, st1) := x_ston_cols ex s in
      match run_trivial s1 with
      | None => None
      | Some (s2, st2) => Some (s2, N.lor st1 st2)
      end
    else Some (s, UNCHANGED) in
  match first with
  | None => None
  | Some (s2, st) =>
      if dton_eq_on stgs then
        let '(s3, st3) := x_dton_eq ex s2 in
        match run_trivial s3 with
        | None => None
        | Some (s4, st4) => Some (s4, N.lor (N.lor st st3) st4)
        end
      else Some (s2, st)
  end.

(** src/core/Presolver.c:494-571 (statistics and timers omitted) *)
Definition run_medium (s : S) : option (S * status) :=
  let first :=
    if primal_propagation_on stgs then
      let '(s1, st1) := x_check_acts ex s in
      let '(s2, st2) := x_propagate ex s1 in
      match run_trivial s2 with
      | None => None
      | Some (s3, st3) => Some (s3, N.lor (N.lor st1 st2) st3)
      end
    else Some (s, UNCHANGED) in
  match first with
  | None => None
  | Some (s3, st) =>
      if negb (N.eqb st UNCHANGED) then Some (s3, st) else
      let '(s4, st4) := if parallel_rows_on stgs then x_par_rows ex s3 else (s3, UNCHANGED) in
      if negb (N.eqb st4 UNCHANGED) then Some (s4, st4) else
      if parallel_cols_on stgs then
        let '(s5, st5) := x_par_cols ex s4 in
        match run_trivial s5 with
        | None => None
        | Some (s6, st6) => Some (s6, N.lor st5 st6)
        end
      else Some (s4, UNCHANGED)
  end.

(** src/core/Presolver.c:57-61 *)
Inductive complexity := FAST | MEDIUM.

Definition is_medium (c : complexity) : bool := match c with MEDIUM => true | FAST => false end.

(** src/core/Presolver.c:52-53: 0.95, here the exact rational 95/100:
    [ge95 a b] is  (double) a >= 0.95 * (double) b. *)
Definition ge95 (a b : nat) : bool := Nat.leb (95 * b) (100 * a).

(** src/core/Presolver.c:360-385; [timeout] is the answer of the clock *)
Definition update_termination (after before : nat) (c : complexity) (st : status)
           (timeout : bool) : bool :=
  if HAS_STATUS st UNBNDORINFEAS then true
  else if is_medium c && ge95 after before then true
  else timeout.

(** src/core/Presolver.c:395-416 *)
Definition update_complexity (c : complexity) (before after : nat) : complexity :=
  match c with
  | FAST => if negb (ge95 after before) then FAST else MEDIUM
  | MEDIUM => FAST
  end.

(** src/core/Presolver.c:682-728; [clock it] tells whether the time limit is found exceeded in
    phase number [it].  Result: final state, status, number of phases executed. *)
Fixpoint main_loop (clock : nat -> bool) (fuel it : nat) (cx : complexity)
         (before_cycle after_cycle : nat) (s : S) : option (S * status * nat) :=
  match fuel with
  | O => None
  | Datatypes.S f =>
      match run_trivial s with
      | None => None
      | Some (s1, st1) =>
          if negb (N.eqb st1 UNCHANGED) then Some (s1, st1, it) else
          match (match cx with FAST => run_fast s1 | MEDIUM => run_medium s1 end) with
          | None => None
          | Some (s2, st2) =>
              let ac := if is_medium cx then x_nnz ex s2 else after_cycle in
              let stop := update_termination ac before_cycle cx st2 (clock it) in
              let bc := if is_medium cx then ac else before_cycle in
              let cx' := update_complexity cx (x_nnz ex s1) (x_nnz ex s2) in
              if stop then Some (s2, st2, Datatypes.S it)
              else main_loop clock f (Datatypes.S it) cx' bc ac s2
          end
      end
  end.

(** What run_presolver leaves behind. [res_reduced] is set when the reduced problem has been
    handed out (populate_presolved_problem). *)
Record run_result := mkResult {
  res_state : S;  res_status : status;  res_reduced : bool;  res_phases : nat }.

(** src/core/Presolver.c:639-651 *)
Definition final_status (m0 n0 nnz0 m1 n1 nnz1 : nat) : status :=
  if Nat.eqb n0 n1 && Nat.eqb m0 m1 && Nat.eqb nnz0 nnz1 then UNCHANGED else REDUCED.

(** src/core/Presolver.c:653-758 (messages, timers and statistics omitted).  m0, n0, nnz0 are
    the original sizes recorded by new_presolver. *)
Definition run_presolver_gen (clock : nat -> bool) (fuel : nat) (m0 n0 nnz0 : nat) (s : S)
  : option run_result :=
  match main_loop clock fuel 0 FAST (x_nnz ex s) (x_nnz ex s) s with
  | None => None
  | Some (s1, st, k) =>
      if negb (N.eqb st UNCHANGED) then Some (mkResult s1 st false k) else
      let s2 := if relax_bounds_on stgs then x_relax ex s1 else s1 in
      let s3 := x_clean ex s2 in
      Some (mkResult s3
              (final_status m0 n0 nnz0 (x_rows ex s3) (x_cols ex s3) (x_nnz ex s3)) true k)
  end.

End Driver.

Arguments explorers S : clear implicits.
Arguments run_result S : clear implicits.
