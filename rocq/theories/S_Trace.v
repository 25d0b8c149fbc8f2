(** Following a run call by call, and when a call is exact. *)
From Coq Require Import NArith.
From Verif Require Import M_Num S_LP M_Settings M_Driver S_Driver M_State M_Act M_Core M_Simple M_StonCols
  M_Dton M_Parallel M_Propagate M_Init M_Post M_Run S_Run S_Sem.

(** The explorers of src/core/Presolver.c:422-571. *)
Inductive kind := CloseBounds | EmptyCols | DualFix | StonRows | EmptyRows | StonCols | DtonEq | CheckActs
  | Propagate | ParRows | ParCols.
(** A call of an explorer: which one, the state before and after, what it returned. *)
Record call := mkCall { c_kind : kind; c_before : state; c_after : state; c_status : status }.

(** A run whose state is extended by the calls made so far. *)
Definition note (k : kind) (f : state -> state * status) (w : state * list call) : (state * list call) * status :=
  let '(s', st) := f (fst w) in ((s', snd w ++ [mkCall k (fst w) s' st]), st).
Definition noted (ex : explorers state) : explorers (state * list call) :=
  mkExplorers
    (fun w => x_nnz ex (fst w)) (fun w => x_rows ex (fst w)) (fun w => x_cols ex (fst w))
    (note CloseBounds (x_close_bounds ex)) (note EmptyCols (x_empty_cols ex)) (note DualFix (x_dual_fix ex))
    (note StonRows (x_ston_rows ex)) (note EmptyRows (x_empty_rows ex)) (note StonCols (x_ston_cols ex))
    (note DtonEq (x_dton_eq ex)) (note CheckActs (x_check_acts ex)) (note Propagate (x_propagate ex))
    (note ParRows (x_par_rows ex)) (note ParCols (x_par_cols ex))
    (fun w => (x_relax ex (fst w), snd w)) (fun w => (x_clean ex (fst w), snd w)).
Definition noted_run (stgs : settings) (fits clock : nat -> bool) (fuel : nat) (P : input) : option (run_result (state * list call)) :=
  run_presolver_gen (noted (the_explorers stgs fits)) stgs (fun w => S (S (nc (fst w)))) clock fuel
    (in_m P) (in_n P) (Z.to_nat (total_len (in_m P) (in_A P))) (new_presolver P, []).
(** The calls of a run, in order. *)
Definition calls (stgs : settings) (fits clock : nat -> bool) (fuel : nat) (P : input) : list call :=
  match noted_run stgs fits clock fuel P with Some r => snd (res_state r) | None => [] end.

(** No tolerance comes into play, the lists are up to date. *)
(** Bounds that differ differ by more than the tolerance. *)
Definition apart (P : LP) : Prop := forall k l u, In k (lp_cols P) -> lp_lb P k = Fin l -> lp_ub P k = Fin u ->
  l < u -> FEAS_TOL < u - l.
(** The columns on the list of empty columns are there once and have not been removed. *)
Definition up_to_date (s : state) : Prop :=
  NoDup (w_empty_cols s) /\ forall k, In k (w_empty_cols s) -> t_cinact (ct s k) = false.
(** Every column that was fixed has this value in all feasible points. *)
Definition fixes_forced (s s' : state) : Prop :=
  forall x k v, feasible (reduced_lp s) x -> In k (lp_cols (reduced_lp s)) ->
  t_fixed (ct s' k) = true -> ub s' k = Fin v -> x k == v.
Definition exact_call (c : call) : Prop :=
  match c_kind c with
  | CloseBounds => apart (reduced_lp (c_before c))
  | EmptyCols => up_to_date (c_before c)
  | Propagate => fixes_forced (c_before c) (c_after c)
  | _ => True
  end.
(** All calls are exact, up to the first that reports INFEASIBLE or UNBNDORINFEAS. *)
Fixpoint exact_calls (l : list call) : Prop :=
  match l with
  | [] => True
  | c :: l' => exact_call c /\ (~ trouble (c_status c) -> exact_calls l')
  end.
