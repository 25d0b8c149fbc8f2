(** C16, C17, C18, C19, C20 and the state handed out by a run: what single reductions do to the
    problem.  Theorems only; vocabulary in S_LP.v, S_Struct.v and S_Sem.v.

    [reached stgs fits P s]: [s] is a state between two explorers of a run with settings [stgs] on
    the problem [P] (S_Sem.v); [reduced_lp s] is the linear program in store at that moment
    (M_Run.v).  Each theorem holds for every such state.  Doubleton substitutions that write a
    near-zero coefficient for an absent column ([tiny]) are excluded, see P_Struct.v. *)
From Coq Require Import NArith.
From Verif Require Import M_Num S_LP M_Settings M_Driver S_Driver M_State M_Act M_Core M_Simple M_StonCols
  M_Dton M_Parallel M_Propagate M_Init M_Post M_Run S_Run S_Struct S_Sem S_FixCols L_Refute L_Drive L_Sem7 L_Sem8 L_Empty.
Open Scope Q_scope.

(** ** The state handed out is one of these *)
Theorem C02_result_is_reached_partial : forall stgs fits P, wf_input P -> forall clock fuel r,
  run_presolver stgs fits clock fuel P = Some r -> tiny (res_state r) = false -> res_reduced r = true ->
  exists s, reached stgs fits P s /\
    res_state r = if relax_bounds_on stgs then remove_redundant_bounds s else s.
Proof. exact run_R. Qed.
Print Assumptions C02_result_is_reached_partial.

(** ** C16: the lock counters of a column are the numbers of rows that stop the variable *)
Theorem C16_locks_partial : forall stgs fits P s, wf_input P -> reached stgs fits P s ->
  forall k, In k (lp_cols (reduced_lp s)) ->
  locks_are (reduced_lp s) 1 k (ups s k) /\ locks_are (reduced_lp s) (-(1)) k (dns s k).
Proof. exact r_locks. Qed.
Print Assumptions C16_locks_partial.

(** ** C17: singleton rows *)
Theorem C17_singleton_rows_partial : forall stgs fits P s, wf_input P -> reached stgs fits P s ->
  forall s' st, remove_ston_rows s = (s', st) ->
  (st = INFEASIBLE -> infeasible (reduced_lp s)) /\
  (st <> INFEASIBLE -> carries_over anything (reduced_lp s) (reduced_lp s') /\
     lifts_back (ston_tol (reduced_lp s)) feas_tol (reduced_lp s) (reduced_lp s')).
Proof. exact r_ston_rows. Qed.
Print Assumptions C17_singleton_rows_partial.

(** ** C18: empty rows *)
Theorem C18_empty_rows_partial : forall stgs fits P s, wf_input P -> reached stgs fits P s ->
  forall s' st, remove_empty_rows s = (s', st) ->
  (st = INFEASIBLE <-> exists i, In i (lp_rows (reduced_lp s)) /\ excludes_zero (reduced_lp s) i) /\
  (st = INFEASIBLE -> infeasible (reduced_lp s)) /\
  (st <> INFEASIBLE ->
     (forall i, In i (lp_rows (reduced_lp s')) -> lp_A (reduced_lp s') i <> []) /\
     carries_over anything (reduced_lp s) (reduced_lp s') /\
     lifts_back feas_tol exactly (reduced_lp s) (reduced_lp s')).
Proof. exact r_empty_rows. Qed.
Print Assumptions C18_empty_rows_partial.

(** ** C19: empty columns, when the list of empty columns is up to date (it is not always:
    [C21_refuted]) *)
Theorem C19_empty_cols_partial : forall stgs fits P s, wf_input P -> reached stgs fits P s ->
  empty_cols_fresh s -> forall s' st, remove_empty_cols s = (s', st) ->
  (st = UNBNDORINFEAS <-> exists k, In k (lp_cols (reduced_lp s)) /\ in_no_row (reduced_lp s) k /\
                                    pulled_away (reduced_lp s) k) /\
  (st = UNBNDORINFEAS -> forall x, feasible (reduced_lp s) x -> unbounded (reduced_lp s)) /\
  (st <> UNBNDORINFEAS -> no_worse (reduced_lp s) (reduced_lp s') /\
     lifts_back exactly exactly (reduced_lp s) (reduced_lp s')).
Proof. exact r_empty_cols. Qed.
Print Assumptions C19_empty_cols_partial.

(** The values: exactly the columns without entries are fixed, each once, each at a value within its
    bounds that no other such value undercuts; that value is what postsolve is told, and the offset
    grows by exactly their cost. *)
Theorem C19_values_partial : forall stgs fits P s, wf_input P -> reached stgs fits P s ->
  empty_cols_fresh s -> forall s' st, remove_empty_cols s = (s', st) -> st <> UNBNDORINFEAS ->
  exists vs, log s' = map (note_fixed (lp_c (reduced_lp s))) vs ++ log s /\ NoDup (map fst vs) /\
    (forall k, In k (map fst vs) <-> In k (lp_cols (reduced_lp s)) /\ in_no_row (reduced_lp s) k) /\
    (forall k v, In (k, v) vs -> best_value (reduced_lp s) k v) /\
    lp_off (reduced_lp s') == lp_off (reduced_lp s) + cost_of (lp_c (reduced_lp s)) vs /\
    (forall k, In k (lp_cols (reduced_lp s')) <-> In k (lp_cols (reduced_lp s)) /\ ~ In k (map fst vs)).
Proof. exact r_empty_values. Qed.
Print Assumptions C19_values_partial.

(** ** C20: fixing columns and deleting them *)
Theorem C20_fixed_columns_partial : forall stgs fits P s, wf_input P -> reached stgs fits P s ->
  forall l, NoDup (map fst l) ->
  (forall k v, In (k, v) l -> In k (lp_cols (reduced_lp s)) /\ ext_le (lp_lb (reduced_lp s) k) v /\
                              le_ext v (lp_ub (reduced_lp s) k)) ->
  let s' := delete_inactive_cols_from_A_and_AT (delete_fixed_cols_from_problem (fix_cols l s)) in
  (forall x, (forall k v, In (k, v) l -> x k == v) ->
     (feasible (reduced_lp s) x <-> feasible (reduced_lp s') x) /\
     objective (reduced_lp s') x == objective (reduced_lp s) x) /\
  (forall k, In k (lp_cols (reduced_lp s')) <-> In k (lp_cols (reduced_lp s)) /\ ~ In k (map fst l)).
Proof. exact r_fix_cols. Qed.
Print Assumptions C20_fixed_columns_partial.

(** Variables whose bounds are equal up to the tolerance *)
Theorem C20_close_bounds_partial : forall stgs fits P s, wf_input P -> reached stgs fits P s ->
  forall s' st, remove_variables_with_close_bounds s = (s', st) ->
  (st = INFEASIBLE -> infeasible (reduced_lp s)) /\
  (st <> INFEASIBLE -> carries_over (at_close_bounds (reduced_lp s)) (reduced_lp s) (reduced_lp s') /\
     lifts_back exactly feas_tol (reduced_lp s) (reduced_lp s')).
Proof. exact r_close_bounds. Qed.
Print Assumptions C20_close_bounds_partial.

(** ** Non-vacuity: a problem with an empty row, singleton rows (an equation and an inequality), an
    empty column and a column with equal bounds; each explorer fires on the initial state. *)
Definition Pm := prob
  [[(c0, 2); (c1, 1); (c2, 1)]; []; [(c0, 2)]; [(c1, -(4))]; [(c0, 1); (c1, -(1)); (c2, 3)]]
  [Fin 1; Fin (-(1)); Fin 4; NInf; NInf] [PInf; Fin 5; Fin 4; Fin 16; Fin 7]
  [Fin 0; NInf; Fin 3; Fin 1] [Fin 10; PInf; Fin 3; Fin 9] [1; 2; 2; 5].
Definition sizes (r : state * status) :=
  (length (live_rows (fst r)), length (live_cols (fst r)), snd r).
Example Pm_ok : wf_input Pm /\ (forall stgs fits, reached stgs fits Pm (new_presolver Pm)) /\
  empty_cols_fresh (new_presolver Pm) /\
  sizes (new_presolver Pm, UNCHANGED) = (5%nat, 4%nat, UNCHANGED) /\
  sizes (remove_empty_rows (new_presolver Pm)) = (4%nat, 4%nat, UNCHANGED) /\
  sizes (remove_ston_rows (new_presolver Pm)) = (3%nat, 3%nat, REDUCED) /\
  sizes (remove_empty_cols (new_presolver Pm)) = (5%nat, 3%nat, UNCHANGED) /\
  sizes (remove_variables_with_close_bounds (new_presolver Pm)) = (5%nat, 3%nat, UNCHANGED) /\
  map (ups (new_presolver Pm)) [0; 1; 2; 3]%nat = [2; 0; 1; 0]%Z /\
  map (dns (new_presolver Pm)) [0; 1; 2; 3]%nat = [2; 3; 1; 0]%Z.
Proof.
  split; [apply wfb_ok; vm_compute; reflexivity|]. split; [intros; apply rc_start|].
  split.
  { split; [vm_compute; constructor; [simpl; tauto|constructor]|].
    intros k Hk. assert (E : w_empty_cols (new_presolver Pm) = [3%nat]) by (vm_compute; reflexivity).
    rewrite E in Hk. destruct Hk as [<-|[]]. split; [reflexivity|]. intros _ _. vm_compute. discriminate. }
  repeat split; vm_compute; reflexivity.
Qed.
(** The value noted for its empty column *)
Example Pm_value : log (fst (remove_empty_cols (new_presolver Pm))) = [note_fixed (in_c Pm) (3%nat, 1)].
Proof. vm_compute. reflexivity. Qed.
(** A run that goes through more states and hands out a reduced problem. *)
Example Pm_run : exists r, run_presolver default_settings (fun _ => true) (fun _ => false) 20 Pm = Some r /\
  tiny (res_state r) = false /\ res_reduced r = true /\ res_status r = REDUCED.
Proof. eexists. split; [vm_compute; reflexivity|]. repeat split. Qed.
(** The reports *)
Definition Pn := prob [[]; [(c0, 1)]] [Fin 1; NInf] [PInf; Fin 4] [Fin 0; NInf] [Fin 9; Fin 3] [1; 2].
Example Pn_ok : wf_input Pn /\ empty_cols_fresh (new_presolver Pn) /\
  snd (remove_empty_rows (new_presolver Pn)) = INFEASIBLE /\
  snd (remove_empty_cols (new_presolver Pn)) = UNBNDORINFEAS.
Proof.
  split; [apply wfb_ok; vm_compute; reflexivity|]. split; [|split; vm_compute; reflexivity].
  split; [vm_compute; constructor; [simpl; tauto|constructor]|].
  intros k Hk. assert (E : w_empty_cols (new_presolver Pn) = [1%nat]) by (vm_compute; reflexivity).
  rewrite E in Hk. destruct Hk as [<-|[]]. split; [reflexivity|]. intros X. vm_compute in X. discriminate.
Qed.
