(** C01, C02, C03: the driver. Theorems only; see S_Driver.v for the vocabulary. *)
From Coq Require Import NArith.
From Verif Require Import M_Num M_Settings M_Driver S_Driver L_Driver.
Open Scope nat_scope.

(** C01: whatever the explorers do (as long as, on the states satisfying some invariant they keep,
    they do not add non-zeros unless they report trouble, and the do/while over singleton rows
    stops), and whatever the clock says, run_presolver stops, after at most 3*nnz+3 phases. *)
Theorem C01_run_presolver_terminates :
  forall (S : Type) (ex : explorers S) (stgs : settings) (fuel0 : S -> nat) (I : S -> Prop),
    status_ranges ex -> tame_explorers ex I ->
    (forall s, ston_loop ex (fuel0 s) s <> None) ->
    forall (clock : nat -> bool) (m0 n0 nnz0 : nat) (s : S), I s ->
    exists r, run_presolver_gen ex stgs fuel0 clock (3 * x_nnz ex s + 3) m0 n0 nnz0 s = Some r
           /\ res_phases r <= 3 * x_nnz ex s + 3.
Proof. exact @run_presolver_gen_terminates. Qed.
Print Assumptions C01_run_presolver_terminates.

(** C02: in the run that also records every status an explorer returned, the final status is
    INFEASIBLE/UNBNDORINFEAS exactly when some explorer returned one of these, the reduced problem
    is handed out exactly when none did, and then UNCHANGED/REDUCED tells whether the sizes
    (rows, columns, non-zeros) are those of the input. *)
Theorem C02_status_meaning :
  forall (S : Type) (ex : explorers S) (stgs : settings) (fuel0 : S -> nat),
    status_ranges ex ->
    forall (clock : nat -> bool) (fuel m0 n0 nnz0 : nat) (s : S) r,
    run_presolver_gen (observed ex) stgs (fun t => fuel0 (fst t)) clock fuel m0 n0 nnz0 (s, []) = Some r ->
    let reported := snd (res_state r) in
    let s' := fst (res_state r) in
    let same_size := m0 = x_rows ex s' /\ n0 = x_cols ex s' /\ nnz0 = x_nnz ex s' in
    (trouble (res_status r) <-> exists st, In st reported /\ trouble st) /\
    (res_reduced r = false <-> exists st, In st reported /\ trouble st) /\
    (~ (exists st, In st reported /\ trouble st) ->
       (res_status r = UNCHANGED <-> same_size) /\ (res_status r = REDUCED <-> ~ same_size)).
Proof. exact @run_presolver_status. Qed.
Print Assumptions C02_status_meaning.

(** Recording the statuses does not change the run. *)
Theorem C02_observation_is_faithful :
  forall (S : Type) (ex : explorers S) (stgs : settings) (fuel0 : S -> nat)
         (clock : nat -> bool) (fuel m0 n0 nnz0 : nat) (s : S),
  run_presolver_gen ex stgs fuel0 clock fuel m0 n0 nnz0 s =
  option_map (fun r => mkResult (fst (res_state r)) (res_status r) (res_reduced r) (res_phases r))
    (run_presolver_gen (observed ex) stgs (fun t => fuel0 (fst t)) clock fuel m0 n0 nnz0 (s, [])).
Proof. exact @run_presolver_er. Qed.
Print Assumptions C02_observation_is_faithful.

(** Non-vacuity: a toy state (a non-zero count) whose singleton-row explorer removes non-zeros
    while it can; a run of it goes through several phases and ends REDUCED. *)
Definition toy : explorers nat :=
  mkExplorers (fun s => s) (fun _ => 1) (fun _ => 1)
    (fun s => (s, UNCHANGED)) (fun s => (s, UNCHANGED)) (fun s => (s, UNCHANGED))
    (fun s => (s, UNCHANGED)) (fun s => (s, UNCHANGED))
    (fun s => (if Nat.leb 50 s then s - 10 else s, UNCHANGED)) (fun s => (s, UNCHANGED))
    (fun s => (s, UNCHANGED)) (fun s => (if Nat.leb 20 s then s - 9 else s, UNCHANGED))
    (fun s => (s, UNCHANGED)) (fun s => (s, UNCHANGED)) (fun s => s) (fun s => s).

Example toy_ok :
  status_ranges toy /\ tame_explorers toy (fun _ => True) /\
  (forall s, ston_loop toy 1 s <> None) /\
  option_map (fun r => (res_state r, res_status r, res_phases r))
    (run_presolver_gen toy default_settings (fun _ => 1) (fun _ => false) 303 1 1 100 100)
  = Some (13, REDUCED, 14).
Proof.
  split; [|split; [|split]].
  - constructor; intros s; cbn; auto.
  - constructor; intros s _ _; (split; [exact I|]); unfold toy;
      cbn [x_nnz x_close_bounds x_empty_cols x_dual_fix x_ston_rows x_empty_rows x_ston_cols
           x_dton_eq x_check_acts x_propagate x_par_rows x_par_cols fst];
      try destruct (Nat.leb _ _); try apply Nat.le_sub_l; apply le_n.
  - intros s; discriminate.
  - vm_compute. reflexivity.
Qed.

(** C03: settings helpers, from any prior contents. *)
Theorem C03_settings :
  (forall s, let t := set_settings_true s in
     (ston_cols_on t = true /\ dton_eq_on t = true /\ parallel_rows_on t = true /\
      parallel_cols_on t = true /\ primal_propagation_on t = true /\ dual_fix_on t = true /\
      finite_bound_tightening_on t = true /\ relax_bounds_on t = true /\ verbose_on t = true) /\
     max_shift t = max_shift s /\ max_time t = max_time s) /\
  (forall s, let t := set_settings_false s in
     (ston_cols_on t = false /\ dton_eq_on t = false /\ parallel_rows_on t = false /\
      parallel_cols_on t = false /\ primal_propagation_on t = false /\ dual_fix_on t = false /\
      finite_bound_tightening_on t = false /\ relax_bounds_on t = false /\ verbose_on t = false) /\
     max_shift t = max_shift s /\ max_time t = max_time s) /\
  set_settings_true default_settings = default_settings /\
  max_shift default_settings = 10 /\ max_time default_settings = 60%Q.
Proof. exact settings_spec. Qed.
Print Assumptions C03_settings.
