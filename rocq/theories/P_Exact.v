(** C28, C44 and C48 for every setting, when no tolerance comes into play (S_Exact.v). *)
From Coq Require Import NArith Lqa.
From Verif Require Import M_Num S_LP M_Settings M_Driver S_Driver M_State M_Act M_Core M_Simple M_StonCols
  M_Dton M_Parallel M_Propagate M_Init M_Post M_Run S_Run S_Sem S_Sem2 S_Sem4 S_Trace S_Merge S_Exact L_Refute L_ParRow3 L_Exact L_Exact2 L_Exact3.
Import M_Driver.
Open Scope Q_scope.

(** ** C28: merging parallel rows whose sides are equal or apart reports INFEASIBLE only if no point
    satisfies them, and keeps all feasible points, with their objective value. *)
Theorem C28_rows_exact_partial : forall stgs fits P s s' st, wf_input P -> reached stgs fits P s ->
  w_empty_rows s = [] -> clear_cut (reduced_lp s) -> sides_apart (reduced_lp s) -> remove_parallel_rows s = (s', st) ->
  (st = INFEASIBLE -> infeasible (reduced_lp s)) /\
  (st <> INFEASIBLE -> carries_over anything (reduced_lp s) (reduced_lp s')).
Proof. exact parallel_rows_exact. Qed.
Print Assumptions C28_rows_exact_partial.

(** ** C44: INFEASIBLE is reported only for infeasible problems, and UNBNDORINFEAS for a feasible one
    only when what the reductions had left was unbounded.  Missing: runs in which a tolerance comes
    into play, where the statement is false (C44_refuted). *)
Theorem C44_exact_runs_all_settings_partial : forall stgs fits clock fuel P r, wf_input P ->
  run_presolver stgs fits clock fuel P = Some r -> exact_run fits (calls stgs fits clock fuel P) ->
  (res_status r = INFEASIBLE -> infeasible (lp_of_input P)) /\
  (res_status r = UNBNDORINFEAS -> forall x, feasible (lp_of_input P) x ->
     exists c, In c (calls stgs fits clock fuel P) /\ c_status c = UNBNDORINFEAS /\ unbounded (reduced_lp (c_before c))).
Proof. exact exact_infeasible. Qed.
Print Assumptions C44_exact_runs_all_settings_partial.

(** ** C48: for every feasible point of the problem given there is a feasible point of the problem
    handed out that is at least as good. *)
Theorem C48_no_loss_all_settings_partial : forall stgs fits clock fuel P r, wf_input P ->
  run_presolver stgs fits clock fuel P = Some r -> exact_run fits (calls stgs fits clock fuel P) ->
  res_reduced r = true -> no_loss (lp_of_input P) (reduced_lp (res_state r)).
Proof. exact exact_no_loss. Qed.
Print Assumptions C48_no_loss_all_settings_partial.

(** ** The hypotheses are met *)
Definition sA := mkSettings true true true true true true true true 10 60 true.
Definition fA (_ : nat) := true.
Definition kA (_ : nat) := false.
(** 104 calls: x0 is substituted through x0 + 2 x1 = 4, two rows merge, two columns merge,
    propagation finds bounds. *)
Definition PE := prob
  [[(0%nat, 1); (1%nat, 2)];
   [(0%nat, 1); (2%nat, 1); (3%nat, 1); (4%nat, 2)];
   [(1%nat, 1); (2%nat, 1); (3%nat, 3); (4%nat, 6); (5%nat, 1)];
   [(2%nat, 2); (3%nat, -(1)); (4%nat, -(2)); (5%nat, 1)];
   [(2%nat, -(4)); (3%nat, 2); (4%nat, 4); (5%nat, -(2))];
   [(2%nat, 1); (3%nat, 1); (4%nat, 2); (5%nat, 3)]]
  [Fin 4; NInf; NInf; NInf; Fin (-(10)); NInf] [Fin 4; Fin 12; Fin 20; Fin 9; PInf; Fin 15]
  [Fin 0; NInf; Fin 0; Fin 0; Fin 0; Fin 0] [Fin 10; PInf; Fin 5; Fin 5; Fin 6; Fin 7] [1; 3; -(2); -(1); -(2); -(1)].
Definition sizes (k : kind) (P : input) := map (fun c => (length (live_rows (c_before c)), length (live_cols (c_before c)), length (live_rows (c_after c)), length (live_cols (c_after c))))
  (filter (fun c => match c_kind c, k with DtonEq, DtonEq | ParRows, ParRows | ParCols, ParCols => true | _, _ => false end) (calls sA fA kA 20 P)).
Example PE_ok : wf_input PE /\ exact_run fA (calls sA fA kA 20 PE) /\ length (calls sA fA kA 20 PE) = 104%nat /\
  option_map (fun r => (res_reduced r, res_status r)) (run_presolver sA fA kA 20 PE) = Some (true, REDUCED) /\
  hd (0, 0, 0, 0)%nat (sizes DtonEq PE) = (6, 6, 5, 5)%nat /\ hd (0, 0, 0, 0)%nat (sizes ParRows PE) = (5, 5, 4, 5)%nat /\
  hd (0, 0, 0, 0)%nat (sizes ParCols PE) = (4, 5, 4, 4)%nat /\
  feasible (lp_of_input PE) (fun k => match k with 0%nat => 2 | _ => 1 end).
Proof.
  split; [apply wfb_ok; vm_compute; reflexivity|].
  split; [apply exact_run_all; vm_compute; reflexivity|]. do 5 (split; [vm_compute; reflexivity|]).
  apply feasb_ok; vm_compute; reflexivity.
Qed.
(** Two parallel rows contradict each other. *)
Definition PE_inf := prob
  [[(0%nat, 1); (1%nat, -(1)); (2%nat, 1)]; [(0%nat, 2); (1%nat, -(2)); (2%nat, 2)];
   [(0%nat, 1); (1%nat, 1); (2%nat, -(1))]; [(0%nat, -(1)); (1%nat, 2); (2%nat, 3)]]
  [NInf; Fin 9; Fin 1; Fin 2] [Fin 4; PInf; PInf; PInf] [Fin 0; Fin 0; Fin 0] [PInf; PInf; PInf] [1; 2; 3].
Example PE_inf_ok : wf_input PE_inf /\ exact_run fA (calls sA fA kA 20 PE_inf) /\
  option_map (fun r => res_status r) (run_presolver sA fA kA 20 PE_inf) = Some INFEASIBLE.
Proof.
  split; [apply wfb_ok; vm_compute; reflexivity|]. split; [apply exact_run_all; vm_compute; reflexivity|vm_compute; reflexivity].
Qed.
(** Columns 0 and 1 are opposite and together have negative cost. *)
Definition PE_unb := prob
  [[(0%nat, 1); (1%nat, -(1)); (2%nat, 1)]; [(0%nat, -(2)); (1%nat, 2); (2%nat, 1)]; [(0%nat, 3); (1%nat, -(3)); (2%nat, -(1))]]
  [NInf; NInf; NInf] [Fin 4; Fin 5; Fin 6] [Fin 0; Fin 0; Fin 0] [PInf; PInf; Fin 9] [1; -(2); -(1)].
Example PE_unb_ok : wf_input PE_unb /\ exact_run fA (calls sA fA kA 20 PE_unb) /\ feasible (lp_of_input PE_unb) (fun _ => 1) /\
  option_map (fun r => res_status r) (run_presolver sA fA kA 20 PE_unb) = Some UNBNDORINFEAS.
Proof.
  split; [apply wfb_ok; vm_compute; reflexivity|]. split; [apply exact_run_all; vm_compute; reflexivity|].
  split; [apply feasb_ok; vm_compute; reflexivity|vm_compute; reflexivity].
Qed.
(** The merging alone, at the start. *)
Example PE_rows : let s := new_presolver PE in w_empty_rows s = [] /\ clear_cut (reduced_lp s) /\ sides_apart (reduced_lp s) /\
  snd (remove_parallel_rows s) = UNCHANGED /\ length (live_rows (fst (remove_parallel_rows s))) = 5%nat.
Proof.
  cbv zeta. split; [vm_compute; reflexivity|]. split; [apply clearb_ok; vm_compute; reflexivity|].
  split; [apply sidesb_ok; vm_compute; reflexivity|]. split; vm_compute; reflexivity.
Qed.
