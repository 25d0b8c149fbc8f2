(** C44 and C48: what a run keeps, going forward from the problem given to the problem handed out. *)
From Coq Require Import NArith Lqa.
From Verif Require Import M_Num S_LP M_Settings M_Driver S_Driver M_State M_Act M_Core M_Simple M_StonCols
  M_Dton M_Parallel M_Propagate M_Init M_Post M_Run S_Run S_Sem S_Sem2 S_Sem4 S_Post S_Trace L_Refute L_Trace L_Fwd L_Fwd2.
Open Scope Q_scope.

(** Noting the calls does not change the run. *)
Theorem C48_calls_faithful : forall stgs fits clock fuel P,
  run_presolver stgs fits clock fuel P =
  option_map (fun r => mkResult (fst (res_state r)) (res_status r) (res_reduced r) (res_phases r)) (noted_run stgs fits clock fuel P).
Proof. exact noted_faithful. Qed.
Print Assumptions C48_calls_faithful.

(** ** C44: if no tolerance comes into play, INFEASIBLE is reported only for infeasible problems, and
    UNBNDORINFEAS for a feasible one only when what the reductions had left was unbounded.  Missing:
    doubleton equations, parallel rows and parallel columns. *)
Theorem C44_exact_runs_partial : forall stgs fits clock fuel P r, wf_input P -> duals_kept stgs ->
  run_presolver stgs fits clock fuel P = Some r -> exact_calls (calls stgs fits clock fuel P) ->
  (res_status r = INFEASIBLE -> infeasible (lp_of_input P)) /\
  (res_status r = UNBNDORINFEAS -> forall x, feasible (lp_of_input P) x ->
     exists c, In c (calls stgs fits clock fuel P) /\ c_status c = UNBNDORINFEAS /\ unbounded (reduced_lp (c_before c))).
Proof. exact run_infeasible. Qed.
Print Assumptions C44_exact_runs_partial.

(** ** C48: if no tolerance comes into play, for every feasible point of the problem given there is a
    feasible point of the problem handed out that is at least as good. *)
Theorem C48_no_loss_partial : forall stgs fits clock fuel P r, wf_input P -> duals_kept stgs ->
  run_presolver stgs fits clock fuel P = Some r -> exact_calls (calls stgs fits clock fuel P) ->
  res_reduced r = true -> no_loss (lp_of_input P) (reduced_lp (res_state r)).
Proof. exact run_no_loss. Qed.
Print Assumptions C48_no_loss_partial.

(** ** The hypotheses are met *)
Definition sF := mkSettings true false false false true true true true 10 60 true.
Definition fF (_ : nat) := true.
Definition kF (_ : nat) := false.
(** 55 calls; a row becomes a bound, an equation fixes a variable, propagation finds bounds. *)
Definition PF := prob
  [[(0%nat, 1); (1%nat, 1); (3%nat, 1); (4%nat, 1)]; [(0%nat, 2)]; [(3%nat, 1)]; [(1%nat, 1); (2%nat, 1); (4%nat, 2)];
   [(0%nat, 1); (1%nat, 1); (2%nat, -(1))]]
  [Fin 7; NInf; Fin 2; NInf; Fin (-(4))] [PInf; Fin 6; Fin 2; Fin 10; PInf]
  [Fin 0; Fin 0; Fin 0; Fin 0; Fin 0] [PInf; PInf; PInf; PInf; PInf] [1; 2; -(1); 5; 1].
Definition view (P : input) := match run_presolver sF fF kF 20 P with
  | Some r => Some (res_reduced r, res_status r, live_rows (res_state r), live_cols (res_state r), map (ub (res_state r)) (live_cols (res_state r)))
  | None => None end.
Example PF_ok : wf_input PF /\ duals_kept sF /\ exact_calls (calls sF fF kF 20 PF) /\ length (calls sF fF kF 20 PF) = 55%nat /\
  feasible (lp_of_input PF) (fun k => match k with 3%nat => 2 | 0%nat => 3 | 1%nat => 2 | _ => 0 end) /\
  view PF = Some (true, REDUCED, [0; 3; 4]%nat, [0; 1; 2; 4]%nat, [Fin (6 # 2); Fin 10; Fin 10; Fin (10 # 2)]).
Proof.
  split; [apply wfb_ok; vm_compute; reflexivity|]. split; [repeat split|].
  split; [apply exact_all; vm_compute; reflexivity|]. split; [vm_compute; reflexivity|].
  split; [apply feasb_ok; vm_compute; reflexivity|]. vm_compute. reflexivity.
Qed.
(** A singleton row and a row over three variables contradict each other. *)
Definition PI := prob
  [[(0%nat, 1); (1%nat, 1); (2%nat, 1)]; [(0%nat, 1); (1%nat, -(1)); (2%nat, 2)]; [(0%nat, 2); (1%nat, 3); (2%nat, -(1))]; [(1%nat, 2)]]
  [NInf; Fin 0; NInf; Fin 10] [Fin 4; Fin 3; Fin 9; PInf] [Fin 0; Fin 0; Fin 0] [Fin 5; Fin 6; Fin 5] [1; 2; -(1)].
Example PI_ok : wf_input PI /\ exact_calls (calls sF fF kF 20 PI) /\ option_map (fun r => res_status r) (run_presolver sF fF kF 20 PI) = Some INFEASIBLE.
Proof.
  split; [apply wfb_ok; vm_compute; reflexivity|]. split; [apply exact_all; vm_compute; reflexivity|vm_compute; reflexivity].
Qed.
(** A variable with negative cost that nothing stops. *)
Definition PU := prob [[(0%nat, 1); (1%nat, -(1))]; [(0%nat, 1); (2%nat, 1)]; [(1%nat, 1); (2%nat, 1)]]
  [NInf; Fin 1; Fin 2] [Fin 4; PInf; PInf] [Fin 0; Fin 0; Fin 0] [PInf; PInf; PInf] [1; -(1); 1].
Example PU_ok : wf_input PU /\ exact_calls (calls sF fF kF 20 PU) /\ feasible (lp_of_input PU) (fun _ => 1) /\
  option_map (fun r => res_status r) (run_presolver sF fF kF 20 PU) = Some UNBNDORINFEAS.
Proof.
  split; [apply wfb_ok; vm_compute; reflexivity|]. split; [apply exact_all; vm_compute; reflexivity|].
  split; [apply feasb_ok; vm_compute; reflexivity|vm_compute; reflexivity].
Qed.
