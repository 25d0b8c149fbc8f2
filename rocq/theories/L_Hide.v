(** Runs that neither substitute variables nor send them to infinity: every entry is assigned, and a
    feasible reduced problem means a feasible problem. *)
From Coq Require Import NArith Lqa.
From Verif Require Import M_Num S_LP M_Settings M_Driver S_Driver M_State M_Act M_Core M_Simple M_StonCols
  M_Dton M_Parallel M_Propagate M_Init M_Post M_Run S_Run S_Sem S_Sem4 S_Post S_Kkt S_Prim L_Prim7 L_NoInf L_Prim9 L_Post7.
Import M_Driver.
Open Scope Q_scope.
Lemma run_assigned : forall stgs fits clock fuel P r, wf_input P -> values_kept stgs -> dual_fix_on stgs = false ->
  run_presolver stgs fits clock fuel P = Some r -> res_reduced r = true ->
  forall x y z, exists x' y' z', solution_is P (postsolve_state (res_state r) x y z) x' y' z'.
Proof.
  intros stgs fits clock fuel P r WF VK DF H Hr. eapply run_complete; eauto; [apply VK|]. eapply run_invertible; eauto.
Qed.
Lemma not_hidden : forall stgs fits clock fuel P r rtol c, wf_input P -> values_kept stgs -> dual_fix_on stgs = false ->
  run_presolver stgs fits clock fuel P = Some r -> res_reduced r = true ->
  wide rtol c (lp_of_input P) -> bounds_meet (lp_of_input P) ->
  forall x, feasible_up_to rtol (fun _ => c) (reduced_lp (res_state r)) x ->
  exists x', feasible_up_to rtol (fun _ => c) (lp_of_input P) x'.
Proof.
  intros stgs fits clock fuel P r rtol c WF VK DF H Hr W B x F.
  destruct (run_assigned stgs fits clock fuel P r WF VK DF H Hr x (fun _ => 0) (fun _ => 0)) as [x' [y' [z' S]]].
  exists x'. eapply run_PS_plain; eauto.
Qed.
Lemma not_hidden_log : forall stgs fits clock fuel P r rtol c, wf_input P -> values_kept stgs ->
  run_presolver stgs fits clock fuel P = Some r -> res_reduced r = true ->
  Forall invertible (log (res_state r)) -> neighbours_known (log (res_state r)) ->
  wide rtol c (lp_of_input P) -> bounds_meet (lp_of_input P) ->
  forall x, feasible_up_to rtol (fun _ => c) (reduced_lp (res_state r)) x ->
  exists x', feasible_up_to rtol (fun _ => c) (lp_of_input P) x'.
Proof.
  intros stgs fits clock fuel P r rtol c WF VK H Hr I N W B x F.
  destruct (run_complete stgs fits clock fuel P r WF (proj1 VK) H Hr I x (fun _ => 0) (fun _ => 0)) as [x' [y' [z' S]]].
  exists x'. eapply run_PS; eauto.
Qed.
