(** Without dual fixing, no condition on the log. *)
From Coq Require Import NArith Lqa.
From Verif Require Import M_Num S_LP M_Settings M_Driver S_Driver M_State M_Act M_Core M_Simple M_StonCols
  M_Dton M_Parallel M_Propagate M_Init M_Post M_Run S_Run S_Sem S_Sem4 S_Post S_Kkt S_Prim L_Prim7 L_NoInf.
Import M_Driver.
Open Scope Q_scope.
Lemma run_PS_plain : forall stgs fits clock fuel P r rtol c, wf_input P -> values_kept stgs -> dual_fix_on stgs = false ->
  run_presolver stgs fits clock fuel P = Some r -> res_reduced r = true ->
  wide rtol c (lp_of_input P) -> bounds_meet (lp_of_input P) ->
  forall x y z x' y' z', feasible_up_to rtol (fun _ => c) (reduced_lp (res_state r)) x ->
  solution_is P (postsolve_state (res_state r) x y z) x' y' z' -> feasible_up_to rtol (fun _ => c) (lp_of_input P) x'.
Proof. intros. eapply run_PS; eauto. eapply run_known; eauto. Qed.
