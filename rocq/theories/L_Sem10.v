(** Single reductions at the states of a run, continued. *)
From Coq Require Import NArith.
From Verif Require Import M_Num S_LP M_Settings M_Driver S_Driver M_State M_Act M_Core M_Simple M_StonCols
  M_Dton M_Parallel M_Propagate M_Init M_Post M_Run S_Run S_Struct S_Sem S_Sem2 L_Refute L_Drive L_Reach L_Sem9.
Open Scope Q_scope.
Lemma r_dual_fix : forall stgs fits P s, wf_input P -> reached stgs fits P s ->
  forall s' st, simple_dual_fix s = (s', st) ->
  (st = UNBNDORINFEAS <-> exists k, In k (lp_cols (reduced_lp s)) /\ runs_away (reduced_lp s) k) /\
  (st = UNBNDORINFEAS -> forall x, feasible (reduced_lp s) x -> unbounded (reduced_lp s)) /\
  no_loss (reduced_lp s) (reduced_lp s') /\
  lifts_back exactly (crossed_tol (reduced_lp s)) (reduced_lp s) (reduced_lp s').
Proof.
  intros stgs fits P s WF R s' st E. destruct (reached_ok _ _ _ _ WF R). eapply dual_fix_sem; eauto.
Qed.
