(** C22: dual fixing.  Theorems only; vocabulary in S_LP.v, S_Sem.v and S_Sem2.v. *)
From Coq Require Import NArith.
From Verif Require Import M_Num S_LP M_Settings M_Driver S_Driver M_State M_Act M_Core M_Simple M_StonCols
  M_Dton M_Parallel M_Propagate M_Init M_Post M_Run S_Run S_Struct S_Sem S_Sem2 L_Refute L_Drive L_Sem10.
Open Scope Q_scope.

(** At every state of every run (without near-zero fill-in): dual fixing reports "unbounded or
    infeasible" exactly when some variable can run away, and then the problem is unbounded if it has
    a feasible point; no feasible point is lost without one at least as good remaining; and each
    feasible point of the new problem comes from one of the old problem with the same objective (off
    by the tolerance at most in a variable whose bounds were crossed). *)
Theorem C22_dual_fix_partial : forall stgs fits P s, wf_input P -> reached stgs fits P s ->
  forall s' st, simple_dual_fix s = (s', st) ->
  (st = UNBNDORINFEAS <-> exists k, In k (lp_cols (reduced_lp s)) /\ runs_away (reduced_lp s) k) /\
  (st = UNBNDORINFEAS -> forall x, feasible (reduced_lp s) x -> unbounded (reduced_lp s)) /\
  no_loss (reduced_lp s) (reduced_lp s') /\
  lifts_back exactly (crossed_tol (reduced_lp s)) (reduced_lp s) (reduced_lp s').
Proof. exact r_dual_fix. Qed.
Print Assumptions C22_dual_fix_partial.

(** Column 0 is fixed at its lower bound, column 1 at its upper bound, column 2 (no cost, no lower
    bound) goes to minus infinity with its rows, columns 3 and 4 stay. *)
Definition Pd := prob
  [[(c0, 1); (c1, -(1)); (c3, 1)]; [(c2, 1); (c3, 2)]; [(c3, 1); (4%nat, 1)]; [(c3, 2); (4%nat, 5)]]
  [NInf; NInf; Fin 1; Fin 1] [Fin 4; Fin 6; Fin 2; Fin 9]
  [Fin 0; Fin 0; NInf; Fin 0; Fin 0] [Fin 10; Fin 7; PInf; Fin 3; Fin 9] [1; -(2); 0; 3; 1].
Example Pd_ok : wf_input Pd /\ (forall stgs fits, reached stgs fits Pd (new_presolver Pd)) /\
  live_cols (fst (simple_dual_fix (new_presolver Pd))) = [3; 4]%nat /\
  live_rows (fst (simple_dual_fix (new_presolver Pd))) = [0; 2; 3]%nat /\
  snd (simple_dual_fix (new_presolver Pd)) = UNCHANGED /\ off (fst (simple_dual_fix (new_presolver Pd))) == -(14).
Proof.
  split; [apply wfb_ok; vm_compute; reflexivity|]. split; [intros; apply rc_start|].
  repeat split; vm_compute; reflexivity.
Qed.
(** A variable that runs away *)
Definition Pe := prob [[(c0, 1); (c1, 1)]; [(c0, 1); (c1, -(1))]] [Fin 0; Fin 0] [PInf; PInf]
  [Fin 0; Fin 0] [PInf; PInf] [-(1); 1].
Example Pe_ok : wf_input Pe /\ snd (simple_dual_fix (new_presolver Pe)) = UNBNDORINFEAS.
Proof. split; [apply wfb_ok; vm_compute; reflexivity|vm_compute; reflexivity]. Qed.
