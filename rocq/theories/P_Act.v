(** C14, C15, C24, C25, C31, C32, C33: activities, bound propagation, redundant rows, implied-free
    tests and singleton columns.  Theorems only; vocabulary in S_LP.v, S_Sem*.v.

    All of them speak about the states of runs with the reductions that change coefficients of rows
    (doubleton rows and parallel columns) switched off; with doubleton rows on, C14 and C32 are false
    (P_Refute.v).  When singleton columns are switched on, the runs must pass through states without
    crossed sides or bounds. *)
From Coq Require Import NArith.
From Verif Require Import M_Num S_LP M_Settings M_Driver S_Driver M_State M_Act M_Core M_Simple M_StonCols
  M_Dton M_Parallel M_Propagate M_Init M_Post M_Run S_Run S_Struct S_Sem S_Sem2 S_Sem3 S_Sem4 L_Refute
  L_ActP L_ActP2.
Open Scope Q_scope.

(** ** C14: the stored activities are valid *)
Theorem C14_activities_valid_partial : forall stgs fits P s, wf_input P -> coefficients_kept stgs ->
  reached_via (uncrossed_for_ston_cols stgs) stgs fits P s ->
  forall i, In i (lp_rows (reduced_lp s)) -> activity_valid (reduced_lp s) i (acts s i).
Proof. exact r_valid. Qed.
Print Assumptions C14_activities_valid_partial.

(** ** C15: with singleton columns off, the incrementally updated activities are what one computes
    from the current bounds *)
Theorem C15_activities_exact_partial : forall stgs fits P s, wf_input P -> coefficients_kept stgs ->
  ston_cols_on stgs = false -> reached stgs fits P s ->
  forall i, In i (lp_rows (reduced_lp s)) -> activity_exact (reduced_lp s) i (acts s i).
Proof. exact r_exact. Qed.
Print Assumptions C15_activities_exact_partial.

(** ** C33: a bound found to be implied by a row, or by the problem, is *)
Theorem C33_implied_by_row_partial : forall stgs fits P s, wf_input P -> coefficients_kept stgs ->
  reached_via (uncrossed_for_ston_cols stgs) stgs fits P s ->
  forall i k a x, In i (lp_rows (reduced_lp s)) -> In (k, a) (lp_A (reduced_lp s) i) ->
  others_within (reduced_lp s) k x -> row_sat (reduced_lp s) x i ->
  (implied_free_from_above_by_row s a i (mA s i) (lb s k) (ub s k) (ct s k) (acts s i) = true -> le_ext (x k) (lp_ub (reduced_lp s) k)) /\
  (implied_free_from_below_by_row s a i (mA s i) (lb s k) (ub s k) (ct s k) (acts s i) = true -> ext_le (lp_lb (reduced_lp s) k) (x k)).
Proof. exact r_implied_row. Qed.
Print Assumptions C33_implied_by_row_partial.

Theorem C33_implied_free_partial : forall stgs fits P s, wf_input P -> coefficients_kept stgs ->
  reached_via (uncrossed_for_ston_cols stgs) stgs fits P s ->
  forall k x, In k (lp_cols (reduced_lp s)) -> feasible_but (reduced_lp s) k x ->
  (is_ub_implied_free s k = true -> le_ext (x k) (lp_ub (reduced_lp s) k)) /\
  (is_lb_implied_free s k = true -> ext_le (lp_lb (reduced_lp s) k) (x k)).
Proof. exact r_implied_free. Qed.
Print Assumptions C33_implied_free_partial.

(** ** C31: propagation only excludes points that are infeasible, apart from the variables [l] whose
    bounds came within the tolerance of each other and which were fixed (at the value that is their
    upper bound afterwards, so [l] names each of them with one value) *)
Theorem C31_propagation_partial : forall stgs fits P s, wf_input P -> coefficients_kept stgs ->
  reached_via (uncrossed_for_ston_cols stgs) stgs fits P s ->
  forall b s' st, propagate_primal b s = (s', st) ->
  exists l, nearly_forced (reduced_lp s) l /\
   (forall k v, In (k, v) l -> In k (lp_cols (reduced_lp s)) /\ lp_ub (reduced_lp s') k = Fin v) /\
   (st = INFEASIBLE -> forall x, feasible (reduced_lp s) x -> ~ fixed_at l x) /\
   (st <> INFEASIBLE -> carries_over (fixed_at l) (reduced_lp s) (reduced_lp s') /\
      lifts_back feas_tol (crossed_tol (reduced_lp s)) (reduced_lp s) (reduced_lp s') /\
      (forall k v, In (k, v) l -> ~ In k (lp_cols (reduced_lp s')))).
Proof. exact r_propagate. Qed.
Print Assumptions C31_propagation_partial.

(** ** C32: dropped rows and sides hold (up to the tolerance) within the bounds *)
Theorem C32_redundant_rows_partial : forall stgs fits P s, wf_input P -> coefficients_kept stgs ->
  reached_via (uncrossed_for_ston_cols stgs) stgs fits P s ->
  forall s' st, check_activities s = (s', st) ->
  (st = INFEASIBLE -> infeasible (reduced_lp s)) /\
  (st <> INFEASIBLE -> carries_over anything (reduced_lp s) (reduced_lp s') /\
     lifts_back feas_tol exactly (reduced_lp s) (reduced_lp s') /\ lp_cols (reduced_lp s') = lp_cols (reduced_lp s)).
Proof. exact r_check. Qed.
Print Assumptions C32_redundant_rows_partial.

(** ** C24: removing a singleton column from an equation keeps exactly the feasible points *)
Theorem C24_singleton_col_eq_partial : forall stgs fits P s, wf_input P -> coefficients_kept stgs ->
  reached_via (uncrossed_for_ston_cols stgs) stgs fits P s ->
  forall k i a, In k (lp_cols (reduced_lp s)) -> csz s k = 1%Z -> mAT s k = [(i, a)] -> t_eq (rt s i) = true ->
  let s' := delete_inactive_rows (fst (ston_col s k)) in
  carries_over anything (reduced_lp s) (reduced_lp s') /\
  lifts_back exactly exactly (reduced_lp s) (reduced_lp s').
Proof. exact r_ston_eq. Qed.
Print Assumptions C24_singleton_col_eq_partial.

(** ** C25 (and C24): removing singleton columns loses no optimum *)
Theorem C25_singleton_cols_partial : forall stgs fits P s, wf_input P -> coefficients_kept stgs ->
  reached_via (uncrossed_for_ston_cols stgs) stgs fits P s -> not_crossed (reduced_lp s) ->
  forall s' st, remove_ston_cols s = (s', st) ->
  (st = UNBNDORINFEAS -> forall x, feasible (reduced_lp s) x -> unbounded (reduced_lp s)) /\
  no_loss (reduced_lp s) (reduced_lp s') /\
  lifts_back exactly exactly (reduced_lp s) (reduced_lp s').
Proof. exact r_ston_cols. Qed.
Print Assumptions C25_singleton_cols_partial.

(** ** The hypotheses are met *)
Lemma by_list {A} (P : A -> Prop) (l l' : list A) : l = l' -> Forall P l' -> forall i, In i l -> P i.
Proof. intros -> F. now apply Forall_forall. Qed.
Definition sA := mkSettings true false true false true true true true 10 60 false.
(** Column 0 is a singleton in an equation, column 3 a singleton in an inequality. *)
Definition PA := prob
  [[(c0, 1); (c1, 2); (c2, 1)]; [(c1, 1); (c2, 1); (c3, 1)]; [(c1, 1); (c2, -(1))]; [(c1, 1); (c2, 3); (4%nat, 1)]]
  [Fin 4; NInf; Fin (-(1)); Fin 1] [Fin 4; Fin 5; PInf; Fin 20]
  [Fin 0; Fin 0; Fin 0; Fin (-(10)); Fin 0] [Fin 10; Fin 2; PInf; PInf; Fin 3] [1; 1; 2; -(1); 1].
Definition sA1 := fst (propagate_primal true (new_presolver PA)).
(** Propagation tightens three upper bounds ... *)
Lemma PA_N0 : not_crossed (reduced_lp (new_presolver PA)).
Proof. split; (eapply by_list; [vm_compute; reflexivity|repeat (constructor; [vm_compute; (exact I || intros X; discriminate X)|]); constructor]). Qed.
Lemma PA_N1 : not_crossed (reduced_lp sA1).
Proof. split; (eapply by_list; [vm_compute; reflexivity|repeat (constructor; [vm_compute; (exact I || intros X; discriminate X)|]); constructor]). Qed.
Lemma PA_step : propagate_primal true (new_presolver PA) = (sA1, UNCHANGED).
Proof.
  assert (E : snd (propagate_primal true (new_presolver PA)) = UNCHANGED) by (vm_compute; reflexivity).
  unfold sA1. rewrite <- E. generalize (propagate_primal true (new_presolver PA)). intros [a b]. reflexivity.
Qed.
Lemma PA_in : In (propagate_primal true) (common_steps sA).
Proof. do 7 right. left. reflexivity. Qed.
Lemma PA_reached fits : reached_via (uncrossed_for_ston_cols sA) sA fits PA sA1.
Proof.
  apply (rv_any _ sA fits PA (propagate_primal true) (new_presolver PA) sA1 UNCHANGED PA_in (rv_start _ _ _ _)).
  - intros _. exact PA_N0.
  - exact PA_step.
  - intros [X|X]; discriminate X.
Qed.
Example PA_ok : forall fits, wf_input PA /\ coefficients_kept sA /\
  reached_via (uncrossed_for_ston_cols sA) sA fits PA sA1 /\ not_crossed (reduced_lp sA1) /\
  map (ub sA1) (live_cols sA1) = [Fin 4; Fin 2; Fin 3; Fin 5; Fin 3] /\
  map (fun i => (a_min (acts sA1 i), a_max (acts sA1 i))) (live_rows sA1) = [(0, 11); (-(10), 10); (-(3), 2); (0, 14)] /\
  csz sA1 c0 = 1%Z /\ mAT sA1 c0 = [(c0, 1)] /\ t_eq (rt sA1 c0) = true /\
  is_lb_implied_free sA1 c3 = false /\ is_ub_implied_free sA1 c3 = true.
Proof.
  intros fits. split; [apply wfb_ok; vm_compute; reflexivity|]. split; [split; reflexivity|]. split; [apply PA_reached|]. split; [exact PA_N1|].
  repeat split; vm_compute; reflexivity.
Qed.
(** ... and both columns are removed, with one row. *)
Example PA_ston : live_cols (fst (remove_ston_cols sA1)) = [c1; c2; 4%nat] /\ live_rows (fst (remove_ston_cols sA1)) = [c0; c2; c3] /\
  off (fst (remove_ston_cols sA1)) == -(1) /\ snd (remove_ston_cols sA1) = UNCHANGED.
Proof. repeat split; vm_compute; reflexivity. Qed.

(** An unbounded problem: a free singleton column in an inequality *)
Definition PU := prob [[(c0, 1); (c1, 1); (c2, 1)]; [(c1, 1); (c2, 1)]] [Fin 0; Fin 0] [PInf; Fin 3]
  [NInf; Fin 0; Fin 0] [PInf; Fin 4; Fin 4] [-(1); 1; 1].
Example PU_ok : wf_input PU /\ not_crossed (reduced_lp (new_presolver PU)) /\
  snd (remove_ston_cols (new_presolver PU)) = UNBNDORINFEAS.
Proof.
  split; [apply wfb_ok; vm_compute; reflexivity|]. split; [|vm_compute; reflexivity].
  split; (eapply by_list; [vm_compute; reflexivity|repeat (constructor; [vm_compute; (exact I || intros X; discriminate X)|]); constructor]).
Qed.
(** Row 0 is redundant, the right-hand side of row 1 is, row 2 stays. *)
Definition PC := prob [[(c0, 1); (c1, 1)]; [(c0, 1); (c1, -(1))]; [(c0, 2); (c1, 3)]] [Fin 0; Fin 1; Fin 1] [Fin 9; Fin 7; Fin 4]
  [Fin 0; Fin 0] [Fin 4; Fin 4] [1; 1].
Example PC_ok : wf_input PC /\ live_rows (fst (check_activities (new_presolver PC))) = [c1; c2] /\
  rhs (fst (check_activities (new_presolver PC))) c1 = PInf /\ lhs (fst (check_activities (new_presolver PC))) c1 = Fin 1 /\
  snd (check_activities (new_presolver PC)) = UNCHANGED.
Proof. split; [apply wfb_ok; vm_compute; reflexivity|]. repeat split; vm_compute; reflexivity. Qed.
Definition PI := prob [[(c0, 1); (c1, 1)]] [Fin 9] [PInf] [Fin 0; Fin 0] [Fin 4; Fin 4] [1; 1].
Example PI_ok : wf_input PI /\ snd (check_activities (new_presolver PI)) = INFEASIBLE.
Proof. split; [apply wfb_ok; vm_compute; reflexivity|]. vm_compute; reflexivity. Qed.
