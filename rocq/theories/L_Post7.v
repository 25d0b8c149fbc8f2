(** The postsolve of whole runs. *)
From Coq Require Import NArith Lqa.
From Verif Require Import M_Num S_LP M_Settings M_Driver S_Driver M_State M_Act M_Core M_Simple
  M_StonCols M_Dton M_Parallel M_Propagate M_Init M_Post M_Run S_Run S_Struct S_Sem S_Sem2 S_Sem3 S_Sem4 S_Post
  L_State L_Struct L_Struct8 L_Struct12 L_Drive L_Post L_Post6.
Import M_Driver.
Notation bad := M_State.bad.
Open Scope Q_scope.

Lemma relax_keep : forall s, log (remove_redundant_bounds s) = log s /\ cst (remove_redundant_bounds s) = cst s /\
  lhs (remove_redundant_bounds s) = lhs s /\ rhs (remove_redundant_bounds s) = rhs s /\
  lb (remove_redundant_bounds s) = lb s /\ ub (remove_redundant_bounds s) = ub s /\ off (remove_redundant_bounds s) = off s.
Proof.
  intros s. unfold remove_redundant_bounds.
  apply foldS_inv with (P := fun t => log t = log s /\ cst t = cst s /\ lhs t = lhs s /\ rhs t = rhs s /\ lb t = lb s /\ ub t = ub s /\ off t = off s); [|auto 8].
  intros t k _ H. unfold relax_col. cbv zeta. destruct (t_cinact _); auto. destruct (_ && _); auto.
  destruct (t_ub_inf _).
  - destruct (is_lb_implied_free _ _); auto. destruct (rem_lb_acts (col_view t k) (fin (lb t k)) t) as [a [w E]].
    rewrite E. sr. exact H.
  - destruct (is_ub_implied_free _ _); auto. destruct (rem_ub_acts (col_view t k) (fin (ub t k)) t) as [a [w E]].
    rewrite E. sr. exact H.
Qed.

Lemma relax_lp : forall s, reduced_lp (remove_redundant_bounds s) = reduced_lp s.
Proof.
  intros s. destruct (relax_same s). destruct (relax_keep s) as (L & C & H1 & H2 & H3 & H4 & H5).
  unfold reduced_lp, live_rows, live_cols. rewrite C, H1, H2, H3, H4, H5, ss_A, ss_rsz, ss_csz, ss_nr, ss_nc. reflexivity.
Qed.
Lemma relax_post : forall s x y z, postsolve_state (remove_redundant_bounds s) x y z = postsolve_state s x y z.
Proof.
  intros s x y z. destruct (relax_same s). destruct (relax_keep s) as (L & _).
  unfold postsolve_state. rewrite L, ss_rsz, ss_csz. reflexivity.
Qed.

Lemma run_reached : forall stgs fits clock fuel P r, wf_input P -> dton_eq_on stgs = false ->
  run_presolver stgs fits clock fuel P = Some r -> res_reduced r = true ->
  exists s, reached stgs fits P s /\ reduced_lp (res_state r) = reduced_lp s /\ log (res_state r) = log s /\
    forall x y z, postsolve_state (res_state r) x y z = postsolve_state s x y z.
Proof.
  intros stgs fits clock fuel P r WF D H Hr.
  pose proof (run_tiny stgs fits clock P fuel r WF H (no_dton_no_tiny stgs fits P WF D)) as T.
  destruct (run_R stgs fits P WF clock fuel r H T Hr) as [s [R E]]. exists s. split; [exact R|]. rewrite E.
  destruct (relax_bounds_on stgs); auto.
  split; [apply relax_lp|]. split; [apply relax_keep|]. apply relax_post.
Qed.

Lemma invertible_soft : forall r, invertible r -> soft r.
Proof. intros [] H; exact H || exact I. Qed.

Lemma run_complete : forall stgs fits clock fuel P r, wf_input P -> coefficients_kept stgs ->
  run_presolver stgs fits clock fuel P = Some r -> res_reduced r = true ->
  Forall invertible (log (res_state r)) ->
  forall x y z, exists x' y' z', solution_is P (postsolve_state (res_state r) x y z) x' y' z'.
Proof.
  intros stgs fits clock fuel P r WF CK H Hr SF x y z.
  destruct (run_reached _ _ _ _ _ _ WF (proj1 CK) H Hr) as [s [R [_ [L E]]]]. rewrite E. rewrite L in SF.
  apply (post_complete stgs fits P s x y z WF CK R). exact (Forall_impl _ invertible_soft SF).
Qed.
Lemma run_stationary : forall stgs fits clock fuel P r, wf_input P -> duals_kept stgs ->
  run_presolver stgs fits clock fuel P = Some r -> res_reduced r = true ->
  forall x y z x' y' z', stationary (reduced_lp (res_state r)) y z ->
  solution_is P (postsolve_state (res_state r) x y z) x' y' z' -> stationary (lp_of_input P) y' z'.
Proof.
  intros stgs fits clock fuel P r WF [CK PR] H Hr x y z x' y' z' SY S.
  destruct (run_reached _ _ _ _ _ _ WF (proj1 CK) H Hr) as [s [R [L [_ E]]]]. rewrite E in S. rewrite L in SY.
  eapply post_stationary; eauto.
Qed.
