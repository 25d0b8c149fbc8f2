(** Checking that the calls of a run are exact. *)
From Coq Require Import NArith Lqa.
From Verif Require Import M_Num S_LP M_Settings M_Driver S_Driver M_State M_Act M_Core M_Simple
  M_StonCols M_Dton M_Parallel M_Propagate M_Init M_Post M_Run S_Run S_Sem S_Sem2 S_Sem4 S_Post S_Trace L_Fwd.
Import M_Driver.
Open Scope Q_scope.

Definition apartb (P : LP) : bool :=
  forallb (fun k => match lp_lb P k, lp_ub P k with Fin l, Fin u => Qle_bool u l || Qgtb (u - l) FEAS_TOL | _, _ => true end) (lp_cols P).
Lemma apartb_ok : forall P, apartb P = true -> apart P.
Proof.
  intros P H k l u Hk EL EU LT. unfold apartb in H. rewrite forallb_forall in H. specialize (H k Hk). rewrite EL, EU in H.
  apply orb_true_iff in H. destruct H as [H|H]; [apply Qle_bool_iff in H; lra|]. unfold Qgtb in H. apply negb_true_iff in H.
  destruct (Qlt_le_dec FEAS_TOL (u - l)) as [X|X]; auto. apply Qle_bool_iff in X. congruence.
Qed.
Fixpoint nodupb (l : list nat) : bool := match l with [] => true | k :: l' => negb (existsb (Nat.eqb k) l') && nodupb l' end.
Lemma nodupb_ok : forall l, nodupb l = true -> NoDup l.
Proof.
  induction l as [|k l IH]; intros H; constructor; cbn in H; apply andb_true_iff in H; destruct H as [A B]; auto.
  intros C. apply negb_true_iff in A. assert (existsb (Nat.eqb k) l = true) by (apply existsb_exists; exists k; rewrite Nat.eqb_refl; auto). congruence.
Qed.
Definition exactb (c : call) : bool :=
  match c_kind c with
  | CloseBounds => apartb (reduced_lp (c_before c))
  | EmptyCols => nodupb (w_empty_cols (c_before c)) && forallb (fun k => negb (t_cinact (ct (c_before c) k))) (w_empty_cols (c_before c))
  | Propagate => forallb (fun k => negb (t_fixed (ct (c_after c) k))) (live_cols (c_before c))
  | _ => true
  end.
Lemma exactb_ok : forall c, exactb c = true -> exact_call c.
Proof.
  intros c H. unfold exactb in H. unfold exact_call. destruct (c_kind c); auto.
  - apply apartb_ok; auto.
  - apply andb_true_iff in H. destruct H as [A B]. split; [apply nodupb_ok; auto|]. rewrite forallb_forall in B.
    intros k Hk. apply negb_true_iff. auto.
  - intros x k v _ Hk T. rewrite forallb_forall in H. specialize (H k Hk). rewrite T in H. discriminate.
Qed.
Lemma exact_all : forall l, forallb exactb l = true -> exact_calls l.
Proof.
  induction l as [|c l IH]; intros H; cbn; auto. cbn in H. apply andb_true_iff in H. destruct H as [A B].
  split; [apply exactb_ok; auto|auto].
Qed.

Lemma run_infeasible : forall stgs fits clock fuel P r, wf_input P -> duals_kept stgs ->
  run_presolver stgs fits clock fuel P = Some r -> exact_calls (calls stgs fits clock fuel P) ->
  (res_status r = INFEASIBLE -> infeasible (lp_of_input P)) /\
  (res_status r = UNBNDORINFEAS -> forall x, feasible (lp_of_input P) x ->
     exists c, In c (calls stgs fits clock fuel P) /\ c_status c = UNBNDORINFEAS /\ unbounded (reduced_lp (c_before c))).
Proof.
  intros stgs fits clock fuel P r WF [CK PO] E X. destruct (run_fwd stgs fits P WF CK PO clock fuel r E X) as [A [B _]]. auto.
Qed.
Lemma run_no_loss : forall stgs fits clock fuel P r, wf_input P -> duals_kept stgs ->
  run_presolver stgs fits clock fuel P = Some r -> exact_calls (calls stgs fits clock fuel P) ->
  res_reduced r = true -> no_loss (lp_of_input P) (reduced_lp (res_state r)).
Proof.
  intros stgs fits clock fuel P r WF [CK PO] E X. apply (run_fwd stgs fits P WF CK PO clock fuel r E X).
Qed.
