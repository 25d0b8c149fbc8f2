(** The one-step results for every state of a run. *)
From Coq Require Import NArith Lqa Qabs.
From Verif Require Import M_Num S_LP M_Settings M_Driver S_Driver M_State M_Act M_Core M_Simple
  M_StonCols M_Dton M_Parallel M_Propagate M_Init M_Post M_Run S_Run S_Struct S_Sem S_FixCols
  L_State L_Struct L_Struct2 L_Struct3 L_Struct4 L_Struct5 L_Struct6 L_Struct11
  L_Sem L_Sem2 L_Sem3 L_Sem4 L_Sem5 L_Sem6 L_Mid L_Mid2 L_Mid3 L_Reach L_Sem7.
Import M_Driver.
Notation bad := M_State.bad.
Open Scope Q_scope.

Section R.
Variables (stgs : settings) (fits : nat -> bool) (P : input) (s : state).
Hypothesis WF : wf_input P.
Hypothesis R : reached stgs fits P s.
Let OK : Ok s := proj1 (reached_ok stgs fits P s WF R).
Let M : Mid s := proj2 (reached_ok stgs fits P s WF R).

Lemma r_locks : forall k, In k (lp_cols (reduced_lp s)) ->
  locks_are (reduced_lp s) 1 k (ups s k) /\ locks_are (reduced_lp s) (-(1)) k (dns s k).
Proof. intros k Hk. apply locks_exact; auto. Qed.

Lemma r_ston_rows : forall s' st, remove_ston_rows s = (s', st) ->
  (st = INFEASIBLE -> infeasible (reduced_lp s)) /\
  (st <> INFEASIBLE -> carries_over anything (reduced_lp s) (reduced_lp s') /\
     lifts_back (ston_tol (reduced_lp s)) feas_tol (reduced_lp s) (reduced_lp s')).
Proof.
  intros s' st E. destruct (ston_rows_sem s s' st OK (md_tags s M) (md_empty s M) E) as [A B].
  split; auto. intros X. destruct (B X) as [_ [_ [_ C]]]. exact C.
Qed.

Lemma r_empty_rows : forall s' st, remove_empty_rows s = (s', st) ->
  (st = INFEASIBLE <-> exists i, In i (lp_rows (reduced_lp s)) /\ excludes_zero (reduced_lp s) i) /\
  (st = INFEASIBLE -> infeasible (reduced_lp s)) /\
  (st <> INFEASIBLE ->
     (forall i, In i (lp_rows (reduced_lp s')) -> lp_A (reduced_lp s') i <> []) /\
     carries_over anything (reduced_lp s) (reduced_lp s') /\
     lifts_back feas_tol exactly (reduced_lp s) (reduced_lp s')).
Proof.
  intros s' st E. destruct (empty_rows_sem s s' st OK (md_tags s M) (md_empty s M) E) as [A B].
  pose proof (empty_rows_exact s OK M) as EX. rewrite E in EX. cbn [snd] in EX. split; [exact EX|].
  split; auto. intros X.
  assert (ST : st = UNCHANGED).
  { pose proof (empty_rows_spec s (ok_inv _ OK)) as SP. rewrite E in SP.
    destruct SP as [_ [_ [_ [_ [_ [SP|[SP _]]]]]]]; [contradiction|auto]. }
  subst st. destruct (B eq_refl) as [_ [_ [_ C]]]. split; [|exact C].
  intros i Hi. exact (empty_rows_gone s s' OK M E i Hi).
Qed.

Lemma r_empty_cols : empty_cols_fresh s -> forall s' st, remove_empty_cols s = (s', st) ->
  (st = UNBNDORINFEAS <-> exists k, In k (lp_cols (reduced_lp s)) /\ in_no_row (reduced_lp s) k /\
                                    pulled_away (reduced_lp s) k) /\
  (st = UNBNDORINFEAS -> forall x, feasible (reduced_lp s) x -> unbounded (reduced_lp s)) /\
  (st <> UNBNDORINFEAS -> no_worse (reduced_lp s) (reduced_lp s') /\
     lifts_back exactly exactly (reduced_lp s) (reduced_lp s')).
Proof.
  intros FR s' st E. destruct (empty_cols_sem s s' st OK (md_tags s M) (md_empty s M) FR E) as [A B].
  pose proof (empty_cols_exact s OK M FR) as EX. rewrite E in EX. cbn [snd] in EX. split; [exact EX|].
  split; auto. intros X.
  assert (ST : st = UNCHANGED).
  { pose proof (for_until_st UNBNDORINFEAS remove_empty_col (w_empty_cols s) s) as RG.
    unfold remove_empty_cols in E.
    destruct (for_until UNBNDORINFEAS remove_empty_col (w_empty_cols s) s) as [t st0].
    cbn [snd] in RG. destruct RG as [->| ->]; cbn in E; injection E as _ E; congruence. }
  subst st. destruct (B eq_refl) as [_ [_ [_ C]]]. exact C.
Qed.

Lemma close_cond_of : forall x, at_close_bounds (reduced_lp s) x -> close_cond s x.
Proof.
  intros x Cx k Hk Ck TL TU EQ.
  destruct (lb s k) as [|l|] eqn:EL; try discriminate. destruct (ub s k) as [|u|] eqn:EU; try discriminate.
  cbn [fin] in *. apply (Cx k l u); auto.
  - cbn [lp_cols reduced_lp]. apply live_cols_in; auto.
  - unfold IS_EQUAL_FEAS_TOL, ABSq in EQ. destruct (Qltb (l - u) 0) eqn:C; qb.
    + rewrite Qabs_neg by lra. auto.
    + rewrite Qabs_pos by lra. auto.
Qed.
Lemma r_close_bounds : forall s' st, remove_variables_with_close_bounds s = (s', st) ->
  (st = INFEASIBLE -> infeasible (reduced_lp s)) /\
  (st <> INFEASIBLE -> carries_over (at_close_bounds (reduced_lp s)) (reduced_lp s) (reduced_lp s') /\
     lifts_back exactly feas_tol (reduced_lp s) (reduced_lp s')).
Proof.
  intros s' st E. destruct (close_bounds_sem s s' st OK (md_tags s M) (md_empty s M) E) as [A B].
  split; auto. intros X.
  assert (ST : st = UNCHANGED).
  { pose proof (close_bounds_spec s (ok_inv _ OK) (q_sub _ (ok_quiet _ OK))) as SP. rewrite E in SP.
    destruct SP as [_ [_ [_ [_ [SP|[SP _]]]]]]; [contradiction|auto]. }
  subst st. destruct (B eq_refl) as [_ [_ [_ [C D]]]]. split; auto.
  intros x Fx Cx. apply C; auto. apply close_cond_of; auto.
Qed.

Lemma r_fix_cols : forall l, NoDup (map fst l) ->
  (forall k v, In (k, v) l -> In k (lp_cols (reduced_lp s)) /\ ext_le (lp_lb (reduced_lp s) k) v /\
                              le_ext v (lp_ub (reduced_lp s) k)) ->
  let s' := delete_inactive_cols_from_A_and_AT (delete_fixed_cols_from_problem (fix_cols l s)) in
  (forall x, (forall k v, In (k, v) l -> x k == v) ->
     (feasible (reduced_lp s) x <-> feasible (reduced_lp s') x) /\
     objective (reduced_lp s') x == objective (reduced_lp s) x) /\
  (forall k, In k (lp_cols (reduced_lp s')) <-> In k (lp_cols (reduced_lp s)) /\ ~ In k (map fst l)).
Proof. intros l ND HL. exact (fix_cols_sem l s OK M ND HL). Qed.
End R.
