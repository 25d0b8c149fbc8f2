(** The statuses the modelled explorers return, from any state. *)
From Coq Require Import NArith.
From Verif Require Import M_Num S_LP M_Settings M_Driver S_Driver M_State M_Act M_Core M_Simple M_StonCols
  M_Dton M_Parallel M_Propagate M_Init M_Post M_Run L_State L_Struct L_Struct2 L_Struct3 L_Struct4 L_Struct5.

Ltac two := cbn [In]; auto 10.

Lemma rng_close_bounds : forall s, In (snd (remove_variables_with_close_bounds s)) [UNCHANGED; INFEASIBLE].
Proof.
  intros. unfold remove_variables_with_close_bounds. destruct (for_until _ _ _ _) as [s1 st].
  destruct (N.eqb st INFEASIBLE); two.
Qed.
Lemma rng_empty_cols : forall s, In (snd (remove_empty_cols s)) [UNCHANGED; UNBNDORINFEAS].
Proof.
  intros. unfold remove_empty_cols. destruct (for_until _ _ _ _) as [s1 st].
  destruct (N.eqb st UNBNDORINFEAS); two.
Qed.
Lemma rng_empty_rows : forall s, In (snd (remove_empty_rows s)) [UNCHANGED; INFEASIBLE].
Proof.
  intros. unfold remove_empty_rows. destruct (for_until _ _ _ _) as [s1 st].
  destruct (N.eqb st INFEASIBLE); two.
Qed.
Lemma rng_check_acts : forall s, In (snd (check_activities s)) [UNCHANGED; INFEASIBLE].
Proof.
  intros. unfold check_activities. destruct (for_until _ _ _ _) as [s1 st].
  destruct (N.eqb st INFEASIBLE); two.
Qed.
Lemma rng_dual_fix_col : forall k s l, In (snd (simple_dual_fix_col k s l)) [UNCHANGED; UNBNDORINFEAS].
Proof.
  intros. unfold simple_dual_fix_col.
  repeat match goal with |- context [if ?b then _ else _] => destruct b end; two.
Qed.
Lemma lor2 : forall a b, In a [UNCHANGED; UNBNDORINFEAS] -> In b [UNCHANGED; UNBNDORINFEAS] ->
  In (N.lor a b) [UNCHANGED; UNBNDORINFEAS].
Proof. intros a b [<-|[<-|[]]] [<-|[<-|[]]]; two. Qed.
Lemma rng_dual_loop : forall l s ti st, In st [UNCHANGED; UNBNDORINFEAS] ->
  In (snd (dual_fix_loop l s ti st)) [UNCHANGED; UNBNDORINFEAS].
Proof.
  induction l as [|k l IH]; cbn [dual_fix_loop]; intros; auto.
  destruct (_ || _); auto. pose proof (rng_dual_fix_col k s ti) as R.
  destruct (simple_dual_fix_col k s ti) as [[s1 ti1] st1]. apply IH. apply lor2; auto.
Qed.
Lemma rng_dual_fix : forall s, In (snd (simple_dual_fix s)) [UNCHANGED; UNBNDORINFEAS].
Proof.
  intros. unfold simple_dual_fix.
  pose proof (rng_dual_loop (seq 0 (nc s)) s [] UNCHANGED (or_introl eq_refl)) as R.
  destruct (dual_fix_loop _ _ _ _) as [[s1 ti1] st1]. exact R.
Qed.
Lemma rng_ston_rows : forall s, In (snd (remove_ston_rows s)) [UNCHANGED; REDUCED; INFEASIBLE].
Proof.
  intros. unfold remove_ston_rows. destruct (w_ston_rows s) as [|i l]; [two|].
  destruct (ston_pass true _ s) as [s1 st1]. destruct (N.eqb st1 INFEASIBLE); [two|].
  destruct (ston_pass false _ s1) as [s2 st2]. destruct (N.eqb st2 INFEASIBLE); two.
Qed.
Lemma rng_ston_loop : forall f s, In (snd (ston_cols_loop f s)) [UNCHANGED; UNBNDORINFEAS].
Proof.
  induction f as [|f IH]; cbn [ston_cols_loop]; intros; [two|].
  destruct (remove_ston_cols__ s) as [s1 st] eqn:E. destruct (N.eqb_spec st REDUCED); auto.
  unfold remove_ston_cols__ in E. destruct (fold_or _ _ _ _) as [s0 st0].
  injection E as <- <-. destruct (HAS_STATUS st0 UNBNDORINFEAS); [two|].
  destruct (HAS_STATUS st0 REDUCED); [congruence|two].
Qed.
Lemma rng_propagate : forall b s, In (snd (propagate_primal b s)) [UNCHANGED; INFEASIBLE].
Proof.
  intros. unfold propagate_primal. destruct (prop_loop _ _ _) as [s1 st].
  destruct (N.eqb st INFEASIBLE); [two|]. destruct (remove_empty_rows _) as [s4 st4].
  destruct (N.eqb st4 INFEASIBLE); two.
Qed.
Lemma rng_row_bins : forall gs s, In (snd (process_row_bins gs s)) [UNCHANGED; INFEASIBLE].
Proof.
  induction gs as [|g gs IH]; cbn [process_row_bins]; intros; [two|].
  destruct (process_row_bin g s) as [s1 st]. destruct (N.eqb st INFEASIBLE); [two|auto].
Qed.
Lemma rng_par_rows : forall s, In (snd (remove_parallel_rows s)) [UNCHANGED; INFEASIBLE].
Proof.
  intros. unfold remove_parallel_rows, remove_parallel_rows_with.
  match goal with |- context [process_row_bins ?g s] => pose proof (rng_row_bins g s) as R;
    destruct (process_row_bins g s) as [s1 st] end. exact R.
Qed.
Lemma rng_col_bin : forall g s, In (snd (process_col_bin g s)) [UNCHANGED; UNBNDORINFEAS].
Proof.
  induction g as [|j g IH]; cbn [process_col_bin]; intros; [two|].
  destruct g; [two|]. destruct (t_cinact (ct s j)); [apply IH|].
  destruct (col_pairs _ _ _ _) as [[s1 r] res]. destruct res; auto; two.
Qed.
Lemma rng_fold_or : forall X (f : state -> X -> state * status) l s st,
  (forall s x, In (snd (f s x)) [UNCHANGED; UNBNDORINFEAS]) -> In st [UNCHANGED; UNBNDORINFEAS] ->
  In (snd (fold_or f l s st)) [UNCHANGED; UNBNDORINFEAS].
Proof.
  induction l as [|x l IH]; cbn [fold_or]; intros s st H R; auto.
  pose proof (H s x) as Hx. destruct (f s x) as [s1 st1]. apply IH; auto. apply lor2; auto.
Qed.
Lemma rng_par_cols : forall s, In (snd (remove_parallel_cols s)) [UNCHANGED; UNBNDORINFEAS].
Proof.
  intros. unfold remove_parallel_cols, remove_parallel_cols_with.
  match goal with |- context [fold_or ?f ?l ?s ?u] =>
    pose proof (rng_fold_or _ f l s u (fun s g => rng_col_bin g s) (or_introl eq_refl)) as R;
    destruct (fold_or f l s u) as [s1 st] end. exact R.
Qed.

Lemma the_status_ranges : forall stgs fits, status_ranges (the_explorers stgs fits).
Proof.
  intros. constructor; intros; cbn [x_close_bounds x_empty_cols x_dual_fix x_ston_rows x_empty_rows
    x_ston_cols x_dton_eq x_check_acts x_propagate x_par_rows x_par_cols the_explorers].
  - apply rng_close_bounds.
  - apply rng_empty_cols.
  - apply rng_dual_fix.
  - apply rng_ston_rows.
  - apply rng_empty_rows.
  - apply rng_ston_loop.
  - left; reflexivity.
  - apply rng_check_acts.
  - apply rng_propagate.
  - apply rng_par_rows.
  - apply rng_par_cols.
Qed.
