(** Rows only lose entries, unless coefficients are rewritten (doubleton rows, parallel columns). *)
From Coq Require Import NArith.
From Verif Require Import M_Num S_LP M_Settings M_Driver S_Driver M_State M_Act M_Core M_Simple
  M_StonCols M_Dton M_Parallel M_Propagate M_Init M_Post M_Run S_Run S_Sem S_Sem4
  L_State L_Struct L_Struct5 L_Post6.
Import M_Driver.
Notation bad := M_State.bad.
Open Scope Q_scope.

Definition Sub (s s' : state) : Prop := forall i, incl (mA s' i) (mA s i).
Lemma Sub_refl : forall s, Sub s s.
Proof. intros s i e H. exact H. Qed.
Lemma Sub_trans : forall a b c, Sub a b -> Sub b c -> Sub a c.
Proof. intros a b c H K i e I. apply H, K, I. Qed.
Lemma Sub_eq : forall s s', mA s' = mA s -> Sub s s'.
Proof. intros s s' E i e H. rewrite E in H. exact H. Qed.
Lemma Sub_then : forall s s' s'', mA s'' = mA s' -> Sub s s' -> Sub s s''.
Proof. intros s s' s'' E H i e I. rewrite E in I. apply H, I. Qed.
Lemma Sub_setA : forall i r s s', mA s' = upd (mA s) i r -> incl r (mA s i) -> Sub s s'.
Proof.
  intros i r s s' E H j e I. rewrite E in I. destruct (Nat.eq_dec j i) as [->|N]; [rewrite upd_same in I; auto|rewrite upd_other in I; auto].
Qed.
Lemma Sub_foldS : forall X (f : state -> X -> state) l s, (forall s x, Sub s (f s x)) -> Sub s (foldS f l s).
Proof.
  intros X f l s H. apply (foldS_inv _ _ (fun t => Sub s t)); [|apply Sub_refl].
  intros t x _ K. eapply Sub_trans; [exact K|apply H].
Qed.
Lemma mA_foldS : forall X (f : state -> X -> state) l s, (forall s x, mA (f s x) = mA s) -> mA (foldS f l s) = mA s.
Proof.
  intros X f l s H. apply (foldS_inv _ _ (fun t => mA t = mA s)); auto.
  intros t x _ K. rewrite H; auto.
Qed.
Lemma Sub_until : forall st f l s, (forall i s, Sub s (fst (f i s))) -> Sub s (fst (for_until st f l s)).
Proof.
  intros st f l s H. apply (for_until_inv st f (fun t => Sub s t)); [|apply Sub_refl].
  intros t i _ K. eapply Sub_trans; [exact K|apply H].
Qed.

(** ** Steps that keep the coefficients *)
Lemma mA_lock_rhs : forall d j a s, mA (lock_rhs d j a s) = mA s.
Proof. intros. unfold lock_rhs. destruct (Qgtb a 0); reflexivity. Qed.
Lemma mA_lock_lhs : forall d j a s, mA (lock_lhs d j a s) = mA s.
Proof. intros. unfold lock_lhs. destruct (Qgtb a 0); reflexivity. Qed.
Lemma mA_lock_coeff : forall d r l j a s, mA (lock_coeff d r l j a s) = mA s.
Proof. intros. unfold lock_coeff. destruct r, l; rewrite ?mA_lock_lhs, ?mA_lock_rhs; reflexivity. Qed.
Lemma mA_eq2ineq : forall r b s, mA (update_locks_eq_to_ineq r b s) = mA s.
Proof. intros. apply mA_foldS. intros t e. destruct b; [apply mA_lock_lhs|apply mA_lock_rhs]. Qed.
Lemma mA_ineq2eq : forall r b s, mA (update_locks_ineq_to_eq r b s) = mA s.
Proof. intros. apply mA_foldS. intros t e. destruct b; [apply mA_lock_lhs|apply mA_lock_rhs]. Qed.
Lemma mA_note : forall i alt s, mA (note_altered i alt s) = mA s.
Proof. intros. unfold note_altered. destruct (_ || _); auto. destruct (a_st _); reflexivity. Qed.
Lemma mA_bound_change : forall col old new f lo s, mA (update_activities_bound_change col old new f lo s) = mA s.
Proof. intros. destruct (acts_only_bound_change col old new f lo s) as [x [y ->]]. reflexivity. Qed.
Lemma mA_fixed_col : forall col a b v c d e f s, mA (update_activities_fixed_col col a b v c d e f s) = mA s.
Proof. intros. destruct (acts_only_fixed_col col a b v c d e f s) as [x [y ->]]. reflexivity. Qed.
Lemma mA_fix_col : forall k v c s, mA (fst (fix_col k v c s)) = mA s.
Proof. intros. unfold fix_col. cbv zeta. destruct (_ || _); [reflexivity|]. cbn [fst]. rewrite mA_fixed_col. reflexivity. Qed.
Lemma mA_update_lb : forall k v i s, mA (fst (update_lb k v i s)) = mA s.
Proof.
  intros. unfold update_lb. cbv zeta. destruct (_ && _); [reflexivity|]. destruct (_ || _); [|reflexivity].
  cbn [fst]. sr. unfold record. sr. rewrite mA_bound_change. reflexivity.
Qed.
Lemma mA_update_ub : forall k v i s, mA (fst (update_ub k v i s)) = mA s.
Proof.
  intros. unfold update_ub. cbv zeta. destruct (_ && _); [reflexivity|]. destruct (_ || _); [|reflexivity].
  cbn [fst]. sr. unfold record. sr. rewrite mA_bound_change. reflexivity.
Qed.
Lemma mA_sub_obj : forall r k a v s, mA (sub_var_in_obj r k a v s) = mA s.
Proof.
  intros. unfold sub_var_in_obj. destruct (Qeqb _ _); [reflexivity|]. cbv zeta. sr. apply mA_foldS. intros; reflexivity.
Qed.
Lemma mA_shift : forall v s e, mA (shift_sides v s e) = mA s.
Proof.
  intros. unfold shift_sides. cbv zeta. destruct (t_inact _); [reflexivity|]. sr.
  destruct (t_lhs_inf _); destruct (t_rhs_inf _); reflexivity.
Qed.
Lemma mA_delete_fixed : forall s, mA (delete_fixed_cols_from_problem s) = mA s.
Proof. intros. apply (ss_A _ _ (L_Struct3.delete_fixed_cols_same s)). Qed.

(** ** Deleting *)
Lemma Sub_delete_row : forall s i, Sub s (delete_row s i).
Proof.
  intros s i. unfold delete_row. destruct (Z.eqb _ _); [apply Sub_eq; reflexivity|]. cbv zeta.
  eapply (Sub_setA i []); [|intros e []].
  unfold setA. sr. rewrite mA_foldS; [reflexivity|].
  intros t e. cbv zeta. destruct (Z.eqb _ _); [reflexivity|]. rewrite mA_lock_coeff. reflexivity.
Qed.
Lemma mA_compact_col : forall s k, mA (compact_col s k) = mA s.
Proof.
  intros s k. unfold compact_col. destruct (_ || _); [reflexivity|]. destruct (Z.eqb _ _); [reflexivity|].
  cbv zeta. destruct (Z.eqb _ _); reflexivity.
Qed.
Lemma Sub_dir : forall s, Sub s (delete_inactive_rows s).
Proof.
  intros s. unfold delete_inactive_rows. destruct (w_rows s) as [|i l]; [apply Sub_refl|].
  eapply Sub_then; [|apply (Sub_foldS _ delete_row (i :: l)), Sub_delete_row].
  change (mA (set_w_rows ?w ?t)) with (mA t). apply mA_foldS, mA_compact_col.
Qed.
Lemma Sub_compact_row : forall s i, Sub s (compact_row s i).
Proof.
  intros s i. unfold compact_row. destruct (_ || _); [apply Sub_refl|]. destruct (Z.eqb _ _).
  - eapply (Sub_setA i []); [reflexivity|intros e []].
  - cbv zeta. eapply (Sub_setA i (drop_cols s (mA s i))); [|intros e He; apply filter_In in He; apply He].
    destruct (Z.eqb _ 1); [reflexivity|]. destruct (_ && _); reflexivity.
Qed.
Lemma Sub_dic : forall s, Sub s (delete_inactive_cols_from_A_and_AT s).
Proof.
  intros s. unfold delete_inactive_cols_from_A_and_AT. cbv zeta.
  assert (D : forall t k, mA (delete_col t k) = mA t).
  { intros t k. unfold delete_col. cbv zeta. unfold setAT. sr. rewrite mA_foldS; [reflexivity|].
    intros u e. destruct (Z.eqb _ _); reflexivity. }
  eapply Sub_then; [reflexivity|]. eapply Sub_trans; [|apply Sub_foldS, Sub_compact_row].
  apply Sub_eq. rewrite (mA_foldS _ _ (w_sub s)) by auto. apply mA_foldS; auto.
Qed.
Lemma Sub_clean : forall s, Sub s (delete_inactive_cols_from_A_and_AT (delete_fixed_cols_from_problem s)).
Proof. intros s. eapply Sub_trans; [|apply Sub_dic]. apply Sub_eq, mA_delete_fixed. Qed.
Lemma mA_set_inactive : forall i v s, mA (set_row_to_inactive i v s) = mA s.
Proof. reflexivity. Qed.

(** ** The explorers *)
Lemma Sub_close_bounds : forall s, Sub s (fst (remove_variables_with_close_bounds s)).
Proof.
  intros s. unfold remove_variables_with_close_bounds.
  assert (X : Sub s (fst (for_until INFEASIBLE close_bounds_col (seq 0 (nc s)) s))).
  { apply Sub_until. intros k t. unfold close_bounds_col. destruct (_ || _); [apply Sub_refl|].
    destruct (IS_EQUAL_FEAS_TOL _ _); [apply Sub_eq; cbn [fst]; apply mA_fix_col|]. destruct (Qgtb _ _); apply Sub_refl. }
  destruct (for_until _ _ _ _) as [s1 st]. cbn [fst] in *. destruct (N.eqb _ _); [exact X|].
  eapply Sub_trans; [exact X|apply Sub_clean].
Qed.
Lemma Sub_empty_cols : forall s, Sub s (fst (remove_empty_cols s)).
Proof.
  intros s. unfold remove_empty_cols.
  assert (X : Sub s (fst (for_until UNBNDORINFEAS remove_empty_col (w_empty_cols s) s))).
  { apply Sub_until. intros k t. unfold remove_empty_col. destruct (Qeqb _ _); [apply Sub_eq; reflexivity|].
    destruct (Qltb _ _); [destruct (t_ub_inf _)|destruct (t_lb_inf _)]; apply Sub_eq; reflexivity. }
  destruct (for_until _ _ _ _) as [s1 st]. cbn [fst] in *. destruct (N.eqb _ _); exact X.
Qed.
Lemma Sub_empty_rows : forall s, Sub s (fst (remove_empty_rows s)).
Proof.
  intros s. unfold remove_empty_rows.
  assert (X : Sub s (fst (for_until INFEASIBLE remove_empty_row (w_empty_rows s) s))).
  { apply Sub_until. intros k t. unfold remove_empty_row. destruct (_ || _); apply Sub_eq; reflexivity. }
  destruct (for_until _ _ _ _) as [s1 st]. cbn [fst] in *. destruct (N.eqb _ _); exact X.
Qed.
Lemma Sub_stonrow : forall i s, Sub s (fst (remove_stonrow i s)).
Proof.
  intros i s. unfold remove_stonrow. destruct (mA s i) as [|[k a] r] eqn:E; [destruct (t_fixed _); apply Sub_eq; reflexivity|].
  destruct (t_fixed _); [apply Sub_refl|]. destruct (t_eq _).
  - pose proof (mA_fix_col k (fin (rhs s i) / a) (cst s k) s) as X. destruct (fix_col _ _ _ _) as [s1 st]. cbn [fst] in X.
    destruct (N.eqb _ _); [apply Sub_eq; exact X|]. cbv zeta. eapply (Sub_setA i []); [|intros e []].
    unfold record, setA. cbn [fst]. sr. rewrite X. reflexivity.
  - cbv zeta.
    match goal with |- Sub _ (fst (let '(_, _) := ?p in _)) => assert (X : mA (fst p) = mA s) end.
    { destruct (t_rhs_inf _); [reflexivity|]. destruct (Qgtb _ _); [apply mA_update_ub|apply mA_update_lb]. }
    match goal with |- Sub _ (fst (let '(_, _) := ?p in _)) => destruct p as [s1 st1] end. cbn [fst] in X.
    destruct (N.eqb _ _); [apply Sub_eq; exact X|].
    match goal with |- Sub _ (fst (let '(_, _) := ?p in _)) => assert (Y : mA (fst p) = mA s1) end.
    { destruct (t_lhs_inf _); [reflexivity|]. destruct (Qgtb _ _); [apply mA_update_lb|apply mA_update_ub]. }
    match goal with |- Sub _ (fst (let '(_, _) := ?p in _)) => destruct p as [s2 st2] end. cbn [fst] in Y.
    destruct (N.eqb _ _); apply Sub_eq; cbn [fst]; rewrite ?mA_set_inactive; congruence.
Qed.
Lemma Sub_ston_pass : forall e l s, Sub s (fst (ston_pass e l s)).
Proof.
  intros e. induction l as [|i l IH]; intros s; cbn [ston_pass]; [apply Sub_refl|]. cbv zeta.
  match goal with |- context [if ?b then ston_pass e l s else _] => destruct b end; [apply IH|].
  pose proof (Sub_stonrow i s) as X. destruct (remove_stonrow i s) as [s1 st]. cbn [fst] in X.
  destruct (N.eqb _ _); [exact X|]. eapply Sub_trans; [exact X|apply IH].
Qed.
Lemma Sub_ston_rows : forall s, Sub s (fst (remove_ston_rows s)).
Proof.
  intros s. unfold remove_ston_rows. destruct (w_ston_rows s) as [|i l]; [apply Sub_refl|].
  pose proof (Sub_ston_pass true (i :: l) s) as X. destruct (ston_pass true _ s) as [s1 st1]. cbn [fst] in X.
  destruct (N.eqb _ _); [exact X|].
  pose proof (Sub_ston_pass false (i :: l) s1) as Y. destruct (ston_pass false _ s1) as [s2 st2]. cbn [fst] in Y.
  pose proof (Sub_trans _ _ _ X Y) as Z. destruct (N.eqb _ _); [exact Z|]. cbn [fst].
  eapply Sub_trans; [|apply Sub_clean]. eapply Sub_trans; [|apply Sub_dir]. exact Z.
Qed.
Lemma Sub_check_acts : forall s, Sub s (fst (check_activities s)).
Proof.
  intros s. unfold check_activities.
  assert (X : Sub s (fst (for_until INFEASIBLE check_row (w_acts s) s))).
  { apply Sub_until. intros k t. unfold check_row. destruct (_ || _); [apply Sub_refl|].
    destruct (check_activity _ _ _ _) as [|lr rr]; [apply Sub_refl|]. destruct (_ && _); [apply Sub_eq; reflexivity|].
    destruct lr; [|destruct rr; [|apply Sub_refl]]; apply Sub_eq; cbn [fst]; unfold set_lhs1, set_rhs1; sr;
    (rewrite mA_foldS; [reflexivity|]); intros; [apply mA_lock_lhs|apply mA_lock_rhs]. }
  destruct (for_until _ _ _ _) as [s1 st]. cbn [fst] in *. destruct (N.eqb _ _); [exact X|].
  eapply Sub_trans; [exact X|apply Sub_dir].
Qed.
Lemma Sub_dual_fix : forall s, Sub s (fst (simple_dual_fix s)).
Proof.
  intros s. unfold simple_dual_fix.
  assert (X : forall l s ti st, mA (fst (fst (dual_fix_loop l s ti st))) = mA s).
  { induction l as [|k l IH]; intros t ti st; cbn [dual_fix_loop]; [reflexivity|]. destruct (_ || _); [apply IH|].
    assert (Y : mA (fst (fst (simple_dual_fix_col k t ti))) = mA t).
    { unfold simple_dual_fix_col. cbv zeta. repeat match goal with |- context [if ?b then _ else _] => destruct b end;
      cbn [fst]; rewrite ?mA_fix_col; reflexivity. }
    destruct (simple_dual_fix_col k t ti) as [[t1 ti1] st1]. cbn [fst] in Y. rewrite IH. exact Y. }
  specialize (X (seq 0 (nc s)) s [] UNCHANGED). destruct (dual_fix_loop _ _ _ _) as [[s1 ti] st]. cbn [fst] in X.
  cbv zeta. cbn [fst]. eapply Sub_trans; [|apply Sub_clean]. eapply Sub_trans; [|apply Sub_dir].
  apply Sub_eq. rewrite <- X. apply mA_foldS.
  assert (F : forall p k t, mA (fix_col_to_inf p k t) = mA t).
  { intros p k t. unfold fix_col_to_inf. cbv zeta.
    match goal with |- mA ?x = _ => change (mA x) with (mA (foldS (fun (s : state) (e : nat * Q) => if t_inact (rt s (fst e)) then s else set_row_to_inactive (fst e) 0 s)
      (mAT t k) (record (FIXED_COL_INF p k (if p then lb t k else ub t k) (inf_rows t k)) t))) end.
    rewrite mA_foldS; [reflexivity|]. intros u e. destruct (t_inact _); reflexivity. }
  intros t [p k]. unfold inf_step. destruct (Nat.eqb _ _); [|apply F]. destruct (Z.eqb _ _); [apply F|]. destruct (Z.eqb _ _); [apply F|reflexivity].
Qed.
Lemma Sub_remove_from_row : forall i k s, Sub s (remove_from_row i k s).
Proof.
  intros i k s. apply (Sub_setA i (del_entry k (row_view s i))); [reflexivity|].
  intros e He. apply filter_In in He. destruct He as [He _]. unfold row_view in He.
  rewrite <- (firstn_skipn (Z.to_nat (rsz s i)) (mA s i)). apply in_or_app. auto.
Qed.
Lemma mA_record : forall r s, mA (record r s) = mA s.
Proof. reflexivity. Qed.
Lemma mA_eq_side : forall above i k a c s, mA (handle_impl_free_eq above i k a c s) = upd (mA s) i (del_entry k (row_view s i)).
Proof.
  intros above i k a c s. unfold handle_impl_free_eq. cbv zeta.
  match goal with |- mA (set_act1 ?i0 ?x ?t) = _ => change (mA (set_act1 i0 x t)) with (mA t) end.
  rewrite mA_eq2ineq. destruct (Bool.eqb _ _); reflexivity.
Qed.
Lemma mA_fix_ston : forall i k v a s, mA (fix_col_ston i k v a s) = upd (mA s) i (del_entry k (row_view s i)).
Proof.
  intros i k v a s. unfold fix_col_ston. cbv zeta.
  match goal with |- mA (record ?x (fix_var_in_obj ?k0 ?v0 (set_act1 ?i0 ?y ?t))) = _ =>
    change (mA (record x (fix_var_in_obj k0 v0 (set_act1 i0 y t)))) with (mA t) end.
  match goal with |- mA (if ?c then ?x else ?y) = _ => assert (E : mA (if c then x else y) = mA x) by (destruct c; reflexivity); rewrite E; clear E end.
  match goal with |- mA (if ?c then ?x else ?y) = _ => assert (E : mA (if c then x else y) = mA x) by (destruct c; reflexivity); rewrite E; clear E end.
  reflexivity.
Qed.
Lemma mA_close_row : forall b i s, mA (close_row b i s) = mA s.
Proof.
  intros b i s. unfold close_row. cbv zeta. destruct (Z.eqb _ _);
  unfold push_dton, set_rt1; sr; destruct b; unfold set_lhs1, set_rhs1; sr;
  match goal with |- context [if ?c then _ else _] => destruct c end; rewrite ?mA_ineq2eq; reflexivity.
Qed.
Lemma mA_sub_now : forall k r a v s, mA (sub_col_now k (sub_var_in_obj r k a v s)) = mA s.
Proof. intros. unfold sub_col_now, setAT. sr. apply mA_sub_obj. Qed.
Lemma del_entry_view : forall s i k, incl (del_entry k (row_view s i)) (mA s i).
Proof.
  intros s i k e He. apply filter_In in He. destruct He as [He _]. unfold row_view in He.
  rewrite <- (firstn_skipn (Z.to_nat (rsz s i)) (mA s i)). apply in_or_app. auto.
Qed.
Lemma Sub_colston_eq : forall i k a u v s, Sub s (fst (process_colston_eq i k a u v s)).
Proof.
  intros i k a u v s. unfold process_colston_eq. destruct (_ && _); [apply Sub_refl|]. cbv zeta.
  pose proof (mA_sub_now k (row_view s i) a (fin (rhs s i)) s) as E1.
  assert (E2 : rsz (sub_col_now k (sub_var_in_obj (row_view s i) k a (fin (rhs s i)) s)) = rsz s).
  { unfold sub_col_now, setAT. sr. unfold sub_var_in_obj. destruct (Qeqb _ _); [reflexivity|]. cbv zeta. sr.
    apply (foldS_inv _ _ (fun t => rsz t = rsz s)); auto. }
  set (s1 := sub_col_now k (sub_var_in_obj (row_view s i) k a (fin (rhs s i)) s)) in *. clearbody s1.
  destruct (_ && _); [apply Sub_eq; exact E1|]. cbn [fst].
  match goal with |- context [handle_impl_free_eq ?b i k a ?c s1] =>
    pose proof (mA_eq_side b i k a c s1) as E3; set (s2 := handle_impl_free_eq b i k a c s1) in *; clearbody s2 end.
  assert (X : Sub s s2).
  { eapply (Sub_setA i (del_entry k (row_view s i))); [|apply del_entry_view]. rewrite E3. unfold row_view. rewrite E1, E2. reflexivity. }
  destruct (Z.eqb _ _); [eapply Sub_then; [|exact X]; reflexivity|].
  destruct (_ && _); [eapply Sub_then; [|exact X]; reflexivity|exact X].
Qed.
Lemma Sub_fst : forall s a (st : status), Sub s a -> Sub s (fst (a, st)).
Proof. intros s a st H. exact H. Qed.
Lemma Sub_push_if : forall s s2 i, Sub s s2 -> Sub s (push_if_ston i s2).
Proof. intros s s2 i X. unfold push_if_ston. destruct (Z.eqb _ _); exact X. Qed.
Lemma Sub_fc0 : forall s i k v a, Sub s (fix_col_ston i k v a s).
Proof. intros. apply (Sub_setA i (del_entry k (row_view s i)) s _ (mA_fix_ston i k v a s)). apply del_entry_view. Qed.
Lemma Sub_fc : forall s i k v a, Sub s (push_if_ston i (fix_col_ston i k v a s)).
Proof. intros. exact (Sub_push_if s (fix_col_ston i k v a s) i (Sub_fc0 s i k v a)). Qed.
Lemma Sub_fi : forall s i k a side r w, Sub s (set_row_to_inactive i w (record r (sub_col_now k (sub_var_in_obj (row_view s i) k a side s)))).
Proof.
  intros. apply Sub_eq. rewrite mA_set_inactive. etransitivity; [apply (mA_record r)|apply mA_sub_now].
Qed.
Lemma Sub_cr : forall s b i, Sub s (close_row b i s).
Proof. intros. apply Sub_eq. apply mA_close_row. Qed.
Lemma Sub_colston_ineq : forall i k a u v s, Sub s (fst (process_colston_ineq i k a u v s)).
Proof.
  intros i k a u v s. unfold process_colston_ineq. cbv zeta.
  repeat match goal with |- Sub s (fst (if ?b then _ else _)) => destruct b end; apply Sub_fst;
  lazymatch goal with
  | |- Sub s (push_if_ston _ _) => apply Sub_fc
  | |- Sub s (set_row_to_inactive _ _ _) => apply Sub_fi
  | |- Sub s (close_row _ _ _) => apply Sub_cr
  | |- Sub s s => apply Sub_refl
  end.
Qed.
Lemma Sub_ston_col : forall s k, Sub s (fst (ston_col s k)).
Proof.
  intros s k. unfold ston_col. destruct (mAT s k) as [|[i a] r]; [apply Sub_eq; reflexivity|].
  destruct (_ || _); [apply Sub_refl|]. cbv zeta. destruct (t_eq _); [apply Sub_colston_eq|apply Sub_colston_ineq].
Qed.
Lemma Sub_fold_or : forall X (f : state -> X -> state * status) l s st, (forall s x, Sub s (fst (f s x))) -> Sub s (fst (fold_or f l s st)).
Proof.
  intros X f. induction l as [|x l IH]; intros s st H; cbn [fold_or]; [apply Sub_refl|].
  pose proof (H s x) as Y. destruct (f s x) as [s1 st1]. cbn [fst] in Y. eapply Sub_trans; [exact Y|apply IH, H].
Qed.
Lemma Sub_ston_cols : forall s, Sub s (fst (remove_ston_cols s)).
Proof.
  intros s. unfold remove_ston_cols. generalize (S (2 * nc s + nr s)). intros n. revert s.
  induction n as [|n IH]; intros s; cbn [ston_cols_loop]; [apply Sub_eq; reflexivity|].
  assert (X : Sub s (fst (remove_ston_cols__ s))).
  { unfold remove_ston_cols__. cbv zeta.
    pose proof (Sub_fold_or _ ston_col (w_ston_cols (refresh_ston_cols s)) (refresh_ston_cols s) UNCHANGED Sub_ston_col) as Y.
    destruct (fold_or _ _ _ _) as [s1 st]. cbn [fst] in *. eapply Sub_trans; [|apply Sub_dir]. exact Y. }
  destruct (remove_ston_cols__ s) as [s1 st]. cbn [fst] in X. destruct (N.eqb _ _); [|exact X]. eapply Sub_trans; [exact X|apply IH].
Qed.
Lemma mA_update_lb_prop : forall ft k b s, mA (fst (update_lb_prop ft k b s)) = mA s.
Proof.
  intros. unfold update_lb_prop. cbv zeta.
  match goal with |- context [if ?b then _ else _] => destruct b end; [reflexivity|].
  match goal with |- context [if ?b then (fst _, _) else _] => destruct b end; [cbn [fst]; rewrite mA_fix_col; reflexivity|].
  match goal with |- context [if ?b then _ else (s, _)] => destruct b end; [|reflexivity].
  cbn [fst]. unfold record. sr. rewrite mA_bound_change. reflexivity.
Qed.
Lemma mA_update_ub_prop : forall ft k b s, mA (fst (update_ub_prop ft k b s)) = mA s.
Proof.
  intros. unfold update_ub_prop. cbv zeta.
  match goal with |- context [if ?b then _ else _] => destruct b end; [reflexivity|].
  match goal with |- context [if ?b then (fst _, _) else _] => destruct b end; [cbn [fst]; rewrite mA_fix_col; reflexivity|].
  match goal with |- context [if ?b then _ else (s, _)] => destruct b end; [|reflexivity].
  cbn [fst]. unfold record. sr. rewrite mA_bound_change. reflexivity.
Qed.
Definition keeps (f : tight -> tight) : Prop := forall p, mA (fst (fst (f p))) = mA (fst (fst p)).
Lemma try_ub_keeps : forall ft k b, keeps (try_ub ft k b).
Proof. intros ft k b [[s st] n]. unfold try_ub. destruct (_ && _); [|reflexivity]. cbn [tally fst]. apply mA_update_ub_prop. Qed.
Lemma try_lb_keeps : forall ft k b, keeps (try_lb ft k b).
Proof. intros ft k b [[s st] n]. unfold try_lb. destruct (_ && _); [|reflexivity]. cbn [tally fst]. apply mA_update_lb_prop. Qed.
Lemma fold_keeps : forall (f : tight -> nat * Q -> tight) l, (forall e, keeps (fun p => f p e)) -> keeps (fold_left f l).
Proof.
  intros f l H. induction l as [|e l IH]; intros p; [reflexivity|]. cbn [fold_left]. rewrite IH. apply (H e p).
Qed.
Lemma tighten_rhs_keeps : forall ft i r, keeps (tighten_rhs ft i r).
Proof.
  intros ft i r [[s st] n]. unfold tighten_rhs. cbv zeta. destruct (_ && _).
  - apply fold_keeps. intros [k a] [[t st'] n']. unfold rhs_entry. destruct (t_cinact _); [reflexivity|].
    destruct (Qgtb _ _); [apply try_ub_keeps|apply try_lb_keeps].
  - destruct (_ && _); [|reflexivity]. destruct (find_inf _ _ _ _) as [[k a]|]; [|reflexivity].
    destruct (Qgtb _ _); [apply try_ub_keeps|apply try_lb_keeps].
Qed.
Lemma tighten_lhs_keeps : forall ft i r, keeps (tighten_lhs ft i r).
Proof.
  intros ft i r [[s st] n]. unfold tighten_lhs. cbv zeta. destruct (_ && _).
  - apply fold_keeps. intros [k a] [[t st'] n']. unfold lhs_entry. destruct (t_cinact _); [reflexivity|].
    destruct (Qgtb _ _); [apply try_lb_keeps|apply try_ub_keeps].
  - destruct (_ && _); [|reflexivity]. destruct (find_inf _ _ _ _) as [[k a]|]; [|reflexivity].
    destruct (Qgtb _ _); [apply try_lb_keeps|apply try_ub_keeps].
Qed.
Lemma mA_single_row : forall ft i s, mA (fst (bound_tightening_single_row ft i s)) = mA s.
Proof.
  intros ft i s. unfold bound_tightening_single_row. cbv zeta.
  pose proof (tighten_lhs_keeps ft i (row_view s i) (tighten_rhs ft i (row_view s i) (s, UNCHANGED, O))) as X.
  rewrite tighten_rhs_keeps in X. destruct (tighten_lhs _ _ _ _) as [[s1 st] n]. cbn [fst] in *. destruct n; exact X.
Qed.
Lemma mA_prop_loop : forall ft n ii s, mA (fst (prop_loop ft n ii s)) = mA s.
Proof.
  intros ft. induction n as [|n IH]; intros ii s; cbn [prop_loop]; destruct (nth_error _ _) as [i|]; try reflexivity.
  destruct (skip_row _ _); [apply IH|].
  pose proof (mA_single_row ft i (set_ast i PROPAGATED_THIS_ROUND s)) as X.
  destruct (bound_tightening_single_row _ _ _) as [s1 st]. cbn [fst] in X.
  destruct (HAS_STATUS _ _); [exact X|]. rewrite IH. exact X.
Qed.
Lemma Sub_propagate : forall ft s, Sub s (fst (propagate_primal ft s)).
Proof.
  intros ft s. unfold propagate_primal. cbv zeta.
  pose proof (mA_prop_loop ft (length (w_acts s) + 2 * nr s) 0 s) as X. destruct (prop_loop _ _ _ _) as [s1 st]. cbn [fst] in X.
  destruct (N.eqb _ _); [apply Sub_eq; exact X|].
  assert (Y : mA (next_round s1) = mA s) by (rewrite (ss_A _ _ (L_Struct8.next_round_same s1)); exact X).
  assert (Z : Sub s (delete_inactive_cols_from_A_and_AT (delete_fixed_cols_from_problem (next_round s1)))).
  { eapply Sub_trans; [apply Sub_eq; exact Y|apply Sub_clean]. }
  pose proof (Sub_trans _ _ _ Z (Sub_empty_rows _)) as T. destruct (remove_empty_rows _) as [s4 st4]. cbn [fst] in T.
  destruct (N.eqb _ _); exact T.
Qed.
Lemma mA_change_rhs : forall i v o q s, mA (fst (change_rhs_of_ineq i v o q s)) = mA s.
Proof.
  intros. unfold change_rhs_of_ineq. destruct (_ && _); [reflexivity|]. cbv zeta. cbn [fst].
  destruct (t_rhs_inf _); (destruct (_ && _); [destruct (Nat.eqb _ _)|]); unfold record, push_dton, set_rt1, set_rhs1; sr; rewrite ?mA_ineq2eq; reflexivity.
Qed.
Lemma mA_change_lhs : forall i v o q s, mA (fst (change_lhs_of_ineq i v o q s)) = mA s.
Proof.
  intros. unfold change_lhs_of_ineq. destruct (_ && _); [reflexivity|]. cbv zeta. cbn [fst].
  destruct (t_lhs_inf _); (destruct (_ && _); [destruct (Nat.eqb _ _)|]); unfold record, push_dton, set_rt1, set_lhs1; sr; rewrite ?mA_ineq2eq; reflexivity.
Qed.
Lemma mA_row_bin : forall g s, mA (fst (process_row_bin g s)) = mA s.
Proof.
  intros [|i0 l] s; cbn [process_row_bin]; [reflexivity|]. destruct (merge_loop _ _ _) as [m|]; [|reflexivity]. cbv zeta.
  match goal with |- mA (fst (let '(_, _) := ?p in _)) = _ => assert (X : mA (fst p) = mA s) by (destruct (_ && _); [apply mA_change_rhs|reflexivity]); destruct p as [s1 st1] end.
  cbn [fst] in X. destruct (N.eqb _ _); [exact X|].
  match goal with |- mA (fst (let '(_, _) := ?p in _)) = _ => assert (Y : mA (fst p) = mA s1) by (destruct (_ && _); [apply mA_change_lhs|reflexivity]); destruct p as [s2 st2] end.
  cbn [fst] in Y. destruct (N.eqb _ _); [cbn [fst]; congruence|]. cbn [fst]. rewrite mA_foldS; [congruence|].
  intros t j. destruct (Nat.eqb _ _); reflexivity.
Qed.
Lemma Sub_par_rows : forall s, Sub s (fst (remove_parallel_rows s)).
Proof.
  intros s. unfold remove_parallel_rows, remove_parallel_rows_with.
  assert (X : forall gs t, mA (fst (process_row_bins gs t)) = mA t).
  { induction gs as [|g gs IH]; intros t; cbn [process_row_bins]; [reflexivity|].
    pose proof (mA_row_bin g t) as Y. destruct (process_row_bin g t) as [t1 st]. cbn [fst] in Y.
    destruct (N.eqb _ _); [exact Y|]. rewrite IH. exact Y. }
  match goal with |- context [process_row_bins ?g s] => specialize (X g s); destruct (process_row_bins g s) as [s1 st] end.
  cbn [fst] in *. eapply Sub_trans; [apply Sub_eq; exact X|apply Sub_dir].
Qed.

(** ** Reached states *)
Lemma reached_Sub : forall stgs fits P s, coefficients_kept stgs -> reached stgs fits P s ->
  forall i, incl (mA s i) (in_A P i).
Proof.
  intros stgs fits P s [CK1 CK2] R.
  induction R as [|f s s' st IN R IH E NT|s s' st ON C R IH E NT|s s' st ON C R IH E NT|s s' st ON R IH E NT TN].
  - destruct (init_fields P) as (_ & _ & -> & _). intros i e H; exact H.
  - assert (X : Sub s (fst (f s))).
    { unfold common_steps in IN. rewrite !in_app_iff in IN. destruct IN as [IN|[IN|[IN|IN]]].
      - destruct IN as [<-|[<-|[<-|[<-|[]]]]]; [apply Sub_close_bounds|apply Sub_empty_cols|apply Sub_ston_rows|apply Sub_empty_rows].
      - destruct (dual_fix_on stgs); [|contradiction]. destruct IN as [<-|[]]. apply Sub_dual_fix.
      - destruct (ston_cols_on stgs); [|contradiction]. destruct IN as [<-|[]]. apply Sub_ston_cols.
      - destruct (primal_propagation_on stgs); [|contradiction]. destruct IN as [<-|[<-|[]]]; [apply Sub_check_acts|apply Sub_propagate]. }
    rewrite E in X. intros i e H. apply IH, X, H.
  - pose proof (Sub_par_rows s) as X. rewrite E in X. intros i e H. apply IH, X, H.
  - congruence.
  - congruence.
Qed.
