(** Costs and offset stay as long as nothing is removed. *)
From Coq Require Import NArith Sorted.
From Verif Require Import M_Num S_LP M_Settings M_Driver S_Driver M_State M_Act M_Core M_Simple
  M_StonCols M_Dton M_Parallel M_Propagate M_Init M_Post M_Run S_Run S_Sem S_Sem4 S_Same
  L_State L_Struct L_Struct2 L_Struct3 L_Struct4 L_Struct5 L_Struct6 L_Struct7 L_Struct8 L_Struct10 L_Struct11 L_Init L_Sem L_Reach L_Post2 L_Post6 L_Post7 L_Obj2 L_Keep L_Same.
Import M_Driver.
Notation bad := M_State.bad.
Open Scope Q_scope.

(** ** Steps that keep costs and offset *)
Lemma cst_foldS : forall X (f : state -> X -> state) l s, (forall s x, cst (f s x) = cst s) -> cst (foldS f l s) = cst s.
Proof.
  intros X f l s H. apply (foldS_inv _ _ (fun t => cst t = cst s)); auto.
  intros t x _ K. rewrite H; auto.
Qed.
Lemma cst_lock_rhs : forall d j a s, cst (lock_rhs d j a s) = cst s.
Proof. intros. unfold lock_rhs. destruct (Qgtb a 0); reflexivity. Qed.
Lemma cst_lock_lhs : forall d j a s, cst (lock_lhs d j a s) = cst s.
Proof. intros. unfold lock_lhs. destruct (Qgtb a 0); reflexivity. Qed.
Lemma cst_lock_coeff : forall d r l j a s, cst (lock_coeff d r l j a s) = cst s.
Proof. intros. unfold lock_coeff. destruct r, l; rewrite ?cst_lock_lhs, ?cst_lock_rhs; reflexivity. Qed.
Lemma cst_eq2ineq : forall r b s, cst (update_locks_eq_to_ineq r b s) = cst s.
Proof. intros. apply cst_foldS. intros t e. destruct b; [apply cst_lock_lhs|apply cst_lock_rhs]. Qed.
Lemma cst_ineq2eq : forall r b s, cst (update_locks_ineq_to_eq r b s) = cst s.
Proof. intros. apply cst_foldS. intros t e. destruct b; [apply cst_lock_lhs|apply cst_lock_rhs]. Qed.
Lemma cst_bound_change : forall col old new f lo s, cst (update_activities_bound_change col old new f lo s) = cst s.
Proof. intros. destruct (acts_only_bound_change col old new f lo s) as [x [y ->]]. reflexivity. Qed.
Lemma cst_fixed_col : forall col a b v c d e f s, cst (update_activities_fixed_col col a b v c d e f s) = cst s.
Proof. intros. destruct (acts_only_fixed_col col a b v c d e f s) as [x [y ->]]. reflexivity. Qed.
Lemma cst_fix_col : forall k v c s, cst (fst (fix_col k v c s)) = cst s.
Proof. intros. unfold fix_col. cbv zeta. destruct (_ || _); [reflexivity|]. cbn [fst]. rewrite cst_fixed_col. reflexivity. Qed.
Lemma cst_update_lb : forall k v i s, cst (fst (update_lb k v i s)) = cst s.
Proof.
  intros. unfold update_lb. cbv zeta. destruct (_ && _); [reflexivity|]. destruct (_ || _); [|reflexivity].
  cbn [fst]. sr. unfold record. sr. rewrite cst_bound_change. reflexivity.
Qed.
Lemma cst_update_ub : forall k v i s, cst (fst (update_ub k v i s)) = cst s.
Proof.
  intros. unfold update_ub. cbv zeta. destruct (_ && _); [reflexivity|]. destruct (_ || _); [|reflexivity].
  cbn [fst]. sr. unfold record. sr. rewrite cst_bound_change. reflexivity.
Qed.
Lemma cst_set_inactive : forall i v s, cst (set_row_to_inactive i v s) = cst s.
Proof. reflexivity. Qed.
Lemma cst_record : forall r s, cst (record r s) = cst s.
Proof. reflexivity. Qed.
Lemma cst_close_row : forall b i s, cst (close_row b i s) = cst s.
Proof.
  intros b i s. unfold close_row. cbv zeta. destruct (Z.eqb _ _);
  unfold push_dton, set_rt1; sr; destruct b; unfold set_lhs1, set_rhs1; sr;
  match goal with |- context [if ?c then _ else _] => destruct c end; rewrite ?cst_ineq2eq; reflexivity.
Qed.
Lemma cst_update_lb_prop : forall ft k b s, cst (fst (update_lb_prop ft k b s)) = cst s.
Proof.
  intros. unfold update_lb_prop. cbv zeta.
  match goal with |- context [if ?b then _ else _] => destruct b end; [reflexivity|].
  match goal with |- context [if ?b then (fst _, _) else _] => destruct b end; [cbn [fst]; rewrite cst_fix_col; reflexivity|].
  match goal with |- context [if ?b then _ else (s, _)] => destruct b end; [|reflexivity].
  cbn [fst]. unfold record. sr. rewrite cst_bound_change. reflexivity.
Qed.
Lemma cst_update_ub_prop : forall ft k b s, cst (fst (update_ub_prop ft k b s)) = cst s.
Proof.
  intros. unfold update_ub_prop. cbv zeta.
  match goal with |- context [if ?b then _ else _] => destruct b end; [reflexivity|].
  match goal with |- context [if ?b then (fst _, _) else _] => destruct b end; [cbn [fst]; rewrite cst_fix_col; reflexivity|].
  match goal with |- context [if ?b then _ else (s, _)] => destruct b end; [|reflexivity].
  cbn [fst]. unfold record. sr. rewrite cst_bound_change. reflexivity.
Qed.
Definition cst_keeps (f : tight -> tight) : Prop := forall p, cst (fst (fst (f p))) = cst (fst (fst p)).
Lemma cst_try_ub_keeps : forall ft k b, cst_keeps (try_ub ft k b).
Proof. intros ft k b [[s st] n]. unfold try_ub. destruct (_ && _); [|reflexivity]. cbn [tally fst]. apply cst_update_ub_prop. Qed.
Lemma cst_try_lb_keeps : forall ft k b, cst_keeps (try_lb ft k b).
Proof. intros ft k b [[s st] n]. unfold try_lb. destruct (_ && _); [|reflexivity]. cbn [tally fst]. apply cst_update_lb_prop. Qed.
Lemma cst_fold_keeps : forall (f : tight -> nat * Q -> tight) l, (forall e, cst_keeps (fun p => f p e)) -> cst_keeps (fold_left f l).
Proof.
  intros f l H. induction l as [|e l IH]; intros p; [reflexivity|]. cbn [fold_left]. rewrite IH. apply (H e p).
Qed.
Lemma cst_tighten_rhs_keeps : forall ft i r, cst_keeps (tighten_rhs ft i r).
Proof.
  intros ft i r [[s st] n]. unfold tighten_rhs. cbv zeta. destruct (_ && _).
  - apply cst_fold_keeps. intros [k a] [[t st'] n']. unfold rhs_entry. destruct (t_cinact _); [reflexivity|].
    destruct (Qgtb _ _); [apply cst_try_ub_keeps|apply cst_try_lb_keeps].
  - destruct (_ && _); [|reflexivity]. destruct (find_inf _ _ _ _) as [[k a]|]; [|reflexivity].
    destruct (Qgtb _ _); [apply cst_try_ub_keeps|apply cst_try_lb_keeps].
Qed.
Lemma cst_tighten_lhs_keeps : forall ft i r, cst_keeps (tighten_lhs ft i r).
Proof.
  intros ft i r [[s st] n]. unfold tighten_lhs. cbv zeta. destruct (_ && _).
  - apply cst_fold_keeps. intros [k a] [[t st'] n']. unfold lhs_entry. destruct (t_cinact _); [reflexivity|].
    destruct (Qgtb _ _); [apply cst_try_lb_keeps|apply cst_try_ub_keeps].
  - destruct (_ && _); [|reflexivity]. destruct (find_inf _ _ _ _) as [[k a]|]; [|reflexivity].
    destruct (Qgtb _ _); [apply cst_try_lb_keeps|apply cst_try_ub_keeps].
Qed.
Lemma cst_single_row : forall ft i s, cst (fst (bound_tightening_single_row ft i s)) = cst s.
Proof.
  intros ft i s. unfold bound_tightening_single_row. cbv zeta.
  pose proof (cst_tighten_lhs_keeps ft i (row_view s i) (tighten_rhs ft i (row_view s i) (s, UNCHANGED, O))) as X.
  rewrite cst_tighten_rhs_keeps in X. destruct (tighten_lhs _ _ _ _) as [[s1 st] n]. cbn [fst] in *. destruct n; exact X.
Qed.
Lemma cst_prop_loop : forall ft n ii s, cst (fst (prop_loop ft n ii s)) = cst s.
Proof.
  intros ft. induction n as [|n IH]; intros ii s; cbn [prop_loop]; destruct (nth_error _ _) as [i|]; try reflexivity.
  destruct (skip_row _ _); [apply IH|].
  pose proof (cst_single_row ft i (set_ast i PROPAGATED_THIS_ROUND s)) as X.
  destruct (bound_tightening_single_row _ _ _) as [s1 st]. cbn [fst] in X.
  destruct (HAS_STATUS _ _); [exact X|]. rewrite IH. exact X.
Qed.
Lemma cst_change_rhs : forall i v o q s, cst (fst (change_rhs_of_ineq i v o q s)) = cst s.
Proof.
  intros. unfold change_rhs_of_ineq. destruct (_ && _); [reflexivity|]. cbv zeta. cbn [fst].
  destruct (t_rhs_inf _); (destruct (_ && _); [destruct (Nat.eqb _ _)|]); unfold record, push_dton, set_rt1, set_rhs1; sr; rewrite ?cst_ineq2eq; reflexivity.
Qed.
Lemma cst_change_lhs : forall i v o q s, cst (fst (change_lhs_of_ineq i v o q s)) = cst s.
Proof.
  intros. unfold change_lhs_of_ineq. destruct (_ && _); [reflexivity|]. cbv zeta. cbn [fst].
  destruct (t_lhs_inf _); (destruct (_ && _); [destruct (Nat.eqb _ _)|]); unfold record, push_dton, set_rt1, set_lhs1; sr; rewrite ?cst_ineq2eq; reflexivity.
Qed.
Lemma cst_row_bin : forall g s, cst (fst (process_row_bin g s)) = cst s.
Proof.
  intros [|i0 l] s; cbn [process_row_bin]; [reflexivity|]. destruct (merge_loop _ _ _) as [m|]; [|reflexivity]. cbv zeta.
  match goal with |- cst (fst (let '(_, _) := ?p in _)) = _ => assert (X : cst (fst p) = cst s) by (destruct (_ && _); [apply cst_change_rhs|reflexivity]); destruct p as [s1 st1] end.
  cbn [fst] in X. destruct (N.eqb _ _); [exact X|].
  match goal with |- cst (fst (let '(_, _) := ?p in _)) = _ => assert (Y : cst (fst p) = cst s1) by (destruct (_ && _); [apply cst_change_lhs|reflexivity]); destruct p as [s2 st2] end.
  cbn [fst] in Y. destruct (N.eqb _ _); [cbn [fst]; congruence|]. cbn [fst]. rewrite cst_foldS; [congruence|].
  intros t j. destruct (Nat.eqb _ _); reflexivity.
Qed.
Lemma cst_until_eq : forall st f l s, (forall i s, cst (fst (f i s)) = cst s) -> cst (fst (for_until st f l s)) = cst s.
Proof.
  intros st f l s H. apply (for_until_inv st f (fun t => cst t = cst s)); auto.
  intros t i _ K. rewrite H; auto.
Qed.
Lemma cst_check_row : forall i s, cst (fst (check_row i s)) = cst s.
Proof.
  intros k t. unfold check_row. destruct (_ || _); [reflexivity|].
  destruct (check_activity _ _ _ _) as [|lr rr]; [reflexivity|]. destruct (_ && _); [reflexivity|].
  destruct lr; [|destruct rr; [|reflexivity]]; cbn [fst]; unfold set_lhs1, set_rhs1; sr;
  (rewrite cst_foldS; [reflexivity|]); intros; [apply cst_lock_lhs|apply cst_lock_rhs].
Qed.
Lemma cst_dual_loop : forall l s ti st, cst (fst (fst (dual_fix_loop l s ti st))) = cst s.
Proof.
  induction l as [|k l IH]; intros t ti st; cbn [dual_fix_loop]; [reflexivity|]. destruct (_ || _); [apply IH|].
  assert (Y : cst (fst (fst (simple_dual_fix_col k t ti))) = cst t).
  { unfold simple_dual_fix_col. cbv zeta. repeat match goal with |- context [if ?b then _ else _] => destruct b end;
    cbn [fst]; rewrite ?cst_fix_col; reflexivity. }
  destruct (simple_dual_fix_col k t ti) as [[t1 ti1] st1]. cbn [fst] in Y. rewrite IH. exact Y.
Qed.
Lemma cst_inf_steps : forall l s, cst (foldS inf_step l s) = cst s.
Proof.
  intros l s. apply cst_foldS.
  assert (F : forall p k t, cst (fix_col_to_inf p k t) = cst t).
  { intros p k t. unfold fix_col_to_inf. cbv zeta.
    match goal with |- cst ?x = _ => change (cst x) with (cst (foldS (fun (s : state) (e : nat * Q) => if t_inact (rt s (fst e)) then s else set_row_to_inactive (fst e) 0 s)
      (mAT t k) (record (FIXED_COL_INF p k (if p then lb t k else ub t k) (inf_rows t k)) t))) end.
    rewrite cst_foldS; [reflexivity|]. intros u e. destruct (t_inact _); reflexivity. }
  intros t [p k]. unfold inf_step. destruct (Nat.eqb _ _); [|apply F]. destruct (Z.eqb _ _); [apply F|]. destruct (Z.eqb _ _); [apply F|reflexivity].
Qed.
Lemma cst_row_bins : forall gs t, cst (fst (process_row_bins gs t)) = cst t.
Proof.
  induction gs as [|g gs IH]; intros t; cbn [process_row_bins]; [reflexivity|].
  pose proof (cst_row_bin g t) as Y. destruct (process_row_bin g t) as [t1 st]. cbn [fst] in Y.
  destruct (N.eqb _ _); [exact Y|]. rewrite IH. exact Y.
Qed.
Lemma cst_merge_cols : forall j k q s, cst (merge_cols j k q s) = cst s.
Proof.
  intros. unfold merge_cols. destruct (if Qgtb q 0 then _ else _) as [[[lbk ubk] lk] uk]. reflexivity.
Qed.
Lemma cst_col_pair : forall j k s b, cst (fst (fst (col_pair j k s b))) = cst s.
Proof.
  intros j k s b. unfold col_pair. cbv zeta. destruct (t_cinact _); [reflexivity|].
  destruct (IS_EQUAL_FEAS_TOL _ _); [cbn [fst]; apply cst_merge_cols|].
  destruct (Qgtb (cst s k) _); cbn [andb negb];
  repeat (match goal with |- context [if ?b then _ else _] => destruct b end; cbn [fst andb negb]);
    rewrite ?cst_fix_col; reflexivity.
Qed.
Lemma cst_col_pairs : forall ks j s b, cst (fst (fst (col_pairs j ks s b))) = cst s.
Proof.
  induction ks as [|k ks IH]; simpl; intros j s b; [reflexivity|].
  pose proof (cst_col_pair j k s b) as X. destruct (col_pair j k s b) as [[s1 b1] res]. cbn [fst] in X.
  destruct res; cbn [fst]; auto. rewrite IH. exact X.
Qed.
Lemma cst_recount : forall j s, cst (recount j s) = cst s.
Proof. intros. unfold recount. apply cst_foldS. intros; reflexivity. Qed.
Lemma cst_col_bin : forall bin s, cst (fst (process_col_bin bin s)) = cst s.
Proof.
  induction bin as [|j rest IH]; intros s; simpl; [reflexivity|].
  destruct rest as [|k0 rest0] eqn:ER; [reflexivity|]. rewrite <- ER in *.
  destruct (t_cinact (ct s j)); [apply IH|].
  pose proof (cst_col_pairs rest j s false) as X. destruct (col_pairs j rest s false) as [[s1 rec] res]. cbn [fst] in X.
  destruct res; [|
    |exact X]; rewrite IH; (destruct rec; [rewrite cst_recount|]; exact X).
Qed.
Lemma cst_fold_or : forall X (f : state -> X -> state * status) l s st, (forall s x, cst (fst (f s x)) = cst s) -> cst (fst (fold_or f l s st)) = cst s.
Proof.
  intros X f. induction l as [|x l IH]; intros s st H; cbn [fold_or]; [reflexivity|].
  pose proof (H s x) as Y. destruct (f s x) as [s1 st1]. cbn [fst] in Y. rewrite IH; auto.
Qed.

Lemma off_foldS : forall X (f : state -> X -> state) l s, (forall s x, off (f s x) = off s) -> off (foldS f l s) = off s.
Proof.
  intros X f l s H. apply (foldS_inv _ _ (fun t => off t = off s)); auto.
  intros t x _ K. rewrite H; auto.
Qed.
Lemma off_lock_rhs : forall d j a s, off (lock_rhs d j a s) = off s.
Proof. intros. unfold lock_rhs. destruct (Qgtb a 0); reflexivity. Qed.
Lemma off_lock_lhs : forall d j a s, off (lock_lhs d j a s) = off s.
Proof. intros. unfold lock_lhs. destruct (Qgtb a 0); reflexivity. Qed.
Lemma off_lock_coeff : forall d r l j a s, off (lock_coeff d r l j a s) = off s.
Proof. intros. unfold lock_coeff. destruct r, l; rewrite ?off_lock_lhs, ?off_lock_rhs; reflexivity. Qed.
Lemma off_eq2ineq : forall r b s, off (update_locks_eq_to_ineq r b s) = off s.
Proof. intros. apply off_foldS. intros t e. destruct b; [apply off_lock_lhs|apply off_lock_rhs]. Qed.
Lemma off_ineq2eq : forall r b s, off (update_locks_ineq_to_eq r b s) = off s.
Proof. intros. apply off_foldS. intros t e. destruct b; [apply off_lock_lhs|apply off_lock_rhs]. Qed.
Lemma off_bound_change : forall col old new f lo s, off (update_activities_bound_change col old new f lo s) = off s.
Proof. intros. destruct (acts_only_bound_change col old new f lo s) as [x [y ->]]. reflexivity. Qed.
Lemma off_fixed_col : forall col a b v c d e f s, off (update_activities_fixed_col col a b v c d e f s) = off s.
Proof. intros. destruct (acts_only_fixed_col col a b v c d e f s) as [x [y ->]]. reflexivity. Qed.
Lemma off_fix_col : forall k v c s, off (fst (fix_col k v c s)) = off s.
Proof. intros. unfold fix_col. cbv zeta. destruct (_ || _); [reflexivity|]. cbn [fst]. rewrite off_fixed_col. reflexivity. Qed.
Lemma off_update_lb : forall k v i s, off (fst (update_lb k v i s)) = off s.
Proof.
  intros. unfold update_lb. cbv zeta. destruct (_ && _); [reflexivity|]. destruct (_ || _); [|reflexivity].
  cbn [fst]. sr. unfold record. sr. rewrite off_bound_change. reflexivity.
Qed.
Lemma off_update_ub : forall k v i s, off (fst (update_ub k v i s)) = off s.
Proof.
  intros. unfold update_ub. cbv zeta. destruct (_ && _); [reflexivity|]. destruct (_ || _); [|reflexivity].
  cbn [fst]. sr. unfold record. sr. rewrite off_bound_change. reflexivity.
Qed.
Lemma off_set_inactive : forall i v s, off (set_row_to_inactive i v s) = off s.
Proof. reflexivity. Qed.
Lemma off_record : forall r s, off (record r s) = off s.
Proof. reflexivity. Qed.
Lemma off_close_row : forall b i s, off (close_row b i s) = off s.
Proof.
  intros b i s. unfold close_row. cbv zeta. destruct (Z.eqb _ _);
  unfold push_dton, set_rt1; sr; destruct b; unfold set_lhs1, set_rhs1; sr;
  match goal with |- context [if ?c then _ else _] => destruct c end; rewrite ?off_ineq2eq; reflexivity.
Qed.
Lemma off_update_lb_prop : forall ft k b s, off (fst (update_lb_prop ft k b s)) = off s.
Proof.
  intros. unfold update_lb_prop. cbv zeta.
  match goal with |- context [if ?b then _ else _] => destruct b end; [reflexivity|].
  match goal with |- context [if ?b then (fst _, _) else _] => destruct b end; [cbn [fst]; rewrite off_fix_col; reflexivity|].
  match goal with |- context [if ?b then _ else (s, _)] => destruct b end; [|reflexivity].
  cbn [fst]. unfold record. sr. rewrite off_bound_change. reflexivity.
Qed.
Lemma off_update_ub_prop : forall ft k b s, off (fst (update_ub_prop ft k b s)) = off s.
Proof.
  intros. unfold update_ub_prop. cbv zeta.
  match goal with |- context [if ?b then _ else _] => destruct b end; [reflexivity|].
  match goal with |- context [if ?b then (fst _, _) else _] => destruct b end; [cbn [fst]; rewrite off_fix_col; reflexivity|].
  match goal with |- context [if ?b then _ else (s, _)] => destruct b end; [|reflexivity].
  cbn [fst]. unfold record. sr. rewrite off_bound_change. reflexivity.
Qed.
Definition off_keeps (f : tight -> tight) : Prop := forall p, off (fst (fst (f p))) = off (fst (fst p)).
Lemma off_try_ub_keeps : forall ft k b, off_keeps (try_ub ft k b).
Proof. intros ft k b [[s st] n]. unfold try_ub. destruct (_ && _); [|reflexivity]. cbn [tally fst]. apply off_update_ub_prop. Qed.
Lemma off_try_lb_keeps : forall ft k b, off_keeps (try_lb ft k b).
Proof. intros ft k b [[s st] n]. unfold try_lb. destruct (_ && _); [|reflexivity]. cbn [tally fst]. apply off_update_lb_prop. Qed.
Lemma off_fold_keeps : forall (f : tight -> nat * Q -> tight) l, (forall e, off_keeps (fun p => f p e)) -> off_keeps (fold_left f l).
Proof.
  intros f l H. induction l as [|e l IH]; intros p; [reflexivity|]. cbn [fold_left]. rewrite IH. apply (H e p).
Qed.
Lemma off_tighten_rhs_keeps : forall ft i r, off_keeps (tighten_rhs ft i r).
Proof.
  intros ft i r [[s st] n]. unfold tighten_rhs. cbv zeta. destruct (_ && _).
  - apply off_fold_keeps. intros [k a] [[t st'] n']. unfold rhs_entry. destruct (t_cinact _); [reflexivity|].
    destruct (Qgtb _ _); [apply off_try_ub_keeps|apply off_try_lb_keeps].
  - destruct (_ && _); [|reflexivity]. destruct (find_inf _ _ _ _) as [[k a]|]; [|reflexivity].
    destruct (Qgtb _ _); [apply off_try_ub_keeps|apply off_try_lb_keeps].
Qed.
Lemma off_tighten_lhs_keeps : forall ft i r, off_keeps (tighten_lhs ft i r).
Proof.
  intros ft i r [[s st] n]. unfold tighten_lhs. cbv zeta. destruct (_ && _).
  - apply off_fold_keeps. intros [k a] [[t st'] n']. unfold lhs_entry. destruct (t_cinact _); [reflexivity|].
    destruct (Qgtb _ _); [apply off_try_lb_keeps|apply off_try_ub_keeps].
  - destruct (_ && _); [|reflexivity]. destruct (find_inf _ _ _ _) as [[k a]|]; [|reflexivity].
    destruct (Qgtb _ _); [apply off_try_lb_keeps|apply off_try_ub_keeps].
Qed.
Lemma off_single_row : forall ft i s, off (fst (bound_tightening_single_row ft i s)) = off s.
Proof.
  intros ft i s. unfold bound_tightening_single_row. cbv zeta.
  pose proof (off_tighten_lhs_keeps ft i (row_view s i) (tighten_rhs ft i (row_view s i) (s, UNCHANGED, O))) as X.
  rewrite off_tighten_rhs_keeps in X. destruct (tighten_lhs _ _ _ _) as [[s1 st] n]. cbn [fst] in *. destruct n; exact X.
Qed.
Lemma off_prop_loop : forall ft n ii s, off (fst (prop_loop ft n ii s)) = off s.
Proof.
  intros ft. induction n as [|n IH]; intros ii s; cbn [prop_loop]; destruct (nth_error _ _) as [i|]; try reflexivity.
  destruct (skip_row _ _); [apply IH|].
  pose proof (off_single_row ft i (set_ast i PROPAGATED_THIS_ROUND s)) as X.
  destruct (bound_tightening_single_row _ _ _) as [s1 st]. cbn [fst] in X.
  destruct (HAS_STATUS _ _); [exact X|]. rewrite IH. exact X.
Qed.
Lemma off_change_rhs : forall i v o q s, off (fst (change_rhs_of_ineq i v o q s)) = off s.
Proof.
  intros. unfold change_rhs_of_ineq. destruct (_ && _); [reflexivity|]. cbv zeta. cbn [fst].
  destruct (t_rhs_inf _); (destruct (_ && _); [destruct (Nat.eqb _ _)|]); unfold record, push_dton, set_rt1, set_rhs1; sr; rewrite ?off_ineq2eq; reflexivity.
Qed.
Lemma off_change_lhs : forall i v o q s, off (fst (change_lhs_of_ineq i v o q s)) = off s.
Proof.
  intros. unfold change_lhs_of_ineq. destruct (_ && _); [reflexivity|]. cbv zeta. cbn [fst].
  destruct (t_lhs_inf _); (destruct (_ && _); [destruct (Nat.eqb _ _)|]); unfold record, push_dton, set_rt1, set_lhs1; sr; rewrite ?off_ineq2eq; reflexivity.
Qed.
Lemma off_row_bin : forall g s, off (fst (process_row_bin g s)) = off s.
Proof.
  intros [|i0 l] s; cbn [process_row_bin]; [reflexivity|]. destruct (merge_loop _ _ _) as [m|]; [|reflexivity]. cbv zeta.
  match goal with |- off (fst (let '(_, _) := ?p in _)) = _ => assert (X : off (fst p) = off s) by (destruct (_ && _); [apply off_change_rhs|reflexivity]); destruct p as [s1 st1] end.
  cbn [fst] in X. destruct (N.eqb _ _); [exact X|].
  match goal with |- off (fst (let '(_, _) := ?p in _)) = _ => assert (Y : off (fst p) = off s1) by (destruct (_ && _); [apply off_change_lhs|reflexivity]); destruct p as [s2 st2] end.
  cbn [fst] in Y. destruct (N.eqb _ _); [cbn [fst]; congruence|]. cbn [fst]. rewrite off_foldS; [congruence|].
  intros t j. destruct (Nat.eqb _ _); reflexivity.
Qed.
Lemma off_until_eq : forall st f l s, (forall i s, off (fst (f i s)) = off s) -> off (fst (for_until st f l s)) = off s.
Proof.
  intros st f l s H. apply (for_until_inv st f (fun t => off t = off s)); auto.
  intros t i _ K. rewrite H; auto.
Qed.
Lemma off_check_row : forall i s, off (fst (check_row i s)) = off s.
Proof.
  intros k t. unfold check_row. destruct (_ || _); [reflexivity|].
  destruct (check_activity _ _ _ _) as [|lr rr]; [reflexivity|]. destruct (_ && _); [reflexivity|].
  destruct lr; [|destruct rr; [|reflexivity]]; cbn [fst]; unfold set_lhs1, set_rhs1; sr;
  (rewrite off_foldS; [reflexivity|]); intros; [apply off_lock_lhs|apply off_lock_rhs].
Qed.
Lemma off_dual_loop : forall l s ti st, off (fst (fst (dual_fix_loop l s ti st))) = off s.
Proof.
  induction l as [|k l IH]; intros t ti st; cbn [dual_fix_loop]; [reflexivity|]. destruct (_ || _); [apply IH|].
  assert (Y : off (fst (fst (simple_dual_fix_col k t ti))) = off t).
  { unfold simple_dual_fix_col. cbv zeta. repeat match goal with |- context [if ?b then _ else _] => destruct b end;
    cbn [fst]; rewrite ?off_fix_col; reflexivity. }
  destruct (simple_dual_fix_col k t ti) as [[t1 ti1] st1]. cbn [fst] in Y. rewrite IH. exact Y.
Qed.
Lemma off_inf_steps : forall l s, off (foldS inf_step l s) = off s.
Proof.
  intros l s. apply off_foldS.
  assert (F : forall p k t, off (fix_col_to_inf p k t) = off t).
  { intros p k t. unfold fix_col_to_inf. cbv zeta.
    match goal with |- off ?x = _ => change (off x) with (off (foldS (fun (s : state) (e : nat * Q) => if t_inact (rt s (fst e)) then s else set_row_to_inactive (fst e) 0 s)
      (mAT t k) (record (FIXED_COL_INF p k (if p then lb t k else ub t k) (inf_rows t k)) t))) end.
    rewrite off_foldS; [reflexivity|]. intros u e. destruct (t_inact _); reflexivity. }
  intros t [p k]. unfold inf_step. destruct (Nat.eqb _ _); [|apply F]. destruct (Z.eqb _ _); [apply F|]. destruct (Z.eqb _ _); [apply F|reflexivity].
Qed.
Lemma off_row_bins : forall gs t, off (fst (process_row_bins gs t)) = off t.
Proof.
  induction gs as [|g gs IH]; intros t; cbn [process_row_bins]; [reflexivity|].
  pose proof (off_row_bin g t) as Y. destruct (process_row_bin g t) as [t1 st]. cbn [fst] in Y.
  destruct (N.eqb _ _); [exact Y|]. rewrite IH. exact Y.
Qed.
Lemma off_merge_cols : forall j k q s, off (merge_cols j k q s) = off s.
Proof.
  intros. unfold merge_cols. destruct (if Qgtb q 0 then _ else _) as [[[lbk ubk] lk] uk]. reflexivity.
Qed.
Lemma off_col_pair : forall j k s b, off (fst (fst (col_pair j k s b))) = off s.
Proof.
  intros j k s b. unfold col_pair. cbv zeta. destruct (t_cinact _); [reflexivity|].
  destruct (IS_EQUAL_FEAS_TOL _ _); [cbn [fst]; apply off_merge_cols|].
  destruct (Qgtb (cst s k) _); cbn [andb negb];
  repeat (match goal with |- context [if ?b then _ else _] => destruct b end; cbn [fst andb negb]);
    rewrite ?off_fix_col; reflexivity.
Qed.
Lemma off_col_pairs : forall ks j s b, off (fst (fst (col_pairs j ks s b))) = off s.
Proof.
  induction ks as [|k ks IH]; simpl; intros j s b; [reflexivity|].
  pose proof (off_col_pair j k s b) as X. destruct (col_pair j k s b) as [[s1 b1] res]. cbn [fst] in X.
  destruct res; cbn [fst]; auto. rewrite IH. exact X.
Qed.
Lemma off_recount : forall j s, off (recount j s) = off s.
Proof. intros. unfold recount. apply off_foldS. intros; reflexivity. Qed.
Lemma off_col_bin : forall bin s, off (fst (process_col_bin bin s)) = off s.
Proof.
  induction bin as [|j rest IH]; intros s; simpl; [reflexivity|].
  destruct rest as [|k0 rest0] eqn:ER; [reflexivity|]. rewrite <- ER in *.
  destruct (t_cinact (ct s j)); [apply IH|].
  pose proof (off_col_pairs rest j s false) as X. destruct (col_pairs j rest s false) as [[s1 rec] res]. cbn [fst] in X.
  destruct res; [|
    |exact X]; rewrite IH; (destruct rec; [rewrite off_recount|]; exact X).
Qed.
Lemma off_fold_or : forall X (f : state -> X -> state * status) l s st, (forall s x, off (fst (f s x)) = off s) -> off (fst (fold_or f l s st)) = off s.
Proof.
  intros X f. induction l as [|x l IH]; intros s st H; cbn [fold_or]; [reflexivity|].
  pose proof (H s x) as Y. destruct (f s x) as [s1 st1]. cbn [fst] in Y. rewrite IH; auto.
Qed.

(** ** Either nothing changes or something is gone *)
Definition Kc (s s' : state) : Prop := mono s s' /\ (cst s' = cst s /\ off s' = off s \/ Gone s').
Lemma Kc_refl : forall s, Kc s s.
Proof. intros s. split; [apply mono_refl|auto]. Qed.
Lemma Kc_trans : forall a b c, Kc a b -> Kc b c -> Kc a c.
Proof.
  intros a b c [M1 D1] [M2 D2]. split; [eapply mono_trans; eauto|].
  destruct D2 as [[A B]|G]; [|auto]. destruct D1 as [[C D]|G]; [left; split; congruence|right; eapply Gone_mono; eauto].
Qed.
Lemma Kc_eq : forall s s', mono s s' -> cst s' = cst s -> off s' = off s -> Kc s s'.
Proof. intros s s' M A B. split; auto. Qed.
Lemma Kc_gone : forall s s' k, mono s s' -> (k < nc s)%nat -> t_cinact (ct s' k) = true -> Kc s s'.
Proof. intros s s' k M Hk T. split; auto. right; right. exists k. rewrite (mo_nc _ _ M). auto. Qed.
Lemma Kc_dir : forall s, Inv s -> Kc s (delete_inactive_rows s).
Proof.
  intros s H. pose proof (Keep_dir s H) as [M _]. pose proof (ofr_dir s) as E. unfold ofr in E. injection E as _ _ E3 E4 _ _ _. apply Kc_eq; auto.
Qed.
Lemma Kc_clean : forall s, Inv s -> w_sub s = [] \/ w_ston_rows s = [] ->
  Kc s (delete_inactive_cols_from_A_and_AT (delete_fixed_cols_from_problem s)).
Proof.
  intros s H W. destruct (finish_cols s H W) as [I1 [M1 _]].
  destruct (w_fixed s) as [|k l] eqn:E.
  - destruct (dic_fields (delete_fixed_cols_from_problem s)) as (_ & _ & C & D & _). cbv zeta in *.
    assert (X : delete_fixed_cols_from_problem s = s) by (unfold delete_fixed_cols_from_problem; rewrite E; reflexivity).
    rewrite X in *. apply Kc_eq; auto.
  - destruct (l_fixed s (inv_L s H) k ltac:(rewrite E; left; reflexivity)) as [Hk T].
    apply (Kc_gone s _ k M1 Hk). apply (mo_ci _ _ _ M1). unfold t_cinact. rewrite T. reflexivity.
Qed.

(** ** The explorers *)
Lemma Kc_close_bounds : forall s, Inv s -> w_sub s = [] -> Kc s (fst (remove_variables_with_close_bounds s)).
Proof.
  intros s H WS. unfold remove_variables_with_close_bounds in *.
  assert (X : stp s (fst (for_until INFEASIBLE close_bounds_col (seq 0 (nc s)) s)) /\
              w_sub (fst (for_until INFEASIBLE close_bounds_col (seq 0 (nc s)) s)) = [] /\
              cst (fst (for_until INFEASIBLE close_bounds_col (seq 0 (nc s)) s)) = cst s /\
              off (fst (for_until INFEASIBLE close_bounds_col (seq 0 (nc s)) s)) = off s).
  { apply (for_until_inv INFEASIBLE close_bounds_col (fun t => stp s t /\ w_sub t = [] /\ cst t = cst s /\ off t = off s)).
    - intros t k Hk [S1 [W1 [A1 B1]]]. unfold close_bounds_col.
      destruct (_ || _); cbn [fst]; auto. destruct (IS_EQUAL_FEAS_TOL _ _).
      + cbn [fst]. apply in_seq in Hk. destruct (fix_col_frame t k (fin (lb t k)) (cst t k)) as [_ [B _]].
        split; [|split; [congruence|rewrite cst_fix_col, off_fix_col; auto]]. eapply stp_trans; [exact S1|]. apply stp_fix_col.
        * apply S1.
        * rewrite (stp_nc _ _ S1). lia.
      + destruct (Qgtb _ _); cbn [fst]; auto.
    - auto using stp_refl. }
  destruct (for_until INFEASIBLE close_bounds_col (seq 0 (nc s)) s) as [s1 st]. cbn [fst] in *.
  destruct X as [S1 [W1 [A1 B1]]]. assert (K1 : Kc s s1) by (apply Kc_eq; [apply S1|exact A1|exact B1]).
  destruct (N.eqb _ _); [exact K1|]. eapply Kc_trans; [exact K1|]. apply Kc_clean; [apply S1|auto].
Qed.
Lemma Kc_empty_cols : forall s, Inv s -> Kc s (fst (remove_empty_cols s)).
Proof.
  intros s H. pose proof (empty_cols_spec s H) as SP.
  assert (A : (cst (fst (remove_empty_cols s)) = cst s /\ off (fst (remove_empty_cols s)) = off s) \/
              exists k, (k < nc s)%nat /\ t_cinact (ct (fst (remove_empty_cols s)) k) = true).
  { unfold remove_empty_cols.
    assert (X : forall l t, (forall k, In k l -> (k < nc s)%nat) ->
      (cst t = cst s /\ off t = off s \/ exists k, (k < nc s)%nat /\ t_cinact (ct t k) = true) ->
      let t' := fst (for_until UNBNDORINFEAS remove_empty_col l t) in
      cst t' = cst s /\ off t' = off s \/ exists k, (k < nc s)%nat /\ t_cinact (ct t' k) = true).
    { intros l t HL I. apply (for_until_inv UNBNDORINFEAS remove_empty_col (fun t' => cst t' = cst s /\ off t' = off s \/ exists k, (k < nc s)%nat /\ t_cinact (ct t' k) = true)); [|exact I].
      clear t I. intros t k Hk I.
      assert (C : remove_empty_col k t = (fst (remove_empty_col k t), snd (remove_empty_col k t)) ) by apply surjective_pairing.
      assert (D : cst (fst (remove_empty_col k t)) = cst t /\ off (fst (remove_empty_col k t)) = off t /\ ct (fst (remove_empty_col k t)) = ct t \/
                  t_cinact (ct (fst (remove_empty_col k t)) k) = true).
      { unfold remove_empty_col, close_empty_col. cbv zeta.
        destruct (Qeqb _ _); [|destruct (Qltb _ _); [destruct (t_ub_inf _)|destruct (t_lb_inf _)]]; cbn [fst]; auto; right; unfold record; sr; rewrite upd_same; reflexivity. }
      destruct D as [(D1 & D2 & D3)|D]; [|right; exists k; auto]. rewrite D1, D2, D3. exact I. }
    specialize (X (w_empty_cols s) s). cbv zeta in X.
    destruct (for_until _ _ _ _) as [s1 st]. cbn [fst] in *.
    assert (Y := X ltac:(intros k Hk; apply (l_empty_cols s (inv_L s H) k Hk)) (or_introl (conj eq_refl eq_refl))).
    destruct (N.eqb _ _); exact Y. }
  destruct (remove_empty_cols s) as [s1 st]. destruct SP as [S1 _]. cbn [fst] in *.
  destruct A as [[A B]|[k [Hk T]]]; [apply Kc_eq; auto; apply S1|apply (Kc_gone _ _ k); auto; apply S1].
Qed.
Lemma Kc_empty_rows : forall s, Inv s -> Kc s (fst (remove_empty_rows s)).
Proof.
  intros s H. pose proof (empty_rows_spec s H) as SP.
  assert (A : cst (fst (remove_empty_rows s)) = cst s /\ off (fst (remove_empty_rows s)) = off s).
  { unfold remove_empty_rows.
    assert (X : cst (fst (for_until INFEASIBLE remove_empty_row (w_empty_rows s) s)) = cst s).
    { apply cst_until_eq. intros k t. unfold remove_empty_row. destruct (_ || _); reflexivity. }
    assert (Y : off (fst (for_until INFEASIBLE remove_empty_row (w_empty_rows s) s)) = off s).
    { apply off_until_eq. intros k t. unfold remove_empty_row. destruct (_ || _); reflexivity. }
    destruct (for_until _ _ _ _) as [s1 st]. cbn [fst] in *. destruct (N.eqb _ _); split; assumption. }
  destruct (remove_empty_rows s) as [s1 st]. destruct SP as [S1 _]. apply Kc_eq; [apply S1|apply A|apply A].
Qed.
Lemma cst_stonrow : forall i s, cst (fst (remove_stonrow i s)) = cst s.
Proof.
  intros i s. unfold remove_stonrow. destruct (mA s i) as [|[k a] r] eqn:E; [destruct (t_fixed _); reflexivity|].
  destruct (t_fixed _); [reflexivity|]. destruct (t_eq _).
  - pose proof (cst_fix_col k (fin (rhs s i) / a) (cst s k) s) as X. destruct (fix_col _ _ _ _) as [s1 st]. cbn [fst] in X.
    destruct (N.eqb _ _); exact X.
  - cbv zeta.
    match goal with |- cst (fst (let '(_, _) := ?p in _)) = _ => assert (X : cst (fst p) = cst s) end.
    { destruct (t_rhs_inf _); [reflexivity|]. destruct (Qgtb _ _); [apply cst_update_ub|apply cst_update_lb]. }
    match goal with |- cst (fst (let '(_, _) := ?p in _)) = _ => destruct p as [s1 st1] end. cbn [fst] in X.
    destruct (N.eqb _ _); [exact X|].
    match goal with |- cst (fst (let '(_, _) := ?p in _)) = _ => assert (Y : cst (fst p) = cst s1) end.
    { destruct (t_lhs_inf _); [reflexivity|]. destruct (Qgtb _ _); [apply cst_update_lb|apply cst_update_ub]. }
    match goal with |- cst (fst (let '(_, _) := ?p in _)) = _ => destruct p as [s2 st2] end. cbn [fst] in Y.
    destruct (N.eqb _ _); cbn [fst]; rewrite ?cst_set_inactive; congruence.
Qed.
Lemma off_stonrow : forall i s, off (fst (remove_stonrow i s)) = off s.
Proof.
  intros i s. unfold remove_stonrow. destruct (mA s i) as [|[k a] r] eqn:E; [destruct (t_fixed _); reflexivity|].
  destruct (t_fixed _); [reflexivity|]. destruct (t_eq _).
  - pose proof (off_fix_col k (fin (rhs s i) / a) (cst s k) s) as X. destruct (fix_col _ _ _ _) as [s1 st]. cbn [fst] in X.
    destruct (N.eqb _ _); exact X.
  - cbv zeta.
    match goal with |- off (fst (let '(_, _) := ?p in _)) = _ => assert (X : off (fst p) = off s) end.
    { destruct (t_rhs_inf _); [reflexivity|]. destruct (Qgtb _ _); [apply off_update_ub|apply off_update_lb]. }
    match goal with |- off (fst (let '(_, _) := ?p in _)) = _ => destruct p as [s1 st1] end. cbn [fst] in X.
    destruct (N.eqb _ _); [exact X|].
    match goal with |- off (fst (let '(_, _) := ?p in _)) = _ => assert (Y : off (fst p) = off s1) end.
    { destruct (t_lhs_inf _); [reflexivity|]. destruct (Qgtb _ _); [apply off_update_lb|apply off_update_ub]. }
    match goal with |- off (fst (let '(_, _) := ?p in _)) = _ => destruct p as [s2 st2] end. cbn [fst] in Y.
    destruct (N.eqb _ _); cbn [fst]; rewrite ?off_set_inactive; congruence.
Qed.
Lemma Kc_ston_pass : forall b l s, Inv s -> (forall i, In i l -> In i (w_ston_rows s)) -> Kc s (fst (ston_pass b l s)).
Proof.
  induction l as [|i l IH]; intros s H HL; simpl; [apply Kc_refl|].
  destruct (if b then _ else _) eqn:SK.
  { apply IH; auto. intros; apply HL; simpl; auto. }
  assert (T : t_inact (rt s i) = false).
  { destruct b; apply orb_false_iff in SK; tauto. }
  pose proof (remove_stonrow_stp s i H (HL i (or_introl eq_refl)) T) as X.
  pose proof (cst_stonrow i s) as Y1. pose proof (off_stonrow i s) as Y2.
  destruct (remove_stonrow i s) as [s1 st]. destruct X as [S1 F1]. cbn [fst] in Y1, Y2.
  assert (Y : Kc s s1) by (apply Kc_eq; auto; apply S1).
  destruct (N.eqb st INFEASIBLE); [exact Y|]. eapply Kc_trans; [exact Y|]. apply IH; [apply S1|].
  intros j Hj. destruct F1 as [_ F1]. rewrite F1. apply HL; simpl; auto.
Qed.
Lemma Kc_ston_rows : forall s, Inv s -> w_sub s = [] -> Kc s (fst (remove_ston_rows s)).
Proof.
  intros s H WS. unfold remove_ston_rows. destruct (w_ston_rows s) as [|i0 l0] eqn:EL; [apply Kc_refl|].
  rewrite <- EL. set (l := w_ston_rows s).
  pose proof (ston_pass_stp true l s H (fun i X => X)) as P1. pose proof (Kc_ston_pass true l s H (fun i X => X)) as K1.
  destruct (ston_pass true l s) as [s1 st1]. destruct P1 as [S1 [F1 E1]]. cbn [fst] in K1.
  destruct (N.eqb st1 INFEASIBLE); [exact K1|].
  assert (HL1 : forall i, In i l -> In i (w_ston_rows s1)) by (destruct F1 as [_ ->]; auto).
  pose proof (ston_pass_stp false l s1 (st_inv _ _ S1) HL1) as P2. pose proof (Kc_ston_pass false l s1 (st_inv _ _ S1) HL1) as K2.
  destruct (ston_pass false l s1) as [s2 st2]. destruct P2 as [S2 [F2 E2]]. cbn [fst] in K2.
  pose proof (Kc_trans _ _ _ K1 K2) as K. destruct (N.eqb st2 INFEASIBLE); [exact K|]. cbn [fst].
  set (s3 := set_w_ston_rows [] s2).
  assert (I3 : Inv s3) by (apply clear_ston_rows; apply S2).
  assert (K3 : Kc s2 s3) by (apply Kc_eq; [apply mono_set_w_ston|reflexivity|reflexivity]).
  pose proof (Kc_dir s3 I3) as K4. destruct (stp_dir s3 I3) as [S4 [[_ [FS _]] _]].
  eapply Kc_trans; [exact K|]. eapply Kc_trans; [exact K3|]. eapply Kc_trans; [exact K4|].
  apply Kc_clean; [apply S4|]. left. rewrite FS. unfold s3. sr. destruct F1 as [f1 _], F2 as [f2 _]. congruence.
Qed.
Lemma Kc_check_acts : forall s, Inv s -> Kc s (fst (check_activities s)).
Proof.
  intros s H. pose proof (l_acts s (inv_L s H)) as HW. unfold check_activities.
  pose proof (for_until_inv INFEASIBLE check_row (fun t => stp s t) (w_acts s) s) as X.
  pose proof (cst_until_eq INFEASIBLE check_row (w_acts s) s cst_check_row) as Y1.
  pose proof (off_until_eq INFEASIBLE check_row (w_acts s) s off_check_row) as Y2.
  destruct (for_until INFEASIBLE check_row (w_acts s) s) as [s1 st]. cbn [fst] in X, Y1, Y2.
  assert (S1 : stp s s1).
  { apply X; [|apply stp_refl; auto]. intros t i Hi St. destruct (check_row_stp t i) as [A B]; [apply St| |].
    - rewrite (stp_nr _ _ St). auto.
    - eapply stp_trans; eauto. }
  assert (K1 : Kc s s1) by (apply Kc_eq; [apply S1|exact Y1|exact Y2]).
  destruct (N.eqb _ _); [exact K1|]. eapply Kc_trans; [exact K1|apply Kc_dir, S1].
Qed.
Lemma Kc_dual_fix : forall s, Inv s -> w_sub s = [] -> Kc s (fst (simple_dual_fix s)).
Proof.
  intros s H WS. unfold simple_dual_fix.
  pose proof (dual_fix_loop_stp (seq 0 (nc s)) s [] UNCHANGED H) as X.
  pose proof (cst_dual_loop (seq 0 (nc s)) s [] UNCHANGED) as A. pose proof (off_dual_loop (seq 0 (nc s)) s [] UNCHANGED) as B.
  destruct (dual_fix_loop (seq 0 (nc s)) s [] UNCHANGED) as [[s1 ti] st]. cbn [fst] in A, B.
  destruct X as [S1 [F1 T1]].
  { intros k Hk. apply in_seq in Hk. lia. }
  { intros e []. }
  destruct (inf_steps_stp ti s1 (st_inv _ _ S1)) as [S2 F2].
  { rewrite (stp_nc _ _ S1). auto. }
  pose proof (cst_inf_steps ti s1) as A2. pose proof (off_inf_steps ti s1) as B2. cbv zeta. cbn [fst].
  set (s2 := foldS inf_step ti s1) in *.
  destruct (stp_dir s2 (st_inv _ _ S2)) as [S3 [F3 W3]].
  assert (K2 : Kc s s2).
  { apply Kc_eq; [eapply mono_trans; [apply S1|apply S2]|congruence|congruence]. }
  eapply Kc_trans; [exact K2|]. eapply Kc_trans; [apply Kc_dir, S2|].
  apply Kc_clean; [apply S3|]. left. destruct F1 as [f1 _], F2 as [_ [f2 _]], F3 as [_ [f3 _]]. congruence.
Qed.

(** ** Singleton columns *)
Lemma sub_now_ct : forall k r a v s, t_cinact (ct (sub_col_now k (sub_var_in_obj r k a v s)) k) = true.
Proof. intros. unfold sub_col_now, setAT. sr. rewrite upd_same. unfold t_cinact, tag_sub. apply orb_true_r. Qed.
Lemma Kc_colston_eq : forall i k a u v s, (k < nc s)%nat ->
  mono s (fst (process_colston_eq i k a u v s)) -> Kc s (fst (process_colston_eq i k a u v s)).
Proof.
  intros i k a u v s Hk. unfold process_colston_eq. destruct (_ && _); [intros _; apply Kc_refl|]. cbv zeta.
  pose proof (sub_now_ct k (row_view s i) a (fin (rhs s i)) s) as E4.
  set (s1 := sub_col_now k (sub_var_in_obj (row_view s i) k a (fin (rhs s i)) s)) in *. clearbody s1.
  destruct (_ && _); [intros M; apply (Kc_gone _ _ k M Hk); exact E4|]. cbn [fst].
  match goal with |- context [handle_impl_free_eq ?b i k a ?c s1] =>
    pose proof (ct_eq_side b i k a c s1) as E5; set (s2 := handle_impl_free_eq b i k a c s1) in *; clearbody s2 end.
  rewrite <- E5 in E4.
  intros M. apply (Kc_gone _ _ k M Hk). (destruct (Z.eqb _ _); [|destruct (_ && _)]); assumption.
Qed.
Lemma ct_push_ston : forall i t, ct (push_if_ston i t) = ct t.
Proof. intros. unfold push_if_ston. destruct (Z.eqb _ _); reflexivity. Qed.
Lemma ct_close_rec : forall i w r t, ct (set_row_to_inactive i w (record r t)) = ct t.
Proof. intros. unfold set_row_to_inactive. reflexivity. Qed.
Lemma Kc_colston_ineq : forall i k a u v s, (k < nc s)%nat ->
  mono s (fst (process_colston_ineq i k a u v s)) -> Kc s (fst (process_colston_ineq i k a u v s)).
Proof.
  intros i k a u v s Hk.
  assert (P : forall x (st : status), mono s (fst (push_if_ston i (fix_col_ston i k x a s), st)) -> Kc s (fst (push_if_ston i (fix_col_ston i k x a s), st))).
  { intros x st M. apply (Kc_gone _ _ k M Hk). cbn [fst].
    assert (C : t_cinact (ct (fix_col_ston i k x a s) k) = true) by (rewrite ct_fix_ston; reflexivity).
    revert C. clear M. generalize (fix_col_ston i k x a s) as t. intros t C. rewrite ct_push_ston. exact C. }
  assert (R : forall w r row side (st : status), mono s (fst (set_row_to_inactive i w (record r (sub_col_now k (sub_var_in_obj row k a side s))), st)) ->
    Kc s (fst (set_row_to_inactive i w (record r (sub_col_now k (sub_var_in_obj row k a side s))), st))).
  { intros w r row side st M. apply (Kc_gone _ _ k M Hk). cbn [fst]. rewrite ct_close_rec. exact (sub_now_ct k row a side s). }
  assert (C : forall b (st : status), mono s (fst (close_row b i s, st)) -> Kc s (fst (close_row b i s, st))).
  { intros b st M. apply (Kc_eq _ _ M); [apply cst_close_row|apply off_close_row]. }
  unfold process_colston_ineq. cbv zeta.
  repeat match goal with |- mono s (fst (if ?b then _ else _)) -> _ => destruct b end;
  lazymatch goal with
  | |- mono s (fst (push_if_ston _ _, _)) -> _ => apply P
  | |- mono s (fst (set_row_to_inactive _ _ _, _)) -> _ => apply R
  | |- mono s (fst (close_row _ _ _, _)) -> _ => apply C
  | |- mono s (fst (s, _)) -> _ => intros _; apply Kc_refl
  end.
Qed.
Lemma Kc_ston_col : forall s k, Inv s -> ready s k -> Kc s (fst (ston_col s k)).
Proof.
  intros s k H [Hk [C1 Tk]].
  pose proof (ston_col_ok s k H Hk C1 Tk) as X. destruct (ston_col s k) as [s' st] eqn:ES. destruct X as [[_ M _] _].
  cbn [fst]. revert M. replace s' with (fst (ston_col s k)) by (rewrite ES; reflexivity). clear s' st ES.
  unfold ston_col. destruct (mAT s k) as [|[i a] r] eqn:EK; [intros M; apply Kc_eq; [exact M|reflexivity|reflexivity]|].
  destruct (t_inact (rt s i)) eqn:Ti; cbn [orb]; [intros _; apply Kc_refl|].
  destruct (Z.leb _ _); [intros _; apply Kc_refl|]. cbv zeta.
  destruct (t_eq _); [apply Kc_colston_eq|apply Kc_colston_ineq]; auto.
Qed.
Lemma Kc_fold_ston : forall l s st, Inv s -> NoDup l -> (forall k, In k l -> ready s k) ->
  Kc s (fst (fold_or ston_col l s st)).
Proof.
  induction l as [|k l IH]; intros s st H ND HR; cbn [fold_or]; [apply Kc_refl|].
  destruct (HR k (or_introl eq_refl)) as [Hk [C1 Tk]].
  pose proof (ston_col_ok s k H Hk C1 Tk) as X. pose proof (Kc_ston_col s k H (HR k (or_introl eq_refl))) as Y.
  destruct (ston_col s k) as [s1 st1]. destruct X as [S1 [[F1 F2 F3] ST]]. cbn [fst] in Y.
  inversion ND; subst. eapply Kc_trans; [exact Y|]. apply IH; [apply S1|assumption|].
  intros j Hj. destruct (HR j (or_intror Hj)) as [A [B C]].
  destruct (F3 j) as [E1 [E2 E3]]; [intros ->; contradiction|].
  unfold ready. rewrite (stp_nc _ _ S1), E1, E2. auto.
Qed.
Lemma Kc_ston_cols1 : forall s, Inv s -> quiet s -> Kc s (fst (remove_ston_cols__ s)).
Proof.
  intros s H [Q1 Q2 Q3]. unfold remove_ston_cols__. cbv zeta.
  set (s0 := refresh_ston_cols s).
  assert (I0 : Inv s0) by (apply refresh_Inv; auto).
  assert (K0 : Kc s s0).
  { apply Kc_eq; [|reflexivity|reflexivity]. unfold s0, refresh_ston_cols. constructor; sr; auto; intros; lia. }
  assert (RD : forall k, In k (w_ston_cols s0) -> ready s0 k).
  { intros k Hk. unfold s0, refresh_ston_cols in Hk. sr in Hk. apply filter_In in Hk.
    destruct Hk as [Hk C]. apply Z.eqb_eq in C. destruct (l_ston_cols s (inv_L s H) k Hk) as [A _].
    split; auto. split; auto. destruct (t_cinact (ct s0 k)) eqn:T; auto. exfalso.
    destruct (l_pend s (inv_L s H) k A T) as [X|X].
    - rewrite C. discriminate.
    - rewrite Q2 in X. contradiction.
    - rewrite Q3 in X. contradiction. }
  pose proof (ston_pass_ok (w_ston_cols s0) s0 UNCHANGED I0 (l_ston_cols_nd _ (inv_L _ I0)) RD) as X.
  pose proof (Kc_fold_ston (w_ston_cols s0) s0 UNCHANGED I0 (l_ston_cols_nd _ (inv_L _ I0)) RD) as Y.
  destruct (fold_or ston_col (w_ston_cols s0) s0 UNCHANGED) as [s1 st]. destruct X as [S1 _]. cbn [fst] in *.
  eapply Kc_trans; [exact K0|]. eapply Kc_trans; [exact Y|]. apply Kc_dir, S1.
Qed.
Lemma Kc_ston_cols : forall s, Inv s -> quiet s -> Kc s (fst (remove_ston_cols s)).
Proof.
  intros s H Q. unfold remove_ston_cols.
  assert (B : (mu s < S (2 * nc s + nr s))%nat) by (pose proof (mu_le s); lia).
  revert B. generalize (S (2 * nc s + nr s)). intros n. revert s H Q.
  induction n as [|n IH]; intros s H Q B; [lia|]. cbn [ston_cols_loop].
  pose proof (ston_cols_pass_spec s H Q) as X. pose proof (Kc_ston_cols1 s H Q) as Y.
  destruct (remove_ston_cols__ s) as [s1 st]. destruct X as [S1 [Q1 ST]]. cbn [fst] in Y.
  destruct (N.eqb st REDUCED) eqn:EN; [|exact Y]. apply N.eqb_eq in EN. subst st.
  destruct ST as [E|[E|[_ MU]]]; [discriminate|discriminate|].
  eapply Kc_trans; [exact Y|]. apply IH; [apply S1|exact Q1|lia].
Qed.
Lemma cst_next_round : forall s, cst (next_round s) = cst s.
Proof. intros. unfold next_round. cbv zeta. sr. rewrite cst_foldS by (intros; reflexivity). apply cst_foldS. intros; reflexivity. Qed.
Lemma off_next_round : forall s, off (next_round s) = off s.
Proof. intros. unfold next_round. cbv zeta. sr. rewrite off_foldS by (intros; reflexivity). apply off_foldS. intros; reflexivity. Qed.
Lemma Kc_propagate : forall b s, Inv s -> w_sub s = [] -> Kc s (fst (propagate_primal b s)).
Proof.
  intros b s H WS. unfold propagate_primal. cbv zeta.
  pose proof (prop_loop_spec b (length (w_acts s) + 2 * nr s) 0 s H) as X.
  pose proof (cst_prop_loop b (length (w_acts s) + 2 * nr s) 0 s) as A. pose proof (off_prop_loop b (length (w_acts s) + 2 * nr s) 0 s) as A'.
  destruct (prop_loop b _ 0 s) as [s1 st]. cbn [fst] in A, A'.
  destruct X as [P E]. { pose proof (lp_bound s). lia. }
  destruct P as [S1 R1 U1 T1 _].
  assert (K1 : Kc s s1) by (apply Kc_eq; [apply S1|exact A|exact A']).
  destruct (N.eqb st INFEASIBLE); [exact K1|].
  pose proof (next_round_same s1) as SN. set (s2 := next_round s1) in *.
  assert (S2 : stp s s2). { eapply stp_trans; [exact S1|]. apply stp_same; [apply S1|auto]. }
  assert (K2 : Kc s1 s2) by (apply Kc_eq; [apply mono_same; exact SN|apply cst_next_round|apply off_next_round]).
  assert (W2 : w_sub s2 = [] \/ w_ston_rows s2 = []) by (left; rewrite (ss_w3 _ _ SN); congruence).
  pose proof (Kc_clean s2 (st_inv _ _ S2) W2) as K3. destruct (finish_cols s2 (st_inv _ _ S2) W2) as [I3 _].
  pose proof (Kc_empty_rows _ I3) as K4.
  pose proof (Kc_trans _ _ _ (Kc_trans _ _ _ K1 K2) (Kc_trans _ _ _ K3 K4)) as K.
  destruct (remove_empty_rows _) as [s4 st4]. cbn [fst] in K. destruct (N.eqb _ _); exact K.
Qed.
Lemma Kc_par_rows : forall s, Inv s -> Nx s -> quiet s -> w_empty_rows s = [] -> Kc s (fst (remove_parallel_rows s)).
Proof.
  intros s H NX [Q1 Q2 Q3] WE. unfold remove_parallel_rows, remove_parallel_rows_with.
  pose proof (hash_bins_ok (mA s) (fun i => t_inact (rt s i)) (nr s)) as BO.
  set (bins := hash_bins _ _ _) in *.
  pose proof (row_bins_stp (groups_of (mA s) bins) s H (groups_nd (mA s) (fun i => t_inact (rt s i)) bins (bo_nd _ _ _ BO))) as X.
  pose proof (cst_row_bins (groups_of (mA s) bins) s) as A. pose proof (off_row_bins (groups_of (mA s) bins) s) as A'.
  destruct (process_row_bins (groups_of (mA s) bins) s) as [s1 st].
  cbn [fst] in A, A'. destruct X as [S1 [F1 E]].
  { intros g j Hg Hj. apply groups_in in Hg. destruct Hg as [b [Hb ->]].
    assert (Hj' := fpr_in _ _ _ Hj). pose proof (bo_lt _ _ _ BO b j Hb Hj') as LT.
    destruct b as [|f l]; [contradiction|].
    assert (Tf := bo_hd _ _ _ BO f l Hb). cbv beta in Tf.
    assert (Hf : (f < nr s)%nat) by (apply (bo_lt _ _ _ BO (f :: l)); simpl; auto).
    assert (Nf : mA s f <> []).
    { apply rsz_nempty; auto. intros R0. pose proof (l_empty_rows_c s (inv_L s H) f Hf Tf R0) as X.
      rewrite WE in X. contradiction. }
    assert (Nj : mA s j <> []).
    { intros X. apply fpr_par in Hj. rewrite X in Hj. destruct (mA s f); [auto|discriminate]. }
    split; auto. split; auto. destruct (t_inact (rt s j)) eqn:T; auto. exfalso.
    destruct (Z.eq_dec (rsz s j) (-1)) as [R|R]; [apply Nj, (nx_dead s NX); auto|].
    assert (X : In j (w_rows s)) by (apply (l_rows s (inv_L s H)); auto). rewrite Q1 in X. contradiction. }
  cbn [fst]. eapply Kc_trans; [apply Kc_eq; [apply S1|exact A|exact A']|]. apply Kc_dir, S1.
Qed.
Lemma Kc_par_cols : forall s, Inv s -> w_ston_rows s = [] -> Kc s (fst (remove_parallel_cols s)).
Proof.
  intros s H WT. unfold remove_parallel_cols, remove_parallel_cols_with.
  pose proof (hash_bins_ok (mAT s) (fun i => t_cinact (ct s i)) (nc s)) as BO.
  set (bins := hash_bins _ _ _) in *.
  pose proof (col_groups_stp (groups_of (mAT s) bins) s UNCHANGED H) as X.
  pose proof (cst_fold_or _ (fun s g => process_col_bin g s) (groups_of (mAT s) bins) s UNCHANGED (fun t g => cst_col_bin g t)) as A. pose proof (off_fold_or _ (fun s g => process_col_bin g s) (groups_of (mAT s) bins) s UNCHANGED (fun t g => off_col_bin g t)) as A'.
  destruct (fold_or _ _ s UNCHANGED) as [s1 st]. destruct X as [S1 [[F1 F2] E]].
  { intros g k Hg Hk. apply groups_in in Hg. destruct Hg as [b [Hb ->]].
    apply (bo_lt _ _ _ BO b k Hb). eapply fpr_in; eauto. }
  cbn [fst] in *. eapply Kc_trans; [apply Kc_eq; [apply S1|exact A|exact A']|]. apply Kc_clean; [apply S1|right; congruence].
Qed.

(** ** Reached states *)
Lemma common_costs : forall stgs f s, Ok s -> In f (common_steps stgs) -> Kc s (fst (f s)).
Proof.
  intros stgs f s [H Q N] IN. assert (Q3 := q_sub _ Q).
  unfold common_steps in IN. rewrite !in_app_iff in IN. destruct IN as [IN|[IN|[IN|IN]]].
  - destruct IN as [<-|[<-|[<-|[<-|[]]]]].
    + apply Kc_close_bounds; auto.
    + apply Kc_empty_cols; auto.
    + apply Kc_ston_rows; auto.
    + apply Kc_empty_rows; auto.
  - destruct (dual_fix_on stgs); [|contradiction]. destruct IN as [<-|[]]. apply Kc_dual_fix; auto.
  - destruct (ston_cols_on stgs); [|contradiction]. destruct IN as [<-|[]]. apply Kc_ston_cols; auto.
  - destruct (primal_propagation_on stgs); [|contradiction]. destruct IN as [<-|[<-|[]]].
    + apply Kc_check_acts; auto.
    + apply Kc_propagate; auto.
Qed.
Lemma reached_costs : forall stgs fits P s, wf_input P -> reached stgs fits P s -> Kc (new_presolver P) s.
Proof.
  intros stgs fits P s WF R.
  induction R as [|f s s' st IN R IH E NT|s s' st ON C R IH E NT|s s' st ON C R IH E NT|s s' st ON R IH E NT TN].
  - apply Kc_refl.
  - pose proof (common_costs stgs f s (proj1 (reached_ok _ _ _ _ WF R)) IN) as X. rewrite E in X. eapply Kc_trans; eauto.
  - destruct (reached_ok _ _ _ _ WF R) as [[H Q N] _].
    pose proof (Kc_par_rows s H N Q C) as X. rewrite E in X. eapply Kc_trans; eauto.
  - destruct (reached_ok _ _ _ _ WF R) as [[H Q N] _].
    pose proof (Kc_par_cols s H C) as X. rewrite E in X. eapply Kc_trans; eauto.
  - destruct (reached_ok _ _ _ _ WF R) as [[H Q N] _].
    pose proof (dton_idle fits s H Q) as X. rewrite E in X. cbn [fst] in X.
    assert (PN : pend1 s) by (intros i; rewrite (q_rows _ Q); contradiction).
    pose proof (dton_spec fits s H (q_sub _ Q) PN) as D. rewrite E in D. destruct D as [_ D]. destruct (D TN) as (_ & M & _).
    eapply Kc_trans; [exact IH|]. split; [exact M|]. destruct (X TN) as [(_ & A & B & _)|G]; auto.
Qed.
Lemma UNCHANGED_same : forall stgs fits clock fuel P r, wf_input P -> run_presolver stgs fits clock fuel P = Some r ->
  tiny (res_state r) = false -> res_reduced r = true -> res_status r = UNCHANGED ->
  same_matrix (lp_of_input P) (reduced_lp (res_state r)) /\ same_costs (lp_of_input P) (reduced_lp (res_state r)).
Proof.
  intros stgs fits clock fuel P r WF H T RR U.
  destruct (UNCHANGED_reached _ _ _ _ _ _ WF H T RR U) as [s [R [EL [SM NG]]]]. rewrite EL. split; [exact SM|].
  destruct (reached_costs _ _ _ _ WF R) as [_ [[A B]|G]]; [|contradiction].
  destruct (init_fields P) as (_ & _ & _ & CS & OF & _).
  split; cbn [lp_c lp_off reduced_lp lp_of_input]; [intros; rewrite A, CS; reflexivity|rewrite B, OF; reflexivity].
Qed.
(** An answer UNCHANGED comes from a run that reached its end. *)
Lemma UNCHANGED_reduced : forall stgs fits clock fuel P r, run_presolver stgs fits clock fuel P = Some r ->
  res_status r = UNCHANGED -> res_reduced r = true.
Proof.
  intros stgs fits clock fuel P r H U. unfold run_presolver, run_presolver_gen in H.
  destruct (main_loop _ _ _ _ _ _ _ _ _) as [[[s1 st] k]|]; [|discriminate].
  destruct (N.eqb st UNCHANGED) eqn:E; cbn [negb] in H; injection H as <-; [reflexivity|].
  cbn [res_status] in U. rewrite U in E. discriminate.
Qed.
Lemma UNCHANGED_same' : forall stgs fits clock fuel P r, wf_input P -> run_presolver stgs fits clock fuel P = Some r ->
  tiny (res_state r) = false -> res_status r = UNCHANGED ->
  same_matrix (lp_of_input P) (reduced_lp (res_state r)) /\ same_costs (lp_of_input P) (reduced_lp (res_state r)).
Proof. intros. eapply UNCHANGED_same; eauto. eapply UNCHANGED_reduced; eauto. Qed.
