(** The ghost flag of near-zero fill-in is never reset. *)
From Coq Require Import NArith.
From Verif Require Import M_Num S_LP M_Driver M_State M_Act M_Core M_Simple M_StonCols M_Dton
  M_Parallel M_Propagate L_State.

Definition T (s : state) : Prop := tiny s = true.
Definition T1 {A} (p : state * A) : Prop := T (fst p).
Definition T2 {A B} (p : state * A * B) : Prop := T (fst (fst p)).

Lemma T_foldS : forall X (f : state -> X -> state) l s,
  (forall t x, T t -> T (f t x)) -> T s -> T (foldS f l s).
Proof. intros. apply foldS_inv with (P := T); auto. Qed.

Create HintDb tn.
Ltac peel := match goal with |- T (_ ?s) => change (T s) end.
Ltac tn :=
  repeat first
  [ assumption
  | reflexivity
  | progress cbv beta zeta
  | match goal with
    | |- T1 (_, _) => unfold T1; cbn [fst]
    | |- T2 (_, _, _) => unfold T2; cbn [fst]
    | |- T (fst ?p) => change (T1 p)
    | |- _ (if ?b then _ else _) => destruct b
    | |- T1 (match ?x with _ => _ end) =>
        lazymatch type of x with
        | (state * _)%type =>
            let H := fresh in
            first [assert (H : T1 x) by tn | assert (H : T2 x) by tn];
            destruct x; unfold T1, T2 in H; cbn [fst] in H
        | _ => destruct x
        end
    | |- T2 (match ?x with _ => _ end) =>
        lazymatch type of x with
        | (state * _ * _)%type =>
            let H := fresh in
            first [assert (H : T2 x) by tn | assert (H : T1 x) by tn];
            destruct x; unfold T1, T2 in H; cbn [fst] in H
        | (state * _)%type =>
            let H := fresh in
            first [assert (H : T1 x) by tn | assert (H : T2 x) by tn];
            destruct x; unfold T1, T2 in H; cbn [fst] in H
        | _ => destruct x
        end
    | |- T (match ?x with _ => _ end) => destruct x
    | |- T (foldS _ _ _) => apply T_foldS; [intros|]
    end
  | solve [auto with tn]
  | progress (auto 1 with tn)
  | peel
  | match goal with
    | |- T (?f _ _ _ _ _ _ _ _ _) => eapply (fun X => X); solve [eauto 3 with tn]
    end ].

Lemma tn_lock_rhs : forall d j a s, T s -> T (lock_rhs d j a s).
Proof. intros. unfold lock_rhs. tn. Qed.
Lemma tn_lock_lhs : forall d j a s, T s -> T (lock_lhs d j a s).
Proof. intros. unfold lock_lhs. tn. Qed.
#[export] Hint Resolve tn_lock_rhs tn_lock_lhs : tn.
Lemma tn_lock_coeff : forall d r l j a s, T s -> T (lock_coeff d r l j a s).
Proof. intros. unfold lock_coeff. destruct r, l; auto with tn. Qed.
#[export] Hint Resolve tn_lock_coeff : tn.
Lemma tn_l1 : forall r b s, T s -> T (update_locks_eq_to_ineq r b s).
Proof. intros. unfold update_locks_eq_to_ineq. tn. Qed.
Lemma tn_l2 : forall r b s, T s -> T (update_locks_ineq_to_eq r b s).
Proof. intros. unfold update_locks_ineq_to_eq. tn. Qed.
Lemma tn_l3 : forall r b s, T s -> T (count_locks_one_column r b s).
Proof. intros. unfold count_locks_one_column. apply T_foldS; [|exact H]. intros. auto with tn. Qed.
#[export] Hint Resolve tn_l1 tn_l2 tn_l3 : tn.

Lemma tn_note : forall i alt s, T s -> T (note_altered i alt s).
Proof. intros. destruct (acts_only_note i alt s) as [x [y ->]]. exact H. Qed.
Lemma tn_bc : forall col o n f l s, T s -> T (update_activities_bound_change col o n f l s).
Proof. intros. destruct (acts_only_bound_change col o n f l s) as [x [y ->]]. exact H. Qed.
Lemma tn_fc : forall col u l v b1 b2 b3 b4 s, T s -> T (update_activities_fixed_col col u l v b1 b2 b3 b4 s).
Proof. intros. destruct (acts_only_fixed_col col u l v b1 b2 b3 b4 s) as [x [y ->]]. exact H. Qed.
#[export] Hint Resolve tn_note tn_bc tn_fc : tn.

Lemma tn_fix_col : forall k v c s, T s -> T (fst (fix_col k v c s)).
Proof. intros. unfold fix_col. cbv zeta. destruct (_ || _); cbn [fst]; auto. apply tn_fc. exact H. Qed.
Lemma tn_row_inactive : forall i v s, T s -> T (set_row_to_inactive i v s).
Proof. intros. exact H. Qed.
Lemma tn_inf : forall p k s, T s -> T (fix_col_to_inf p k s).
Proof.
  intros. unfold fix_col_to_inf. cbv zeta. do 5 peel. apply T_foldS; [|exact H].
  intros t x Ht. destruct (t_inact _); auto.
Qed.
Lemma tn_ulb : forall k v i s, T s -> T (fst (update_lb k v i s)).
Proof.
  intros. unfold update_lb. cbv zeta. destruct (_ && _); auto. destruct (_ || _); auto. cbn [fst].
  repeat peel. apply tn_bc. exact H.
Qed.
Lemma tn_uub : forall k v i s, T s -> T (fst (update_ub k v i s)).
Proof.
  intros. unfold update_ub. cbv zeta. destruct (_ && _); auto. destruct (_ || _); auto. cbn [fst].
  repeat peel. apply tn_bc. exact H.
Qed.
#[export] Hint Resolve tn_fix_col tn_row_inactive tn_inf tn_ulb tn_uub : tn.
Lemma tn_crhs : forall i v o q s, T s -> T (fst (change_rhs_of_ineq i v o q s)).
Proof.
  intros. unfold change_rhs_of_ineq. cbv zeta. destruct (_ && _); auto. cbn [fst]. peel.
  set (s1 := if t_rhs_inf _ then _ else _).
  assert (T s1) by (unfold s1; destruct (t_rhs_inf _); auto with tn).
  destruct (_ && _); [|exact H0]. destruct (_ =? _)%nat; exact H0.
Qed.
Lemma tn_clhs : forall i v o q s, T s -> T (fst (change_lhs_of_ineq i v o q s)).
Proof.
  intros. unfold change_lhs_of_ineq. cbv zeta. destruct (_ && _); auto. cbn [fst]. peel.
  set (s1 := if t_lhs_inf _ then _ else _).
  assert (T s1) by (unfold s1; destruct (t_lhs_inf _); auto with tn).
  destruct (_ && _); [|exact H0]. destruct (_ =? _)%nat; exact H0.
Qed.
#[export] Hint Resolve tn_crhs tn_clhs : tn.
Lemma tn_delete_row : forall s i, T s -> T (delete_row s i).
Proof.
  intros. unfold delete_row. destruct (_ =? _)%Z; [exact H|]. cbv zeta. peel. apply T_foldS; [|exact H].
  intros t x Ht. destruct (_ =? _)%Z; auto. apply tn_lock_coeff. exact Ht.
Qed.
Lemma tn_compact_col : forall s i, T s -> T (compact_col s i).
Proof.
  intros. unfold compact_col. destruct (_ || _); auto. destruct (_ =? _)%Z; [exact H|]. cbv zeta. peel.
  destruct (_ =? _)%Z; exact H.
Qed.
Lemma tn_delete_col : forall s i, T s -> T (delete_col s i).
Proof.
  intros. unfold delete_col. cbv zeta. peel. apply T_foldS; [|exact H].
  intros t x Ht. destruct (_ =? _)%Z; auto.
Qed.
Lemma tn_compact_row : forall s i, T s -> T (compact_row s i).
Proof.
  intros. unfold compact_row. destruct (_ || _); auto. destruct (_ =? _)%Z; [exact H|]. cbv zeta. peel. peel.
  destruct (_ =? _)%Z; [exact H|]. destruct (_ && _); exact H.
Qed.
Lemma tn_dir : forall s, T s -> T (delete_inactive_rows s).
Proof.
  intros. unfold delete_inactive_rows. destruct (w_rows s); auto. peel.
  apply T_foldS; [intros; apply tn_compact_col; auto|]. apply T_foldS; auto. intros; apply tn_delete_row; auto.
Qed.
Lemma tn_dic : forall s, T s -> T (delete_inactive_cols_from_A_and_AT s).
Proof.
  intros. unfold delete_inactive_cols_from_A_and_AT. cbv zeta. do 2 peel.
  apply T_foldS; [intros; apply tn_compact_row; auto|].
  apply T_foldS; [intros; apply tn_delete_col; auto|]. apply T_foldS; [intros; apply tn_delete_col; auto|auto].
Qed.
Lemma tn_shift : forall v s e, T s -> T (shift_sides v s e).
Proof.
  intros. unfold shift_sides. cbv zeta. destruct (t_inact _); auto. peel.
  set (s1 := if t_lhs_inf _ then _ else _).
  assert (T s1) by (unfold s1; destruct (t_lhs_inf _); exact H).
  destruct (t_rhs_inf _); exact H0.
Qed.
Lemma tn_dfc : forall s, T s -> T (delete_fixed_cols_from_problem s).
Proof.
  intros. apply T_foldS; auto. intros t x Ht. unfold delete_fixed_col_from_problem.
  destruct (Qeqb _ _); auto. unfold fix_var_in_obj. peel. apply T_foldS; auto.
  intros; apply tn_shift; auto.
Qed.
#[export] Hint Resolve tn_dir tn_dic tn_dfc : tn.

Lemma tn_for_until : forall st f l s, (forall i t, T t -> T (fst (f i t))) -> T s ->
  T (fst (for_until st f l s)).
Proof.
  induction l as [|i l IH]; simpl; intros s F H; auto. pose proof (F i s H) as X.
  destruct (f i s) as [s1 st1]. cbn [fst] in X. destruct (N.eqb _ _); auto.
Qed.
Lemma tn_fold_or : forall X (f : state -> X -> state * status) l s st,
  (forall x t, T t -> T (fst (f t x))) -> T s -> T (fst (fold_or f l s st)).
Proof.
  induction l as [|i l IH]; simpl; intros s st F H; auto. pose proof (F i s H) as Y.
  destruct (f s i) as [s1 st1]. cbn [fst] in Y. auto.
Qed.

(** ** The simple reductions *)
Lemma tn_stonrow : forall i s, T s -> T (fst (remove_stonrow i s)).
Proof.
  intros i s H. unfold remove_stonrow. destruct (mA s i) as [|[k a] l]; [destruct (t_fixed _); exact H|].
  destruct (t_fixed _); [exact H|]. destruct (t_eq _).
  - pose proof (tn_fix_col k (fin (rhs s i) / a) (cst s k) s H) as X.
    destruct (fix_col _ _ _ _) as [s1 st]. cbn [fst] in X. destruct (N.eqb _ _); exact X.
  - cbv zeta. set (p1 := if t_rhs_inf _ then _ else _).
    assert (X1 : T (fst p1)).
    { unfold p1. destruct (t_rhs_inf _); [exact H|]. destruct (Qgtb _ _); auto with tn. }
    destruct p1 as [s1 st1]. cbn [fst] in X1. destruct (N.eqb _ _); [exact X1|].
    set (p2 := if t_lhs_inf _ then _ else _).
    assert (X2 : T (fst p2)).
    { unfold p2. destruct (t_lhs_inf _); [exact X1|]. destruct (Qgtb _ _); auto with tn. }
    destruct p2 as [s2 st2]. cbn [fst] in X2. destruct (N.eqb _ _); exact X2.
Qed.
Lemma tn_ston_pass : forall b l s, T s -> T (fst (ston_pass b l s)).
Proof.
  induction l as [|i l IH]; simpl; intros s H; auto. destruct (if b then _ else _); auto.
  pose proof (tn_stonrow i s H) as X. destruct (remove_stonrow i s) as [s1 st]. cbn [fst] in X.
  destruct (N.eqb _ _); auto.
Qed.
Lemma tn_ston_rows : forall s, T s -> T (fst (remove_ston_rows s)).
Proof.
  intros s H. unfold remove_ston_rows. destruct (w_ston_rows s) as [|i l]; auto.
  pose proof (tn_ston_pass true (i :: l) s H) as X. destruct (ston_pass true _ s) as [s1 st1]. cbn [fst] in X.
  destruct (N.eqb _ _); auto.
  pose proof (tn_ston_pass false (i :: l) s1 X) as X2. destruct (ston_pass false _ s1) as [s2 st2]. cbn [fst] in X2.
  destruct (N.eqb _ _); auto. cbn [fst]. apply tn_dic, tn_dfc, tn_dir. exact X2.
Qed.
Lemma tn_check_row : forall i s, T s -> T (fst (check_row i s)).
Proof.
  intros. unfold check_row. destruct (_ || _); auto. destruct (check_activity _ _ _ _); auto.
  destruct (_ && _); [exact H|]. destruct lhs_red; [|destruct rhs_red; [|exact H]]; cbn [fst]; peel;
  (apply T_foldS; [intros; auto with tn|exact H]).
Qed.
Lemma tn_check_acts : forall s, T s -> T (fst (check_activities s)).
Proof.
  intros. unfold check_activities. pose proof (tn_for_until INFEASIBLE check_row (w_acts s) s tn_check_row H) as X.
  destruct (for_until _ _ _ _) as [s1 st]. cbn [fst] in X. destruct (N.eqb _ _); cbn [fst]; auto with tn.
Qed.
Lemma tn_empty_rows : forall s, T s -> T (fst (remove_empty_rows s)).
Proof.
  intros. unfold remove_empty_rows.
  assert (F : forall i t, T t -> T (fst (remove_empty_row i t))).
  { intros i t Ht. unfold remove_empty_row. destruct (_ || _); exact Ht. }
  pose proof (tn_for_until INFEASIBLE remove_empty_row (w_empty_rows s) s F H) as X.
  destruct (for_until _ _ _ _) as [s1 st]. cbn [fst] in X. destruct (N.eqb _ _); exact X.
Qed.
Lemma tn_empty_cols : forall s, T s -> T (fst (remove_empty_cols s)).
Proof.
  intros. unfold remove_empty_cols.
  assert (F : forall i t, T t -> T (fst (remove_empty_col i t))).
  { intros i t Ht. unfold remove_empty_col. destruct (Qeqb _ _); [exact Ht|].
    destruct (Qltb _ _); [destruct (t_ub_inf _)|destruct (t_lb_inf _)]; exact Ht. }
  pose proof (tn_for_until UNBNDORINFEAS remove_empty_col (w_empty_cols s) s F H) as X.
  destruct (for_until _ _ _ _) as [s1 st]. cbn [fst] in X. destruct (N.eqb _ _); exact X.
Qed.
Lemma tn_close_bounds : forall s, T s -> T (fst (remove_variables_with_close_bounds s)).
Proof.
  intros. unfold remove_variables_with_close_bounds.
  assert (F : forall i t, T t -> T (fst (close_bounds_col i t))).
  { intros i t Ht. unfold close_bounds_col. destruct (_ || _); [exact Ht|].
    destruct (IS_EQUAL_FEAS_TOL _ _); [cbn [fst]; auto with tn|]. destruct (Qgtb _ _); exact Ht. }
  pose proof (tn_for_until INFEASIBLE close_bounds_col (seq 0 (nc s)) s F H) as X.
  destruct (for_until _ _ _ _) as [s1 st]. cbn [fst] in X. destruct (N.eqb _ _); cbn [fst]; auto with tn.
Qed.
Lemma tn_dual_loop : forall l s ti st, T s -> T (fst (fst (dual_fix_loop l s ti st))).
Proof.
  induction l as [|k l IH]; simpl; intros s ti st H; auto. destruct (_ || _); auto.
  assert (X : T (fst (fst (simple_dual_fix_col k s ti)))).
  { unfold simple_dual_fix_col. cbv zeta.
    repeat (match goal with |- context [if ?b then _ else _] => destruct b end; cbn [fst]); auto with tn. }
  destruct (simple_dual_fix_col k s ti) as [[s1 t1] st1]. cbn [fst] in X. auto.
Qed.
Lemma tn_inf_step : forall s e, T s -> T (inf_step s e).
Proof.
  intros s [p k] H. unfold inf_step. destruct (_ =? _)%nat; auto with tn.
  destruct (_ =? _)%Z; auto with tn. destruct (_ =? _)%Z; auto with tn.
Qed.
Lemma tn_dual_fix : forall s, T s -> T (fst (simple_dual_fix s)).
Proof.
  intros. unfold simple_dual_fix. pose proof (tn_dual_loop (seq 0 (nc s)) s [] UNCHANGED H) as X.
  destruct (dual_fix_loop _ _ _ _) as [[s1 ti] st]. cbn [fst] in *. apply tn_dic, tn_dfc, tn_dir.
  apply T_foldS; auto. intros; apply tn_inf_step; auto.
Qed.

(** ** Singleton columns *)
Lemma tn_sub_var : forall r k a b s, T s -> T (sub_var_in_obj r k a b s).
Proof. intros. unfold sub_var_in_obj. destruct (Qeqb _ _); auto. cbv zeta. peel. apply T_foldS; auto. Qed.
Lemma tn_handle : forall ab i k a c s, T s -> T (handle_impl_free_eq ab i k a c s).
Proof.
  intros. unfold handle_impl_free_eq. cbv zeta. peel. apply tn_l1. destruct (Bool.eqb _ _); exact H.
Qed.
Lemma tn_eqston : forall i k a b1 b2 s, T s -> T (fst (process_colston_eq i k a b1 b2 s)).
Proof.
  intros. unfold process_colston_eq. destruct (_ && _); auto. cbv zeta.
  set (s1 := sub_var_in_obj _ _ _ _ s). assert (T s1) by (apply tn_sub_var; auto).
  destruct (_ && _); cbn [fst]; [exact H0|].
  set (s2 := handle_impl_free_eq _ _ _ _ _ _). assert (T s2) by (apply tn_handle; exact H0).
  destruct (_ =? _)%Z; [exact H1|]. destruct (_ && _); exact H1.
Qed.
Lemma tn_fixston : forall i k v a s, T s -> T (fix_col_ston i k v a s).
Proof.
  intros. unfold fix_col_ston. cbv zeta. peel. unfold fix_var_in_obj. do 2 peel.
  set (s1 := if t_lhs_inf _ then _ else _).
  assert (T s1) by (unfold s1; destruct (t_lhs_inf _); exact H).
  destruct (t_rhs_inf _); exact H0.
Qed.
Lemma tn_closerow : forall u i s, T s -> T (close_row u i s).
Proof.
  intros. unfold close_row. cbv zeta.
  match goal with |- context [if ?b then update_locks_ineq_to_eq ?x ?y ?z else ?w] =>
    set (s1 := if b then update_locks_ineq_to_eq x y z else w);
    assert (H1 : T s1) by (unfold s1; destruct b; auto with tn) end.
  clearbody s1. destruct u; match goal with |- T (if ?b then _ else _) => destruct b end; exact H1.
Qed.
Lemma tn_push_if : forall i s, T s -> T (push_if_ston i s).
Proof. intros. unfold push_if_ston. destruct (_ =? _)%Z; exact H. Qed.
Lemma tn_inact_rec : forall k i v r s, T s -> T (set_row_to_inactive i v (record r (sub_col_now k s))).
Proof. intros. exact H. Qed.
Lemma tn_if1 : forall A (b : bool) (x y : state * A), T (fst x) -> T (fst y) -> T (fst (if b then x else y)).
Proof. intros; destruct b; auto. Qed.
Lemma tn_ineqston : forall i k a b1 b2 s, T s -> T (fst (process_colston_ineq i k a b1 b2 s)).
Proof.
  intros. unfold process_colston_ineq. cbv zeta.
  assert (P : forall v, T (push_if_ston i (fix_col_ston i k v a s))).
  { intros v. apply tn_push_if, tn_fixston, H. }
  assert (F : forall side, T (sub_var_in_obj (row_view s i) k a (fin side) s)) by (intros; apply tn_sub_var; auto).
  repeat apply tn_if1; cbn [fst]; auto using tn_closerow; try (apply tn_inact_rec, F).
Qed.
Lemma tn_ston_col : forall k s, T s -> T (fst (ston_col s k)).
Proof.
  intros. unfold ston_col. destruct (mAT s k) as [|[i a] l]; [exact H|]. destruct (_ || _); [exact H|].
  cbv zeta. destruct (t_eq _); auto using tn_eqston, tn_ineqston.
Qed.
Lemma tn_ston_pass__ : forall s, T s -> T (fst (remove_ston_cols__ s)).
Proof.
  intros. unfold remove_ston_cols__. cbv zeta.
  pose proof (tn_fold_or _ ston_col (w_ston_cols (refresh_ston_cols s)) (refresh_ston_cols s) UNCHANGED
              tn_ston_col H) as X.
  destruct (fold_or _ _ _ _) as [s1 st]. cbn [fst] in *. auto with tn.
Qed.
Lemma tn_ston_loop : forall f s, T s -> T (fst (ston_cols_loop f s)).
Proof.
  induction f as [|f IH]; simpl; intros s H; [exact H|].
  pose proof (tn_ston_pass__ s H) as X. destruct (remove_ston_cols__ s) as [s1 st]. cbn [fst] in X.
  destruct (N.eqb _ _); auto.
Qed.
Lemma tn_ston_cols : forall s, T s -> T (fst (remove_ston_cols s)).
Proof. intros. apply tn_ston_loop; auto. Qed.

(** ** Parallel rows and columns *)
Lemma tn_row_bin : forall b s, T s -> T (fst (process_row_bin b s)).
Proof.
  intros [|i0 l] s H; [exact H|]. unfold process_row_bin. destruct (merge_loop _ _ _) as [m|]; [|exact H].
  cbv zeta. set (p1 := if _ && _ then _ else _).
  assert (X : T (fst p1)) by (unfold p1; destruct (_ && _); auto with tn).
  destruct p1 as [s1 st1]. cbn [fst] in X. destruct (N.eqb _ _); [exact X|].
  set (p2 := if _ && _ then _ else _).
  assert (X2 : T (fst p2)) by (unfold p2; destruct (_ && _); auto with tn).
  destruct p2 as [s2 st2]. cbn [fst] in X2. destruct (N.eqb _ _); [exact X2|]. cbn [fst].
  apply T_foldS; auto. intros t x Ht. destruct (_ =? _)%nat; exact Ht.
Qed.
Lemma tn_par_rows : forall s, T s -> T (fst (remove_parallel_rows s)).
Proof.
  intros s H. unfold remove_parallel_rows, remove_parallel_rows_with.
  set (gs := groups_of _ _). clearbody gs.
  assert (X : T (fst (process_row_bins gs s))).
  { revert s H. induction gs as [|g gs IH]; simpl; intros s H; auto.
    pose proof (tn_row_bin g s H) as X. destruct (process_row_bin g s) as [s1 st]. cbn [fst] in X.
    destruct (N.eqb _ _); auto. }
  destruct (process_row_bins gs s) as [s1 st]. cbn [fst] in *. auto with tn.
Qed.
Lemma tn_if2 : forall A B (b : bool) (x y : state * A * B), T (fst (fst x)) -> T (fst (fst y)) ->
  T (fst (fst (if b then x else y))).
Proof. intros; destruct b; auto. Qed.
Lemma tn_pair : forall j k s r, T s -> T (fst (fst (col_pair j k s r))).
Proof.
  intros. unfold col_pair. cbv zeta. destruct (t_cinact _); [exact H|].
  destruct (IS_EQUAL_FEAS_TOL _ _).
  { cbn [fst]. unfold merge_cols. destruct (if Qgtb _ _ then _ else _) as [[[a b] c] d]. exact H. }
  repeat apply tn_if2; cbn [fst]; auto with tn.
Qed.
Lemma tn_pairs : forall ks j s r, T s -> T (fst (fst (col_pairs j ks s r))).
Proof.
  induction ks as [|k ks IH]; simpl; intros j s r H; auto. pose proof (tn_pair j k s r H) as X.
  destruct (col_pair j k s r) as [[s1 r1] res]. cbn [fst] in X. destruct res; auto.
Qed.
Lemma tn_col_bin : forall b s, T s -> T (fst (process_col_bin b s)).
Proof.
  induction b as [|j rest IH]; intros s H; [exact H|]. simpl.
  destruct rest as [|k0 rest0] eqn:ER; [exact H|]. rewrite <- ER in *.
  destruct (t_cinact _); [apply IH; auto|].
  pose proof (tn_pairs rest j s false H) as X. destruct (col_pairs j rest s false) as [[s1 r] res]. cbn [fst] in X.
  assert (Y : T (if r then recount j s1 else s1)).
  { destruct r; auto. apply T_foldS; auto. }
  destruct res; auto.
Qed.
Lemma tn_par_cols : forall s, T s -> T (fst (remove_parallel_cols s)).
Proof.
  intros s H. unfold remove_parallel_cols, remove_parallel_cols_with.
  pose proof (tn_fold_or _ (fun s g => process_col_bin g s)
     (groups_of (mAT s) (hash_bins (mAT s) (fun k => t_cinact (ct s k)) (nc s))) s UNCHANGED
     (fun g t => tn_col_bin g t) H) as X.
  destruct (fold_or _ _ _ _) as [s1 st]. cbn [fst] in *. auto with tn.
Qed.

(** ** Propagation *)
Lemma tn_lbp : forall b k v s, T s -> T (fst (update_lb_prop b k v s)).
Proof.
  intros. unfold update_lb_prop. cbv zeta. destruct (_ && _); [exact H|].
  destruct (_ && _); [cbn [fst]; apply tn_fix_col; exact H|].
  destruct (_ || _); [|exact H]. cbn [fst]. peel. apply tn_bc. exact H.
Qed.
Lemma tn_ubp : forall b k v s, T s -> T (fst (update_ub_prop b k v s)).
Proof.
  intros. unfold update_ub_prop. cbv zeta. destruct (_ && _); [exact H|].
  destruct (_ && _); [cbn [fst]; apply tn_fix_col; exact H|].
  destruct (_ || _); [|exact H]. cbn [fst]. peel. apply tn_bc. exact H.
Qed.
Lemma tn_tryl : forall b k v p, T2 p -> T2 (try_lb b k v p).
Proof. intros b k v [[s st] n] H. unfold try_lb. destruct (_ && _); [|exact H]. apply tn_lbp. exact H. Qed.
Lemma tn_tryu : forall b k v p, T2 p -> T2 (try_ub b k v p).
Proof. intros b k v [[s st] n] H. unfold try_ub. destruct (_ && _); [|exact H]. apply tn_ubp. exact H. Qed.
Lemma tn_fold2 : forall (f : tight -> nat * Q -> tight) l p, (forall p e, T2 p -> T2 (f p e)) -> T2 p ->
  T2 (fold_left f l p).
Proof. induction l as [|e l IH]; simpl; intros p F H; auto. Qed.
Lemma tn_trhs : forall b i r p, T2 p -> T2 (tighten_rhs b i r p).
Proof.
  intros b i r [[s st] n] H. unfold tighten_rhs. cbv zeta. destruct (_ && _).
  - apply tn_fold2; auto. intros [[t st'] n'] [k a] Ht. unfold rhs_entry. destruct (t_cinact _); [exact Ht|].
    destruct (Qgtb _ _); auto using tn_tryl, tn_tryu.
  - destruct (_ && _); [|exact H]. destruct (find_inf _ _ _ _) as [[k a]|]; [|exact H].
    destruct (Qgtb _ _); auto using tn_tryl, tn_tryu.
Qed.
Lemma tn_tlhs : forall b i r p, T2 p -> T2 (tighten_lhs b i r p).
Proof.
  intros b i r [[s st] n] H. unfold tighten_lhs. cbv zeta. destruct (_ && _).
  - apply tn_fold2; auto. intros [[t st'] n'] [k a] Ht. unfold lhs_entry. destruct (t_cinact _); [exact Ht|].
    destruct (Qgtb _ _); auto using tn_tryl, tn_tryu.
  - destruct (_ && _); [|exact H]. destruct (find_inf _ _ _ _) as [[k a]|]; [|exact H].
    destruct (Qgtb _ _); auto using tn_tryl, tn_tryu.
Qed.
Lemma tn_single : forall b i s, T s -> T (fst (bound_tightening_single_row b i s)).
Proof.
  intros. unfold bound_tightening_single_row. cbv zeta.
  pose proof (tn_tlhs b i (row_view s i) _ (tn_trhs b i (row_view s i) (s, UNCHANGED, O) H)) as X.
  destruct (tighten_lhs _ _ _ _) as [[s1 st] n]. unfold T2 in X. cbn [fst] in *. destruct n; exact X.
Qed.
Lemma tn_prop_loop : forall b f ii s, T s -> T (fst (prop_loop b f ii s)).
Proof.
  induction f as [|f IH]; intros ii s H; cbn [prop_loop].
  - destruct (nth_error _ _); exact H.
  - destruct (nth_error _ _) as [i|]; [|exact H]. destruct (skip_row _ _); auto.
    pose proof (tn_single b i (set_ast i PROPAGATED_THIS_ROUND s) H) as X.
    destruct (bound_tightening_single_row _ _ _) as [s1 st]. cbn [fst] in X. destruct (HAS_STATUS _ _); auto.
Qed.
Lemma tn_prop : forall b s, T s -> T (fst (propagate_primal b s)).
Proof.
  intros. unfold propagate_primal.
  pose proof (tn_prop_loop b (length (w_acts s) + 2 * nr s) 0 s H) as X.
  destruct (prop_loop _ _ _ _) as [s1 st]. cbn [fst] in X. destruct (N.eqb _ _); [exact X|].
  assert (Y : T (next_round s1)).
  { unfold next_round. cbv zeta. peel. apply T_foldS; [intros; assumption|]. apply T_foldS; [intros; assumption|auto]. }
  pose proof (tn_empty_rows _ (tn_dic _ (tn_dfc _ Y))) as Z. cbv zeta.
  destruct (remove_empty_rows _) as [s4 st4]. cbn [fst] in Z. destruct (N.eqb _ _); exact Z.
Qed.
Lemma tn_relax : forall s, T s -> T (remove_redundant_bounds s).
Proof.
  intros. apply T_foldS; auto. intros t k Ht. unfold relax_col. cbv zeta.
  destruct (t_cinact _); auto. destruct (_ && _); auto.
  destruct (t_ub_inf _).
  - destruct (is_lb_implied_free _ _); auto. peel. apply T_foldS; auto. intros z [i a] Hz. cbv zeta.
    destruct (Qgtb _ _); [exact Hz|]. destruct (Qltb _ _); exact Hz.
  - destruct (is_ub_implied_free _ _); auto. peel. apply T_foldS; auto. intros z [i a] Hz. cbv zeta.
    destruct (Qgtb _ _); [exact Hz|]. destruct (Qltb _ _); exact Hz.
Qed.

(** ** Doubleton rows *)
Lemma tn_modify : forall i a c b l u j t s, T s -> T (modify_bounds i a c b l u j t s).
Proof.
  intros. unfold modify_bounds. cbv zeta.
  destruct (Qgtb _ _); destruct (t_lb_inf t), (t_ub_inf t); cbn [negb andb]; auto with tn;
  match goal with |- context [t_fixed ?x] => destruct (t_fixed x) end; auto with tn.
Qed.
Lemma tn_urow : forall i q j k a c s, T s -> T (fst (fst (fst (update_row_A_dton i q j k a c s)))).
Proof.
  intros. unfold update_row_A_dton. cbv zeta.
  set (s1 := if _ && _ then _ else _). assert (T s1) by (unfold s1; destruct (_ && _); [reflexivity|exact H]).
  destruct (set_coeff _ _ _); exact H0.
Qed.
Lemma tn_note_added : forall q s, T s -> T (note_added q s).
Proof. intros. unfold note_added. destruct (a_st _); exact H. Qed.
Lemma tn_subst_row : forall i j k a c sn e, T (fst sn) -> T (fst (subst_row i j k a c sn e)).
Proof.
  intros i j k a c [s nd] e H. cbn [fst] in H. unfold subst_row. destruct (t_inact _); [exact H|]. cbv zeta.
  pose proof (tn_urow i (fst e) j k a c s H) as X.
  destruct (update_row_A_dton _ _ _ _ _ _ _) as [[[s1 old] new] aqk]. cbn [fst] in X.
  set (p := if (rsz s1 (fst e) =? 0)%Z then _ else _).
  assert (Y : T (fst p)).
  { unfold p. destruct (_ =? _)%Z; [exact X|]. destruct (_ =? _)%Z; [destruct (_ =? _)%Z; exact X|].
    destruct (_ =? _)%Z; exact X. }
  destruct p as [s2 nd']. cbn [fst] in Y.
  assert (Z : T (update_col_AT j (fst e) new s2)).
  { unfold update_col_AT. destruct (set_coeff _ _ _); exact Y. }
  set (s3 := update_col_AT _ _ _ _) in *. clearbody s3.
  set (s4 := if Qeqb (fin (rhs s3 i)) 0 then _ else _).
  assert (W : T s4).
  { unfold s4. destruct (Qeqb _ _); auto. set (s' := if t_lhs_inf _ then _ else _).
    assert (T s') by (unfold s'; destruct (t_lhs_inf _); exact Z). destruct (t_rhs_inf _); exact H0. }
  clearbody s4. destruct (update_activity_coeff_change _ _ _ _ _ _) as [a1 alt1].
  destruct (update_activity_coeff_change _ _ _ _ _ _) as [a2 alt2]. cbn [fst].
  set (s5 := set_act1 (fst e) a2 s4). assert (W5 : T s5) by exact W. clearbody s5.
  set (s6 := if (_ || _) then note_added _ _ else s5).
  assert (W6 : T s6).
  { unfold s6. match goal with |- T (if ?b then _ else _) => destruct b end; auto. apply tn_note_added. exact W5. }
  clearbody s6. match goal with |- T (if ?b then _ else _) => destruct b end; auto. apply tn_note_added. exact W6.
Qed.
Lemma tn_subst_fold : forall l i j k a c sn, T (fst sn) -> T (fst (fold_left (subst_row i j k a c) l sn)).
Proof. induction l; simpl; intros; auto using tn_subst_row. Qed.
Lemma tn_exec : forall i j k a c ck en s nd, T s -> T (fst (execute_substitution i j k a c ck en s nd)).
Proof.
  intros. unfold execute_substitution. cbv zeta.
  pose proof (tn_subst_fold (mAT s k) i j k a c
    (setAT k [] (set_csz1 j (csz s j - 1)%Z (setAT j (del_entry i (mAT s j)) s)), nd) H) as X.
  destruct (fold_left _ _ _) as [s2 nd']. cbn [fst] in *. do 2 peel. apply tn_l3.
  destruct (_ =? _)%Z; [exact X|]. destruct (_ =? _)%Z; exact X.
Qed.
Lemma tn_dton_row : forall fits sn i, T2 sn -> T2 (dton_row fits sn i).
Proof.
  intros fits [[s nd] st] i H. unfold dton_row. destruct (_ <? _)%Z; [exact H|].
  destruct (row_view s i) as [|[c0 v0] [|[c1 v1] l]]; try exact H.
  destruct (_ || _); [exact H|].
  destruct (can_dton_be_eliminated _ _ _ _ _ _ _ _) as [[[[[j k] aij] aik]|] tk]; [|exact H].
  cbv zeta. set (s1 := modify_bounds _ _ _ _ _ _ _ _ _).
  assert (X : T s1) by (apply tn_modify; exact H). clearbody s1.
  destruct (t_cinact _); [exact X|].
  match goal with |- context [execute_substitution i j k aij aik ?c ?en ?t nd] =>
    pose proof (tn_exec i j k aij aik c en t nd X) as Y; destruct (execute_substitution i j k aij aik c en t nd) as [s4 nd'] end.
  exact Y.
Qed.
Lemma tn_dton_fold : forall fits l sn, T2 sn -> T2 (fold_left (dton_row fits) l sn).
Proof. induction l; simpl; intros; auto using tn_dton_row. Qed.
Lemma tn_dton_pass : forall fits s, T s -> T (fst (remove_dton_eq_rows__ fits s)).
Proof.
  intros. unfold remove_dton_eq_rows__.
  pose proof (tn_dton_fold fits (w_dton s) (s, [], UNCHANGED) H) as X.
  destruct (fold_left _ _ _) as [[s1 nd] st]. exact X.
Qed.
Lemma tn_dton_loop : forall fits f s, T s -> T (dton_loop fits f s).
Proof.
  induction f as [|f IH]; intros s H; cbn [dton_loop].
  - destruct (w_dton s); exact H.
  - destruct (w_dton s); auto. pose proof (tn_dton_pass fits s H) as X.
    destruct (remove_dton_eq_rows__ fits s) as [s1 st]. cbn [fst] in X. destruct (N.eqb _ _); auto.
Qed.
Lemma tn_dton : forall fits s, T s -> T (fst (remove_dton_eq_rows fits s)).
Proof.
  intros. unfold remove_dton_eq_rows. cbv zeta. cbn [fst].
  pose proof (tn_dton_loop fits (S (nr s)) s H) as X. destruct (w_fixed _); auto with tn.
Qed.
