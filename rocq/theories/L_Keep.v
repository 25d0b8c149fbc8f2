(** Entries are lost only with their row or their column, unless coefficients are rewritten
    (doubleton rows, parallel columns). *)
From Coq Require Import NArith Sorted.
From Verif Require Import M_Num S_LP M_Settings M_Driver S_Driver M_State M_Act M_Core M_Simple
  M_StonCols M_Dton M_Parallel M_Propagate M_Init M_Post M_Run S_Run S_Sem S_Sem4 S_Matrix
  L_State L_Struct L_Struct2 L_Struct3 L_Struct4 L_Struct5 L_Struct6 L_Struct7 L_Struct8 L_Struct11 L_Init L_Sem L_Reach L_Post6 L_Post7 L_Sub.
Import M_Driver.
Notation bad := M_State.bad.
Open Scope Q_scope.

Record Keep (s s' : state) : Prop := mkKeep {
  kp_mono : mono s s';
  kp_A : forall i k a, (i < nr s)%nat -> In (k, a) (mA s i) ->
         t_inact (rt s' i) = true \/ t_cinact (ct s' k) = true \/ In (k, a) (mA s' i) }.
Lemma Keep_refl : forall s, Keep s s.
Proof. intros s. constructor; [apply mono_refl|auto]. Qed.
Lemma Keep_trans : forall a b c, Keep a b -> Keep b c -> Keep a c.
Proof.
  intros a b c [M1 K1] [M2 K2]. constructor; [eapply mono_trans; eauto|].
  intros i k v Hi H. destruct (K1 i k v Hi H) as [T|[T|T]].
  - left. apply (mo_rt _ _ M2 _ T).
  - right; left. apply (mo_ci _ _ _ M2 T).
  - apply K2; [rewrite (mo_nr _ _ M1); exact Hi|exact T].
Qed.
Lemma Keep_eq : forall s s', mono s s' -> mA s' = mA s -> Keep s s'.
Proof. intros s s' M E. constructor; [exact M|]. intros i k a _ H. rewrite E. auto. Qed.
Lemma Keep_dir : forall s, Inv s -> Keep s (delete_inactive_rows s).
Proof.
  intros s H. destruct (delete_inactive_rows_Inv s H) as [I1 AD].
  constructor; [eapply after_dir_mono; eauto|]. intros i k a Hi X.
  destruct (t_inact (rt s i)) eqn:T.
  - left. apply (mo_rt _ _ (after_dir_mono _ _ H AD) _ T).
  - right; right. rewrite (dir_A _ _ AD i Hi T). exact X.
Qed.
Lemma Keep_clean : forall s, Inv s -> w_sub s = [] \/ w_ston_rows s = [] ->
  Keep s (delete_inactive_cols_from_A_and_AT (delete_fixed_cols_from_problem s)).
Proof.
  intros s H W. destruct (finish_cols s H W) as [I1 [M1 [_ [_ [_ [_ AD]]]]]].
  pose proof (delete_fixed_cols_same s) as SS.
  constructor; [exact M1|]. intros i k a Hi X.
  destruct (t_inact (rt s i)) eqn:T; [left; apply (mo_rt _ _ M1 _ T)|].
  destruct (t_cinact (ct s k)) eqn:C; [right; left; apply (mo_ci _ _ _ M1 C)|].
  right; right. rewrite (dic_A _ _ AD).
  - apply filter_In. rewrite (ss_A _ _ SS). split; [exact X|]. cbn [fst].
    rewrite (ss_ct _ _ _ SS), C. reflexivity.
  - rewrite (ss_nr _ _ SS). exact Hi.
  - rewrite (ss_rt _ _ SS). exact T.
Qed.

(** ** The explorers *)
Lemma until_eq : forall st f l s, (forall i s, mA (fst (f i s)) = mA s) -> mA (fst (for_until st f l s)) = mA s.
Proof.
  intros st f l s H. apply (for_until_inv st f (fun t => mA t = mA s)); auto.
  intros t i _ K. rewrite H; auto.
Qed.
Lemma Keep_close_bounds : forall s, Inv s -> w_sub s = [] -> Keep s (fst (remove_variables_with_close_bounds s)).
Proof.
  intros s H WS. pose proof (close_bounds_spec s H WS) as SP. unfold remove_variables_with_close_bounds in *.
  assert (X : stp s (fst (for_until INFEASIBLE close_bounds_col (seq 0 (nc s)) s)) /\
              w_sub (fst (for_until INFEASIBLE close_bounds_col (seq 0 (nc s)) s)) = [] /\
              mA (fst (for_until INFEASIBLE close_bounds_col (seq 0 (nc s)) s)) = mA s).
  { apply (for_until_inv INFEASIBLE close_bounds_col (fun t => stp s t /\ w_sub t = [] /\ mA t = mA s)).
    - intros t k Hk [S1 [W1 A1]]. unfold close_bounds_col.
      destruct (_ || _); cbn [fst]; auto. destruct (IS_EQUAL_FEAS_TOL _ _).
      + cbn [fst]. apply in_seq in Hk. destruct (fix_col_frame t k (fin (lb t k)) (cst t k)) as [_ [B _]].
        split; [|split; [congruence|rewrite mA_fix_col; exact A1]]. eapply stp_trans; [exact S1|]. apply stp_fix_col.
        * apply S1.
        * rewrite (stp_nc _ _ S1). lia.
      + destruct (Qgtb _ _); cbn [fst]; auto.
    - auto using stp_refl. }
  destruct (for_until INFEASIBLE close_bounds_col (seq 0 (nc s)) s) as [s1 st]. cbn [fst] in *.
  destruct X as [S1 [W1 A1]]. assert (K1 : Keep s s1) by (apply Keep_eq; [apply S1|exact A1]).
  destruct (N.eqb _ _); [exact K1|]. eapply Keep_trans; [exact K1|]. apply Keep_clean; [apply S1|auto].
Qed.
Lemma Keep_empty_cols : forall s, Inv s -> Keep s (fst (remove_empty_cols s)).
Proof.
  intros s H. pose proof (empty_cols_spec s H) as SP. 
  assert (A : mA (fst (remove_empty_cols s)) = mA s).
  { unfold remove_empty_cols.
    assert (X : mA (fst (for_until UNBNDORINFEAS remove_empty_col (w_empty_cols s) s)) = mA s).
    { apply until_eq. intros k t. unfold remove_empty_col. destruct (Qeqb _ _); [reflexivity|].
      destruct (Qltb _ _); [destruct (t_ub_inf _)|destruct (t_lb_inf _)]; reflexivity. }
    destruct (for_until _ _ _ _) as [s1 st]. cbn [fst] in *. destruct (N.eqb _ _); exact X. }
  destruct (remove_empty_cols s) as [s1 st]. destruct SP as [S1 _]. apply Keep_eq; [apply S1|exact A].
Qed.
Lemma Keep_empty_rows : forall s, Inv s -> Keep s (fst (remove_empty_rows s)).
Proof.
  intros s H. pose proof (empty_rows_spec s H) as SP.
  assert (A : mA (fst (remove_empty_rows s)) = mA s).
  { unfold remove_empty_rows.
    assert (X : mA (fst (for_until INFEASIBLE remove_empty_row (w_empty_rows s) s)) = mA s).
    { apply until_eq. intros k t. unfold remove_empty_row. destruct (_ || _); reflexivity. }
    destruct (for_until _ _ _ _) as [s1 st]. cbn [fst] in *. destruct (N.eqb _ _); exact X. }
  destruct (remove_empty_rows s) as [s1 st]. destruct SP as [S1 _]. apply Keep_eq; [apply S1|exact A].
Qed.
Lemma stonrow_A : forall i s, mA (fst (remove_stonrow i s)) = mA s \/
  mA (fst (remove_stonrow i s)) = upd (mA s) i [] /\ t_inact (rt (fst (remove_stonrow i s)) i) = true.
Proof.
  intros i s. unfold remove_stonrow. destruct (mA s i) as [|[k a] r] eqn:E; [destruct (t_fixed _); left; reflexivity|].
  destruct (t_fixed _); [left; reflexivity|]. destruct (t_eq _).
  - pose proof (mA_fix_col k (fin (rhs s i) / a) (cst s k) s) as X. destruct (fix_col _ _ _ _) as [s1 st]. cbn [fst] in X.
    destruct (N.eqb _ _); [left; exact X|]. right. cbv zeta.
    unfold record, setA. cbn [fst]. sr. rewrite X, upd_same. split; reflexivity.
  - left. cbv zeta.
    match goal with |- mA (fst (let '(_, _) := ?p in _)) = _ => assert (X : mA (fst p) = mA s) end.
    { destruct (t_rhs_inf _); [reflexivity|]. destruct (Qgtb _ _); [apply mA_update_ub|apply mA_update_lb]. }
    match goal with |- mA (fst (let '(_, _) := ?p in _)) = _ => destruct p as [s1 st1] end. cbn [fst] in X.
    destruct (N.eqb _ _); [exact X|].
    match goal with |- mA (fst (let '(_, _) := ?p in _)) = _ => assert (Y : mA (fst p) = mA s1) end.
    { destruct (t_lhs_inf _); [reflexivity|]. destruct (Qgtb _ _); [apply mA_update_lb|apply mA_update_ub]. }
    match goal with |- mA (fst (let '(_, _) := ?p in _)) = _ => destruct p as [s2 st2] end. cbn [fst] in Y.
    destruct (N.eqb _ _); cbn [fst]; rewrite ?mA_set_inactive; congruence.
Qed.
Lemma Keep_stonrow : forall i s, mono s (fst (remove_stonrow i s)) -> Keep s (fst (remove_stonrow i s)).
Proof.
  intros i s M. destruct (stonrow_A i s) as [E|[E T]]; [apply Keep_eq; auto|].
  constructor; [exact M|]. intros j k a Hj H. destruct (Nat.eq_dec j i) as [->|N]; [auto|].
  right; right. rewrite E, upd_other by auto. exact H.
Qed.
Lemma Keep_ston_pass : forall b l s, Inv s -> (forall i, In i l -> In i (w_ston_rows s)) -> Keep s (fst (ston_pass b l s)).
Proof.
  induction l as [|i l IH]; intros s H HL; simpl; [apply Keep_refl|].
  destruct (if b then _ else _) eqn:SK.
  { apply IH; auto. intros; apply HL; simpl; auto. }
  assert (T : t_inact (rt s i) = false).
  { destruct b; apply orb_false_iff in SK; tauto. }
  pose proof (remove_stonrow_stp s i H (HL i (or_introl eq_refl)) T) as X.
  pose proof (Keep_stonrow i s) as Y.
  destruct (remove_stonrow i s) as [s1 st]. destruct X as [S1 F1]. cbn [fst] in Y. specialize (Y (st_mono _ _ S1)).
  destruct (N.eqb st INFEASIBLE); [exact Y|]. eapply Keep_trans; [exact Y|]. apply IH; [apply S1|].
  intros j Hj. destruct F1 as [_ F1]. rewrite F1. apply HL; simpl; auto.
Qed.
Lemma Keep_ston_rows : forall s, Inv s -> w_sub s = [] -> Keep s (fst (remove_ston_rows s)).
Proof.
  intros s H WS. unfold remove_ston_rows. destruct (w_ston_rows s) as [|i0 l0] eqn:EL; [apply Keep_refl|].
  rewrite <- EL. set (l := w_ston_rows s).
  pose proof (ston_pass_stp true l s H (fun i X => X)) as P1. pose proof (Keep_ston_pass true l s H (fun i X => X)) as K1.
  destruct (ston_pass true l s) as [s1 st1]. destruct P1 as [S1 [F1 E1]]. cbn [fst] in K1.
  destruct (N.eqb st1 INFEASIBLE); [exact K1|].
  assert (HL1 : forall i, In i l -> In i (w_ston_rows s1)) by (destruct F1 as [_ ->]; auto).
  pose proof (ston_pass_stp false l s1 (st_inv _ _ S1) HL1) as P2. pose proof (Keep_ston_pass false l s1 (st_inv _ _ S1) HL1) as K2.
  destruct (ston_pass false l s1) as [s2 st2]. destruct P2 as [S2 [F2 E2]]. cbn [fst] in K2.
  pose proof (Keep_trans _ _ _ K1 K2) as K. destruct (N.eqb st2 INFEASIBLE); [exact K|]. cbn [fst].
  set (s3 := set_w_ston_rows [] s2).
  assert (I3 : Inv s3) by (apply clear_ston_rows; apply S2).
  assert (K3 : Keep s2 s3) by (apply Keep_eq; [apply mono_set_w_ston|reflexivity]).
  pose proof (Keep_dir s3 I3) as K4. destruct (stp_dir s3 I3) as [S4 [[_ [FS _]] _]].
  eapply Keep_trans; [exact K|]. eapply Keep_trans; [exact K3|]. eapply Keep_trans; [exact K4|].
  apply Keep_clean; [apply S4|]. left. rewrite FS. unfold s3. sr. destruct F1 as [f1 _], F2 as [f2 _]. congruence.
Qed.
Lemma mA_check_row : forall i s, mA (fst (check_row i s)) = mA s.
Proof.
  intros k t. unfold check_row. destruct (_ || _); [reflexivity|].
  destruct (check_activity _ _ _ _) as [|lr rr]; [reflexivity|]. destruct (_ && _); [reflexivity|].
  destruct lr; [|destruct rr; [|reflexivity]]; cbn [fst]; unfold set_lhs1, set_rhs1; sr;
  (rewrite mA_foldS; [reflexivity|]); intros; [apply mA_lock_lhs|apply mA_lock_rhs].
Qed.
Lemma Keep_check_acts : forall s, Inv s -> Keep s (fst (check_activities s)).
Proof.
  intros s H. pose proof (l_acts s (inv_L s H)) as HW. unfold check_activities.
  pose proof (for_until_inv INFEASIBLE check_row (fun t => stp s t) (w_acts s) s) as X.
  pose proof (until_eq INFEASIBLE check_row (w_acts s) s mA_check_row) as Y.
  destruct (for_until INFEASIBLE check_row (w_acts s) s) as [s1 st]. cbn [fst] in X, Y.
  assert (S1 : stp s s1).
  { apply X; [|apply stp_refl; auto]. intros t i Hi St. destruct (check_row_stp t i) as [A B]; [apply St| |].
    - rewrite (stp_nr _ _ St). auto.
    - eapply stp_trans; eauto. }
  assert (K1 : Keep s s1) by (apply Keep_eq; [apply S1|exact Y]).
  destruct (N.eqb _ _); [exact K1|]. eapply Keep_trans; [exact K1|apply Keep_dir, S1].
Qed.
Lemma mA_dual_loop : forall l s ti st, mA (fst (fst (dual_fix_loop l s ti st))) = mA s.
Proof.
  induction l as [|k l IH]; intros t ti st; cbn [dual_fix_loop]; [reflexivity|]. destruct (_ || _); [apply IH|].
  assert (Y : mA (fst (fst (simple_dual_fix_col k t ti))) = mA t).
  { unfold simple_dual_fix_col. cbv zeta. repeat match goal with |- context [if ?b then _ else _] => destruct b end;
    cbn [fst]; rewrite ?mA_fix_col; reflexivity. }
  destruct (simple_dual_fix_col k t ti) as [[t1 ti1] st1]. cbn [fst] in Y. rewrite IH. exact Y.
Qed.
Lemma mA_inf_steps : forall l s, mA (foldS inf_step l s) = mA s.
Proof.
  intros l s. apply mA_foldS.
  assert (F : forall p k t, mA (fix_col_to_inf p k t) = mA t).
  { intros p k t. unfold fix_col_to_inf. cbv zeta.
    match goal with |- mA ?x = _ => change (mA x) with (mA (foldS (fun (s : state) (e : nat * Q) => if t_inact (rt s (fst e)) then s else set_row_to_inactive (fst e) 0 s)
      (mAT t k) (record (FIXED_COL_INF p k (if p then lb t k else ub t k) (inf_rows t k)) t))) end.
    rewrite mA_foldS; [reflexivity|]. intros u e. destruct (t_inact _); reflexivity. }
  intros t [p k]. unfold inf_step. destruct (Nat.eqb _ _); [|apply F]. destruct (Z.eqb _ _); [apply F|]. destruct (Z.eqb _ _); [apply F|reflexivity].
Qed.
Lemma Keep_dual_fix : forall s, Inv s -> w_sub s = [] -> Keep s (fst (simple_dual_fix s)).
Proof.
  intros s H WS. unfold simple_dual_fix.
  pose proof (dual_fix_loop_stp (seq 0 (nc s)) s [] UNCHANGED H) as X.
  pose proof (mA_dual_loop (seq 0 (nc s)) s [] UNCHANGED) as A.
  destruct (dual_fix_loop (seq 0 (nc s)) s [] UNCHANGED) as [[s1 ti] st]. cbn [fst] in A.
  destruct X as [S1 [F1 T1]].
  { intros k Hk. apply in_seq in Hk. lia. }
  { intros e []. }
  destruct (inf_steps_stp ti s1 (st_inv _ _ S1)) as [S2 F2].
  { rewrite (stp_nc _ _ S1). auto. }
  pose proof (mA_inf_steps ti s1) as A2. cbv zeta. cbn [fst].
  set (s2 := foldS inf_step ti s1) in *.
  destruct (stp_dir s2 (st_inv _ _ S2)) as [S3 [F3 W3]].
  assert (K2 : Keep s s2).
  { apply Keep_eq; [eapply mono_trans; [apply S1|apply S2]|congruence]. }
  eapply Keep_trans; [exact K2|]. eapply Keep_trans; [apply Keep_dir, S2|].
  apply Keep_clean; [apply S3|]. left. destruct F1 as [f1 _], F2 as [_ [f2 _]], F3 as [_ [f3 _]]. congruence.
Qed.

(** ** Singleton columns *)
Lemma Keep_del : forall i k s s', mono s s' -> (i < nr s)%nat -> Inv s -> t_inact (rt s i) = false ->
  mA s' = upd (mA s) i (del_entry k (row_view s i)) -> t_cinact (ct s' k) = true -> Keep s s'.
Proof.
  intros i k s s' M Hi H T E C. constructor; [exact M|]. intros j c a Hj X.
  destruct (Nat.eq_dec j i) as [->|N]; [|right; right; rewrite E, upd_other; auto].
  destruct (Nat.eq_dec c k) as [->|Nc]; [auto|]. right; right. rewrite E, upd_same, (view_full s i H Hi T).
  apply del_entry_In. auto.
Qed.
Lemma ct_eq_side : forall above i k a c s, ct (handle_impl_free_eq above i k a c s) = ct s.
Proof.
  intros above i k a c s. unfold handle_impl_free_eq. cbv zeta.
  match goal with |- ct (set_act1 ?i0 ?x ?t) = _ => change (ct (set_act1 i0 x t)) with (ct t) end.
  match goal with |- context [update_locks_eq_to_ineq ?r ?b ?x] =>
    destruct (locks_only_eq_to_ineq r b x) as [u [d EL]]; rewrite EL end.
  destruct (Bool.eqb _ _); reflexivity.
Qed.
Lemma ct_fix_ston : forall i k v a s, ct (fix_col_ston i k v a s) k = tag_fixed (ct s k).
Proof.
  intros i k v a s. unfold fix_col_ston. cbv zeta.
  match goal with |- ct (record ?x (fix_var_in_obj ?k0 ?v0 (set_act1 ?i0 ?y ?t))) k = _ =>
    change (ct (record x (fix_var_in_obj k0 v0 (set_act1 i0 y t)))) with (ct t) end.
  match goal with |- ct (if ?c then ?x else ?y) _ = _ => assert (E : ct (if c then x else y) = ct x) by (destruct c; reflexivity); rewrite E; clear E end.
  match goal with |- ct (if ?c then ?x else ?y) _ = _ => assert (E : ct (if c then x else y) = ct x) by (destruct c; reflexivity); rewrite E; clear E end.
  sr. rewrite upd_same. reflexivity.
Qed.
Lemma Keep_colston_eq : forall i k a u v s, Inv s -> (i < nr s)%nat -> t_inact (rt s i) = false ->
  mono s (fst (process_colston_eq i k a u v s)) -> Keep s (fst (process_colston_eq i k a u v s)).
Proof.
  intros i k a u v s H Hi T. unfold process_colston_eq. destruct (_ && _); [intros _; apply Keep_refl|]. cbv zeta.
  pose proof (mA_sub_now k (row_view s i) a (fin (rhs s i)) s) as E1.
  assert (E2 : rsz (sub_col_now k (sub_var_in_obj (row_view s i) k a (fin (rhs s i)) s)) = rsz s).
  { unfold sub_col_now, setAT. sr. unfold sub_var_in_obj. destruct (Qeqb _ _); [reflexivity|]. cbv zeta. sr.
    apply (foldS_inv _ _ (fun t => rsz t = rsz s)); auto. }
  assert (E4 : t_cinact (ct (sub_col_now k (sub_var_in_obj (row_view s i) k a (fin (rhs s i)) s)) k) = true).
  { unfold sub_col_now, setAT. sr. rewrite upd_same. unfold t_cinact, tag_sub. apply orb_true_r. }
  set (s1 := sub_col_now k (sub_var_in_obj (row_view s i) k a (fin (rhs s i)) s)) in *. clearbody s1.
  destruct (_ && _); [intros M; apply Keep_eq; [exact M|exact E1]|]. cbn [fst].
  match goal with |- context [handle_impl_free_eq ?b i k a ?c s1] =>
    pose proof (mA_eq_side b i k a c s1) as E3; pose proof (ct_eq_side b i k a c s1) as E5;
    set (s2 := handle_impl_free_eq b i k a c s1) in *; clearbody s2 end.
  rewrite <- E5 in E4.
  assert (E6 : mA s2 = upd (mA s) i (del_entry k (row_view s i))).
  { rewrite E3. unfold row_view. rewrite E1, E2. reflexivity. }
  intros M. refine (Keep_del i k s _ M Hi H T _ _); (destruct (Z.eqb _ _); [|destruct (_ && _)]); assumption.
Qed.
Lemma P0 : forall i k s t, Inv s -> (i < nr s)%nat -> t_inact (rt s i) = false ->
  mA t = upd (mA s) i (del_entry k (row_view s i)) -> ct t k = tag_fixed (ct s k) ->
  mono s (push_if_ston i t) -> Keep s (push_if_ston i t).
Proof.
  intros i k s t H Hi T E C M. assert (C' : t_cinact (ct t k) = true) by (rewrite C; reflexivity).
  refine (Keep_del i k s _ M Hi H T _ _); unfold push_if_ston.
  - destruct (Z.eqb _ _); exact E.
  - destruct (Z.eqb _ _); exact C'.
Qed.
Lemma P1 : forall i w r k row a side s, mono s (set_row_to_inactive i w (record r (sub_col_now k (sub_var_in_obj row k a side s)))) ->
  Keep s (set_row_to_inactive i w (record r (sub_col_now k (sub_var_in_obj row k a side s)))).
Proof.
  intros i w r k row a side s M. apply (Keep_eq _ _ M). rewrite mA_set_inactive. etransitivity; [apply (mA_record r)|apply mA_sub_now].
Qed.
Lemma P2 : forall b i s, mono s (close_row b i s) -> Keep s (close_row b i s).
Proof. intros b i s M. apply (Keep_eq _ _ M). apply mA_close_row. Qed.
Lemma P3 : forall s t (st : status), (mono s t -> Keep s t) -> mono s (fst (t, st)) -> Keep s (fst (t, st)).
Proof. intros s t st H. exact H. Qed.
Lemma P4 : forall s, mono s s -> Keep s s.
Proof. intros s _. apply Keep_refl. Qed.
Lemma Keep_colston_ineq : forall i k a u v s, Inv s -> (i < nr s)%nat -> t_inact (rt s i) = false ->
  mono s (fst (process_colston_ineq i k a u v s)) -> Keep s (fst (process_colston_ineq i k a u v s)).
Proof.
  intros i k a u v s H Hi T. 
  assert (P : forall x, mono s (push_if_ston i (fix_col_ston i k x a s)) -> Keep s (push_if_ston i (fix_col_ston i k x a s))).
  { intros x. exact (P0 i k s _ H Hi T (mA_fix_ston i k x a s) (ct_fix_ston i k x a s)). }
  unfold process_colston_ineq. cbv zeta.
  repeat match goal with |- mono s (fst (if ?b then _ else _)) -> _ => destruct b end; apply P3;
  lazymatch goal with
  | |- mono s (push_if_ston _ _) -> _ => apply P
  | |- mono s (set_row_to_inactive _ _ _) -> _ => apply P1
  | |- mono s (close_row _ _ _) -> _ => apply P2
  | |- mono s s -> _ => apply P4
  end.
Qed.
Lemma Keep_ston_col : forall s k, Inv s -> ready s k -> Keep s (fst (ston_col s k)).
Proof.
  intros s k H [Hk [C1 Tk]].
  pose proof (ston_col_ok s k H Hk C1 Tk) as X. destruct (ston_col s k) as [s' st] eqn:ES. destruct X as [[_ M _] _].
  cbn [fst]. revert M. replace s' with (fst (ston_col s k)) by (rewrite ES; reflexivity). clear s' st ES.
  unfold ston_col. destruct (mAT s k) as [|[i a] r] eqn:EK; [intros M; apply Keep_eq; [exact M|reflexivity]|].
  destruct (w_cin s (inv_0 s H) i k a Hk) as [Hi _]; [rewrite EK; left; reflexivity|].
  destruct (t_inact (rt s i)) eqn:Ti; cbn [orb]; [intros _; apply Keep_refl|].
  destruct (Z.leb _ _); [intros _; apply Keep_refl|]. cbv zeta.
  destruct (t_eq _); [apply Keep_colston_eq|apply Keep_colston_ineq]; auto.
Qed.
Lemma Keep_fold_ston : forall l s st, Inv s -> NoDup l -> (forall k, In k l -> ready s k) ->
  Keep s (fst (fold_or ston_col l s st)).
Proof.
  induction l as [|k l IH]; intros s st H ND HR; cbn [fold_or]; [apply Keep_refl|].
  destruct (HR k (or_introl eq_refl)) as [Hk [C1 Tk]].
  pose proof (ston_col_ok s k H Hk C1 Tk) as X. pose proof (Keep_ston_col s k H (HR k (or_introl eq_refl))) as Y.
  destruct (ston_col s k) as [s1 st1]. destruct X as [S1 [[F1 F2 F3] ST]]. cbn [fst] in Y.
  inversion ND; subst. eapply Keep_trans; [exact Y|]. apply IH; [apply S1|assumption|].
  intros j Hj. destruct (HR j (or_intror Hj)) as [A [B C]].
  destruct (F3 j) as [E1 [E2 E3]]; [intros ->; contradiction|].
  unfold ready. rewrite (stp_nc _ _ S1), E1, E2. auto.
Qed.
Lemma Keep_ston_cols1 : forall s, Inv s -> quiet s -> Keep s (fst (remove_ston_cols__ s)).
Proof.
  intros s H [Q1 Q2 Q3]. unfold remove_ston_cols__. cbv zeta.
  set (s0 := refresh_ston_cols s).
  assert (I0 : Inv s0) by (apply refresh_Inv; auto).
  assert (K0 : Keep s s0).
  { apply Keep_eq; [|reflexivity]. unfold s0, refresh_ston_cols. constructor; sr; auto; intros; lia. }
  assert (RD : forall k, In k (w_ston_cols s0) -> ready s0 k).
  { intros k Hk. unfold s0, refresh_ston_cols in Hk. sr in Hk. apply filter_In in Hk.
    destruct Hk as [Hk C]. apply Z.eqb_eq in C. destruct (l_ston_cols s (inv_L s H) k Hk) as [A _].
    split; auto. split; auto. destruct (t_cinact (ct s0 k)) eqn:T; auto. exfalso.
    destruct (l_pend s (inv_L s H) k A T) as [X|X].
    - rewrite C. discriminate.
    - rewrite Q2 in X. contradiction.
    - rewrite Q3 in X. contradiction. }
  pose proof (ston_pass_ok (w_ston_cols s0) s0 UNCHANGED I0 (l_ston_cols_nd _ (inv_L _ I0)) RD) as X.
  pose proof (Keep_fold_ston (w_ston_cols s0) s0 UNCHANGED I0 (l_ston_cols_nd _ (inv_L _ I0)) RD) as Y.
  destruct (fold_or ston_col (w_ston_cols s0) s0 UNCHANGED) as [s1 st]. destruct X as [S1 _]. cbn [fst] in *.
  eapply Keep_trans; [exact K0|]. eapply Keep_trans; [exact Y|]. apply Keep_dir, S1.
Qed.
Lemma Keep_ston_cols : forall s, Inv s -> quiet s -> Keep s (fst (remove_ston_cols s)).
Proof.
  intros s H Q. unfold remove_ston_cols.
  assert (B : (mu s < S (2 * nc s + nr s))%nat) by (pose proof (mu_le s); lia).
  revert B. generalize (S (2 * nc s + nr s)). intros n. revert s H Q.
  induction n as [|n IH]; intros s H Q B; [lia|]. cbn [ston_cols_loop].
  pose proof (ston_cols_pass_spec s H Q) as X. pose proof (Keep_ston_cols1 s H Q) as Y.
  destruct (remove_ston_cols__ s) as [s1 st]. destruct X as [S1 [Q1 ST]]. cbn [fst] in Y.
  destruct (N.eqb st REDUCED) eqn:EN; [|exact Y]. apply N.eqb_eq in EN. subst st.
  destruct ST as [E|[E|[_ MU]]]; [discriminate|discriminate|].
  eapply Keep_trans; [exact Y|]. apply IH; [apply S1|exact Q1|lia].
Qed.

(** ** Propagation, parallel rows *)
Lemma Keep_propagate : forall b s, Inv s -> w_sub s = [] -> Keep s (fst (propagate_primal b s)).
Proof.
  intros b s H WS. unfold propagate_primal. cbv zeta.
  pose proof (prop_loop_spec b (length (w_acts s) + 2 * nr s) 0 s H) as X.
  pose proof (mA_prop_loop b (length (w_acts s) + 2 * nr s) 0 s) as A.
  destruct (prop_loop b _ 0 s) as [s1 st]. cbn [fst] in A.
  destruct X as [P E]. { pose proof (lp_bound s). lia. }
  destruct P as [S1 R1 U1 T1 _].
  assert (K1 : Keep s s1) by (apply Keep_eq; [apply S1|exact A]).
  destruct (N.eqb st INFEASIBLE); [exact K1|].
  pose proof (next_round_same s1) as SN. set (s2 := next_round s1) in *.
  assert (S2 : stp s s2). { eapply stp_trans; [exact S1|]. apply stp_same; [apply S1|auto]. }
  assert (K2 : Keep s1 s2) by (apply Keep_eq; [apply mono_same; exact SN|apply (ss_A _ _ SN)]).
  assert (W2 : w_sub s2 = [] \/ w_ston_rows s2 = []) by (left; rewrite (ss_w3 _ _ SN); congruence).
  pose proof (Keep_clean s2 (st_inv _ _ S2) W2) as K3. destruct (finish_cols s2 (st_inv _ _ S2) W2) as [I3 _].
  pose proof (Keep_empty_rows _ I3) as K4.
  pose proof (Keep_trans _ _ _ (Keep_trans _ _ _ K1 K2) (Keep_trans _ _ _ K3 K4)) as K.
  destruct (remove_empty_rows _) as [s4 st4]. cbn [fst] in K. destruct (N.eqb _ _); exact K.
Qed.
Lemma mA_row_bins : forall gs t, mA (fst (process_row_bins gs t)) = mA t.
Proof.
  induction gs as [|g gs IH]; intros t; cbn [process_row_bins]; [reflexivity|].
  pose proof (mA_row_bin g t) as Y. destruct (process_row_bin g t) as [t1 st]. cbn [fst] in Y.
  destruct (N.eqb _ _); [exact Y|]. rewrite IH. exact Y.
Qed.
Lemma Keep_par_rows : forall s, Inv s -> Nx s -> quiet s -> w_empty_rows s = [] -> Keep s (fst (remove_parallel_rows s)).
Proof.
  intros s H NX [Q1 Q2 Q3] WE. unfold remove_parallel_rows, remove_parallel_rows_with.
  pose proof (hash_bins_ok (mA s) (fun i => t_inact (rt s i)) (nr s)) as BO.
  set (bins := hash_bins _ _ _) in *.
  pose proof (row_bins_stp (groups_of (mA s) bins) s H (groups_nd (mA s) (fun i => t_inact (rt s i)) bins (bo_nd _ _ _ BO))) as X.
  pose proof (mA_row_bins (groups_of (mA s) bins) s) as A.
  destruct (process_row_bins (groups_of (mA s) bins) s) as [s1 st].
  cbn [fst] in A. destruct X as [S1 [F1 E]].
  { intros g j Hg Hj. apply groups_in in Hg. destruct Hg as [b [Hb ->]].
    assert (Hj' := fpr_in _ _ _ Hj). pose proof (bo_lt _ _ _ BO b j Hb Hj') as LT.
    destruct b as [|f l]; [contradiction|].
    assert (Tf := bo_hd _ _ _ BO f l Hb). cbv beta in Tf.
    assert (Hf : (f < nr s)%nat) by (apply (bo_lt _ _ _ BO (f :: l)); simpl; auto).
    assert (Nf : mA s f <> []).
    { apply rsz_nempty; auto. intros R0. pose proof (l_empty_rows_c s (inv_L s H) f Hf Tf R0) as X.
      rewrite WE in X. contradiction. }
    assert (Nj : mA s j <> []).
    { intros X. apply fpr_par in Hj. rewrite X in Hj. destruct (mA s f); [auto|discriminate]. }
    split; auto. split; auto. destruct (t_inact (rt s j)) eqn:T; auto. exfalso.
    destruct (Z.eq_dec (rsz s j) (-1)) as [R|R]; [apply Nj, (nx_dead s NX); auto|].
    assert (X : In j (w_rows s)) by (apply (l_rows s (inv_L s H)); auto). rewrite Q1 in X. contradiction. }
  cbn [fst]. eapply Keep_trans; [apply Keep_eq; [apply S1|exact A]|]. apply Keep_dir, S1.
Qed.

(** ** Parallel columns *)
Lemma mA_merge_cols : forall j k q s, mA (merge_cols j k q s) = mA s.
Proof.
  intros. unfold merge_cols. destruct (if Qgtb q 0 then _ else _) as [[[lbk ubk] lk] uk]. reflexivity.
Qed.
Lemma mA_col_pair : forall j k s b, mA (fst (fst (col_pair j k s b))) = mA s.
Proof.
  intros j k s b. unfold col_pair. cbv zeta. destruct (t_cinact _); [reflexivity|].
  destruct (IS_EQUAL_FEAS_TOL _ _); [cbn [fst]; apply mA_merge_cols|].
  destruct (Qgtb (cst s k) _); cbn [andb negb];
  repeat (match goal with |- context [if ?b then _ else _] => destruct b end; cbn [fst andb negb]);
    rewrite ?mA_fix_col; reflexivity.
Qed.
Lemma mA_col_pairs : forall ks j s b, mA (fst (fst (col_pairs j ks s b))) = mA s.
Proof.
  induction ks as [|k ks IH]; simpl; intros j s b; [reflexivity|].
  pose proof (mA_col_pair j k s b) as X. destruct (col_pair j k s b) as [[s1 b1] res]. cbn [fst] in X.
  destruct res; cbn [fst]; auto. rewrite IH. exact X.
Qed.
Lemma mA_col_bin : forall bin s, mA (fst (process_col_bin bin s)) = mA s.
Proof.
  induction bin as [|j rest IH]; intros s; simpl; [reflexivity|].
  destruct rest as [|k0 rest0] eqn:ER; [reflexivity|]. rewrite <- ER in *.
  destruct (t_cinact (ct s j)); [apply IH|].
  pose proof (mA_col_pairs rest j s false) as X. destruct (col_pairs j rest s false) as [[s1 rec] res]. cbn [fst] in X.
  destruct res; [|
    |exact X]; rewrite IH; (destruct rec; [rewrite (ss_A _ _ (recount_same j s1))|]; exact X).
Qed.
Lemma mA_fold_or : forall X (f : state -> X -> state * status) l s st, (forall s x, mA (fst (f s x)) = mA s) -> mA (fst (fold_or f l s st)) = mA s.
Proof.
  intros X f. induction l as [|x l IH]; intros s st H; cbn [fold_or]; [reflexivity|].
  pose proof (H s x) as Y. destruct (f s x) as [s1 st1]. cbn [fst] in Y. rewrite IH; auto.
Qed.
Lemma Keep_par_cols : forall s, Inv s -> w_ston_rows s = [] -> Keep s (fst (remove_parallel_cols s)).
Proof.
  intros s H WT. unfold remove_parallel_cols, remove_parallel_cols_with.
  pose proof (hash_bins_ok (mAT s) (fun i => t_cinact (ct s i)) (nc s)) as BO.
  set (bins := hash_bins _ _ _) in *.
  pose proof (col_groups_stp (groups_of (mAT s) bins) s UNCHANGED H) as X.
  pose proof (mA_fold_or _ (fun s g => process_col_bin g s) (groups_of (mAT s) bins) s UNCHANGED (fun t g => mA_col_bin g t)) as A.
  destruct (fold_or _ _ s UNCHANGED) as [s1 st]. destruct X as [S1 [[F1 F2] E]].
  { intros g k Hg Hk. apply groups_in in Hg. destruct Hg as [b [Hb ->]].
    apply (bo_lt _ _ _ BO b k Hb). eapply fpr_in; eauto. }
  cbn [fst] in *. eapply Keep_trans; [apply Keep_eq; [apply S1|exact A]|]. apply Keep_clean; [apply S1|right; congruence].
Qed.
Lemma Sub_par_cols : forall s, Sub s (fst (remove_parallel_cols s)).
Proof.
  intros s. unfold remove_parallel_cols, remove_parallel_cols_with.
  set (bins := hash_bins _ _ _) in *.
  pose proof (mA_fold_or _ (fun s g => process_col_bin g s) (groups_of (mAT s) bins) s UNCHANGED (fun t g => mA_col_bin g t)) as A.
  destruct (fold_or _ _ s UNCHANGED) as [s1 st]. cbn [fst] in *. eapply Sub_trans; [apply Sub_eq; exact A|apply Sub_clean].
Qed.

(** ** Reached states *)
Lemma common_kept : forall stgs f s, Ok s -> In f (common_steps stgs) -> Keep s (fst (f s)) /\ Sub s (fst (f s)).
Proof.
  intros stgs f s [H Q N] IN. assert (Q3 := q_sub _ Q).
  unfold common_steps in IN. rewrite !in_app_iff in IN. destruct IN as [IN|[IN|[IN|IN]]].
  - destruct IN as [<-|[<-|[<-|[<-|[]]]]].
    + split; [apply Keep_close_bounds; auto|apply Sub_close_bounds].
    + split; [apply Keep_empty_cols; auto|apply Sub_empty_cols].
    + split; [apply Keep_ston_rows; auto|apply Sub_ston_rows].
    + split; [apply Keep_empty_rows; auto|apply Sub_empty_rows].
  - destruct (dual_fix_on stgs); [|contradiction]. destruct IN as [<-|[]]. split; [apply Keep_dual_fix; auto|apply Sub_dual_fix].
  - destruct (ston_cols_on stgs); [|contradiction]. destruct IN as [<-|[]]. split; [apply Keep_ston_cols; auto|apply Sub_ston_cols].
  - destruct (primal_propagation_on stgs); [|contradiction]. destruct IN as [<-|[<-|[]]].
    + split; [apply Keep_check_acts; auto|apply Sub_check_acts].
    + split; [apply Keep_propagate; auto|apply Sub_propagate].
Qed.
Lemma reached_kept : forall stgs fits P s, wf_input P -> dton_eq_on stgs = false -> reached stgs fits P s ->
  Keep (new_presolver P) s /\ Sub (new_presolver P) s.
Proof.
  intros stgs fits P s WF CK1 R.
  induction R as [|f s s' st IN R [IH1 IH2] E NT|s s' st ON C R [IH1 IH2] E NT|s s' st ON C R [IH1 IH2] E NT|s s' st ON R IH E NT TN].
  - split; [apply Keep_refl|apply Sub_refl].
  - destruct (common_kept stgs f s (proj1 (reached_ok _ _ _ _ WF R)) IN) as [X Y]. rewrite E in X, Y.
    split; [eapply Keep_trans|eapply Sub_trans]; eauto.
  - destruct (reached_ok _ _ _ _ WF R) as [[H Q N] _].
    pose proof (Keep_par_rows s H N Q C) as X. pose proof (Sub_par_rows s) as Y. rewrite E in X, Y.
    split; [eapply Keep_trans|eapply Sub_trans]; eauto.
  - destruct (reached_ok _ _ _ _ WF R) as [[H Q N] _].
    pose proof (Keep_par_cols s H C) as X. pose proof (Sub_par_cols s) as Y. rewrite E in X, Y.
    split; [eapply Keep_trans|eapply Sub_trans]; eauto.
  - congruence.
Qed.

(** ** The matrix *)
Lemma srt_ext : forall r r', srt r -> srt r' -> (forall e, In e r <-> In e r') -> r = r'.
Proof.
  induction r as [|[k a] r IH]; intros [|[k' a'] r'] H H' E; auto.
  - exfalso. apply (E (k', a')). left; reflexivity.
  - exfalso. apply (E (k, a)). left; reflexivity.
  - apply srt_inv in H. destruct H as [H L]. apply srt_inv in H'. destruct H' as [H' L'].
    assert (X : (k, a) = (k', a')).
    { destruct (proj1 (E (k, a)) (or_introl eq_refl)) as [X|X]; [auto|].
      destruct (proj2 (E (k', a')) (or_introl eq_refl)) as [Y|Y]; [auto|].
      apply L' in X. apply L in Y. cbn [fst] in *. lia. }
    injection X as <- <-. f_equal. apply IH; auto. intros e. split; intros He.
    + destruct (proj1 (E e) (or_intror He)) as [X|X]; [|exact X]. subst e. apply L in He. cbn [fst] in He. lia.
    + destruct (proj2 (E e) (or_intror He)) as [X|X]; [|exact X]. subst e. apply L' in He. cbn [fst] in He. lia.
Qed.
Lemma existsb_in : forall k l, existsb (Nat.eqb k) l = true <-> In k l.
Proof.
  intros k l. rewrite existsb_exists. split.
  - intros [x [H E]]. apply Nat.eqb_eq in E. subst; auto.
  - intros H. exists k. split; [exact H|apply Nat.eqb_refl].
Qed.
Lemma filter_self : forall p n, filter p (seq 0 n) = filter (fun i => existsb (Nat.eqb i) (filter p (seq 0 n))) (seq 0 n).
Proof.
  intros p n. apply filter_ext_in. intros i Hi. destruct (p i) eqn:E.
  - symmetry. apply existsb_in. apply filter_In. auto.
  - symmetry. apply not_true_is_false. intros X. apply existsb_in in X. apply filter_In in X. destruct X. congruence.
Qed.
Lemma reached_submatrix : forall stgs fits P s, wf_input P -> dton_eq_on stgs = false -> reached stgs fits P s ->
  submatrix (lp_of_input P) (reduced_lp s).
Proof.
  intros stgs fits P s WF D R. destruct (reached_kept _ _ _ _ WF D R) as [[M K] SB].
  destruct (reached_ok _ _ _ _ WF R) as [[H Q N] _]. assert (W := inv_0 s H).
  destruct (init_fields P) as (NR & NC & MA & _).
  pose proof (proj1 (new_presolver_Ok P WF)) as OK0. pose proof (inv_0 _ (ok_inv _ OK0)) as W0.
  assert (NR' : nr s = in_m P) by (rewrite (mo_nr _ _ M); exact NR).
  assert (NC' : nc s = in_n P) by (rewrite (mo_nc _ _ M); exact NC).
  constructor; cbn [lp_rows lp_cols lp_A reduced_lp lp_of_input].
  - unfold live_rows. rewrite NR'. apply filter_self.
  - unfold live_cols. rewrite NC'. apply filter_self.
  - intros i Hi. unfold live_rows in Hi. apply filter_In in Hi. destruct Hi as [Hi Ri].
    apply in_seq in Hi. apply negb_true_iff, Z.eqb_neq in Ri.
    assert (Hi' : (i < nr s)%nat) by lia.
    assert (T : t_inact (rt s i) = false).
    { destruct (t_inact (rt s i)) eqn:T; auto. exfalso.
      assert (X : In i (w_rows s)) by (apply (l_rows s (inv_L s H)); auto). rewrite (q_rows _ Q) in X. contradiction. }
    assert (S0 : srt (in_A P i)). { rewrite <- MA. apply (w_rsrt _ W0). rewrite NR. lia. }
    apply srt_ext; [apply (w_rsrt s W); auto|apply srt_filter; exact S0|].
    intros [k a]. unfold restricted. rewrite filter_In, existsb_in. cbn [fst]. split.
    + intros X. split; [rewrite <- MA; apply SB; exact X|]. apply filter_In.
      destruct (w_rin s W i k a Hi' X) as [Hk _]. split; [apply in_seq; lia|].
      apply negb_true_iff, Z.eqb_neq. eapply (inv_R s H); eauto.
    + intros [X Hk]. apply filter_In in Hk. destruct Hk as [Hk Ck]. apply in_seq in Hk. apply negb_true_iff, Z.eqb_neq in Ck.
      rewrite <- MA in X. destruct (K i k a ltac:(rewrite NR; lia) X) as [Y|[Y|Y]]; [congruence| |exact Y]. exfalso.
      destruct (l_pend s (inv_L s H) k ltac:(lia) Y Ck) as [Z|Z]; [rewrite (q_fixed _ Q) in Z|rewrite (q_sub _ Q) in Z]; contradiction.
Qed.
Lemma run_submatrix : forall stgs fits clock fuel P r, wf_input P -> dton_eq_on stgs = false ->
  run_presolver stgs fits clock fuel P = Some r -> res_reduced r = true ->
  submatrix (lp_of_input P) (reduced_lp (res_state r)).
Proof.
  intros stgs fits clock fuel P r WF D H Hr. destruct (run_reached _ _ _ _ _ _ WF D H Hr) as [s [R [-> _]]].
  eapply reached_submatrix; eauto.
Qed.
