(** Without dual fixing no column is sent to infinity. *)
From Coq Require Import NArith Lqa.
From Verif Require Import M_Num S_LP M_Settings M_Driver S_Driver M_State M_Act M_Core M_Simple
  M_StonCols M_Dton M_Parallel M_Propagate M_Init M_Post M_Run S_Run S_Struct S_Sem S_Sem4 S_Post S_Prim
  L_State L_Struct L_Sem L_Post2 L_Post6 L_Post7 L_Obj L_Obj2.
Import M_Driver.
Notation bad := M_State.bad.
Open Scope Q_scope.

Definition notinf (r : reduction) : bool := match r with FIXED_COL_INF _ _ _ _ | SUB_COL _ _ _ _ _ => false | _ => true end.
Definition NI (s : state) : Prop := forallb notinf (log s) = true.
Lemma NI_log : forall s s', log s' = log s -> NI s -> NI s'.
Proof. unfold NI. intros s s' ->. auto. Qed.
Lemma NI_ofr : forall s s', ofr s' = ofr s -> NI s -> NI s'.
Proof. intros s s' E. injection E as E1 E2 E3 E4 E5 E6 E7. apply NI_log; auto. Qed.
Lemma NI_rec : forall r s, notinf r = true -> NI s -> NI (record r s).
Proof. intros r s H N. unfold NI. cbn. rewrite H. exact N. Qed.
Lemma NI_acts : forall s s', acts_only s s' -> NI s -> NI s'.
Proof. intros s s' A. apply NI_ofr, ofr_acts, A. Qed.
Lemma NI_finish : forall s, NI s -> NI (delete_inactive_cols_from_A_and_AT (delete_fixed_cols_from_problem s)).
Proof.
  intros s. destruct (dfc_fields (w_fixed s) s) as [N _]. cbv zeta in N. fold (delete_fixed_cols_from_problem s) in N.
  injection N as N1 N2 N3 N4 N5 N6. destruct (dic_fields (delete_fixed_cols_from_problem s)) as (_&_&_&_&_&_&G). cbv zeta in G.
  apply NI_log. congruence.
Qed.
Lemma NI_dir : forall s, NI s -> NI (delete_inactive_rows s).
Proof. intros s. apply NI_ofr, ofr_dir. Qed.
Lemma NI_fix_col : forall k v c s, NI s -> NI (fst (fix_col k v c s)).
Proof.
  intros k v c s H. unfold fix_col. cbv zeta. destruct (_ || _); auto. cbn [fst].
  match goal with |- NI (update_activities_fixed_col ?a ?b ?d ?e ?f ?g ?h ?i ?t) =>
    apply (NI_acts t); [apply acts_only_fixed_col|] end. exact H.
Qed.
Lemma NI_row_inactive : forall i v s, NI s -> NI (set_row_to_inactive i v s).
Proof. intros i v s H. exact H. Qed.
Lemma NI_ulb : forall k v i s, NI s -> NI (fst (update_lb k v i s)).
Proof.
  intros k v i s H. unfold update_lb. cbv zeta. destruct (_ && _); auto. destruct (_ || _); auto. cbn [fst].
  apply NI_rec; [reflexivity|]. apply NI_rec; [reflexivity|].
  match goal with |- NI (set_ct1 _ _ ?t) => apply (NI_log t); [reflexivity|] end.
  eapply NI_acts; [apply acts_only_bound_change|]. exact H.
Qed.
Lemma NI_uub : forall k v i s, NI s -> NI (fst (update_ub k v i s)).
Proof.
  intros k v i s H. unfold update_ub. cbv zeta. destruct (_ && _); auto. destruct (_ || _); auto. cbn [fst].
  apply NI_rec; [reflexivity|]. apply NI_rec; [reflexivity|].
  match goal with |- NI (set_ct1 _ _ ?t) => apply (NI_log t); [reflexivity|] end.
  eapply NI_acts; [apply acts_only_bound_change|]. exact H.
Qed.
Lemma NI_for_until : forall st f l s, (forall i t, NI t -> NI (fst (f i t))) -> NI s -> NI (fst (for_until st f l s)).
Proof.
  induction l as [|i l IH]; simpl; intros s F H; auto. pose proof (F i s H) as X.
  destruct (f i s) as [s1 st1]. cbn [fst] in X. destruct (N.eqb _ _); auto.
Qed.
Lemma NI_stonrow : forall i s, NI s -> NI (fst (remove_stonrow i s)).
Proof.
  intros i s H. unfold remove_stonrow. destruct (mA s i) as [|[k a] l]; [destruct (t_fixed _); exact H|].
  destruct (t_fixed _) eqn:NF; [exact H|]. destruct (t_eq _).
  - pose proof (NI_fix_col k (fin (rhs s i) / a) (cst s k) s H) as X.
    destruct (fix_col _ _ _ _) as [s1 st]. cbn [fst] in X. destruct (N.eqb _ _); exact X.
  - cbv zeta. set (p1 := if t_rhs_inf _ then _ else _).
    assert (X1 : NI (fst p1)).
    { unfold p1. destruct (t_rhs_inf _); [auto|]. destruct (Qgtb _ _); auto using NI_uub, NI_ulb. }
    destruct p1 as [s1 st1]. cbn [fst] in X1. destruct (N.eqb _ _); [exact X1|].
    set (p2 := if t_lhs_inf _ then _ else _).
    assert (X2 : NI (fst p2)).
    { unfold p2. destruct (t_lhs_inf _); [exact X1|]. destruct (Qgtb _ _); auto using NI_uub, NI_ulb. }
    destruct p2 as [s2 st2]. cbn [fst] in X2. destruct (N.eqb _ _); exact X2.
Qed.
Lemma NI_ston_pass : forall b l s, NI s -> NI (fst (ston_pass b l s)).
Proof.
  induction l as [|i l IH]; simpl; intros s H; auto. destruct (if b then _ else _); auto.
  pose proof (NI_stonrow i s H) as X. destruct (remove_stonrow i s) as [s1 st]. cbn [fst] in X.
  destruct (N.eqb _ _); auto.
Qed.
Lemma NI_ston_rows : forall s, NI s -> NI (fst (remove_ston_rows s)).
Proof.
  intros s H. unfold remove_ston_rows. destruct (w_ston_rows s) as [|i l]; auto.
  pose proof (NI_ston_pass true (i :: l) s H) as X. destruct (ston_pass true _ s) as [s1 st1]. cbn [fst] in X.
  destruct (N.eqb _ _); auto.
  pose proof (NI_ston_pass false (i :: l) s1 X) as X2. destruct (ston_pass false _ s1) as [s2 st2]. cbn [fst] in X2.
  destruct (N.eqb _ _); auto. cbn [fst]. apply NI_finish, NI_dir. exact X2.
Qed.
Lemma NI_check_row : forall i s, NI s -> NI (fst (check_row i s)).
Proof.
  intros i s H. unfold check_row. destruct (_ || _); auto. destruct (check_activity _ _ _ _); auto.
  destruct (_ && _); [apply NI_row_inactive; exact H|].
  destruct lhs_red; [|destruct rhs_red; [|exact H]]; cbn [fst]; (eapply NI_ofr; [|exact H]).
  - change (ofr (set_lhs1 ?i ?v ?t)) with (ofr t). rewrite ofr_foldS; [reflexivity|]. intros; apply ofr_lock_lhs.
  - change (ofr (set_rhs1 ?i ?v ?t)) with (ofr t). rewrite ofr_foldS; [reflexivity|]. intros; apply ofr_lock_rhs.
Qed.
Lemma NI_check_acts : forall s, NI s -> NI (fst (check_activities s)).
Proof.
  intros s H. unfold check_activities. pose proof (NI_for_until INFEASIBLE check_row (w_acts s) s NI_check_row H) as X.
  destruct (for_until _ _ _ _) as [s1 st]. cbn [fst] in X. destruct (N.eqb _ _); cbn [fst]; auto using NI_dir.
Qed.
Lemma NI_empty_rows : forall s, NI s -> NI (fst (remove_empty_rows s)).
Proof.
  intros s H. unfold remove_empty_rows.
  assert (F : forall i t, NI t -> NI (fst (remove_empty_row i t))).
  { intros i t Ht. unfold remove_empty_row. destruct (_ || _); exact Ht. }
  pose proof (NI_for_until INFEASIBLE remove_empty_row (w_empty_rows s) s F H) as X.
  destruct (for_until _ _ _ _) as [s1 st]. cbn [fst] in X. destruct (N.eqb _ _); exact X.
Qed.
Lemma NI_empty_cols : forall s, NI s -> NI (fst (remove_empty_cols s)).
Proof.
  intros s H. unfold remove_empty_cols.
  assert (F : forall i t, NI t -> NI (fst (remove_empty_col i t))).
  { intros i t Ht. unfold remove_empty_col. destruct (Qeqb _ _); [exact Ht|].
    destruct (Qltb _ _); [destruct (t_ub_inf _)|destruct (t_lb_inf _)]; exact Ht. }
  pose proof (NI_for_until UNBNDORINFEAS remove_empty_col (w_empty_cols s) s F H) as X.
  destruct (for_until _ _ _ _) as [s1 st]. cbn [fst] in X. destruct (N.eqb _ _); exact X.
Qed.
Lemma NI_close_bounds : forall s, NI s -> NI (fst (remove_variables_with_close_bounds s)).
Proof.
  intros s H. unfold remove_variables_with_close_bounds.
  assert (F : forall i t, NI t -> NI (fst (close_bounds_col i t))).
  { intros i t Ht. unfold close_bounds_col. destruct (_ || _); [exact Ht|].
    destruct (IS_EQUAL_FEAS_TOL _ _); [cbn [fst]; apply NI_fix_col; auto|]. destruct (Qgtb _ _); exact Ht. }
  pose proof (NI_for_until INFEASIBLE close_bounds_col (seq 0 (nc s)) s F H) as X.
  destruct (for_until _ _ _ _) as [s1 st]. cbn [fst] in X. destruct (N.eqb _ _); cbn [fst]; auto using NI_finish.
Qed.

(** ** Propagation *)
Lemma NI_ubp : forall b k v t, NI t -> NI (fst (update_ub_prop b k v t)).
Proof.
  intros b k v t H. unfold update_ub_prop. cbv zeta. destruct (_ && _); auto.
  destruct (negb (t_lb_inf (ct t k)) && (_ || _)); [cbn [fst]; apply NI_fix_col; exact H|].
  destruct (t_ub_inf (ct t k) || _); [|exact H]. cbn [fst]. apply NI_rec; [reflexivity|].
  eapply NI_acts; [apply acts_only_bound_change|]. exact H.
Qed.
Lemma NI_lbp : forall b k v t, NI t -> NI (fst (update_lb_prop b k v t)).
Proof.
  intros b k v t H. unfold update_lb_prop. cbv zeta. destruct (_ && _); auto.
  destruct (negb (t_ub_inf (ct t k)) && (_ || _)); [cbn [fst]; apply NI_fix_col; exact H|].
  destruct (t_lb_inf (ct t k) || _); [|exact H]. cbn [fst]. apply NI_rec; [reflexivity|].
  eapply NI_acts; [apply acts_only_bound_change|]. exact H.
Qed.
Definition TNI (p : tight) : Prop := NI (fst (fst p)).
Lemma TNI_ub : forall b k v p, TNI p -> TNI (try_ub b k v p).
Proof. intros b k v [[t st] n] H. unfold try_ub. destruct (_ && _); auto. unfold TNI, tally. cbn [fst]. apply NI_ubp, H. Qed.
Lemma TNI_lb : forall b k v p, TNI p -> TNI (try_lb b k v p).
Proof. intros b k v [[t st] n] H. unfold try_lb. destruct (_ && _); auto. unfold TNI, tally. cbn [fst]. apply NI_lbp, H. Qed.
Lemma TNI_fold : forall (f : tight -> nat * Q -> tight) r p, (forall q e, TNI q -> TNI (f q e)) -> TNI p -> TNI (fold_left f r p).
Proof. induction r as [|e r IH]; intros p F H; cbn [fold_left]; auto. Qed.
Lemma TNI_rhs : forall b i r p, TNI p -> TNI (tighten_rhs b i r p).
Proof.
  intros b i r [[t st] n] H. unfold tighten_rhs. cbv zeta. destruct (negb _ && _).
  - apply TNI_fold; auto. intros [[t1 st1] n1] [k a] Q. unfold rhs_entry. destruct (t_cinact _); auto.
    destruct (Qgtb _ _); auto using TNI_ub, TNI_lb.
  - destruct ((negb _ || _) && _); auto. destruct (find_inf _ _ _ _) as [[k a]|]; auto.
    destruct (Qgtb a 0); auto using TNI_ub, TNI_lb.
Qed.
Lemma TNI_lhs : forall b i r p, TNI p -> TNI (tighten_lhs b i r p).
Proof.
  intros b i r [[t st] n] H. unfold tighten_lhs. cbv zeta. destruct (negb _ && _).
  - apply TNI_fold; auto. intros [[t1 st1] n1] [k a] Q. unfold lhs_entry. destruct (t_cinact _); auto.
    destruct (Qgtb _ _); auto using TNI_ub, TNI_lb.
  - destruct ((negb _ || _) && _); auto. destruct (find_inf _ _ _ _) as [[k a]|]; auto.
    destruct (Qgtb a 0); auto using TNI_ub, TNI_lb.
Qed.
Lemma NI_single : forall b i s, NI s -> NI (fst (bound_tightening_single_row b i s)).
Proof.
  intros b i s H. unfold bound_tightening_single_row. cbv zeta.
  pose proof (TNI_lhs b i (row_view s i) _ (TNI_rhs b i (row_view s i) (s, UNCHANGED, O) H)) as X.
  destruct (tighten_lhs _ _ _ _) as [[s1 st] n]. unfold TNI in X. cbn [fst] in *. destruct n; exact X.
Qed.
Lemma NI_loop : forall b f ii s, NI s -> NI (fst (prop_loop b f ii s)).
Proof.
  induction f as [|f IH]; intros ii s H; cbn [prop_loop]; (destruct (nth_error _ _) as [i|]; [|exact H]); [exact H|].
  destruct (skip_row s i); [auto|].
  pose proof (NI_single b i (set_ast i PROPAGATED_THIS_ROUND s) H) as X.
  destruct (bound_tightening_single_row _ _ _) as [s1 st]. cbn [fst] in X. destruct (HAS_STATUS _ _); auto.
Qed.
Lemma NI_propagate : forall b s, NI s -> NI (fst (propagate_primal b s)).
Proof.
  intros b s H. unfold propagate_primal. pose proof (NI_loop b (length (w_acts s) + 2 * nr s) 0 s H) as X.
  destruct (prop_loop _ _ _ _) as [s1 st]. cbn [fst] in X. destruct (N.eqb _ _); auto. cbv zeta.
  assert (Y : NI (next_round s1)).
  { revert X. apply NI_ofr. unfold next_round. cbv zeta. change (ofr (set_w_acts ?l ?t)) with (ofr t).
    rewrite ofr_foldS by reflexivity. apply ofr_foldS. reflexivity. }
  pose proof (NI_empty_rows _ (NI_finish _ Y)) as Z. destruct (remove_empty_rows _) as [s4 st4]. cbn [fst] in Z.
  destruct (N.eqb _ _); exact Z.
Qed.
Lemma NI_known : forall s, NI s -> neighbours_known (log s).
Proof.
  intros s H later pos k b rows earlier E. exfalso. unfold NI in H. rewrite E, forallb_app in H. cbn in H.
  rewrite andb_false_r in H. discriminate.
Qed.
Lemma reached_NI : forall stgs fits P s, wf_input P -> values_kept stgs -> dual_fix_on stgs = false -> reached stgs fits P s -> NI s.
Proof.
  intros stgs fits P s WF VK DF R. induction R as [|f s s' st IN R IH E _|s s' st ON _ R IH E _|s s' st ON _ R IH E _|s s' st ON R IH E _ _].
  - unfold NI. destruct (init_fields P) as (_ & _ & _ & _ & _ & L0 & _). rewrite L0. reflexivity.
  - assert (X : NI (fst (f s))); [|rewrite E in X; exact X].
    unfold common_steps in IN. destruct VK as [_ [_ SC]]. rewrite SC, DF in IN. cbn [app] in IN.
    destruct IN as [<-|[<-|[<-|[<-|IN]]]]; auto using NI_close_bounds, NI_empty_cols, NI_ston_rows, NI_empty_rows.
    destruct (primal_propagation_on stgs); [|contradiction].
    destruct IN as [<-|[<-|[]]]; auto using NI_check_acts, NI_propagate.
  - destruct VK as [_ [PR _]]. congruence.
  - destruct VK as [[_ PC] _]. congruence.
  - destruct VK as [[DT _] _]. congruence.
Qed.
Lemma run_known : forall stgs fits clock fuel P r, wf_input P -> values_kept stgs -> dual_fix_on stgs = false ->
  run_presolver stgs fits clock fuel P = Some r -> res_reduced r = true -> neighbours_known (log (res_state r)).
Proof.
  intros stgs fits clock fuel P r WF VK DF H Hr.
  destruct (run_reached _ _ _ _ _ _ WF (proj1 (proj1 VK)) H Hr) as [s [R [L [LG E]]]]. rewrite LG.
  eapply NI_known, reached_NI; eauto.
Qed.
Lemma NI_invertible : forall s, NI s -> Forall invertible (log s).
Proof.
  intros s H. unfold NI in H. rewrite forallb_forall in H. apply Forall_forall. intros r Hr. specialize (H r Hr).
  destruct r; cbn in *; auto; discriminate.
Qed.
Lemma run_invertible : forall stgs fits clock fuel P r, wf_input P -> values_kept stgs -> dual_fix_on stgs = false ->
  run_presolver stgs fits clock fuel P = Some r -> res_reduced r = true -> Forall invertible (log (res_state r)).
Proof.
  intros stgs fits clock fuel P r WF VK DF H Hr.
  destruct (run_reached _ _ _ _ _ _ WF (proj1 (proj1 VK)) H Hr) as [s [R [L [LG E]]]]. rewrite LG.
  eapply NI_invertible, reached_NI; eauto.
Qed.
