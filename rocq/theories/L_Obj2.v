(** The objective value along the simple reductions, dual fixing and parallel rows. *)
From Coq Require Import NArith Lqa.
From Verif Require Import M_Num S_LP M_Settings M_Driver S_Driver M_State M_Act M_Core M_Simple
  M_StonCols M_Dton M_Parallel M_Propagate M_Init M_Post M_Run S_Run S_Struct S_Sem S_Sem4 S_Post
  L_State L_Struct L_Sem L_Post2 L_Obj.
Import M_Driver.
Notation bad := M_State.bad.
Open Scope Q_scope.

(** The part of the state the objective depends on *)
Definition ofr (s : state) := (nc s, ct s, cst s, off s, w_fixed s, ub s, log s).
Lemma ofr_foldS : forall X (f : state -> X -> state) l s, (forall t x, ofr (f t x) = ofr t) -> ofr (foldS f l s) = ofr s.
Proof. induction l as [|x l IH]; intros s H; simpl; auto. rewrite IH; auto. Qed.
Lemma ofr_acts : forall s s', acts_only s s' -> ofr s' = ofr s.
Proof. intros s s' [x [y ->]]. reflexivity. Qed.
Lemma ofr_locks : forall s s', locks_only s s' -> ofr s' = ofr s.
Proof. intros s s' [x [y ->]]. reflexivity. Qed.
Lemma ofr_lock_coeff : forall d r l j a s, ofr (lock_coeff d r l j a s) = ofr s.
Proof. intros. unfold lock_coeff, lock_rhs, lock_lhs. destruct r, l; destruct (Qgtb a 0); reflexivity. Qed.
Lemma ofr_lock_lhs : forall d j a s, ofr (lock_lhs d j a s) = ofr s.
Proof. intros. unfold lock_lhs. destruct (Qgtb a 0); reflexivity. Qed.
Lemma ofr_lock_rhs : forall d j a s, ofr (lock_rhs d j a s) = ofr s.
Proof. intros. unfold lock_rhs. destruct (Qgtb a 0); reflexivity. Qed.
Lemma ofr_delete_row : forall s i, ofr (delete_row s i) = ofr s.
Proof.
  intros. unfold delete_row. destruct (_ =? _)%Z; [reflexivity|]. cbv zeta.
  change (ofr (setA i [] ?t)) with (ofr t). rewrite ofr_foldS; [reflexivity|].
  intros t x. destruct (_ =? _)%Z; auto. rewrite ofr_lock_coeff. reflexivity.
Qed.
Lemma ofr_compact_col : forall s i, ofr (compact_col s i) = ofr s.
Proof.
  intros. unfold compact_col. destruct (_ || _); auto. destruct (_ =? _)%Z; [reflexivity|]. cbv zeta.
  destruct (_ =? _)%Z; reflexivity.
Qed.
Lemma ofr_delete_col : forall s i, ofr (delete_col s i) = ofr s.
Proof.
  intros. unfold delete_col. cbv zeta. change (ofr (setAT i [] ?t)) with (ofr t). rewrite ofr_foldS; [reflexivity|].
  intros t x. destruct (_ =? _)%Z; auto.
Qed.
Lemma ofr_compact_row : forall s i, ofr (compact_row s i) = ofr s.
Proof.
  intros. unfold compact_row. destruct (_ || _); auto. destruct (_ =? _)%Z; [reflexivity|]. cbv zeta.
  destruct (_ =? _)%Z; [reflexivity|]. destruct (_ && _); reflexivity.
Qed.
Lemma ofr_dir : forall s, ofr (delete_inactive_rows s) = ofr s.
Proof.
  intros. unfold delete_inactive_rows. destruct (w_rows s); auto. change (ofr (set_w_rows [] ?t)) with (ofr t).
  rewrite ofr_foldS by apply ofr_compact_col. apply ofr_foldS, ofr_delete_row.
Qed.
Lemma dic_fields : forall s, let s' := delete_inactive_cols_from_A_and_AT s in
  nc s' = nc s /\ ct s' = ct s /\ cst s' = cst s /\ off s' = off s /\ w_fixed s' = [] /\ ub s' = ub s /\ log s' = log s.
Proof.
  intros s. cbv zeta. unfold delete_inactive_cols_from_A_and_AT. cbv zeta.
  set (s1 := foldS compact_row _ _).
  assert (E : ofr s1 = ofr s).
  { unfold s1. rewrite ofr_foldS by apply ofr_compact_row. rewrite ofr_foldS by apply ofr_delete_col. apply ofr_foldS, ofr_delete_col. }
  clearbody s1. injection E as E1 E2 E3 E4 E5 E6 E7. sr. repeat split; auto.
Qed.
Definition nfr (s : state) := (nc s, ct s, cst s, w_fixed s, ub s, log s).
Lemma ofr_shift : forall v s e, ofr (shift_sides v s e) = ofr s.
Proof.
  intros. unfold shift_sides. cbv zeta. destruct (t_inact _); auto. change (ofr (set_act1 ?i ?a ?t)) with (ofr t).
  destruct (t_lhs_inf (rt s (fst e))); sr; destruct (t_rhs_inf (rt s (fst e))); reflexivity.
Qed.
Lemma dfc_fields : forall l s, let s' := foldS delete_fixed_col_from_problem l s in
  nfr s' = nfr s /\ off s' == off s + sumQ l (fun k => cst s k * fin (ub s k)).
Proof.
  induction l as [|k l IH]; intros s; cbv zeta; cbn [foldS sumQ]; [split; [reflexivity|lra]|].
  set (s1 := delete_fixed_col_from_problem s k).
  assert (E : nfr s1 = nfr s /\ off s1 == off s + cst s k * fin (ub s k)).
  { unfold s1, delete_fixed_col_from_problem. cbv zeta. destruct (Qeqb _ 0) eqn:Q; qb.
    - split; [reflexivity|]. rewrite Q. lra.
    - pose proof (ofr_foldS _ (shift_sides (fin (ub s k))) (mAT s k) s (fun t x => ofr_shift _ t x)) as X.
      set (s2 := foldS _ _ s) in *. clearbody s2. injection X as E1 E2 E3 E4 E5 E6 E7.
      unfold fix_var_in_obj, nfr. sr. split; [congruence|]. rewrite E4, E3. lra. }
  clearbody s1. destruct E as [E1 E2]. destruct (IH s1) as [I1 I2]. cbv zeta in *. split; [congruence|].
  rewrite I2, E2. injection E1 as N1 N2 N3 N4 N5 N6. rewrite N3, N5. lra.
Qed.

Section Walk.
Variable ob : (nat -> Q) -> Q.
Notation J := (L_Obj.J ob).
Lemma J_ofr : forall s s', ofr s' = ofr s -> J s -> J s'.
Proof. intros s s' E. injection E as E1 E2 E3 E4 E5 E6 E7. apply jsame_eq; auto. Qed.
Lemma J_foldS : forall X (f : state -> X -> state) l s, (forall t x, J t -> J (f t x)) -> J s -> J (foldS f l s).
Proof. intros. apply foldS_inv with (P := J); auto. Qed.
(** The fixed columns go into the offset *)
Lemma J_finish : forall s, J s -> J (delete_inactive_cols_from_A_and_AT (delete_fixed_cols_from_problem s)).
Proof.
  intros s H. destruct (dfc_fields (w_fixed s) s) as [N O]. cbv zeta in *. fold (delete_fixed_cols_from_problem s) in *.
  set (s1 := delete_fixed_cols_from_problem s) in *. clearbody s1.
  destruct (dic_fields s1) as (A & B & C & D & E & F & G). cbv zeta in *. set (s2 := delete_inactive_cols_from_A_and_AT s1) in *.
  clearbody s2. injection N as N1 N2 N3 N4 N5 N6.
  intros FR. rewrite A, G, N1, N6 in FR. destruct (H FR) as (I1 & I2 & I3 & I4). split; [|split; [|split]].
  - rewrite A, B, G, N1, N2, N6. auto.
  - rewrite E. contradiction.
  - rewrite E. contradiction.
  - rewrite G, N6. intros x x' R. rewrite (I4 x x' R). unfold pobj. rewrite E, D, O, A, N1. cbn [sumQ].
    rewrite (sumQ_ext (seq 0 (nc s)) (aterm s2 x) (aterm s x)); [lra|].
    intros k _. unfold aterm. rewrite B, N2, C, N3. lra.
Qed.
Lemma J_dir : forall s, J s -> J (delete_inactive_rows s).
Proof. intros s. apply J_ofr, ofr_dir. Qed.

Lemma J_fix_col : forall k v c s, J s -> J (fst (fix_col k v c s)).
Proof.
  intros k v c s H. unfold fix_col. cbv zeta. destruct (_ || _); auto. cbn [fst].
  match goal with |- J (update_activities_fixed_col ?a ?b ?d ?e ?f ?g ?h ?i ?t) =>
    apply (J_ofr t); [apply ofr_acts, acts_only_fixed_col|] end.
  apply (J_fix ob s _ k v c (mAT s k) true); auto.
  - intros j N. unfold set_col_to_fixed. sr. rewrite upd_other by auto. auto.
  - unfold set_col_to_fixed. sr. rewrite upd_same. reflexivity.
  - intros j N. sr. rewrite upd_other by auto. reflexivity.
  - unfold set_col_to_fixed. sr. rewrite upd_same. auto.
Qed.
Lemma J_row_inactive : forall i v s, J s -> J (set_row_to_inactive i v s).
Proof. intros i v s H. unfold set_row_to_inactive. apply J_rec; [reflexivity|]. exact H. Qed.
Lemma inf_rows_frame : forall rows s, let s' := foldS (fun s (e : nat * Q) => if t_inact (rt s (fst e)) then s
                              else set_row_to_inactive (fst e) 0 s) rows s in
  nc s' = nc s /\ ct s' = ct s /\ cst s' = cst s /\ off s' = off s /\ w_fixed s' = w_fixed s /\ ub s' = ub s /\
  exists new, log s' = new ++ log s /\ forallb keepx new = true.
Proof.
  induction rows as [|e rows IH]; intros s; cbv zeta; cbn [foldS]; [repeat split; exists []; auto|].
  set (s1 := if t_inact _ then s else _).
  assert (E : nc s1 = nc s /\ ct s1 = ct s /\ cst s1 = cst s /\ off s1 = off s /\ w_fixed s1 = w_fixed s /\ ub s1 = ub s /\
     exists new, log s1 = new ++ log s /\ forallb keepx new = true).
  { unfold s1. destruct (t_inact _); [repeat split; exists []; auto|]. repeat split. exists [DELETED_ROW (fst e) 0]. split; reflexivity. }
  clearbody s1. specialize (IH s1). cbv zeta in IH.
  destruct E as (A1&A2&A3&A4&A5&A6&n1&A7&A8). destruct IH as (B1&B2&B3&B4&B5&B6&n2&B7&B8).
  repeat split; try congruence. exists (n2 ++ n1). rewrite B7, A7, app_assoc. split; auto. rewrite forallb_app, A8, B8. reflexivity.
Qed.
Lemma J_inf : forall p k s, cst s k == 0 -> J s -> J (fix_col_to_inf p k s).
Proof.
  intros p k s C0 H. unfold fix_col_to_inf. cbv zeta.
  set (s1 := record (FIXED_COL_INF _ _ _ _) s).
  pose proof (inf_rows_frame (mAT s k) s1) as X. cbv zeta in X. set (s2 := foldS _ _ s1) in *. clearbody s2.
  destruct X as (A1&A2&A3&A4&A5&A6&n&A7&A8).
  apply (J_free ob s _ k p (if p then lb s k else ub s k) (inf_rows s k) n); sr; auto.
  - intros j N. rewrite !upd_other by auto. rewrite A2. auto.
  - rewrite upd_same. unfold t_cinact. cbn. reflexivity.
  - intros j N. rewrite upd_other by auto. rewrite A6. auto.
Qed.
Lemma inf_cst : forall p k s, cst (fix_col_to_inf p k s) = cst s.
Proof.
  intros p k s. unfold fix_col_to_inf. cbv zeta.
  set (s1 := record (FIXED_COL_INF _ _ _ _) s).
  pose proof (inf_rows_frame (mAT s k) s1) as X. cbv zeta in X. set (s2 := foldS _ _ s1) in *. clearbody s2.
  destruct X as (A1&A2&A3&_). exact A3.
Qed.

(** Bounds of columns that are not fixed *)
Lemma J_not_listed : forall s k, JC ob s -> t_fixed (ct s k) = false -> ~ In k (w_fixed s).
Proof. intros s k H T C. apply (proj1 (proj2 H)) in C. congruence. Qed.
Lemma J_guard : forall s s', (JC ob s -> J s -> J s') -> removed_cols (log s') = removed_cols (log s) -> nc s' = nc s -> J s -> J s'.
Proof. intros s s' X E N H FR. rewrite E, N in FR. pose proof (H FR). apply X; auto. rewrite E, N. auto. Qed.
Lemma J_ulb : forall k v i s, J s -> J (fst (update_lb k v i s)).
Proof.
  intros k v i s H. unfold update_lb. cbv zeta. destruct (_ && _); auto. destruct (_ || _); auto. cbn [fst].
  destruct (acts_only_bound_change (mAT s k) (lb s k) v (negb (t_lb_inf (ct s k))) true (set_lb1 k (Fin v) s)) as [x [y ->]].
  revert H. apply jsame_J. constructor; sr; auto.
  - intros j. updg; auto.
  - intros j. updg; auto.
  - eexists [_; _]. split; [cbn [app]; sr; reflexivity|reflexivity].
Qed.
Lemma J_uub : forall k v i s, t_fixed (ct s k) = false -> J s -> J (fst (update_ub k v i s)).
Proof.
  intros k v i s NF H. unfold update_ub. cbv zeta. destruct (_ && _); auto. destruct (_ || _); auto. cbn [fst].
  destruct (acts_only_bound_change (mAT s k) (ub s k) v (negb (t_ub_inf (ct s k))) false (set_ub1 k (Fin v) s)) as [x [y ->]].
  revert H. apply J_guard; [|reflexivity|reflexivity]. intros JS. apply jsame_J. constructor; sr; auto.
  - intros j. updg; auto.
  - intros j. updg; auto.
  - intros j Hj. unfold upd. destruct (Nat.eqb_spec j k) as [->|]; auto. destruct (J_not_listed s k JS NF Hj).
  - eexists [_; _]. split; [cbn [app]; sr; reflexivity|reflexivity].
Qed.
Lemma ulb_fixed : forall k v i s, t_fixed (ct (fst (update_lb k v i s)) k) = t_fixed (ct s k).
Proof.
  intros k v i s. unfold update_lb. cbv zeta. destruct (_ && _); auto. destruct (_ || _); auto. cbn [fst].
  destruct (acts_only_bound_change (mAT s k) (lb s k) v (negb (t_lb_inf (ct s k))) true (set_lb1 k (Fin v) s)) as [x [y ->]].
  sr. updg; auto.
Qed.
Lemma uub_fixed : forall k v i s, t_fixed (ct (fst (update_ub k v i s)) k) = t_fixed (ct s k).
Proof.
  intros k v i s. unfold update_ub. cbv zeta. destruct (_ && _); auto. destruct (_ || _); auto. cbn [fst].
  destruct (acts_only_bound_change (mAT s k) (ub s k) v (negb (t_ub_inf (ct s k))) false (set_ub1 k (Fin v) s)) as [x [y ->]].
  sr. updg; auto.
Qed.

(** ** Loops *)
Lemma J_for_until : forall st f l s, (forall i t, J t -> J (fst (f i t))) -> J s -> J (fst (for_until st f l s)).
Proof.
  induction l as [|i l IH]; simpl; intros s F H; auto. pose proof (F i s H) as X.
  destruct (f i s) as [s1 st1]. cbn [fst] in X. destruct (N.eqb _ _); auto.
Qed.

(** ** The simple reductions *)
Lemma J_stonrow : forall i s, J s -> J (fst (remove_stonrow i s)).
Proof.
  intros i s H. unfold remove_stonrow. destruct (mA s i) as [|[k a] l]; [destruct (t_fixed _); exact H|].
  destruct (t_fixed _) eqn:NF; [exact H|]. destruct (t_eq _).
  - pose proof (J_fix_col k (fin (rhs s i) / a) (cst s k) s H) as X.
    destruct (fix_col _ _ _ _) as [s1 st]. cbn [fst] in X. destruct (N.eqb _ _); [exact X|]. cbn [fst].
    apply J_rec; [reflexivity|]. apply J_rec; [reflexivity|]. revert X. apply J_ofr. reflexivity.
  - cbv zeta. set (p1 := if t_rhs_inf _ then _ else _).
    assert (X1 : J (fst p1) /\ t_fixed (ct (fst p1) k) = false).
    { unfold p1. destruct (t_rhs_inf _); [auto|]. destruct (Qgtb _ _).
      - rewrite uub_fixed. auto using J_uub.
      - rewrite ulb_fixed. auto using J_ulb. }
    destruct p1 as [s1 st1]. cbn [fst] in X1. destruct X1 as [X1 NF1]. destruct (N.eqb _ _); [exact X1|].
    set (p2 := if t_lhs_inf _ then _ else _).
    assert (X2 : J (fst p2)).
    { unfold p2. destruct (t_lhs_inf _); [exact X1|]. destruct (Qgtb _ _); auto using J_uub, J_ulb. }
    destruct p2 as [s2 st2]. cbn [fst] in X2. destruct (N.eqb _ _); [exact X2|]. apply J_row_inactive. exact X2.
Qed.
Lemma J_ston_pass : forall b l s, J s -> J (fst (ston_pass b l s)).
Proof.
  induction l as [|i l IH]; simpl; intros s H; auto. destruct (if b then _ else _); auto.
  pose proof (J_stonrow i s H) as X. destruct (remove_stonrow i s) as [s1 st]. cbn [fst] in X.
  destruct (N.eqb _ _); auto.
Qed.
Lemma J_ston_rows : forall s, J s -> J (fst (remove_ston_rows s)).
Proof.
  intros s H. unfold remove_ston_rows. destruct (w_ston_rows s) as [|i l]; auto.
  pose proof (J_ston_pass true (i :: l) s H) as X. destruct (ston_pass true _ s) as [s1 st1]. cbn [fst] in X.
  destruct (N.eqb _ _); auto.
  pose proof (J_ston_pass false (i :: l) s1 X) as X2. destruct (ston_pass false _ s1) as [s2 st2]. cbn [fst] in X2.
  destruct (N.eqb _ _); auto. cbn [fst]. apply J_finish, J_dir. exact X2.
Qed.
Lemma J_check_row : forall i s, J s -> J (fst (check_row i s)).
Proof.
  intros i s H. unfold check_row. destruct (_ || _); auto. destruct (check_activity _ _ _ _); auto.
  destruct (_ && _); [apply J_row_inactive; exact H|].
  destruct lhs_red; [|destruct rhs_red; [|exact H]]; cbn [fst]; (eapply J_ofr; [|exact H]).
  - change (ofr (set_lhs1 ?i ?v ?t)) with (ofr t). rewrite ofr_foldS; [reflexivity|]. intros; apply ofr_lock_lhs.
  - change (ofr (set_rhs1 ?i ?v ?t)) with (ofr t). rewrite ofr_foldS; [reflexivity|]. intros; apply ofr_lock_rhs.
Qed.
Lemma J_check_acts : forall s, J s -> J (fst (check_activities s)).
Proof.
  intros s H. unfold check_activities. pose proof (J_for_until INFEASIBLE check_row (w_acts s) s J_check_row H) as X.
  destruct (for_until _ _ _ _) as [s1 st]. cbn [fst] in X. destruct (N.eqb _ _); cbn [fst]; auto using J_dir.
Qed.
Lemma J_empty_rows : forall s, J s -> J (fst (remove_empty_rows s)).
Proof.
  intros s H. unfold remove_empty_rows.
  assert (F : forall i t, J t -> J (fst (remove_empty_row i t))).
  { intros i t Ht. unfold remove_empty_row. destruct (_ || _); [exact Ht|]. cbn [fst]. apply J_rec; [reflexivity|].
    revert Ht. apply J_ofr. reflexivity. }
  pose proof (J_for_until INFEASIBLE remove_empty_row (w_empty_rows s) s F H) as X.
  destruct (for_until _ _ _ _) as [s1 st]. cbn [fst] in X. destruct (N.eqb _ _); exact X.
Qed.
Lemma J_close_empty : forall k v s s0, J s -> nc s0 = nc s -> ct s0 = ct s -> cst s0 = cst s -> off s0 = off s ->
  w_fixed s0 = w_fixed s -> log s0 = log s -> (forall j, j <> k -> ub s0 j = ub s j) -> J (close_empty_col k v s0).
Proof.
  intros k v s s0 H A B C D E F G. unfold close_empty_col.
  apply (J_fix ob s _ k v (cst s k) [] false); sr; auto.
  - intros j N. rewrite upd_other by auto. rewrite B. auto.
  - rewrite upd_same. reflexivity.
  - rewrite D, C, E. split; [lra|auto].
  - rewrite C, F. reflexivity.
Qed.
Lemma J_empty_cols : forall s, J s -> J (fst (remove_empty_cols s)).
Proof.
  intros s H. unfold remove_empty_cols.
  assert (F : forall i t, J t -> J (fst (remove_empty_col i t))).
  { intros i t Ht. unfold remove_empty_col. destruct (Qeqb _ _); [cbn [fst]; apply (J_close_empty i _ t); auto|].
    destruct (Qltb _ _); [destruct (t_ub_inf _)|destruct (t_lb_inf _)]; cbn [fst]; auto;
    apply (J_close_empty i _ t); auto. intros j N. sr. apply upd_other; auto. }
  pose proof (J_for_until UNBNDORINFEAS remove_empty_col (w_empty_cols s) s F H) as X.
  destruct (for_until _ _ _ _) as [s1 st]. cbn [fst] in X. destruct (N.eqb _ _); exact X.
Qed.
Lemma J_close_bounds : forall s, J s -> J (fst (remove_variables_with_close_bounds s)).
Proof.
  intros s H. unfold remove_variables_with_close_bounds.
  assert (F : forall i t, J t -> J (fst (close_bounds_col i t))).
  { intros i t Ht. unfold close_bounds_col. destruct (_ || _); [exact Ht|].
    destruct (IS_EQUAL_FEAS_TOL _ _); [cbn [fst]; apply J_fix_col; auto|]. destruct (Qgtb _ _); exact Ht. }
  pose proof (J_for_until INFEASIBLE close_bounds_col (seq 0 (nc s)) s F H) as X.
  destruct (for_until _ _ _ _) as [s1 st]. cbn [fst] in X. destruct (N.eqb _ _); cbn [fst]; auto using J_finish.
Qed.

(** ** Dual fixing *)
Lemma J_dual_loop : forall l s ti st, J s -> (forall p k, In (p, k) ti -> cst s k == 0) ->
  let '(s', ti', _) := dual_fix_loop l s ti st in J s' /\ forall p k, In (p, k) ti' -> cst s' k == 0.
Proof.
  induction l as [|k l IH]; intros s ti st H Z; cbn [dual_fix_loop]; auto. destruct (_ || _); [apply IH; auto|].
  assert (X : let '(s', ti', _) := simple_dual_fix_col k s ti in J s' /\ forall p j, In (p, j) ti' -> cst s' j == 0).
  { unfold simple_dual_fix_col. cbv zeta.
    assert (C : forall v c, cst (fst (fix_col k v c s)) = cst s) by (intros v c; apply (fix_col_keep s k v c)).
    assert (FX : forall v, J (fst (fix_col k v (cst s k) s)) /\ forall p j, In (p, j) ti -> cst (fst (fix_col k v (cst s k) s)) j == 0).
    { intros v. rewrite C. split; auto using J_fix_col. }
    destruct (Qgtb _ _ && _); [destruct (t_lb_inf _); auto|].
    destruct (Qltb _ _ && _); [destruct (t_ub_inf _); auto|].
    destruct (Qeqb _ _) eqn:E; qb; auto.
    assert (AD : forall q, J s /\ forall p j, In (p, j) (ti ++ [(q, k)]) -> cst s j == 0).
    { intros q. split; auto. intros p j Hj. apply in_app_iff in Hj. destruct Hj as [Hj|[Hj|[]]]; eauto. injection Hj as <- <-. auto. }
    destruct (Z.eqb _ _); [destruct (t_lb_inf _); auto|]. destruct (Z.eqb _ _); [destruct (t_ub_inf _); auto|auto]. }
  destruct (simple_dual_fix_col k s ti) as [[s1 t1] st1]. destruct X as [X1 X2]. apply IH; auto.
Qed.
Lemma J_inf_steps : forall l s, J s -> (forall p k, In (p, k) l -> cst s k == 0) -> J (foldS inf_step l s).
Proof.
  induction l as [|[p k] l IH]; intros s H Z; cbn [foldS]; auto.
  assert (X : J (inf_step s (p, k)) /\ cst (inf_step s (p, k)) = cst s).
  { pose proof (Z p k (or_introl eq_refl)) as C0. unfold inf_step.
    destruct (_ =? _)%nat; [destruct (_ =? _)%Z; [|destruct (_ =? _)%Z; auto]|]; (split; [apply J_inf; auto|apply inf_cst]). }
  destruct X as [X1 X2]. apply IH; auto. intros q j Hj. rewrite X2. apply (Z q j). right; auto.
Qed.
Lemma J_dual_fix : forall s, J s -> J (fst (simple_dual_fix s)).
Proof.
  intros s H. unfold simple_dual_fix. pose proof (J_dual_loop (seq 0 (nc s)) s [] UNCHANGED H ltac:(contradiction)) as X.
  destruct (dual_fix_loop _ _ _ _) as [[s1 ti] st]. destruct X as [X1 X2]. cbn [fst]. apply J_finish, J_dir, J_inf_steps; auto.
Qed.

(** ** Parallel rows *)
Lemma J_crhs : forall i v o q s, J s -> J (fst (change_rhs_of_ineq i v o q s)).
Proof.
  intros i v o q s H. unfold change_rhs_of_ineq. cbv zeta. destruct (_ && _); auto. cbn [fst]. apply J_rec; [reflexivity|].
  set (s1 := if t_rhs_inf _ then _ else _).
  assert (X : J s1).
  { unfold s1. destruct (t_rhs_inf _); auto. eapply J_ofr; [|exact H]. apply ofr_locks, locks_only_ineq_to_eq. }
  destruct (_ && _); [|exact X]. destruct (_ =? _)%nat; exact X.
Qed.
Lemma J_clhs : forall i v o q s, J s -> J (fst (change_lhs_of_ineq i v o q s)).
Proof.
  intros i v o q s H. unfold change_lhs_of_ineq. cbv zeta. destruct (_ && _); auto. cbn [fst]. apply J_rec; [reflexivity|].
  set (s1 := if t_lhs_inf _ then _ else _).
  assert (X : J s1).
  { unfold s1. destruct (t_lhs_inf _); auto. eapply J_ofr; [|exact H]. apply ofr_locks, locks_only_ineq_to_eq. }
  destruct (_ && _); [|exact X]. destruct (_ =? _)%nat; exact X.
Qed.
Lemma J_row_bin : forall b s, J s -> J (fst (process_row_bin b s)).
Proof.
  intros [|i0 l] s H; [exact H|]. unfold process_row_bin. destruct (merge_loop _ _ _) as [m|]; [|exact H].
  cbv zeta. set (p1 := if _ && _ then _ else _).
  assert (X : J (fst p1)) by (unfold p1; destruct (_ && _); auto using J_crhs).
  destruct p1 as [s1 st1]. cbn [fst] in X. destruct (N.eqb _ _); [exact X|].
  set (p2 := if _ && _ then _ else _).
  assert (X2 : J (fst p2)) by (unfold p2; destruct (_ && _); auto using J_clhs).
  destruct p2 as [s2 st2]. cbn [fst] in X2. destruct (N.eqb _ _); [exact X2|]. cbn [fst].
  apply J_foldS; auto. intros t x Ht. destruct (_ =? _)%nat; [exact Ht|]. apply J_row_inactive. exact Ht.
Qed.
Lemma J_par_rows : forall s, J s -> J (fst (remove_parallel_rows s)).
Proof.
  intros s H. unfold remove_parallel_rows, remove_parallel_rows_with.
  set (gs := groups_of _ _). clearbody gs.
  assert (X : J (fst (process_row_bins gs s))).
  { revert s H. induction gs as [|g gs IH]; simpl; intros s H; auto.
    pose proof (J_row_bin g s H) as X. destruct (process_row_bin g s) as [s1 st]. cbn [fst] in X.
    destruct (N.eqb _ _); auto. }
  destruct (process_row_bins gs s) as [s1 st]. cbn [fst] in *. auto using J_dir.
Qed.
End Walk.
