(** Bounds and sides stay as long as nothing is removed, when propagation and singleton columns are off. *)
From Coq Require Import NArith Sorted.
From Verif Require Import M_Num S_LP M_Settings M_Driver S_Driver M_State M_Act M_Core M_Simple
  M_StonCols M_Dton M_Parallel M_Propagate M_Init M_Post M_Run S_Run S_Sem S_Sem4 S_Same
  L_State L_Struct L_Struct2 L_Struct3 L_Struct4 L_Struct5 L_Struct6 L_Struct7 L_Struct8 L_Struct10 L_Struct11 L_Init L_Sem L_Reach L_Post2 L_Post6 L_Post7 L_Obj2 L_Keep L_Same L_Same2.
Import M_Driver.
Notation bad := M_State.bad.
Open Scope Q_scope.

Definition Kb (s s' : state) : Prop := mono s s' /\ (bs s' = bs s \/ Gone s').
Lemma Kb_refl : forall s, Kb s s.
Proof. intros s. split; [apply mono_refl|auto]. Qed.
Lemma Kb_trans : forall a b c, Kb a b -> Kb b c -> Kb a c.
Proof.
  intros a b c [M1 D1] [M2 D2]. split; [eapply mono_trans; eauto|].
  destruct D2 as [A|G]; [|auto]. destruct D1 as [C|G]; [left; congruence|right; eapply Gone_mono; eauto].
Qed.
Lemma Kb_eq : forall s s', mono s s' -> bs s' = bs s -> Kb s s'.
Proof. intros s s' M A. split; auto. Qed.
Lemma Kb_col : forall s s' k, mono s s' -> (k < nc s)%nat -> t_cinact (ct s' k) = true -> Kb s s'.
Proof. intros s s' k M Hk T. split; auto. right; right. exists k. rewrite (mo_nc _ _ M). auto. Qed.
Lemma Kb_row : forall s s' i, mono s s' -> (i < nr s)%nat -> t_inact (rt s' i) = true -> Kb s s'.
Proof. intros s s' i M Hk T. split; auto. right; left. exists i. rewrite (mo_nr _ _ M). auto. Qed.
Lemma bs_foldS : forall X (f : state -> X -> state) l s, (forall s x, bs (f s x) = bs s) -> bs (foldS f l s) = bs s.
Proof.
  intros X f l s H. apply (foldS_inv _ _ (fun t => bs t = bs s)); auto.
  intros t x _ K. rewrite H; auto.
Qed.
Lemma bs_lock_lhs : forall d j a s, bs (lock_lhs d j a s) = bs s.
Proof. intros. unfold lock_lhs. destruct (Qgtb a 0); reflexivity. Qed.
Lemma bs_lock_rhs : forall d j a s, bs (lock_rhs d j a s) = bs s.
Proof. intros. unfold lock_rhs. destruct (Qgtb a 0); reflexivity. Qed.
Lemma bs_lock_coeff : forall d r l j a s, bs (lock_coeff d r l j a s) = bs s.
Proof.
  intros. unfold lock_coeff. destruct r, l; rewrite ?bs_lock_lhs, ?bs_lock_rhs; reflexivity.
Qed.
Lemma bs_delete_row : forall s i, bs (delete_row s i) = bs s.
Proof.
  intros. unfold delete_row. destruct (_ =? _)%Z; [reflexivity|]. cbv zeta.
  change (bs (setA i [] ?t)) with (bs t). rewrite bs_foldS; [reflexivity|].
  intros t x. destruct (_ =? _)%Z; auto. rewrite bs_lock_coeff. reflexivity.
Qed.
Lemma bs_compact_col : forall s i, bs (compact_col s i) = bs s.
Proof.
  intros. unfold compact_col. destruct (_ || _); auto. destruct (_ =? _)%Z; [reflexivity|]. cbv zeta.
  destruct (_ =? _)%Z; reflexivity.
Qed.
Lemma bs_delete_col : forall s i, bs (delete_col s i) = bs s.
Proof.
  intros. unfold delete_col. cbv zeta. change (bs (setAT i [] ?t)) with (bs t). rewrite bs_foldS; [reflexivity|].
  intros t x. destruct (_ =? _)%Z; auto.
Qed.
Lemma bs_compact_row : forall s i, bs (compact_row s i) = bs s.
Proof.
  intros. unfold compact_row. destruct (_ || _); auto. destruct (_ =? _)%Z; [reflexivity|]. cbv zeta.
  destruct (_ =? _)%Z; [reflexivity|]. destruct (_ && _); reflexivity.
Qed.
Lemma bs_dir : forall s, bs (delete_inactive_rows s) = bs s.
Proof.
  intros. unfold delete_inactive_rows. destruct (w_rows s); auto. change (bs (set_w_rows [] ?t)) with (bs t).
  rewrite bs_foldS by apply bs_compact_col. apply bs_foldS, bs_delete_row.
Qed.
Lemma bs_dic : forall s, bs (delete_inactive_cols_from_A_and_AT s) = bs s.
Proof.
  intros s. unfold delete_inactive_cols_from_A_and_AT. cbv zeta.
  set (s1 := foldS compact_row _ _).
  assert (E : bs s1 = bs s).
  { unfold s1. rewrite bs_foldS by apply bs_compact_row. rewrite bs_foldS by apply bs_delete_col. apply bs_foldS, bs_delete_col. }
  clearbody s1. rewrite <- E. reflexivity.
Qed.
Lemma Kb_dir : forall s, Inv s -> Kb s (delete_inactive_rows s).
Proof. intros s H. apply Kb_eq; [apply (Keep_dir s H)|apply bs_dir]. Qed.
Lemma Kb_clean : forall s, Inv s -> w_sub s = [] \/ w_ston_rows s = [] ->
  Kb s (delete_inactive_cols_from_A_and_AT (delete_fixed_cols_from_problem s)).
Proof.
  intros s H W. destruct (finish_cols s H W) as [I1 [M1 _]].
  destruct (w_fixed s) as [|k l] eqn:E.
  - assert (X : delete_fixed_cols_from_problem s = s) by (unfold delete_fixed_cols_from_problem; rewrite E; reflexivity).
    rewrite X in *. apply Kb_eq; [exact M1|apply bs_dic].
  - destruct (l_fixed s (inv_L s H) k ltac:(rewrite E; left; reflexivity)) as [Hk T].
    apply (Kb_col s _ k M1 Hk). apply (mo_ci _ _ _ M1). unfold t_cinact. rewrite T. reflexivity.
Qed.
Lemma Kb_fix_col : forall s k v c, Inv s -> (k < nc s)%nat -> Kb s (fst (fix_col k v c s)).
Proof.
  intros s k v c H Hk. pose proof (st_mono _ _ (stp_fix_col s k v c H Hk)) as M.
  destruct (fix_col_same s k v c (Inv_col_in s k H Hk)) as [[E _]|[E _]]; [rewrite E; apply Kb_refl|].
  apply (Kb_col _ _ k M Hk). apply (mo_ci _ _ _ (mono_same _ _ E)). unfold set_col_to_fixed. sr. rewrite ?upd_same. reflexivity.
Qed.
Lemma Kb_close_bounds : forall s, Inv s -> w_sub s = [] -> Kb s (fst (remove_variables_with_close_bounds s)).
Proof.
  intros s H WS. unfold remove_variables_with_close_bounds in *.
  assert (X : stp s (fst (for_until INFEASIBLE close_bounds_col (seq 0 (nc s)) s)) /\
              w_sub (fst (for_until INFEASIBLE close_bounds_col (seq 0 (nc s)) s)) = [] /\
              Kb s (fst (for_until INFEASIBLE close_bounds_col (seq 0 (nc s)) s))).
  { apply (for_until_inv INFEASIBLE close_bounds_col (fun t => stp s t /\ w_sub t = [] /\ Kb s t)).
    - intros t k Hk [S1 [W1 K1]]. unfold close_bounds_col.
      destruct (_ || _); cbn [fst]; auto. destruct (IS_EQUAL_FEAS_TOL _ _).
      + cbn [fst]. apply in_seq in Hk. destruct (fix_col_frame t k (fin (lb t k)) (cst t k)) as [_ [B _]].
        assert (Hk' : (k < nc t)%nat) by (rewrite (stp_nc _ _ S1); lia).
        split; [|split; [congruence|eapply Kb_trans; [exact K1|apply Kb_fix_col; [apply S1|exact Hk']]]].
        eapply stp_trans; [exact S1|]. apply stp_fix_col; [apply S1|exact Hk'].
      + destruct (Qgtb _ _); cbn [fst]; auto.
    - auto using stp_refl, Kb_refl. }
  destruct (for_until INFEASIBLE close_bounds_col (seq 0 (nc s)) s) as [s1 st]. cbn [fst] in *.
  destruct X as [S1 [W1 K1]].
  destruct (N.eqb _ _); [exact K1|]. eapply Kb_trans; [exact K1|]. apply Kb_clean; [apply S1|auto].
Qed.
Lemma Kb_empty_cols : forall s, Inv s -> Kb s (fst (remove_empty_cols s)).
Proof.
  intros s H. pose proof (empty_cols_spec s H) as SP.
  assert (A : bs (fst (remove_empty_cols s)) = bs s \/
              exists k, (k < nc s)%nat /\ t_cinact (ct (fst (remove_empty_cols s)) k) = true).
  { unfold remove_empty_cols.
    assert (X : forall l t, (forall k, In k l -> (k < nc s)%nat) ->
      (bs t = bs s \/ exists k, (k < nc s)%nat /\ t_cinact (ct t k) = true) ->
      let t' := fst (for_until UNBNDORINFEAS remove_empty_col l t) in
      bs t' = bs s \/ exists k, (k < nc s)%nat /\ t_cinact (ct t' k) = true).
    { intros l t HL I. apply (for_until_inv UNBNDORINFEAS remove_empty_col (fun t' => bs t' = bs s \/ exists k, (k < nc s)%nat /\ t_cinact (ct t' k) = true)); [|exact I].
      clear t I. intros t k Hk I.
      assert (D : fst (remove_empty_col k t) = t \/ t_cinact (ct (fst (remove_empty_col k t)) k) = true).
      { unfold remove_empty_col, close_empty_col. cbv zeta.
        destruct (Qeqb _ _); [|destruct (Qltb _ _); [destruct (t_ub_inf _)|destruct (t_lb_inf _)]]; cbn [fst]; auto; right; unfold record; sr; rewrite upd_same; reflexivity. }
      destruct D as [->|D]; [exact I|right; exists k; auto]. }
    specialize (X (w_empty_cols s) s). cbv zeta in X.
    destruct (for_until _ _ _ _) as [s1 st]. cbn [fst] in *.
    assert (Y := X ltac:(intros k Hk; apply (l_empty_cols s (inv_L s H) k Hk)) (or_introl eq_refl)).
    destruct (N.eqb _ _); exact Y. }
  destruct (remove_empty_cols s) as [s1 st]. destruct SP as [S1 _]. cbn [fst] in *.
  destruct A as [A|[k [Hk T]]]; [apply Kb_eq; auto; apply S1|apply (Kb_col _ _ k); auto; apply S1].
Qed.
Lemma Kb_empty_rows : forall s, Inv s -> Kb s (fst (remove_empty_rows s)).
Proof.
  intros s H. pose proof (empty_rows_spec s H) as SP.
  assert (A : bs (fst (remove_empty_rows s)) = bs s).
  { unfold remove_empty_rows.
    assert (X : bs (fst (for_until INFEASIBLE remove_empty_row (w_empty_rows s) s)) = bs s).
    { apply (for_until_inv INFEASIBLE remove_empty_row (fun t => bs t = bs s)); [|reflexivity].
      intros t k _ <-. unfold remove_empty_row. destruct (_ || _); reflexivity. }
    destruct (for_until _ _ _ _) as [s1 st]. cbn [fst] in *. destruct (N.eqb _ _); assumption. }
  destruct (remove_empty_rows s) as [s1 st]. destruct SP as [S1 _]. apply Kb_eq; [apply S1|apply A].
Qed.

(** ** Singleton rows *)
Lemma stonrow_closes : forall i s, snd (remove_stonrow i s) <> INFEASIBLE ->
  bs (fst (remove_stonrow i s)) = bs s \/ t_inact (rt (fst (remove_stonrow i s)) i) = true.
Proof.
  intros i s. unfold remove_stonrow. destruct (mA s i) as [|[k a] r] eqn:E; [destruct (t_fixed _); left; reflexivity|].
  destruct (t_fixed _); [left; reflexivity|]. destruct (t_eq _).
  - destruct (fix_col _ _ _ _) as [s1 st].
    destruct (N.eqb _ _); intros NE; [destruct NE; reflexivity|]. right. cbn [fst]. unfold record. sr. rewrite upd_same. reflexivity.
  - cbv zeta.
    match goal with |- snd (let '(_, _) := ?p in _) <> _ -> _ => destruct p as [s1 st1] end.
    destruct (N.eqb _ _); [intros NE; destruct NE; reflexivity|].
    match goal with |- snd (let '(_, _) := ?p in _) <> _ -> _ => destruct p as [s2 st2] end.
    destruct (N.eqb _ _); [intros NE; destruct NE; reflexivity|].
    intros _. right. cbn [fst]. unfold set_row_to_inactive, record. sr. rewrite upd_same. reflexivity.
Qed.
Lemma Kb_ston_pass : forall b l s, Inv s -> (forall i, In i l -> In i (w_ston_rows s)) ->
  snd (ston_pass b l s) <> INFEASIBLE -> Kb s (fst (ston_pass b l s)).
Proof.
  induction l as [|i l IH]; intros s H HL; simpl; [intros _; apply Kb_refl|].
  destruct (if b then _ else _) eqn:SK.
  { apply IH; auto. intros; apply HL; simpl; auto. }
  assert (T : t_inact (rt s i) = false).
  { destruct b; apply orb_false_iff in SK; tauto. }
  pose proof (remove_stonrow_stp s i H (HL i (or_introl eq_refl)) T) as X.
  pose proof (stonrow_closes i s) as Y1.
  destruct (remove_stonrow i s) as [s1 st]. destruct X as [S1 F1]. cbn [fst snd] in Y1.
  destruct (N.eqb_spec st INFEASIBLE) as [->|NE]; [intros NE; destruct NE; reflexivity|]. intros N2.
  assert (Y : Kb s s1).
  { destruct (Y1 NE) as [Y|Y]; [apply Kb_eq; [apply S1|exact Y]|]. apply (Kb_row _ _ i); [apply S1| |exact Y].
    apply (l_ston_rows s (inv_L s H) i). apply HL; left; reflexivity. }
  eapply Kb_trans; [exact Y|]. apply IH; [apply S1| |exact N2].
  intros j Hj. destruct F1 as [_ F1]. rewrite F1. apply HL; simpl; auto.
Qed.
Lemma Kb_ston_rows : forall s, Inv s -> w_sub s = [] -> snd (remove_ston_rows s) <> INFEASIBLE -> Kb s (fst (remove_ston_rows s)).
Proof.
  intros s H WS. unfold remove_ston_rows. destruct (w_ston_rows s) as [|i0 l0] eqn:EL; [intros _; apply Kb_refl|].
  rewrite <- EL. set (l := w_ston_rows s).
  pose proof (ston_pass_stp true l s H (fun i X => X)) as P1. pose proof (Kb_ston_pass true l s H (fun i X => X)) as K1.
  destruct (ston_pass true l s) as [s1 st1]. destruct P1 as [S1 [F1 E1]]. cbn [fst snd] in K1.
  destruct (N.eqb_spec st1 INFEASIBLE) as [->|NE1]; [intros NE; destruct NE; reflexivity|]. specialize (K1 NE1).
  assert (HL1 : forall i, In i l -> In i (w_ston_rows s1)) by (destruct F1 as [_ ->]; auto).
  pose proof (ston_pass_stp false l s1 (st_inv _ _ S1) HL1) as P2. pose proof (Kb_ston_pass false l s1 (st_inv _ _ S1) HL1) as K2.
  destruct (ston_pass false l s1) as [s2 st2]. destruct P2 as [S2 [F2 E2]]. cbn [fst snd] in K2.
  destruct (N.eqb_spec st2 INFEASIBLE) as [->|NE2]; [intros NE; destruct NE; reflexivity|]. specialize (K2 NE2).
  pose proof (Kb_trans _ _ _ K1 K2) as K. intros _. cbn [fst].
  set (s3 := set_w_ston_rows [] s2).
  assert (I3 : Inv s3) by (apply clear_ston_rows; apply S2).
  assert (K3 : Kb s2 s3) by (apply Kb_eq; [apply mono_set_w_ston|reflexivity]).
  pose proof (Kb_dir s3 I3) as K4. destruct (stp_dir s3 I3) as [S4 [[_ [FS _]] _]].
  eapply Kb_trans; [exact K|]. eapply Kb_trans; [exact K3|]. eapply Kb_trans; [exact K4|].
  apply Kb_clean; [apply S4|]. left. rewrite FS. unfold s3. sr. destruct F1 as [f1 _], F2 as [f2 _]. congruence.
Qed.

(** ** Dual fixing *)
Lemma Kb_dual_loop : forall l s ti st, Inv s -> (forall k, In k l -> (k < nc s)%nat) ->
  Kb s (fst (fst (dual_fix_loop l s ti st))).
Proof.
  induction l as [|k l IH]; intros s ti st H HL; cbn [dual_fix_loop]; [apply Kb_refl|].
  assert (HL' : forall j, In j l -> (j < nc s)%nat) by (intros; apply HL; simpl; auto).
  assert (Hk : (k < nc s)%nat) by (apply HL; simpl; auto).
  destruct (_ || _); [apply IH; auto|].
  assert (X : stp s (fst (fst (simple_dual_fix_col k s ti))) /\ Kb s (fst (fst (simple_dual_fix_col k s ti)))).
  { assert (F : forall v, stp s (fst (fix_col k v (cst s k) s)) /\ Kb s (fst (fix_col k v (cst s k) s))).
    { intros v. split; [apply stp_fix_col; auto|apply Kb_fix_col; auto]. }
    assert (R : stp s s /\ Kb s s) by (split; [apply stp_refl; auto|apply Kb_refl]).
    unfold simple_dual_fix_col. cbv zeta.
    repeat match goal with |- context [if ?b then _ else _] => destruct b end; cbn [fst]; try exact R; apply F. }
  destruct (simple_dual_fix_col k s ti) as [[s1 ti1] st1]. cbn [fst] in X. destruct X as [S1 K1].
  eapply Kb_trans; [exact K1|]. apply IH; [apply S1|]. rewrite (stp_nc _ _ S1). exact HL'.
Qed.
Lemma fix_inf_ct : forall b k s, t_cinact (ct (fix_col_to_inf b k s) k) = true.
Proof.
  intros. unfold fix_col_to_inf. cbv zeta. set (s2 := foldS _ _ _). clearbody s2. sr. rewrite upd_same. reflexivity.
Qed.
Lemma Kb_inf_steps : forall l s, Inv s -> (forall e, In e l -> (snd e < nc s)%nat) -> Kb s (foldS inf_step l s).
Proof.
  induction l as [|[b k] l IH]; intros s H HL; [apply Kb_refl|].
  change (Kb s (foldS inf_step l (inf_step s (b, k)))).
  assert (Hk : (k < nc s)%nat) by (apply (HL (b, k)); left; reflexivity).
  assert (X : stp s (inf_step s (b, k)) /\ Kb s (inf_step s (b, k))).
  { assert (F : forall b', stp s (fix_col_to_inf b' k s) /\ Kb s (fix_col_to_inf b' k s)).
    { intros b'. destruct (fix_col_to_inf_stp b' k s H Hk) as [S1 _]. split; [exact S1|]. apply (Kb_col _ _ k); [apply S1|exact Hk|apply fix_inf_ct]. }
    unfold inf_step. repeat match goal with |- context [if ?b then _ else _] => destruct b end; try apply F.
    split; [apply stp_refl; auto|apply Kb_refl]. }
  destruct X as [S1 K1]. eapply Kb_trans; [exact K1|]. apply IH; [apply S1|].
  rewrite (stp_nc _ _ S1). intros; apply HL; simpl; auto.
Qed.
Lemma Kb_dual_fix : forall s, Inv s -> w_sub s = [] -> Kb s (fst (simple_dual_fix s)).
Proof.
  intros s H WS. unfold simple_dual_fix.
  pose proof (dual_fix_loop_stp (seq 0 (nc s)) s [] UNCHANGED H) as X.
  pose proof (Kb_dual_loop (seq 0 (nc s)) s [] UNCHANGED H) as A.
  destruct (dual_fix_loop (seq 0 (nc s)) s [] UNCHANGED) as [[s1 ti] st]. cbn [fst] in A.
  assert (HS : forall k, In k (seq 0 (nc s)) -> (k < nc s)%nat) by (intros k Hk; apply in_seq in Hk; lia).
  destruct X as [S1 [F1 T1]]; [exact HS|intros e []|]. specialize (A HS).
  assert (T1' : forall e, In e ti -> (snd e < nc s1)%nat) by (rewrite (stp_nc _ _ S1); auto).
  destruct (inf_steps_stp ti s1 (st_inv _ _ S1) T1') as [S2 F2].
  pose proof (Kb_inf_steps ti s1 (st_inv _ _ S1) T1') as A2. cbv zeta. cbn [fst].
  set (s2 := foldS inf_step ti s1) in *.
  destruct (stp_dir s2 (st_inv _ _ S2)) as [S3 [F3 W3]].
  eapply Kb_trans; [exact A|]. eapply Kb_trans; [exact A2|]. eapply Kb_trans; [apply Kb_dir, S2|].
  apply Kb_clean; [apply S3|]. left. destruct F1 as [f1 _], F2 as [_ [f2 _]], F3 as [_ [f3 _]]. congruence.
Qed.

(** ** Parallel rows *)
Lemma inact_fold_keeps : forall i j l t, t_inact (rt t j) = true ->
  t_inact (rt (foldS (fun s j => if Nat.eqb j i then s else set_row_to_inactive j 0 s) l t) j) = true.
Proof.
  intros i j l t H. apply (foldS_inv _ _ (fun t => t_inact (rt t j) = true)); auto.
  intros u x _ K. destruct (Nat.eqb x i); auto. unfold set_row_to_inactive, record. sr.
  destruct (Nat.eq_dec j x) as [->|N]; [rewrite upd_same; reflexivity|rewrite upd_other; auto].
Qed.
Lemma inact_fold_sets : forall i j l t, In j l -> j <> i ->
  t_inact (rt (foldS (fun s j => if Nat.eqb j i then s else set_row_to_inactive j 0 s) l t) j) = true.
Proof.
  intros i j. induction l as [|x l IH]; intros t HI N; [contradiction|]. cbn [foldS fold_left]. 
  destruct HI as [->|HI].
  - destruct (Nat.eqb_spec j i) as [|_]; [contradiction|]. apply inact_fold_keeps. unfold set_row_to_inactive, record. sr. rewrite upd_same. reflexivity.
  - apply IH; auto.
Qed.
Lemma ext_eqb_refl : forall a, ext_eqb a a = true.
Proof. intros [|q|]; cbn; auto. unfold Qeqb. apply Qeq_bool_refl. Qed.
Lemma Kb_row_bin : forall bin s, Inv s -> NoDup bin -> (forall j, In j bin -> live_row s j) ->
  snd (process_row_bin bin s) <> INFEASIBLE -> Kb s (fst (process_row_bin bin s)).
Proof.
  intros bin s H ND HL. pose proof (row_bin_stp bin s H ND HL) as SP.
  assert (D : snd (process_row_bin bin s) <> INFEASIBLE -> fst (process_row_bin bin s) = s \/
              exists j, In j bin /\ t_inact (rt (fst (process_row_bin bin s)) j) = true).
  { clear SP. unfold process_row_bin. destruct bin as [|i0 [|o l]]; [auto| |].
    - cbn [merge_loop merge_init m_idx m_eq m_rhs_inf m_lhs_inf m_rhs m_lhs]. rewrite !ext_eqb_refl. cbn [negb].
      rewrite !andb_false_r. cbn. rewrite ext_eqb_refl. cbn [negb]. rewrite !andb_false_r. cbn. rewrite Nat.eqb_refl. auto.
    - destruct (merge_loop s (merge_init s i0) (o :: l)) as [m|]; [|intros NE; destruct NE; reflexivity]. cbv zeta.
      match goal with |- snd (let '(_, _) := ?p in _) <> _ -> _ => destruct p as [s1 st1] end.
      destruct (N.eqb _ _); [intros NE; destruct NE; reflexivity|].
      match goal with |- snd (let '(_, _) := ?p in _) <> _ -> _ => destruct p as [s2 st2] end.
      destruct (N.eqb _ _); [intros NE; destruct NE; reflexivity|].
      intros _. right. cbn [fst].
      assert (N : i0 <> o) by (inversion ND; subst; intros ->; apply H2; left; reflexivity).
      destruct (Nat.eq_dec i0 (m_idx m)) as [E|E].
      + exists o. split; [right; left; reflexivity|]. apply inact_fold_sets; [right; left; reflexivity|congruence].
      + exists i0. split; [left; reflexivity|]. apply inact_fold_sets; [left; reflexivity|exact E]. }
  destruct (process_row_bin bin s) as [s1 st]. cbn [fst snd] in *. intros NE. destruct SP as [S1 _].
  destruct (D NE) as [->|[j [Hj T]]]; [apply Kb_refl|]. apply (Kb_row _ _ j); [apply S1|apply (HL j Hj)|exact T].
Qed.
Lemma Kb_row_bins : forall gs s, Inv s -> NoDup (concat gs) -> (forall g j, In g gs -> In j g -> live_row s j) ->
  snd (process_row_bins gs s) <> INFEASIBLE -> Kb s (fst (process_row_bins gs s)).
Proof.
  induction gs as [|g gs IH]; simpl; intros s H ND HL; [intros _; apply Kb_refl|].
  assert (NDg : NoDup g) by (apply NoDup_app_remove_r in ND; auto).
  assert (HLg : forall j, In j g -> live_row s j) by (intros; eapply HL; eauto).
  pose proof (row_bin_stp g s H NDg HLg) as X. pose proof (Kb_row_bin g s H NDg HLg) as Y.
  destruct (process_row_bin g s) as [s1 st]. cbn [fst snd] in Y.
  destruct X as [S1 [F1 [A1 R1]]].
  destruct (N.eqb_spec st INFEASIBLE) as [->|NE]; [intros NE; destruct NE; reflexivity|]. intros NE2.
  eapply Kb_trans; [exact (Y NE)|]. apply IH; [apply S1| | |exact NE2].
  { apply NoDup_app_remove_l in ND; auto. }
  { intros g' j Hg Hj. destruct (HL g' j (or_intror Hg) Hj) as [A [B C]].
    unfold live_row. rewrite (stp_nr _ _ S1), A1, R1; auto.
    intros X. clear - ND X Hg Hj. assert (Y : In j (concat gs)) by (apply in_concat; eauto).
    induction g as [|z t IHt]; simpl in *; [contradiction|].
    inversion ND; subst. destruct X as [->|X]; auto. apply H1, in_or_app; auto. }
Qed.
Lemma Kb_par_rows : forall s, Inv s -> Nx s -> quiet s -> w_empty_rows s = [] ->
  snd (remove_parallel_rows s) <> INFEASIBLE -> Kb s (fst (remove_parallel_rows s)).
Proof.
  intros s H NX [Q1 Q2 Q3] WE. unfold remove_parallel_rows, remove_parallel_rows_with.
  pose proof (hash_bins_ok (mA s) (fun i => t_inact (rt s i)) (nr s)) as BO.
  set (bins := hash_bins _ _ _) in *.
  assert (HL : forall g j, In g (groups_of (mA s) bins) -> In j g -> live_row s j).
  { intros g j Hg Hj. apply groups_in in Hg. destruct Hg as [b [Hb ->]].
    assert (Hj' := fpr_in _ _ _ Hj). pose proof (bo_lt _ _ _ BO b j Hb Hj') as LT.
    destruct b as [|f l]; [contradiction|].
    assert (Tf := bo_hd _ _ _ BO f l Hb). cbv beta in Tf.
    assert (Hf : (f < nr s)%nat) by (apply (bo_lt _ _ _ BO (f :: l)); simpl; auto).
    assert (Nf : mA s f <> []).
    { apply rsz_nempty; auto. intros R0. pose proof (l_empty_rows_c s (inv_L s H) f Hf Tf R0) as X.
      rewrite WE in X. contradiction. }
    assert (Nj : mA s j <> []).
    { intros X. apply fpr_par in Hj. rewrite X in Hj. destruct (mA s f); [auto|discriminate]. }
    split; auto. split; auto. destruct (t_inact (rt s j)) eqn:T; auto. exfalso.
    destruct (Z.eq_dec (rsz s j) (-1)) as [R|R]; [apply Nj, (nx_dead s NX); auto|].
    assert (X : In j (w_rows s)) by (apply (l_rows s (inv_L s H)); auto). rewrite Q1 in X. contradiction. }
  assert (ND := groups_nd (mA s) (fun i => t_inact (rt s i)) bins (bo_nd _ _ _ BO)).
  pose proof (row_bins_stp (groups_of (mA s) bins) s H ND HL) as X.
  pose proof (Kb_row_bins (groups_of (mA s) bins) s H ND HL) as A.
  destruct (process_row_bins (groups_of (mA s) bins) s) as [s1 st].
  cbn [fst snd] in *. destruct X as [S1 _]. intros NE.
  eapply Kb_trans; [exact (A NE)|]. apply Kb_dir, S1.
Qed.

(** ** Parallel columns *)
Lemma Kb_merge : forall j k q s, Inv s -> (k < nc s)%nat -> Kb s (merge_cols j k q s).
Proof.
  intros j k q s H Hk. destruct (merge_cols_stp s j k q H Hk) as [S1 _]. apply (Kb_col _ _ k); [apply S1|exact Hk|].
  unfold merge_cols. destruct (if Qgtb q 0 then _ else _) as [[[lbk ubk] lk] uk]. cbv zeta.
  unfold record, set_col_to_substituted. sr. rewrite upd_same. unfold t_cinact, tag_sub. apply orb_true_r.
Qed.
Lemma Kb_col_pair : forall s j k b, Inv s -> (j < nc s)%nat -> (k < nc s)%nat -> Kb s (fst (fst (col_pair j k s b))).
Proof.
  intros s j k b H Hj Hk. unfold col_pair. cbv zeta. destruct (t_cinact _); [apply Kb_refl|].
  destruct (IS_EQUAL_FEAS_TOL _ _); [cbn [fst]; apply Kb_merge; auto|].
  destruct (Qgtb (cst s k) _); cbn [andb negb];
  repeat (match goal with |- context [if ?b then _ else _] => destruct b end; cbn [fst andb negb]);
    first [apply Kb_refl|apply Kb_fix_col; auto].
Qed.
Lemma Kb_col_pairs : forall ks s j b, Inv s -> (j < nc s)%nat -> (forall k, In k ks -> (k < nc s)%nat) ->
  Kb s (fst (fst (col_pairs j ks s b))).
Proof.
  induction ks as [|k ks IH]; simpl; intros s j b H Hj HK; [apply Kb_refl|].
  pose proof (col_pair_stp s j k b H Hj (HK k (or_introl eq_refl))) as X.
  pose proof (Kb_col_pair s j k b H Hj (HK k (or_introl eq_refl))) as Y.
  destruct (col_pair j k s b) as [[s1 b1] res]. cbn [fst] in X, Y. destruct X as [S1 F1].
  destruct res; cbn [fst]; auto. eapply Kb_trans; [exact Y|].
  apply IH; [apply S1|rewrite (stp_nc _ _ S1); auto|intros; rewrite (stp_nc _ _ S1); auto].
Qed.
Lemma bs_recount : forall j s, bs (recount j s) = bs s.
Proof. intros. unfold recount. apply bs_foldS. intros; reflexivity. Qed.
Lemma Kb_col_bin : forall bin s, Inv s -> (forall k, In k bin -> (k < nc s)%nat) -> Kb s (fst (process_col_bin bin s)).
Proof.
  induction bin as [|j rest IH]; intros s H HK; simpl; [apply Kb_refl|].
  destruct rest as [|k0 rest0] eqn:ER; [apply Kb_refl|]. rewrite <- ER in *.
  assert (HR : forall k, In k rest -> (k < nc s)%nat) by (intros; apply HK; simpl; auto).
  destruct (t_cinact (ct s j)); [apply IH; auto|].
  pose proof (col_pairs_stp rest s j false H (HK j (or_introl eq_refl)) HR) as X.
  pose proof (Kb_col_pairs rest s j false H (HK j (or_introl eq_refl)) HR) as Y.
  destruct (col_pairs j rest s false) as [[s1 rec] res]. cbn [fst] in X, Y. destruct X as [S1 F1].
  assert (K : forall s2, same_struct s1 s2 -> bs s2 = bs s1 -> Kb s (fst (process_col_bin rest s2))).
  { intros s2 E B. eapply Kb_trans; [exact Y|]. eapply Kb_trans; [apply Kb_eq; [apply mono_same; exact E|exact B]|].
    apply IH; [eapply same_Inv; [exact E|apply S1]|]. rewrite (ss_nc _ _ E), (stp_nc _ _ S1). exact HR. }
  destruct res; [| |exact Y]; (destruct rec; apply K; [apply recount_same|apply bs_recount|apply same_refl|reflexivity]).
Qed.
Lemma Kb_col_groups : forall gs s st, Inv s -> (forall g k, In g gs -> In k g -> (k < nc s)%nat) ->
  Kb s (fst (fold_or (fun s g => process_col_bin g s) gs s st)).
Proof.
  induction gs as [|g gs IH]; intros s st H HG; simpl; [apply Kb_refl|].
  assert (HK : forall k, In k g -> (k < nc s)%nat) by (intros; eapply HG; simpl; eauto).
  pose proof (col_bin_stp g s H HK) as X. pose proof (Kb_col_bin g s H HK) as Y.
  destruct (process_col_bin g s) as [s1 st1]. cbn [fst] in Y. destruct X as [S1 _].
  eapply Kb_trans; [exact Y|]. apply IH; [apply S1|].
  intros g' k Hg Hk. rewrite (stp_nc _ _ S1). eapply HG; simpl; eauto.
Qed.
Lemma Kb_par_cols : forall s, Inv s -> w_ston_rows s = [] -> Kb s (fst (remove_parallel_cols s)).
Proof.
  intros s H WT. unfold remove_parallel_cols, remove_parallel_cols_with.
  pose proof (hash_bins_ok (mAT s) (fun i => t_cinact (ct s i)) (nc s)) as BO.
  set (bins := hash_bins _ _ _) in *.
  assert (HG : forall g k, In g (groups_of (mAT s) bins) -> In k g -> (k < nc s)%nat).
  { intros g k Hg Hk. apply groups_in in Hg. destruct Hg as [b [Hb ->]].
    apply (bo_lt _ _ _ BO b k Hb). eapply fpr_in; eauto. }
  pose proof (col_groups_stp (groups_of (mAT s) bins) s UNCHANGED H HG) as X.
  pose proof (Kb_col_groups (groups_of (mAT s) bins) s UNCHANGED H HG) as A.
  destruct (fold_or _ _ s UNCHANGED) as [s1 st]. destruct X as [S1 [[F1 F2] E]].
  cbn [fst] in *. eapply Kb_trans; [exact A|]. apply Kb_clean; [apply S1|right; congruence].
Qed.

(** ** All explorers, without propagation and singleton columns *)
Lemma common_bounds : forall stgs f s, primal_propagation_on stgs = false -> ston_cols_on stgs = false ->
  Ok s -> In f (common_steps stgs) -> snd (f s) <> INFEASIBLE -> Kb s (fst (f s)).
Proof.
  intros stgs f s PP SC [H Q N] IN NE. assert (Q3 := q_sub _ Q).
  unfold common_steps in IN. rewrite PP, SC, !in_app_iff in IN. destruct IN as [IN|[IN|[[]|[]]]].
  - destruct IN as [<-|[<-|[<-|[<-|[]]]]].
    + apply Kb_close_bounds; auto.
    + apply Kb_empty_cols; auto.
    + apply Kb_ston_rows; auto.
    + apply Kb_empty_rows; auto.
  - destruct (dual_fix_on stgs); [|contradiction]. destruct IN as [<-|[]]. apply Kb_dual_fix; auto.
Qed.
Lemma reached_bounds : forall stgs fits P s, wf_input P -> primal_propagation_on stgs = false -> ston_cols_on stgs = false ->
  reached stgs fits P s -> Kb (new_presolver P) s.
Proof.
  intros stgs fits P s WF PP SC R.
  assert (TI : forall st, ~ trouble st -> st <> INFEASIBLE) by (intros st NT ->; apply NT; left; reflexivity).
  induction R as [|f s s' st IN R IH E NT|s s' st ON C R IH E NT|s s' st ON C R IH E NT|s s' st ON R IH E NT TN].
  - apply Kb_refl.
  - pose proof (common_bounds stgs f s PP SC (proj1 (reached_ok _ _ _ _ WF R)) IN) as X. rewrite E in X. eapply Kb_trans; [exact IH|exact (X (TI _ NT))].
  - destruct (reached_ok _ _ _ _ WF R) as [[H Q N] _].
    pose proof (Kb_par_rows s H N Q C) as X. rewrite E in X. eapply Kb_trans; [exact IH|exact (X (TI _ NT))].
  - destruct (reached_ok _ _ _ _ WF R) as [[H Q N] _].
    pose proof (Kb_par_cols s H C) as X. rewrite E in X. eapply Kb_trans; eauto.
  - destruct (reached_ok _ _ _ _ WF R) as [[H Q N] _].
    pose proof (dton_idle fits s H Q) as X. rewrite E in X. cbn [fst] in X.
    assert (PN : pend1 s) by (intros i; rewrite (q_rows _ Q); contradiction).
    pose proof (dton_spec fits s H (q_sub _ Q) PN) as D. rewrite E in D. destruct D as [_ D]. destruct (D TN) as (_ & M & _).
    eapply Kb_trans; [exact IH|]. split; [exact M|]. destruct (X TN) as [I|G]; auto.
    left. repeat match goal with K : _ /\ _ |- _ => destruct K end. unfold idle in I. intuition.
Qed.
Lemma UNCHANGED_problem : forall stgs fits clock fuel P r, wf_input P ->
  primal_propagation_on stgs = false -> ston_cols_on stgs = false ->
  run_presolver stgs fits clock fuel P = Some r -> tiny (res_state r) = false -> res_status r = UNCHANGED ->
  same_matrix (lp_of_input P) (reduced_lp (res_state r)) /\ same_costs (lp_of_input P) (reduced_lp (res_state r)) /\
  same_bounds (lp_of_input P) (reduced_lp (res_state r)).
Proof.
  intros stgs fits clock fuel P r WF PP SC H T U.
  destruct (UNCHANGED_same' _ _ _ _ _ _ WF H T U) as [A B]. split; [exact A|]. split; [exact B|].
  destruct (UNCHANGED_reached _ _ _ _ _ _ WF H T (UNCHANGED_reduced _ _ _ _ _ _ H U) U) as [s [R [EL [_ NG]]]]. rewrite EL.
  destruct (reached_bounds _ _ _ _ WF PP SC R) as [_ [E|G]]; [|contradiction]. unfold bs in E. injection E as E1 E2 E3 E4.
  destruct (init_fields P) as (_ & _ & _ & _ & _ & _ & _ & _ & LB & UB & LH & RH & _).
  split; cbn [lp_lb lp_ub lp_lhs lp_rhs lp_rows lp_cols reduced_lp lp_of_input]; intros; rewrite ?E1, ?E2, ?E3, ?E4, ?LB, ?UB, ?LH, ?RH; auto.
Qed.
(** Without doubleton equations no coefficient below the storage tolerance arises. *)
Lemma UNCHANGED_problem_no_dton : forall stgs fits clock fuel P r, wf_input P ->
  primal_propagation_on stgs = false -> ston_cols_on stgs = false -> dton_eq_on stgs = false ->
  run_presolver stgs fits clock fuel P = Some r -> res_status r = UNCHANGED ->
  same_matrix (lp_of_input P) (reduced_lp (res_state r)) /\ same_costs (lp_of_input P) (reduced_lp (res_state r)) /\
  same_bounds (lp_of_input P) (reduced_lp (res_state r)).
Proof.
  intros stgs fits clock fuel P r WF PP SC D H U. eapply UNCHANGED_problem; eauto.
  eapply L_Struct12.run_tiny; eauto. apply L_Struct12.no_dton_no_tiny; auto.
Qed.
