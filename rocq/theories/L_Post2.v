(** Replaying the records of the simple reductions. *)
From Coq Require Import NArith Lqa.
From Verif Require Import M_Num S_LP M_Settings M_Driver S_Driver M_State M_Act M_Core M_Simple
  M_StonCols M_Dton M_Parallel M_Propagate M_Init M_Post M_Run S_Run S_Struct S_Sem
  L_State L_Struct L_Struct2 L_Struct3 L_Struct4 L_Struct5 L_Struct6 L_Sem L_Sem2 L_Sem3 L_Post.
Import M_Driver.
Notation bad := M_State.bad.
Open Scope Q_scope.
Section Backs.
Variable E0 : Prop.
Notation Back := (L_Post.Back E0).
Notation BackG := (L_Post.BackG E0).

Definition fresh (s : state) (k : nat) : Prop := forall i a, In (i, a) (mAT s k) -> t_inact (rt s i) = false.
Definition freshC (s : state) : Prop := forall k, (k < nc s)%nat -> t_cinact (ct s k) = false -> fresh s k.
Definition freshA (s : state) : Prop := forall k, (k < nc s)%nat -> csz s k <> (-1)%Z -> fresh s k.
Lemma quiet_freshC : forall s, Inv s -> w_rows s = [] -> freshC s.
Proof.
  intros s H W k Hk T i a Hi. destruct (w_cin s (inv_0 s H) i k a Hk Hi) as [Hr _].
  destruct (t_inact (rt s i)) eqn:E; auto. exfalso.
  assert (X : In i (w_rows s)) by (apply (l_rows s (inv_L s H)); repeat split; auto; eapply (inv_C s H); eauto).
  rewrite W in X. contradiction.
Qed.
Lemma quiet_freshA : forall s, Inv s -> quiet s -> freshA s.
Proof.
  intros s H [W F S] k Hk C. apply quiet_freshC; auto. destruct (t_cinact (ct s k)) eqn:E; auto. exfalso.
  destruct (l_pend s (inv_L s H) k Hk E C) as [X|X]; [rewrite F in X|rewrite S in X]; contradiction.
Qed.

(** ** Silent steps *)
Lemma dir_Back : forall s, Inv s -> Back s (delete_inactive_rows s).
Proof.
  intros s H. destruct (delete_inactive_rows_Inv s H) as [I' AD].
  destruct (dir_frame _ _ AD) as [u [d [c0 [M0 [r0 [n0 [MT [we [ws F]]]]]]]]].
  set (s' := delete_inactive_rows s) in *.
  assert (ENR : nr s' = nr s) by (rewrite F; reflexivity).
  assert (ENC : nc s' = nc s) by (rewrite F; reflexivity).
  assert (ERT : rt s' = rt s) by (rewrite F; reflexivity).
  assert (ECT : ct s' = ct s) by (rewrite F; reflexivity).
  assert (ECS : cst s' = cst s) by (rewrite F; reflexivity).
  assert (EL : log s' = log s) by (rewrite F; reflexivity).
  clear F. apply quietly_Back; auto. constructor; auto; rewrite ?ERT, ?ECT, ?ECS; auto.
  intros k Hk T. unfold acol. rewrite ERT, (dir_AT _ _ AD k Hk T), filter_filter. apply filter_ext.
  intros e. apply andb_diag.
Qed.
Lemma dic_Back : forall s s', after_dic s s' -> Back s s'.
Proof.
  intros s s' AD. destruct (dic_frame _ _ AD) as (? & ? & ? & ? & ? & ? & ? & ? & ? & F).
  assert (ENR : nr s' = nr s) by (rewrite F; reflexivity).
  assert (ENC : nc s' = nc s) by (rewrite F; reflexivity).
  assert (ERT : rt s' = rt s) by (rewrite F; reflexivity).
  assert (ECT : ct s' = ct s) by (rewrite F; reflexivity).
  assert (ECS : cst s' = cst s) by (rewrite F; reflexivity).
  assert (EL : log s' = log s) by (rewrite F; reflexivity).
  clear F. apply quietly_Back; auto. constructor; auto; rewrite ?ERT, ?ECT, ?ECS; auto.
  intros k Hk T. unfold acol. rewrite ERT, (dic_AT _ _ AD k Hk), T. reflexivity.
Qed.
Lemma foldS_keep : forall X (f : state -> X -> state) A (g : state -> A) l s,
  (forall s x, g (f s x) = g s) -> g (foldS f l s) = g s.
Proof. induction l as [|x l IH]; intros s H; cbn; auto. rewrite IH by auto. apply H. Qed.
Lemma shift_sides_keep : forall v s e, cst (shift_sides v s e) = cst s /\ log (shift_sides v s e) = log s.
Proof. intros v s [i a]. unfold shift_sides. cbn [fst snd]. destruct (t_inact _); [auto|]. cbv zeta.
  destruct (t_lhs_inf _); sr; destruct (t_rhs_inf _); sr; auto. Qed.
Lemma dfc1_keep : forall s k, cst (delete_fixed_col_from_problem s k) = cst s /\
  log (delete_fixed_col_from_problem s k) = log s.
Proof.
  intros s k. unfold delete_fixed_col_from_problem. cbv zeta. destruct (Qeqb _ 0); auto. unfold fix_var_in_obj. sr.
  split; apply foldS_keep; intros; apply shift_sides_keep.
Qed.
Lemma dfc_Back : forall s, Back s (delete_fixed_cols_from_problem s).
Proof.
  intros s. apply quietly_Back.
  - apply quietly_ss; [apply delete_fixed_cols_same|]. apply foldS_keep. intros; apply dfc1_keep.
  - apply foldS_keep. intros; apply dfc1_keep.
Qed.
Lemma finish_Back : forall s, Inv s -> w_sub s = [] \/ w_ston_rows s = [] ->
  Back s (delete_inactive_cols_from_A_and_AT (delete_fixed_cols_from_problem s)).
Proof.
  intros s H P. destruct (finish_cols s H P) as (_ & _ & _ & _ & _ & _ & AD).
  eapply Back_trans; [apply dfc_Back|apply dic_Back; exact AD].
Qed.

(** ** Fixing a column *)
Lemma fix_col_fixedk : forall s k v ck, Inv s -> (k < nc s)%nat -> fresh s k ->
  let s1 := fst (fix_col k v ck s) in
  (s1 = s) \/ fixedk s s1 k (mAT s k) /\ log s1 = FIXED_COL k v ck (mAT s k) :: log s.
Proof.
  intros s k v ck H Hk F. pose proof (fix_col_cases s k v ck) as C. destruct (fix_col k v ck s) as [s1 st].
  cbn [fst]. destruct C as [[_ [-> _]]|[_ [_ [_ [A [W E]]]]]]; [left; auto|right].
  assert (E1 : nr s1 = nr s) by (rewrite E; unfold set_col_to_fixed; sr; reflexivity).
  assert (E2 : nc s1 = nc s) by (rewrite E; unfold set_col_to_fixed; sr; reflexivity).
  assert (E3 : rt s1 = rt s) by (rewrite E; unfold set_col_to_fixed; sr; reflexivity).
  assert (E4 : forall j, j <> k -> ct s1 j = ct s j) by (intros j N; rewrite E; unfold set_col_to_fixed; sr; rewrite upd_other; auto).
  assert (E5 : cst s1 = cst s) by (rewrite E; unfold set_col_to_fixed; sr; reflexivity).
  assert (E6 : mAT s1 = mAT s) by (rewrite E; unfold set_col_to_fixed; sr; reflexivity).
  assert (E7 : log s1 = FIXED_COL k v ck (mAT s k) :: log s) by (rewrite E; unfold set_col_to_fixed; sr; reflexivity).
  clear E. split; auto. constructor; auto.
  - intros j Hj N T. rewrite E4 by auto. auto.
  - rewrite E3; auto.
  - rewrite E5; auto.
  - intros j Hj N T. unfold acol. rewrite E6, E3. reflexivity.
  - intros i a Hi. split; [|eapply F; eauto]. apply (w_cin s (inv_0 s H) i k a Hk Hi).
  - intros _. symmetry. apply acol_full. exact F.
Qed.
Lemma fix_col_Back : forall s k v ck, Inv s -> (k < nc s)%nat -> fresh s k -> ck == cst s k ->
  Back s (fst (fix_col k v ck s)).
Proof.
  intros s k v ck H Hk F E. destruct (fix_col_fixedk s k v ck H Hk F) as [->|[X L]]; [apply Back_refl|].
  eapply fixed_Back; eauto.
Qed.
Lemma fix_col_BackG : forall i r s k v ck, Inv s -> (k < nc s)%nat -> fresh s k -> ck == cst s k ->
  BackG i r 0 s (fst (fix_col k v ck s)).
Proof.
  intros i r s k v ck H Hk F E. destruct (fix_col_fixedk s k v ck H Hk F) as [->|[X L]]; [apply BackG_refl|].
  eapply fixed_BackG; eauto.
Qed.
Lemma fix_col_keep : forall s k v ck, let s1 := fst (fix_col k v ck s) in
  mAT s1 = mAT s /\ mA s1 = mA s /\ rt s1 = rt s /\ csz s1 = csz s /\ rsz s1 = rsz s /\ cst s1 = cst s /\
  (forall j, j <> k -> ct s1 j = ct s j).
Proof.
  intros s k v ck. pose proof (fix_col_cases s k v ck) as C. destruct (fix_col k v ck s) as [s1 st].
  cbn [fst]. destruct C as [[_ [-> _]]|[_ [_ [_ [A [W E]]]]]]; [auto 10|].
  rewrite E. unfold set_col_to_fixed. sr. repeat split; auto. intros j N. rewrite upd_other; auto.
Qed.
Lemma fix_col_freshA : forall s k v ck, Inv s -> (k < nc s)%nat -> freshA s -> freshA (fst (fix_col k v ck s)).
Proof.
  intros s k v ck H Hk F. destruct (fix_col_keep s k v ck) as (A & _ & B & C & _).
  pose proof (stp_nc _ _ (stp_fix_col s k v ck H Hk)) as N.
  intros j Hj Cj i a Hi. rewrite A in Hi. rewrite B. rewrite C in Cj. rewrite N in Hj. eapply F; eauto.
Qed.

(** ** Close bounds *)
Lemma close_bounds_Back : forall s, Inv s -> quiet s -> Back s (fst (remove_variables_with_close_bounds s)).
Proof.
  intros s H HQ. pose proof (q_sub s HQ) as WS. unfold remove_variables_with_close_bounds.
  pose proof (for_until_inv INFEASIBLE close_bounds_col
    (fun t => stp s t /\ w_sub t = [] /\ Back s t /\ freshA t) (seq 0 (nc s)) s) as X.
  destruct (for_until INFEASIBLE close_bounds_col (seq 0 (nc s)) s) as [s1 st]. cbn [fst] in *.
  destruct X as [S1 [W1 [B1 _]]].
  - intros t k Hk [S1 [W1 [B1 F1]]]. unfold close_bounds_col.
    destruct (Z.ltb_spec (csz t k) 0); cbn [orb]; [cbn [fst]; auto|].
    destruct (_ || _); cbn [fst]; auto. destruct (IS_EQUAL_FEAS_TOL _ _).
    + cbn [fst]. apply in_seq in Hk.
      assert (Hk' : (k < nc t)%nat) by (rewrite (stp_nc _ _ S1); lia).
      destruct (fix_col_frame t k (fin (lb t k)) (cst t k)) as [A [B _]].
      split; [eapply stp_trans; [exact S1|]; apply stp_fix_col; [apply S1|auto]|].
      split; [congruence|]. split; [|apply fix_col_freshA; auto; apply S1].
      eapply Back_trans; [exact B1|]. apply fix_col_Back; [apply S1|auto| |lra]. apply F1; auto. lia.
    + destruct (Qgtb _ _); cbn [fst]; auto.
  - split; [apply stp_refl; auto|]. split; [auto|]. split; [apply Back_refl|]. apply quiet_freshA; auto.
  - destruct (N.eqb_spec st INFEASIBLE); cbn [fst]; auto.
    eapply Back_trans; [exact B1|]. apply finish_Back; [apply S1|auto].
Qed.

(** ** Empty rows and columns *)
Lemma empty_col_Back : forall s k, Inv s -> In k (w_empty_cols s) -> Back s (fst (remove_empty_col k s)).
Proof.
  intros s k H Hin. destruct (l_empty_cols s (inv_L s H) k Hin) as [Hk E].
  assert (X : forall v s0, same_struct s s0 -> cst s0 = cst s -> log s0 = log s -> Back s (close_empty_col k v s0)).
  { intros v s0 SS CS LG. unfold close_empty_col.
    eapply (fixed_Back E0 s _ k v (cst s0 k) []); [|exact Hk|intros _; rewrite CS; lra|sra; rewrite LG; reflexivity].
    constructor; sra; auto.
    - apply SS.
    - apply SS.
    - intros j Hj N T. rewrite upd_other by auto. rewrite (ss_ct _ _ _ SS). auto.
    - intros i Hi T. rewrite (ss_rt _ _ SS). auto.
    - intros; rewrite CS; auto.
    - intros j Hj N T. unfold acol. sra. rewrite (ss_AT _ _ SS). apply filter_ext. intros e.
      rewrite (ss_rt _ _ SS). reflexivity.
    - intros i a [].
    - intros T. unfold acol. rewrite E. reflexivity. }
  unfold remove_empty_col. destruct (Qeqb _ _); cbn [fst]; [apply X; auto using same_refl|].
  destruct (Qltb _ _); [destruct (t_ub_inf _)|destruct (t_lb_inf _)]; cbn [fst]; try apply Back_refl;
    apply X; auto; same_ref.
Qed.
Lemma empty_cols_Back : forall s, Inv s -> Back s (fst (remove_empty_cols s)).
Proof.
  intros s H. unfold remove_empty_cols.
  pose proof (for_until_inv UNBNDORINFEAS remove_empty_col
    (fun t => stp s t /\ w_empty_cols t = w_empty_cols s /\ Back s t) (w_empty_cols s) s) as X.
  destruct (for_until UNBNDORINFEAS remove_empty_col (w_empty_cols s) s) as [s1 st]. cbn [fst] in *.
  destruct X as [S1 [W1 B1]].
  - intros t k Hk [S1 [W1 B1]]. destruct (remove_empty_col_frame t k) as [A [B [C [D [E _]]]]].
    split; [eapply stp_trans; [exact S1|]; apply stp_empty_col; [apply S1|congruence]|].
    split; [congruence|]. eapply Back_trans; [exact B1|]. apply empty_col_Back; [apply S1|congruence].
  - auto using stp_refl, Back_refl.
  - destruct (N.eqb st UNBNDORINFEAS); cbn [fst]; auto. eapply Back_trans; [exact B1|].
    apply quietly_Back; [|reflexivity]. apply quietly_same; auto.
Qed.
Lemma empty_row_Back : forall s i, Inv s -> In i (w_empty_rows s) -> Back s (fst (remove_empty_row i s)).
Proof.
  intros s i H Hin. destruct (l_empty_rows s (inv_L s H) i Hin) as [Hi _].
  unfold remove_empty_row. destruct (_ || _); cbn [fst]; [apply Back_refl|].
  apply (Back_row0 E0 s _ i); auto. intros j. sra. destruct (Nat.eqb_spec j i) as [->|N];
    [rewrite upd_same|rewrite upd_other by auto]; reflexivity.
Qed.
Lemma empty_rows_Back : forall s, Inv s -> Back s (fst (remove_empty_rows s)).
Proof.
  intros s H. unfold remove_empty_rows.
  pose proof (for_until_inv INFEASIBLE remove_empty_row
    (fun t => stp s t /\ w_empty_rows t = w_empty_rows s /\ Back s t) (w_empty_rows s) s) as X.
  destruct (for_until INFEASIBLE remove_empty_row (w_empty_rows s) s) as [s1 st]. cbn [fst] in *.
  destruct X as [S1 [W1 B1]].
  - intros t k Hk [S1 [W1 B1]]. destruct (remove_empty_row_frame t k) as [A [B [C [D [E _]]]]].
    split; [eapply stp_trans; [exact S1|]; apply stp_empty_row; [apply S1|congruence]|].
    split; [congruence|]. eapply Back_trans; [exact B1|]. apply empty_row_Back; [apply S1|congruence].
  - auto using stp_refl, Back_refl.
  - destruct (N.eqb st INFEASIBLE); cbn [fst]; auto. eapply Back_trans; [exact B1|].
    apply quietly_Back; [|reflexivity]. apply quietly_same; auto.
Qed.

(** ** Redundant rows *)
Lemma check_row_Back : forall s i, Inv s -> (i < nr s)%nat -> Back s (fst (check_row i s)).
Proof.
  intros s i H Hi. unfold check_row.
  destruct (t_inact (rt s i)) eqn:T; cbn [orb]; [apply Back_refl|].
  destruct (t_eq _); cbn [orb]; [apply Back_refl|].
  destruct (Z.leb_spec (rsz s i) 1); [apply Back_refl|].
  destruct (check_activity _ _ _ _) as [|lr rr]; [apply Back_refl|].
  destruct (_ && _); [cbn [fst]; apply set_row_inactive_Back; auto|].
  assert (Y : forall (f : state -> nat * Q -> state) t, (forall s0 x, locks_only s0 (f s0 x)) -> t_inact t = false ->
    let s1 := foldS f (mA s i) (set_rt1 i t s) in
    same_struct s s1 /\ cst s1 = cst s /\ log s1 = log s).
  { intros f t Hf Et. cbv zeta. split; [|split].
    - eapply same_trans; [|apply same_foldS; intros; apply same_locks; auto].
      constructor; sr; auto. intros j. updg; congruence.
    - rewrite foldS_keep; [reflexivity|]. intros s0 x. destruct (Hf s0 x) as [u [d E]]. rewrite E. reflexivity.
    - rewrite foldS_keep; [reflexivity|]. intros s0 x. destruct (Hf s0 x) as [u [d E]]. rewrite E. reflexivity. }
  destruct lr; [|destruct rr]; cbn [fst]; [| |apply Back_refl].
  - destruct (Y (fun s e => lock_lhs (-1) (fst e) (snd e) s) R_LHS_INF) as [A [B C]]; auto.
    { intros. apply locks_only_lock_lhs. }
    apply quietly_Back; [|sra; exact C]. apply quietly_ss; [|sra; exact B].
    eapply same_trans; [exact A|]. same_ref.
  - destruct (Y (fun s e => lock_rhs (-1) (fst e) (snd e) s) R_RHS_INF) as [A [B C]]; auto.
    { intros. apply locks_only_lock_rhs. }
    apply quietly_Back; [|sra; exact C]. apply quietly_ss; [|sra; exact B].
    eapply same_trans; [exact A|]. same_ref.
Qed.
Lemma check_activities_Back : forall s, Inv s -> Back s (fst (check_activities s)).
Proof.
  intros s H. pose proof (l_acts s (inv_L s H)) as HW. unfold check_activities.
  pose proof (for_until_inv INFEASIBLE check_row (fun t => stp s t /\ Back s t) (w_acts s) s) as X.
  destruct (for_until INFEASIBLE check_row (w_acts s) s) as [s1 st]. cbn [fst] in X.
  destruct X as [S1 B1].
  - intros t i Hi [St1 Ft]. assert (Hi' : (i < nr t)%nat) by (rewrite (stp_nr _ _ St1); auto).
    destruct (check_row_stp t i) as [A _]; [apply St1|auto|].
    split; [eapply stp_trans; eauto|]. eapply Back_trans; [exact Ft|]. apply check_row_Back; auto. apply St1.
  - auto using stp_refl, Back_refl.
  - destruct (N.eqb st INFEASIBLE); cbn [fst]; auto. eapply Back_trans; [exact B1|]. apply dir_Back. apply S1.
Qed.
End Backs.
