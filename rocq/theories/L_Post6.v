(** Replaying the records of parallel rows: all entries stay assigned (the equations do not
    survive, P_Refute.v), and the postsolve of whole runs. *)
From Coq Require Import NArith Lqa.
From Verif Require Import M_Num S_LP M_Settings M_Driver S_Driver M_State M_Act M_Core M_Simple
  M_StonCols M_Dton M_Parallel M_Propagate M_Init M_Post M_Run S_Run S_Struct S_Sem S_Sem2 S_Sem3 S_Sem4 S_Log
  L_State L_Init L_Struct L_Struct2 L_Struct3 L_Struct4 L_Struct5 L_Struct6 L_Struct7 L_Struct8 L_Struct9 L_Struct10 L_Struct11
  L_Sem L_Sem2 L_Sem3 L_Sem4 L_Mid L_Mid2 L_Mid3 L_Mid4 L_Mid5 L_Mid6 L_Act L_Act2 L_Act3 L_Act4 L_Act5 L_Act6 L_Act7
  L_Ston L_Ston2 L_Reach L_Reach2 L_Post L_Post2 L_Post3 L_Post4 L_Post5.
Import M_Driver.
Notation bad := M_State.bad.
Open Scope Q_scope.

Section Backs.
Variable E0 : Prop.
Notation Back := (L_Post.Back E0).
Notation St := (L_Post.St E0).

(** ** Parallel rows *)
Record rowkeep (s s' : state) : Prop := {
  rk_nr : nr s' = nr s;  rk_nc : nc s' = nc s;  rk_A : mA s' = mA s;  rk_AT : mAT s' = mAT s;
  rk_ct : ct s' = ct s;  rk_cst : cst s' = cst s;  rk_rt : forall j, t_inact (rt s' j) = t_inact (rt s j) }.
Lemma rowkeep_refl : forall s, rowkeep s s.
Proof. constructor; auto. Qed.
Definition side_rec (o i : nat) (r : row) (x : reduction) : Prop :=
  exists v q, x = RHS_CHANGE i r v o q \/ x = LHS_CHANGE i r v o q.
Definition chg (i : nat) (s s' : state) : Prop :=
  rowkeep s s' /\ (log s' = log s \/ exists x o, (o < nr s)%nat /\ side_rec o i (mA s i) x /\ log s' = x :: log s).
Lemma change_rhs_chg : forall i v o q s, row_view s i = mA s i -> (o < nr s)%nat -> chg i s (fst (change_rhs_of_ineq i v o q s)).
Proof.
  intros i v o q s V Ho. unfold change_rhs_of_ineq. destruct (_ && _); [split; [apply rowkeep_refl|auto]|].
  cbv zeta. cbn [fst]. rewrite V.
  set (s1 := if t_rhs_inf (rt s i) then update_locks_ineq_to_eq (mA s i) false s else s).
  assert (L1 : locks_only s s1).
  { unfold s1. destruct (t_rhs_inf _); [apply locks_only_ineq_to_eq|apply locks_only_refl]. }
  destruct L1 as [x [y E1]]. rewrite E1. clearbody s1. clear E1 s1.
  split.
  - destruct (_ && _); [|constructor; sr; auto; intros j; updg; auto].
    destruct (Nat.eqb _ _); constructor; unfold push_dton; sr; auto; intros j; updg; auto; updg; auto.
  - right. exists (RHS_CHANGE i (mA s i) v o q), o. split; [exact Ho|]. split; [exists v, q; auto|].
    destruct (_ && _); [destruct (Nat.eqb _ _)|]; reflexivity.
Qed.
Lemma change_lhs_chg : forall i v o q s, row_view s i = mA s i -> (o < nr s)%nat -> chg i s (fst (change_lhs_of_ineq i v o q s)).
Proof.
  intros i v o q s V Ho. unfold change_lhs_of_ineq. destruct (_ && _); [split; [apply rowkeep_refl|auto]|].
  cbv zeta. cbn [fst]. rewrite V.
  set (s1 := if t_lhs_inf (rt s i) then update_locks_ineq_to_eq (mA s i) true s else s).
  assert (L1 : locks_only s s1).
  { unfold s1. destruct (t_lhs_inf _); [apply locks_only_ineq_to_eq|apply locks_only_refl]. }
  destruct L1 as [x [y E1]]. rewrite E1. clearbody s1. clear E1 s1.
  split.
  - destruct (_ && _); [|constructor; sr; auto; intros j; updg; auto].
    destruct (Nat.eqb _ _); constructor; unfold push_dton; sr; auto; intros j; updg; auto; updg; auto.
  - right. exists (LHS_CHANGE i (mA s i) v o q), o. split; [exact Ho|]. split; [exists v, q; auto|].
    destruct (_ && _); [destruct (Nat.eqb _ _)|]; reflexivity.
Qed.
(** The columns of the active rows are active *)
Definition FC (s : state) : Prop := forall i k a, (i < nr s)%nat -> t_inact (rt s i) = false -> In (k, a) (mA s i) ->
  (k < nc s)%nat /\ t_cinact (ct s k) = false.
Lemma FC_keep : forall s s', nr s' = nr s -> nc s' = nc s -> mA s' = mA s -> ct s' = ct s ->
  (forall i, t_inact (rt s' i) = false -> t_inact (rt s i) = false) -> FC s -> FC s'.
Proof. intros s s' A B C D E F i k a. rewrite A, B, C, D. intros Hi T. apply F; auto. Qed.

Variable NE : ~ E0.
Lemma side_St : forall l s i r v o q t, FC s -> (i < nr s)%nat -> t_inact (rt s i) = false -> r = mA s i ->
  St s t -> St s (retrieve_side_change l i r v o q t) /\ s_err (retrieve_side_change l i r v o q t) = s_err t.
Proof.
  intros l s i r v o q t F Hi Ti -> [X Z Y K]. unfold retrieve_side_change.
  assert (AK : all_known (sx t) (mA s i) = true).
  { apply all_known_true. intros k a Hk. destruct (F i k a Hi Ti Hk). apply X; auto. }
  rewrite AK, (Y i Hi Ti). cbn [negb orb].
  assert (G : forall t', sx t' = sx t -> sz t' = sz t -> (forall j, known (sy t j) = true -> known (sy t' j) = true) ->
    s_err t' = (s_err t || false)%bool -> St s t' /\ s_err t' = s_err t).
  { intros t' G1 G2 G3 G4. split; [|rewrite G4; apply orb_false_r]. constructor; rewrite ?G1, ?G2; auto.
    intros e0. destruct (NE e0). }
  assert (U : forall f j (x : Q) n, known (f n) = true -> known (upd f j (Some x) n) = true).
  { intros f j x n H. destruct (Nat.eq_dec n j) as [->|N]; [rewrite upd_same; auto|rewrite upd_other; auto]. }
  destruct (negb _); [apply G; auto|]. destruct (if l then _ else _); apply G; auto; cbn [put_y err_if sy]; auto.
Qed.
Lemma chg_Back : forall i s s', FC s -> (i < nr s)%nat -> t_inact (rt s i) = false -> chg i s s' -> Back s s'.
Proof.
  intros i s s' F Hi Ti [RK L].
  assert (QL : quietly s s').
  { destruct RK as [A B C D E G I]. apply quietly_same; auto. intros k. rewrite E. auto. }
  destruct L as [L|[x [o [Ho [SX L]]]]]; [apply quietly_Back; auto|].
  exists [x]. split; [auto|].
  split. { assert (BL : below (nc s) (mA s i)) by (intros q c Hq; apply (F i q c Hi Ti Hq)).
    split; [split; [apply QL|split; [apply QL|constructor; [|constructor]]]|].
    - destruct SX as [v [q [->| ->]]]; split; auto.
    - destruct SX as [v [q [->| ->]]]; auto. }
  intros t ST. pose proof (quietly_St E0 _ _ _ QL ST) as ST1.
  destruct SX as [v [q [->| ->]]].
  - destruct (side_St false s i (mA s i) v o q t F Hi Ti eq_refl ST1) as [S1 S2].
    exists (retrieve_side_change false i (mA s i) v o q t). split; [exact S1|split; [auto|intros rest; reflexivity]].
  - destruct (side_St true s i (mA s i) v o q t F Hi Ti eq_refl ST1) as [S1 S2].
    exists (retrieve_side_change true i (mA s i) v o q t). split; [exact S1|split; [auto|intros rest; reflexivity]].
Qed.
Lemma inact_fold_Back : forall bin i s, (forall j, In j bin -> (j < nr s)%nat) ->
  Back s (foldS (fun s j => if Nat.eqb j i then s else set_row_to_inactive j 0 s) bin s).
Proof.
  induction bin as [|j bin IH]; intros i s HB; simpl foldS; [apply Back_refl|].
  set (s1 := if Nat.eqb j i then s else set_row_to_inactive j 0 s).
  assert (B1 : Back s s1 /\ nr s1 = nr s).
  { unfold s1. destruct (Nat.eqb j i); [split; [apply Back_refl|auto]|].
    split; [apply set_row_inactive_Back; apply HB; left; auto|reflexivity]. }
  destruct B1 as [B1 N1]. eapply Back_trans; [exact B1|]. apply IH. intros k Hk. rewrite N1. apply HB. right; auto.
Qed.
Lemma merge_step_from : forall n s m o m', merge_step s m o = Some m' -> (o < n)%nat -> (m_idx m < n)%nat ->
  (m_rhs_from m < n)%nat -> (m_lhs_from m < n)%nat -> (m_idx m' < n)%nat /\ (m_rhs_from m' < n)%nat /\ (m_lhs_from m' < n)%nat.
Proof.
  intros n s m o m' E Ho A B C. unfold merge_step in E.
  destruct (negb (m_eq m) && t_eq (rt s o)); cbv zeta beta iota in E;
  repeat match type of E with context [if ?c then _ else _] => destruct c end;
  try discriminate; injection E as <-; cbn [m_idx m_rhs_from m_lhs_from]; auto.
Qed.
Lemma merge_loop_from : forall n s l m m', merge_loop s m l = Some m' -> (forall o, In o l -> (o < n)%nat) -> (m_idx m < n)%nat ->
  (m_rhs_from m < n)%nat -> (m_lhs_from m < n)%nat -> (m_rhs_from m' < n)%nat /\ (m_lhs_from m' < n)%nat.
Proof.
  induction l as [|o l IH]; intros m m' E HL A B C; cbn [merge_loop] in E; [injection E as <-; auto|].
  destruct (merge_step s m o) as [m1|] eqn:E1; [|discriminate].
  destruct (merge_step_from n s m o m1 E1) as (X & Y & Z); auto; [apply HL; left; auto|].
  apply (IH m1 m' E); auto. intros; apply HL; right; auto.
Qed.
Lemma row_bin_Back : forall bin s, Inv s -> FC s -> (forall j, In j bin -> live_row s j) ->
  Back s (fst (process_row_bin bin s)) /\ ct (fst (process_row_bin bin s)) = ct s.
Proof.
  intros bin s H F HL. unfold process_row_bin. destruct bin as [|i0 l]; [split; [apply Back_refl|auto]|].
  destruct (merge_loop s (merge_init s i0) l) as [m|] eqn:EM; [|split; [apply Back_refl|auto]].
  assert (HI : In (m_idx m) (i0 :: l)).
  { apply merge_loop_idx in EM. simpl in *. destruct EM; auto. }
  destruct (merge_loop_from (nr s) s l (merge_init s i0) m EM) as [FR FL].
  { intros o Ho. apply (HL o). right; auto. } { apply (HL i0). left; auto. }
  { cbn. destruct (HL i0 (or_introl eq_refl)) as [Y _]. lia. } { cbn. destruct (HL i0 (or_introl eq_refl)) as [Y _]. lia. }
  set (i := m_idx m) in *. destruct (HL i HI) as [Hi [Ti Ni]]. cbv zeta.
  set (p1 := if negb (m_eq m) && (negb (m_rhs_inf m) && negb (ext_eqb (m_rhs m) (rhs s i)))
             then change_rhs_of_ineq i (fin (m_rhs m)) (m_rhs_from m) (m_rhs_ratio m) s
             else (s, UNCHANGED)).
  assert (X : chg i s (fst p1) /\ stp s (fst p1)).
  { unfold p1. destruct (_ && _); [|split; [split; [apply rowkeep_refl|auto]|apply stp_refl; auto]].
    split; [apply change_rhs_chg; [apply view_full; auto|auto]|apply change_rhs_stp; auto]. }
  destruct p1 as [s1 st1]. cbn [fst] in X. destruct X as [C1 S1].
  pose proof (chg_Back i s s1 F Hi Ti C1) as B1. destruct C1 as [[A1 A2 A3 A4 A5 A6 A7] _].
  destruct (N.eqb st1 INFEASIBLE); [auto|].
  assert (F1 : FC s1) by (eapply FC_keep; [exact A1|exact A2|exact A3|exact A5| |exact F]; intros j; rewrite A7; auto).
  assert (Hi1 : (i < nr s1)%nat) by (rewrite A1; auto).
  assert (Ti1 : t_inact (rt s1 i) = false) by (rewrite A7; auto).
  set (p2 := if negb (m_eq m) && (negb (m_lhs_inf m) && negb (ext_eqb (m_lhs m) (lhs s1 i)))
             then change_lhs_of_ineq i (fin (m_lhs m)) (m_lhs_from m) (m_lhs_ratio m) s1
             else (s1, UNCHANGED)).
  assert (X : chg i s1 (fst p2)).
  { unfold p2. destruct (_ && _); [|split; [apply rowkeep_refl|auto]].
    apply change_lhs_chg; [apply view_full; auto; apply S1|rewrite A1; auto]. }
  destruct p2 as [s2 st2]. cbn [fst] in X.
  pose proof (chg_Back i s1 s2 F1 Hi1 Ti1 X) as B2. destruct X as [[D1 D2 D3 D4 D5 D6 D7] _].
  assert (B : Back s s2) by (eapply Back_trans; eauto).
  destruct (N.eqb st2 INFEASIBLE); [split; [auto|cbn; congruence]|]. cbn [fst]. split.
  - eapply Back_trans; [exact B|]. apply inact_fold_Back. intros j Hj. rewrite D1, A1. apply HL; auto.
  - assert (X : ct (foldS (fun s j => if Nat.eqb j i then s else set_row_to_inactive j 0 s) (i0 :: l) s2) = ct s2); [|congruence].
    apply (foldS_inv _ _ (fun t => ct t = ct s2)); [|reflexivity].
    intros t j _ E. destruct (Nat.eqb j i); auto.
Qed.
Lemma row_bins_Back : forall gs s, Inv s -> FC s -> NoDup (concat gs) ->
  (forall g j, In g gs -> In j g -> live_row s j) -> Back s (fst (process_row_bins gs s)).
Proof.
  induction gs as [|g gs IH]; simpl; intros s H F ND HL; [apply Back_refl|].
  pose proof (row_bin_stp g s H) as X. pose proof (row_bin_Back g s H F) as Y.
  pose proof (keepA_row_bin g s) as KA. destruct (process_row_bin g s) as [s1 st].
  cbn [fst] in *. destruct Y as [B1 C1]; [intros; eapply HL; eauto|].
  destruct X as [S1 [F1 [A1 R1]]].
  { apply NoDup_app_remove_r in ND; auto. }
  { intros; eapply HL; eauto. }
  destruct (N.eqb st INFEASIBLE); [auto|]. eapply Back_trans; [exact B1|]. apply IH.
  - apply S1.
  - eapply FC_keep; [apply (stp_nr _ _ S1)|apply (stp_nc _ _ S1)|exact A1|exact C1|apply (ka_rt _ _ KA)|exact F].
  - apply NoDup_app_remove_l in ND; auto.
  - intros g' j Hg Hj. destruct (HL g' j (or_intror Hg) Hj) as [A [B C]].
    unfold live_row. rewrite (stp_nr _ _ S1), A1, R1; auto.
    intros X. clear - ND X Hg Hj. assert (Y : In j (concat gs)) by (apply in_concat; eauto).
    induction g as [|z t IHt]; simpl in *; [contradiction|].
    inversion ND; subst. destruct X as [->|X]; auto. apply H1, in_or_app; auto.
Qed.
Lemma quiet_FC : forall s, Inv s -> quiet s -> FC s.
Proof.
  intros s H Q i k a Hi Ti Hk. destruct (w_rin s (inv_0 s H) i k a Hi Hk) as [K N]. split; auto.
  apply quiet_col; auto; try apply Q. eapply (inv_R s H); eauto.
Qed.
Lemma par_rows_Back : forall s, Inv s -> Nx s -> quiet s -> w_empty_rows s = [] ->
  Back s (fst (remove_parallel_rows s)).
Proof.
  intros s H NX QQ WE. pose proof QQ as [Q1 Q2 Q3]. unfold remove_parallel_rows, remove_parallel_rows_with.
  pose proof (hash_bins_ok (mA s) (fun i => t_inact (rt s i)) (nr s)) as BO.
  set (bins := hash_bins _ _ _) in *.
  assert (HL : forall g j, In g (groups_of (mA s) bins) -> In j g -> live_row s j).
  { intros g j Hg Hj. apply groups_in in Hg. destruct Hg as [b [Hb ->]].
    assert (Hj' := fpr_in _ _ _ Hj). pose proof (bo_lt _ _ _ BO b j Hb Hj') as LT.
    destruct b as [|f l]; [contradiction|].
    assert (Tf := bo_hd _ _ _ BO f l Hb). cbv beta in Tf.
    assert (Hf : (f < nr s)%nat) by (apply (bo_lt _ _ _ BO (f :: l)); simpl; auto).
    assert (Nf : mA s f <> []).
    { apply rsz_nempty; auto. intros R0. pose proof (l_empty_rows_c s (inv_L s H) f Hf Tf R0) as X.
      rewrite WE in X. contradiction. }
    assert (Nj : mA s j <> []).
    { intros X. apply fpr_par in Hj. rewrite X in Hj. destruct (mA s f); [auto|discriminate]. }
    split; auto. split; auto. destruct (t_inact (rt s j)) eqn:T; auto. exfalso.
    destruct (Z.eq_dec (rsz s j) (-1)) as [R|R]; [apply Nj, (nx_dead s NX); auto|].
    assert (X : In j (w_rows s)) by (apply (l_rows s (inv_L s H)); auto). rewrite Q1 in X. contradiction. }
  pose proof (groups_nd (mA s) (fun i => t_inact (rt s i)) bins (bo_nd _ _ _ BO)) as ND.
  pose proof (row_bins_Back (groups_of (mA s) bins) s H (quiet_FC s H QQ) ND HL) as B.
  pose proof (row_bins_stp (groups_of (mA s) bins) s H ND HL) as X.
  destruct (process_row_bins (groups_of (mA s) bins) s) as [s1 st]. cbn [fst] in *. destruct X as [S1 _].
  eapply Back_trans; [exact B|]. apply dir_Back. apply S1.
Qed.
End Backs.

(** ** Runs *)
Lemma common_Back : forall E0 stgs f s s' st, Ok s -> Mid s -> AV RT s ->
  In f (common_steps stgs) -> f s = (s', st) -> ~ trouble st -> Back E0 s s' /\ AV RT s'.
Proof.
  intros E0 stgs f s s' st OK M A IN E NT.
  pose proof (ok_inv s OK) as H. pose proof (ok_quiet s OK) as [Q1 Q2 Q3]. assert (QQ : quiet s) by (constructor; auto).
  pose proof good_RT as G.
  apply not_trouble in NT. destruct NT as [NI NU].
  unfold common_steps in IN. rewrite !in_app_iff in IN. destruct IN as [IN|[IN|[IN|IN]]].
  - destruct IN as [<-|[<-|[<-|[<-|[]]]]].
    + pose proof (close_bounds_AV RT s G OK M A) as Y. pose proof (close_bounds_Back E0 s H QQ) as B. rewrite E in *. auto.
    + pose proof (empty_cols_AV RT s G H A Q2) as Y. pose proof (empty_cols_Back E0 s H) as B. rewrite E in *. auto.
    + pose proof (ston_rows_AV RT s G H M A Q3) as Y. pose proof (ston_rows_Back E0 s H QQ) as B. rewrite E in *. auto.
    + pose proof (empty_rows_AV RT s G A) as Y. pose proof (empty_rows_Back E0 s H) as B. rewrite E in *. auto.
  - destruct (dual_fix_on stgs); [|contradiction]. destruct IN as [<-|[]].
    pose proof (dual_fix_AV RT s G H M A Q3) as Y. pose proof (dual_fix_Back E0 s H QQ) as B. rewrite E in *. auto.
  - destruct (ston_cols_on stgs); [|contradiction]. destruct IN as [<-|[]].
    pose proof (ston_cols_Back E0 s H M A QQ) as Y. rewrite E in Y. auto.
  - destruct (primal_propagation_on stgs); [|contradiction]. destruct IN as [<-|[<-|[]]].
    + pose proof (check_activities_AV RT s G H A) as Y. pose proof (check_activities_Back E0 s H) as B. rewrite E in *. auto.
    + pose proof (propagate_Back E0 (finite_bound_tightening_on stgs) s H M A Q1 Q3) as Y. rewrite E in Y. destruct Y; auto.
Qed.
Lemma reached_Back : forall E0 stgs fits P s, wf_input P -> coefficients_kept stgs ->
  (parallel_rows_on stgs = true -> ~ E0) -> reached stgs fits P s -> Back E0 (new_presolver P) s /\ AV RT s.
Proof.
  intros E0 stgs fits P s WF [CK1 CK2] CP R.
  induction R as [|f s s' st IN R IH E NT|s s' st ON C R IH E NT|s s' st ON C R IH E NT|s s' st ON R IH E NT TN].
  - split; [apply Back_refl|apply new_presolver_AV; auto using good_RT].
  - destruct IH as [B A]. destruct (reached_ok stgs fits P s WF R) as [OK M].
    destruct (common_Back E0 stgs f s s' st OK M A IN E NT). split; [eapply Back_trans; eauto|auto].
  - destruct IH as [B A]. destruct (reached_ok stgs fits P s WF R) as [[H Q N] M].
    pose proof (par_rows_AV RT s good_RT H A N Q C) as Y. pose proof (par_rows_Back E0 (CP ON) s H N Q C) as Z.
    rewrite E in *. split; [eapply Back_trans; eauto|auto].
  - congruence.
  - congruence.
Qed.

(** ** From the reduced problem to the input *)
Lemma init_fields : forall P, let s := new_presolver P in
  nr s = in_m P /\ nc s = in_n P /\ mA s = in_A P /\ cst s = in_c P /\ off s = 0 /\ log s = [] /\
  rt s = (fun i => new_rowtag (in_lhs P i) (in_rhs P i)) /\ ct s = (fun k => new_coltag (in_lb P k) (in_ub P k)) /\
  lb s = in_lb P /\ ub s = in_ub P /\ lhs s = in_lhs P /\ rhs s = in_rhs P /\ w_fixed s = [].
Proof.
  intros P. cbv zeta.
  change (new_presolver P) with
      (foldS list_act (seq 0 (in_m P)) (foldS list_col (seq 0 (in_n P)) (foldS list_row (seq 0 (in_m P))
        (foldS add_row_locks (seq 0 (in_m P)) (init_state P))))).
  destruct (locks_only_rows (seq 0 (in_m P)) (init_state P)) as [u [d E1]]. rewrite E1.
  set (s1 := set_dns d (set_ups u (init_state P))).
  destruct (list_rows_form (seq 0 (in_m P)) s1) as [E [R0 [D [E2 _]]]]. rewrite E2.
  set (s2 := set_w_dton D (set_w_ston_rows R0 (set_w_empty_rows E s1))).
  destruct (list_cols_form (seq 0 (in_n P)) s2) as [ec [sc [E3 _]]]. rewrite E3.
  match goal with |- context [foldS list_act ?l ?s] => destruct (list_acts_num l s) as [N [a [w E4]]]; rewrite E4 end.
  repeat split; reflexivity.
Qed.
Lemma init_rows_active : forall P i, t_inact (rt (new_presolver P) i) = false.
Proof. intros P i. destruct (init_fields P) as (_ & _ & _ & _ & _ & _ & -> & _). reflexivity. Qed.
Lemma init_cols_active : forall P k, t_cinact (ct (new_presolver P) k) = false.
Proof. intros P k. destruct (init_fields P) as (_ & _ & _ & _ & _ & _ & _ & -> & _). reflexivity. Qed.

(** sum over the rows of a problem = sum over the entries of the column *)
Lemma col_sum : forall s L k y, Inv s -> NoDup L -> (k < nc s)%nat -> t_cinact (ct s k) = false ->
  (forall i, In i L <-> (i < nr s)%nat /\ t_inact (rt s i) = false) ->
  sumQ L (fun i => coeff (mA s i) k * y i) == dot (acol s k) y.
Proof.
  intros s L k y H ND Hk Tk HL. rewrite <- (sum_coeff (acol s k) L y ND).
  - apply sumQ_ext. intros i Hi. apply HL in Hi. destruct Hi as [Hi Ti].
    rewrite (acol_coeff s i k H Hi Ti Hk Tk). lra.
  - intros i c Hc. apply filter_In in Hc. destruct Hc as [Hc T]. cbn in T. apply negb_true_iff in T.
    apply HL. split; auto. apply (w_cin s (inv_0 s H) i k c Hk Hc).
Qed.
Lemma ysum_dot : forall f y l, (forall i a, In (i, a) l -> val (f i) == y i) -> ysum f l == dot l y.
Proof.
  induction l as [|[i a] l IH]; intros HY; cbn [M_Post.wsum dot]; [lra|].
  rewrite IH by (intros; eapply HY; right; eauto). rewrite (HY i a) by (left; auto). lra.
Qed.
Definition start_sol (s : state) (x y z : nat -> Q) : solution :=
  copy_reduced_sol (keep_map (fun k => negb (Z.eqb (csz s k) (-1))))
                   (keep_map (fun i => negb (Z.eqb (rsz s i) (-1)))) x y z.
Lemma start_St : forall (E0 : Prop) s x y z, Ok s -> (E0 -> stationary (reduced_lp s) y z) -> St E0 s (start_sol s x y z).
Proof.
  intros E0 s x y z [H Q N] SY. pose proof (inv_0 s H) as W.
  assert (CA : forall k, (k < nc s)%nat -> t_cinact (ct s k) = false -> Z.eqb (csz s k) (-1) = false).
  { intros k Hk T. apply Z.eqb_neq. apply (cact_alive s k W Hk T). }
  assert (RA : forall i, (i < nr s)%nat -> t_inact (rt s i) = false -> Z.eqb (rsz s i) (-1) = false).
  { intros i Hi T. apply Z.eqb_neq. apply (act_alive s i W Hi T). }
  constructor; unfold start_sol, copy_reduced_sol, keep_map; cbn [sx sy sz].
  - intros k Hk T. rewrite CA; auto.
  - intros k Hk T. rewrite CA; auto.
  - intros i Hi T. rewrite RA; auto.
  - intros e0 k Hk T. rewrite CA by auto. cbn [negb val].
    specialize (SY e0 k). cbn [reduced_lp lp_cols lp_c lp_rows lp_A] in SY. rewrite SY.
    + rewrite (col_sum s (live_rows s) k y H); [|apply NoDup_filter, seq_NoDup|auto|auto|].
      * rewrite (ysum_dot _ y); [lra|]. intros i a Hi. apply filter_In in Hi. destruct Hi as [Hi Ti].
        cbn in Ti. apply negb_true_iff in Ti. rewrite RA; [cbn; lra| |auto]. apply (w_cin s W i k a Hk Hi).
      * intros i. split.
        -- intros Hi. apply live_act; auto. constructor; auto.
        -- intros [Hi Ti]. apply live_rows_in. split; auto. apply (act_alive s i W Hi Ti).
    + apply live_cols_in. split; auto. apply (cact_alive s k W Hk T).
Qed.
Lemma post_St : forall (E0 : Prop) stgs fits P s x y z, wf_input P -> coefficients_kept stgs ->
  (parallel_rows_on stgs = true -> ~ E0) -> reached stgs fits P s ->
  (E0 -> stationary (reduced_lp s) y z) ->
  St E0 (new_presolver P) (postsolve_state s x y z) /\
  (Forall soft (log s) -> s_err (postsolve_state s x y z) = false).
Proof.
  intros E0 stgs fits P s x y z WF CK CP R SY. destruct (reached_ok stgs fits P s WF R) as [OK _].
  destruct (reached_Back E0 stgs fits P s WF CK CP R) as [[new [L [_ B]]] _].
  destruct (init_fields P) as (_ & _ & _ & _ & _ & L0 & _). rewrite L0, app_nil_r in L.
  destruct (B (start_sol s x y z) (start_St E0 s x y z OK SY)) as [t' [S1 [E1 R1]]].
  specialize (R1 []). rewrite app_nil_r in R1. cbn [replay] in R1.
  unfold postsolve_state, postsolve. fold (start_sol s x y z). rewrite L, R1. split; auto.
Qed.
(** The log of a run mentions rows and columns of the input; its groups are complete *)
Lemma reached_log : forall stgs fits P s, wf_input P -> coefficients_kept stgs -> reached stgs fits P s ->
  nr s = in_m P /\ nc s = in_n P /\ Forall (in_range (in_n P) (in_m P)) (log s) /\ grouped 0 (log s).
Proof.
  intros stgs fits P s WF CK R.
  destruct (reached_Back False stgs fits P s WF CK (fun _ f => f) R) as [[new [L [[(S1 & S2 & S3) G] _]]] _].
  destruct (init_fields P) as (NR & NC & _ & _ & _ & L0 & _). rewrite L0, app_nil_r in L.
  rewrite NR, NC in *. rewrite L. split; [auto|]. split; [auto|]. split; [auto|].
  specialize (G [] eq_refl). rewrite app_nil_r in G. exact G.
Qed.
Lemma post_complete : forall stgs fits P s x y z, wf_input P -> coefficients_kept stgs -> reached stgs fits P s ->
  Forall soft (log s) -> exists x' y' z', solution_is P (postsolve_state s x y z) x' y' z'.
Proof.
  intros stgs fits P s x y z WF CK R SF.
  destruct (post_St False stgs fits P s x y z WF CK (fun _ f => f) R (False_ind _)) as [[X Z Y _] E].
  set (sol := postsolve_state s x y z) in *. destruct (init_fields P) as (NR & NC & _).
  exists (fun k => val (sx sol k)), (fun i => val (sy sol i)), (fun k => val (sz sol k)).
  split; [auto|]. split.
  - intros k Hk. rewrite NC in *. specialize (X k Hk (init_cols_active P k)). specialize (Z k Hk (init_cols_active P k)).
    destruct (sx sol k); [|discriminate]. destruct (sz sol k); [|discriminate]. auto.
  - intros i Hi. rewrite NR in *. specialize (Y i Hi (init_rows_active P i)). destruct (sy sol i); [auto|discriminate].
Qed.
Lemma post_stationary : forall stgs fits P s x y z x' y' z', wf_input P -> coefficients_kept stgs ->
  parallel_rows_on stgs = false -> reached stgs fits P s -> stationary (reduced_lp s) y z ->
  solution_is P (postsolve_state s x y z) x' y' z' -> stationary (lp_of_input P) y' z'.
Proof.
  intros stgs fits P s x y z x' y' z' WF CK PR R SY [_ [SX SYS]].
  destruct (post_St True stgs fits P s x y z WF CK ltac:(congruence) R (fun _ => SY)) as [[_ _ _ K] _].
  set (sol := postsolve_state s x y z) in *. destruct (init_fields P) as (NR & NC & MA & CS & _).
  intros k Hk. cbn [lp_of_input lp_cols lp_c lp_rows lp_A] in *. apply in_seq in Hk.
  assert (Hk' : (k < nc (new_presolver P))%nat) by (rewrite NC; lia).
  pose proof (proj1 (new_presolver_Ok P WF)) as OK0. pose proof (ok_inv _ OK0) as H0.
  specialize (K I k Hk' (init_cols_active P k)). destruct (SX k ltac:(lia)) as [_ SZ]. rewrite SZ in K. cbn [val] in K.
  rewrite K, CS. rewrite <- MA.
  rewrite (col_sum (new_presolver P) (seq 0 (in_m P)) k y' H0); [|apply seq_NoDup|auto|apply init_cols_active|].
  - rewrite (ysum_dot _ y'); [lra|]. intros i a Hi. apply filter_In in Hi. destruct Hi as [Hi _].
    pose proof (proj1 (w_cin _ (inv_0 _ H0) i k a Hk' Hi)) as Li. rewrite NR in Li. rewrite (SYS i Li). cbn; lra.
  - intros i. rewrite NR. rewrite in_seq. split; [intros; split; [lia|apply init_rows_active]|lia].
Qed.
