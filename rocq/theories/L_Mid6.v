(** Locks and tags through the merging of parallel columns (src/explorers/Parallel_cols.c). *)
From Coq Require Import NArith Lqa.
From Verif Require Import M_Num S_LP M_Settings M_Driver S_Driver M_State M_Act M_Core M_Simple
  M_StonCols M_Dton M_Parallel M_Propagate M_Init M_Post M_Run S_Run S_Struct S_Sem
  L_State L_Struct L_Struct2 L_Struct3 L_Struct4 L_Struct5 L_Struct6 L_Struct7 L_Struct8 L_Struct11
  L_Sem L_Sem2 L_Sem3 L_Sem4 L_Mid L_Mid2 L_Mid3 L_Mid4 L_Mid5.
Open Scope Q_scope.

Lemma merge_cols_eq : forall j k q s, exists L U (l u : bool) W r,
  merge_cols j k q s = record r (set_w_sub W
    (set_ct (upd (upd (ct s) j (CT l u (t_fixed (ct s j)) (t_sub (ct s j)))) k
       (tag_sub (upd (ct s) j (CT l u (t_fixed (ct s j)) (t_sub (ct s j))) k)))
    (set_lb (upd (lb s) j L) (set_ub (upd (ub s) j U) s)))) /\
  (if l then L = NInf else is_fin L = true) /\ (if u then U = PInf else is_fin U = true).
Proof.
  intros. unfold merge_cols. destruct (if Qgtb q 0 then _ else _) as [[[lbk ubk] lk] uk]. cbv zeta.
  do 6 eexists. split; [destruct s; reflexivity|].
  split; [destruct (t_lb_inf _ || _); reflexivity|destruct (t_ub_inf _ || _); reflexivity].
Qed.
Lemma merge_cols_Mid : forall j k q s, Inv s -> Mid s -> j <> k -> t_cinact (ct s j) = false ->
  t_cinact (ct s k) = false -> Mid (merge_cols j k q s).
Proof.
  intros j k q s H [[G1 G2 G3 G4 G5] [P1 P2] E L] D Tj Tk.
  destruct (merge_cols_eq j k q s) as [L0 [U0 [l [u [W [r [-> [XL XU]]]]]]]].
  constructor.
  - constructor; sr; auto; intros c Hc; (destruct (Nat.eq_dec c k) as [->|Nk];
      [rewrite upd_same; unfold t_cinact, tag_sub; cbn [t_sub t_fixed]; rewrite orb_true_r; discriminate|
       rewrite (upd_other _ _ k) by auto]); (destruct (Nat.eq_dec c j) as [->|Nj];
       [rewrite !upd_same; cbn [t_lb_inf t_ub_inf]; auto|rewrite !(upd_other _ _ j) by auto; first [apply G4|apply G5]; auto]).
  - constructor; sr; auto. intros c Hc. destruct (P2 c Hc) as [A B]. split; auto.
    destruct (l_fixed s (inv_L s H) c Hc) as [_ F]. unfold t_cinact in Tj, Tk.
    rewrite !upd_other; auto; intros ->; rewrite F in *; discriminate.
  - intros i Hi. sr. apply E. auto.
  - apply (LK_frame s); auto. sr. intros c Hc TC.
    assert (TC' : t_cinact (ct s c) = false).
    { destruct (Nat.eq_dec c k) as [->|Nk]; auto. rewrite (upd_other _ _ k) in TC by auto.
      destruct (Nat.eq_dec c j) as [->|Nj]; auto. rewrite upd_other in TC by auto. auto. }
    auto 10.
Qed.
Lemma merge_cols_other : forall j k q s c, c <> k -> t_cinact (ct (merge_cols j k q s) c) = t_cinact (ct s c).
Proof.
  intros j k q s c D. destruct (merge_cols_eq j k q s) as [L0 [U0 [l [u [W [r [-> _]]]]]]]. sr.
  rewrite (upd_other _ _ k) by auto. updg; auto.
Qed.
Lemma col_pair_Mid : forall s j k b, Inv s -> Mid s -> (j < nc s)%nat -> (k < nc s)%nat -> j <> k ->
  t_cinact (ct s j) = false ->
  let '(s', _, res) := col_pair j k s b in
  Mid s' /\ (res = PNext -> t_cinact (ct s' j) = false).
Proof.
  intros s j k b H M Hj Hk D Tj. unfold col_pair. cbv zeta.
  destruct (t_cinact (ct s k)) eqn:Tk; [auto|].
  destruct (IS_EQUAL_FEAS_TOL _ _).
  { split; [apply merge_cols_Mid; auto|]. intros _. rewrite merge_cols_other; auto. }
  assert (F : forall v c, Mid (fst (fix_col k v c s)) /\ (PNext = PNext -> t_cinact (ct (fst (fix_col k v c s)) j) = false)).
  { intros v c. split; [apply fix_col_Mid; auto|]. intros _. rewrite fix_col_other; auto. }
  assert (F2 : forall v c, Mid (fst (fix_col j v c s)) /\ (PBreak = PNext -> t_cinact (ct (fst (fix_col j v c s)) j) = false)).
  { intros v c. split; [apply fix_col_Mid; auto|discriminate]. }
  destruct (Qgtb (cst s k) _); cbn [andb negb];
  repeat (match goal with |- context [if ?b then _ else _] => destruct b end; cbn [fst andb negb]);
    first [apply F|apply F2|split; [exact M|auto; discriminate]].
Qed.
Lemma col_pairs_Mid : forall ks s j b, Inv s -> Mid s -> (j < nc s)%nat -> (forall k, In k ks -> (k < nc s)%nat) ->
  ~ In j ks -> t_cinact (ct s j) = false -> Mid (fst (fst (col_pairs j ks s b))).
Proof.
  induction ks as [|k ks IH]; simpl; intros s j b H M Hj HK ND Tj; [exact M|].
  pose proof (col_pair_stp s j k b H Hj (HK k (or_introl eq_refl))) as X.
  pose proof (col_pair_Mid s j k b H M Hj (HK k (or_introl eq_refl))) as Y.
  destruct (col_pair j k s b) as [[s1 b1] res]. cbn [fst] in X. destruct X as [S1 F1].
  destruct Y as [M1 T1]; [intuition auto|auto|].
  destruct res; cbn [fst]; auto.
  apply IH; auto; rewrite ?(stp_nc _ _ S1); auto. apply S1.
Qed.
Lemma recount_Mid : forall j s, Mid s -> Mid (recount j s).
Proof.
  intros j s M. unfold recount. set (l := mAT s j). clearbody l. revert s M.
  induction l as [|e l IH]; intros s M; cbn [foldS]; [exact M|].
  apply IH. set (a := recompute_n_infs _ _ _). clearbody a. apply (mid_same_Mid s); auto. mid_ref.
Qed.
Lemma col_bin_Mid : forall bin s, Inv s -> Mid s -> NoDup bin -> (forall k, In k bin -> (k < nc s)%nat) ->
  Mid (fst (process_col_bin bin s)).
Proof.
  induction bin as [|j rest IH]; intros s H M ND HK; simpl; [exact M|].
  destruct rest as [|k0 rest0] eqn:ER; [exact M|]. rewrite <- ER in *. inversion ND; subst.
  assert (HR : forall k, In k (k0 :: rest0) -> (k < nc s)%nat) by (intros; apply HK; simpl; auto).
  destruct (t_cinact (ct s j)) eqn:Tj; [apply IH; auto|].
  pose proof (col_pairs_stp (k0 :: rest0) s j false H (HK j (or_introl eq_refl)) HR) as X.
  pose proof (col_pairs_Mid (k0 :: rest0) s j false H M (HK j (or_introl eq_refl)) HR) as Y.
  destruct (col_pairs j (k0 :: rest0) s false) as [[s1 rec] res]. cbn [fst] in X, Y. destruct X as [S1 F1].
  assert (M1 : Mid s1) by (apply Y; auto).
  assert (K : Mid (fst (process_col_bin (k0 :: rest0) (if rec then recount j s1 else s1)))).
  { assert (E : same_struct s1 (if rec then recount j s1 else s1)).
    { destruct rec; [apply recount_same|apply same_refl]. }
    assert (M2 : Mid (if rec then recount j s1 else s1)). { destruct rec; auto. apply recount_Mid; auto. }
    apply IH; auto. 
    - eapply same_Inv; [exact E|apply S1].
    - rewrite (ss_nc _ _ E), (stp_nc _ _ S1). auto. }
  destruct res; auto.
Qed.
Lemma col_groups_Mid : forall gs s st, Inv s -> Mid s -> (forall g, In g gs -> NoDup g) ->
  (forall g k, In g gs -> In k g -> (k < nc s)%nat) ->
  Mid (fst (fold_or (fun s g => process_col_bin g s) gs s st)).
Proof.
  induction gs as [|g gs IH]; intros s st H M ND HG; simpl; [exact M|].
  pose proof (col_bin_stp g s H) as X. pose proof (col_bin_Mid g s H M (ND g (or_introl eq_refl))) as Y.
  destruct (process_col_bin g s) as [s1 st1]. cbn [fst] in Y.
  destruct X as [S1 [F1 E1]]; [intros; eapply HG; simpl; eauto|].
  apply IH; auto.
  - apply S1.
  - apply Y. intros; eapply HG; simpl; eauto.
  - intros; apply ND; simpl; auto.
  - intros g' k Hg Hk. rewrite (stp_nc _ _ S1). eapply HG; simpl; eauto.
Qed.
Lemma concat_nd : forall (gs : list (list nat)) g, NoDup (concat gs) -> In g gs -> NoDup g.
Proof.
  induction gs as [|h gs IH]; simpl; intros g ND Hg; [contradiction|]. destruct Hg as [->|Hg].
  - apply NoDup_app_remove_r in ND; auto.
  - apply IH; auto. apply NoDup_app_remove_l in ND; auto.
Qed.

(** src/explorers/Parallel_cols.c:288-348 *)
Lemma par_cols_Mid : forall s, Inv s -> Mid s -> w_ston_rows s = [] -> Mid (fst (remove_parallel_cols s)).
Proof.
  intros s H M WT. unfold remove_parallel_cols, remove_parallel_cols_with.
  pose proof (hash_bins_ok (mAT s) (fun i => t_cinact (ct s i)) (nc s)) as BO.
  set (bins := hash_bins _ _ _) in *.
  assert (ND := groups_nd (mAT s) (fun i => t_cinact (ct s i)) bins (bo_nd _ _ _ BO)).
  assert (HG : forall g k, In g (groups_of (mAT s) bins) -> In k g -> (k < nc s)%nat).
  { intros g k Hg Hk. apply groups_in in Hg. destruct Hg as [b [Hb ->]].
    apply (bo_lt _ _ _ BO b k Hb). eapply fpr_in; eauto. }
  pose proof (col_groups_stp (groups_of (mAT s) bins) s UNCHANGED H HG) as X.
  pose proof (col_groups_Mid (groups_of (mAT s) bins) s UNCHANGED H M (fun g => concat_nd _ g ND) HG) as Y.
  destruct (fold_or _ _ s UNCHANGED) as [s1 st]. destruct X as [S1 [[F1 F2] E]]. cbn [fst] in *.
  apply finish_Mid; auto; [apply S1|]. right. congruence.
Qed.
