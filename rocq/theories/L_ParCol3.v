(** Merging parallel columns keeps the solutions: the groups of the search and the explorer. *)
From Coq Require Import NArith Lqa Lia Qabs.
From Verif Require Import M_Num S_LP M_Settings M_Driver S_Driver M_State M_Act M_Core M_Simple
  M_StonCols M_Dton M_Parallel M_Propagate M_Init M_Post M_Run S_Run S_Struct S_Sem S_Sem2 S_Sem4 S_Merge S_MergeCol
  L_State L_Struct L_Struct2 L_Struct5 L_Struct7 L_Struct11 L_Sem L_Sem2 L_Sem3 L_Sem4 L_Sem6 L_Sem9 L_Ston L_Mid L_Mid5 L_Mid6
  L_ParRow L_ParCol L_ParCol2 L_Reach.
Import M_Driver.
Open Scope Q_scope.

Lemma row_live : forall s i, Ok s -> In i (lp_rows (reduced_lp s)) <-> (i < nr s)%nat /\ t_inact (rt s i) = false.
Proof.
  intros s i OK. cbn. rewrite live_rows_in. split; intros [A B]; split; auto; apply (quiet_row s i); auto; apply OK.
Qed.
Lemma col_live : forall s k, Ok s -> In k (lp_cols (reduced_lp s)) <-> (k < nc s)%nat /\ t_cinact (ct s k) = false.
Proof.
  intros s k OK. cbn. rewrite live_cols_in. split; intros [A B]; split; auto; apply (quiet_col s k); auto; apply OK.
Qed.

Lemma gok_group : forall s g, Ok s -> clear_cut_cols (reduced_lp s) -> all_used (reduced_lp s) ->
  (forall k, In k g -> (k < nc s)%nat) ->
  (exists f l, g = find_parallel_rows_in_bin (mAT s) (f :: l)) -> gok s g.
Proof.
  intros s g OK [CC CST] AU HG [f [l E]] j k Hj Hk NE Tj Tk.
  assert (H := ok_inv s OK). assert (W := inv_0 s H).
  assert (Hf : In f g).
  { subst g. unfold find_parallel_rows_in_bin in *. destruct (filter _ l); [contradiction|]. apply in_or_app. right. left. auto. }
  assert (PA : forall c, In c g -> c <> f -> parallel (mAT s f) (mAT s c) = true).
  { intros c Hc N. rewrite E in Hc. apply fpr_char in Hc. destruct Hc as [->|[_ P]]; [congruence|auto]. }
  assert (FST : forall c, (c < nc s)%nat -> t_cinact (ct s c) = false ->
     exists i a r, mAT s c = (i, a) :: r /\ (i < nr s)%nat /\ t_inact (rt s i) = false /\ ~ a == 0 /\ coeff (mA s i) c == a).
  { intros c Hc Tc. destruct (AU c (proj2 (col_live s c OK) (conj Hc Tc))) as [i [Hi NZ]].
    apply row_live in Hi; auto. destruct Hi as [Hi Ti]. cbn in NZ. rewrite coeff_AT in NZ by auto.
    destruct (mAT s c) as [|[i0 a] r] eqn:EM; [elim NZ; reflexivity|]. exists i0, a, r. split; auto.
    assert (IN : In (i0, a) (mAT s c)) by (rewrite EM; left; auto).
    destruct (w_cin s W i0 c a Hc IN) as [A B]. assert (R := inv_C s H i0 c a Hc Tc IN).
    assert (T0 : t_inact (rt s i0) = false) by (apply quiet_row; auto; apply OK).
    split; auto. split; auto. split; auto. rewrite coeff_AT by auto. apply coeff_in; auto. apply (w_csrt s W); auto. }
  destruct (FST j (HG j Hj) Tj) as [i0 [aj [rj [Mj [Hi0 [Ti0 [NZj Cj]]]]]]].
  assert (FN : mAT s f <> []).
  { destruct (Nat.eq_dec j f) as [->|N]; [rewrite Mj; discriminate|].
    pose proof (PA j Hj N) as P. unfold parallel in P. rewrite Mj in P. destruct (mAT s f); [discriminate|discriminate]. }
  assert (Tf : t_cinact (ct s f) = false).
  { apply (quiet_col s f); auto; try apply OK. intros Z. apply FN. apply (w_cdead s W f); auto. }
  destruct (FST f (HG f Hf) Tf) as [i1 [af [rf [Mf [Hi1 [Ti1 [NZf Cf]]]]]]].
  assert (LF := proj2 (col_live s f OK) (conj (HG f Hf) Tf)).
  (* every member against the first of the bin *)
  assert (RF : forall c, In c g -> t_cinact (ct s c) = false ->
     exists a r, mAT s c = (i1, a) :: r /\ ~ a == 0 /\ coeff (mA s i1) c == a /\
       forall i, (i < nr s)%nat -> t_inact (rt s i) = false -> coeff (mA s i) f == af / a * coeff (mA s i) c).
  { intros c Hc Tc. destruct (Nat.eq_dec c f) as [->|N].
    { exists af, rf. split; auto. split; auto. split; auto. intros. field. auto. }
    destruct (FST c (HG c Hc) Tc) as [i2 [a [r [Mc [Hi2 [Ti2 [NZ Cc]]]]]]].
    pose proof (PA c Hc N) as P. unfold parallel in P. rewrite Mf, Mc in P. rewrite <- Mf, <- Mc in P.
    apply nearly_of in P. pose proof (nearly_keys _ _ _ P) as KY. rewrite Mf, Mc in KY. cbn in KY. injection KY as KY _. subst i2.
    exists a, r. split; auto. split; auto. split; auto.
    assert (LC := proj2 (col_live s c OK) (conj (HG c Hc) Tc)).
    pose proof (CC i1 f c (proj2 (row_live s i1 OK) (conj Hi1 Ti1)) LF LC (fun e => N (eq_sym e))) as X.
    cbv zeta in X. cbn [lp_A reduced_lp] in X.
    assert (Q : coeff (mA s i1) f / coeff (mA s i1) c == af / a) by (rewrite Cf, Cc; lra).
    intros i Hi Ti. rewrite <- Q. apply X.
    - rewrite Cc. auto.
    - intros i' Hi'. apply row_live in Hi'; auto. destruct Hi' as [Hi' Ti']. cbn [lp_A reduced_lp].
      rewrite (coeff_AT s i' f), (coeff_AT s i' c) by auto. split.
      + assert (ZZ : forall d, (d < nc s)%nat -> coeff (mAT s d) i' == 0 <-> ~ has i' (mAT s d)).
        { intros d Hd. split.
          - intros Z [b Y]. rewrite (coeff_in _ _ b) in Z; auto; [|apply (w_csrt s W); auto].
            destruct (w_cin s W i' d b Hd Y). contradiction.
          - apply coeff_out. }
        rewrite !ZZ by auto. rewrite (nearly_has _ _ _ i' P). tauto.
      + eapply Qle_trans; [|apply (nearly_coeff _ _ _ (w_csrt s W f (HG f Hf)) P i')].
        apply Qle_lteq. right. apply Qabs_wd. rewrite Q. lra.
    - apply row_live; auto. }
  destruct (RF j Hj Tj) as [bj [sj [Nj [Zj [Dj Rj]]]]]. destruct (RF k Hk Tk) as [bk [sk [Nk [Zk [Dk Rk]]]]].
  assert (Fj : first_coeff (mAT s j) = bj) by (rewrite Nj; auto).
  assert (Fk : first_coeff (mAT s k) = bk) by (rewrite Nk; auto).
  assert (RR : forall i, (i < nr s)%nat -> t_inact (rt s i) = false -> coeff (mA s i) k == bk / bj * coeff (mA s i) j).
  { intros i Hi Ti. pose proof (Rj i Hi Ti) as A. pose proof (Rk i Hi Ti) as B. rewrite A in B.
    setoid_replace (coeff (mA s i) k) with (bk / af * (af / bk * coeff (mA s i) k)) by (field; auto).
    rewrite <- B. field. auto. }
  constructor; rewrite ?Fj, ?Fk; auto.
  intros EQ. unfold IS_EQUAL_FEAS_TOL in EQ. qb. apply absq_le in EQ.
  pose proof (CST i1 k j (proj2 (row_live s i1 OK) (conj Hi1 Ti1)) (proj2 (col_live s k OK) (conj (HG k Hk) Tk))
    (proj2 (col_live s j OK) (conj (HG j Hj) Tj)) (fun e => NE (eq_sym e))) as X.
  cbv zeta in X. cbn [lp_A reduced_lp lp_c] in X.
  assert (XX : cst s k * coeff (mA s i1) j == cst s j * coeff (mA s i1) k).
  { apply X.
    - rewrite Dj. auto.
    - intros i Hi. apply row_live in Hi; auto. cbn. rewrite Dj, Dk. apply RR; apply Hi.
    - eapply Qle_trans; [apply Qle_lteq; right; apply (Qabs_wd _ (cst s k * bj - cst s j * bk)); rewrite Dj, Dk; lra|].
      apply Qabs_Qle_condition. destruct EQ. split; lra. }
  rewrite Dj, Dk in XX. exact XX.
Qed.

Theorem parallel_cols_sem : forall stgs fits P s s' st, wf_input P -> reached stgs fits P s ->
  w_ston_rows s = [] -> not_crossed (reduced_lp s) -> all_used (reduced_lp s) -> clear_cut_cols (reduced_lp s) ->
  remove_parallel_cols s = (s', st) ->
  no_loss (reduced_lp s) (reduced_lp s') /\ nothing_gained (reduced_lp s) (reduced_lp s') /\
  (st = UNBNDORINFEAS -> (exists x, feasible (reduced_lp s) x) -> unbounded (reduced_lp s)).
Proof.
  intros stgs fits P s s' st WF RC WT [_ NC] AU CC EQ.
  destruct (reached_ok stgs fits P s WF RC) as [OK M]. assert (H := ok_inv s OK). assert (TG := md_tags s M).
  assert (QU := ok_quiet s OK).
  assert (SP := par_cols_spec s H). rewrite EQ in SP. destruct SP as [ST [QU' _]]; [apply QU|auto|].
  assert (M' : Mid s') by (pose proof (par_cols_Mid s H M WT) as X; rewrite EQ in X; exact X).
  assert (OK' : Ok s') by (constructor; auto; [apply ST|apply ST; apply OK]).
  unfold remove_parallel_cols, remove_parallel_cols_with in EQ.
  pose proof (hash_bins_ok (mAT s) (fun i => t_cinact (ct s i)) (nc s)) as BO.
  set (bins := hash_bins _ _ _) in *.
  assert (ND := groups_nd (mAT s) (fun i => t_cinact (ct s i)) bins (bo_nd _ _ _ BO)).
  assert (HG : forall g k, In g (groups_of (mAT s) bins) -> In k g -> (k < nc s)%nat).
  { intros g k Hg Hk. apply groups_in in Hg. destruct Hg as [b [Hb ->]].
    apply (bo_lt _ _ _ BO b k Hb). eapply fpr_in; eauto. }
  assert (GF : forall g, In g (groups_of (mAT s) bins) -> exists f l, g = find_parallel_rows_in_bin (mAT s) (f :: l)).
  { intros g Hg. assert (Hg' := Hg). apply groups_in in Hg'. destruct Hg' as [[|f l] [_ ->]]; eauto.
    apply filter_In in Hg. destruct Hg as [_ Hg]. discriminate. }
  assert (N : nocross s).
  { intros k Hk Tk L U. specialize (NC k (proj2 (col_live s k OK) (conj Hk Tk))). cbn in NC.
    pose proof (tr_lb s TG k Hk Tk) as A. pose proof (tr_ub s TG k Hk Tk) as B. rewrite L in A. rewrite U in B.
    destruct (lb s k), (ub s k); try discriminate. exact NC. }
  assert (G : forall g, In g (groups_of (mAT s) bins) -> gok s g).
  { intros g Hg. apply gok_group; auto. intros; eapply HG; eauto. }
  pose proof (col_groups_stp (groups_of (mAT s) bins) s UNCHANGED H HG) as X.
  pose proof (col_groups_Mid (groups_of (mAT s) bins) s UNCHANGED H M (fun g => concat_nd _ g ND) HG) as Y.
  pose proof (col_groups_sem (groups_of (mAT s) bins) s UNCHANGED H M N (fun g => concat_nd _ g ND) HG G) as Z.
  destruct (fold_or _ _ s UNCHANGED) as [s1 st1]. cbn [fst] in Y. destruct X as [S1 [[F1 F2] E]]. destruct Z as [FR [[KF KB] [_ DN]]].
  injection EQ as <- <-. fold (finish s1) in *.
  assert (H1 := st_inv _ _ S1).
  assert (PRE : w_sub s1 = [] \/ w_ston_rows s1 = []) by (right; congruence).
  destruct (finish_sem s1 H1 (md_tags _ Y) (md_pend _ Y) PRE) as [FS1 [FS2 _]].
  split; [|split].
  - intros x Fx. apply sat_feasible in Fx; auto. destruct (KF x Fx) as [y [Y1 Y2]]. exists y.
    split; [apply sat_feasible; auto; apply FS1; auto|]. rewrite <- !obj_reduced. rewrite FS2; auto. apply (sat_pinned _ _ _ _ Y1).
  - intros x' Fx. apply sat_feasible in Fx; auto.
    destruct (finish_back _ _ s1 x' H1 (md_tags _ Y) (md_pend _ Y) PRE Fx) as [y [_ [Y1 Y2]]].
    destruct (KB y Y1) as [x [X1 X2]]. exists x. split; [apply sat_feasible; auto|]. rewrite <- !obj_reduced. rewrite X2, Y2. lra.
  - intros -> [x Fx]. destruct (DN (or_introl eq_refl) eq_refl) as [A|D]; [discriminate|].
    intros B. apply sat_feasible in Fx; auto. destruct (D x Fx B) as [y [Y1 Y2]]. exists y. split; [apply sat_feasible; auto|].
    rewrite <- obj_reduced. auto.
Qed.
