(** Parallel rows and columns preserve the structural invariant. *)
From Coq Require Import NArith Sorted Permutation.
From Verif Require Import M_Num S_LP M_Driver M_State M_Act M_Core M_Simple M_StonCols M_Parallel
  L_State L_Struct L_Struct2 L_Struct3 L_Struct4 L_Struct5 L_Struct6.

Lemma NoDup_app_remove_r : forall (a b : list nat), NoDup (a ++ b) -> NoDup a.
Proof.
  induction a as [|x a IH]; simpl; intros b H; [constructor|]. inversion H; subst.
  constructor; eauto. intros X. apply H2, in_or_app; auto.
Qed.
Lemma NoDup_app_remove_l : forall (a b : list nat), NoDup (a ++ b) -> NoDup b.
Proof. induction a as [|x a IH]; simpl; intros b H; auto. inversion H; eauto. Qed.
Lemma NoDup_app_disj : forall (a b : list nat), NoDup a -> NoDup b -> (forall x, In x a -> In x b -> False) -> NoDup (a ++ b).
Proof.
  induction a as [|x a IH]; simpl; intros b H1 H2 D; auto. inversion H1; subst.
  constructor; [rewrite in_app_iff; intros [X|X]; eauto|]. apply IH; eauto.
Qed.

(** ** The bins *)
Section Bins.
Variable M : nat -> row.
Variable inact : nat -> bool.

Lemma insert_perm : forall i l, Permutation (insert_row M inact i l) (i :: l).
Proof.
  induction l as [|k l IH]; simpl; auto. destruct (hash_le _ _); auto.
  eapply perm_trans; [apply perm_skip; exact IH|]. apply perm_swap.
Qed.
Lemma sort_perm : forall l, Permutation (sort_rows M inact l) l.
Proof.
  induction l as [|k l IH]; simpl; auto.
  eapply perm_trans; [apply insert_perm|]. apply perm_skip; auto.
Qed.
Lemma take_bin_app : forall h l b r, take_bin M inact h l = (b, r) -> l = b ++ r.
Proof.
  induction l as [|k l IH]; simpl; intros b r E; [inversion E; reflexivity|].
  destruct (hash_eq _ _).
  - destruct (take_bin M inact h l) as [b' r']. inversion E; subst. simpl. f_equal. apply IH; reflexivity.
  - inversion E; subst. reflexivity.
Qed.

(** a list cut into bins: what is used of the hashing *)
Record bins_ok (n : nat) (bins : list (list nat)) : Prop := {
  bo_nd : NoDup (concat bins);
  bo_lt : forall b i, In b bins -> In i b -> (i < n)%nat;
  bo_hd : forall f l, In (f :: l) bins -> inact f = false }.

Lemma cut_bins_ok : forall n fuel l, NoDup l -> (forall i, In i l -> (i < n)%nat) ->
  bins_ok n (cut_bins M inact fuel l) /\ (forall i, In i (concat (cut_bins M inact fuel l)) -> In i l).
Proof.
  intros n. induction fuel as [|f IH]; intros l ND LT; simpl.
  { split; [|simpl; tauto]. constructor; simpl; try tauto. constructor. }
  destruct l as [|i l]; [split; [|simpl; tauto]; constructor; simpl; try tauto; constructor|].
  destruct (inact i) eqn:Ai; [split; [|simpl; tauto]; constructor; simpl; try tauto; constructor|].
  destruct (take_bin M inact (row_hash M inact i) l) as [b r] eqn:E.
  apply take_bin_app in E. subst l. inversion ND; subst.
  assert (NDr : NoDup r). { clear - H2. induction b; simpl in *; auto. inversion H2; auto. }
  destruct (IH r NDr) as [[B1 B2 B3] BI]; [intros; apply LT; simpl; rewrite in_app_iff; auto|].
  destruct b as [|j b].
  - split; [constructor; auto|]. intros k Hk. right. apply in_or_app. right. auto.
  - set (bb := i :: j :: b) in *. split.
    + constructor.
      * simpl. change (NoDup (bb ++ concat (cut_bins M inact f r))).
        apply NoDup_app_disj; auto.
        -- unfold bb. constructor.
           ++ intros X. apply H1. apply in_or_app; auto.
           ++ clear - H2. change (NoDup ((j :: b) ++ r)) in H2. apply NoDup_app_remove_r in H2. auto.
        -- intros x X Y. apply BI in Y. destruct X as [<-|X].
           ++ apply H1. apply in_or_app; auto.
           ++ clear - H2 X Y. induction (j :: b) as [|z t IHt]; simpl in *; [contradiction|].
              inversion H2; subst. destruct X as [->|X]; auto. apply H1, in_or_app; auto.
      * intros c k [<-|Hc] Hk; [|eapply B2; eauto]. apply LT. unfold bb in Hk.
        destruct Hk as [<-|Hk]; [left; auto|]. right. apply in_or_app. auto.
      * intros g t [X|X]; [inversion X; subst; auto|eapply B3; eauto].
    + intros k Hk. simpl in Hk. rewrite in_app_iff in Hk. simpl. rewrite in_app_iff.
      destruct Hk as [->|[->|[Hk|Hk]]]; auto; simpl; auto.
Qed.
Lemma hash_bins_ok : forall n, bins_ok n (hash_bins M inact n).
Proof.
  intros n. apply cut_bins_ok.
  - eapply Permutation_NoDup; [apply Permutation_sym, sort_perm|apply seq_NoDup].
  - intros i Hi. apply (Permutation_in _ (sort_perm _)) in Hi. apply in_seq in Hi. lia.
Qed.

Lemma same_pattern_len : forall q r1 r2, same_pattern q r1 r2 = true -> length r1 = length r2.
Proof.
  induction r1 as [|[c v] r1 IH]; intros [|[c2 v2] r2]; simpl; try discriminate; auto.
  rewrite !andb_true_iff. intros [_ X]. f_equal; auto.
Qed.
Lemma parallel_len : forall r1 r2, parallel r1 r2 = true -> length r1 = length r2.
Proof.
  intros [|[c v] r1] [|[c2 v2] r2]; simpl; try discriminate; auto.
  intros X. apply (same_pattern_len (v / v2) ((c,v)::r1) ((c2,v2)::r2)). exact X.
Qed.

(** the groups: sublists of the bins, permuted *)
Lemma fpr_char : forall f l i, In i (find_parallel_rows_in_bin M (f :: l)) ->
  i = f \/ (In i l /\ parallel (M f) (M i) = true).
Proof.
  intros f l i H. unfold find_parallel_rows_in_bin in H.
  assert (K : In i (filter (fun i => parallel (M f) (M i)) l ++ [f])).
  { destruct (filter (fun i => parallel (M f) (M i)) l) as [|x g]; [destruct H|exact H]. }
  apply in_app_or in K. destruct K as [K|[K|[]]]; auto. apply filter_In in K. auto.
Qed.
Lemma fpr_in : forall b i, In i (find_parallel_rows_in_bin M b) -> In i b.
Proof. intros [|f l] i H; [auto|]. apply fpr_char in H. destruct H as [->|[H _]]; simpl; auto. Qed.
Lemma fpr_par : forall f l i, In i (find_parallel_rows_in_bin M (f :: l)) ->
  length (M i) = length (M f).
Proof.
  intros f l i H. apply fpr_char in H. destruct H as [->|[_ H]]; auto.
  symmetry. apply parallel_len; auto.
Qed.
Lemma fpr_nd : forall b, NoDup b -> NoDup (find_parallel_rows_in_bin M b).
Proof.
  intros [|f l] ND; [constructor|]. unfold find_parallel_rows_in_bin. inversion ND; subst.
  assert (K : NoDup (filter (fun i => parallel (M f) (M i)) l ++ [f])).
  { apply NoDup_app_one; [apply NoDup_filter; auto|]. intros X. apply filter_In in X. tauto. }
  destruct (filter (fun i => parallel (M f) (M i)) l); [constructor|exact K].
Qed.
Lemma groups_nd : forall bins, NoDup (concat bins) -> NoDup (concat (groups_of M bins)).
Proof.
  unfold groups_of. induction bins as [|b bins IH]; simpl; intros ND; [constructor|].
  assert (NB : NoDup b) by (apply NoDup_app_remove_r in ND; auto).
  assert (NR : NoDup (concat bins)) by (apply NoDup_app_remove_l in ND; auto).
  assert (IN : forall i, In i (concat (filter (fun g => negb (length g =? 0)%nat)
                (map (find_parallel_rows_in_bin M) bins))) -> In i (concat bins)).
  { clear. induction bins as [|b bins IH]; simpl; auto. intros i.
    destruct (negb _); simpl; rewrite !in_app_iff; intuition auto. left. apply fpr_in; auto. }
  destruct (negb _); simpl; auto.
  apply NoDup_app_disj; auto using fpr_nd.
  intros x X Y. apply fpr_in in X. apply IN in Y. clear - ND X Y.
  induction b as [|z t IHt]; simpl in *; [contradiction|].
  inversion ND; subst. destruct X as [->|X]; auto. apply H1, in_or_app; auto.
Qed.
Lemma groups_in : forall bins g, In g (groups_of M bins) -> exists b, In b bins /\ g = find_parallel_rows_in_bin M b.
Proof.
  intros bins g H. apply filter_In in H. destruct H as [H _]. apply in_map_iff in H.
  destruct H as [b [E H]]. eauto.
Qed.
End Bins.

(** ** Side changes *)
Lemma change_rhs_stp : forall i v o q s, Inv s -> (i < nr s)%nat -> t_inact (rt s i) = false ->
  let s' := fst (change_rhs_of_ineq i v o q s) in
  stp s s' /\ frame5 s s' /\ mA s' = mA s /\ (forall j, t_inact (rt s' j) = t_inact (rt s j)) /\
  w_empty_rows s' = w_empty_rows s.
Proof.
  intros i v o q s H Hi T. unfold change_rhs_of_ineq.
  destruct (_ && _); [cbn [fst]; auto 10 using stp_refl, frame5_refl|]. cbv zeta. cbn [fst].
  rewrite (view_full s i H Hi T).
  set (s1 := if t_rhs_inf (rt s i) then update_locks_ineq_to_eq (mA s i) false s else s).
  assert (L1 : locks_only s s1).
  { unfold s1. destruct (t_rhs_inf _); [apply locks_only_ineq_to_eq|apply locks_only_refl]. }
  destruct L1 as [x [y E1]]. rewrite E1. clearbody s1. clear E1 s1. sr.
  rewrite upd_same. cbn [t_lhs_inf untag_rhs_inf].
  pose proof (tight_rsz s i (inv_0 s H) (inv_R s H) Hi T) as RS.
  assert (G : forall s', same_struct s s' -> stp s s' /\ frame5 s s' /\ mA s' = mA s /\ (forall j, t_inact (rt s' j) = t_inact (rt s j)) /\
     w_empty_rows s' = w_empty_rows s).
  { intros s' E. split; [apply stp_same; auto|]. split; [apply frame5_same; auto|].
    split; [apply (ss_A _ _ E)|]. split; [apply (ss_rt _ _ E)|apply (ss_w5 _ _ E)]. }
  destruct (_ && _).
  - set (s3 := set_rt1 i (tag_eq_or _) _).
    assert (SS3 : same_struct s s3).
    { unfold s3. constructor; sr; auto; intros j; updg; auto. }
    destruct (Nat.eqb_spec (length (mA s i)) 2).
    + assert (S4 : stp s (push_dton i s3)).
      { eapply stp_trans; [apply stp_same; eauto|]. apply push_dton_stp.
        - eapply same_Inv; eauto.
        - rewrite (ss_nr _ _ SS3). auto.
        - rewrite (ss_rsz _ _ SS3), RS. unfold Z_len. lia. }
      destruct (G s3 SS3) as [_ [F [A [R W]]]].
      split; [eapply stp_trans; [exact S4|]; apply stp_same; [apply S4|apply same_record]|].
      split; [destruct F as [f1 [f2 f3]]; unfold frame5; sr; auto|]. sr. auto.
    + match goal with |- stp _ ?z /\ _ => apply (G z) end. eapply same_trans; [exact SS3|apply same_record].
  - match goal with |- stp _ ?z /\ _ => apply (G z) end. eapply same_trans; [|apply same_record]. constructor; sr; auto; intros j; updg; auto.
Qed.
Lemma change_lhs_stp : forall i v o q s, Inv s -> (i < nr s)%nat -> t_inact (rt s i) = false ->
  let s' := fst (change_lhs_of_ineq i v o q s) in
  stp s s' /\ frame5 s s' /\ mA s' = mA s /\ (forall j, t_inact (rt s' j) = t_inact (rt s j)) /\
  w_empty_rows s' = w_empty_rows s.
Proof.
  intros i v o q s H Hi T. unfold change_lhs_of_ineq.
  destruct (_ && _); [cbn [fst]; auto 10 using stp_refl, frame5_refl|]. cbv zeta. cbn [fst].
  rewrite (view_full s i H Hi T).
  set (s1 := if t_lhs_inf (rt s i) then update_locks_ineq_to_eq (mA s i) true s else s).
  assert (L1 : locks_only s s1).
  { unfold s1. destruct (t_lhs_inf _); [apply locks_only_ineq_to_eq|apply locks_only_refl]. }
  destruct L1 as [x [y E1]]. rewrite E1. clearbody s1. clear E1 s1. sr.
  rewrite upd_same. cbn [t_rhs_inf untag_lhs_inf].
  pose proof (tight_rsz s i (inv_0 s H) (inv_R s H) Hi T) as RS.
  assert (G : forall s', same_struct s s' -> stp s s' /\ frame5 s s' /\ mA s' = mA s /\ (forall j, t_inact (rt s' j) = t_inact (rt s j)) /\
     w_empty_rows s' = w_empty_rows s).
  { intros s' E. split; [apply stp_same; auto|]. split; [apply frame5_same; auto|].
    split; [apply (ss_A _ _ E)|]. split; [apply (ss_rt _ _ E)|apply (ss_w5 _ _ E)]. }
  destruct (_ && _).
  - set (s3 := set_rt1 i (tag_eq_or _) _).
    assert (SS3 : same_struct s s3).
    { unfold s3. constructor; sr; auto; intros j; updg; auto. }
    destruct (Nat.eqb_spec (length (mA s i)) 2).
    + assert (S4 : stp s (push_dton i s3)).
      { eapply stp_trans; [apply stp_same; eauto|]. apply push_dton_stp.
        - eapply same_Inv; eauto.
        - rewrite (ss_nr _ _ SS3). auto.
        - rewrite (ss_rsz _ _ SS3), RS. unfold Z_len. lia. }
      destruct (G s3 SS3) as [_ [F [A [R W]]]].
      split; [eapply stp_trans; [exact S4|]; apply stp_same; [apply S4|apply same_record]|].
      split; [destruct F as [f1 [f2 f3]]; unfold frame5; sr; auto|]. sr. auto.
    + match goal with |- stp _ ?z /\ _ => apply (G z) end. eapply same_trans; [exact SS3|apply same_record].
  - match goal with |- stp _ ?z /\ _ => apply (G z) end. eapply same_trans; [|apply same_record]. constructor; sr; auto; intros j; updg; auto.
Qed.

(** ** Rows *)
Definition live_row (s : state) (i : nat) : Prop :=
  (i < nr s)%nat /\ t_inact (rt s i) = false /\ mA s i <> [].

Lemma inact_rows_fold : forall bin i s, Inv s -> NoDup bin -> (forall j, In j bin -> live_row s j) ->
  let s' := foldS (fun s j => if Nat.eqb j i then s else set_row_to_inactive j 0 s) bin s in
  stp s s' /\ frame5 s s' /\ mA s' = mA s /\ (forall j, ~ In j bin -> rt s' j = rt s j).
Proof.
  induction bin as [|j bin IH]; intros i s H ND HL; cbn zeta; simpl foldS.
  - auto 10 using stp_refl, frame5_refl.
  - inversion ND; subst.
    set (s1 := if Nat.eqb j i then s else set_row_to_inactive j 0 s).
    assert (X : stp s s1 /\ frame5 s s1 /\ mA s1 = mA s /\ (forall k, k <> j -> rt s1 k = rt s k)).
    { unfold s1. destruct (Nat.eqb j i); [auto 10 using stp_refl, frame5_refl|].
      destruct (HL j (or_introl eq_refl)) as [A [B C]].
      split; [apply stp_row_inactive; auto; apply nempty; auto|].
      unfold set_row_to_inactive, frame5. sr. split; auto. split; auto. intros k N. apply upd_other; auto. }
    destruct X as [S1 [F1 [A1 R1]]].
    destruct (IH i s1 (st_inv _ _ S1) H3) as [S2 [F2 [A2 R2]]].
    { intros k Hk. destruct (HL k (or_intror Hk)) as [A [B C]].
      unfold live_row. rewrite (stp_nr _ _ S1), A1, R1; auto. intros ->; contradiction. }
    split; [eapply stp_trans; eauto|]. split; [eapply frame5_trans; eauto|].
    split; [congruence|]. intros k Hk. simpl in Hk. rewrite R2 by tauto. apply R1. intros ->. tauto.
Qed.

Lemma merge_step_idx : forall s m o m', merge_step s m o = Some m' -> m_idx m' = m_idx m \/ m_idx m' = o.
Proof.
  intros s m o m'. unfold merge_step. cbv zeta.
  destruct (negb (m_eq m) && t_eq (rt s o)).
  - repeat match goal with |- context [if ?b then _ else _] => destruct b end;
      intros E; inversion E; subst; cbn [m_idx]; auto.
  - repeat match goal with |- context [if ?b then _ else _] => destruct b end;
      intros E; inversion E; subst; cbn [m_idx]; auto.
Qed.
Lemma merge_loop_idx : forall l s m m', merge_loop s m l = Some m' -> m_idx m' = m_idx m \/ In (m_idx m') l.
Proof.
  induction l as [|o l IH]; simpl; intros s m m' E; [inversion E; auto|].
  destruct (merge_step s m o) as [m1|] eqn:E1; [|discriminate].
  apply IH in E. apply merge_step_idx in E1. destruct E as [->|E]; auto. destruct E1; auto.
Qed.

Lemma row_bin_stp : forall bin s, Inv s -> NoDup bin -> (forall j, In j bin -> live_row s j) ->
  let '(s', st) := process_row_bin bin s in
  stp s s' /\ frame5 s s' /\ mA s' = mA s /\
  (forall j, ~ In j bin -> t_inact (rt s' j) = t_inact (rt s j)).
Proof.
  intros bin s H ND HL. unfold process_row_bin. destruct bin as [|i0 l]; [auto 10 using stp_refl, frame5_refl|].
  destruct (merge_loop s (merge_init s i0) l) as [m|] eqn:EM; [|auto 10 using stp_refl, frame5_refl].
  assert (HI : In (m_idx m) (i0 :: l)).
  { apply merge_loop_idx in EM. simpl in *. destruct EM; auto. }
  set (i := m_idx m) in *. destruct (HL i HI) as [Hi [Ti Ni]]. cbv zeta.
  set (p1 := if negb (m_eq m) && (negb (m_rhs_inf m) && negb (ext_eqb (m_rhs m) (rhs s i)))
             then change_rhs_of_ineq i (fin (m_rhs m)) (m_rhs_from m) (m_rhs_ratio m) s
             else (s, UNCHANGED)).
  assert (X : stp s (fst p1) /\ frame5 s (fst p1) /\ mA (fst p1) = mA s /\ (forall j, t_inact (rt (fst p1) j) = t_inact (rt s j))).
  { unfold p1. destruct (_ && _); [|cbn [fst]; auto 10 using stp_refl, frame5_refl].
    destruct (change_rhs_stp i (fin (m_rhs m)) (m_rhs_from m) (m_rhs_ratio m) s H Hi Ti) as [A [B [C [D _]]]]. auto. }
  destruct p1 as [s1 st1]. cbn [fst] in X. destruct X as [S1 [F1 [A1 R1]]].
  destruct (N.eqb st1 INFEASIBLE); [auto 10|].
  set (p2 := if negb (m_eq m) && (negb (m_lhs_inf m) && negb (ext_eqb (m_lhs m) (lhs s1 i)))
             then change_lhs_of_ineq i (fin (m_lhs m)) (m_lhs_from m) (m_lhs_ratio m) s1
             else (s1, UNCHANGED)).
  assert (X : stp s1 (fst p2) /\ frame5 s1 (fst p2) /\ mA (fst p2) = mA s1 /\ (forall j, t_inact (rt (fst p2) j) = t_inact (rt s1 j))).
  { unfold p2. destruct (_ && _); [|cbn [fst]; auto 10 using stp_refl, frame5_refl, (st_inv _ _ S1)].
    assert (Hi1 : (i < nr s1)%nat) by (rewrite (stp_nr _ _ S1); auto).
    assert (Ti1 : t_inact (rt s1 i) = false) by (rewrite R1; auto).
    destruct (change_lhs_stp i (fin (m_lhs m)) (m_lhs_from m) (m_lhs_ratio m) s1 (st_inv _ _ S1) Hi1 Ti1) as [A [B [C [D _]]]]. auto. }
  destruct p2 as [s2 st2]. cbn [fst] in X. destruct X as [S2' [F2' [A2' R2']]].
  assert (S2 : stp s s2) by (eapply stp_trans; eauto).
  assert (F2 : frame5 s s2) by (eapply frame5_trans; eauto).
  assert (A2 : mA s2 = mA s) by congruence.
  assert (R2 : forall j, t_inact (rt s2 j) = t_inact (rt s j)) by (intros; rewrite R2', R1; auto).
  destruct (N.eqb st2 INFEASIBLE); [auto 10|].
  destruct (inact_rows_fold (i0 :: l) i s2 (st_inv _ _ S2) ND) as [S3 [F3 [A3 R3]]].
  { intros j Hj. destruct (HL j Hj) as [A [B C]]. unfold live_row. rewrite (stp_nr _ _ S2), R2, A2. auto. }
  split; [eapply stp_trans; eauto|]. split; [eapply frame5_trans; eauto|]. split; [congruence|].
  intros j Hj. rewrite R3; auto.
Qed.

Lemma row_bins_stp : forall gs s, Inv s -> NoDup (concat gs) ->
  (forall g j, In g gs -> In j g -> live_row s j) ->
  let '(s', st) := process_row_bins gs s in
  stp s s' /\ frame5 s s' /\ (st = UNCHANGED \/ st = INFEASIBLE).
Proof.
  induction gs as [|g gs IH]; simpl; intros s H ND HL; [auto 10 using stp_refl, frame5_refl|].
  pose proof (row_bin_stp g s H) as X. destruct (process_row_bin g s) as [s1 st].
  destruct X as [S1 [F1 [A1 R1]]].
  { apply NoDup_app_remove_r in ND; auto. }
  { intros; eapply HL; eauto. }
  destruct (N.eqb st INFEASIBLE); [auto|].
  specialize (IH s1 (st_inv _ _ S1)). destruct (process_row_bins gs s1) as [s2 st2].
  destruct IH as [S2 [F2 E]].
  { apply NoDup_app_remove_l in ND; auto. }
  { intros g' j Hg Hj. destruct (HL g' j (or_intror Hg) Hj) as [A [B C]].
    unfold live_row. rewrite (stp_nr _ _ S1), A1, R1; auto.
    intros X. clear - ND X Hg Hj. assert (Y : In j (concat gs)) by (apply in_concat; eauto).
    induction g as [|z t IHt]; simpl in *; [contradiction|].
    inversion ND; subst. destruct X as [->|X]; auto. apply H1, in_or_app; auto. }
  split; [eapply stp_trans; eauto|]. split; [eapply frame5_trans; eauto|auto].
Qed.

Lemma par_rows_spec : forall s, Inv s -> Nx s -> quiet s -> w_empty_rows s = [] ->
  let '(s', st) := remove_parallel_rows s in
  stp s s' /\ quiet s' /\ w_ston_rows s' = w_ston_rows s /\ (st = UNCHANGED \/ st = INFEASIBLE).
Proof.
  intros s H NX [Q1 Q2 Q3] WE. unfold remove_parallel_rows, remove_parallel_rows_with.
  pose proof (hash_bins_ok (mA s) (fun i => t_inact (rt s i)) (nr s)) as BO.
  set (bins := hash_bins _ _ _) in *.
  pose proof (row_bins_stp (groups_of (mA s) bins) s H (groups_nd (mA s) (fun i => t_inact (rt s i)) bins (bo_nd _ _ _ BO))) as X.
  destruct (process_row_bins (groups_of (mA s) bins) s) as [s1 st].
  destruct X as [S1 [F1 E]].
  { intros g j Hg Hj. apply groups_in in Hg. destruct Hg as [b [Hb ->]].
    assert (Hj' := fpr_in _ _ _ Hj). pose proof (bo_lt _ _ _ BO b j Hb Hj') as LT.
    destruct b as [|f l]; [contradiction|].
    assert (Tf := bo_hd _ _ _ BO f l Hb). cbv beta in Tf.
    assert (Hf : (f < nr s)%nat) by (apply (bo_lt _ _ _ BO (f :: l)); simpl; auto).
    assert (Nf : mA s f <> []).
    { apply rsz_nempty; auto. intros R0. pose proof (l_empty_rows_c s (inv_L s H) f Hf Tf R0) as X.
      rewrite WE in X. contradiction. }
    assert (Nj : mA s j <> []).
    { intros X. apply fpr_par in Hj. rewrite X in Hj. destruct (mA s f); [auto|discriminate]. }
    split; auto. split; auto. destruct (t_inact (rt s j)) eqn:T; auto. exfalso.
    destruct (Z.eq_dec (rsz s j) (-1)) as [R|R]; [apply Nj, (nx_dead s NX); auto|].
    assert (X : In j (w_rows s)) by (apply (l_rows s (inv_L s H)); auto). rewrite Q1 in X. contradiction. }
  destruct (stp_dir s1 (st_inv _ _ S1)) as [S2 [F2 W2]].
  assert (F := frame5_trans _ _ _ F1 F2). destruct F as [f1 [f2 f3]].
  split; [eapply stp_trans; eauto|]. split; [constructor; congruence|]. split; auto.
Qed.

(** ** Columns *)
Lemma merge_cols_stp : forall s j k q, Inv s -> (k < nc s)%nat -> 
  stp s (merge_cols j k q s) /\ w_rows (merge_cols j k q s) = w_rows s /\
  w_ston_rows (merge_cols j k q s) = w_ston_rows s.
Proof.
  intros s j k q H Hk. unfold merge_cols.
  destruct (if Qgtb q 0 then _ else _) as [[[lbk ubk] lk] uk]. cbv zeta.
  set (s3 := set_ct1 j _ _).
  assert (SS : same_struct s s3).
  { unfold s3. constructor; sr; auto; intros x; updg; auto. }
  assert (S1 : stp s (set_col_to_substituted k s3)).
  { eapply stp_trans; [apply stp_same; eauto|]. apply stp_sub; [eapply same_Inv; eauto|].
    rewrite (ss_nc _ _ SS). auto. }
  split; [eapply stp_trans; [exact S1|apply stp_same; [apply S1|apply same_record]]|].
  unfold set_col_to_substituted. sr. split; [apply (ss_w1 _ _ SS)|apply (ss_w4 _ _ SS)].
Qed.

Definition cfr (s s' : state) : Prop := w_rows s' = w_rows s /\ w_ston_rows s' = w_ston_rows s.
Lemma cfr_refl : forall s, cfr s s. Proof. split; auto. Qed.
Lemma cfr_trans : forall a b c, cfr a b -> cfr b c -> cfr a c. Proof. intros a b c [] []; split; congruence. Qed.

Lemma col_pair_stp : forall s j k b, Inv s -> (j < nc s)%nat -> (k < nc s)%nat ->
  stp s (fst (fst (col_pair j k s b))) /\ cfr s (fst (fst (col_pair j k s b))).
Proof.
  intros s j k b H Hj Hk. unfold col_pair. cbv zeta.
  assert (F : forall c v q, (c < nc s)%nat -> stp s (fst (fix_col c v q s)) /\ cfr s (fst (fix_col c v q s))).
  { intros c v q Hc. split; [apply stp_fix_col; auto|].
    destruct (fix_col_frame s c v q) as [A [B [C _]]]. split; auto. }
  assert (R : stp s s /\ cfr s s) by auto using stp_refl, cfr_refl.
  destruct (t_cinact (ct s k)); [exact R|].
  destruct (IS_EQUAL_FEAS_TOL _ _).
  { cbn [fst]. destruct (merge_cols_stp s j k (first_coeff (mAT s k) / first_coeff (mAT s j)) H Hk) as [A [B C]].
    split; auto. split; auto. }
  destruct (Qgtb (cst s k) _); cbn [andb negb];
  repeat (match goal with |- context [if ?b then _ else _] => destruct b end; cbn [fst andb negb]);
    try exact R; auto.
Qed.
Lemma col_pairs_stp : forall ks s j b, Inv s -> (j < nc s)%nat -> (forall k, In k ks -> (k < nc s)%nat) ->
  stp s (fst (fst (col_pairs j ks s b))) /\ cfr s (fst (fst (col_pairs j ks s b))).
Proof.
  induction ks as [|k ks IH]; simpl; intros s j b H Hj HK; [auto using stp_refl, cfr_refl|].
  pose proof (col_pair_stp s j k b H Hj (HK k (or_introl eq_refl))) as X.
  destruct (col_pair j k s b) as [[s1 b1] res]. cbn [fst] in X. destruct X as [S1 F1].
  destruct res; cbn [fst]; auto.
  destruct (IH s1 j b1 (st_inv _ _ S1)) as [S2 F2].
  - rewrite (stp_nc _ _ S1); auto.
  - intros; rewrite (stp_nc _ _ S1); auto.
  - split; [eapply stp_trans; eauto|eapply cfr_trans; eauto].
Qed.
Lemma recount_same : forall j s, same_struct s (recount j s).
Proof. intros. unfold recount. apply same_foldS. intros. same_ref. Qed.

Lemma col_bin_stp : forall bin s, Inv s -> (forall k, In k bin -> (k < nc s)%nat) ->
  let '(s', st) := process_col_bin bin s in stp s s' /\ cfr s s' /\ (st = UNCHANGED \/ st = UNBNDORINFEAS).
Proof.
  induction bin as [|j rest IH]; intros s H HK; simpl; [auto using stp_refl, cfr_refl|].
  destruct rest as [|k0 rest0] eqn:ER; [auto using stp_refl, cfr_refl|]. rewrite <- ER in *.
  assert (HR : forall k, In k rest -> (k < nc s)%nat) by (intros; apply HK; simpl; auto).
  destruct (t_cinact (ct s j)); [apply IH; auto|].
  pose proof (col_pairs_stp rest s j false H (HK j (or_introl eq_refl)) HR) as X.
  destruct (col_pairs j rest s false) as [[s1 rec] res]. cbn [fst] in X. destruct X as [S1 F1].
  assert (K : forall s2, same_struct s1 s2 ->
     let '(s', st) := process_col_bin rest s2 in stp s s' /\ cfr s s' /\ (st = UNCHANGED \/ st = UNBNDORINFEAS)).
  { intros s2 E. assert (S2 : stp s s2). { eapply stp_trans; [exact S1|apply stp_same; [apply S1|auto]]. }
    specialize (IH s2 (st_inv _ _ S2)). destruct (process_col_bin rest s2) as [s3 st3].
    destruct IH as [S3 [F3 E3]]; [intros; rewrite (stp_nc _ _ S2); auto|].
    split; [eapply stp_trans; eauto|]. split; [|auto]. eapply cfr_trans; [exact F1|].
    eapply cfr_trans; [|exact F3]. split; [apply (ss_w1 _ _ E)|apply (ss_w4 _ _ E)]. }
  destruct res; auto; apply K; destruct rec; auto using recount_same, same_refl.
Qed.

Lemma col_groups_stp : forall gs s st, Inv s -> (forall g k, In g gs -> In k g -> (k < nc s)%nat) ->
  let '(s', st') := fold_or (fun s g => process_col_bin g s) gs s st in
  stp s s' /\ cfr s s' /\ (st = UNCHANGED \/ st = UNBNDORINFEAS -> st' = UNCHANGED \/ st' = UNBNDORINFEAS).
Proof.
  induction gs as [|g gs IH]; intros s st H HG; simpl; [auto using stp_refl, cfr_refl|].
  pose proof (col_bin_stp g s H) as X. destruct (process_col_bin g s) as [s1 st1].
  destruct X as [S1 [F1 E1]]; [intros; eapply HG; simpl; eauto|].
  specialize (IH s1 (N.lor st st1) (st_inv _ _ S1)).
  destruct (fold_or _ gs s1 (N.lor st st1)) as [s2 st2]. destruct IH as [S2 [F2 E2]].
  { intros g' k Hg Hk. rewrite (stp_nc _ _ S1). eapply HG; simpl; eauto. }
  split; [eapply stp_trans; eauto|]. split; [eapply cfr_trans; eauto|].
  intros E. apply E2. destruct E as [->| ->], E1 as [->| ->]; simpl; auto.
Qed.

Lemma par_cols_spec : forall s, Inv s -> w_rows s = [] -> w_ston_rows s = [] ->
  let '(s', st) := remove_parallel_cols s in
  stp s s' /\ quiet s' /\ (st = UNCHANGED \/ st = UNBNDORINFEAS).
Proof.
  intros s H WR WT. unfold remove_parallel_cols, remove_parallel_cols_with.
  pose proof (hash_bins_ok (mAT s) (fun i => t_cinact (ct s i)) (nc s)) as BO.
  set (bins := hash_bins _ _ _) in *.
  pose proof (col_groups_stp (groups_of (mAT s) bins) s UNCHANGED H) as X.
  destruct (fold_or _ _ s UNCHANGED) as [s1 st]. destruct X as [S1 [[F1 F2] E]].
  { intros g k Hg Hk. apply groups_in in Hg. destruct Hg as [b [Hb ->]].
    apply (bo_lt _ _ _ BO b k Hb). eapply fpr_in; eauto. }
  destruct (finish_cols s1 (st_inv _ _ S1)) as [I2 [M2 [N2 [R2 [W2 [V2 _]]]]]].
  { right. congruence. }
  split; [|split; [constructor; congruence|auto]].
  constructor; auto; [eapply mono_trans; [apply S1|eauto]|].
  intros NX. apply N2; [congruence|]. apply S1; auto.
Qed.
