(** Activities through the simple explorers. *)
From Coq Require Import NArith Lqa.
From Verif Require Import M_Num S_LP M_Settings M_Driver S_Driver M_State M_Act M_Core M_Simple
  M_StonCols M_Dton M_Parallel M_Propagate M_Init M_Post M_Run S_Run S_Struct S_Sem
  L_State L_Struct L_Struct2 L_Struct3 L_Struct4 L_Struct5 L_Struct6 L_Struct7 L_Struct8 L_Struct9 L_Struct10 L_Struct11
  L_Sem L_Sem2 L_Sem3 L_Sem4 L_Mid L_Mid2 L_Mid3 L_Mid4 L_Mid5 L_Act.
Open Scope Q_scope.

(** ** One bound of an active column *)
Definition with_bound (up : bool) (k : nat) (v : Q) (s : state) : state :=
  if up then set_ub1 k (Fin v) s else set_lb1 k (Fin v) s.
Definition bnd (up : bool) (s : state) (k : nat) : ext := if up then ub s k else lb s k.
Lemma bound_change_AV : forall R up s k v old, good R -> Inv s -> AV R s -> (k < nc s)%nat ->
  t_cinact (ct s k) = false -> old = bnd up s k ->
  AV R (update_activities_bound_change (mAT s k) old v (is_fin old) (negb up) (with_bound up k v s)).
Proof.
  intros R up s k v old G H [A P] Hk TK ->. set (s2 := with_bound up k v s).
  set (GG := fun (l u : nat -> ext) (r : row) (a : activity) (c : Q) =>
    update_act_bound_change l u a c (bnd up s k) v (is_fin (bnd up s k)) (negb up) r).
  assert (EQ : update_activities_bound_change (mAT s k) (bnd up s k) v (is_fin (bnd up s k)) (negb up) s2
               = foldS (upd_one GG) (mAT s k) s2) by reflexivity.
  rewrite EQ. clear EQ.
  pose proof (w_csrt s (inv_0 s H) k Hk) as SC.
  destruct (fold_acts GG (mAT s k) s2 (srt_NoDup _ SC)) as [[A2 [W2 E2]] X].
  set (t := foldS (upd_one GG) (mAT s k) s2) in *.
  assert (CK : csz s k <> (-1)%Z) by (apply cact_alive; auto; apply H).
  assert (NF : ~ In k (w_fixed s)).
  { intros Y. destruct (l_fixed s (inv_L s H) k Y) as [_ F]. unfold t_cinact in TK. rewrite F in TK. discriminate. }
  assert (AE : mA s2 = mA s) by (unfold s2, with_bound; destruct up; reflexivity).
  assert (AC : acts s2 = acts s) by (unfold s2, with_bound; destruct up; reflexivity).
  assert (RT : rt s2 = rt s) by (unfold s2, with_bound; destruct up; reflexivity).
  assert (NR : nr s2 = nr s) by (unfold s2, with_bound; destruct up; reflexivity).
  assert (WF : w_fixed s2 = w_fixed s) by (unfold s2, with_bound; destruct up; reflexivity).
  assert (OFF : forall j, j <> k -> lb s2 j = lb s j /\ ub s2 j = ub s j).
  { intros j D. unfold s2, with_bound. destruct up; sr; rewrite ?upd_other by auto; auto. }
  assert (TL : lb t = lb s2) by (rewrite E2; reflexivity).
  assert (TU : ub t = ub s2) by (rewrite E2; reflexivity).
  assert (TA : mA t = mA s) by (rewrite E2, <- AE; reflexivity).
  constructor.
  - intros i Hi T. assert (Hi' : (i < nr s)%nat) by (rewrite <- NR; rewrite E2 in Hi; exact Hi).
    assert (T' : t_inact (rt s i) = false) by (rewrite <- RT; rewrite E2 in T; exact T).
    pose proof (act_alive s i (inv_0 s H) Hi' T') as RZ.
    rewrite TL, TU, TA. destruct (X i) as [X1 X2]. rewrite AE, AC in *.
    destruct (hasb k (mA s i)) eqn:HB.
    + apply hasb_has in HB. destruct HB as [a Ha].
      assert (Ha' : In (i, a) (mAT s k)) by (apply (w_agree s (inv_0 s H)); auto).
      eapply SV2_num; [apply X1; exact Ha'|].
      assert (Na : ~ a == 0) by (apply (w_rin s (inv_0 s H) i k a Hi' Ha)).
      pose proof (w_rsrt s (inv_0 s H) i Hi') as SR. unfold GG, s2, with_bound, bnd. clear X1 X2.
      destruct up; cbn [negb]; sr.
      * apply bc_upper; auto; [rewrite upd_same; apply beq_refl|].
        intros j D. rewrite ?upd_other by auto. split; apply beq_refl.
      * apply bc_lower; auto; [rewrite upd_same; apply beq_refl|].
        intros j D. rewrite ?upd_other by auto. split; apply beq_refl.
    + assert (NH : ~ has k (mA s i)) by (intros C; apply hasb_has in C; congruence).
      eapply SV2_num; [apply X2|].
      { intros [a Ha]. apply NH. exists a. apply (w_agree s (inv_0 s H)); auto. }
      eapply SV2_ext; [auto| |apply A; auto].
      intros j c Hj. assert (D : j <> k) by (intros ->; apply NH; exists c; auto).
      destruct (OFF j D) as [-> ->]. split; apply beq_refl.
  - intros j Hj. assert (Hj' : In j (w_fixed s)) by (rewrite <- WF; rewrite E2 in Hj; exact Hj).
    rewrite TL, TU. destruct (OFF j) as [-> ->]; [congruence|]. auto.
Qed.
Lemma lb_is : forall s k, tags_right s -> (k < nc s)%nat -> t_cinact (ct s k) = false ->
  negb (t_lb_inf (ct s k)) = is_fin (lb s k).
Proof. intros s k TG Hk TK. pose proof (tr_lb s TG k Hk TK) as X. destruct (t_lb_inf _); [rewrite X|]; auto. Qed.
Lemma ub_is : forall s k, tags_right s -> (k < nc s)%nat -> t_cinact (ct s k) = false ->
  negb (t_ub_inf (ct s k)) = is_fin (ub s k).
Proof. intros s k TG Hk TK. pose proof (tr_ub s TG k Hk TK) as X. destruct (t_ub_inf _); [rewrite X|]; auto. Qed.

Lemma update_lb_AV : forall R s k v i, good R -> Inv s -> tags_right s -> AV R s -> (k < nc s)%nat ->
  t_cinact (ct s k) = false -> AV R (fst (update_lb k v i s)).
Proof.
  intros R s k v i G H TG A Hk TK. unfold update_lb.
  destruct (_ && _); [auto|]. destruct (_ || _); [|auto]. cbn [fst].
  rewrite lb_is by auto.
  pose proof (bound_change_AV R false s k v (lb s k) G H A Hk TK eq_refl) as X. cbn [negb with_bound] in X.
  eapply AV_same; [auto|exact X|..]; sr; auto. intros; apply anum_refl.
Qed.
Lemma update_ub_AV : forall R s k v i, good R -> Inv s -> tags_right s -> AV R s -> (k < nc s)%nat ->
  t_cinact (ct s k) = false -> AV R (fst (update_ub k v i s)).
Proof.
  intros R s k v i G H TG A Hk TK. unfold update_ub.
  destruct (_ && _); [auto|]. destruct (_ || _); [|auto]. cbn [fst].
  rewrite ub_is by auto.
  pose proof (bound_change_AV R true s k v (ub s k) G H A Hk TK eq_refl) as X. cbn [negb with_bound] in X.
  eapply AV_same; [auto|exact X|..]; sr; auto. intros; apply anum_refl.
Qed.

(** ** Deleting rows and columns *)
Lemma AV_refl_same : forall R s t, good R -> AV R s -> nr t = nr s -> mA t = mA s -> lb t = lb s -> ub t = ub s ->
  rt t = rt s -> acts t = acts s -> w_fixed t = w_fixed s -> AV R t.
Proof.
  intros R s t G A N M L U T X W. apply (AV_same R s); auto.
  - intros i. rewrite T. auto.
  - intros i. rewrite X. apply anum_refl.
  - rewrite W. auto.
Qed.
Lemma row_inactive_AV : forall R s i v, good R -> AV R s -> AV R (set_row_to_inactive i v s).
Proof.
  intros R s i v G A. apply (AV_same R s); auto; unfold set_row_to_inactive; sr; auto.
  - intros j. updg; auto. discriminate.
  - intros; apply anum_refl.
Qed.
Lemma dir_AV : forall R s, good R -> Inv s -> AV R s -> AV R (delete_inactive_rows s).
Proof.
  intros R s G H A. destruct (dir_sem s H) as [_ [_ [_ [_ [E [M _]]]]]]. cbv zeta in *.
  set (s' := delete_inactive_rows s) in *. clearbody s'.
  destruct E as (E1 & E2 & _ & _ & E5 & E6 & _ & _ & E9 & _ & E11 & _).
  apply (AV_frame R s); auto.
  - intros i Hi T. rewrite E5 in T. rewrite E1, E2, E6. repeat split; auto.
  - intros k. rewrite E11, E1, E2. auto.
Qed.
Lemma cnt_filter : forall b p r, (forall e, In e r -> p e = false -> is_fin (b e) = true) ->
  cnt b (filter p r) = cnt b r.
Proof.
  induction r as [|e r IH]; intros H; simpl; auto.
  assert (H' : forall e, In e r -> p e = false -> is_fin (b e) = true) by (intros; apply H; auto; right; auto).
  destruct (p e) eqn:E; simpl; rewrite IH by auto; auto. unfold inf1. rewrite (H e (or_introl eq_refl) E). lia.
Qed.
Lemma ssum_split : forall b p r, ssum b r == ssum b (filter p r) + ssum b (filter (fun e => negb (p e)) r).
Proof. induction r as [|e r IH]; simpl; [lra|]. destruct (p e); simpl; rewrite IH; lra. Qed.
Lemma ssum_dot : forall b r f, (forall e, In e r -> fin (b e) == f (fst e)) -> ssum b r == dot r f.
Proof.
  induction r as [|[k a] r IH]; intros f H; simpl; [lra|].
  rewrite IH with (f := f) by (intros; apply H; right; auto). pose proof (H (k, a) (or_introl eq_refl)) as E.
  cbn [fst] in E. rewrite E. lra.
Qed.
Lemma finish_AV : forall R s, good R -> Inv s -> tags_right s -> pend_ok s -> w_sub s = [] -> AV R s -> AV R (finish s).
Proof.
  intros R s G H TG PO WS [A P]. pose proof (finish_sem s H TG PO (or_introl WS)) as F. cbv zeta in F.
  destruct F as [_ [_ [_ [E [F _]]]]]. destruct E as (E1 & E2 & _ & E4 & E5 & _ & _ & E8 & _).
  assert (WF : w_fixed (finish s) = []) by reflexivity.
  set (s' := finish s) in *. clearbody s'. constructor; [|rewrite WF; intros k []].
  intros i Hi T. rewrite E8 in Hi. rewrite E5 in T. destruct (F i Hi T) as [M [_ [_ S]]]. rewrite E1, E2, M.
  destruct S as (S1 & S2 & _ & S4 & S5). destruct (A i Hi T) as [[N1 V1] [N2 V2]].
  set (p := fun e : nat * Q => negb (t_cinact (ct s (fst e)))) in *.
  assert (D : forall e, In e (mA s i) -> p e = false -> In (fst e) (w_fixed s)).
  { intros [k a] He C. unfold p in C. cbn [fst] in *. apply negb_false_iff in C.
    destruct (w_rin s (inv_0 s H) i k a Hi He) as [Hk _].
    destruct (l_pend s (inv_L s H) k Hk C) as [X|X]; auto; [eapply (inv_R s H); eauto|rewrite WS in X; contradiction]. }
  assert (DF : forall e, In e (mA s i) -> p e = false ->
     is_fin (lowb (lb s) (ub s) e) = true /\ is_fin (upb (lb s) (ub s) e) = true /\
     fin (lowb (lb s) (ub s) e) == fin (ub s (fst e)) /\ fin (upb (lb s) (ub s) e) == fin (ub s (fst e))).
  { intros e He C. destruct (P _ (D e He C)) as [X1 [X2 X3]]. specialize (X3 X1). unfold upb, lowb.
    rewrite X1 in X2. destruct (Qgtb (snd e) 0); repeat split; auto; lra. }
  assert (PT : part (mA s i) (w_fixed s) (fun k => fin (ub s k)) = dot (filter (fun e => negb (p e)) (mA s i)) (fun k => fin (ub s k))).
  { unfold part. f_equal. apply filter_ext_in. intros [k a] He. cbn [fst].
    destruct (memb k (w_fixed s)) eqn:MB.
    - apply memb_In in MB. destruct (l_fixed s (inv_L s H) k MB) as [_ X]. unfold p, t_cinact. cbn [fst]. rewrite X. reflexivity.
    - apply memb_nIn in MB. destruct (p (k, a)) eqn:C; auto. exfalso. apply MB. apply (D (k, a)); auto. }
  assert (X1 : cnt (lowb (lb s) (ub s)) (filter p (mA s i)) = cnt (lowb (lb s) (ub s)) (mA s i)).
  { apply cnt_filter. intros e He C. apply (DF e He C). }
  assert (X2 : cnt (upb (lb s) (ub s)) (filter p (mA s i)) = cnt (upb (lb s) (ub s)) (mA s i)).
  { apply cnt_filter. intros e He C. apply (DF e He C). }
  assert (Y : forall b, b = lowb (lb s) (ub s) \/ b = upb (lb s) (ub s) ->
     ssum b (filter p (mA s i)) == ssum b (mA s i) + - part (mA s i) (w_fixed s) (fun k => fin (ub s k))).
  { intros b Hb. rewrite (ssum_split b p (mA s i)), PT.
    rewrite (ssum_dot b (filter (fun e => negb (p e)) (mA s i)) (fun k => fin (ub s k))); [lra|].
    intros e He. apply filter_In in He. destruct He as [He C]. apply negb_true_iff in C.
    destruct (DF e He C) as (_ & _ & Z1 & Z2). destruct Hb as [->| ->]; auto. }
  split; split.
  - congruence.
  - intros Z. rewrite S1 in Z. eapply (gd_ext R G); [symmetry; apply S4; auto|symmetry; apply Y; auto|].
    apply (gd_add R G). auto.
  - congruence.
  - intros Z. rewrite S2 in Z. pose proof (good_flip R G) as G'.
    eapply (gd_ext _ G'); [symmetry; apply S5; auto|symmetry; apply Y; auto|]. apply (gd_add _ G'). auto.
Qed.

(** ** Steps on rows only *)
Record keepA (s s' : state) : Prop := {
  ka_nr : nr s' = nr s; ka_A : mA s' = mA s; ka_lb : lb s' = lb s; ka_ub : ub s' = ub s;
  ka_acts : acts s' = acts s; ka_fixed : w_fixed s' = w_fixed s;
  ka_rt : forall i, t_inact (rt s' i) = false -> t_inact (rt s i) = false }.
Lemma keepA_refl : forall s, keepA s s. Proof. constructor; auto. Qed.
Lemma keepA_trans : forall a b c, keepA a b -> keepA b c -> keepA a c.
Proof. intros a b c [] []. constructor; try congruence; auto. Qed.
Lemma keepA_AV : forall R s s', good R -> keepA s s' -> AV R s -> AV R s'.
Proof.
  intros R s s' G [] A. apply (AV_same R s); auto; try congruence.
  intros. rewrite ka_acts0. apply anum_refl.
Qed.
Lemma keepA_foldS : forall X (f : state -> X -> state) l s, (forall s x, keepA s (f s x)) -> keepA s (foldS f l s).
Proof. intros. apply foldS_rel; auto. apply keepA_refl. apply keepA_trans. Qed.
Lemma keepA_for : forall b f l s, (forall i s, keepA s (fst (f i s))) -> keepA s (fst (for_until b f l s)).
Proof.
  induction l as [|i l IH]; intros s H; cbn [for_until]; [apply keepA_refl|].
  pose proof (H i s) as X. destruct (f i s) as [s1 st]. cbn [fst] in X.
  destruct (N.eqb st b); auto. eapply keepA_trans; [exact X|]. apply IH; auto.
Qed.
Lemma keepA_lhs : forall d j a s, keepA s (lock_lhs d j a s).
Proof. intros. unfold lock_lhs. destruct (Qgtb a 0); constructor; sr; auto. Qed.
Lemma keepA_rhs : forall d j a s, keepA s (lock_rhs d j a s).
Proof. intros. unfold lock_rhs. destruct (Qgtb a 0); constructor; sr; auto. Qed.
Lemma keepA_row : forall i v s, keepA s (set_row_to_inactive i v s).
Proof. intros. unfold set_row_to_inactive. constructor; sr; auto. intros j. updg; auto. discriminate. Qed.
Lemma keepA_to_eq : forall r b s, keepA s (update_locks_ineq_to_eq r b s).
Proof. intros. apply keepA_foldS. intros. destruct b; [apply keepA_lhs|apply keepA_rhs]. Qed.
Lemma keepA_to_ineq : forall r b s, keepA s (update_locks_eq_to_ineq r b s).
Proof. intros. apply keepA_foldS. intros. destruct b; [apply keepA_lhs|apply keepA_rhs]. Qed.
Lemma keepA_check_row : forall i s, keepA s (fst (check_row i s)).
Proof.
  intros i s. unfold check_row. destruct (t_inact (rt s i)) eqn:T; cbn [orb]; [apply keepA_refl|].
  destruct (_ || _); [apply keepA_refl|].
  destruct (check_activity _ _ _ _) as [|lr rr]; [apply keepA_refl|].
  destruct (_ && _); [apply keepA_row|].
  destruct lr; [|destruct rr]; cbn [fst]; [| |apply keepA_refl].
  - eapply keepA_trans; [|eapply keepA_trans; [apply (keepA_foldS _ (fun s0 e => lock_lhs (-1) (fst e) (snd e) s0) (mA s i)); intros; apply keepA_lhs|]].
    2:{ constructor; sr; auto. } constructor; sr; auto. intros j. updg; auto.
  - eapply keepA_trans; [|eapply keepA_trans; [apply (keepA_foldS _ (fun s0 e => lock_rhs (-1) (fst e) (snd e) s0) (mA s i)); intros; apply keepA_rhs|]].
    2:{ constructor; sr; auto. } constructor; sr; auto. intros j. updg; auto.
Qed.
Lemma keepA_change_rhs : forall i v o q s, keepA s (fst (change_rhs_of_ineq i v o q s)).
Proof.
  intros i v o q s. unfold change_rhs_of_ineq. destruct (_ && _); [apply keepA_refl|]. cbn [fst].
  set (s1 := if t_rhs_inf (rt s i) then _ else s).
  assert (K1 : keepA s s1) by (unfold s1; destruct (t_rhs_inf _); [apply keepA_to_eq|apply keepA_refl]).
  eapply keepA_trans; [exact K1|]. clearbody s1.
  set (s2 := set_rt1 i (untag_rhs_inf (rt s1 i)) (set_rhs1 i (Fin v) s1)).
  assert (K2 : keepA s1 s2) by (constructor; unfold s2; sr; auto; intros j; updg; auto).
  eapply keepA_trans; [exact K2|]. clearbody s2.
  destruct (_ && _); [|constructor; sr; auto]. unfold push_dton.
  destruct (Nat.eqb _ _); constructor; sr; auto; intros j; updg; auto; destruct (rt s2 i); auto.
Qed.
Lemma keepA_change_lhs : forall i v o q s, keepA s (fst (change_lhs_of_ineq i v o q s)).
Proof.
  intros i v o q s. unfold change_lhs_of_ineq. destruct (_ && _); [apply keepA_refl|]. cbn [fst].
  set (s1 := if t_lhs_inf (rt s i) then _ else s).
  assert (K1 : keepA s s1) by (unfold s1; destruct (t_lhs_inf _); [apply keepA_to_eq|apply keepA_refl]).
  eapply keepA_trans; [exact K1|]. clearbody s1.
  set (s2 := set_rt1 i (untag_lhs_inf (rt s1 i)) (set_lhs1 i (Fin v) s1)).
  assert (K2 : keepA s1 s2) by (constructor; unfold s2; sr; auto; intros j; updg; auto).
  eapply keepA_trans; [exact K2|]. clearbody s2.
  destruct (_ && _); [|constructor; sr; auto]. unfold push_dton.
  destruct (Nat.eqb _ _); constructor; sr; auto; intros j; updg; auto; destruct (rt s2 i); auto.
Qed.
Lemma keepA_row_bin : forall bin s, keepA s (fst (process_row_bin bin s)).
Proof.
  intros bin s. unfold process_row_bin. destruct bin as [|i0 l]; [apply keepA_refl|].
  destruct (merge_loop s (merge_init s i0) l) as [m|]; [|apply keepA_refl].
  set (p1 := if negb (m_eq m) && _ then change_rhs_of_ineq _ _ _ _ s else _).
  assert (K1 : keepA s (fst p1)) by (unfold p1; destruct (_ && _); [apply keepA_change_rhs|apply keepA_refl]).
  destruct p1 as [s1 st1]. cbn [fst] in K1. destruct (N.eqb st1 INFEASIBLE); [exact K1|].
  eapply keepA_trans; [exact K1|].
  set (p2 := if negb (m_eq m) && _ then change_lhs_of_ineq _ _ _ _ s1 else _).
  assert (K2 : keepA s1 (fst p2)) by (unfold p2; destruct (_ && _); [apply keepA_change_lhs|apply keepA_refl]).
  destruct p2 as [s2 st2]. cbn [fst] in K2. destruct (N.eqb st2 INFEASIBLE); [exact K2|].
  eapply keepA_trans; [exact K2|]. cbn [fst]. apply keepA_foldS. intros t j.
  destruct (Nat.eqb _ _); [apply keepA_refl|apply keepA_row].
Qed.
Lemma keepA_row_bins : forall gs s, keepA s (fst (process_row_bins gs s)).
Proof.
  induction gs as [|g gs IH]; intros s; cbn [process_row_bins]; [apply keepA_refl|].
  pose proof (keepA_row_bin g s) as K. destruct (process_row_bin g s) as [s1 st]. cbn [fst] in K.
  destruct (N.eqb st INFEASIBLE); auto. eapply keepA_trans; eauto.
Qed.

(** ** The explorers that change rows only *)
Lemma check_activities_AV : forall R s, good R -> Inv s -> AV R s ->
  let '(s', st) := check_activities s in st <> INFEASIBLE -> AV R s'.
Proof.
  intros R s G H A. pose proof (l_acts s (inv_L s H)) as HW. unfold check_activities.
  assert (L : forall l t, (forall i, In i l -> (i < nr s)%nat) -> stp s t ->
    let '(t', st) := for_until INFEASIBLE check_row l t in stp s t').
  { induction l as [|i l IH]; intros t HL S1; cbn [for_until]; [auto|].
    assert (Hi : (i < nr t)%nat) by (rewrite (stp_nr _ _ S1); apply HL; simpl; auto).
    destruct (check_row_stp t i (st_inv _ _ S1) Hi) as [A1 _].
    destruct (check_row i t) as [t1 st1]. cbn [fst snd] in *.
    destruct (N.eqb_spec st1 INFEASIBLE); [eapply stp_trans; eauto|]. apply IH; auto.
    - intros; apply HL; simpl; auto.
    - eapply stp_trans; eauto. }
  specialize (L (w_acts s) s HW (stp_refl s H)).
  pose proof (keepA_for INFEASIBLE check_row (w_acts s) s keepA_check_row) as K.
  destruct (for_until INFEASIBLE check_row (w_acts s) s) as [s1 st]. cbn [fst] in K.
  destruct (N.eqb_spec st INFEASIBLE); [congruence|]. intros _.
  apply dir_AV; auto; [apply L|]. eapply keepA_AV; eauto.
Qed.
Lemma par_rows_AV : forall R s, good R -> Inv s -> AV R s -> Nx s -> quiet s -> w_empty_rows s = [] ->
  AV R (fst (remove_parallel_rows s)).
Proof.
  intros R s G H A NX Q WE. unfold remove_parallel_rows, remove_parallel_rows_with.
  pose proof (par_groups_live s H NX Q WE) as HL.
  pose proof (hash_bins_ok (mA s) (fun i => t_inact (rt s i)) (nr s)) as BO.
  set (bins := hash_bins _ _ _) in *.
  assert (ND := groups_nd (mA s) (fun i => t_inact (rt s i)) bins (bo_nd _ _ _ BO)).
  pose proof (row_bins_stp _ s H ND HL) as X. pose proof (keepA_row_bins (groups_of (mA s) bins) s) as K.
  destruct (process_row_bins (groups_of (mA s) bins) s) as [s1 st]. cbn [fst] in *.
  destruct X as [S1 [F1 E]]. apply dir_AV; auto; [apply S1|]. eapply keepA_AV; eauto.
Qed.
Lemma empty_rows_AV : forall R s, good R -> AV R s -> AV R (fst (remove_empty_rows s)).
Proof.
  intros R s G A. unfold remove_empty_rows.
  assert (K : keepA s (fst (for_until INFEASIBLE remove_empty_row (w_empty_rows s) s))).
  { apply keepA_for. intros i t. unfold remove_empty_row. destruct (_ || _); cbn [fst]; [apply keepA_refl|].
    constructor; sr; auto. intros j. updg; auto. discriminate. }
  destruct (for_until INFEASIBLE remove_empty_row (w_empty_rows s) s) as [s1 st]. cbn [fst] in K.
  destruct (N.eqb st INFEASIBLE); cbn [fst]; [eapply keepA_AV; eauto|].
  eapply keepA_AV; [auto| |exact A]. eapply keepA_trans; [exact K|]. constructor; sr; auto.
Qed.
