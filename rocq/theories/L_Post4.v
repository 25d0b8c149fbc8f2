(** Replaying the records of bound propagation. *)
From Coq Require Import NArith Lqa.
From Verif Require Import M_Num S_LP M_Settings M_Driver S_Driver M_State M_Act M_Core M_Simple
  M_StonCols M_Dton M_Parallel M_Propagate M_Init M_Post M_Run S_Run S_Struct S_Sem S_Sem2 S_Sem3
  L_State L_Struct L_Struct2 L_Struct3 L_Struct4 L_Struct5 L_Struct6 L_Struct7 L_Struct8 L_Struct9 L_Struct10 L_Struct11
  L_Sem L_Sem2 L_Sem3 L_Sem4 L_Mid L_Mid2 L_Mid3 L_Mid4 L_Mid5 L_Act L_Act2 L_Act3 L_Act4 L_Act5 L_Act6 L_Act7
  L_Post L_Post2 L_Post3.
Import M_Driver.
Notation bad := M_State.bad.
Open Scope Q_scope.

Definition RT : Q -> Q -> Prop := fun _ _ => True.
Lemma good_RT : good RT.
Proof. constructor; intros; exact I. Qed.

Section Backs.
Variable E0 : Prop.
Notation Back := (L_Post.Back E0).
Notation BackG := (L_Post.BackG E0).

Section Prop_.
Variables (b : bool) (s : state).
Hypotheses (HI : Inv s) (WR : w_rows s = []) (WS : w_sub s = []).
Record PB (t : state) : Prop := {
  pb_prs : prs s t;  pb_kept : kept s t;  pb_mid : Mid t;  pb_av : AV RT t;  pb_A : mA t = mA s;  pb_c : cst t = cst s }.
Lemma pb_inv : forall t, PB t -> Inv t.
Proof. intros t P. apply (prs_inv s t). apply P. Qed.
Lemma pb_tags : forall t, PB t -> tags_right t.
Proof. intros t P. apply (md_tags t). apply P. Qed.
Lemma pb_nc : forall t, PB t -> nc t = nc s.
Proof. intros t P. apply (kp_nc _ _ (pb_kept _ P)). Qed.
Lemma pb_nr : forall t, PB t -> nr t = nr s.
Proof. intros t P. apply (kp_nr _ _ (pb_kept _ P)). Qed.
Lemma pb_sub : forall t, PB t -> w_sub t = [].
Proof. intros t P. rewrite (pr_sub _ _ (pb_prs _ P)). auto. Qed.
Lemma pb_rows : forall t, PB t -> w_rows t = [].
Proof. intros t P. rewrite (pr_rows _ _ (pb_prs _ P)). auto. Qed.
Lemma pb_fresh : forall t k, PB t -> (k < nc s)%nat -> t_cinact (ct t k) = false -> fresh t k.
Proof.
  intros t k P Hk T. intros i a. rewrite (kp_AT _ _ (pb_kept _ P)), (kp_rt _ _ (pb_kept _ P)).
  apply (quiet_freshC s HI WR k Hk). apply (kp_ct _ _ (pb_kept _ P)). auto.
Qed.
Lemma pb_record : forall t r, PB t -> PB (record r t).
Proof.
  intros t r P. pose proof P as [A B M C D E]. constructor; auto.
  - eapply prs_trans; [exact A|]. apply prs_record. apply pb_inv; auto.
  - eapply kept_trans; [exact B|apply kept_record].
  - eapply mid_same_Mid; [|exact M]. mid_ref.
  - eapply AV_refl_same; [exact good_RT|exact C|..]; reflexivity.
Qed.
Lemma pb_ast : forall t i a, PB t -> (apot a <= apot (a_st (acts t i)))%nat -> PB (set_ast i a t).
Proof.
  intros t i a P L. pose proof P as [A B M C D E]. constructor; auto.
  - eapply prs_trans; [exact A|]. apply prs_set_ast; auto. apply pb_inv; auto.
  - eapply kept_trans; [exact B|apply kept_ast].
  - eapply mid_same_Mid; [|exact M]. unfold set_ast. mid_ref.
  - eapply AV_same; [exact good_RT|exact C|..]; try reflexivity; auto.
    intros j. unfold set_ast. sr. updg; [|apply anum_refl]. repeat split.
Qed.

Section OneRow.
Variable i : nat.
Hypotheses (Hi : (i < nr s)%nat) (T : t_inact (rt s i) = false).
Lemma pb_T : forall t, PB t -> (i < nr t)%nat /\ t_inact (rt t i) = false.
Proof. intros t P. rewrite (pb_nr _ P), (kp_rt _ _ (pb_kept _ P)). auto. Qed.
Definition outB (t : state) (r : state * status) : Prop :=
  PB (fst r) /\ if N.eqb (snd r) REDUCED then BackG i (mA s i) 1 t (fst r) else fst r = t.
Lemma fix_outB : forall t k a v vv o l, PB t -> (k < nc s)%nat -> t_cinact (ct t k) = false -> In (k, a) (mA s i) ->
  outB t (fst (fix_col k v (cst t k) (record (BOUND_CHANGE_NO_ROW k vv o l) t)), REDUCED).
Proof.
  intros t k a v vv o l P Hk TK Hin. destruct (pb_T t P) as [Hi' T']. set (t1 := record _ t).
  pose proof (pb_record t (BOUND_CHANGE_NO_ROW k vv o l) P) as P1. fold t1 in P1. pose proof P1 as [A B M C D E].
  assert (Hk1 : (k < nc t1)%nat) by (rewrite (pb_nc _ P1); auto).
  assert (TK1 : t_cinact (ct t1 k) = false) by exact TK.
  destruct (fix_col_keep t1 k v (cst t k)) as (K1 & K2 & K3 & K4 & K5 & K6 & K7).
  split; cbn [fst snd].
  - constructor.
    + eapply prs_trans; [exact A|]. apply prs_fix_col; auto. apply pb_inv; auto.
    + eapply kept_trans; [exact B|apply kept_fix].
    + apply fix_col_Mid; auto. apply pb_inv; auto.
    + apply fix_col_AV; auto; [exact good_RT|apply pb_inv; auto|apply pb_tags; auto].
    + congruence.
    + congruence.
  - change (N.eqb REDUCED REDUCED) with true. cbv iota.
    change (1%nat) with (0 + 1)%nat. apply (BackG_trans E0 i (mA s i) 1 0 t t1).
    + apply (bound_BackG E0 t t1 i k a (mA s i) vv o l); [apply pb_inv; auto|auto|auto|auto|auto|rewrite (pb_A _ P); auto|auto|apply quietly_same; reflexivity|reflexivity].
    + apply fix_col_BackG; [apply pb_inv; auto|auto|apply pb_fresh; auto|change (cst t1) with (cst t); lra].
Qed.
Lemma ub_outB : forall t k a v, PB t -> (k < nc s)%nat -> t_cinact (ct t k) = false -> In (k, a) (mA s i) ->
  outB t (update_ub_prop b k v t).
Proof.
  intros t k a v P Hk TK Hin. destruct (pb_T t P) as [Hi' T'].
  assert (Hk1 : (k < nc t)%nat) by (rewrite (pb_nc _ P); auto).
  pose proof (prs_ub_prop b k v t (pb_inv _ P) Hk1) as PR. pose proof (kept_ub_prop b k v t) as KP.
  pose proof (ub_is t k (pb_tags _ P) Hk1 TK) as FU.
  unfold update_ub_prop in *. cbv zeta in *.
  destruct (_ && _); [split; auto; reflexivity|].
  destruct (_ && _); [apply fix_outB with (a := a); auto|].
  destruct (_ || _); [|split; auto; reflexivity]. cbn [fst] in PR, KP.
  set (w := if IS_INTEGRAL v then v else v + BOUND_MARGINAL * ABSq v) in *.
  set (t0 := set_ct1 k (untag_ub_inf (ct t k)) t).
  assert (I0 : Inv t0).
  { eapply same_Inv; [|apply (pb_inv _ P)]. constructor; unfold t0; sr; auto; intros j; updg; auto. }
  assert (A0 : AV RT t0) by (eapply AV_refl_same; [exact good_RT|apply (pb_av _ P)|..]; reflexivity).
  assert (T0 : t_cinact (ct t0 k) = false) by (unfold t0; sr; rewrite upd_same; exact TK).
  pose proof (bound_change_AV RT true t0 k w (ub t0 k) good_RT I0 A0 Hk1 T0 eq_refl) as X. cbn [negb with_bound] in X.
  change (ub t0) with (ub t) in X. rewrite FU in PR, KP. rewrite FU.
  change (set_ub1 k (Fin w) (set_ct1 k (untag_ub_inf (ct t k)) t)) with (set_ub1 k (Fin w) t0) in *.
  change (mAT (set_ub1 k (Fin w) t0) k) with (mAT t0 k) in *.
  destruct (acts_only_bound_change (mAT t0 k) (ub t k) w (is_fin (ub t k)) false (set_ub1 k (Fin w) t0)) as [A [W EQ]].
  split; cbn [fst snd].
  - constructor.
    + eapply prs_trans; [apply P|exact PR].
    + eapply kept_trans; [apply P|exact KP].
    + destruct (kept_Md _ _ KP (Mid_Md _ (pb_mid _ P))) as [Y1 Y2 Y3]. constructor; auto.
      destruct (md_pend _ (pb_mid _ P)) as [Q1 Q2]. rewrite EQ. unfold t0. constructor; sr; auto. intros j Hj. updg; apply Q2; auto.
    + eapply AV_refl_same; [exact good_RT|exact X|..]; reflexivity.
    + rewrite EQ. apply (pb_A _ P).
    + rewrite EQ. apply (pb_c _ P).
  - change (N.eqb REDUCED REDUCED) with true. cbv iota. rewrite EQ.
    eapply (bound_BackG E0 t _ i k a (mA s i) w (lb t k) true); [apply pb_inv; auto|auto|auto|auto|auto|rewrite (pb_A _ P); auto|auto| |reflexivity].
    apply quietly_same; try reflexivity. intros j. unfold t0. sr. updg; auto.
Qed.
Lemma lb_outB : forall t k a v, PB t -> (k < nc s)%nat -> t_cinact (ct t k) = false -> In (k, a) (mA s i) ->
  outB t (update_lb_prop b k v t).
Proof.
  intros t k a v P Hk TK Hin. destruct (pb_T t P) as [Hi' T'].
  assert (Hk1 : (k < nc t)%nat) by (rewrite (pb_nc _ P); auto).
  pose proof (prs_lb_prop b k v t (pb_inv _ P) Hk1) as PR. pose proof (kept_lb_prop b k v t) as KP.
  pose proof (lb_is t k (pb_tags _ P) Hk1 TK) as FU.
  unfold update_lb_prop in *. cbv zeta in *.
  destruct (_ && _); [split; auto; reflexivity|].
  destruct (_ && _); [apply fix_outB with (a := a); auto|].
  destruct (_ || _); [|split; auto; reflexivity]. cbn [fst] in PR, KP.
  set (w := if IS_INTEGRAL v then v else v - BOUND_MARGINAL * ABSq v) in *.
  set (t0 := set_ct1 k (untag_lb_inf (ct t k)) t).
  assert (I0 : Inv t0).
  { eapply same_Inv; [|apply (pb_inv _ P)]. constructor; unfold t0; sr; auto; intros j; updg; auto. }
  assert (A0 : AV RT t0) by (eapply AV_refl_same; [exact good_RT|apply (pb_av _ P)|..]; reflexivity).
  assert (T0 : t_cinact (ct t0 k) = false) by (unfold t0; sr; rewrite upd_same; exact TK).
  pose proof (bound_change_AV RT false t0 k w (lb t0 k) good_RT I0 A0 Hk1 T0 eq_refl) as X. cbn [negb with_bound] in X.
  change (lb t0) with (lb t) in X. rewrite FU in PR, KP. rewrite FU.
  change (set_lb1 k (Fin w) (set_ct1 k (untag_lb_inf (ct t k)) t)) with (set_lb1 k (Fin w) t0) in *.
  change (mAT (set_lb1 k (Fin w) t0) k) with (mAT t0 k) in *.
  destruct (acts_only_bound_change (mAT t0 k) (lb t k) w (is_fin (lb t k)) true (set_lb1 k (Fin w) t0)) as [A [W EQ]].
  split; cbn [fst snd].
  - constructor.
    + eapply prs_trans; [apply P|exact PR].
    + eapply kept_trans; [apply P|exact KP].
    + destruct (kept_Md _ _ KP (Mid_Md _ (pb_mid _ P))) as [Y1 Y2 Y3]. constructor; auto.
      destruct (md_pend _ (pb_mid _ P)) as [Q1 Q2]. rewrite EQ. unfold t0. constructor; sr; auto. intros j Hj. updg; apply Q2; auto.
    + eapply AV_refl_same; [exact good_RT|exact X|..]; reflexivity.
    + rewrite EQ. apply (pb_A _ P).
    + rewrite EQ. apply (pb_c _ P).
  - change (N.eqb REDUCED REDUCED) with true. cbv iota. rewrite EQ.
    eapply (bound_BackG E0 t _ i k a (mA s i) w (ub t k) false); [apply pb_inv; auto|auto|auto|auto|auto|rewrite (pb_A _ P); auto|auto| |reflexivity].
    apply quietly_same; try reflexivity. intros j. unfold t0. sr. updg; auto.
Qed.

(** The loop over the row *)
Variable t0 : state.
Definition TB (p : tight) : Prop := PB (st_of p) /\ BackG i (mA s i) (snd p) t0 (st_of p).
Lemma tally_TB : forall p r, TB p -> outB (st_of p) r -> TB (tally p r).
Proof.
  intros [[t st] n] [t' st'] [P B] [P' B']. unfold TB, tally, st_of in *. cbn [fst snd] in *. split; auto.
  destruct (N.eqb st' REDUCED); [|subst t'; auto]. apply (BackG_trans E0 i (mA s i) n 1 t0 t t'); auto.
Qed.
Lemma try_ub_TB : forall p k a v, TB p -> (k < nc s)%nat -> t_cinact (ct (st_of p) k) = false -> In (k, a) (mA s i) ->
  TB (try_ub b k v p).
Proof.
  intros [[t st] n] k a v TP Hk TK Hin. unfold try_ub. destruct (_ && _); auto. apply tally_TB; auto.
  apply ub_outB with (a := a); auto. apply TP.
Qed.
Lemma try_lb_TB : forall p k a v, TB p -> (k < nc s)%nat -> t_cinact (ct (st_of p) k) = false -> In (k, a) (mA s i) ->
  TB (try_lb b k v p).
Proof.
  intros [[t st] n] k a v TP Hk TK Hin. unfold try_lb. destruct (_ && _); auto. apply tally_TB; auto.
  apply lb_outB with (a := a); auto. apply TP.
Qed.
Lemma fold_TB : forall (f : tight -> nat * Q -> tight) r p,
  (forall p e, In e r -> TB p -> TB (f p e)) -> TB p -> TB (fold_left f r p).
Proof.
  intros f r. induction r as [|e r IH]; intros p F TP; cbn [fold_left]; auto. apply IH.
  - intros; apply F; auto. right; auto.
  - apply F; auto. left; auto.
Qed.
Lemma entry_in : forall k a, In (k, a) (mA s i) -> (k < nc s)%nat.
Proof. intros k a Hin. apply (w_rin s (inv_0 s HI) i k a Hi Hin). Qed.
Lemma tighten_rhs_TB : forall p, TB p -> TB (tighten_rhs b i (mA s i) p).
Proof.
  intros [[t st] n] TP. pose proof (proj1 TP) as P. unfold st_of in P. cbn [fst] in P.
  destruct (pb_T _ P) as [Hi' T']. unfold tighten_rhs. cbv zeta.
  destruct (_ && _).
  { apply fold_TB; auto. clear t st n TP P Hi' T'. intros [[t st] n] [k a] Hin TP. unfold rhs_entry.
    destruct (t_cinact (ct t k)) eqn:TK; auto. pose proof (entry_in k a Hin).
    destruct (Qgtb a 0); [apply try_ub_TB with (a := a)|apply try_lb_TB with (a := a)]; auto. }
  destruct (_ && _) eqn:C2; auto. apply andb_true_iff in C2. destruct C2 as [_ C2]. apply Z.eqb_eq in C2.
  destruct (find_inf_ok RT t true i (pb_inv _ P) (pb_tags _ P) (pb_av _ P) (pb_sub _ P) Hi' T' C2)
    as [k [a [E [Hin [TK F]]]]].
  rewrite (pb_A _ P) in E, Hin. rewrite E. pose proof (entry_in k a Hin).
  destruct (Qgtb a 0); [apply try_ub_TB with (a := a)|apply try_lb_TB with (a := a)]; auto.
Qed.
Lemma tighten_lhs_TB : forall p, TB p -> TB (tighten_lhs b i (mA s i) p).
Proof.
  intros [[t st] n] TP. pose proof (proj1 TP) as P. unfold st_of in P. cbn [fst] in P.
  destruct (pb_T _ P) as [Hi' T']. unfold tighten_lhs. cbv zeta.
  destruct (_ && _).
  { apply fold_TB; auto. clear t st n TP P Hi' T'. intros [[t st] n] [k a] Hin TP. unfold lhs_entry.
    destruct (t_cinact (ct t k)) eqn:TK; auto. pose proof (entry_in k a Hin).
    destruct (Qgtb a 0); [apply try_lb_TB with (a := a)|apply try_ub_TB with (a := a)]; auto. }
  destruct (_ && _) eqn:C2; auto. apply andb_true_iff in C2. destruct C2 as [_ C2]. apply Z.eqb_eq in C2.
  destruct (find_inf_ok RT t false i (pb_inv _ P) (pb_tags _ P) (pb_av _ P) (pb_sub _ P) Hi' T' C2)
    as [k [a [E [Hin [TK F]]]]].
  rewrite (pb_A _ P) in E, Hin. rewrite E. pose proof (entry_in k a Hin).
  destruct (Qgtb a 0); [apply try_lb_TB with (a := a)|apply try_ub_TB with (a := a)]; auto.
Qed.
End OneRow.
Lemma single_row_PB : forall i t, (i < nr s)%nat -> t_inact (rt s i) = false -> PB t ->
  let t' := fst (bound_tightening_single_row b i t) in PB t' /\ Back t t'.
Proof.
  intros i t Hi T P. cbv zeta. unfold bound_tightening_single_row.
  destruct (pb_T i Hi T t P) as [Hi' T'].
  rewrite (view_full t i (pb_inv _ P) Hi' T'), (pb_A _ P).
  assert (TP : TB i t (t, UNCHANGED, O)) by (split; [exact P|apply BackG_refl]).
  apply (tighten_rhs_TB i Hi T) in TP. apply (tighten_lhs_TB i Hi T) in TP.
  set (p := tighten_lhs _ _ _ _) in *. clearbody p. destruct p as [[t2 st2] n2]. destruct TP as [P2 B2].
  unfold st_of in *. cbn [fst snd] in *. destruct n2 as [|n2].
  - split; auto. apply BackG_0 in B2. auto.
  - split; [apply pb_record; auto|]. apply (BackG_close E0 i (mA s i) n2 t t2); [exact B2|reflexivity|reflexivity|reflexivity|exact Hi'|intros q c Hq; apply (w_rin t (inv_0 t (pb_inv _ P)) i q c Hi'); rewrite (pb_A _ P); exact Hq|].
    intros x [Y1 Y2 Y3 Y4]. constructor; auto.
Qed.
Lemma loop_PB : forall fuel ii t, PB t -> (L_Struct8.lp t <= ii + fuel)%nat ->
  let t' := fst (prop_loop b fuel ii t) in PB t' /\ Back t t'.
Proof.
  induction fuel as [|f IH]; intros ii t P L; cbv zeta; cbn [prop_loop].
  - destruct (nth_error (w_acts t) ii) eqn:E; [|split; auto; apply Back_refl].
    exfalso. assert (X : (ii < length (w_acts t))%nat) by (apply nth_error_Some; congruence).
    unfold L_Struct8.lp in L. lia.
  - destruct (nth_error (w_acts t) ii) as [i|] eqn:E; [|split; auto; apply Back_refl].
    assert (Hi : (i < nr t)%nat) by (apply (l_acts t (inv_L t (pb_inv _ P))); eapply nth_error_In; eauto).
    destruct (skip_row t i) eqn:SK; [apply IH; auto; lia|].
    unfold skip_row in SK. apply orb_false_iff in SK. destruct SK as [SK _].
    apply orb_false_iff in SK. destruct SK as [SZ SK]. apply negb_false_iff in SK.
    assert (AP : (apot PROPAGATED_THIS_ROUND <= apot (a_st (acts t i)))%nat).
    { unfold ast_is in SK. destruct (a_st (acts t i)); try discriminate. simpl. lia. }
    pose proof (pb_ast t i PROPAGATED_THIS_ROUND P AP) as P0.
    pose proof (prs_set_ast i PROPAGATED_THIS_ROUND t (pb_inv _ P) AP) as PP.
    assert (T : t_inact (rt t i) = false).
    { apply (quiet_row t i (pb_inv _ P)); auto. { apply pb_rows; auto. } apply Z.leb_gt in SZ. lia. }
    assert (Hi' : (i < nr s)%nat) by (rewrite <- (pb_nr _ P); auto).
    assert (T' : t_inact (rt s i) = false) by (rewrite <- (kp_rt _ _ (pb_kept _ P)); auto).
    pose proof (single_row_PB i _ Hi' T' P0) as X.
    pose proof (prs_single_row b i _ (pb_inv _ P0) Hi) as PS.
    destruct (bound_tightening_single_row b i _) as [t1 st]. cbn [fst] in PS, X. cbv zeta in X. destruct X as [P1 B1].
    assert (B : Back t t1).
    { eapply Back_trans; [|exact B1]. apply quietly_Back; [apply quietly_same; reflexivity|reflexivity]. }
    destruct (HAS_STATUS st INFEASIBLE); [split; auto|].
    specialize (IH (S ii) t1 P1). cbv zeta in IH. destruct IH as [P2 B2].
    { destruct (pr_lp _ _ PP) as [_ Y1]. destruct (pr_lp _ _ PS) as [_ Y2]. lia. }
    split; auto. eapply Back_trans; eauto.
Qed.
End Prop_.
Lemma propagate_Back : forall b s, Inv s -> Mid s -> AV RT s -> w_rows s = [] -> w_sub s = [] ->
  let '(s', st) := propagate_primal b s in Back s s' /\ (st <> INFEASIBLE -> AV RT s').
Proof.
  intros b s H M A WR WS. unfold propagate_primal.
  assert (P0 : PB s s) by (constructor; auto using prs_refl, kept_refl).
  pose proof (loop_PB b s H WR WS (length (w_acts s) + 2 * nr s) 0 s P0) as X.
  destruct (prop_loop b _ 0 s) as [s1 st]. cbn [fst] in X. cbv zeta in X.
  destruct X as [P1 B1]. { pose proof (lp_bound s). lia. }
  destruct (N.eqb_spec st INFEASIBLE). { split; [auto|congruence]. }
  pose proof (next_round_same s1) as SN. destruct (next_round_frame s1) as [A2 [W2 E2]].
  pose proof (next_round_num s1) as NN. set (s2 := next_round s1) in *.
  assert (I2 : Inv s2) by (eapply same_Inv; [exact SN|eapply pb_inv; eauto]).
  assert (WS2 : w_sub s2 = []) by (rewrite E2; sr; eapply pb_sub; eauto).
  assert (A2' : AV RT s2).
  { eapply AV_same; [exact good_RT|apply (pb_av _ _ P1)|..]; try (rewrite E2; reflexivity); auto; rewrite E2; sr; auto. }
  assert (M2 : Mid s2) by (eapply mid_same_Mid; [|apply (pb_mid _ _ P1)]; rewrite E2; mid_ref).
  assert (B2 : Back s1 s2) by (rewrite E2; apply quietly_Back; [apply quietly_same; reflexivity|reflexivity]).
  clearbody s2.
  pose proof (finish_Back E0 s2 I2 (or_introl WS2)) as B3.
  pose proof (finish_cols s2 I2 (or_introl WS2)) as [I3 _].
  pose proof (finish_AV RT s2 good_RT I2 (md_tags _ M2) (md_pend _ M2) WS2 A2') as A3. unfold finish in A3.
  set (s3 := delete_inactive_cols_from_A_and_AT (delete_fixed_cols_from_problem s2)) in *. clearbody s3.
  pose proof (empty_rows_Back E0 s3 I3) as B4. pose proof (empty_rows_AV RT s3 good_RT A3) as A4.
  assert (B : Back s s3) by (eapply Back_trans; [exact B1|]; eapply Back_trans; eauto).
  destruct (remove_empty_rows s3) as [s4 st4]. cbn [fst] in *.
  destruct (N.eqb_spec st4 INFEASIBLE); (split; [eapply Back_trans; eauto|auto]).
Qed.
End Backs.
