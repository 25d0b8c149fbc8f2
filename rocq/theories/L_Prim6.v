(** Replaying the log: the primal values; bound propagation. *)
From Coq Require Import NArith Lqa.
From Verif Require Import M_Num S_LP M_Settings M_Driver S_Driver M_State M_Act M_Core M_Simple
  M_StonCols M_Dton M_Parallel M_Propagate M_Init M_Post M_Run S_Run S_Struct S_Sem S_Sem2 S_Sem3 S_Log S_Kkt S_Prim
  L_State L_Struct L_Struct2 L_Struct3 L_Struct4 L_Struct5 L_Struct6 L_Struct7 L_Struct8 L_Struct9 L_Struct10 L_Struct11
  L_Sem L_Sem2 L_Sem3 L_Sem4 L_Mid L_Mid2 L_Mid3 L_Mid4 L_Mid5 L_Act L_Act2 L_Act3 L_Act4 L_Act5 L_Act6 L_Act7
  L_Post L_Post2 L_Post3 L_Post4 L_Kkt L_Kkt3 L_Prim L_Prim2 L_Prim3 L_Prim4.
Import M_Driver.
Notation bad := M_State.bad.
Notation xv := L_Prim.xv.
Notation sub := L_Prim.sub.
Notation PI := L_Post4.PB.
Open Scope Q_scope.
Section Prim.
Variable rtol : nat -> Q.
Variable ctol : Q.
Hypothesis ctol1 : FEAS_TOL <= ctol.
Notation PS := (L_Prim.PS rtol ctol).
Notation PB := (L_Prim.PB rtol ctol).
Notation cover := (L_Prim.cover rtol ctol).

Lemma record_PB : forall s r, bnd_rec r -> PB s (record r s).
Proof.
  intros s r B. eapply tight_PB with (new := [r]); sr; auto.
Qed.
Lemma fix_prop_PB : forall t k v ck vv o l, tags_right t -> (k < nc t)%nat -> t_cinact (ct t k) = false ->
  PB t (fst (fix_col k v ck (record (BOUND_CHANGE_NO_ROW k vv o l) t))).
Proof.
  intros t k v ck vv o l TG Hk TK. eapply PB_trans; [auto|apply (record_PB t (BOUND_CHANGE_NO_ROW k vv o l)); exact I|]. apply fix_col_PB; auto.
  destruct TG. constructor; auto.
Qed.
Lemma ub_prop_PB : forall b t k v, tags_right t -> (k < nc t)%nat -> t_cinact (ct t k) = false ->
  (t_ub_inf (ct t k) = false -> v < fin (ub t k)) -> PB t (fst (update_ub_prop b k v t)).
Proof.
  intros b t k v TG Hk TK LT. pose proof tol_pos as TP.
  pose proof (tr_lb t TG k Hk TK) as GL. pose proof (tr_ub t TG k Hk TK) as GU.
  unfold update_ub_prop. cbv zeta.
  destruct (negb (t_lb_inf (ct t k)) && Qleb v (fin (lb t k) - FEAS_TOL)) eqn:C1; [apply PB_refl|].
  destruct (negb (t_lb_inf (ct t k)) && (_ || _)) eqn:C2; [cbn [fst]; apply fix_prop_PB; auto|].
  destruct (t_ub_inf (ct t k) || _) eqn:C3; [|apply PB_refl]. cbn [fst].
  set (w := if IS_INTEGRAL v then v else v + BOUND_MARGINAL * ABSq v) in *.
  assert (VW : v <= w) by apply margin_up.
  set (t0 := set_ub1 k (Fin w) _).
  destruct (acts_only_bound_change (mAT t0 k) (ub t k) w (negb (t_ub_inf (ct t k))) false t0) as [A [W EQ]]. rewrite EQ.
  eapply tight_PB with (new := [_]); unfold t0; sr; try reflexivity.
  - intros j. updg; auto.
  - intros j TF. updg; auto. rewrite (fixed_cinact _ TK) in TF. discriminate.
  - intros j x Hj TJ. updg; auto. intros [W1 W2]. split; auto. cbn in W2.
    destruct (t_ub_inf (ct t k)); [rewrite GU; exact I|]. apply le_ext_fin; auto. cbn [orb] in C3.
    apply andb_true_iff in C3. destruct C3 as [_ C3]. apply andb_true_iff in C3. destruct C3 as [_ C3]. qb.
    assert (w <= fin (ub t k)) by (apply margin_ok; auto). lra.
  - intros N j. sr. intros Hj. updg; [intros _|apply N; auto]. intros F1 F2. cbn [fin].
    destruct (t_lb_inf (ct t k)); [rewrite GL in F1; discriminate|]. cbn [negb andb] in C1, C2. qb. lra.
  - constructor; [exact I|constructor].
Qed.
Lemma lb_prop_PB : forall b t k v, tags_right t -> (k < nc t)%nat -> t_cinact (ct t k) = false ->
  (t_lb_inf (ct t k) = false -> fin (lb t k) < v) -> PB t (fst (update_lb_prop b k v t)).
Proof.
  intros b t k v TG Hk TK LT. pose proof tol_pos as TP.
  pose proof (tr_lb t TG k Hk TK) as GL. pose proof (tr_ub t TG k Hk TK) as GU.
  unfold update_lb_prop. cbv zeta.
  destruct (negb (t_ub_inf (ct t k)) && Qgeb v (fin (ub t k) + FEAS_TOL)) eqn:C1; [apply PB_refl|].
  destruct (negb (t_ub_inf (ct t k)) && (_ || _)) eqn:C2; [cbn [fst]; apply fix_prop_PB; auto|].
  destruct (t_lb_inf (ct t k) || _) eqn:C3; [|apply PB_refl]. cbn [fst].
  set (w := if IS_INTEGRAL v then v else v - BOUND_MARGINAL * ABSq v) in *.
  assert (VW : w <= v) by apply margin_dn.
  set (t0 := set_lb1 k (Fin w) _).
  destruct (acts_only_bound_change (mAT t0 k) (lb t k) w (negb (t_lb_inf (ct t k))) true t0) as [A [W EQ]]. rewrite EQ.
  eapply tight_PB with (new := [_]); unfold t0; sr; try reflexivity.
  - intros j. updg; auto.
  - intros j x Hj TJ. updg; auto. intros [W1 W2]. split; auto. cbn in W1.
    destruct (t_lb_inf (ct t k)); [rewrite GL; exact I|]. apply ext_le_fin; auto. cbn [orb] in C3.
    apply andb_true_iff in C3. destruct C3 as [_ C3]. apply andb_true_iff in C3. destruct C3 as [_ C3]. qb.
    assert (fin (lb t k) <= w) by (apply margin_ok'; auto). lra.
  - intros N j. sr. intros Hj. updg; [intros _|apply N; auto]. intros F1 F2. cbn [fin].
    destruct (t_ub_inf (ct t k)); [rewrite GU in F2; discriminate|]. cbn [negb andb] in C1, C2. qb. lra.
  - constructor; [exact I|constructor].
Qed.

Section Prop_.
Variables (b : bool) (s : state).
Hypotheses (HI : Inv s) (WR : w_rows s = []) (WS : w_sub s = []).
Section OneRow.
Variable i : nat.
Hypotheses (Hi : (i < nr s)%nat) (T : t_inact (rt s i) = false).
Variable t0 : state.
Definition TP (p : tight) : Prop := PI s (st_of p) /\ PB t0 (st_of p).
Lemma tally_st : forall p r, st_of (tally p r) = fst r.
Proof. intros [[t st] n] r. reflexivity. Qed.
Lemma try_ub_TP : forall p k a v, TP p -> (k < nc s)%nat -> t_cinact (ct (st_of p) k) = false -> In (k, a) (mA s i) ->
  TP (try_ub b k v p).
Proof.
  intros [[t st] n] k a v [P B] Hk TK Hin. unfold st_of in *. cbn [fst] in *. unfold try_ub. destruct (_ && _) eqn:C; [|split; auto].
  unfold TP. rewrite tally_st. split.
  - apply (ub_outB True b s HI WR i Hi T t k a v P Hk TK Hin).
  - eapply PB_trans; [auto|exact B|]. apply ub_prop_PB; auto; [apply (pb_tags s t P)|rewrite (pb_nc s t P); auto|].
    intros X. apply andb_true_iff in C. destruct C as [C _]. rewrite X in C. cbn [orb] in C. qb. auto.
Qed.
Lemma try_lb_TP : forall p k a v, TP p -> (k < nc s)%nat -> t_cinact (ct (st_of p) k) = false -> In (k, a) (mA s i) ->
  TP (try_lb b k v p).
Proof.
  intros [[t st] n] k a v [P B] Hk TK Hin. unfold st_of in *. cbn [fst] in *. unfold try_lb. destruct (_ && _) eqn:C; [|split; auto].
  unfold TP. rewrite tally_st. split.
  - apply (lb_outB True b s HI WR i Hi T t k a v P Hk TK Hin).
  - eapply PB_trans; [auto|exact B|]. apply lb_prop_PB; auto; [apply (pb_tags s t P)|rewrite (pb_nc s t P); auto|].
    intros X. apply andb_true_iff in C. destruct C as [C _]. rewrite X in C. cbn [orb] in C. qb. auto.
Qed.
Lemma fold_TP : forall (f : tight -> nat * Q -> tight) r p,
  (forall p e, In e r -> TP p -> TP (f p e)) -> TP p -> TP (fold_left f r p).
Proof.
  intros f r. induction r as [|e r IH]; intros p F X; cbn [fold_left]; auto. apply IH.
  - intros; apply F; auto. right; auto.
  - apply F; auto. left; auto.
Qed.
Lemma tighten_rhs_TP : forall p, TP p -> TP (tighten_rhs b i (mA s i) p).
Proof.
  intros [[t st] n] X. pose proof (proj1 X) as P. unfold st_of in P. cbn [fst] in P.
  destruct (pb_T s i Hi T _ P) as [Hi' T']. unfold tighten_rhs. cbv zeta.
  destruct (_ && _).
  { apply fold_TP; auto. clear t st n X P Hi' T'. intros [[t st] n] [k a] Hin X. unfold rhs_entry.
    destruct (t_cinact (ct t k)) eqn:TK; auto. pose proof (entry_in s HI i Hi k a Hin).
    destruct (Qgtb a 0); [apply try_ub_TP with (a := a)|apply try_lb_TP with (a := a)]; auto. }
  destruct (_ && _) eqn:C2; auto. apply andb_true_iff in C2. destruct C2 as [_ C2]. apply Z.eqb_eq in C2.
  destruct (find_inf_ok RT t true i (pb_inv _ _ P) (pb_tags _ _ P) (pb_av _ _ P) (pb_sub _ WS _ P) Hi' T' C2)
    as [k [a [E [Hin [TK F]]]]].
  rewrite (pb_A _ _ P) in E, Hin. rewrite E. pose proof (entry_in s HI i Hi k a Hin).
  destruct (Qgtb a 0); [apply try_ub_TP with (a := a)|apply try_lb_TP with (a := a)]; auto.
Qed.
Lemma tighten_lhs_TP : forall p, TP p -> TP (tighten_lhs b i (mA s i) p).
Proof.
  intros [[t st] n] X. pose proof (proj1 X) as P. unfold st_of in P. cbn [fst] in P.
  destruct (pb_T s i Hi T _ P) as [Hi' T']. unfold tighten_lhs. cbv zeta.
  destruct (_ && _).
  { apply fold_TP; auto. clear t st n X P Hi' T'. intros [[t st] n] [k a] Hin X. unfold lhs_entry.
    destruct (t_cinact (ct t k)) eqn:TK; auto. pose proof (entry_in s HI i Hi k a Hin).
    destruct (Qgtb a 0); [apply try_lb_TP with (a := a)|apply try_ub_TP with (a := a)]; auto. }
  destruct (_ && _) eqn:C2; auto. apply andb_true_iff in C2. destruct C2 as [_ C2]. apply Z.eqb_eq in C2.
  destruct (find_inf_ok RT t false i (pb_inv _ _ P) (pb_tags _ _ P) (pb_av _ _ P) (pb_sub _ WS _ P) Hi' T' C2)
    as [k [a [E [Hin [TK F]]]]].
  rewrite (pb_A _ _ P) in E, Hin. rewrite E. pose proof (entry_in s HI i Hi k a Hin).
  destruct (Qgtb a 0); [apply try_lb_TP with (a := a)|apply try_ub_TP with (a := a)]; auto.
Qed.
End OneRow.
Lemma single_row_PB' : forall i t, (i < nr s)%nat -> t_inact (rt s i) = false -> PI s t ->
  PB t (fst (bound_tightening_single_row b i t)).
Proof.
  intros i t Hi T P. unfold bound_tightening_single_row.
  destruct (pb_T s i Hi T t P) as [Hi' T'].
  rewrite (view_full t i (pb_inv _ _ P) Hi' T'), (pb_A _ _ P).
  assert (X : TP t (t, UNCHANGED, O)) by (split; [exact P|apply PB_refl]).
  apply (tighten_rhs_TP i Hi T) in X. apply (tighten_lhs_TP i Hi T) in X.
  set (p := tighten_lhs _ _ _ _) in *. clearbody p. destruct p as [[t2 st2] n2]. destruct X as [P2 B2].
  unfold st_of in *. cbn [fst snd] in *. destruct n2 as [|n2]; auto. eapply PB_trans; [auto|exact B2|]. apply record_PB; exact I.
Qed.
Lemma loop_PB' : forall fuel ii t, PI s t -> (L_Struct8.lp t <= ii + fuel)%nat -> PB t (fst (prop_loop b fuel ii t)).
Proof.
  induction fuel as [|f IH]; intros ii t P L; cbn [prop_loop].
  - destruct (nth_error (w_acts t) ii) eqn:E; [|apply PB_refl].
    exfalso. assert (X : (ii < length (w_acts t))%nat) by (apply nth_error_Some; congruence).
    unfold L_Struct8.lp in L. lia.
  - destruct (nth_error (w_acts t) ii) as [i|] eqn:E; [|apply PB_refl].
    assert (Hi : (i < nr t)%nat) by (apply (l_acts t (inv_L t (pb_inv _ _ P))); eapply nth_error_In; eauto).
    destruct (skip_row t i) eqn:SK; [apply IH; auto; lia|].
    unfold skip_row in SK. apply orb_false_iff in SK. destruct SK as [SK _].
    apply orb_false_iff in SK. destruct SK as [SZ SK]. apply negb_false_iff in SK.
    assert (AP : (apot PROPAGATED_THIS_ROUND <= apot (a_st (acts t i)))%nat).
    { unfold ast_is in SK. destruct (a_st (acts t i)); try discriminate. simpl. lia. }
    pose proof (pb_ast s t i PROPAGATED_THIS_ROUND P AP) as P0.
    pose proof (prs_set_ast i PROPAGATED_THIS_ROUND t (pb_inv _ _ P) AP) as PP.
    assert (T : t_inact (rt t i) = false).
    { apply (quiet_row t i (pb_inv _ _ P)); auto. { eapply pb_rows; eauto. } apply Z.leb_gt in SZ. lia. }
    assert (Hi' : (i < nr s)%nat) by (rewrite <- (pb_nr _ _ P); auto).
    assert (T' : t_inact (rt s i) = false) by (rewrite <- (kp_rt _ _ (pb_kept _ _ P)); auto).
    pose proof (single_row_PB True b s HI WR WS i _ Hi' T' P0) as X.
    pose proof (single_row_PB' i _ Hi' T' P0) as Y.
    pose proof (prs_single_row b i _ (pb_inv _ _ P0) Hi) as PX.
    destruct (bound_tightening_single_row b i _) as [t1 st]. cbn [fst] in PX, X, Y. cbv zeta in X. destruct X as [P1 _].
    assert (B : PB t t1).
    { eapply PB_trans; [auto| |exact Y]. apply still_same; reflexivity. }
    destruct (HAS_STATUS st INFEASIBLE); [auto|].
    eapply PB_trans; [auto|exact B|]. apply IH; auto.
    destruct (pr_lp _ _ PP) as [_ Y1]. destruct (pr_lp _ _ PX) as [_ Y2]. lia.
Qed.
End Prop_.
Lemma propagate_PB : forall b s, Inv s -> Mid s -> AV RT s -> w_rows s = [] -> w_sub s = [] -> PB s (fst (propagate_primal b s)).
Proof.
  intros b s H M A WR WS. unfold propagate_primal.
  assert (P0 : PI s s) by (constructor; auto using prs_refl, kept_refl).
  pose proof (loop_PB True b s H WR WS (length (w_acts s) + 2 * nr s) 0 s P0) as X.
  pose proof (loop_PB' b s H WR WS (length (w_acts s) + 2 * nr s) 0 s P0) as B1.
  destruct (prop_loop b _ 0 s) as [s1 st]. cbn [fst] in X, B1. cbv zeta in X.
  assert (LE : (L_Struct8.lp s <= 0 + (length (w_acts s) + 2 * nr s))%nat) by (pose proof (lp_bound s); lia).
  destruct (X LE) as [P1 _]. specialize (B1 LE). clear X.
  destruct (N.eqb_spec st INFEASIBLE); [exact B1|].
  pose proof (next_round_same s1) as SN. destruct (next_round_frame s1) as [A2 [W2 E2]].
  set (s2 := next_round s1) in *.
  assert (I2 : Inv s2) by (eapply same_Inv; [exact SN|eapply pb_inv; eauto]).
  assert (WS2 : w_sub s2 = []) by (rewrite E2; sr; eapply pb_sub; eauto).
  assert (M2 : Mid s2) by (eapply mid_same_Mid; [|apply (pb_mid _ _ P1)]; rewrite E2; mid_ref).
  assert (B2 : PB s1 s2) by (rewrite E2; apply still_same; reflexivity).
  clearbody s2.
  pose proof (finish_PB rtol ctol s2 I2 (md_tags _ M2) (md_pend _ M2) WS2) as B3. unfold finish in B3.
  pose proof (finish_cols s2 I2 (or_introl WS2)) as [I3 _].
  destruct (finish_sem s2 I2 (md_tags _ M2) (md_pend _ M2) (or_introl WS2)) as (_ & _ & TG3 & _). unfold finish in TG3.
  set (s3 := delete_inactive_cols_from_A_and_AT (delete_fixed_cols_from_problem s2)) in *. clearbody s3.
  pose proof (empty_rows_PB rtol ctol ctol1 s3 I3 TG3) as B4.
  assert (B : PB s s3) by (eapply PB_trans; [auto|exact B1|]; eapply PB_trans; [auto|exact B2|exact B3]).
  destruct (remove_empty_rows s3) as [s4 st4]. cbn [fst] in *.
  destruct (N.eqb_spec st4 INFEASIBLE); (eapply PB_trans; [auto|exact B|exact B4]).
Qed.
End Prim.
