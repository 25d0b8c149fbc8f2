(** Bound propagation as a whole (C31). *)
From Coq Require Import NArith Lqa Qabs.
From Verif Require Import M_Num S_LP M_Settings M_Driver S_Driver M_State M_Act M_Core M_Simple
  M_StonCols M_Dton M_Parallel M_Propagate M_Init M_Post M_Run S_Run S_Struct S_Sem S_Sem2 S_Sem3
  L_State L_Struct L_Struct2 L_Struct3 L_Struct4 L_Struct5 L_Struct6 L_Struct7 L_Struct8 L_Struct9 L_Struct10 L_Struct11
  L_Sem L_Sem2 L_Sem3 L_Sem4 L_Mid L_Mid2 L_Mid3 L_Mid4 L_Mid5 L_Act L_Act2 L_Act3 L_Act4 L_Act5 L_Act6.
Open Scope Q_scope.

Lemma abs_is : forall a, Qabs a == ABSq a.
Proof.
  intros a. unfold ABSq. destruct (Qltb a 0) eqn:E; qb.
  - rewrite Qabs_neg; lra.
  - rewrite Qabs_pos; lra.
Qed.
Lemma near_forced : forall s l, Ok s -> near s l -> nearly_forced (reduced_lp s) l.
Proof.
  intros s l OK N l1 k v l2 E x Fx F i a Hi Hin. rewrite !abs_is.
  cbn [lp_rows lp_A reduced_lp] in Hi, Hin. apply live_rows_in in Hi. destruct Hi as [Hi RZ].
  apply (N l1 k v l2 E x) with (i := i); auto.
  - apply sat_feasible; auto.
  - destruct (w_rin s (inv_0 s (ok_inv s OK)) i k a Hi Hin) as [Hk _].
    apply (w_agree s (inv_0 s (ok_inv s OK)) i k a Hi Hk RZ); auto.
    eapply (inv_R s (ok_inv s OK)); eauto. apply quiet_row; auto; apply OK.
Qed.
Lemma crossed_nonneg : forall P k, 0 <= crossed_tol P k.
Proof. intros P k. unfold crossed_tol. destruct (lp_lb P k), (lp_ub P k); try lra. destruct (Qle_bool _ _); unfold FEAS_TOL; lra. Qed.
Lemma PI_start : forall R s, Ok s -> Mid s -> AV R s -> PI R (crossed_tol (reduced_lp s)) s [] s.
Proof.
  intros R s OK M A. constructor; auto.
  - apply prs_refl. apply OK.
  - apply kept_refl.
  - intros x. lra.
  - intros l1 k v l2 E. destruct l1; discriminate.
  - intros k v [].
  - intros k Hk T. split; [apply crossed_nonneg|]. unfold crossed_tol. cbn [lp_lb lp_ub reduced_lp].
    destruct (lb s k) as [|p|]; try (right; simpl; discriminate). destruct (ub s k) as [|q|]; try (right; simpl; discriminate).
    destruct (Qle_bool p q) eqn:E; [right|left; lra]. intros _ _. simpl. apply Qle_bool_iff; auto.
Qed.

Lemma empty_rows_cols : forall s, ct (fst (remove_empty_rows s)) = ct s /\ ub (fst (remove_empty_rows s)) = ub s.
Proof.
  intros s. unfold remove_empty_rows.
  assert (X : forall l t, ct (fst (for_until INFEASIBLE remove_empty_row l t)) = ct t /\ ub (fst (for_until INFEASIBLE remove_empty_row l t)) = ub t).
  { induction l as [|i l IH]; intros t; cbn [for_until]; [auto|].
    assert (Y : ct (fst (remove_empty_row i t)) = ct t /\ ub (fst (remove_empty_row i t)) = ub t).
    { unfold remove_empty_row. destruct (_ || _); auto. }
    destruct (remove_empty_row i t) as [t1 st1]. cbn [fst] in Y. destruct (N.eqb _ _); [exact Y|].
    destruct (IH t1) as [A B]. destruct Y. split; congruence. }
  specialize (X (w_empty_rows s) s). destruct (for_until _ _ _ _) as [s1 st]. cbn [fst] in X. destruct (N.eqb _ _); exact X.
Qed.
Lemma propagate_sem_at : forall R b s s' st, good R -> (forall v w, R v w -> v <= w) ->
  Ok s -> Mid s -> AV R s -> propagate_primal b s = (s', st) ->
  (st <> INFEASIBLE -> AV R s') /\
  exists l, nearly_forced (reduced_lp s) l /\
   (forall k v, In (k, v) l -> In k (live_cols s) /\ t_fixed (ct s' k) = true /\ ub s' k = Fin v) /\
   (st = INFEASIBLE -> forall x, feasible (reduced_lp s) x -> ~ fixed_at l x) /\
   (st <> INFEASIBLE -> carries_over (fixed_at l) (reduced_lp s) (reduced_lp s') /\
      lifts_back feas_tol (crossed_tol (reduced_lp s)) (reduced_lp s) (reduced_lp s') /\
      (forall k v, In (k, v) l -> ~ In k (lp_cols (reduced_lp s')))).
Proof.
  intros R b s s' st G RL OK M A E.
  pose proof (ok_inv _ OK) as H. pose proof (q_rows _ (ok_quiet _ OK)) as WR. pose proof (q_sub _ (ok_quiet _ OK)) as WS.
  pose proof (q_fixed _ (ok_quiet _ OK)) as WF.
  unfold propagate_primal in E.
  pose proof (prop_loop_spec b (length (w_acts s) + 2 * nr s) 0 s H) as X0.
  pose proof (loop_step R b (crossed_tol (reduced_lp s)) s G RL H WR WS (length (w_acts s) + 2 * nr s) 0 [] s (PI_start R s OK M A)) as X.
  destruct (prop_loop b _ 0 s) as [s1 st1].
  destruct X0 as [PR0 _]. { pose proof (lp_bound s). lia. }
  destruct X as [l [P1 E1]]. { pose proof (lp_bound s). lia. }
  cbn [app] in *. set (c := crossed_tol (reduced_lp s)) in *.
  assert (LV : forall k v, In (k, v) l -> In k (live_cols s) /\ t_fixed (ct s1 k) = true /\ ub s1 k = Fin v).
  { intros k v Hin. destruct (pi_in _ _ _ _ _ P1 k v Hin) as (B1 & B2 & B3 & B4). split; auto. apply live_cols_in. split; auto.
    apply cact_alive; auto. apply H. }
  destruct (N.eqb_spec st1 INFEASIBLE) as [EQ1|NI].
  { injection E as <- <-. split; [congruence|]. exists l. split; [apply near_forced; auto; apply P1|]. split; [exact LV|].
    split; [|congruence]. intros _ x Fx Fl. destruct E1 as [E1|[_ E1]]; [rewrite EQ1 in E1; discriminate|].
    apply (E1 x); auto. apply sat_feasible; auto. }
  destruct (next_PI R c s G WR WS l s1 P1) as [I2 [M2 [A2 [U2 [R2 [S2 [O2 [C2 V2]]]]]]]].
  pose proof (next_round_same s1) as SN.
  set (s2 := next_round s1) in *.
  assert (NX2 : Nx s2).
  { apply (st_nx _ _ (stp_trans _ _ _ (pr_stp _ _ PR0) (stp_same _ _ (st_inv _ _ (pr_stp _ _ PR0)) SN))); auto. apply OK. }
  clearbody s2.
  assert (SS : forall r, semstep (fixed_at l) r c s s2).
  { intros r. destruct M2 as [B1 B2 B3 B4]. constructor; auto.
    - intros x Fl Sx. apply S2. apply (pi_fwd _ _ _ _ _ P1); auto.
    - intros x Sx. apply S2 in Sx. apply (pi_bwd _ _ _ _ _ P1); auto.
    - intros x. rewrite O2. apply (pi_obj _ _ _ _ _ P1). }
  destruct (finish_cols s2 I2) as [I3 [M3 [N3 [R3 [F3 [U3 _]]]]]]; [auto|]. fold (finish s2) in *.
  assert (OK3 : Ok (finish s2)).
  { constructor; auto. constructor; congruence. }
  pose proof (finish_AV R s2 G I2 (md_tags _ M2) (md_pend _ M2) U2 A2) as A3.
  pose proof (finish_Mid s2 I2 M2 (or_introl U2)) as Mi3.
  destruct (finish_sem s2 I2 (md_tags _ M2) (md_pend _ M2) (or_introl U2)) as [FS1 [FS2 [_ [FS4 [_ [FS3 _]]]]]].
  destruct FS4 as (_ & FU & _ & FCT & _).
  destruct (semstep_lp (fixed_at l) tol_rows c s s2 OK I2 (SS tol_rows) (or_introl U2) OK3) as [T3 [AE3 [CO3 _]]].
  { intros. unfold tol_rows, FEAS_TOL. lra. } { apply crossed_nonneg. }
  assert (BK : forall x, sat tol_rows c (finish s2) x -> exists y, (forall k, In k (live_cols (finish s2)) -> y k == x k) /\
             sat tol_rows c s y /\ obj s y == obj (finish s2) x).
  { intros x Sx. destruct (finish_back tol_rows c s2 x I2 (md_tags _ M2) (md_pend _ M2) (or_introl U2) Sx) as [y [Y1 [Y2 Y3]]].
    exists y. split; auto. split; [apply (se_bwd _ _ _ _ _ (SS tol_rows)); auto|]. rewrite <- Y3. symmetry. apply (se_obj _ _ _ _ _ (SS zero)). }
  change (delete_inactive_cols_from_A_and_AT (delete_fixed_cols_from_problem s2)) with (finish s2) in E.
  set (s3 := finish s2) in *. clearbody s3.
  pose proof (empty_rows_AV R s3 G A3) as A4. pose proof (empty_rows_spec s3 I3) as X4.
  pose proof (empty_rows_cols s3) as [EC4 EU4].
  destruct (remove_empty_rows s3) as [s4 st4] eqn:E4. cbn [fst] in A4, EC4, EU4.
  assert (LV4 : forall k v, In (k, v) l -> In k (live_cols s) /\ t_fixed (ct s4 k) = true /\ ub s4 k = Fin v).
  { intros k v Hin. rewrite EC4, EU4, FU, FCT, C2, V2. auto. }
  destruct (empty_rows_sem s3 s4 st4 OK3 T3 AE3 E4) as [EI EU].
  destruct X4 as [S4 [_ [_ [_ [_ X4]]]]].
  destruct (N.eqb_spec st4 INFEASIBLE) as [->|N4].
  { injection E as <- <-. split; [congruence|]. exists l. split; [apply near_forced; auto; apply P1|]. split; [exact LV4|].
    split; [|congruence]. intros _ x Fx Fl. destruct (CO3 x Fx Fl) as [F3' _]. apply (EI eq_refl x F3'). }
  injection E as <- <-. destruct X4 as [X4|[X4 _]]; [contradiction|]. destruct (EU X4) as [OK4 [_ [_ [CO4 LB4]]]].
  split; auto. exists l. split; [apply near_forced; auto; apply P1|]. split; [exact LV4|]. split; [discriminate|]. intros _.
  assert (LC : forall k, In k (live_cols s4) -> In k (live_cols s3)).
  { intros k Hk. apply live_cols_in in Hk. apply live_cols_in. destruct Hk as [Hk Ck].
    rewrite (mo_nc _ _ (st_mono _ _ S4)) in Hk. split; auto.
    intros C. apply Ck. apply (mo_cd _ _ (st_mono _ _ S4)); auto. }
  split; [|split].
  - intros x Fx Fl. destruct (CO3 x Fx Fl) as [F1 O1]. destruct (CO4 x F1 I) as [F4 O4]. split; auto. lra.
  - intros x' Fx. destruct (LB4 x' Fx) as [x [AG [FX OX]]]. apply sat_reduced in FX; auto.
    destruct (BK x) as [y [Y1 [Y2 Y3]]].
    { eapply sat_weaken; [| |exact FX]; [intros; lra|]. intros k. apply crossed_nonneg. }
    exists y. split; [|split].
    + intros k Hk. cbn [lp_cols reduced_lp] in Hk. rewrite (Y1 k (LC k Hk)). apply AG. exact Hk.
    + apply sat_reduced; auto.
    + rewrite <- !obj_reduced in *. lra.
  - intros k v Hin Hk. cbn [lp_cols reduced_lp] in Hk. apply LC in Hk. apply FS3 in Hk. destruct Hk as [_ Hk].
    rewrite C2 in Hk. destruct (pi_in _ _ _ _ _ P1 k v Hin) as (_ & _ & B3 & _). unfold t_cinact in Hk. rewrite B3 in Hk. discriminate.
Qed.
Lemma propagate_sem : forall R b s s' st, good R -> (forall v w, R v w -> v <= w) ->
  Ok s -> Mid s -> AV R s -> propagate_primal b s = (s', st) ->
  (st <> INFEASIBLE -> AV R s') /\
  exists l, nearly_forced (reduced_lp s) l /\
   (st = INFEASIBLE -> forall x, feasible (reduced_lp s) x -> ~ fixed_at l x) /\
   (st <> INFEASIBLE -> carries_over (fixed_at l) (reduced_lp s) (reduced_lp s') /\
      lifts_back feas_tol (crossed_tol (reduced_lp s)) (reduced_lp s) (reduced_lp s') /\
      (forall k v, In (k, v) l -> ~ In k (lp_cols (reduced_lp s')))).
Proof.
  intros R b s s' st G RL OK M A E. destruct (propagate_sem_at R b s s' st G RL OK M A E) as [X [l [N [_ Y]]]].
  split; auto. exists l. split; auto.
Qed.
