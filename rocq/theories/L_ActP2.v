(** The activity check drops only sides that hold up to the tolerance. *)
From Coq Require Import NArith Lqa.
From Verif Require Import M_Num S_LP M_Settings M_Driver S_Driver M_State M_Act M_Core M_Simple
  M_StonCols M_Dton M_Parallel M_Propagate M_Init M_Post M_Run S_Run S_Struct S_Sem S_Sem2 S_Sem3 S_Sem4
  L_State L_Struct L_Struct2 L_Struct3 L_Struct4 L_Struct5 L_Struct6 L_Struct7 L_Struct8 L_Tiny L_Struct9 L_Struct10 L_Struct11
  L_Init L_Sem L_Sem2 L_Sem3 L_Sem4 L_Mid L_Mid2 L_Mid3 L_Mid4 L_Mid5 L_Mid6 L_Mid7 L_Reach
  L_Act L_Act2 L_Act3 L_Act4 L_Act5 L_Act6 L_Act7 L_Act8 L_Free L_Ston L_Ston2 L_Ston3 L_Ston4 L_Ston5 L_Reach2 L_ActP.
Import M_Driver.
Notation bad := M_State.bad.
Open Scope Q_scope.

Section Check.
Variable s : state.
Hypotheses (OK : Ok s) (A : AV Qle s).
Definition allc (x : nat -> Q) : Prop := forall k, (k < nc s)%nat -> t_cinact (ct s k) = false -> csat s x k.
Definition lowok (i : nat) : Prop := forall x, allc x -> ext_le (lhs s i) (dot (mA s i) x + FEAS_TOL).
Definition upok (i : nat) : Prop := forall x, allc x -> le_ext (dot (mA s i) x - FEAS_TOL) (rhs s i).
Record RX (t : state) : Prop := {
  rx_nr : nr t = nr s; rx_nc : nc t = nc s; rx_mA : mA t = mA s; rx_lb : lb t = lb s; rx_ub : ub t = ub s;
  rx_ct : ct t = ct s; rx_cst : cst t = cst s; rx_off : off t = off s; rx_csz : csz t = csz s; rx_acts : acts t = acts s;
  rx_wf : w_fixed t = w_fixed s; rx_ws : w_sub t = w_sub s;
  rx_rt : forall i, t_inact (rt t i) = false -> t_inact (rt s i) = false;
  rx_live : forall i, (i < nr s)%nat -> t_inact (rt t i) = false ->
    (lhs t i = lhs s i \/ lhs t i = NInf /\ lowok i) /\ (rhs t i = rhs s i \/ rhs t i = PInf /\ upok i);
  rx_gone : forall i, (i < nr s)%nat -> t_inact (rt s i) = false -> t_inact (rt t i) = true -> lowok i /\ upok i }.
Lemma RX_refl : RX s.
Proof. constructor; auto. intros; congruence. Qed.
Lemma allc_act : forall i x, (i < nr s)%nat -> t_inact (rt s i) = false -> allc x ->
  (n_inf_min (acts s i) = 0%Z -> a_min (acts s i) <= dot (mA s i) x) /\
  (n_inf_max (acts s i) = 0%Z -> dot (mA s i) x <= a_max (acts s i)).
Proof.
  intros i x Hi Ti X. assert (LR : In i (live_rows s)) by (apply live_rows_in; split; auto; apply act_alive; auto; apply OK).
  apply AV_bounds; auto. intros k a Hk. destruct (live_entry s i k a OK LR Hk) as [LC _]. apply live_cols_in in LC. destruct LC as [LC1 LC2].
  apply X; auto. apply quiet_col; auto; [apply OK|apply (ok_quiet s OK)|apply (ok_quiet s OK)].
Qed.
Lemma check_sem : forall t i, RX t -> tags_right t -> (i < nr s)%nat ->
  let '(t', st) := check_row i t in (st = INFEASIBLE -> forall x, allc x -> rsat t x i -> False) /\
  (st = INFEASIBLE -> t_inact (rt t i) = false) /\ (st <> INFEASIBLE -> RX t').
Proof.
  intros t i X TG Hi. unfold check_row. pose proof tol_pos as TP.
  destruct (t_inact (rt t i) || t_eq (rt t i) || Z.leb (rsz t i) 1) eqn:SK; [split; [discriminate|split; [discriminate|auto]]|].
  apply orb_false_iff in SK. destruct SK as [SK _]. apply orb_false_iff in SK. destruct SK as [Ti _].
  pose proof (rx_rt t X i Ti) as Ti'. pose proof (fun x => allc_act i x Hi Ti') as AC. 
  assert (Hi' : (i < nr t)%nat) by (rewrite (rx_nr t X); auto).
  pose proof (tr_lhs t TG i Hi' Ti) as TL. pose proof (tr_rhs t TG i Hi' Ti) as TR.
  destruct (rx_live t X i Hi Ti) as [LV RV]. rewrite (rx_acts t X).
  (* what each outcome of the test means *)
  assert (GL : negb (t_lhs_inf (rt t i)) && (Z.eqb (n_inf_min (acts s i)) 0 && Qgeb (a_min (acts s i)) (fin (lhs t i) - FEAS_TOL)) = true -> lowok i).
  { rewrite !andb_true_iff. intros [C1 [C2 C3]]. apply negb_true_iff in C1. apply Z.eqb_eq in C2. rewrite C1 in TL. qb.
    intros x W. destruct (AC x W) as [B _]. specialize (B C2). destruct LV as [EL|[EL L]]; [|apply L; auto].
    rewrite EL in *. apply ext_le_fin; auto. lra. }
  assert (GR : negb (t_rhs_inf (rt t i)) && (Z.eqb (n_inf_max (acts s i)) 0 && Qleb (a_max (acts s i)) (fin (rhs t i) + FEAS_TOL)) = true -> upok i).
  { rewrite !andb_true_iff. intros [C1 [C2 C3]]. apply negb_true_iff in C1. apply Z.eqb_eq in C2. rewrite C1 in TR. qb.
    intros x W. destruct (AC x W) as [_ B]. specialize (B C2). destruct RV as [EL|[EL L]]; [|apply L; auto].
    rewrite EL in *. apply le_ext_fin; auto. lra. }
  assert (IL : t_lhs_inf (rt t i) = true -> lowok i).
  { intros C. rewrite C in TL. destruct LV as [EL|[EL L]]; auto. intros x W. rewrite <- EL, TL. exact I. }
  assert (IR : t_rhs_inf (rt t i) = true -> upok i).
  { intros C. rewrite C in TR. destruct RV as [EL|[EL L]]; auto. intros x W. rewrite <- EL, TR. exact I. }
  unfold check_activity.
  match goal with |- context [if ?b then AC_INFEAS else _] => destruct b eqn:C1 end.
  { split; [|split; [auto|congruence]]. intros _ x W [_ R]. rewrite !andb_true_iff in C1. destruct C1 as [C1 [C2 C3]].
    apply negb_true_iff in C1. apply Z.eqb_eq in C2. rewrite C1 in TR. qb. rewrite (rx_mA t X) in R. apply le_ext_fin in R; auto.
    destruct (AC x W) as [B _]. specialize (B C2). lra. }
  match goal with |- context [if ?b then AC_INFEAS else _] => destruct b eqn:C2 end.
  { split; [|split; [auto|congruence]]. intros _ x W [R _]. rewrite !andb_true_iff in C2. destruct C2 as [C2 [C3 C4]].
    apply negb_true_iff in C2. apply Z.eqb_eq in C3. rewrite C2 in TL. qb. rewrite (rx_mA t X) in R. apply ext_le_fin in R; auto.
    destruct (AC x W) as [_ B]. specialize (B C3). lra. }
  clear C1 C2. set (lr := negb (t_lhs_inf (rt t i)) && _) in *. set (rr := negb (t_rhs_inf (rt t i)) && _) in *.
  clearbody lr rr. clear TL TR TG AC.
  destruct ((lr || t_lhs_inf (rt t i)) && (rr || t_rhs_inf (rt t i))) eqn:B.
  { split; [discriminate|split; [discriminate|]]. intros _. apply andb_true_iff in B. destruct B as [B1 B2].
    apply orb_true_iff in B1. apply orb_true_iff in B2.
    assert (GG : lowok i /\ upok i) by (destruct B1, B2; auto). clear GL GR IL IR B1 B2 lr rr.
    destruct X as [X1 X2 X3 X4 X5 X6 X7 X8 X9 X10 X11 X12 X13 X14 X15].
    unfold set_row_to_inactive. constructor; sr; auto.
    - intros j. updg; solve [auto|discriminate].
    - intros j Hj. updg; solve [auto|discriminate].
    - intros j Hj Tj. updg; auto. }
  destruct lr.
  { split; [discriminate|split; [discriminate|]]. intros _. specialize (GL eq_refl). clear GR IL IR B.
    change (fun (s0 : state) (e : nat * Q) => lock_lhs (-1) (fst e) (snd e) s0)
      with (fun (s0 : state) (e : nat * Q) => lock_coeff (-1) true false (fst e) (snd e) s0).
    destruct (lock_fold_only (-1) true false (mA t i) (set_rt1 i R_LHS_INF t)) as [u [d E]]. rewrite E. clear E.
    destruct X as [X1 X2 X3 X4 X5 X6 X7 X8 X9 X10 X11 X12 X13 X14 X15]. constructor; sr; auto.
    - intros j. updg; auto.
    - intros j Hj. updg; auto.
    - intros j Hj Tj. updg; solve [auto|discriminate|cbn; discriminate|cbn; congruence]. }
  destruct rr.
  { split; [discriminate|split; [discriminate|]]. intros _. specialize (GR eq_refl). clear GL IL IR B.
    change (fun (s0 : state) (e : nat * Q) => lock_rhs (-1) (fst e) (snd e) s0)
      with (fun (s0 : state) (e : nat * Q) => lock_coeff (-1) false true (fst e) (snd e) s0).
    destruct (lock_fold_only (-1) false true (mA t i) (set_rt1 i R_RHS_INF t)) as [u [d E]]. rewrite E. clear E.
    destruct X as [X1 X2 X3 X4 X5 X6 X7 X8 X9 X10 X11 X12 X13 X14 X15]. constructor; sr; auto.
    - intros j. updg; auto.
    - intros j Hj. updg; auto.
    - intros j Hj Tj. updg; solve [auto|discriminate|cbn; discriminate|cbn; congruence]. }
  split; [discriminate|split; [discriminate|auto]].
Qed.
Lemma RX_sat : forall t x, RX t -> allc x -> (forall i, (i < nr s)%nat -> t_inact (rt s i) = false -> rsat s x i) ->
  forall i, (i < nr t)%nat -> t_inact (rt t i) = false -> rsat t x i.
Proof.
  intros t x X W S i Hi T. rewrite (rx_nr t X) in Hi. destruct (S i Hi (rx_rt t X i T)) as [L U].
  destruct (rx_live t X i Hi T) as [LV RV]. unfold rsat. rewrite (rx_mA t X). split.
  - destruct LV as [->|[-> _]]; auto. exact I.
  - destruct RV as [->|[-> _]]; auto. exact I.
Qed.
Lemma RX_back : forall t x, RX t -> allc x -> (forall i, (i < nr t)%nat -> t_inact (rt t i) = false -> rsat t x i) ->
  forall i, (i < nr s)%nat -> t_inact (rt s i) = false -> within FEAS_TOL (lhs s i) (dot (mA s i) x) (rhs s i).
Proof.
  intros t x X W S i Hi T. pose proof tol_pos as TP. destruct (t_inact (rt t i)) eqn:Ti.
  - destruct (rx_gone t X i Hi T Ti) as [L U]. split; [apply L; auto|apply U; auto].
  - destruct (S i) as [L U]; [rewrite (rx_nr t X); auto|auto|]. rewrite (rx_mA t X) in L, U.
    destruct (rx_live t X i Hi Ti) as [LV RV]. split.
    + destruct LV as [E|[_ LV]]; [|apply LV; auto]. rewrite E in L. eapply ext_le_le; [|exact L]. lra.
    + destruct RV as [E|[_ RV]]; [|apply RV; auto]. rewrite E in U. eapply le_ext_le; [|exact U]. lra.
Qed.
End Check.

Lemma check_at : forall s s' st, Ok s -> Mid s -> AV Qle s -> check_activities s = (s', st) ->
  (st = INFEASIBLE -> infeasible (reduced_lp s)) /\
  (st <> INFEASIBLE -> carries_over anything (reduced_lp s) (reduced_lp s') /\
     lifts_back feas_tol exactly (reduced_lp s) (reduced_lp s') /\ lp_cols (reduced_lp s') = lp_cols (reduced_lp s)).
Proof.
  intros s s' st OK M A E.
  pose proof (ok_inv s OK) as H. pose proof (ok_quiet s OK) as QQ.
  pose proof (check_activities_spec s H) as SP. rewrite E in SP.
  unfold check_activities in E. pose proof (l_acts s (inv_L s H)) as HW.
  assert (L : forall l t, (forall i, In i l -> (i < nr s)%nat) -> stp s t -> Mid t -> RX s t ->
    let '(t', st) := for_until INFEASIBLE check_row l t in
      (st = INFEASIBLE -> forall x, ~ (allc s x /\ forall i, (i < nr s)%nat -> t_inact (rt s i) = false -> rsat s x i)) /\
      (st <> INFEASIBLE -> stp s t' /\ RX s t')).
  { induction l as [|i l IH]; intros t HL S1 MT X; cbn [for_until]; [split; [discriminate|auto]|].
    assert (Hi' : (i < nr s)%nat) by (apply HL; simpl; auto).
    assert (Hi : (i < nr t)%nat) by (rewrite (stp_nr _ _ S1); auto).
    destruct (check_row_stp t i (st_inv _ _ S1) Hi) as [A1 _]. pose proof (check_row_Mid t i (st_inv _ _ S1) MT Hi) as MD.
    pose proof (check_sem s OK A t i X (md_tags t MT) Hi') as Y.
    destruct (check_row i t) as [t1 st1]. cbn [fst snd] in *. destruct Y as [Y1 [Y2 Y3]].
    destruct (N.eqb_spec st1 INFEASIBLE) as [EQ|NE].
    - split; [|congruence]. intros _ x [W S]. apply (Y1 EQ x W). apply (RX_sat s t x X W S); auto.
    - apply IH; auto; [intros; apply HL; simpl; auto|eapply stp_trans; eauto]. }
  specialize (L (w_acts s) s HW (stp_refl s H) M (RX_refl s)).
  destruct (for_until INFEASIBLE check_row (w_acts s) s) as [s1 st1].
  assert (AF : forall x, sat1 s x -> allc s x /\ forall i, (i < nr s)%nat -> t_inact (rt s i) = false -> rsat s x i) by (intros x [S1 S2]; split; auto).
  destruct L as [L1 L2]. destruct (N.eqb_spec st1 INFEASIBLE) as [EQ|NE].
  - injection E as <- <-. split; [|congruence]. intros _ x F. apply (L1 EQ x). apply AF. apply sat1_feas; auto.
  - injection E as <- <-. split; [discriminate|]. intros _. destruct (L2 NE) as [S1 X]. clear L1 L2.
    destruct SP as (S2&(F1&F2&F3)&[SP|(_&W1)]); [discriminate|].
    destruct (dir_sem s1 (st_inv _ _ S1)) as (X1 & X2 & _ & _ & (Y1 & Y2 & Y3 & Y4 & Y5 & Y6 & Y7 & Y8 & Y9 & Y10 & Y11 & Y12 & Y13) & _).
    cbv zeta in *. destruct QQ as [Q1 Q2 Q3].
    assert (OK' : Ok (delete_inactive_rows s1)).
    { constructor; [apply S2|constructor; congruence|apply S2; apply OK]. }
    set (s' := delete_inactive_rows s1) in *. clearbody s'.
    assert (SP : forall x, sat1 s1 x <-> sat1 s' x).
    { intros x. rewrite <- !sat1_sat; [apply X1|congruence|congruence|rewrite (rx_wf s s1 X); auto|rewrite (rx_ws s s1 X); auto]. }
    assert (LC : live_cols s1 = live_cols s) by (unfold live_cols; rewrite (rx_nc s s1 X), (rx_csz s s1 X); auto).
    assert (OB : forall x, obj s' x == obj s x).
    { intros x. rewrite X2. unfold obj. rewrite LC, (rx_cst s s1 X), (rx_off s s1 X). lra. }
    assert (AC : forall x, allc s x <-> (forall j, (j < nc s1)%nat -> t_cinact (ct s1 j) = false -> csat s1 x j)).
    { intros x. unfold allc, csat. rewrite (rx_nc s s1 X), (rx_ct s s1 X), (rx_lb s s1 X), (rx_ub s s1 X). apply iff_refl. }
    assert (LL : forall j, In j (live_cols s') <-> In j (live_cols s)).
    { intros j. split; intros Hj.
      - apply (stp_live s s'); auto.
      - apply live_cols_in in Hj. destruct Hj as [Hj Cj]. apply live_cols_in. rewrite (stp_nc _ _ S2). split; auto.
        apply quiet_col; auto; [apply S2|congruence|congruence|rewrite (stp_nc _ _ S2); auto|].
        rewrite Y4, (rx_ct s s1 X). apply quiet_col; auto. }
    split; [|split].
    + intros x F _. apply sat1_feas in F; auto. split; [|exact (OB x)]. apply sat1_feas; auto. apply SP.
      destruct (AF x F) as [W S]. split; [apply (RX_sat s s1 x X W S)|apply AC; auto].
    + intros x F. apply sat1_feas in F; auto. apply SP in F. destruct F as [FR FC]. apply AC in FC.
      exists x. split; [intros j _; lra|split; [|symmetry; exact (OB x)]]. split.
      * intros i Hi. destruct (live_act s i OK Hi) as [Li Ti]. apply (RX_back s s1 x X FC FR i Li Ti).
      * intros k Hk. apply within0. apply FC; [apply live_cols_in in Hk; apply Hk|]. apply quiet_col; auto; apply live_cols_in in Hk; apply Hk.
    + cbn. unfold live_cols. rewrite (stp_nc _ _ S2). apply filter_ext_in. intros j Hj. apply in_seq in Hj.
      destruct (LL j) as [L1 L2]. rewrite !live_cols_in in L1, L2. rewrite (stp_nc _ _ S2) in L1, L2.
      destruct (Z.eqb_spec (csz s' j) (-1)); destruct (Z.eqb_spec (csz s j) (-1)); auto; exfalso.
      * destruct L2 as [_ L2]; [split; auto; lia|]. congruence.
      * destruct L1 as [_ L1]; [split; auto; lia|]. congruence.
Qed.
Lemma r_check : forall stgs fits P s, wf_input P -> coefficients_kept stgs ->
  reached_via (uncrossed_for_ston_cols stgs) stgs fits P s ->
  forall s' st, check_activities s = (s', st) ->
  (st = INFEASIBLE -> infeasible (reduced_lp s)) /\
  (st <> INFEASIBLE -> carries_over anything (reduced_lp s) (reduced_lp s') /\
     lifts_back feas_tol exactly (reduced_lp s) (reduced_lp s') /\ lp_cols (reduced_lp s') = lp_cols (reduced_lp s)).
Proof.
  intros stgs fits P s WF CK RV s' st E. destruct (via_le stgs fits P s WF CK RV) as [OK [M A]].
  apply check_at; auto.
Qed.
