(** Replaying the records of singleton rows and of dual fixing. *)
From Coq Require Import NArith Lqa.
From Verif Require Import M_Num S_LP M_Settings M_Driver S_Driver M_State M_Act M_Core M_Simple
  M_StonCols M_Dton M_Parallel M_Propagate M_Init M_Post M_Run S_Run S_Struct S_Sem S_Log
  L_State L_Struct L_Struct2 L_Struct3 L_Struct4 L_Struct5 L_Struct6 L_Sem L_Sem2 L_Sem3 L_Mid L_Mid2 L_Post L_Post2.
Import M_Driver.
Notation bad := M_State.bad.
Open Scope Q_scope.
Section Backs.
Variable E0 : Prop.
Notation Back := (L_Post.Back E0).
Notation BackG := (L_Post.BackG E0).

(** ** Singleton equality rows *)
Lemma added_spec : forall i (a : Q) l t, known (sy t i) = true ->
  (forall j c, In (j, c) l -> j <> i -> known (sy t j) = true) ->
  let t' := fold_left (fun s e => if Nat.eqb (fst e) i then s
                        else put_y i (val (sy s i) - (snd e / a) * val (sy s (fst e)))
                               (err_if (negb (known (sy s (fst e)))) s)) l t in
  sx t' = sx t /\ sz t' = sz t /\ (forall j, j <> i -> sy t' j = sy t j) /\ known (sy t' i) = true /\ s_err t' = s_err t.
Proof.
  intros i a. induction l as [|[j c] l IH]; intros t KI K; cbn [fold_left fst snd]; [auto|].
  destruct (Nat.eqb_spec j i) as [->|N].
  - apply IH; auto. intros; eapply K; [right|]; eauto.
  - set (t1 := put_y i _ _).
    assert (E1 : sx t1 = sx t /\ sz t1 = sz t /\ (forall j, j <> i -> sy t1 j = sy t j) /\ known (sy t1 i) = true /\ s_err t1 = s_err t).
    { unfold t1. cbn [put_y err_if sx sy sz s_err]. repeat split; auto.
      - intros q Nq. apply upd_other; auto.
      - rewrite upd_same. reflexivity.
      - rewrite (K j c) by (auto; left; auto). apply orb_false_r. }
    clearbody t1. destruct E1 as (A & B & C & D & E).
    destruct (IH t1 D) as (A' & B' & C' & D' & E').
    { intros q d Hq Nq. rewrite C by auto. eapply K; [right|]; eauto. }
    cbv zeta. repeat split; auto; try congruence. intros q Nq. rewrite C', C; auto.
Qed.
Lemma added_rows_spec : forall i a l t, known (sy t i) = true ->
  (forall j c, In (j, c) l -> j <> i -> known (sy t j) = true) ->
  let t' := retrieve_added_rows i l a t in
  sx t' = sx t /\ sz t' = sz t /\ (forall j, j <> i -> sy t' j = sy t j) /\ known (sy t' i) = true /\ s_err t' = s_err t.
Proof.
  intros i a l t KI K. unfold retrieve_added_rows. rewrite KI. cbn [negb].
  destruct (added_spec i a l (err_if false t)) as (A & B & C & D & E); auto.
  cbv zeta. cbn [err_if s_err sx sy sz] in *. rewrite orb_false_r in E. repeat split; auto.
Qed.

Lemma ston_eq_Back : forall s s' i k a v w, Inv s -> (i < nr s)%nat -> (k < nc s)%nat -> mA s i = [(k, a)] ->
  t_inact (rt s i) = false -> t_cinact (ct s k) = false -> fresh s k ->
  nr s' = nr s -> nc s' = nc s -> (forall j, j <> k -> ct s' j = ct s j) -> (forall j, j <> i -> rt s' j = rt s j) ->
  t_inact (rt s' i) = true -> cst s' = cst s -> mAT s' = mAT s ->
  log s' = DELETED_ROW i w :: ADDED_ROWS i (mAT s k) a :: FIXED_COL k v (cst s k) (mAT s k) :: log s -> Back s s'.
Proof.
  intros s s' i k a v w H Hi Hk EA Ti Tk F E1 E2 E3 E4 E5 E6 E7 L.
  exists [DELETED_ROW i w; ADDED_ROWS i (mAT s k) a; FIXED_COL k v (cst s k) (mAT s k)].
  split; [exact L|].
  split. { split; [split; [auto|split; [auto|]]|auto].
    assert (BL : below (nr s) (mAT s k)) by (intros q c Hq; apply (w_cin s (inv_0 s H) q k c Hk Hq)).
    constructor; [exact Hi|]. constructor; [split; auto|]. constructor; [split; auto|constructor]. }
  intros t [X Z Y K].
  set (t1 := put_y i w t).
  assert (K1 : known (sy t1 i) = true) by (unfold t1; cbn; rewrite upd_same; auto).
  assert (KO : forall j, (j < nr s)%nat -> t_inact (rt s j) = false -> j <> i -> known (sy t1 j) = true).
  { intros j Hj Tj N. unfold t1. cbn [put_y sy]. rewrite upd_other by auto. apply Y; [rewrite E1; auto|rewrite E4; auto]. }
  destruct (added_rows_spec i a (mAT s k) t1 K1) as (A & B & C & D & E).
  { intros j c Hj N. apply KO; auto; [apply (w_cin s (inv_0 s H) j k c Hk Hj)|eapply F; eauto]. }
  cbv zeta in *. set (t2 := retrieve_added_rows i (mAT s k) a t1) in *.
  assert (RP : forall rest, replay None ([DELETED_ROW i w; ADDED_ROWS i (mAT s k) a; FIXED_COL k v (cst s k) (mAT s k)] ++ rest) t
     = replay None rest (retrieve_fix_col k v (cst s k) (mAT s k) t2)) by reflexivity.
  clearbody t2.
  assert (KY : forall j, (j < nr s)%nat -> t_inact (rt s j) = false -> known (sy t2 j) = true).
  { intros j Hj Tj. destruct (Nat.eq_dec j i) as [->|N]; auto. rewrite C by auto. apply KO; auto. }
  exists (retrieve_fix_col k v (cst s k) (mAT s k) t2). split; [|split; [|exact RP]].
  - constructor; cbn [retrieve_fix_col put_z put_x err_if sx sy sz].
    + intros j Hj Tj. destruct (Nat.eq_dec j k) as [->|N]; [rewrite upd_same; auto|rewrite upd_other by auto].
      rewrite A. unfold t1. cbn. apply X; [rewrite E2; auto|rewrite E3; auto].
    + intros j Hj Tj. destruct (Nat.eq_dec j k) as [->|N]; [rewrite upd_same; auto|rewrite upd_other by auto].
      rewrite B. unfold t1. cbn. apply Z; [rewrite E2; auto|rewrite E3; auto].
    + exact KY.
    + intros e0 j Hj Tj. specialize (K e0). destruct (Nat.eq_dec j k) as [->|N].
      * rewrite upd_same. cbn [val]. rewrite acol_full by exact F. lra.
      * rewrite upd_other by auto. rewrite B. unfold t1. cbn [put_y sz].
        rewrite K; [|rewrite E2; auto|rewrite E3; auto]. rewrite E6.
        assert (EC : acol s' j = acol s j).
        { unfold acol. rewrite E7. apply filter_ext_in. intros [q c] Hq. cbn [fst].
          destruct (Nat.eq_dec q i) as [->|Nq]; [|rewrite E4; auto]. exfalso.
          apply (w_agree s (inv_0 s H) i j c Hi Hj) in Hq; [|apply act_alive; auto; apply H|apply cact_alive; auto; apply H].
          rewrite EA in Hq. destruct Hq as [Hq|[]]. congruence. }
        rewrite EC. rewrite (ysum_ext (sy t) (sy t2)); [lra|]. intros q c Hq.
        assert (q <> i).
        { intros ->. unfold acol in Hq. apply filter_In in Hq. destruct Hq as [Hq _].
          apply (w_agree s (inv_0 s H) i j c Hi Hj) in Hq; [|apply act_alive; auto; apply H|apply cact_alive; auto; apply H].
          rewrite EA in Hq. destruct Hq as [Hq|[]]. congruence. }
        rewrite C by auto. unfold t1. cbn [put_y sy]. rewrite upd_other by auto. lra.
  - intros _. unfold retrieve_fix_col. cbn [put_z put_x err_if s_err]. rewrite E. unfold t1. cbn [put_y s_err].
    rewrite all_known_true; [cbn; apply orb_false_r|]. intros q c Hq. apply KY; [|eapply F; eauto].
    apply (w_cin s (inv_0 s H) q k c Hk Hq).
Qed.

(** ** A bound changed on account of a row *)
Lemma bound_BackG : forall s s' i j a r v o l, Inv s -> (i < nr s)%nat -> t_inact (rt s i) = false ->
  (j < nc s)%nat -> t_cinact (ct s j) = false -> mA s i = r -> In (j, a) r -> quietly s s' ->
  log s' = BOUND_CHANGE_NO_ROW j v o l :: log s -> BackG i r 1 s s'.
Proof.
  intros s s' i j a r v o l H Hi Ti Hj Tj ER Hin Q L. exists [BOUND_CHANGE_NO_ROW j v o l]. split; [exact L|].
  split; [split; [split; [apply Q|split; [apply Q|constructor; auto]]|intros m l0 G0; exact G0]|].
  intros t ST. destruct (bound_St E0 s i j a r v o l t H Hi Ti Hj Tj ER Hin (quietly_St _ _ _ _ Q ST)) as [A B].
  exists (retrieve_bound_change i j r v o l t). split; [exact A|]. split; [auto|].
  intros m rest. destruct m; reflexivity.
Qed.
Lemma bound_new_Back : forall s s1 s' i j a r v o l, Inv s -> (i < nr s)%nat -> t_inact (rt s i) = false ->
  (j < nc s)%nat -> t_cinact (ct s j) = false -> mA s i = r -> In (j, a) r -> quietly s s1 -> log s1 = log s ->
  s' = record (BOUND_CHANGE_THE_ROW i r 1) (record (BOUND_CHANGE_NO_ROW j v o l) s1) -> Back s s'.
Proof.
  intros s s1 s' i j a r v o l H Hi Ti Hj Tj ER Hin Q L ->.
  eapply (BackG_close E0 i r 0 s (record (BOUND_CHANGE_NO_ROW j v o l) s1)).
  - eapply (bound_BackG s _ i j a r v o l); eauto; [|sr; rewrite L; reflexivity].
    eapply quietly_trans; [exact Q|]. apply quietly_same; reflexivity.
  - reflexivity.
  - reflexivity.
  - reflexivity.
  - exact Hi.
  - intros q c Hq. rewrite <- ER in Hq. apply (w_rin s (inv_0 s H) i q c Hi Hq).
  - intros t [A B C D]. constructor; auto.
Qed.
Lemma update_lb_Back : forall s i k a v, Inv s -> (i < nr s)%nat -> t_inact (rt s i) = false ->
  (k < nc s)%nat -> t_cinact (ct s k) = false -> In (k, a) (mA s i) -> Back s (fst (update_lb k v i s)).
Proof.
  intros s i k a v H Hi Ti Hk Tk Hin. pose proof (update_lb_cases k v i s) as X. destruct (update_lb k v i s) as [s1 st]. cbn [fst].
  destruct X as [(_ & -> & _)|(_ & _ & [(-> & _)|(_ & [A [W E]])])]; [apply Back_refl|apply Back_refl|].
  eapply (bound_new_Back s _ s1 i k a); [exact H|exact Hi|exact Ti|exact Hk|exact Tk|reflexivity|exact Hin| | |exact E].
  - apply quietly_same; try reflexivity. intros j. sr. updg; auto.
  - reflexivity.
Qed.
Lemma update_ub_Back : forall s i k a v, Inv s -> (i < nr s)%nat -> t_inact (rt s i) = false ->
  (k < nc s)%nat -> t_cinact (ct s k) = false -> In (k, a) (mA s i) -> Back s (fst (update_ub k v i s)).
Proof.
  intros s i k a v H Hi Ti Hk Tk Hin. pose proof (update_ub_cases k v i s) as X. destruct (update_ub k v i s) as [s1 st]. cbn [fst].
  destruct X as [(_ & -> & _)|(_ & _ & [(-> & _)|(_ & [A [W E]])])]; [apply Back_refl|apply Back_refl|].
  eapply (bound_new_Back s _ s1 i k a); [exact H|exact Hi|exact Ti|exact Hk|exact Tk|reflexivity|exact Hin| | |exact E].
  - apply quietly_same; try reflexivity. intros j. sr. updg; auto.
  - reflexivity.
Qed.

(** ** Singleton rows *)
Lemma remove_stonrow_Back : forall s i, Inv s -> w_sub s = [] -> In i (w_ston_rows s) -> t_inact (rt s i) = false ->
  (t_eq (rt s i) = true -> freshC s) ->
  let s' := fst (remove_stonrow i s) in Back s s' /\ (t_eq (rt s i) = true -> freshC s').
Proof.
  intros s i H WS Hin T FC. destruct (l_ston_rows s (inv_L s H) i Hin) as [Hi D]. specialize (D T). cbv zeta.
  unfold remove_stonrow. destruct (mA s i) as [|[k a] r] eqn:EA.
  - destruct D as [D|[_ D]]; [discriminate|]. rewrite D. split; [apply Back_refl|auto].
  - destruct D as [D|[D _]]; [|discriminate]. destruct r; [|discriminate].
    destruct (w_rin s (inv_0 s H) i k a Hi) as [Hk Na]; [rewrite EA; left; reflexivity|].
    destruct (t_fixed (ct s k)) eqn:Fk; [split; [apply Back_refl|auto]|].
    assert (TK : t_cinact (ct s k) = false).
    { apply pend_col_fixed; auto. eapply (inv_R s H); eauto. rewrite EA. left; reflexivity. }
    destruct (t_eq (rt s i)) eqn:TE.
    + specialize (FC eq_refl). pose proof (fix_col_cases s k (fin (rhs s i) / a) (cst s k)) as FX.
      destruct (fix_col k _ _ s) as [s1 st].
      destruct FX as [[-> [-> _]]|[-> [_ [_ [A [W E]]]]]]; [rewrite N.eqb_refl; cbn [fst]; split; [apply Back_refl|auto]|].
      change (N.eqb REDUCED INFEASIBLE) with false. cbn [fst].
      assert (E1 : nr s1 = nr s /\ nc s1 = nc s /\ rt s1 = rt s /\ cst s1 = cst s /\ mAT s1 = mAT s /\
        ct s1 = upd (ct s) k (tag_fixed (ct s k)) /\ log s1 = FIXED_COL k (fin (rhs s i) / a) (cst s k) (mAT s k) :: log s).
      { rewrite E. unfold set_col_to_fixed. sr. repeat split; reflexivity. }
      clear E. destruct E1 as (E1 & E2 & E3 & E4 & E5 & E6 & E7).
      cbv zeta. set (s' := record _ _).
      assert (F : nr s' = nr s /\ nc s' = nc s /\ rt s' = upd (rt s) i R_INACTIVE /\ cst s' = cst s /\ mAT s' = mAT s /\
        ct s' = upd (ct s) k (tag_fixed (ct s k)) /\
        log s' = DELETED_ROW i (cst s k / a) :: ADDED_ROWS i (mAT s k) a :: FIXED_COL k (fin (rhs s i) / a) (cst s k) (mAT s k) :: log s).
      { unfold s'. sr. rewrite E1, E2, E3, E4, E5, E6, E7. repeat split; reflexivity. }
      clearbody s'. destruct F as (F1 & F2 & F3 & F4 & F5 & F6 & F7). split.
      * eapply (ston_eq_Back s s' i k a); eauto.
        -- intros j N. rewrite F6, upd_other; auto.
        -- intros j N. rewrite F3, upd_other; auto.
        -- rewrite F3, upd_same. reflexivity.
      * intros _ j Hj Tj q c Hq. rewrite F2 in Hj. rewrite F5 in Hq. rewrite F6 in Tj. rewrite F3.
        destruct (Nat.eq_dec j k) as [->|N]; [rewrite upd_same in Tj; discriminate|].
        rewrite upd_other in Tj by auto. destruct (Nat.eq_dec q i) as [->|Nq]; [|rewrite upd_other by auto; eapply FC; eauto].
        exfalso. apply (w_agree s (inv_0 s H) i j c Hi Hj) in Hq; [|apply act_alive; auto; apply H|apply cact_alive; auto; apply H].
        rewrite EA in Hq. destruct Hq as [Hq|[]]. congruence.
    + split; [|discriminate].
      assert (HKA : In (k, a) (mA s i)) by (rewrite EA; left; reflexivity).
      assert (A1 : let s1 := fst (if t_rhs_inf (rt s i) then (s, UNCHANGED)
          else if Qgtb a 0 then update_ub k (fin (rhs s i) / a) i s
          else update_lb k (fin (rhs s i) / a) i s) in same_struct s s1 /\ Back s s1).
      { cbv zeta. destruct (t_rhs_inf _); [split; [apply same_refl|apply Back_refl]|].
        destruct (Qgtb a 0); split; eauto using update_ub_same, update_lb_same, Inv_col_in, update_ub_Back, update_lb_Back. }
      destruct (if t_rhs_inf (rt s i) then _ else _) as [s1 st1]. cbn [fst] in A1. destruct A1 as [A1 B1].
      destruct (N.eqb st1 INFEASIBLE); [auto|].
      assert (I1 : Inv s1) by (eapply same_Inv; eauto).
      assert (A2 : Back s1 (fst (if t_lhs_inf (rt s i) then (s1, UNCHANGED)
          else if Qgtb a 0 then update_lb k (fin (lhs s i) / a) i s1
          else update_ub k (fin (lhs s i) / a) i s1)) /\ nr (fst (if t_lhs_inf (rt s i) then (s1, UNCHANGED)
          else if Qgtb a 0 then update_lb k (fin (lhs s i) / a) i s1
          else update_ub k (fin (lhs s i) / a) i s1)) = nr s).
      { assert (HK1 : (k < nc s1)%nat) by (rewrite (ss_nc _ _ A1); auto).
        assert (TK1 : t_cinact (ct s1 k) = false) by (rewrite (ss_ct _ _ k A1); auto).
        assert (HI1 : (i < nr s1)%nat) by (rewrite (ss_nr _ _ A1); auto).
        assert (TI1 : t_inact (rt s1 i) = false) by (rewrite (ss_rt _ _ A1); auto).
        assert (HA1 : In (k, a) (mA s1 i)) by (rewrite (ss_A _ _ A1); auto).
        assert (CI : col_in s1 k) by (eapply col_in_same; [exact A1|apply Inv_col_in; auto]).
        rewrite <- (ss_nr _ _ A1).
        destruct (t_lhs_inf _); [split; [apply Back_refl|auto]|].
        destruct (Qgtb a 0); split; eauto using update_ub_Back, update_lb_Back; apply ss_nr; auto using update_ub_same, update_lb_same. }
      destruct (if t_lhs_inf (rt s i) then _ else _) as [s2 st2]. cbn [fst] in A2. destruct A2 as [B2 N2].
      destruct (N.eqb st2 INFEASIBLE); cbn [fst]; [eapply Back_trans; eauto|].
      eapply Back_trans; [exact B1|]. eapply Back_trans; [exact B2|]. apply set_row_inactive_Back. rewrite N2. auto.
Qed.
Lemma ston_pass_Back : forall b l s, Inv s -> w_sub s = [] -> (forall i, In i l -> In i (w_ston_rows s)) ->
  (b = true -> freshC s) -> Back s (fst (ston_pass b l s)).
Proof.
  intros b. induction l as [|i l IH]; intros s H WS HL FC; cbn [ston_pass].
  - apply Back_refl.
  - destruct (if b then _ else _) eqn:SK.
    + apply IH; auto. intros; apply HL; simpl; auto.
    + assert (T : t_inact (rt s i) = false /\ t_eq (rt s i) = b).
      { destruct b; apply orb_false_iff in SK; destruct SK as [S1 S2]; split; auto. apply negb_false_iff; auto. }
      destruct T as [T TE].
      pose proof (remove_stonrow_stp s i H (HL i (or_introl eq_refl)) T) as X.
      pose proof (remove_stonrow_Back s i H WS (HL i (or_introl eq_refl)) T ltac:(rewrite TE; auto)) as Y.
      destruct (remove_stonrow i s) as [s1 st]. destruct X as [S1 F1]. cbn [fst] in Y. cbv zeta in Y. destruct Y as [B1 FC1].
      destruct (N.eqb st INFEASIBLE); auto. destruct F1 as [F1 F2].
      eapply Back_trans; [exact B1|]. apply IH; [apply S1|congruence| |rewrite <- TE; auto].
      intros j Hj. rewrite F2. apply HL; simpl; auto.
Qed.
Lemma ston_rows_Back : forall s, Inv s -> quiet s -> Back s (fst (remove_ston_rows s)).
Proof.
  intros s H HQ. pose proof (q_sub s HQ) as WS. unfold remove_ston_rows.
  destruct (w_ston_rows s) as [|i0 l0] eqn:EL; [apply Back_refl|]. rewrite <- EL. set (l := w_ston_rows s).
  pose proof (ston_pass_stp true l s H (fun i X => X)) as P1.
  pose proof (ston_pass_Back true l s H WS (fun i X => X) (fun _ => quiet_freshC s H (q_rows s HQ))) as B1.
  destruct (ston_pass true l s) as [s1 st1]. destruct P1 as [S1 [F1 E1]]. cbn [fst] in B1.
  destruct (N.eqb_spec st1 INFEASIBLE); [auto|].
  assert (HL1 : forall i, In i l -> In i (w_ston_rows s1)) by (destruct F1 as [_ ->]; auto).
  assert (WS1 : w_sub s1 = []) by (destruct F1; congruence).
  pose proof (ston_pass_stp false l s1 (st_inv _ _ S1) HL1) as P2.
  pose proof (ston_pass_Back false l s1 (st_inv _ _ S1) WS1 HL1 ltac:(discriminate)) as B2.
  destruct (ston_pass false l s1) as [s2 st2]. destruct P2 as [S2 [F2 E2]]. cbn [fst] in B2.
  assert (B : Back s s2) by (eapply Back_trans; eauto).
  destruct (N.eqb_spec st2 INFEASIBLE); [auto|]. cbn [fst].
  set (s3 := set_w_ston_rows [] s2).
  assert (I3 : Inv s3) by (apply clear_ston_rows; apply S2).
  destruct (stp_dir s3 I3) as [S4 [F4 _]].
  eapply Back_trans; [exact B|]. eapply Back_trans; [apply (quietly_Back E0 s2 s3); [apply quietly_same; reflexivity|reflexivity]|].
  eapply Back_trans; [apply dir_Back; auto|]. apply finish_Back; [apply S4|].
  left. destruct F4 as [_ [-> _]]. unfold s3. sr. destruct F2; congruence.
Qed.

(** ** Dual fixing *)
Lemma hasb_cons : forall i j (a : Q) l, hasb i ((j, a) :: l) = (Nat.eqb j i || hasb i l)%bool.
Proof. reflexivity. Qed.
(** Rows removed with multiplier 0 *)
Lemma zero_rows : forall (l : row) s, exists new,
  let s' := foldS (fun s e => if t_inact (rt s (fst e)) then s else set_row_to_inactive (fst e) 0 s) l s in
  log s' = new ++ log s /\ Forall (fun r => exists i, r = DELETED_ROW i 0 /\ has i l) new /\
  nr s' = nr s /\ nc s' = nc s /\ cst s' = cst s /\ mAT s' = mAT s /\ ct s' = ct s /\
  (forall i, t_inact (rt s' i) = (hasb i l || t_inact (rt s i))%bool) /\
  forall t, exists t', sx t' = sx t /\ sz t' = sz t /\ s_err t' = s_err t /\
    (forall i, sy t' i = if (hasb i l && negb (t_inact (rt s i)))%bool then Some 0 else sy t i) /\
    forall rest, replay None (new ++ rest) t = replay None rest t'.
Proof.
  induction l as [|[j a] l IH]; intros s; cbv zeta; cbn [foldS fst].
  - exists []. repeat split; auto. intros t. exists t. repeat split; auto.
  - set (s1 := if t_inact (rt s j) then s else set_row_to_inactive j 0 s).
    destruct (IH s1) as [new X]. cbv zeta in X. set (s' := foldS _ l s1) in *. clearbody s'.
    destruct X as (A & F & B & C & D & E & G & R & H).
    assert (RR : forall i, t_inact (rt s' i) = (hasb i ((j, a) :: l) || t_inact (rt s i))%bool).
    { intros i. rewrite R. rewrite hasb_cons. unfold s1. destruct (Nat.eqb_spec j i) as [->|N]; cbn [orb].
      - destruct (t_inact (rt s i)) eqn:T; [rewrite T, !orb_true_r; reflexivity|].
        unfold set_row_to_inactive; sr. rewrite upd_same. rewrite orb_true_r. reflexivity.
      - destruct (t_inact (rt s j)); auto. unfold set_row_to_inactive; sr. rewrite upd_other by auto. auto. }
    destruct (t_inact (rt s j)) eqn:T.
    + unfold s1 in *. exists new. split; [auto|].
      split; [eapply Forall_impl; [|exact F]; intros q [p [-> [c Hc]]]; exists p; split; auto; exists c; right; auto|]. repeat split; auto.
      intros t. destruct (H t) as (t' & H1 & H2 & H3 & H4 & H5). exists t'. repeat split; auto.
      intros i. rewrite H4. rewrite hasb_cons. destruct (Nat.eqb_spec j i) as [->|N]; auto. rewrite T. rewrite !andb_false_r. auto.
    + unfold s1 in *. exists (new ++ [DELETED_ROW j 0]). split; [rewrite <- app_assoc; exact A|].
      split; [apply Forall_app; split; [eapply Forall_impl; [|exact F]; intros q [p [-> [c Hc]]]; exists p; split; auto; exists c; right; auto
        |constructor; auto; exists j; split; auto; exists a; left; auto]|]. repeat split; auto.
      intros t. destruct (H t) as (t' & H1 & H2 & H3 & H4 & H5). exists (put_y j 0 t').
      cbn [put_y sx sy sz s_err]. repeat split; auto.
      * intros i. rewrite hasb_cons. destruct (Nat.eqb_spec j i) as [->|N].
        -- rewrite upd_same, T. reflexivity.
        -- rewrite upd_other by auto. rewrite H4. unfold set_row_to_inactive; sr. rewrite upd_other by auto. reflexivity.
      * intros rest. rewrite <- app_assoc, H5. reflexivity.
Qed.
Lemma In_firstn : forall X (x : X) n l, In x (firstn n l) -> In x l.
Proof. intros X x n l H. rewrite <- (firstn_skipn n l). apply in_or_app. auto. Qed.
Definition RV (s : state) : Prop := forall i k a, (k < nc s)%nat -> csz s k <> (-1)%Z -> In (i, a) (mAT s k) ->
  In (k, a) (row_view s i).
Lemma quiet_RV : forall s, Inv s -> quiet s -> RV s.
Proof.
  intros s H Q i k a Hk C Hin. destruct (w_cin s (inv_0 s H) i k a Hk Hin) as [Hi _].
  pose proof (quiet_freshA s H Q k Hk C i a Hin) as T. rewrite view_full by auto.
  apply (w_agree s (inv_0 s H) i k a Hi Hk); auto. apply act_alive; auto. apply H.
Qed.
Lemma last_coeff_nz : forall k (r : row) d, (forall j a, In (j, a) r -> ~ a == 0) -> (~ d == 0 \/ exists a, In (k, a) r) ->
  ~ last_coeff k d r == 0.
Proof.
  induction r as [|[j a] r IH]; intros d N K; cbn [last_coeff].
  - destruct K as [K|[a []]]; auto.
  - apply IH; [intros; eapply N; right; eauto|]. destruct (Nat.eqb_spec j k) as [->|NE].
    + left. eapply N. left; eauto.
    + destruct K as [K|[b [E|Hb]]]; [auto|congruence|right; eauto].
Qed.
Lemma inf_fold_ok : forall (pos : bool) k t (rows : list (ext * row)) b c0, (forall e, In e rows -> is_fin (fst e) = true) ->
  (forall e, In e rows -> (forall j a, In (j, a) (snd e) -> ~ a == 0) /\ exists a, In (k, a) (snd e)) ->
  (is_fin b = true \/ rows <> nil /\ b = (if pos then NInf else PInf)) ->
  let '(ex, _, err) := fold_left (inf_row pos k t) rows (b, c0, false) in is_fin ex = true /\ err = false.
Proof.
  intros pos k t. induction rows as [|[sd r] rows IH]; intros b c0 FI HC HB.
  - cbn. destruct HB as [HB|[HB _]]; [auto|congruence].
  - cbn [fold_left].
    assert (NZ : ~ last_coeff k c0 r == 0).
    { destruct (HC (sd, r) (or_introl eq_refl)) as [N E]. apply last_coeff_nz; auto. }
    assert (FS : is_fin sd = true) by (apply (FI (sd, r)); left; auto).
    destruct sd as [|q|]; try discriminate.
    unfold inf_row at 2. cbn [ext_minus ext_div].
    assert (E0' : Qeqb (last_coeff k c0 r) 0 = false) by (destruct (Qeqb (last_coeff k c0 r) 0) eqn:QE; auto; exfalso; apply NZ; qb; auto).
    rewrite E0'. cbn [orb].
    apply IH; [intros; apply FI; right; auto|intros; apply HC; right; auto|].
    left. destruct HB as [HB|[_ ->]].
    + destruct b; try discriminate. destruct pos; match goal with |- context [if ?c then _ else _] => destruct c end; reflexivity.
    + destruct pos; reflexivity.
Qed.
Lemma inf_Back : forall pos k s, Inv s -> (k < nc s)%nat -> t_cinact (ct s k) = false -> cst s k == 0 -> RV s ->
  Back s (fix_col_to_inf pos k s).
Proof.
  intros pos k s H Hk Tk C0 V. unfold fix_col_to_inf. set (rec := FIXED_COL_INF pos k _ _).
  destruct (zero_rows (mAT s k) (record rec s)) as [new X]. cbv zeta in X.
  set (s2 := foldS _ (mAT s k) (record rec s)) in *. clearbody s2.
  destruct X as (A & F & B & C & D & E & G & R & HR).
  set (s3 := set_ub1 _ _ _).
  assert (Y : nr s3 = nr s /\ nc s3 = nc s /\ cst s3 = cst s /\ rt s3 = rt s2 /\ (forall j, j <> k -> mAT s3 j = mAT s j) /\
    (forall j, j <> k -> ct s3 j = ct s j) /\ log s3 = new ++ rec :: log s).
  { unfold s3. sr. rewrite B, C, D, E, G, A. sr. repeat split; auto; intros j N; rewrite upd_other; auto. }
  clearbody s3. destruct Y as (Y1 & Y2 & Y3 & Y4 & Y5 & Y6 & Y7).
  assert (RT3 : forall i, t_inact (rt s3 i) = (hasb i (mAT s k) || t_inact (rt s i))%bool) by (intros i; rewrite Y4, R; sr; auto).
  clear s2 A B C D E G R Y4.
  exists (new ++ [rec]). split; [rewrite Y7, <- app_assoc; reflexivity|].
  split. { split; [split; [auto|split; [auto|]]|].
    - apply Forall_app. split.
      + eapply Forall_impl; [|exact F]. intros q [p [-> [c Hc]]]. cbn. apply (w_cin s (inv_0 s H) p k c Hk Hc).
      + constructor; [|constructor]. split; [auto|]. intros [e r] He. unfold inf_rows in He. apply in_map_iff in He.
        destruct He as [[p c] [He Hp]]. injection He as <- <-. intros q d Hq. unfold row_view in Hq. apply In_firstn in Hq.
        apply (w_rin s (inv_0 s H) p q d); auto. apply (w_cin s (inv_0 s H) p k c Hk Hp).
    - intros l Gl. clear -F Gl. induction F as [|q new [p [-> _]] F IH]; [exact Gl|exact IH]. }
  intros t [X Z Y K].
  destruct (HR t) as (t1 & T1 & T2 & T3 & T4 & T5). clear HR.
  exists (retrieve_one rec t1). split; [|split].
  - assert (SO : sy (retrieve_one rec t1) = sy t1 /\ (exists v, sx (retrieve_one rec t1) = upd (sx t1) k (Some v)) /\
       sz (retrieve_one rec t1) = upd (sz t1) k (Some 0)).
    { unfold rec. cbn [retrieve_one]. unfold retrieve_fix_col_inf.
      destruct (fold_left (inf_row pos k t1) (inf_rows s k) _) as [[ex c] er].
      cbn. eauto. }
    destruct SO as (S1 & (v & S2) & S3). constructor.
    + intros j Hj Tj. rewrite S2, T1. destruct (Nat.eq_dec j k) as [->|N]; [rewrite upd_same; auto|rewrite upd_other by auto].
      apply X; [rewrite Y2; auto|rewrite Y6; auto].
    + intros j Hj Tj. rewrite S3, T2. destruct (Nat.eq_dec j k) as [->|N]; [rewrite upd_same; auto|rewrite upd_other by auto].
      apply Z; [rewrite Y2; auto|rewrite Y6; auto].
    + intros i Hi Ti. rewrite S1, T4. sr. rewrite Ti. cbn [negb]. rewrite andb_true_r.
      destruct (hasb i (mAT s k)) eqn:HB; auto. apply Y; [rewrite Y1; auto|rewrite RT3, HB; auto].
    + intros e0 j Hj Tj. specialize (K e0). rewrite S1, S3, T2. destruct (Nat.eq_dec j k) as [->|N].
      * rewrite upd_same. cbn [val]. rewrite C0.
        assert (E : ysum (sy t1) (acol s k) == 0); [|rewrite E; lra].
        assert (G : forall l, (forall i a, In (i, a) l -> sy t1 i = Some 0) -> ysum (sy t1) l == 0).
        { induction l as [|[i a] l IHl]; intros HL; cbn [M_Post.wsum]; [lra|].
          rewrite IHl by (intros; eapply HL; right; eauto). rewrite (HL i a) by (left; auto). cbn. lra. }
        apply G. intros i a Hi. apply filter_In in Hi. destruct Hi as [Hi Ti]. cbn [fst] in Ti. rewrite T4. sr. rewrite Ti.
        assert (HB : hasb i (mAT s k) = true) by (apply hasb_has; exists a; auto). rewrite HB. reflexivity.
      * rewrite upd_other by auto. rewrite K; [|rewrite Y2; auto|rewrite Y6; auto]. rewrite Y3.
        assert (E : acol s3 j = filter (fun e => negb (hasb (fst e) (mAT s k))) (acol s j)).
        { unfold acol. rewrite Y5 by auto. rewrite filter_filter. apply filter_ext. intros e. rewrite RT3, negb_orb. reflexivity. }
        rewrite E.
        rewrite <- (ysum_filter0 (sy t1) (fun i => negb (hasb i (mAT s k))) (acol s j)).
        { rewrite (ysum_ext (sy t) (sy t1)); [lra|]. intros i a Hi. apply filter_In in Hi. destruct Hi as [_ Hi]. cbn [fst] in Hi.
          apply negb_true_iff in Hi. rewrite T4, Hi. cbn. lra. }
        intros i a Hi HB. apply negb_false_iff in HB. apply filter_In in Hi. destruct Hi as [_ Ti]. cbn [fst] in Ti.
        rewrite T4, HB. sr. rewrite Ti. cbn. lra.
  - intros FS. apply Forall_app in FS. destruct FS as [_ FS]. inversion FS as [|? ? SF _]; subst.
    unfold rec in SF |- *. cbn [soft] in SF. destruct SF as [HB FI]. cbn [retrieve_one]. unfold retrieve_fix_col_inf.
    pose proof (inf_fold_ok pos k t1 (inf_rows s k) (if pos then lb s k else ub s k) 0 FI) as P.
    destruct (fold_left (inf_row pos k t1) (inf_rows s k) _) as [[ex c] er].
    cbn [put_z put_x err_if s_err]. rewrite T3.
    destruct P as [P1 P2].
    { intros [sd r] He. unfold inf_rows in He. apply in_map_iff in He. destruct He as [[i a] [EE He]]. injection EE as _ <-.
      cbn [snd fst]. destruct (w_cin s (inv_0 s H) i k a Hk He) as [Hi _]. split.
      - intros j b Hb. unfold row_view in Hb. apply In_firstn in Hb. apply (w_rin s (inv_0 s H) i j b Hi Hb).
      - exists a. apply V; auto. apply cact_alive; auto; apply H. }
    { exact HB. }
    rewrite P1, P2. apply orb_false_r.
  - intros rest. rewrite <- app_assoc. rewrite T5. reflexivity.
Qed.

Lemma keep_RV : forall s s', nc s' = nc s -> mAT s' = mAT s -> mA s' = mA s -> rsz s' = rsz s -> csz s' = csz s -> RV s -> RV s'.
Proof. intros s s' A B C D E V i k a. rewrite A, B, E. unfold row_view. rewrite C, D. apply V. Qed.
Lemma dual_fix_loop_Back : forall l s ti st, Inv s -> freshA s -> RV s -> NoDup l -> (forall k, In k l -> (k < nc s)%nat) ->
  NoDup (map snd ti) ->
  (forall e, In e ti -> (snd e < nc s)%nat /\ t_cinact (ct s (snd e)) = false /\ cst s (snd e) == 0 /\ ~ In (snd e) l) ->
  let '(s', ti', _) := dual_fix_loop l s ti st in
  Back s s' /\ RV s' /\ NoDup (map snd ti') /\
  (forall e, In e ti' -> (snd e < nc s')%nat /\ t_cinact (ct s' (snd e)) = false /\ cst s' (snd e) == 0).
Proof.
  induction l as [|k l IH]; intros s ti st H FA V ND HL NT HT; cbn [dual_fix_loop].
  - split; [apply Back_refl|]. split; [auto|]. split; [auto|]. intros e He. destruct (HT e He) as [A [B [C _]]]. auto.
  - inversion ND; subst.
    assert (HL' : forall j, In j l -> (j < nc s)%nat) by (intros; apply HL; simpl; auto).
    assert (Hk : (k < nc s)%nat) by (apply HL; simpl; auto).
    destruct (t_cinact (ct s k)) eqn:TK; cbn [orb].
    { apply IH; auto. intros e He. destruct (HT e He) as [A [B [C D]]]. simpl in D. tauto. }
    destruct (_ && _).
    { apply IH; auto. intros e He. destruct (HT e He) as [A [B [C D]]]. simpl in D. tauto. }
    assert (X : let '(s', ti', _) := simple_dual_fix_col k s ti in
                stp s s' /\ Back s s' /\ freshA s' /\ RV s' /\ NoDup (map snd ti') /\
                (forall e, In e ti' -> (snd e < nc s)%nat /\ t_cinact (ct s' (snd e)) = false /\ cst s' (snd e) == 0 /\ ~ In (snd e) l)).
    { assert (T0 : forall e, In e ti -> (snd e < nc s)%nat /\ t_cinact (ct s (snd e)) = false /\ cst s (snd e) == 0 /\ ~ In (snd e) l).
      { intros e He. destruct (HT e He) as [A [B [C D]]]. simpl in D. tauto. }
      assert (TK' : forall e, In e ti -> snd e <> k).
      { intros e He E. destruct (HT e He) as [_ [_ [_ C]]]. apply C. left; auto. }
      assert (F : forall v, let s' := fst (fix_col k v (cst s k) s) in stp s s' /\ Back s s' /\ freshA s' /\ RV s' /\
        NoDup (map snd ti) /\ (forall e, In e ti -> (snd e < nc s)%nat /\
          t_cinact (ct s' (snd e)) = false /\ cst s' (snd e) == 0 /\ ~ In (snd e) l)).
      { intros v. cbv zeta. destruct (fix_col_keep s k v (cst s k)) as (K1 & K2 & K3 & K4 & K5 & K6 & K7).
        split; [apply stp_fix_col; auto|]. split; [apply fix_col_Back; auto; [apply FA; auto; apply cact_alive; auto; apply H|lra]|].
        split; [apply fix_col_freshA; auto|].
        split; [apply (keep_RV s); auto; apply stp_nc; apply stp_fix_col; auto|]. split; [auto|].
        intros e He. rewrite K7 by auto. rewrite K6. auto. }
      assert (P : forall b, cst s k == 0 -> stp s s /\ Back s s /\ freshA s /\ RV s /\ NoDup (map snd (ti ++ [(b, k)])) /\
        (forall e, In e (ti ++ [(b, k)]) -> (snd e < nc s)%nat /\ t_cinact (ct s (snd e)) = false /\ cst s (snd e) == 0 /\ ~ In (snd e) l)).
      { intros b C0. split; [apply stp_refl; auto|]. split; [apply Back_refl|]. split; [auto|]. split; [auto|]. split.
        - rewrite map_app. simpl. apply NoDup_app_one; auto. intros X. apply in_map_iff in X.
          destruct X as [e [E He]]. apply (TK' e He E).
        - intros e He. apply in_app_or in He. destruct He as [He|[<-|[]]]; auto. }
      pose proof (conj (stp_refl s H) (conj (Back_refl E0 s) (conj FA (conj V (conj NT T0))))) as U.
      unfold simple_dual_fix_col.
      destruct (Qgtb (cst s k) 0 && _); [destruct (t_lb_inf _); [exact U|apply F]|].
      destruct (Qltb (cst s k) 0 && _); [destruct (t_ub_inf _); [exact U|apply F]|].
      destruct (Qeqb (cst s k) 0) eqn:QC; [|exact U]. qb.
      destruct (Z.eqb (dns s k) 0); [destruct (t_lb_inf _); [apply P; auto|apply F]|].
      destruct (Z.eqb (ups s k) 0); [destruct (t_ub_inf _); [apply P; auto|apply F]|exact U]. }
    destruct (simple_dual_fix_col k s ti) as [[s1 ti1] st1]. destruct X as [S1 [B1 [FA1 [V1 [N1 T1]]]]].
    assert (Y := IH s1 ti1 (N.lor st st1) (st_inv _ _ S1) FA1 V1 H3).
    rewrite (stp_nc _ _ S1) in Y. specialize (Y HL' N1 T1).
    destruct (dual_fix_loop l s1 ti1 _) as [[s2 ti2] st2]. destruct Y as (Y1 & Y2 & Y3 & Y4).
    split; [eapply Back_trans; eauto|auto].
Qed.
Lemma fix_col_to_inf_keep : forall pos k s, Inv s -> (k < nc s)%nat -> RV s ->
  let s' := fix_col_to_inf pos k s in RV s' /\ cst s' = cst s /\ (forall j, j <> k -> ct s' j = ct s j).
Proof.
  intros pos k s H Hk V. cbv zeta. split; [|split; [|intros; apply fix_col_to_inf_ct; auto]].
  - unfold fix_col_to_inf. set (rec := FIXED_COL_INF pos k _ _). set (s1 := record rec s).
    assert (I1 : Inv s1) by (eapply same_Inv; [apply same_record|auto]).
    destruct (inf_rows_fold (mAT s k) s1 I1 (inf_hyp s k H Hk)) as [S2 [_ [_ [G1 [G2 [G3 [G4 G5]]]]]]].
    pose proof (stp_nc _ _ S2) as NC.
    set (s2 := foldS _ (mAT s k) s1) in *. clearbody s2. intros i j a. sr. unfold row_view. sr. rewrite NC, G1, G2, G3, G4.
    unfold s1. sr. intros Hj Cj Hin. destruct (Nat.eq_dec j k) as [->|N]; [rewrite upd_same in Cj; congruence|].
    rewrite upd_other in Hin, Cj by auto. apply (V i j a); auto.
  - unfold fix_col_to_inf. set (rec := FIXED_COL_INF pos k _ _). sr.
    destruct (zero_rows (mAT s k) (record rec s)) as [new X]. cbv zeta in X.
    set (s2 := foldS _ (mAT s k) (record rec s)) in *. clearbody s2. destruct X as (_ & _ & _ & _ & X & _). exact X.
Qed.
Lemma inf_steps_Back : forall l s, Inv s -> RV s -> NoDup (map snd l) ->
  (forall e, In e l -> (snd e < nc s)%nat /\ t_cinact (ct s (snd e)) = false /\ cst s (snd e) == 0) ->
  Back s (foldS inf_step l s).
Proof.
  induction l as [|[b k] l IH]; intros s H V ND HL; cbn [foldS]; [apply Back_refl|].
  cbn [map snd] in ND. inversion ND as [|? ? NI ND']; subst.
  destruct (HL (b, k) (or_introl eq_refl)) as (Hk & Tk & Ck). cbn [snd] in *.
  assert (X : stp s (inf_step s (b, k)) /\ Back s (inf_step s (b, k)) /\ RV (inf_step s (b, k)) /\
     cst (inf_step s (b, k)) = cst s /\ (forall j, j <> k -> ct (inf_step s (b, k)) j = ct s j)).
  { assert (F : forall pos, stp s (fix_col_to_inf pos k s) /\ Back s (fix_col_to_inf pos k s) /\ RV (fix_col_to_inf pos k s) /\
       cst (fix_col_to_inf pos k s) = cst s /\ (forall j, j <> k -> ct (fix_col_to_inf pos k s) j = ct s j)).
    { intros pos. split; [apply fix_col_to_inf_stp; auto|]. split; [apply inf_Back; auto|]. apply fix_col_to_inf_keep; auto. }
    unfold inf_step. destruct (Nat.eqb k 0); [destruct (Z.eqb _ _); [apply F|destruct (Z.eqb _ _); [apply F|]]|apply F].
    split; [apply stp_refl; auto|]. split; [apply Back_refl|auto]. }
  destruct X as (S1 & B1 & V1 & C1 & K1). eapply Back_trans; [exact B1|]. apply IH; auto; [apply S1|].
  intros e He. rewrite (stp_nc _ _ S1), C1, K1; [apply HL; right; auto|].
  intros E. apply NI. rewrite <- E. apply in_map; auto.
Qed.
Lemma dual_fix_Back : forall s, Inv s -> quiet s -> Back s (fst (simple_dual_fix s)).
Proof.
  intros s H Q. unfold simple_dual_fix.
  assert (HL : forall k, In k (seq 0 (nc s)) -> (k < nc s)%nat) by (intros k Hk; apply in_seq in Hk; lia).
  pose proof (dual_fix_loop_stp (seq 0 (nc s)) s [] UNCHANGED H HL) as X.
  pose proof (dual_fix_loop_Back (seq 0 (nc s)) s [] UNCHANGED H (quiet_freshA s H Q) (quiet_RV s H Q) (seq_NoDup _ _) HL (NoDup_nil _)) as Y.
  destruct (dual_fix_loop (seq 0 (nc s)) s [] UNCHANGED) as [[s1 ti] st].
  destruct X as [S1 [F1 T1]]; [intros e []|]. destruct Y as (B1 & V1 & N1 & T2); [intros e []|]. cbn [fst].
  pose proof (inf_steps_Back ti s1 (st_inv _ _ S1) V1 N1 T2) as B2.
  destruct (inf_steps_stp ti s1 (st_inv _ _ S1)) as [S2 F2]; [apply T2|].
  set (s2 := foldS inf_step ti s1) in *.
  destruct (stp_dir s2 (st_inv _ _ S2)) as [S3 [F3 W3]].
  eapply Back_trans; [exact B1|]. eapply Back_trans; [exact B2|].
  eapply Back_trans; [apply dir_Back; apply S2|]. apply finish_Back; [apply S3|].
  left. pose proof (q_sub s Q). destruct F1 as [f1 _], F2 as [_ [f2 _]], F3 as [_ [f3 _]]. congruence.
Qed.
End Backs.
