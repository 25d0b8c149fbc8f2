(** Meaning of the simple reductions. *)
From Coq Require Import NArith Lqa.
From Verif Require Import M_Num S_LP M_Settings M_Driver S_Driver M_State M_Act M_Core M_Simple
  M_StonCols M_Dton M_Parallel M_Propagate M_Init M_Post M_Run S_Run S_Struct S_Sem
  L_State L_Struct L_Struct2 L_Struct3 L_Struct4 L_Struct5 L_Struct6 L_Struct11 L_Sem L_Sem2 L_Sem3.
Open Scope Q_scope.

Lemma tol_pos : 0 < FEAS_TOL. Proof. reflexivity. Qed.

(** ** Going back over the deletion of columns *)
Definition unpin (t : state) (x : nat -> Q) (k : nat) : Q :=
  if memb k (w_fixed t) then fin (ub t k) else if memb k (w_sub t) then 0 else x k.
Lemma unpin_pinned : forall t x, Inv t -> pend_ok t -> pinned t (unpin t x).
Proof.
  intros t x H PO. split; intros k Hk; unfold unpin.
  - rewrite (proj2 (memb_In k _) Hk). lra.
  - destruct (memb k (w_fixed t)) eqn:M.
    + apply memb_In in M. destruct (po_fx t PO k M) as [_ A]. destruct (l_sub t (inv_L t H) k Hk). congruence.
    + rewrite (proj2 (memb_In k _) Hk). lra.
Qed.
Lemma unpin_active : forall t x k, Inv t -> t_cinact (ct t k) = false -> unpin t x k == x k.
Proof.
  intros t x k H T. unfold unpin. apply orb_false_iff in T. destruct T as [T1 T2].
  destruct (memb k (w_fixed t)) eqn:M.
  - apply memb_In in M. destruct (l_fixed t (inv_L t H) k M). congruence.
  - destruct (memb k (w_sub t)) eqn:M'; [|lra].
    apply memb_In in M'. destruct (l_sub t (inv_L t H) k M'). congruence.
Qed.

(** Only the columns still there matter between explorers. *)
Lemma sat_agree : forall r c s x y, Inv s -> w_fixed s = [] -> w_sub s = [] ->
  (forall k, In k (live_cols s) -> x k == y k) -> sat r c s x -> sat r c s y.
Proof.
  intros r c s x y H W1 W2 E [A [B _]]. split; [|split].
  - intros i Hi T. eapply within_ext; [|apply A; auto]. apply dot_ext. intros k a Hin.
    apply E. apply live_cols_in. split.
    + apply (w_rin s (inv_0 s H) i k a Hi Hin).
    + eapply (inv_R s H); eauto.
  - intros k Hk T. eapply within_ext; [|apply B; auto]. apply E. apply live_cols_in.
    split; auto. apply quiet_col; auto.
  - split; rewrite ?W1, ?W2; simpl; tauto.
Qed.
Lemma obj_agree : forall s x y, (forall k, In k (live_cols s) -> x k == y k) -> obj s x == obj s y.
Proof. intros. unfold obj. apply Qplus_inj_l. apply sumQ_ext. intros k Hk. rewrite (H k Hk). lra. Qed.

Lemma finish_back : forall r c t x, Inv t -> tags_right t -> pend_ok t ->
  w_sub t = [] \/ w_ston_rows t = [] -> sat r c (finish t) x ->
  exists y, (forall k, In k (live_cols (finish t)) -> y k == x k) /\ sat r c t y /\
            obj t y == obj (finish t) x.
Proof.
  intros r c t x H TG PO PRE S. exists (unpin t x).
  pose proof (finish_cols t H PRE) as FC. cbv zeta in FC. fold (finish t) in FC.
  destruct FC as [I' [_ [_ [_ [WF [WS _]]]]]].
  destruct (finish_sem t H TG PO PRE) as [F1 [F2 [_ [_ [_ [F3 _]]]]]].
  assert (AG : forall k, In k (live_cols (finish t)) -> unpin t x k == x k).
  { intros k Hk. apply F3 in Hk. apply unpin_active; tauto. }
  pose proof (unpin_pinned t x H PO) as PN.
  split; auto. split.
  - apply F1. split; auto. eapply sat_agree; [exact I'|exact WF|exact WS| |exact S].
    intros k Hk. symmetry. auto.
  - rewrite <- (F2 _ PN). apply obj_agree. auto.
Qed.

(** From the steps before the deletions to the explorer *)
Lemma semstep_lp : forall (C : (nat -> Q) -> Prop) r c s t, Ok s -> Inv t -> semstep C r c s t ->
  w_sub t = [] \/ w_ston_rows t = [] -> Ok (finish t) ->
  (forall i, 0 <= r i) -> (forall k, 0 <= c k) ->
  tags_right (finish t) /\ empty_act (finish t) /\
  carries_over C (reduced_lp s) (reduced_lp (finish t)) /\
  lifts_back r c (reduced_lp s) (reduced_lp (finish t)).
Proof.
  intros C r c s t OK H [S1 S2 S6 S3 S4 S5] PRE OK' HR HC.
  destruct (finish_sem t H S1 S2 PRE) as [F1 [F2 [F4 [_ [_ [F3 F5]]]]]].
  split; [exact F4|]. split; [auto|]. split.
  - intros x Fx Cx. apply sat_feasible in Fx; auto. apply S3 in Fx; auto.
    pose proof (sat_pinned _ _ _ _ Fx) as PN. apply F1 in Fx. destruct Fx as [Fx _].
    split; [apply sat_feasible; auto|]. rewrite <- !obj_reduced. rewrite (F2 x PN). apply S5.
  - intros x' Fx. apply sat_feasible in Fx; auto.
    assert (FX : sat r c (finish t) x') by (eapply sat_weaken; [| |exact Fx]; auto).
    destruct (finish_back r c t x' H S1 S2 PRE FX) as [y [A [B D]]].
    exists y. split; [exact A|]. split.
    + apply sat_reduced; auto.
    + rewrite <- !obj_reduced. rewrite <- D. symmetry. apply S5.
Qed.

(** ** Variables with close bounds *)
Definition close_cond (s : state) (x : nat -> Q) : Prop :=
  forall k, (k < nc s)%nat -> csz s k <> (-1)%Z -> is_fin (lb s k) = true -> is_fin (ub s k) = true ->
    IS_EQUAL_FEAS_TOL (fin (lb s k)) (fin (ub s k)) = true -> x k == fin (lb s k).
Definition tol_cols : nat -> Q := fun _ => FEAS_TOL.

Lemma close_loop : forall s l t, Ok s -> tags_right s -> NoDup l -> Inv t ->
  (forall k, In k l -> (k < nc s)%nat /\ lb t k = lb s k /\ ub t k = ub s k /\ ct t k = ct s k) ->
  csz t = csz s -> nc t = nc s -> w_sub t = w_sub s ->
  semstep (close_cond s) zero tol_cols s t ->
  let '(t', st) := for_until INFEASIBLE close_bounds_col l t in
  (st = INFEASIBLE -> forall x, ~ sat zero zero s x) /\
  (st = UNCHANGED -> Inv t' /\ w_sub t' = w_sub s /\ semstep (close_cond s) zero tol_cols s t').
Proof.
  intros s l. induction l as [|k l IH]; intros t OK TG ND H HL EZ EN EW SS; cbn [for_until].
  - split; [discriminate|auto].
  - inversion ND; subst. destruct (HL k (or_introl eq_refl)) as [Hk [EL [EU EC]]].
    assert (HL' : forall j, In j l -> (j < nc s)%nat /\ lb t j = lb s j /\ ub t j = ub s j /\ ct t j = ct s j)
      by (intros; apply HL; simpl; auto).
    unfold close_bounds_col at 1. rewrite EZ, EL, EU, EC.
    destruct (Z.ltb (csz s k) 0) eqn:CZ; cbn [orb].
    { cbn. apply IH; auto. }
    assert (CK : csz s k <> (-1)%Z) by (apply Z.ltb_ge in CZ; lia).
    assert (TK : t_cinact (ct s k) = false).
    { apply quiet_col; auto; apply OK. }
    pose proof (tr_lb s TG k Hk TK) as L0. pose proof (tr_ub s TG k Hk TK) as U0.
    destruct (t_lb_inf (ct s k)) eqn:TL; cbn [orb]; [cbn; apply IH; auto|].
    destruct (t_ub_inf (ct s k)) eqn:TU; [cbn; apply IH; auto|].
    destruct (IS_EQUAL_FEAS_TOL (fin (lb s k)) (fin (ub s k))) eqn:EQ.
    + pose proof (fix_col_cases t k (fin (lb s k)) (cst t k)) as FC.
      destruct (fix_col k (fin (lb s k)) (cst t k) t) as [t1 st1] eqn:EF.
      destruct FC as [[-> [-> _]]|[-> [_ [_ [A [W E1]]]]]]; cbn [fst N.eqb UNCHANGED INFEASIBLE].
      * apply IH; auto.
      * assert (S1 : semstep (close_cond s) zero tol_cols t t1).
        { eapply fix_col_sem; [| | | | | |exact EF| |].
          - rewrite EN; auto.
          - rewrite EC; auto.
          - apply SS.
          - apply SS.
          - apply SS.
          - auto.
          - intros x Cx _. apply Cx; auto.
          - left. unfold tol_cols. lra. }
        assert (NK : forall j, In j l -> j <> k) by (intros j Hj ->; contradiction).
        apply IH; auto.
        -- pose proof (stp_fix_col t k (fin (lb s k)) (cst t k) H) as SP. rewrite EF in SP.
           apply SP. rewrite EN; auto.
        -- intros j Hj. destruct (HL' j Hj) as [X1 [X2 [X3 X4]]]. pose proof (NK j Hj).
           split; [exact X1|]. rewrite E1. unfold set_col_to_fixed. sr. rewrite !upd_other by auto. auto.
        -- rewrite E1. unfold set_col_to_fixed. sr. exact EZ.
        -- rewrite E1. unfold set_col_to_fixed. sr. exact EN.
        -- rewrite E1. unfold set_col_to_fixed. sr. exact EW.
        -- eapply semstep_trans; eauto.
    + destruct (Qgtb (fin (lb s k)) (fin (ub s k) + FEAS_TOL)) eqn:GT.
      * rewrite N.eqb_refl. split; [|discriminate]. intros _ x [_ [S2 _]].
        destruct (S2 k Hk TK) as [X1 X2]. apply ext_le_fin in X1; auto. apply le_ext_fin in X2; auto.
        unfold exactly in *. qb. pose proof tol_pos. lra.
      * cbn [N.eqb UNCHANGED INFEASIBLE]. apply IH; auto.
Qed.

Lemma close_bounds_sem : forall s s' st, Ok s -> tags_right s -> empty_act s ->
  remove_variables_with_close_bounds s = (s', st) ->
  (st = INFEASIBLE -> infeasible (reduced_lp s)) /\
  (st = UNCHANGED -> Ok s' /\ tags_right s' /\ empty_act s' /\
     carries_over (close_cond s) (reduced_lp s) (reduced_lp s') /\
     lifts_back exactly tol_cols (reduced_lp s) (reduced_lp s')).
Proof.
  intros s s' st OK TG AE E. pose proof OK as OK0. destruct OK as [H [Q1 Q2 Q3] N].
  pose proof (close_bounds_spec s H Q3) as SP. rewrite E in SP.
  destruct SP as [I' [M' [W' [R' SP]]]].
  assert (OK' : st = UNCHANGED -> Ok s').
  { intros ->. destruct SP as [SP|[_ [F' N']]]; [discriminate|]. constructor; auto.
    constructor; auto. congruence. }
  unfold remove_variables_with_close_bounds in E.
  pose proof (close_loop s (seq 0 (nc s)) s OK0 TG (seq_NoDup _ _) H) as X.
  destruct (for_until INFEASIBLE close_bounds_col (seq 0 (nc s)) s) as [t st1] eqn:EL.
  destruct X as [XI XU]; auto.
  { intros k Hk. apply in_seq in Hk. repeat split; auto. lia. }
  { apply semstep_refl; auto. apply pend_nil; auto. }
  pose proof (for_until_st INFEASIBLE close_bounds_col (seq 0 (nc s)) s) as RG. rewrite EL in RG.
  cbn [snd] in RG. destruct RG as [->| ->].
  - cbn [N.eqb UNCHANGED INFEASIBLE] in E. injection E as <- <-. split; [discriminate|]. intros _.
    destruct (XU eq_refl) as [It [Wt St]]. specialize (OK' eq_refl). split; auto.
    apply (semstep_lp (close_cond s) zero tol_cols s t); auto.
    + left. congruence.
    + intros; unfold exactly; lra.
    + intros; unfold tol_cols. pose proof tol_pos. lra.
  - rewrite N.eqb_refl in E. injection E as <- <-. split; [|discriminate]. intros _ x Fx.
    apply (XI eq_refl x). apply sat_feasible; auto.
Qed.

(** An explorer that deletes no column *)
Lemma semstep_lp0 : forall (C : (nat -> Q) -> Prop) r c s t, Ok s -> Ok t -> semstep C r c s t ->
  (forall i, 0 <= r i) -> (forall k, 0 <= c k) ->
  carries_over C (reduced_lp s) (reduced_lp t) /\ lifts_back r c (reduced_lp s) (reduced_lp t).
Proof.
  intros C r c s t OK OK' [S1 S2 S6 S3 S4 S5] HR HC. split.
  - intros x Fx Cx. apply sat_feasible in Fx; auto. split; [apply sat_feasible; auto|].
    rewrite <- !obj_reduced. apply S5.
  - intros x' Fx. apply sat_feasible in Fx; auto. exists x'. split; [intros k _; lra|]. split.
    + apply sat_reduced; auto. apply S4. eapply sat_weaken; [| |exact Fx]; auto.
    + rewrite <- !obj_reduced. symmetry. apply S5.
Qed.

(** ** Empty rows *)
Definition tol_rows : nat -> Q := fun _ => FEAS_TOL.
Definition er (t : state) : state := set_w_empty_rows [] t.

Lemma empty_rows_loop : forall s l t, Ok s -> tags_right s -> empty_act s ->
  (forall i, In i l -> In i (w_empty_rows s)) ->
  lhs t = lhs s -> rhs t = rhs s -> mA t = mA s -> nr t = nr s ->
  (forall i, t_lhs_inf (rt t i) = t_lhs_inf (rt s i) /\ t_rhs_inf (rt t i) = t_rhs_inf (rt s i)) ->
  semstep anything tol_rows zero s (er t) ->
  let '(t', st) := for_until INFEASIBLE remove_empty_row l t in
  (st = INFEASIBLE -> forall x, ~ sat zero zero s x) /\
  (st = UNCHANGED -> semstep anything tol_rows zero s (er t')).
Proof.
  intros s l. induction l as [|i l IH]; intros t OK TG AE HL EL ER EM EN ET SS; cbn [for_until].
  - split; [discriminate|auto].
  - assert (HI := HL i (or_introl eq_refl)).
    destruct (l_empty_rows s (inv_L s (ok_inv s OK)) i HI) as [Hi [EA _]].
    pose proof (AE i HI) as TI.
    pose proof (tr_lhs s TG i Hi TI) as L0. pose proof (tr_rhs s TG i Hi TI) as R0.
    unfold remove_empty_row at 1. rewrite EL, ER. destruct (ET i) as [-> ->].
    destruct (negb (t_lhs_inf (rt s i)) && Qgeb (fin (lhs s i)) FEAS_TOL || negb (t_rhs_inf (rt s i)) && Qleb (fin (rhs s i)) (- FEAS_TOL)) eqn:V.
    + rewrite N.eqb_refl. split; [|discriminate]. intros _ x [S1 _].
      destruct (S1 i Hi TI) as [X1 X2]. rewrite EA in X1, X2. simpl in X1, X2.
      pose proof tol_pos. unfold exactly in *.
      apply orb_true_iff in V. destruct V as [V|V]; apply andb_true_iff in V; destruct V as [V1 V2];
        apply negb_true_iff in V1; qb; rewrite V1 in *.
      * apply ext_le_fin in X1; auto. lra.
      * apply le_ext_fin in X2; auto. lra.
    + cbn [N.eqb UNCHANGED INFEASIBLE].
      apply orb_false_iff in V. destruct V as [V1 V2].
      assert (W : within FEAS_TOL (lhs s i) 0 (rhs s i)).
      { split.
        - destruct (t_lhs_inf (rt s i)); [rewrite L0; exact I|]. apply ext_le_fin; auto.
          cbn in V1. qb. lra.
        - destruct (t_rhs_inf (rt s i)); [rewrite R0; exact I|]. apply le_ext_fin; auto.
          cbn in V2. qb. lra. }
      apply IH; auto.
      * intros; apply HL; simpl; auto.
      * sr. intros j. updg; auto. unfold tag_inactive. cbn. auto.
      * eapply semstep_trans; [exact SS|]. destruct SS as [B1 B2 B3 B4 B5 B6].
        destruct B1 as [G1 G2 G3 G4 G5]. destruct B2 as [P1 P2].
        unfold er in *. constructor.
        -- constructor; sra; intros j Hj; updg; try discriminate;
             first [apply G1|apply G2|apply G3|apply G4|apply G5]; auto.
        -- constructor; sra; auto.
        -- intros j. sr. simpl. tauto.
        -- intros x _ [S1 [S2 S3]]. sra. split; [|split]; sr; auto.
           intros j Hj. updg; [discriminate|]. auto.
        -- intros x [S1 [S2 S3]]. sra. split; [|split]; sr; auto.
           intros j Hj TJ. destruct (Nat.eq_dec j i) as [->|D].
           ++ rewrite EL, ER, EM, EA. exact W.
           ++ specialize (S1 j Hj). rewrite upd_other in S1 by auto. auto.
        -- intros x. unfold obj, live_cols. sr. lra.
Qed.

Lemma empty_rows_sem : forall s s' st, Ok s -> tags_right s -> empty_act s ->
  remove_empty_rows s = (s', st) ->
  (st = INFEASIBLE -> infeasible (reduced_lp s)) /\
  (st = UNCHANGED -> Ok s' /\ tags_right s' /\ empty_act s' /\
     carries_over anything (reduced_lp s) (reduced_lp s') /\
     lifts_back tol_rows exactly (reduced_lp s) (reduced_lp s')).
Proof.
  intros s s' st OK TG AE E. pose proof OK as OK0. destruct OK as [H [Q1 Q2 Q3] N].
  pose proof (empty_rows_spec s H) as SP. rewrite E in SP.
  destruct SP as [S' [A1 [A2 [A3 [A4 SP]]]]].
  assert (OK' : Ok s').
  { constructor; [apply S'| |apply S'; auto]. constructor; congruence. }
  unfold remove_empty_rows in E.
  pose proof (empty_rows_loop s (w_empty_rows s) s OK0 TG AE (fun i X => X) eq_refl eq_refl eq_refl eq_refl) as X.
  pose proof (for_until_st INFEASIBLE remove_empty_row (w_empty_rows s) s) as RG.
  destruct (for_until INFEASIBLE remove_empty_row (w_empty_rows s) s) as [t st1] eqn:EL.
  cbn [snd] in RG. destruct X as [XI XU]; auto.
  { constructor.
    - destruct TG as [G1 G2 G3 G4 G5]. unfold er. constructor; sr; auto.
    - unfold er. constructor; sr; rewrite Q2; [constructor|simpl; tauto].
    - intros i. unfold er. sr. simpl. tauto.
    - intros x _ S. exact S.
    - intros x S. exact S.
    - intros x. unfold obj, live_cols, er. sr. lra. }
  destruct RG as [->| ->].
  - cbn [N.eqb UNCHANGED INFEASIBLE] in E. injection E as <- <-. split; [discriminate|]. intros _.
    pose proof (XU eq_refl) as SS. change (set_w_empty_rows [] t) with (er t) in *.
    split; [exact OK'|]. split; [apply SS|]. split; [apply SS|].
    apply semstep_lp0; auto.
    + intros; unfold tol_rows. pose proof tol_pos. lra.
    + intros; unfold exactly. lra.
  - rewrite N.eqb_refl in E. injection E as <- <-. split; [|discriminate]. intros _ x Fx.
    apply (XI eq_refl x). apply sat_feasible; auto.
Qed.
