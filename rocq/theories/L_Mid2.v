(** The simple explorers keep the facts of L_Mid. *)
From Coq Require Import NArith Lqa.
From Verif Require Import M_Num S_LP M_Settings M_Driver S_Driver M_State M_Act M_Core M_Simple
  M_StonCols M_Dton M_Parallel M_Propagate M_Init M_Post M_Run S_Run S_Struct S_Sem
  L_State L_Struct L_Struct2 L_Struct3 L_Struct4 L_Struct5 L_Struct6 L_Struct11 L_Sem L_Sem2 L_Sem3 L_Sem4
  L_Mid.
Open Scope Q_scope.

Lemma pend_col_fixed : forall s k, Inv s -> w_sub s = [] -> (k < nc s)%nat -> csz s k <> (-1)%Z ->
  t_fixed (ct s k) = false -> t_cinact (ct s k) = false.
Proof.
  intros s k H WS Hk C F. destruct (t_cinact (ct s k)) eqn:T; auto. exfalso.
  destruct (l_pend s (inv_L s H) k Hk T C) as [X|X]; [|rewrite WS in X; contradiction].
  destruct (l_fixed s (inv_L s H) k X). congruence.
Qed.

(** ** Close bounds *)
Lemma close_bounds_Mid : forall s, Ok s -> Mid s ->
  let '(s', st) := remove_variables_with_close_bounds s in st <> INFEASIBLE -> Mid s'.
Proof.
  intros s OK M. unfold remove_variables_with_close_bounds.
  pose proof (for_until_inv INFEASIBLE close_bounds_col
    (fun t => stp s t /\ Mid t /\ w_sub t = [] /\ csz t = csz s /\
       (forall k, t_cinact (ct s k) = true -> t_cinact (ct t k) = true)) (seq 0 (nc s)) s) as X.
  assert (ND := seq_NoDup (nc s) 0).
  assert (L : forall l t, NoDup l -> (forall k, In k l -> (k < nc s)%nat /\ ct t k = ct s k) ->
    stp s t -> Mid t -> w_sub t = [] -> csz t = csz s ->
    let '(t', st) := for_until INFEASIBLE close_bounds_col l t in stp s t' /\ Mid t' /\ w_sub t' = []).
  { clear X ND. induction l as [|k l IH]; intros t ND HL S1 M1 W1 C1; cbn [for_until]; [auto|].
    inversion ND; subst. destruct (HL k (or_introl eq_refl)) as [Hk EC].
    assert (HL' : forall j, In j l -> (j < nc s)%nat /\ ct t j = ct s j) by (intros; apply HL; simpl; auto).
    unfold close_bounds_col at 1. destruct (Z.ltb_spec (csz t k) 0) as [NEG|POS]; cbn [orb].
    { cbn. apply IH; auto. }
    assert (TK : t_cinact (ct s k) = false).
    { apply quiet_col; auto; try apply OK. rewrite <- C1. lia. }
    destruct (t_lb_inf (ct t k) || t_ub_inf (ct t k)); [cbn; apply IH; auto|].
    destruct (IS_EQUAL_FEAS_TOL _ _).
    - cbn [N.eqb UNCHANGED INFEASIBLE].
      assert (Hk' : (k < nc t)%nat) by (rewrite (stp_nc _ _ S1); auto).
      destruct (fix_col_frame t k (fin (lb t k)) (cst t k)) as [A [B _]].
      pose proof (stp_fix_col t k (fin (lb t k)) (cst t k) (st_inv _ _ S1) Hk') as S2.
      pose proof (fix_col_Mid t k (fin (lb t k)) (cst t k) (st_inv _ _ S1) M1 Hk') as M2.
      pose proof (fix_col_cases t k (fin (lb t k)) (cst t k)) as FC.
      destruct (fix_col k (fin (lb t k)) (cst t k) t) as [t1 st1]. cbn [fst] in *.
      apply IH; auto.
      + intros j Hj. destruct (HL' j Hj) as [X1 X2]. split; auto.
        destruct FC as [[_ [-> _]]|[_ [_ [_ [A1 [W2 ->]]]]]]; auto. unfold set_col_to_fixed. sr.
        rewrite upd_other; auto. intros ->. contradiction.
      + eapply stp_trans; eauto.
      + apply M2. rewrite EC. auto.
      + congruence.
      + destruct FC as [[_ [-> _]]|[_ [_ [_ [A1 [W2 ->]]]]]]; auto.
    - destruct (Qgtb _ _); [rewrite N.eqb_refl; auto|]. cbn [N.eqb UNCHANGED INFEASIBLE]. apply IH; auto. }
  clear X. specialize (L (seq 0 (nc s)) s ND).
  destruct (for_until INFEASIBLE close_bounds_col (seq 0 (nc s)) s) as [s1 st].
  destruct L as [S1 [M1 W1]]; auto.
  - intros k Hk. apply in_seq in Hk. split; auto; lia.
  - apply stp_refl. apply OK.
  - apply OK.
  - destruct (N.eqb_spec st INFEASIBLE); [congruence|]. intros _.
    apply (finish_Mid s1); auto. apply S1.
Qed.

(** ** Empty columns *)
Lemma empty_cols_Mid : forall s, Inv s -> Mid s -> w_fixed s = [] ->
  let '(s', st) := remove_empty_cols s in st = UNCHANGED -> Mid s'.
Proof.
  intros s H M WF. unfold remove_empty_cols.
  set (P := fun t => stp s t /\ Mid t /\ w_fixed t = [] /\ w_empty_cols t = w_empty_cols s).
  assert (HP : forall t k, In k (w_empty_cols s) -> P t -> P (fst (remove_empty_col k t))).
  { intros t k Hk [S1 [M1 [W1 E1]]].
    destruct (remove_empty_col_frame t k) as [A [B [C [D _]]]]. unfold P. rewrite B, D.
    assert (S2 : stp t (fst (remove_empty_col k t))) by (apply stp_empty_col; [apply S1|congruence]).
    split; [eapply stp_trans; eauto|]. split; [|auto].
    assert (X : forall v t0, (t0 = t \/ (exists l, t0 = set_lb1 k l t) \/ (exists u, t0 = set_ub1 k u t)) ->
              Mid (close_empty_col k v t0)).
    { intros v t0 E0. destruct M1 as [[G1 G2 G3 G4 G5] PO AE L].
      assert (F1 : forall j, j <> k -> lb t0 j = lb t j /\ ub t0 j = ub t j).
      { intros j Hj. destruct E0 as [->|[[l ->]|[u ->]]]; sr; rewrite ?upd_other by auto; auto. }
      assert (F2 : nr t0 = nr t /\ nc t0 = nc t /\ lhs t0 = lhs t /\ rhs t0 = rhs t /\ rt t0 = rt t /\ ct t0 = ct t /\
                   w_fixed t0 = [] /\ w_empty_rows t0 = w_empty_rows t /\ ups t0 = ups t /\ dns t0 = dns t /\ mAT t0 = mAT t).
      { destruct E0 as [->|[[l ->]|[u ->]]]; sr; auto 15. }
      destruct F2 as (N1 & N2 & N3 & N4 & N5 & N6 & N7 & N8 & N9 & N10 & N11).
      unfold close_empty_col. constructor.
      - constructor; sr; rewrite ?N1, ?N2, ?N3, ?N4, ?N5, ?N6; auto; intros j Hj; updg; try discriminate;
          destruct (F1 j) as [F3 F4]; auto; rewrite ?F3, ?F4; first [apply G4|apply G5]; auto.
      - apply pend_nil. sr. auto.
      - intros i. sr. rewrite N8, N5. apply AE.
      - apply (LK_frame t); auto. sr. rewrite N2, N5, N6, N9, N10, N11. intros j Hj TJ.
        updh TJ; [discriminate|]. repeat split; auto. }
    unfold remove_empty_col. destruct (Qeqb _ _); cbn [fst]; [apply X; auto|].
    destruct (Qltb _ _); [destruct (t_ub_inf _)|destruct (t_lb_inf _)]; cbn [fst]; auto; apply X; eauto. }
  assert (PS : P s) by (unfold P; auto 10 using stp_refl).
  pose proof (for_until_inv UNBNDORINFEAS remove_empty_col P _ s HP PS) as X.
  destruct (for_until UNBNDORINFEAS remove_empty_col (w_empty_cols s) s) as [s1 st].
  cbn [fst] in *. destruct X as [S1 [M1 _]].
  destruct (N.eqb_spec st UNBNDORINFEAS); [discriminate|].
  intros _. eapply mid_same_Mid; [|exact M1]. mid_ref.
Qed.

(** ** Empty rows *)
Lemma empty_rows_Mid : forall s, Mid s ->
  let '(s', st) := remove_empty_rows s in st = UNCHANGED -> Mid s'.
Proof.
  intros s [G P E L]. unfold remove_empty_rows.
  set (I := fun t => tags_right t /\ pend_ok t /\ LK t).
  pose proof (for_until_inv INFEASIBLE remove_empty_row I (w_empty_rows s) s) as X.
  destruct (for_until INFEASIBLE remove_empty_row (w_empty_rows s) s) as [s1 st]. cbn [fst] in X.
  destruct X as [G1 [P1 L1]].
  - intros t i _ [[G1 G2 G3 G4 G5] [[P1 P2] L1]]. unfold remove_empty_row. destruct (_ || _); cbn [fst].
    { split; [constructor; auto|split; [constructor; auto|auto]]. }
    split; [|split].
    + constructor; sr; auto; intros j Hj; updg; try discriminate; first [apply G1|apply G2|apply G3]; auto.
    + constructor; sr; auto.
    + apply (LK_frame t); auto. sr. intros k Hk T. do 5 (split; [auto|]). intros j a _. updg; auto.
  - split; auto.
  - destruct (N.eqb_spec st INFEASIBLE); [discriminate|]. intros _.
    destruct G1 as [A1 A2 A3 A4 A5], P1 as [B1 B2]. constructor.
    + constructor; sr; auto.
    + constructor; sr; auto.
    + intros i. sr. simpl. tauto.
    + exact L1.
Qed.

(** ** Singleton rows *)
Lemma kill_Mid : forall s i k a, Inv s -> Mid s -> (i < nr s)%nat -> mA s i = [(k, a)] ->
  t_inact (rt s i) = false -> t_cinact (ct s k) = true -> Mid (kill_ston i k s).
Proof.
  intros s i k a H [[G1 G2 G3 G4 G5] [P1 P2] E L] Hi EA T Tk. unfold kill_ston. constructor.
  - constructor; sr; auto; intros j Hj; updg; try discriminate; first [apply G1|apply G2|apply G3]; auto.
  - constructor; sr; auto.
  - intros j Hj. sra. rewrite upd_other; auto. intros ->. eapply not_empty_row; eauto.
  - apply (LK_frame s); auto. sr. intros j Hj TJ. do 5 (split; [auto|]). intros i' b Hin. updg; auto.
    exfalso. assert (Hr : In (j, b) (mA s i)).
    { apply (w_agree s (inv_0 s H)); auto.
      - apply act_alive; auto. apply H.
      - apply cact_alive; auto. apply H. }
    rewrite EA in Hr. destruct Hr as [X|[]]. injection X as -> ->. congruence.
Qed.

Lemma remove_stonrow_Mid : forall s i, Inv s -> Mid s -> w_sub s = [] -> In i (w_ston_rows s) ->
  t_inact (rt s i) = false -> Mid (fst (remove_stonrow i s)).
Proof.
  intros s i H M WS Hin T. destruct (l_ston_rows s (inv_L s H) i Hin) as [Hi D]. specialize (D T).
  unfold remove_stonrow. destruct (mA s i) as [|[k a] r] eqn:EA.
  - destruct D as [D|[_ D]]; [discriminate|]. rewrite D. auto.
  - destruct D as [D|[D _]]; [|discriminate]. destruct r; [|discriminate].
    destruct (w_rin s (inv_0 s H) i k a Hi) as [Hk Na]; [rewrite EA; left; reflexivity|].
    destruct (t_fixed (ct s k)) eqn:Fk; [auto|].
    assert (TK : t_cinact (ct s k) = false).
    { apply pend_col_fixed; auto. eapply (inv_R s H); eauto. rewrite EA. left; reflexivity. }
    destruct (t_eq (rt s i)).
    + pose proof (stp_fix_col s k (fin (rhs s i) / a) (cst s k) H Hk) as S1.
      pose proof (fix_col_Mid s k (fin (rhs s i) / a) (cst s k) H M Hk TK) as M1.
      destruct (fix_col_frame s k (fin (rhs s i) / a) (cst s k)) as [A [B [C [D1 [E [F G]]]]]].
      destruct (fix_col k _ _ s) as [s1 st]. cbn [fst snd] in *.
      destruct G as [[-> ->]|[-> [G1 G2]]]; [rewrite N.eqb_refl; auto|].
      change (N.eqb REDUCED INFEASIBLE) with false. cbv iota zeta. cbn [fst].
      assert (M2 : Mid (kill_ston i k s1)).
      { eapply kill_Mid; eauto.
        - apply S1.
        - rewrite (stp_nr _ _ S1). auto.
        - rewrite D1. eassumption.
        - rewrite F. auto.
        - unfold t_cinact. rewrite G1. reflexivity. }
      eapply mid_same_Mid; [|exact M2]. mid_ref.
    + assert (A1 : let s1 := fst (if t_rhs_inf (rt s i) then (s, UNCHANGED)
          else if Qgtb a 0 then update_ub k (fin (rhs s i) / a) i s
          else update_lb k (fin (rhs s i) / a) i s) in same_struct s s1 /\ Mid s1).
      { cbv zeta. destruct (t_rhs_inf _); [split; auto; apply same_refl|].
        destruct (Qgtb a 0); auto using update_ub_same, update_lb_same, Inv_col_in, update_ub_Mid, update_lb_Mid. }
      destruct (if t_rhs_inf (rt s i) then _ else _) as [s1 st1]. cbn [fst] in A1. destruct A1 as [A1 M1].
      destruct (N.eqb st1 INFEASIBLE); [auto|].
      assert (I1 : Inv s1) by (eapply same_Inv; eauto).
      assert (A2 : let s2 := fst (if t_lhs_inf (rt s i) then (s1, UNCHANGED)
          else if Qgtb a 0 then update_lb k (fin (lhs s i) / a) i s1
          else update_ub k (fin (lhs s i) / a) i s1) in same_struct s1 s2 /\ Mid s2).
      { assert (CI : col_in s1 k) by (eapply col_in_same; [exact A1|apply Inv_col_in; auto]).
        assert (HK1 : (k < nc s1)%nat) by (rewrite (ss_nc _ _ A1); auto).
        assert (TK1 : t_cinact (ct s1 k) = false) by (rewrite (ss_ct _ _ k A1); auto).
        cbv zeta. destruct (t_lhs_inf _); [split; auto; apply same_refl|].
        destruct (Qgtb a 0); auto using update_ub_same, update_lb_same, update_ub_Mid, update_lb_Mid. }
      destruct (if t_lhs_inf (rt s i) then _ else _) as [s2 st2]. cbn [fst] in A2. destruct A2 as [A2 M2].
      assert (A3 : same_struct s s2) by (eapply same_trans; eauto).
      destruct (N.eqb st2 INFEASIBLE); [auto|].
      apply set_row_inactive_Mid; auto. apply nempty; [eapply same_Inv; eauto|].
      rewrite (ss_A _ _ A3), EA. discriminate.
Qed.
Lemma ston_pass_Mid : forall b l s, Inv s -> Mid s -> w_sub s = [] -> (forall i, In i l -> In i (w_ston_rows s)) ->
  Mid (fst (ston_pass b l s)).
Proof.
  induction l as [|i l IH]; intros s H M WS HL; simpl; auto.
  destruct (if b then _ else _) eqn:SK.
  - apply IH; auto. intros; apply HL; simpl; auto.
  - assert (T : t_inact (rt s i) = false).
    { destruct b; apply orb_false_iff in SK; tauto. }
    pose proof (remove_stonrow_stp s i H (HL i (or_introl eq_refl)) T) as X.
    pose proof (remove_stonrow_Mid s i H M WS (HL i (or_introl eq_refl)) T) as M1.
    destruct (remove_stonrow i s) as [s1 st]. destruct X as [S1 F1]. cbn [fst] in M1.
    destruct (N.eqb st INFEASIBLE); auto. destruct F1 as [F1 F2]. apply IH; auto.
    + apply S1.
    + congruence.
    + intros j Hj. rewrite F2. apply HL; simpl; auto.
Qed.
Lemma ston_rows_Mid : forall s, Inv s -> Mid s -> w_sub s = [] ->
  let '(s', st) := remove_ston_rows s in st <> INFEASIBLE -> Mid s'.
Proof.
  intros s H M WS. unfold remove_ston_rows.
  destruct (w_ston_rows s) as [|i0 l0] eqn:EL; [auto|]. rewrite <- EL. set (l := w_ston_rows s).
  pose proof (ston_pass_stp true l s H (fun i X => X)) as P1.
  pose proof (ston_pass_Mid true l s H M WS (fun i X => X)) as M1.
  destruct (ston_pass true l s) as [s1 st1]. destruct P1 as [S1 [F1 E1]]. cbn [fst] in M1.
  destruct (N.eqb_spec st1 INFEASIBLE); [congruence|].
  assert (HL1 : forall i, In i l -> In i (w_ston_rows s1)) by (destruct F1 as [_ ->]; auto).
  assert (WS1 : w_sub s1 = []) by (destruct F1; congruence).
  pose proof (ston_pass_stp false l s1 (st_inv _ _ S1) HL1) as P2.
  pose proof (ston_pass_Mid false l s1 (st_inv _ _ S1) M1 WS1 HL1) as M2.
  destruct (ston_pass false l s1) as [s2 st2]. destruct P2 as [S2 [F2 E2]]. cbn [fst] in M2.
  destruct (N.eqb_spec st2 INFEASIBLE); [congruence|]. intros _.
  set (s3 := set_w_ston_rows [] s2).
  assert (I3 : Inv s3) by (apply clear_ston_rows; apply S2).
  assert (M3 : Mid s3) by (eapply mid_same_Mid; [|exact M2]; mid_ref).
  destruct (stp_dir s3 I3) as [S4 [F4 _]].
  apply (finish_Mid (delete_inactive_rows s3)).
  - apply S4.
  - apply dir_Mid; auto.
  - left. destruct F4 as [_ [-> _]]. unfold s3. sr. destruct F2; congruence.
Qed.

(** ** Redundant rows *)
Lemma upt_drop_lhs : forall t a, t_lhs_inf t = false ->
  (upt R_LHS_INF a - upt t a)%Z = (-1 * upw true false a + (upt R_LHS_INF a - upw (t_rhs_inf t) true a))%Z.
Proof. intros t a E. unfold upt, upw. rewrite E. destruct (t_rhs_inf t), (Qgtb a 0); simpl; lia. Qed.

Lemma check_row_Mid : forall s i, Inv s -> Mid s -> (i < nr s)%nat ->
  snd (check_row i s) <> INFEASIBLE -> Mid (fst (check_row i s)).
Proof.
  intros s i H M Hi. unfold check_row.
  destruct (t_inact (rt s i)) eqn:T; cbn [orb]; [auto|].
  destruct (t_eq (rt s i)) eqn:TE; cbn [orb]; [auto|].
  destruct (Z.leb_spec (rsz s i) 1); [auto|].
  destruct (check_activity _ _ _ _) as [|lr rr] eqn:CA; [auto|].
  assert (NE : ~ In i (w_empty_rows s)) by (apply not_empty_rsz; auto; lia).
  assert (RA : rsz s i <> (-1)%Z) by lia.
  assert (LR : (lr = true -> t_lhs_inf (rt s i) = false) /\ (rr = true -> t_rhs_inf (rt s i) = false)).
  { unfold check_activity in CA.
    repeat match type of CA with context [if ?b then _ else _] =>
      match b with _ && _ => destruct b; [discriminate|] end end.
    injection CA as <- <-. split; intros X; apply andb_true_iff in X; destruct X as [X _];
      apply negb_true_iff in X; auto. }
  destruct LR as [LR RR].
  destruct (_ && _) eqn:BOTH; [cbn; intros; apply set_row_inactive_Mid; auto|].
  destruct lr; [|destruct rr]; cbn [fst snd]; intros _; [| |auto].
  - specialize (LR eq_refl). cbn [orb andb] in BOTH. apply orb_false_iff in BOTH. destruct BOTH as [-> TR].
    change (fun (s0 : state) (e : nat * Q) => lock_lhs (-1) (fst e) (snd e) s0)
      with (fun (s0 : state) (e : nat * Q) => lock_coeff (-1) true false (fst e) (snd e) s0).
    set (s1 := set_rt1 i R_LHS_INF s).
    destruct (lock_fold_only (-1) true false (mA s i) s1) as [u [d E]].
    pose proof (lock_fold (-1) true false (mA s i) s1) as LF. cbv zeta in LF.
    set (s2 := foldS _ (mA s i) s1) in *. destruct M as [[G1 G2 G3 G4 G5] [P1 P2] AE L].
    assert (ES : set_lhs1 i NInf s2 = set_lhs (upd (lhs s) i NInf) (set_dns d (set_ups u (set_rt (upd (rt s) i R_LHS_INF) s)))).
    { rewrite E. reflexivity. }
    constructor.
    + assert (X := G2 i Hi T). rewrite TR in X.
      rewrite ES. constructor; sr; auto; intros j Hj; updg; try discriminate;
        try (first [apply G1|apply G2|apply G3]; assumption); cbn; intros; try discriminate; auto.
    + rewrite ES. constructor; sr; auto.
    + intros j Hj. rewrite ES in *. sra. updg; auto.
    + apply (LK_row s _ i R_LHS_INF H Hi RA); auto; try (rewrite ES; sr; auto; fail).
      * intros k. sr. destruct (LF k) as [-> _]. unfold s1. sr. f_equal. rewrite <- ksum_scale.
        apply ksum_ext. intros a. unfold upt, upw. rewrite LR, TR. destruct (Qgtb a 0); reflexivity.
      * intros k. sr. destruct (LF k) as [_ ->]. unfold s1. sr. f_equal. rewrite <- ksum_scale.
        apply ksum_ext. intros a. unfold dnt, dnw, upw. rewrite LR, TR. destruct (Qgtb a 0); reflexivity.
  - specialize (RR eq_refl). rewrite andb_true_r in BOTH. cbn [orb] in BOTH. rename BOTH into TL.
    change (fun (s0 : state) (e : nat * Q) => lock_rhs (-1) (fst e) (snd e) s0)
      with (fun (s0 : state) (e : nat * Q) => lock_coeff (-1) false true (fst e) (snd e) s0).
    set (s1 := set_rt1 i R_RHS_INF s).
    destruct (lock_fold_only (-1) false true (mA s i) s1) as [u [d E]].
    pose proof (lock_fold (-1) false true (mA s i) s1) as LF. cbv zeta in LF.
    set (s2 := foldS _ (mA s i) s1) in *. destruct M as [[G1 G2 G3 G4 G5] [P1 P2] AE L].
    assert (ES : set_rhs1 i PInf s2 = set_rhs (upd (rhs s) i PInf) (set_dns d (set_ups u (set_rt (upd (rt s) i R_RHS_INF) s)))).
    { rewrite E. reflexivity. }
    constructor.
    + assert (X := G1 i Hi T). rewrite TL in X.
      rewrite ES. constructor; sr; auto; intros j Hj; updg; try discriminate;
        try (first [apply G1|apply G2|apply G3]; assumption); cbn; intros; try discriminate; auto.
    + rewrite ES. constructor; sr; auto.
    + intros j Hj. rewrite ES in *. sra. updg; auto.
    + apply (LK_row s _ i R_RHS_INF H Hi RA); auto; try (rewrite ES; sr; auto; fail).
      * intros k. sr. destruct (LF k) as [-> _]. unfold s1. sr. f_equal. rewrite <- ksum_scale.
        apply ksum_ext. intros a. unfold upt, upw. rewrite RR, TL. destruct (Qgtb a 0); reflexivity.
      * intros k. sr. destruct (LF k) as [_ ->]. unfold s1. sr. f_equal. rewrite <- ksum_scale.
        apply ksum_ext. intros a. unfold dnt, dnw, upw. rewrite RR, TL. destruct (Qgtb a 0); reflexivity.
Qed.
Lemma check_activities_Mid : forall s, Inv s -> Mid s ->
  let '(s', st) := check_activities s in st <> INFEASIBLE -> Mid s'.
Proof.
  intros s H M. pose proof (l_acts s (inv_L s H)) as HW. unfold check_activities.
  assert (L : forall l t, (forall i, In i l -> (i < nr s)%nat) -> stp s t -> Mid t ->
    let '(t', st) := for_until INFEASIBLE check_row l t in st <> INFEASIBLE -> stp s t' /\ Mid t').
  { induction l as [|i l IH]; intros t HL S1 M1; cbn [for_until]; [auto|].
    assert (Hi : (i < nr t)%nat) by (rewrite (stp_nr _ _ S1); apply HL; simpl; auto).
    destruct (check_row_stp t i (st_inv _ _ S1) Hi) as [A _].
    pose proof (check_row_Mid t i (st_inv _ _ S1) M1 Hi) as M2.
    destruct (check_row i t) as [t1 st1]. cbn [fst snd] in *.
    destruct (N.eqb_spec st1 INFEASIBLE); [congruence|]. apply IH; auto.
    - intros; apply HL; simpl; auto.
    - eapply stp_trans; eauto. }
  specialize (L (w_acts s) s HW (stp_refl s H) M).
  destruct (for_until INFEASIBLE check_row (w_acts s) s) as [s1 st].
  destruct (N.eqb_spec st INFEASIBLE); [congruence|]. destruct L as [S1 M1]; auto. intros _.
  apply dir_Mid; auto. apply S1.
Qed.

(** ** Dual fixing *)
Lemma inf_rows_Mid : forall (l : row) s, Inv s -> Mid s ->
  (forall e, In e l -> (fst e < nr s)%nat /\ mA s (fst e) <> [] \/ t_inact (rt s (fst e)) = true) ->
  Mid (foldS (fun s e => if t_inact (rt s (fst e)) then s else set_row_to_inactive (fst e) 0 s) l s).
Proof.
  induction l as [|e l IH]; intros s H M HL; simpl foldS; auto.
  set (s1 := if t_inact (rt s (fst e)) then s else set_row_to_inactive (fst e) 0 s).
  assert (B : stp s s1 /\ Mid s1 /\ mA s1 = mA s).
  { unfold s1. destruct (t_inact (rt s (fst e))) eqn:T.
    - split; [apply stp_refl; auto|]. auto.
    - destruct (HL e (or_introl eq_refl)) as [[Hi Ne]|X]; [|congruence].
      split; [apply stp_row_inactive; auto; apply nempty; auto|].
      split; [apply set_row_inactive_Mid; auto; apply nempty; auto|reflexivity]. }
  destruct B as [S1 [M1 E1]]. apply IH; auto.
  - apply S1.
  - intros x Hx. rewrite (stp_nr _ _ S1), E1. destruct (HL x (or_intror Hx)) as [?|T]; auto.
    right. apply (mo_rt _ _ (st_mono _ _ S1)); auto.
Qed.

Lemma inf_hyp : forall s k, Inv s -> (k < nc s)%nat -> forall e, In e (mAT s k) ->
  (fst e < nr s)%nat /\ mA s (fst e) <> [] \/ t_inact (rt s (fst e)) = true.
Proof.
  intros s k H Hk [i a] Hin. cbn [fst]. destruct (t_inact (rt s i)) eqn:T; auto. left.
  destruct (w_cin s (inv_0 s H) i k a Hk Hin) as [Hi _]. split; auto. intros E.
  assert (X : In (k, a) (mA s i)).
  { apply (w_agree s (inv_0 s H)); auto.
    - apply act_alive; auto. apply H.
    - intros C. destruct (w_cdead s (inv_0 s H) k Hk C) as [_ E']. rewrite E' in Hin. contradiction. }
  rewrite E in X. contradiction.
Qed.

Lemma fix_col_to_inf_Mid : forall pos k s, Inv s -> Mid s -> (k < nc s)%nat -> ~ In k (w_fixed s) ->
  Mid (fix_col_to_inf pos k s).
Proof.
  intros pos k s H M Hk NF. unfold fix_col_to_inf.
  set (rec := FIXED_COL_INF pos k _ _). set (s1 := record rec s).
  assert (I1 : Inv s1) by (eapply same_Inv; [apply same_record|auto]).
  assert (M1 : Mid s1) by (eapply mid_same_Mid; [|exact M]; mid_ref).
  pose proof (inf_rows_Mid (mAT s k) s1 I1 M1 (inf_hyp s k H Hk)) as M2.
  destruct (inf_rows_fold (mAT s k) s1 I1 (inf_hyp s k H Hk)) as [S2 [F2 [T2 [G1 [G2 [G3 [G4 G5]]]]]]].
  set (s2 := foldS _ (mAT s k) s1) in *.
  assert (NF2 : ~ In k (w_fixed s2)) by (destruct F2 as [-> _]; exact NF).
  clearbody s2. destruct M2 as [[A1 A2 A3 A4 A5] [P1 P2] AE L]. constructor.
  - constructor; sr; auto; intros j Hj; updg; try discriminate; first [apply A4|apply A5]; auto.
  - constructor; sr; auto. intros j Hj. rewrite !upd_other by congruence. auto.
  - exact AE.
  - apply (LK_frame s2); auto. sr. intros j Hj TJ. updh TJ; [discriminate|]. rewrite upd_other by auto. auto 10.
Qed.

(** What one column of dual fixing leaves alone *)
Lemma fix_col_other : forall k v c s j, j <> k -> ct (fst (fix_col k v c s)) j = ct s j.
Proof.
  intros k v c s j D. pose proof (fix_col_cases s k v c) as X. destruct (fix_col k v c s) as [s1 st]. cbn [fst].
  destruct X as [[_ [-> _]]|[_ [_ [_ [A [W ->]]]]]]; auto. unfold set_col_to_fixed. sr. rewrite upd_other; auto.
Qed.
Lemma dual_fix_loop_Mid : forall l s ti st, Inv s -> Mid s -> NoDup l -> (forall k, In k l -> (k < nc s)%nat) ->
  NoDup (map snd ti) ->
  (forall e, In e ti -> (snd e < nc s)%nat /\ t_cinact (ct s (snd e)) = false /\ ~ In (snd e) l) ->
  let '(s', ti', _) := dual_fix_loop l s ti st in
  Mid s' /\ NoDup (map snd ti') /\ (forall e, In e ti' -> (snd e < nc s')%nat /\ t_cinact (ct s' (snd e)) = false).
Proof.
  induction l as [|k l IH]; intros s ti st H M ND HL NT HT; simpl.
  - split; [auto|]. split; [auto|]. intros e He. destruct (HT e He) as [A [B _]]. auto.
  - inversion ND; subst.
    assert (HL' : forall j, In j l -> (j < nc s)%nat) by (intros; apply HL; simpl; auto).
    assert (Hk : (k < nc s)%nat) by (apply HL; simpl; auto).
    destruct (t_cinact (ct s k)) eqn:TK; cbn [orb].
    { apply IH; auto. intros e He. destruct (HT e He) as [A [B C]]. simpl in C. tauto. }
    destruct (_ && _).
    { apply IH; auto. intros e He. destruct (HT e He) as [A [B C]]. simpl in C. tauto. }
    assert (X : let '(s', ti', _) := simple_dual_fix_col k s ti in
                stp s s' /\ Mid s' /\ NoDup (map snd ti') /\
                (forall e, In e ti' -> (snd e < nc s)%nat /\ t_cinact (ct s' (snd e)) = false /\ ~ In (snd e) l)).
    { assert (T0 : forall e, In e ti -> (snd e < nc s)%nat /\ t_cinact (ct s (snd e)) = false /\ ~ In (snd e) l).
      { intros e He. destruct (HT e He) as [A [B C]]. simpl in C. tauto. }
      assert (TK' : forall e, In e ti -> snd e <> k).
      { intros e He E. destruct (HT e He) as [_ [_ C]]. apply C. left; auto. }
      assert (F : forall v, stp s (fst (fix_col k v (cst s k) s)) /\ Mid (fst (fix_col k v (cst s k) s)) /\
        NoDup (map snd ti) /\ (forall e, In e ti -> (snd e < nc s)%nat /\
          t_cinact (ct (fst (fix_col k v (cst s k) s)) (snd e)) = false /\ ~ In (snd e) l)).
      { intros v. split; [apply stp_fix_col; auto|]. split; [apply fix_col_Mid; auto|]. split; [auto|].
        intros e He. rewrite fix_col_other by auto. auto. }
      assert (P : forall b, stp s s /\ Mid s /\ NoDup (map snd (ti ++ [(b, k)])) /\
        (forall e, In e (ti ++ [(b, k)]) -> (snd e < nc s)%nat /\ t_cinact (ct s (snd e)) = false /\ ~ In (snd e) l)).
      { intros b. split; [apply stp_refl; auto|]. split; [auto|]. split.
        - rewrite map_app. simpl. apply NoDup_app_one; auto. intros X. apply in_map_iff in X.
          destruct X as [e [E He]]. apply (TK' e He E).
        - intros e He. apply in_app_or in He. destruct He as [He|[<-|[]]]; auto. }
      pose proof (conj (stp_refl s H) (conj M (conj NT T0))) as U.
      unfold simple_dual_fix_col.
      repeat match goal with |- context [if ?b then _ else _] => destruct b end;
        first [exact U|apply F|apply P]. }
    destruct (simple_dual_fix_col k s ti) as [[s1 ti1] st1]. destruct X as [S1 [M1 [N1 T1]]].
    apply IH; auto.
    + apply S1.
    + rewrite (stp_nc _ _ S1). auto.
    + rewrite (stp_nc _ _ S1). auto.
Qed.
Lemma fix_col_to_inf_ct : forall pos k s j, Inv s -> (k < nc s)%nat -> j <> k ->
  ct (fix_col_to_inf pos k s) j = ct s j.
Proof.
  intros pos k s j H Hk D. unfold fix_col_to_inf.
  set (rec := FIXED_COL_INF pos k _ _). set (s1 := record rec s).
  assert (I1 : Inv s1) by (eapply same_Inv; [apply same_record|auto]).
  destruct (inf_rows_fold (mAT s k) s1 I1 (inf_hyp s k H Hk)) as [_ [_ [_ [_ [_ [_ [_ G5]]]]]]].
  set (s2 := foldS _ (mAT s k) s1) in *. sr. rewrite upd_other by auto. rewrite G5. reflexivity.
Qed.
Lemma inf_step_Mid : forall s b k, Inv s -> Mid s -> (k < nc s)%nat -> ~ In k (w_fixed s) -> Mid (inf_step s (b, k)).
Proof.
  intros s b k H M Hk NF. unfold inf_step.
  repeat match goal with |- context [if ?b then _ else _] => destruct b end; auto using fix_col_to_inf_Mid.
Qed.
Lemma inf_step_ct : forall s b k j, Inv s -> (k < nc s)%nat -> j <> k -> ct (inf_step s (b, k)) j = ct s j.
Proof.
  intros s b k j H Hk D. unfold inf_step.
  repeat match goal with |- context [if ?b then _ else _] => destruct b end; auto using fix_col_to_inf_ct.
Qed.
Lemma inf_step_stp : forall s b k, Inv s -> (k < nc s)%nat -> stp s (inf_step s (b, k)) /\ frame5 s (inf_step s (b, k)).
Proof.
  intros s b k H Hk. unfold inf_step. repeat match goal with |- context [if ?b then _ else _] => destruct b end;
        auto using fix_col_to_inf_stp, stp_refl, frame5_refl.
Qed.
Lemma inf_steps_Mid : forall l s, Inv s -> Mid s -> NoDup (map snd l) ->
  (forall e, In e l -> (snd e < nc s)%nat /\ t_cinact (ct s (snd e)) = false) ->
  Mid (foldS inf_step l s).
Proof.
  induction l as [|[b k] l IH]; intros s H M ND HL; cbn [foldS]; auto.
  cbn [map snd] in ND. inversion ND; subst.
  destruct (HL (b, k) (or_introl eq_refl)) as [Hk TK]. cbn [snd] in *.
  assert (NF : ~ In k (w_fixed s)).
  { intros X. destruct (l_fixed s (inv_L s H) k X) as [_ F]. unfold t_cinact in TK. rewrite F in TK. discriminate. }
  destruct (inf_step_stp s b k H Hk) as [S1 _].
  apply IH; auto.
  - apply S1.
  - apply inf_step_Mid; auto.
  - intros e He. destruct (HL e (or_intror He)) as [A B]. rewrite (stp_nc _ _ S1). split; auto.
    rewrite inf_step_ct; auto. intros E. apply H2. rewrite <- E. apply in_map; auto.
Qed.
Lemma dual_fix_Mid : forall s, Inv s -> Mid s -> w_sub s = [] -> Mid (fst (simple_dual_fix s)).
Proof.
  intros s H M WS. unfold simple_dual_fix.
  pose proof (dual_fix_loop_stp (seq 0 (nc s)) s [] UNCHANGED H) as X.
  pose proof (dual_fix_loop_Mid (seq 0 (nc s)) s [] UNCHANGED H M (seq_NoDup _ _)) as Y.
  destruct (dual_fix_loop (seq 0 (nc s)) s [] UNCHANGED) as [[s1 ti] st].
  destruct X as [S1 [F1 T1]].
  { intros k Hk. apply in_seq in Hk. lia. }
  { intros e []. }
  destruct Y as [M1 [N1 T1']].
  { intros k Hk. apply in_seq in Hk. lia. }
  { constructor. }
  { intros e []. }
  destruct (inf_steps_stp ti s1 (st_inv _ _ S1)) as [S2 F2].
  { rewrite (stp_nc _ _ S1). auto. }
  pose proof (inf_steps_Mid ti s1 (st_inv _ _ S1) M1 N1 T1') as M2.
  destruct (stp_dir (foldS inf_step ti s1) (st_inv _ _ S2)) as [S3 [F3 _]].
  cbn [fst]. apply (finish_Mid (delete_inactive_rows (foldS inf_step ti s1))).
  - apply S3.
  - apply dir_Mid; auto. apply S2.
  - left. destruct F3 as [_ [-> _]], F2 as [_ [-> _]], F1 as [-> _]. auto.
Qed.
