(** Locks and tags through the merging of parallel rows (src/explorers/Parallel_rows.c). *)
From Coq Require Import NArith Lqa.
From Verif Require Import M_Num S_LP M_Settings M_Driver S_Driver M_State M_Act M_Core M_Simple
  M_StonCols M_Dton M_Parallel M_Propagate M_Init M_Post M_Run S_Run S_Struct S_Sem
  L_State L_Struct L_Struct2 L_Struct3 L_Struct4 L_Struct5 L_Struct6 L_Struct7 L_Struct8 L_Struct11
  L_Sem L_Sem2 L_Sem3 L_Sem4 L_Mid L_Mid2 L_Mid3 L_Mid4.
Open Scope Q_scope.

(** ** One new side *)
Lemma absq_le : forall x t, ABSq x <= t <-> - t <= x <= t.
Proof. intros. unfold ABSq. destruct (Qltb x 0) eqn:E; qb; (split; [intros; split; lra|intros [? ?]; lra]). Qed.
(** Tag and right-hand side of row i afterwards. *)
Definition rhs_result (s : state) (i : nat) (v : Q) (t : rowtag) (r : ext) : Prop :=
  (t_lhs_inf (rt s i) = false /\ - FEAS_TOL <= fin (lhs s i) - v <= FEAS_TOL /\
     t = RT (t_lhs_inf (rt s i)) false true (t_inact (rt s i)) /\ r = lhs s i) \/
  ((t_lhs_inf (rt s i) = false -> fin (lhs s i) < v - FEAS_TOL) /\
     t = RT (t_lhs_inf (rt s i)) false (t_eq (rt s i)) (t_inact (rt s i)) /\ r = Fin v).
Definition lhs_result (s : state) (i : nat) (v : Q) (t : rowtag) (r : ext) : Prop :=
  (t_rhs_inf (rt s i) = false /\ - FEAS_TOL <= fin (rhs s i) - v <= FEAS_TOL /\
     t = RT false (t_rhs_inf (rt s i)) true (t_inact (rt s i)) /\ r = rhs s i) \/
  ((t_rhs_inf (rt s i) = false -> v + FEAS_TOL < fin (rhs s i)) /\
     t = RT false (t_rhs_inf (rt s i)) (t_eq (rt s i)) (t_inact (rt s i)) /\ r = Fin v).
Lemma change_rhs_cases : forall i v o q s, row_view s i = mA s i ->
  let '(s1, st) := change_rhs_of_ineq i v o q s in
  st = INFEASIBLE /\ s1 = s /\ t_lhs_inf (rt s i) = false /\ v + FEAS_TOL <= fin (lhs s i) \/
  st = REDUCED /\ (t_lhs_inf (rt s i) = false -> fin (lhs s i) < v + FEAS_TOL) /\
    exists TG RH u d W, s1 = record (RHS_CHANGE i (mA s i) v o q) (set_w_dton W (set_rt TG (set_rhs RH (set_ups u (set_dns d s))))) /\
      rhs_result s i v (TG i) (RH i) /\ (forall j, j <> i -> TG j = rt s j /\ RH j = rhs s j) /\
      forall k, u k = (ups s k + if t_rhs_inf (rt s i) then ksum (upw false true) k (mA s i) else 0)%Z /\
                d k = (dns s k + if t_rhs_inf (rt s i) then ksum (dnw false true) k (mA s i) else 0)%Z.
Proof.
  intros i v o q s RV. unfold change_rhs_of_ineq. cbv zeta. rewrite RV.
  destruct (negb (t_lhs_inf (rt s i)) && _) eqn:C.
  { left. qb. apply andb_true_iff in C. destruct C as [C1 C2]. apply negb_true_iff in C1. qb. auto. }
  right. split; [reflexivity|].
  assert (C' : t_lhs_inf (rt s i) = false -> fin (lhs s i) < v + FEAS_TOL).
  { intros T. rewrite T in C. cbn in C. qb. auto. }
  split; [exact C'|]. clear C.
  set (s1 := if t_rhs_inf (rt s i) then update_locks_ineq_to_eq (mA s i) false s else s).
  assert (L1 : exists u d, s1 = set_ups u (set_dns d s) /\
     forall k, u k = (ups s k + if t_rhs_inf (rt s i) then ksum (upw false true) k (mA s i) else 0)%Z /\
                d k = (dns s k + if t_rhs_inf (rt s i) then ksum (dnw false true) k (mA s i) else 0)%Z).
  { unfold s1. destruct (t_rhs_inf (rt s i)).
    - pose proof (locks_to_eq (mA s i) false s) as X.
      destruct (locks_only_ineq_to_eq (mA s i) false s) as [u [d E]]. rewrite E in *. exists u, d.
      split; [reflexivity|]. intros k. destruct (X k) as [A B]. sr in A. sr in B. auto.
    - exists (ups s), (dns s). split; [destruct s; reflexivity|]. intros; lia. }
  clearbody s1. destruct L1 as [u [d [-> L1]]]. sr. rewrite upd_same. cbn [t_lhs_inf untag_rhs_inf].
  destruct (negb (t_lhs_inf (rt s i)) && _) eqn:D.
  - apply andb_true_iff in D. destruct D as [D1 D2]. apply negb_true_iff in D1.
    unfold IS_EQUAL_FEAS_TOL in D2. qb. apply absq_le in D2.
    eexists (upd (upd (rt s) i _) i _), (upd (upd (rhs s) i _) i _), u, d,
      (if Nat.eqb (length (mA s i)) 2 then w_dton s ++ [i] else w_dton s).
    split; [destruct (length (mA s i) =? 2)%nat; destruct s; reflexivity|].
    split; [rewrite !upd_same; left; auto|].
    split; [|exact L1]. intros j J. rewrite !upd_other by auto. auto.
  - eexists (upd (rt s) i _), (upd (rhs s) i _), u, d, (w_dton s). split; [destruct s; reflexivity|].
    split; [|split; [|exact L1]].
    + rewrite !upd_same. right. split; [|auto]. intros T. specialize (C' T). rewrite T in D. cbn in D.
      unfold IS_EQUAL_FEAS_TOL in D. qb. unfold ABSq in D. destruct (Qltb _ 0) eqn:E in D; qb; lra.
    + intros j J. rewrite !upd_other by auto. auto.
Qed.
Lemma change_lhs_cases : forall i v o q s, row_view s i = mA s i ->
  let '(s1, st) := change_lhs_of_ineq i v o q s in
  st = INFEASIBLE /\ s1 = s /\ t_rhs_inf (rt s i) = false /\ fin (rhs s i) <= v - FEAS_TOL \/
  st = REDUCED /\ (t_rhs_inf (rt s i) = false -> v - FEAS_TOL < fin (rhs s i)) /\
    exists TG LH u d W, s1 = record (LHS_CHANGE i (mA s i) v o q) (set_w_dton W (set_rt TG (set_lhs LH (set_ups u (set_dns d s))))) /\
      lhs_result s i v (TG i) (LH i) /\ (forall j, j <> i -> TG j = rt s j /\ LH j = lhs s j) /\
      forall k, u k = (ups s k + if t_lhs_inf (rt s i) then ksum (upw true false) k (mA s i) else 0)%Z /\
                d k = (dns s k + if t_lhs_inf (rt s i) then ksum (dnw true false) k (mA s i) else 0)%Z.
Proof.
  intros i v o q s RV. unfold change_lhs_of_ineq. cbv zeta. rewrite RV.
  destruct (negb (t_rhs_inf (rt s i)) && _) eqn:C.
  { left. qb. apply andb_true_iff in C. destruct C as [C1 C2]. apply negb_true_iff in C1. qb. auto. }
  right. split; [reflexivity|].
  assert (C' : t_rhs_inf (rt s i) = false -> v - FEAS_TOL < fin (rhs s i)).
  { intros T. rewrite T in C. cbn in C. qb. auto. }
  split; [exact C'|]. clear C.
  set (s1 := if t_lhs_inf (rt s i) then update_locks_ineq_to_eq (mA s i) true s else s).
  assert (L1 : exists u d, s1 = set_ups u (set_dns d s) /\
     forall k, u k = (ups s k + if t_lhs_inf (rt s i) then ksum (upw true false) k (mA s i) else 0)%Z /\
                d k = (dns s k + if t_lhs_inf (rt s i) then ksum (dnw true false) k (mA s i) else 0)%Z).
  { unfold s1. destruct (t_lhs_inf (rt s i)).
    - pose proof (locks_to_eq (mA s i) true s) as X.
      destruct (locks_only_ineq_to_eq (mA s i) true s) as [u [d E]]. rewrite E in *. exists u, d.
      split; [reflexivity|]. intros k. destruct (X k) as [A B]. sr in A. sr in B. auto.
    - exists (ups s), (dns s). split; [destruct s; reflexivity|]. intros; lia. }
  clearbody s1. destruct L1 as [u [d [-> L1]]]. sr. rewrite upd_same. cbn [t_rhs_inf untag_lhs_inf].
  destruct (negb (t_rhs_inf (rt s i)) && _) eqn:D.
  - apply andb_true_iff in D. destruct D as [D1 D2]. apply negb_true_iff in D1.
    unfold IS_EQUAL_FEAS_TOL in D2. qb. apply absq_le in D2.
    eexists (upd (upd (rt s) i _) i _), (upd (upd (lhs s) i _) i _), u, d,
      (if Nat.eqb (length (mA s i)) 2 then w_dton s ++ [i] else w_dton s).
    split; [destruct (length (mA s i) =? 2)%nat; destruct s; reflexivity|].
    split; [rewrite !upd_same; left; auto|].
    split; [|exact L1]. intros j J. rewrite !upd_other by auto. auto.
  - eexists (upd (rt s) i _), (upd (lhs s) i _), u, d, (w_dton s). split; [destruct s; reflexivity|].
    split; [|split; [|exact L1]].
    + rewrite !upd_same. right. split; [|auto]. intros T. specialize (C' T). rewrite T in D. cbn in D.
      unfold IS_EQUAL_FEAS_TOL in D. qb. unfold ABSq in D. destruct (Qltb _ 0) eqn:E in D; qb; lra.
    + intros j J. rewrite !upd_other by auto. auto.
Qed.

Lemma Mid_rt_ext : forall s f, (forall j, rt s j = f j) -> Mid (set_rt f s) -> Mid s.
Proof.
  intros s f E [[G1 G2 G3 G4 G5] [P1 P2] EA L]. sr in G1. sr in G2. sr in G3. sr in G4. sr in G5. sr in P1. sr in P2.
  constructor.
  - constructor; intros j; rewrite ?E; auto; first [apply G1|apply G2|apply G4|apply G5].
  - constructor; auto.
  - intros j Hj. rewrite E. apply EA; auto.
  - intros k Hk T. destruct (L k Hk T) as [A B]. sr in A. sr in B. rewrite A, B.
    split; apply wsum_ext; intros j a _; rewrite E; reflexivity.
Qed.
Lemma change_rhs_Mid : forall i v o q s, Inv s -> Mid s -> (i < nr s)%nat -> t_inact (rt s i) = false ->
  t_eq (rt s i) = false -> Mid (fst (change_rhs_of_ineq i v o q s)).
Proof.
  intros i v o q s H M Hi Ti Te. pose proof (change_rhs_cases i v o q s (view_full s i H Hi Ti)) as X.
  destruct (change_rhs_of_ineq i v o q s) as [s1 st]. cbn [fst].
  destruct X as [[_ [-> _]]|[_ [_ [TG [RH [u [d [W [-> [R [OT LK]]]]]]]]]]]; [exact M|].
  assert (GL := tr_lhs s (md_tags s M) i Hi Ti).
  apply (Mid_rt_ext _ (upd (rt s) i (TG i))).
  { sr. intros j. updg; auto. apply OT; auto. }
  apply (retag_Mid s _ i (TG i)); auto.
  assert (TI : t_inact (TG i) = false /\ t_rhs_inf (TG i) = false /\ t_lhs_inf (TG i) = t_lhs_inf (rt s i)).
  { destruct R as [[_ [_ [-> _]]]|[_ [-> _]]]; auto. }
  destruct TI as [TI [TR TL]].
  constructor; sr; try reflexivity; auto.
  - intros j J. destruct (OT j J). auto.
  - rewrite TL. exact GL.
  - rewrite TR. destruct R as [[R1 [_ [_ ->]]]|[_ [_ ->]]]; [rewrite R1 in GL; exact GL|reflexivity].
  - destruct R as [[R1 [_ [_ ->]]]|[_ [-> _]]]; [|cbn; congruence].
    rewrite R1 in GL. intros _. destruct (lhs s i) as [|p|]; try discriminate. exists p, p. repeat split; lra.
  - intros k. destruct (LK k) as [-> _]. f_equal. unfold upt. rewrite TR, TL.
    destruct (t_rhs_inf (rt s i)).
    + apply ksum_ext. intros a. destruct (w_diff upw (or_introl eq_refl) true (t_lhs_inf (rt s i)) a) as [-> _]. lia.
    + rewrite (ksum_ext _ (fun a => 0 * 0)%Z) by (intros; lia). rewrite ksum_scale. lia.
  - intros k. destruct (LK k) as [_ ->]. f_equal. unfold dnt. rewrite TR, TL.
    destruct (t_rhs_inf (rt s i)).
    + apply ksum_ext. intros a. destruct (w_diff dnw (or_intror eq_refl) true (t_lhs_inf (rt s i)) a) as [-> _]. lia.
    + rewrite (ksum_ext _ (fun a => 0 * 0)%Z) by (intros; lia). rewrite ksum_scale. lia.
Qed.
Lemma change_lhs_Mid : forall i v o q s, Inv s -> Mid s -> (i < nr s)%nat -> t_inact (rt s i) = false ->
  (t_eq (rt s i) = true -> fin (lhs s i) <= v) -> Mid (fst (change_lhs_of_ineq i v o q s)).
Proof.
  intros i v o q s H M Hi Ti Te. pose proof (change_lhs_cases i v o q s (view_full s i H Hi Ti)) as X.
  destruct (change_lhs_of_ineq i v o q s) as [s1 st]. cbn [fst].
  destruct X as [[_ [-> _]]|[_ [_ [TG [RH [u [d [W [-> [R [OT LK]]]]]]]]]]]; [exact M|].
  assert (GR := tr_rhs s (md_tags s M) i Hi Ti).
  assert (GE := tr_eq s (md_tags s M) i Hi Ti).
  apply (Mid_rt_ext _ (upd (rt s) i (TG i))).
  { sr. intros j. updg; auto. apply OT; auto. }
  apply (retag_Mid s _ i (TG i)); auto.
  assert (TI : t_inact (TG i) = false /\ t_lhs_inf (TG i) = false /\ t_rhs_inf (TG i) = t_rhs_inf (rt s i)).
  { destruct R as [[_ [_ [-> _]]]|[_ [-> _]]]; auto. }
  destruct TI as [TI [TL TR]].
  constructor; sr; try reflexivity; auto.
  - intros j J. destruct (OT j J). auto.
  - rewrite TL. destruct R as [[R1 [_ [_ ->]]]|[_ [_ ->]]]; [rewrite R1 in GR; exact GR|reflexivity].
  - rewrite TR. exact GR.
  - destruct R as [[R1 [_ [_ ->]]]|[R1 [-> _]]].
    + rewrite R1 in GR. intros _. destruct (rhs s i) as [|p|]; try discriminate. exists p, p. repeat split; lra.
    + cbn [t_eq]. intros E. exfalso. specialize (Te E). destruct (GE E) as [p0 [q0 [A0 [B0 C0]]]].
      rewrite A0 in Te. rewrite B0 in R1, GR. cbn in *. destruct (t_rhs_inf (rt s i)); [discriminate|].
      specialize (R1 eq_refl). unfold FEAS_TOL in R1. lra.
  - intros k. destruct (LK k) as [-> _]. f_equal. unfold upt. rewrite TR, TL.
    destruct (t_lhs_inf (rt s i)).
    + apply ksum_ext. intros a. destruct (w_diff upw (or_introl eq_refl) (t_rhs_inf (rt s i)) true a) as [_ [-> _]]. lia.
    + rewrite (ksum_ext _ (fun a => 0 * 0)%Z) by (intros; lia). rewrite ksum_scale. lia.
  - intros k. destruct (LK k) as [_ ->]. f_equal. unfold dnt. rewrite TR, TL.
    destruct (t_lhs_inf (rt s i)).
    + apply ksum_ext. intros a. destruct (w_diff dnw (or_intror eq_refl) (t_rhs_inf (rt s i)) true a) as [_ [-> _]]. lia.
    + rewrite (ksum_ext _ (fun a => 0 * 0)%Z) by (intros; lia). rewrite ksum_scale. lia.
Qed.

(** ** A group of rows *)
Definition MI (s : state) (i0 : nat) (m : merge) : Prop := m_eq m = false ->
  m_idx m = i0 /\ t_eq (rt s i0) = false /\
  (t_lhs_inf (rt s i0) = false -> m_lhs_inf m = false /\ fin (lhs s i0) <= fin (m_lhs m)) /\
  (t_rhs_inf (rt s i0) = false -> m_rhs_inf m = false /\ fin (m_rhs m) <= fin (rhs s i0)).
Lemma MI_init : forall s i, MI s i (merge_init s i).
Proof.
  intros s i. unfold MI, merge_init. cbn [m_eq m_idx m_lhs_inf m_lhs m_rhs_inf m_rhs]. intros E.
  split; auto. split; auto. split; intros ->; (split; [auto|lra]).
Qed.
Lemma MI_step : forall s i m o m', MI s i m -> merge_step s m o = Some m' -> MI s i m'.
Proof.
  intros s i m o m' I. unfold merge_step. cbv zeta.
  destruct (negb (m_eq m) && t_eq (rt s o)) eqn:C.
  - intros E NE. exfalso. revert E. cbn [m_eq].
    cbn [andb]. destruct (_ || _); [discriminate|].
    intros E. inversion E; subst. discriminate.
  - destruct (m_eq m) eqn:EM; cbn [andb].
    + repeat match goal with |- context [if ?b then _ else _] => destruct b end;
      intros E; inversion E; subst; auto.
    + intros E. destruct (I EM) as [I1 [I2 [I3 I4]]].
      set (ratio := m_coeff m / first_coeff (mA s o)) in *. clearbody ratio.
      set (orhs := fin (rhs s o) * ratio) in *. set (olhs := fin (lhs s o) * ratio) in *. clearbody orhs olhs.
      intros _.
      destruct (Qgtb ratio 0).
      * destruct (negb (t_rhs_inf (rt s o)) && (m_rhs_inf m || Qltb orhs (fin (m_rhs m)))) eqn:C1;
          cbn [m_lhs_inf m_lhs] in E;
          destruct (negb (t_lhs_inf (rt s o)) && (m_lhs_inf m || Qgtb olhs (fin (m_lhs m)))) eqn:C2;
          inversion E; subst; cbn [m_idx m_lhs_inf m_lhs m_rhs_inf m_rhs fin];
          (split; [auto|split; [auto|split; intros T; [destruct (I3 T) as [X1 X2]|destruct (I4 T) as [X1 X2]]; (split; [auto|])]]);
          auto; rewrite X1 in *; cbn [orb] in *.
        all: apply andb_true_iff in C1 || apply andb_true_iff in C2; qb; try lra.
        all: try (destruct C1; qb; lra); try (destruct C2; qb; lra).
        all: apply andb_true_iff in C2; destruct C2; qb; lra.
      * destruct (negb (t_rhs_inf (rt s o)) && (m_lhs_inf m || Qgtb orhs (fin (m_lhs m)))) eqn:C1;
          cbn [m_rhs_inf m_rhs] in E;
          destruct (negb (t_lhs_inf (rt s o)) && (m_rhs_inf m || Qltb olhs (fin (m_rhs m)))) eqn:C2;
          inversion E; subst; cbn [m_idx m_lhs_inf m_lhs m_rhs_inf m_rhs fin];
          (split; [auto|split; [auto|split; intros T; [destruct (I3 T) as [X1 X2]|destruct (I4 T) as [X1 X2]]; (split; [auto|])]]);
          auto; rewrite X1 in *; cbn [orb] in *.
        all: apply andb_true_iff in C1 || apply andb_true_iff in C2; qb; try lra.
        all: try (destruct C1; qb; lra); try (destruct C2; qb; lra).
        all: apply andb_true_iff in C2; destruct C2; qb; lra.
Qed.
Lemma MI_loop : forall l s i m m', MI s i m -> merge_loop s m l = Some m' -> MI s i m'.
Proof.
  induction l as [|o l IH]; simpl; intros s i m m' I E; [inversion E; subst; auto|].
  destruct (merge_step s m o) as [m1|] eqn:E1; [|discriminate].
  eapply IH; [|exact E]. eapply MI_step; eauto.
Qed.

Lemma inact_rows_Mid : forall bin i s, Inv s -> Mid s -> NoDup bin -> (forall j, In j bin -> live_row s j) ->
  Mid (foldS (fun s j => if Nat.eqb j i then s else set_row_to_inactive j 0 s) bin s).
Proof.
  induction bin as [|j bin IH]; intros i s H M ND HL; cbn [foldS]; [exact M|].
  inversion ND; subst.
  destruct (inact_rows_fold [j] i s H) as [S1 [_ [A1 R1]]].
  { constructor; [simpl; tauto|constructor]. }
  { intros k [->|[]]. apply HL; simpl; auto. }
  cbn [foldS] in *. set (s1 := if Nat.eqb j i then s else set_row_to_inactive j 0 s) in *.
  assert (M1 : Mid s1).
  { unfold s1. destruct (Nat.eqb j i); auto. apply set_row_inactive_Mid; auto.
    destruct (HL j (or_introl eq_refl)) as [A [B C]]. destruct (mA s j) as [|e r] eqn:E; [congruence|].
    eapply not_empty_row; eauto. }
  change (foldS ?f (j :: bin) s) with (foldS f bin s1).
  apply IH; auto; [apply S1|].
  intros k Hk. destruct (HL k (or_intror Hk)) as [A [B C]].
  unfold live_row. rewrite (stp_nr _ _ S1), A1, R1; auto. simpl. intros [->|[]]; contradiction.
Qed.

Lemma row_bin_Mid : forall bin s, Inv s -> Mid s -> NoDup bin -> (forall j, In j bin -> live_row s j) ->
  Mid (fst (process_row_bin bin s)).
Proof.
  intros bin s H M ND HL. unfold process_row_bin. destruct bin as [|i0 l]; [exact M|].
  destruct (merge_loop s (merge_init s i0) l) as [m|] eqn:EM; [|exact M].
  assert (I := MI_loop _ _ _ _ _ (MI_init s i0) EM).
  assert (HI : In (m_idx m) (i0 :: l)).
  { apply merge_loop_idx in EM. simpl in *. destruct EM; auto. }
  set (i := m_idx m) in *. destruct (HL i HI) as [Hi [Ti Ni]]. cbv zeta.
  set (p1 := if negb (m_eq m) && (negb (m_rhs_inf m) && negb (ext_eqb (m_rhs m) (rhs s i)))
             then change_rhs_of_ineq i (fin (m_rhs m)) (m_rhs_from m) (m_rhs_ratio m) s
             else (s, UNCHANGED)).
  assert (X : stp s (fst p1) /\ mA (fst p1) = mA s /\ (forall j, t_inact (rt (fst p1) j) = t_inact (rt s j)) /\
     Mid (fst p1) /\ (m_eq m = false -> t_eq (rt (fst p1) i) = true -> lhs (fst p1) i = lhs s i /\ t_lhs_inf (rt s i) = false)).
  { unfold p1. destruct (negb (m_eq m) && _) eqn:C.
    - destruct (change_rhs_stp i (fin (m_rhs m)) (m_rhs_from m) (m_rhs_ratio m) s H Hi Ti) as [A [_ [C0 [D _]]]].
      assert (EQ : m_eq m = false) by (destruct (m_eq m); auto; discriminate).
      destruct (I EQ) as [I1 [I2 [I3 I4]]]. fold i in I1. rewrite <- I1 in *.
      split; auto. split; auto. split; auto. split; [apply change_rhs_Mid; auto|].
      intros _. pose proof (change_rhs_cases i (fin (m_rhs m)) (m_rhs_from m) (m_rhs_ratio m) s (view_full s i H Hi Ti)) as Y.
      destruct (change_rhs_of_ineq i _ _ _ s) as [s1 st]. cbn [fst].
      destruct Y as [[_ [-> [Y _]]]|[_ [_ [TG [RH [u [d [W [-> [R [OT LK]]]]]]]]]]]; [auto|].
      sr. intros TE. split; [reflexivity|]. destruct R as [[R _]|[_ [R _]]]; auto. rewrite R in TE. cbn in TE. congruence.
    - cbn [fst]. split; [apply stp_refl; auto|]. split; [auto|]. split; [auto|]. split; [auto|].
      intros EQ. destruct (I EQ) as [I1 [I2 _]]. fold i in I1. rewrite I1. congruence. }
  destruct p1 as [s1 st1]. cbn [fst] in X. destruct X as [S1 [A1 [R1 [M1 E1]]]].
  destruct (N.eqb st1 INFEASIBLE); [exact M1|].
  set (p2 := if negb (m_eq m) && (negb (m_lhs_inf m) && negb (ext_eqb (m_lhs m) (lhs s1 i)))
             then change_lhs_of_ineq i (fin (m_lhs m)) (m_lhs_from m) (m_lhs_ratio m) s1
             else (s1, UNCHANGED)).
  assert (Hi1 : (i < nr s1)%nat) by (rewrite (stp_nr _ _ S1); auto).
  assert (Ti1 : t_inact (rt s1 i) = false) by (rewrite R1; auto).
  assert (X : stp s1 (fst p2) /\ mA (fst p2) = mA s1 /\ (forall j, t_inact (rt (fst p2) j) = t_inact (rt s1 j)) /\ Mid (fst p2)).
  { unfold p2. destruct (negb (m_eq m) && _) eqn:C.
    2:{ cbn [fst]. split; [apply stp_refl; apply S1|auto]. }
    destruct (change_lhs_stp i (fin (m_lhs m)) (m_lhs_from m) (m_lhs_ratio m) s1 (st_inv _ _ S1) Hi1 Ti1) as [A [B [C0 [D _]]]].
    split; auto. split; auto. split; auto. apply change_lhs_Mid; auto; [apply S1|].
    assert (EQ : m_eq m = false) by (destruct (m_eq m); auto; discriminate).
    intros TE. destruct (E1 EQ TE) as [-> TL]. destruct (I EQ) as [I1 [I2 [I3 I4]]]. fold i in I1. rewrite <- I1 in *.
    apply I3; auto. }
  destruct p2 as [s2 st2]. cbn [fst] in X. destruct X as [S2' [A2' [R2' M2]]].
  destruct (N.eqb st2 INFEASIBLE); [exact M2|]. cbn [fst].
  apply inact_rows_Mid; auto; [apply S2'|].
  intros j Hj. destruct (HL j Hj) as [A [B C]]. unfold live_row.
  rewrite (stp_nr _ _ S2'), (stp_nr _ _ S1), R2', R1, A2', A1. auto.
Qed.

Lemma row_bins_Mid : forall gs s, Inv s -> Mid s -> NoDup (concat gs) ->
  (forall g j, In g gs -> In j g -> live_row s j) -> Mid (fst (process_row_bins gs s)).
Proof.
  induction gs as [|g gs IH]; simpl; intros s H M ND HL; [exact M|].
  assert (ND1 : NoDup g) by (apply NoDup_app_remove_r in ND; auto).
  assert (HL1 : forall j, In j g -> live_row s j) by (intros; eapply HL; eauto).
  pose proof (row_bin_stp g s H ND1 HL1) as X. pose proof (row_bin_Mid g s H M ND1 HL1) as M1.
  destruct (process_row_bin g s) as [s1 st]. cbn [fst] in M1.
  destruct X as [S1 [F1 [A1 R1]]].
  destruct (N.eqb st INFEASIBLE); [exact M1|].
  apply IH; auto; [apply S1| |].
  { apply NoDup_app_remove_l in ND; auto. }
  intros g' j Hg Hj. destruct (HL g' j (or_intror Hg) Hj) as [A [B C]].
  unfold live_row. rewrite (stp_nr _ _ S1), A1, R1; auto.
  intros X. clear - ND X Hg Hj. assert (Y : In j (concat gs)) by (apply in_concat; eauto).
  induction g as [|z t IHt]; simpl in *; [contradiction|].
  inversion ND; subst. destruct X as [->|X]; auto. apply H1, in_or_app; auto.
Qed.

(** The groups found consist of live rows. *)
Lemma par_groups_live : forall s, Inv s -> Nx s -> quiet s -> w_empty_rows s = [] ->
  forall g j, In g (groups_of (mA s) (hash_bins (mA s) (fun i => t_inact (rt s i)) (nr s))) -> In j g -> live_row s j.
Proof.
  intros s H NX [Q1 Q2 Q3] WE g j Hg Hj.
  pose proof (hash_bins_ok (mA s) (fun i => t_inact (rt s i)) (nr s)) as BO.
  set (bins := hash_bins _ _ _) in *.
  apply groups_in in Hg. destruct Hg as [b [Hb ->]].
  assert (Hj' := fpr_in _ _ _ Hj). pose proof (bo_lt _ _ _ BO b j Hb Hj') as LT.
  destruct b as [|f l]; [contradiction|].
  assert (Tf := bo_hd _ _ _ BO f l Hb). cbv beta in Tf.
  assert (Hf : (f < nr s)%nat) by (apply (bo_lt _ _ _ BO (f :: l)); simpl; auto).
  assert (Nf : mA s f <> []).
  { apply rsz_nempty; auto. intros R0. pose proof (l_empty_rows_c s (inv_L s H) f Hf Tf R0) as X.
    rewrite WE in X. contradiction. }
  assert (Nj : mA s j <> []).
  { intros X. apply fpr_par in Hj. rewrite X in Hj. destruct (mA s f); [auto|discriminate]. }
  split; auto. split; auto. destruct (t_inact (rt s j)) eqn:T; auto. exfalso.
  destruct (Z.eq_dec (rsz s j) (-1)) as [R|R]; [apply Nj, (nx_dead s NX); auto|].
  assert (X : In j (w_rows s)) by (apply (l_rows s (inv_L s H)); auto). rewrite Q1 in X. contradiction.
Qed.

(** src/explorers/Parallel_rows.c:600-623 *)
Lemma par_rows_Mid : forall s, Inv s -> Mid s -> Nx s -> quiet s -> w_empty_rows s = [] ->
  Mid (fst (remove_parallel_rows s)).
Proof.
  intros s H M NX Q WE. unfold remove_parallel_rows, remove_parallel_rows_with.
  pose proof (par_groups_live s H NX Q WE) as HL.
  pose proof (hash_bins_ok (mA s) (fun i => t_inact (rt s i)) (nr s)) as BO.
  set (bins := hash_bins _ _ _) in *.
  assert (ND := groups_nd (mA s) (fun i => t_inact (rt s i)) bins (bo_nd _ _ _ BO)).
  pose proof (row_bins_stp _ s H ND HL) as X. pose proof (row_bins_Mid _ s H M ND HL) as M1.
  destruct (process_row_bins (groups_of (mA s) bins) s) as [s1 st]. cbn [fst] in *.
  destruct X as [S1 [F1 E]]. apply dir_Mid; auto. apply S1.
Qed.
