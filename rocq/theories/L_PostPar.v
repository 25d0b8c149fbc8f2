(** Replaying the records of parallel rows keeps the dual equations, if no row gave both sides. *)
From Coq Require Import NArith Lqa Qabs.
From Verif Require Import M_Num S_LP M_Settings M_Driver S_Driver M_State M_Act M_Core M_Simple
  M_StonCols M_Dton M_Parallel M_Propagate M_Init M_Post M_Run S_Run S_Struct S_Sem S_Sem2 S_Sem3 S_Sem4 S_Log S_Merge S_Sides
  L_State L_Init L_Struct L_Struct2 L_Struct3 L_Struct4 L_Struct5 L_Struct6 L_Struct7 L_Struct8 L_Struct9 L_Struct10 L_Struct11
  L_Sem L_Sem2 L_Sem3 L_Sem4 L_Mid L_Mid2 L_Mid3 L_Mid4 L_Mid5 L_Mid6 L_Act L_Act2 L_Act3 L_Act4 L_Act5 L_Act6 L_Act7
  L_Ston L_Ston2 L_Reach L_Reach2 L_Post L_Post2 L_Post3 L_Post4 L_Post5 L_ParRow L_ParRow2 L_Post6 L_Post7 L_Sub.
Import M_Driver.
Notation bad := M_State.bad.
Open Scope Q_scope.
Notation St := (L_Post.St True).
Notation Back := (L_Post.Back True).

(** ** The multiplier moves to the row the side came from *)
Lemma scaled_coeff : forall q r r' k, scaled q r r' -> coeff r k == q * coeff r' k.
Proof.
  intros q r r' k H. induction H as [|[a x] [b y] r r' [E1 E2] H IH]; cbn [coeff]; [lra|].
  cbn [fst snd] in *. subst b. destruct (Nat.eqb a k); rewrite ?IH, ?E2; lra.
Qed.
Lemma side_move : forall l s i o v q t, Inv s -> FC s -> (i < nr s)%nat -> t_inact (rt s i) = false ->
  (o < nr s)%nat -> t_inact (rt s o) = false -> i <> o -> scaled q (mA s i) (mA s o) ->
  St s t -> val (sy t o) == 0 ->
  let t' := retrieve_side_change l i (mA s i) v o q t in
  St s t' /\ s_err t' = s_err t /\ forall j, j <> i -> j <> o -> sy t' j = sy t j.
Proof.
  intros l s i o v q t H F Hi Ti Ho To NE SC [X Z Y K] Z0. cbv zeta. unfold retrieve_side_change.
  assert (AK : all_known (sx t) (mA s i) = true).
  { apply all_known_true. intros k a Hk. destruct (F i k a Hi Ti Hk). apply X; auto. }
  rewrite AK, (Y i Hi Ti). cbn [negb orb].
  assert (G : forall t', sx t' = sx t -> sz t' = sz t -> (forall j, known (sy t j) = true -> known (sy t' j) = true) ->
    s_err t' = (s_err t || false)%bool -> (forall j, j <> i -> j <> o -> sy t' j = sy t j) ->
    (forall k, (k < nc s)%nat -> t_cinact (ct s k) = false -> ysum (sy t') (acol s k) == ysum (sy t) (acol s k)) ->
    St s t' /\ s_err t' = s_err t /\ forall j, j <> i -> j <> o -> sy t' j = sy t j).
  { intros t' G1 G2 G3 G4 G5 G6. split; [|split; [rewrite G4; apply orb_false_r|auto]]. constructor; rewrite ?G1, ?G2; auto.
    intros e0 k Hk Tk. rewrite (G6 k Hk Tk). apply K; auto. }
  assert (U : forall f j (x : Q) n, known (f n) = true -> known (upd f j (Some x) n) = true).
  { intros f j x n KN. destruct (Nat.eq_dec n j) as [->|N]; [rewrite upd_same; auto|rewrite upd_other; auto]. }
  assert (SA : forall k, (k < nc s)%nat -> srt (acol s k)) by (intros; apply srt_filter, (w_csrt s (inv_0 s H)); auto).
  destruct (negb _); [apply G; auto; intros; reflexivity|]. destruct (if l then _ else _); apply G; auto; cbn [put_y err_if sy]; auto.
  - intros j N1 N2. rewrite upd_other; auto.
  - intros k Hk Tk. rewrite (ysum_coeff_upd _ o _ _ (SA k Hk)), Z0. ring.
  - intros j N1 N2. rewrite !upd_other; auto.
  - intros k Hk Tk. rewrite (ysum_coeff_upd _ i _ _ (SA k Hk)), (ysum_coeff_upd _ o _ _ (SA k Hk)), Z0.
    rewrite upd_other by auto.
    rewrite (acol_coeff s i k H Hi Ti Hk Tk), (acol_coeff s o k H Ho To Hk Tk), (scaled_coeff q _ _ k SC). ring.
Qed.

(** ** Where the new sides come from *)
Definition MF (s : state) (i0 : nat) (D : list nat) (m : merge) : Prop := m_eq m = false ->
  m_idx m = i0 /\ m_coeff m = fc s i0 /\
  (m_rhs m = rhs s i0 \/ In (m_rhs_from m) D /\ m_rhs_ratio m = fc s i0 / fc s (m_rhs_from m)) /\
  (m_lhs m = lhs s i0 \/ In (m_lhs_from m) D /\ m_lhs_ratio m = fc s i0 / fc s (m_lhs_from m)).
Lemma MF_step : forall s i0 D m o m', MF s i0 D m -> merge_step s m o = Some m' -> MF s i0 (D ++ [o]) m'.
Proof.
  intros s i0 D m o m' I E EQ. unfold merge_step in E.
  destruct (negb (m_eq m) && t_eq (rt s o)) eqn:C; cbv zeta beta iota in E.
  - cbn [m_eq andb] in E. repeat match type of E with context [if ?c then _ else _] => destruct c end;
    try discriminate; injection E as <-; discriminate.
  - destruct (m_eq m) eqn:EM.
    { cbn [andb] in E. repeat match type of E with context [if ?c then _ else _] => destruct c end;
      try discriminate; injection E as <-; congruence. }
    destruct (I EM) as (I1 & I2 & I3 & I4).
    assert (L : forall j, In j D -> In j (D ++ [o])) by (intros; apply in_or_app; auto).
    assert (Lo : In o (D ++ [o])) by (apply in_or_app; right; left; auto).
    cbn [andb] in E. unfold fc in *.
    repeat match type of E with context [if ?c then _ else _] => destruct c end; injection E as <-;
    cbn [m_idx m_eq m_coeff m_rhs m_lhs m_rhs_from m_rhs_ratio m_lhs_from m_lhs_ratio];
    (split; [exact I1|]); (split; [exact I2|]); (split; [|]);
    try (right; split; [exact Lo|rewrite I2; reflexivity]);
    try (destruct I3 as [I3|[I3 I3']]; auto; fail); try (destruct I4 as [I4|[I4 I4']]; auto; fail).
Qed.
Lemma MF_loop : forall l s i0 D m m', MF s i0 D m -> merge_loop s m l = Some m' -> MF s i0 (D ++ l) m'.
Proof.
  induction l as [|o l IH]; intros s i0 D m m' I E; cbn [merge_loop] in E; [injection E as <-; rewrite app_nil_r; auto|].
  destruct (merge_step s m o) as [m1|] eqn:E1; [|discriminate].
  replace (D ++ o :: l) with ((D ++ [o]) ++ l) by (rewrite <- app_assoc; reflexivity).
  eapply IH; [|exact E]. eapply MF_step; eauto.
Qed.
Lemma MF_init : forall s i, MF s i [] (merge_init s i).
Proof. intros s i _. cbn. auto. Qed.
Lemma ext_eqb_refl : forall e, ext_eqb e e = true.
Proof. intros [|q|]; cbn; auto. apply Qeq_bool_iff. lra. Qed.

(** ** The removed rows get multiplier 0 *)
Lemma row0_St : forall s i t, (i < nr s)%nat -> St (set_row_to_inactive i 0 s) t -> St s (put_y i 0 t).
Proof.
  intros s i t Hi ST. destruct (set_row_inactive_Back True s i Hi) as [new [L [_ B]]].
  assert (new = [DELETED_ROW i 0]) as ->.
  { change (log (set_row_to_inactive i 0 s)) with ([DELETED_ROW i 0] ++ log s) in L. apply app_inv_tail in L. auto. }
  destruct (B t ST) as [t' [S1 [_ R]]]. specialize (R []). cbn in R. rewrite <- R in S1. exact S1.
Qed.
Lemma inact_fold_zero : forall bin i s, (forall j, In j bin -> (j < nr s)%nat) ->
  let s' := foldS (fun s j => if Nat.eqb j i then s else set_row_to_inactive j 0 s) bin s in
  exists new, log s' = new ++ log s /\ (shp s s' new /\ forall l, grouped 0 l -> grouped 0 (new ++ l)) /\
  forall t, St s' t -> exists t', St s t' /\ s_err t' = s_err t /\
    (forall j, In j bin -> j <> i -> val (sy t' j) == 0) /\ forall rest, replay None (new ++ rest) t = replay None rest t'.
Proof.
  induction bin as [|j bin IH]; intros i s HB; cbv zeta; simpl foldS.
  { exists []. split; [reflexivity|]. split; [split; [apply shp_refl|auto]|]. intros t H. exists t.
    split; [auto|]. split; [auto|]. split; [intros j []|auto]. }
  destruct (Nat.eqb_spec j i) as [->|N].
  - destruct (IH i s) as [new [L [S B]]]; [intros; apply HB; right; auto|]. exists new. split; [exact L|]. split; [exact S|].
    intros t ST. destruct (B t ST) as [t' [S1 [E1 [Z1 R1]]]]. exists t'. split; [auto|]. split; [auto|]. split; [|auto].
    intros j [<-|Hj] NE; [congruence|auto].
  - assert (Hj : (j < nr s)%nat) by (apply HB; left; auto).
    destruct (IH i (set_row_to_inactive j 0 s)) as [new [L [[S G] B]]]; [intros k Hk; apply HB; right; auto|].
    exists (new ++ [DELETED_ROW j 0]). split.
    { rewrite L. change (log (set_row_to_inactive j 0 s)) with (DELETED_ROW j 0 :: log s). rewrite <- app_assoc. reflexivity. }
    split.
    { split.
      - eapply shp_trans; [|exact S]. split; [reflexivity|]. split; [reflexivity|]. constructor; [exact Hj|constructor].
      - intros l GL. rewrite <- app_assoc. apply G. exact GL. }
    intros t ST. destruct (B t ST) as [t' [S1 [E1 [Z1 R1]]]]. exists (put_y j 0 t').
    split; [apply row0_St; auto|]. split; [exact E1|]. split.
    + intros k Hk NE. cbn [put_y sy]. destruct (Nat.eq_dec k j) as [->|NK]; [rewrite upd_same; cbn; lra|].
      rewrite upd_other by auto. destruct Hk as [Hk|Hk]; [congruence|auto].
    + intros rest. rewrite <- app_assoc, R1. reflexivity.
Qed.

(** ** One group *)
Definition recs (log0 log1 : list reduction) (x : reduction) : Prop := log1 = log0 \/ log1 = x :: log0.
Lemma change_rhs_log : forall i v o q s, row_view s i = mA s i ->
  let s' := fst (change_rhs_of_ineq i v o q s) in
  rowkeep s s' /\ lhs s' = lhs s /\ (log s' = log s \/ log s' = RHS_CHANGE i (mA s i) v o q :: log s).
Proof.
  intros i v o q s V. cbv zeta. unfold change_rhs_of_ineq. destruct (_ && _); [split; [apply rowkeep_refl|auto]|].
  cbv zeta. cbn [fst]. rewrite V.
  set (s1 := if t_rhs_inf (rt s i) then update_locks_ineq_to_eq (mA s i) false s else s).
  assert (L1 : locks_only s s1).
  { unfold s1. destruct (t_rhs_inf _); [apply locks_only_ineq_to_eq|apply locks_only_refl]. }
  destruct L1 as [x [y E1]]. rewrite E1. clearbody s1. clear E1 s1.
  split; [|split].
  - destruct (_ && _); [|constructor; sr; auto; intros j; updg; auto].
    destruct (Nat.eqb _ _); constructor; unfold push_dton; sr; auto; intros j; updg; auto; updg; auto.
  - destruct (_ && _); [destruct (Nat.eqb _ _)|]; reflexivity.
  - right. destruct (_ && _); [destruct (Nat.eqb _ _)|]; reflexivity.
Qed.
Lemma change_lhs_log : forall i v o q s, row_view s i = mA s i ->
  let s' := fst (change_lhs_of_ineq i v o q s) in
  rowkeep s s' /\ (log s' = log s \/ log s' = LHS_CHANGE i (mA s i) v o q :: log s).
Proof.
  intros i v o q s V. cbv zeta. unfold change_lhs_of_ineq. destruct (_ && _); [split; [apply rowkeep_refl|auto]|].
  cbv zeta. cbn [fst]. rewrite V.
  set (s1 := if t_lhs_inf (rt s i) then update_locks_ineq_to_eq (mA s i) true s else s).
  assert (L1 : locks_only s s1).
  { unfold s1. destruct (t_lhs_inf _); [apply locks_only_ineq_to_eq|apply locks_only_refl]. }
  destruct L1 as [x [y E1]]. rewrite E1. clearbody s1. clear E1 s1.
  split.
  - destruct (_ && _); [|constructor; sr; auto; intros j; updg; auto].
    destruct (Nat.eqb _ _); constructor; unfold push_dton; sr; auto; intros j; updg; auto; updg; auto.
  - right. destruct (_ && _); [destruct (Nat.eqb _ _)|]; reflexivity.
Qed.
Lemma rowkeep_trans : forall a b c, rowkeep a b -> rowkeep b c -> rowkeep a c.
Proof. intros a b c [] []. constructor; try congruence. Qed.
Lemma rowkeep_quietly : forall s s', rowkeep s s' -> quietly s s'.
Proof. intros s s' [A B C D E G I]. apply quietly_same; auto. intros k. rewrite E. auto. Qed.

Lemma row_bin_par : forall bin s, Inv s -> FC s -> NoDup bin -> (forall j, In j bin -> live_row s j) ->
  (forall i j, In i bin -> In j bin -> scaled (fc s j / fc s i) (mA s j) (mA s i)) ->
  snd (process_row_bin bin s) <> INFEASIBLE -> one_side (log (fst (process_row_bin bin s))) ->
  Back s (fst (process_row_bin bin s)).
Proof.
  intros bin s H F ND HL GS. unfold process_row_bin. destruct bin as [|i0 l]; [intros; apply Back_refl|].
  destruct (merge_loop s (merge_init s i0) l) as [m|] eqn:EM; [|intros X; elim X; reflexivity].
  assert (HI : In (m_idx m) (i0 :: l)).
  { apply merge_loop_idx in EM. simpl in *. destruct EM; auto. }
  pose proof (MF_loop l s i0 [] _ m (MF_init s i0) EM) as MFm. cbn [app] in MFm.
  set (i := m_idx m) in *. destruct (HL i HI) as [Hi [Ti Ni]]. cbv zeta.
  set (p1 := if negb (m_eq m) && (negb (m_rhs_inf m) && negb (ext_eqb (m_rhs m) (rhs s i)))
             then change_rhs_of_ineq i (fin (m_rhs m)) (m_rhs_from m) (m_rhs_ratio m) s
             else (s, UNCHANGED)).
  assert (X : (rowkeep s (fst p1) /\ lhs (fst p1) = lhs s) /\ stp s (fst p1) /\
    (log (fst p1) = log s \/ exists v o q, In o l /\ o <> i /\ scaled q (mA s i) (mA s o) /\ log (fst p1) = RHS_CHANGE i (mA s i) v o q :: log s)).
  { unfold p1. destruct (_ && _) eqn:C; [|split; [split; [apply rowkeep_refl|auto]|split; [apply stp_refl; auto|auto]]].
    apply andb_true_iff in C. destruct C as [C1 C]. apply andb_true_iff in C. destruct C as [_ C2].
    apply negb_true_iff in C1. apply negb_true_iff in C2. destruct (MFm C1) as (M1 & M2 & M3 & _).
    destruct (change_rhs_log i (fin (m_rhs m)) (m_rhs_from m) (m_rhs_ratio m) s (view_full s i H Hi Ti)) as (Y1 & Y2 & Y3).
    split; [auto|]. split; [apply change_rhs_stp; auto|]. destruct Y3 as [Y3|Y3]; [auto|right].
    fold i in M1. destruct M3 as [M3|[M3 M4]]; [rewrite M3, M1, ext_eqb_refl in C2; discriminate|].
    exists (fin (m_rhs m)), (m_rhs_from m), (m_rhs_ratio m). split; [auto|]. split; [|split; [|exact Y3]].
    - intros E. rewrite M1 in E. rewrite E in M3. apply NoDup_cons_iff in ND. apply (proj1 ND M3).
    - rewrite M4, <- M1. apply GS; simpl; auto. }
  destruct p1 as [s1 st1]. cbn [fst] in X. destruct X as [[K1 LH1] [S1 L1]].
  destruct (N.eqb_spec st1 INFEASIBLE) as [E1|_]; [intros X; elim X; reflexivity|].
  pose proof K1 as [A1 A2 A3 A4 A5 A6 A7].
  assert (Hi1 : (i < nr s1)%nat) by (rewrite A1; auto).
  assert (Ti1 : t_inact (rt s1 i) = false) by (rewrite A7; auto).
  set (p2 := if negb (m_eq m) && (negb (m_lhs_inf m) && negb (ext_eqb (m_lhs m) (lhs s1 i)))
             then change_lhs_of_ineq i (fin (m_lhs m)) (m_lhs_from m) (m_lhs_ratio m) s1
             else (s1, UNCHANGED)).
  assert (X : rowkeep s1 (fst p2) /\
    (log (fst p2) = log s1 \/ exists v o q, In o l /\ o <> i /\ scaled q (mA s i) (mA s o) /\ log (fst p2) = LHS_CHANGE i (mA s i) v o q :: log s1)).
  { unfold p2. destruct (_ && _) eqn:C; [|split; [apply rowkeep_refl|auto]].
    apply andb_true_iff in C. destruct C as [C1 C]. apply andb_true_iff in C. destruct C as [_ C2].
    apply negb_true_iff in C1. apply negb_true_iff in C2. destruct (MFm C1) as (M1 & M2 & _ & M3).
    destruct (change_lhs_log i (fin (m_lhs m)) (m_lhs_from m) (m_lhs_ratio m) s1 (view_full s1 i (st_inv _ _ S1) Hi1 Ti1)) as (Y1 & Y3).
    split; [auto|]. destruct Y3 as [Y3|Y3]; [auto|right].
    fold i in M1. destruct M3 as [M3|[M3 M4]]; [rewrite M3, M1, LH1, ext_eqb_refl in C2; discriminate|].
    rewrite A3 in Y3. exists (fin (m_lhs m)), (m_lhs_from m), (m_lhs_ratio m). split; [auto|]. split; [|split; [|exact Y3]].
    - intros E. rewrite M1 in E. rewrite E in M3. apply NoDup_cons_iff in ND. apply (proj1 ND M3).
    - rewrite M4, <- M1. apply GS; simpl; auto. }
  destruct p2 as [s2 st2]. cbn [fst] in X. destruct X as [K2 L2].
  destruct (N.eqb_spec st2 INFEASIBLE) as [E2|_]; [intros X; elim X; reflexivity|].
  cbn [fst snd]. intros _ OS.
  pose proof (rowkeep_trans _ _ _ K1 K2) as K. pose proof (rowkeep_quietly _ _ K) as QL.
  assert (HB : forall j, In j (i0 :: l) -> (j < nr s2)%nat) by (intros j Hj; rewrite (rk_nr _ _ K); apply HL; auto).
  pose proof (inact_fold_zero (i0 :: l) i s2 HB) as IF. cbv zeta in IF.
  match goal with |- Back s ?x => set (s3 := x) in *; change (log x) with (log s3) in OS end.
  destruct IF as [new [L3 [[SH G3] B3]]].
  assert (MV : forall b o v q t, In o l -> o <> i -> scaled q (mA s i) (mA s o) -> St s t -> val (sy t o) == 0 ->
     let t' := retrieve_side_change b i (mA s i) v o q t in
     St s t' /\ s_err t' = s_err t /\ forall j, j <> i -> j <> o -> sy t' j = sy t j).
  { intros b o v q t Ho NE SC ST Z0. destruct (HL o (or_intror Ho)) as [Lo [To _]]. apply side_move; auto. }
  assert (BL : below (nc s) (mA s i)) by (intros c e Hc; apply (F i c e Hi Ti Hc)).
  assert (LT : forall o, In o l -> (o < nr s)%nat) by (intros o Ho; apply (HL o (or_intror Ho))).
  assert (Q3 : forall t, St s3 t -> exists t', St s t' /\ s_err t' = s_err t /\
    (forall j, In j l -> j <> i -> val (sy t' j) == 0) /\ forall rest, replay None (new ++ rest) t = replay None rest t').
  { intros t ST. destruct (B3 t ST) as [t' [T1 [T2 [T3 T4]]]]. exists t'. split; [eapply quietly_St; eauto|].
    split; [auto|]. split; [|auto]. intros j Hj NE. apply T3; simpl; auto. }
  assert (SH' : nr s3 = nr s /\ nc s3 = nc s /\ Forall (in_range (nc s) (nr s)) new).
  { destruct SH as (U1 & U2 & U3). rewrite (rk_nr _ _ K), (rk_nc _ _ K) in *. auto. }
  destruct SH' as (U1 & U2 & U3).
  destruct L2 as [L2|(vl & ol & ql & OL1 & OL2 & OL3 & L2)]; destruct L1 as [L1|(vr & or & qr & OR1 & OR2 & OR3 & L1)].
  - exists new. split; [rewrite L3, L2, L1; reflexivity|]. split; [split; [split; auto|exact G3]|].
    intros t ST. destruct (Q3 t ST) as [t' [T1 [T2 [_ T3]]]]. exists t'. auto.
  - exists (new ++ [RHS_CHANGE i (mA s i) vr or qr]). split; [rewrite L3, L2, L1, <- app_assoc; reflexivity|].
    split; [split; [split; [auto|split; [auto|]]|]|].
    + apply Forall_app. split; [auto|]. constructor; [|constructor]. split; auto.
    + intros r Gr. rewrite <- app_assoc. apply G3. exact Gr.
    + intros t ST. destruct (Q3 t ST) as [t' [T1 [T2 [T3 T4]]]].
      destruct (MV false or vr qr t' OR1 OR2 OR3 T1 (T3 or OR1 OR2)) as (V1 & V2 & _).
      eexists. split; [exact V1|]. split; [intros _; rewrite V2; exact T2|]. intros rest. rewrite <- app_assoc, T4. reflexivity.
  - exists (new ++ [LHS_CHANGE i (mA s i) vl ol ql]). split; [rewrite L3, L2, L1, <- app_assoc; reflexivity|].
    split; [split; [split; [auto|split; [auto|]]|]|].
    + apply Forall_app. split; [auto|]. constructor; [|constructor]. split; auto.
    + intros r Gr. rewrite <- app_assoc. apply G3. exact Gr.
    + intros t ST. destruct (Q3 t ST) as [t' [T1 [T2 [T3 T4]]]].
      destruct (MV true ol vl ql t' OL1 OL2 OL3 T1 (T3 ol OL1 OL2)) as (V1 & V2 & _).
      eexists. split; [exact V1|]. split; [intros _; rewrite V2; exact T2|]. intros rest. rewrite <- app_assoc, T4. reflexivity.
  - assert (NLR : or <> ol).
    { intros ->. rewrite L3, L2, L1 in OS.
      apply (OS i (mA s i) vl ol ql i (mA s i) vr qr); apply in_or_app; right; [left|right; left]; reflexivity. }
    exists (new ++ [LHS_CHANGE i (mA s i) vl ol ql; RHS_CHANGE i (mA s i) vr or qr]). split; [rewrite L3, L2, L1, <- app_assoc; reflexivity|].
    split; [split; [split; [auto|split; [auto|]]|]|].
    + apply Forall_app. split; [auto|]. constructor; [|constructor; [|constructor]]; split; auto.
    + intros r Gr. rewrite <- app_assoc. apply G3. exact Gr.
    + intros t ST. destruct (Q3 t ST) as [t' [T1 [T2 [T3 T4]]]].
      destruct (MV true ol vl ql t' OL1 OL2 OL3 T1 (T3 ol OL1 OL2)) as (V1 & V2 & V3).
      assert (Z2 : val (sy (retrieve_side_change true i (mA s i) vl ol ql t') or) == 0) by (rewrite V3 by auto; apply T3; auto).
      destruct (MV false or vr qr _ OR1 OR2 OR3 V1 Z2) as (W1 & W2 & _).
      eexists. split; [exact W1|]. split; [intros _; rewrite W2, V2; exact T2|]. intros rest. rewrite <- app_assoc, T4. reflexivity.
Qed.

(** ** All groups *)
Lemma one_side_tail : forall new l, one_side (new ++ l) -> one_side l.
Proof. intros new l H i r v j q i' r' v' q' A B. eapply H; apply in_or_app; right; eauto. Qed.
Lemma Back_log : forall E0 s s', L_Post.Back E0 s s' -> exists new, log s' = new ++ log s.
Proof. intros E0 s s' [new [L _]]. eauto. Qed.
Lemma row_bins_par : forall gs s, Inv s -> FC s -> NoDup (concat gs) ->
  (forall g j, In g gs -> In j g -> live_row s j) ->
  (forall g i j, In g gs -> In i g -> In j g -> scaled (fc s j / fc s i) (mA s j) (mA s i)) ->
  snd (process_row_bins gs s) <> INFEASIBLE -> one_side (log (fst (process_row_bins gs s))) ->
  Back s (fst (process_row_bins gs s)).
Proof.
  induction gs as [|g gs IH]; cbn [process_row_bins]; intros s H F ND HL GS; [intros; apply Back_refl|].
  cbn [concat] in ND.
  assert (ND1 : NoDup g) by (apply NoDup_app_remove_r in ND; auto).
  assert (HL1 : forall j, In j g -> live_row s j) by (intros; eapply HL; simpl; eauto).
  pose proof (row_bin_stp g s H ND1 HL1) as X.
  pose proof (row_bin_Back False (fun f => f) g s H F HL1) as Y.
  pose proof (row_bin_par g s H F ND1 HL1 (fun i j => GS g i j (or_introl eq_refl))) as Z.
  pose proof (keepA_row_bin g s) as KA. destruct (process_row_bin g s) as [s1 st].
  cbn [fst snd] in *. destruct Y as [_ C1]. destruct X as [S1 [F1 [A1 R1]]].
  destruct (N.eqb_spec st INFEASIBLE) as [E|NI]; [intros X; elim X; reflexivity|].
  intros NT OS.
  assert (I1 : Inv s1) by apply S1.
  assert (FC1 : FC s1).
  { eapply FC_keep; [apply (stp_nr _ _ S1)|apply (stp_nc _ _ S1)|exact A1|exact C1|apply (ka_rt _ _ KA)|exact F]. }
  assert (ND2 : NoDup (concat gs)) by (apply NoDup_app_remove_l in ND; auto).
  assert (HL2 : forall g j, In g gs -> In j g -> live_row s1 j).
  { intros g' j Hg Hj. destruct (HL g' j (or_intror Hg) Hj) as [A [B C]].
    unfold live_row. rewrite (stp_nr _ _ S1), A1, R1; auto.
    intros X. clear - ND X Hg Hj. assert (Y : In j (concat gs)) by (apply in_concat; eauto).
    induction g as [|z t IHt]; simpl in *; [contradiction|].
    inversion ND; subst. destruct X as [->|X]; auto. apply H1, in_or_app; auto. }
  destruct (Back_log _ _ _ (row_bins_Back False (fun f => f) gs s1 I1 FC1 ND2 HL2)) as [n2 E2].
  assert (OS1 : one_side (log s1)) by (rewrite E2 in OS; eapply one_side_tail; eauto).
  eapply Back_trans; [apply (Z NI OS1)|]. apply IH; auto.
  intros g' i j Hg Hi Hj. unfold fc. rewrite A1. apply (GS g' i j); simpl; auto.
Qed.
Lemma par_rows_par : forall s, Inv s -> Nx s -> quiet s -> w_empty_rows s = [] -> clear_cut (reduced_lp s) ->
  snd (remove_parallel_rows s) <> INFEASIBLE -> one_side (log (fst (remove_parallel_rows s))) ->
  Back s (fst (remove_parallel_rows s)).
Proof.
  intros s H NX QQ WE CC. unfold remove_parallel_rows, remove_parallel_rows_with.
  pose proof (par_groups_live s H NX QQ WE) as HL.
  pose proof (hash_bins_ok (mA s) (fun i => t_inact (rt s i)) (nr s)) as BO.
  set (bins := hash_bins _ _ _) in *.
  assert (ND := groups_nd (mA s) (fun i => t_inact (rt s i)) bins (bo_nd _ _ _ BO)).
  assert (GF : forall g, In g (groups_of (mA s) bins) -> exists f l, g = find_parallel_rows_in_bin (mA s) (f :: l)).
  { intros g Hg. assert (Hg' := Hg). apply groups_in in Hg'. destruct Hg' as [[|f l] [_ ->]]; eauto.
    apply filter_In in Hg. destruct Hg as [_ Hg]. discriminate. }
  assert (GS : forall g i j, In g (groups_of (mA s) bins) -> In i g -> In j g -> scaled (fc s j / fc s i) (mA s j) (mA s i)).
  { intros g i j Hg. apply (group_scaled s g H CC); auto. intros; eapply HL; eauto. }
  pose proof (row_bins_par (groups_of (mA s) bins) s H (quiet_FC s H QQ) ND HL GS) as B.
  pose proof (row_bins_stp (groups_of (mA s) bins) s H ND HL) as X.
  destruct (process_row_bins (groups_of (mA s) bins) s) as [s1 st]. cbn [fst snd] in *. destruct X as [S1 _].
  assert (D : Back s1 (delete_inactive_rows s1)) by (apply dir_Back; apply S1).
  intros NI OS. eapply Back_trans; [|exact D]. apply B; auto.
  destruct (Back_log _ _ _ D) as [n E]. rewrite E in OS. eapply one_side_tail; eauto.
Qed.

(** ** Ratios of the original problem *)
Lemma Forall2_impl_in : forall (A B : Type) (P Q : A -> B -> Prop) l l', Forall2 P l l' ->
  (forall a b, In a l -> In b l' -> P a b -> Q a b) -> Forall2 Q l l'.
Proof.
  intros A B P Q l l' H. induction H as [|a b l l' E H IH]; intros K; constructor.
  - apply K; [left|left|]; auto.
  - apply IH. intros; apply K; [right|right|]; auto.
Qed.
Lemma ratios_cut : forall stgs fits P s, wf_input P -> coefficients_kept stgs -> clear_ratios P -> reached stgs fits P s ->
  clear_cut (reduced_lp s).
Proof.
  intros stgs fits P s WF CK CR R. pose proof (reached_Sub stgs fits P s CK R) as SB.
  destruct (reached_log stgs fits P s WF CK R) as (NR & _).
  intros i j Hi Hj NE q NS. cbn [reduced_lp lp_rows lp_A] in *.
  apply live_rows_in in Hi. apply live_rows_in in Hj. rewrite NR in *. destruct Hi as [Hi _]. destruct Hj as [Hj _].
  apply (Forall2_impl_in _ _ _ _ _ _ NS). intros [k c] [k' d] I1 I2 [E1 E2]. cbn [fst snd] in *. subst k'.
  split; [auto|]. pose proof I1 as J1. apply SB in I1. apply SB in I2. unfold q in *. clear q.
  pose proof (SB i) as SI. pose proof (SB j) as SJ.
  remember (mA s i) as ri eqn:Ei. remember (mA s j) as rj eqn:Ej.
  destruct ri as [|[k1 a] ti]; [destruct J1|]. destruct rj as [|[k2 b] tj]; [inversion NS|].
  assert (E3 : k1 = k2) by (inversion NS; subst; tauto).
  cbn [first_entry fst snd] in *. subst k2.
  refine (CR i j k1 k _ _ _ _ Hi Hj NE (SI _ _) (SJ _ _) I1 I2 E2); left; reflexivity.
Qed.

(** ** Runs *)
Lemma reached_par : forall stgs fits P s, wf_input P -> coefficients_kept stgs -> clear_ratios P ->
  reached stgs fits P s -> one_side (log s) -> Back (new_presolver P) s.
Proof.
  intros stgs fits P s WF CK CR R. pose proof CK as [CK1 CK2].
  induction R as [|f s s' st IN R IH E NT|s s' st ON C R IH E NT|s s' st ON C R IH E NT|s s' st ON R IH E NT TN]; intros OS.
  - apply Back_refl.
  - destruct (reached_ok stgs fits P s WF R) as [OK M].
    destruct (reached_Back False stgs fits P s WF CK (fun _ f => f) R) as [_ A].
    destruct (common_Back True stgs f s s' st OK M A IN E NT) as [B _].
    eapply Back_trans; [|exact B]. apply IH. destruct (Back_log _ _ _ B) as [n L]. rewrite L in OS. eapply one_side_tail; eauto.
  - destruct (reached_ok stgs fits P s WF R) as [[H Q N] M].
    pose proof (ratios_cut stgs fits P s WF CK CR R) as CC.
    pose proof (par_rows_Back False (fun f => f) s H N Q C) as B0.
    pose proof (par_rows_par s H N Q C CC) as B. rewrite E in *. cbn [fst snd] in *.
    apply not_trouble in NT. destruct NT as [NI _].
    eapply Back_trans; [|apply B; auto]. apply IH. destruct (Back_log _ _ _ B0) as [n L]. rewrite L in OS. eapply one_side_tail; eauto.
  - congruence.
  - congruence.
Qed.
Lemma back_stationary : forall stgs fits P s x y z x' y' z', wf_input P -> reached stgs fits P s ->
  Back (new_presolver P) s -> stationary (reduced_lp s) y z ->
  solution_is P (postsolve_state s x y z) x' y' z' -> stationary (lp_of_input P) y' z'.
Proof.
  intros stgs fits P s x y z x' y' z' WF R [new [L [_ B]]] SY [_ [SX SYS]].
  destruct (reached_ok stgs fits P s WF R) as [OK _].
  destruct (init_fields P) as (NR & NC & MA & CS & _ & L0 & _). rewrite L0, app_nil_r in L.
  destruct (B (start_sol s x y z) (start_St True s x y z OK (fun _ => SY))) as [t' [[_ _ _ K] [E1 R1]]].
  specialize (R1 []). rewrite app_nil_r in R1. cbn [replay] in R1.
  assert (E : postsolve_state s x y z = t').
  { unfold postsolve_state, postsolve. fold (start_sol s x y z). rewrite L. exact R1. }
  rewrite E in *.
  intros k Hk. cbn [lp_of_input lp_cols lp_c lp_rows lp_A] in *. apply in_seq in Hk.
  assert (Hk' : (k < nc (new_presolver P))%nat) by (rewrite NC; lia).
  pose proof (proj1 (new_presolver_Ok P WF)) as OK0. pose proof (ok_inv _ OK0) as H0.
  specialize (K I k Hk' (init_cols_active P k)). destruct (SX k ltac:(lia)) as [_ SZ]. rewrite SZ in K. cbn [val] in K.
  rewrite K, CS. rewrite <- MA.
  rewrite (col_sum (new_presolver P) (seq 0 (in_m P)) k y' H0); [|apply seq_NoDup|auto|apply init_cols_active|].
  - rewrite (ysum_dot _ y'); [lra|]. intros i a Hi. apply filter_In in Hi. destruct Hi as [Hi _].
    pose proof (proj1 (w_cin _ (inv_0 _ H0) i k a Hk' Hi)) as Li. rewrite NR in Li. rewrite (SYS i Li). cbn; lra.
  - intros i. rewrite NR. rewrite in_seq. split; [intros; split; [lia|apply init_rows_active]|lia].
Qed.
Lemma run_stationary_par : forall stgs fits clock fuel P r, wf_input P -> coefficients_kept stgs -> clear_ratios P ->
  run_presolver stgs fits clock fuel P = Some r -> res_reduced r = true -> one_side (log (res_state r)) ->
  forall x y z x' y' z', stationary (reduced_lp (res_state r)) y z ->
  solution_is P (postsolve_state (res_state r) x y z) x' y' z' -> stationary (lp_of_input P) y' z'.
Proof.
  intros stgs fits clock fuel P r WF CK CR H Hr OS x y z x' y' z' SY S.
  destruct (run_reached _ _ _ _ _ _ WF (proj1 CK) H Hr) as [s [R [L [LG E]]]]. rewrite E in S. rewrite L in SY. rewrite LG in OS.
  eapply (back_stationary stgs fits P s); eauto. apply (reached_par stgs fits P s); auto.
Qed.

(** ** A check of the ratios, for examples *)
Definition ratiosb (P : input) : bool :=
  forallb (fun i => forallb (fun j => Nat.eqb i j ||
    forallb (fun e1 => forallb (fun e2 => negb (Nat.eqb (fst e1) (fst e2)) ||
      forallb (fun f1 => forallb (fun f2 => negb (Nat.eqb (fst f1) (fst f2)) ||
        negb (Qle_bool (Qabs.Qabs (snd f1 - snd e1 / snd e2 * snd f2)) FEAS_TOL) ||
        Qeq_bool (snd f1) (snd e1 / snd e2 * snd f2))
      (in_A P j)) (in_A P i)) (in_A P j)) (in_A P i)) (seq 0 (in_m P))) (seq 0 (in_m P)).
Lemma ratiosb_ok : forall P, ratiosb P = true -> clear_ratios P.
Proof.
  intros P H i j k l a b c d Hi Hj NE I1 I2 I3 I4 T. unfold ratiosb in H.
  rewrite forallb_forall in H. specialize (H i ltac:(apply in_seq; lia)).
  rewrite forallb_forall in H. specialize (H j ltac:(apply in_seq; lia)).
  destruct (Nat.eqb_spec i j) as [|_]; [contradiction|]. cbn [orb] in H.
  rewrite forallb_forall in H. specialize (H _ I1). rewrite forallb_forall in H. specialize (H _ I2).
  cbn [fst snd] in H. rewrite Nat.eqb_refl in H. cbn [negb orb] in H.
  rewrite forallb_forall in H. specialize (H _ I3). rewrite forallb_forall in H. specialize (H _ I4).
  cbn [fst snd] in H. rewrite Nat.eqb_refl in H. cbn [negb orb] in H.
  apply Qle_bool_iff in T. rewrite T in H. cbn [negb orb] in H. apply Qeq_bool_iff. exact H.
Qed.
