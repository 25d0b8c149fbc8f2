(** Meaning of the reductions of singleton rows. *)
From Coq Require Import NArith Lqa Qabs.
From Verif Require Import M_Num S_LP M_Settings M_Driver S_Driver M_State M_Act M_Core M_Simple
  M_StonCols M_Dton M_Parallel M_Propagate M_Init M_Post M_Run S_Run S_Struct S_Sem
  L_State L_Struct L_Struct2 L_Struct3 L_Struct4 L_Struct5 L_Struct6 L_Struct11 L_Sem L_Sem2 L_Sem3 L_Sem4.
Open Scope Q_scope.

(** Only the way back from exact solutions *)
Record semend (C : (nat -> Q) -> Prop) (r c : nat -> Q) (s t : state) : Prop := {
  sn_tags : tags_right t;
  sn_pend : pend_ok t;
  sn_empty : empty_act t;
  sn_fwd : forall x, C x -> sat zero zero s x -> sat zero zero t x;
  sn_bwd : forall x, sat zero zero t x -> sat r c s x;
  sn_obj : forall x, obj t x == obj s x }.
Lemma semend_of : forall (C : (nat -> Q) -> Prop) r c s t, (forall i, 0 <= r i) -> (forall k, 0 <= c k) ->
  semstep C r c s t -> semend C r c s t.
Proof.
  intros C r c s t R K [S1 S2 S6 S3 S4 S5]. constructor; auto.
  intros x Sx. apply S4. eapply sat_weaken; [| |exact Sx]; auto.
Qed.
Lemma semend_comp : forall (C : (nat -> Q) -> Prop) r c r0 c0 s t u,
  (forall i, r0 i <= r i) -> (forall k, c0 k <= c k) ->
  semstep C r c s t -> semend C r0 c0 t u -> semend C r c s u.
Proof.
  intros C r c r0 c0 s t u R K [S1 S2 S6 S3 S4 S5] [T1 T2 T6 T3 T4 T5]. constructor; auto.
  - intros x Sx. apply S4. eapply sat_weaken; [| |apply T4; exact Sx]; auto.
  - intros x. rewrite T5. apply S5.
Qed.
Lemma semend_lp : forall (C : (nat -> Q) -> Prop) r c s t, Ok s -> Inv t -> semend C r c s t ->
  w_sub t = [] \/ w_ston_rows t = [] -> Ok (finish t) ->
  tags_right (finish t) /\ empty_act (finish t) /\
  carries_over C (reduced_lp s) (reduced_lp (finish t)) /\
  lifts_back r c (reduced_lp s) (reduced_lp (finish t)).
Proof.
  intros C r c s t OK H [S1 S2 S6 S3 S4 S5] PRE OK'.
  destruct (finish_sem t H S1 S2 PRE) as [F1 [F2 [F4 [_ [_ [F3 F5]]]]]].
  split; [exact F4|]. split; [auto|]. split.
  - intros x Fx Cx. apply sat_feasible in Fx; auto. apply S3 in Fx; auto.
    pose proof (sat_pinned _ _ _ _ Fx) as PN. apply F1 in Fx. destruct Fx as [Fx _].
    split; [apply sat_feasible; auto|]. rewrite <- !obj_reduced. rewrite (F2 x PN). apply S5.
  - intros x' Fx. apply sat_feasible in Fx; auto.
    destruct (finish_back _ _ t x' H S1 S2 PRE Fx) as [y [A [B D]]].
    exists y. split; [exact A|]. split.
    + apply sat_reduced; auto.
    + rewrite <- !obj_reduced. rewrite <- D. symmetry. apply S5.
Qed.

(** ** Bounds from a row, with what is left of them *)
Definition keeps (s s1 : state) : Prop :=
  nr s1 = nr s /\ nc s1 = nc s /\ mA s1 = mA s /\ mAT s1 = mAT s /\ lhs s1 = lhs s /\ rhs s1 = rhs s /\ rt s1 = rt s /\
  w_sub s1 = w_sub s /\ w_ston_rows s1 = w_ston_rows s /\ w_empty_rows s1 = w_empty_rows s /\
  (forall k, t_fixed (ct s1 k) = t_fixed (ct s k) /\ t_sub (ct s1 k) = t_sub (ct s k)).
Lemma keeps_refl : forall s, keeps s s. Proof. intros. repeat (split; auto). Qed.

Lemma update_lb_sem : forall (C : (nat -> Q) -> Prop) r c k v i s s1 st, (k < nc s)%nat ->
  t_cinact (ct s k) = false -> tags_right s -> pend_ok s -> empty_act s -> Inv s ->
  (forall x, C x -> sat zero zero s x -> v <= x k) -> update_lb k v i s = (s1, st) ->
  st = INFEASIBLE /\ (forall x, C x -> ~ sat zero zero s x) \/
  st = UNCHANGED /\ semstep C r c s s1 /\ keeps s s1 /\ Inv s1 /\ ub s1 = ub s /\
    (forall q, ext_le (lb s1 k) q -> v - FEAS_TOL <= q).
Proof.
  intros C r c k v i s s1 st Hk TK TG PO AE H HV E.
  pose proof tol_pos as TP.
  pose proof (update_lb_cases k v i s) as X. rewrite E in X.
  pose proof (update_lb_same k v i s (Inv_col_in s k H Hk)) as SM. rewrite E in SM. cbn [fst] in SM.
  destruct X as [[-> [-> [TU U]]]|[-> [U X]]].
  - left. split; auto. intros x Cx S. pose proof (HV x Cx S) as V. destruct S as [_ [S2 _]].
    destruct (S2 k Hk TK) as [_ X]. pose proof (tr_ub s TG k Hk TK) as U0. rewrite TU in U0.
    apply le_ext_fin in X; auto. unfold exactly in X. lra.
  - right. split; auto. destruct X as [[-> [TL L]]|[LE NW]].
    + split; [apply semstep_refl; auto|]. split; [apply keeps_refl|]. split; auto. split; auto.
      intros q Q. pose proof (tr_lb s TG k Hk TK) as L0. rewrite TL in L0. apply ext_le_fin in Q; auto. lra.
    + assert (S1 : semstep C r c s s1).
      { eapply lb_new_sem; eauto. intros T. specialize (LE T). lra. }
      split; auto. destruct NW as [A [W NW]]. rewrite NW in *. split.
      * unfold keeps. sr. repeat (split; [reflexivity|]). intros j. updg; auto.
      * split; [eapply stp_same; eauto|]. split; [sr; reflexivity|]. sr. rewrite upd_same. simpl.
        intros q Q. lra.
Qed.
Lemma update_ub_sem : forall (C : (nat -> Q) -> Prop) r c k v i s s1 st, (k < nc s)%nat ->
  t_cinact (ct s k) = false -> tags_right s -> pend_ok s -> empty_act s -> Inv s ->
  (forall x, C x -> sat zero zero s x -> x k <= v) -> update_ub k v i s = (s1, st) ->
  st = INFEASIBLE /\ (forall x, C x -> ~ sat zero zero s x) \/
  st = UNCHANGED /\ semstep C r c s s1 /\ keeps s s1 /\ Inv s1 /\ lb s1 = lb s /\
    (forall q, le_ext q (ub s1 k) -> q <= v + FEAS_TOL).
Proof.
  intros C r c k v i s s1 st Hk TK TG PO AE H HV E.
  pose proof tol_pos as TP.
  pose proof (update_ub_cases k v i s) as X. rewrite E in X.
  pose proof (update_ub_same k v i s (Inv_col_in s k H Hk)) as SM. rewrite E in SM. cbn [fst] in SM.
  destruct X as [[-> [-> [TU U]]]|[-> [U X]]].
  - left. split; auto. intros x Cx S. pose proof (HV x Cx S) as V. destruct S as [_ [S2 _]].
    destruct (S2 k Hk TK) as [X _]. pose proof (tr_lb s TG k Hk TK) as U0. rewrite TU in U0.
    apply ext_le_fin in X; auto. unfold exactly in X. lra.
  - right. split; auto. destruct X as [[-> [TL L]]|[LE NW]].
    + split; [apply semstep_refl; auto|]. split; [apply keeps_refl|]. split; auto. split; auto.
      intros q Q. pose proof (tr_ub s TG k Hk TK) as L0. rewrite TL in L0. apply le_ext_fin in Q; auto. lra.
    + assert (S1 : semstep C r c s s1).
      { eapply ub_new_sem; eauto. intros T. specialize (LE T). lra. }
      split; auto. destruct NW as [A [W NW]]. rewrite NW in *. split.
      * unfold keeps. sr. repeat (split; [reflexivity|]). intros j. updg; auto.
      * split; [eapply stp_same; eauto|]. split; [sr; reflexivity|]. sr. rewrite upd_same. simpl.
        intros q Q. lra.
Qed.

(** ** One row *)
Definition kill_row (i : nat) (s : state) : state :=
  set_nnz (nnz s - 1)%Z (setA i [] (set_rt1 i R_INACTIVE (set_rsz1 i (-1)%Z s))).
Lemma kill_row_sem : forall (C : (nat -> Q) -> Prop) r c s i, tags_right s -> pend_ok s ->
  empty_act s -> ~ In i (w_empty_rows s) -> (i < nr s)%nat -> t_inact (rt s i) = false ->
  (forall x, pinned s x -> within (r i) (lhs s i) (dot (mA s i) x) (rhs s i)) ->
  semstep C r c s (kill_row i s).
Proof.
  intros C r c s i TG PO AE NE Hi T HB. unfold kill_row.
  constructor.
  - destruct TG as [G1 G2 G3 G4 G5].
    constructor; sr; auto; intros j Hj; updg; try discriminate;
      first [apply G1|apply G2|apply G3|apply G4|apply G5]; auto.
  - destruct PO as [P1 P2]. constructor; sr; auto.
  - intros j Hj. sra. rewrite upd_other by congruence. auto.
  - intros x _ [S1 [S2 S3]]. split; [|split]; sr; auto.
    intros j Hj. updg; [discriminate|]. auto.
  - intros x S. pose proof (HB x (sat_pinned _ _ _ _ S)) as HB'. destruct S as [S1 [S2 S3]].
    sra. split; [|split]; auto.
    intros j Hj TJ. destruct (Nat.eq_dec j i) as [->|D]; [exact HB'|].
    specialize (S1 j Hj). rewrite !upd_other in S1 by auto. auto.
  - intros x. unfold obj, live_cols. sr. lra.
Qed.
Lemma semstep_record : forall (C : (nat -> Q) -> Prop) r c s t e, semstep C r c s t -> semstep C r c s (record e t).
Proof.
  intros C r c s t e [[G1 G2 G3 G4 G5] [P1 P2] A3 A4 A5 A6]. constructor; auto; constructor; auto.
Qed.

Lemma Qdiv_mul : forall a b : Q, ~ a == 0 -> a * (b / a) == b.
Proof. intros. field. auto. Qed.
Lemma Qdiv_le_pos : forall a x b : Q, 0 < a -> a * x <= b -> x <= b / a.
Proof. intros. apply Qle_shift_div_l; auto. lra. Qed.
Lemma Qdiv_ge_pos : forall a x b : Q, 0 < a -> b <= a * x -> b / a <= x.
Proof. intros. apply Qle_shift_div_r; auto. lra. Qed.
Lemma Qdiv_neg : forall a b : Q, a < 0 -> b / a == (- b) / (- a).
Proof. intros. field. lra. Qed.
Lemma Qdiv_le_neg : forall a x b : Q, a < 0 -> a * x <= b -> b / a <= x.
Proof. intros. rewrite Qdiv_neg by auto. apply Qdiv_ge_pos; lra. Qed.
Lemma Qdiv_ge_neg : forall a x b : Q, a < 0 -> b <= a * x -> x <= b / a.
Proof. intros. rewrite Qdiv_neg by auto. apply Qdiv_le_pos; lra. Qed.

(** tolerance with which a singleton row is respected *)
Definition tol_ston (s : state) (i : nat) : Q :=
  match mA s i with [(_, a)] => Qabs a * FEAS_TOL | _ => 0 end.

Definition rows_same (s t : state) : Prop :=
  nr t = nr s /\ nc t = nc s /\ forall j, t_inact (rt t j) = false ->
  t_inact (rt s j) = false /\ mA t j = mA s j /\ lhs t j = lhs s j /\ rhs t j = rhs s j.
Lemma rows_same_refl : forall s, rows_same s s.
Proof. intros. repeat (split; auto). Qed.
Lemma rows_same_trans : forall a b c, rows_same a b -> rows_same b c -> rows_same a c.
Proof.
  intros a b c [A [B D]] [A' [B' D']]. split; [congruence|]. split; [congruence|].
  intros j T. destruct (D' j T) as [T1 [X1 [X2 X3]]]. destruct (D j T1) as [T2 [Y1 [Y2 Y3]]].
  repeat (split; [congruence|]). congruence.
Qed.

(** An active row's unfixed column is active. *)
Lemma row_col_active : forall s i k a, Inv s -> w_sub s = [] -> (i < nr s)%nat -> t_inact (rt s i) = false ->
  In (k, a) (mA s i) -> t_fixed (ct s k) = false -> (k < nc s)%nat /\ ~ a == 0 /\ t_cinact (ct s k) = false.
Proof.
  intros s i k a H W Hi T Hin F. destruct (w_rin s (inv_0 s H) i k a Hi Hin) as [Hk Na].
  split; auto. split; auto. destruct (t_cinact (ct s k)) eqn:TC; auto.
  pose proof (inv_R s H i k a Hi T Hin) as CZ.
  destruct (l_pend s (inv_L s H) k Hk TC CZ) as [X|X].
  - destruct (l_fixed s (inv_L s H) k X). congruence.
  - rewrite W in X. contradiction.
Qed.

Lemma stonrow_eq_sem : forall r s i s1 st, Inv s -> w_sub s = [] -> tags_right s -> pend_ok s -> empty_act s ->
  (forall i, 0 <= r i) -> In i (w_ston_rows s) -> t_inact (rt s i) = false -> t_eq (rt s i) = true ->
  remove_stonrow i s = (s1, st) ->
  st = INFEASIBLE /\ (forall x, ~ sat zero zero s x) \/
  st <> INFEASIBLE /\ semstep anything r tol_cols s s1 /\ rows_same s s1.
Proof.
  intros r s i s1 st H WS TG PO AE HR Hin T TE E.
  destruct (l_ston_rows s (inv_L s H) i Hin) as [Hi D]. specialize (D T).
  unfold remove_stonrow in E. destruct (mA s i) as [|[k a] rr] eqn:EA.
  - destruct D as [D|[_ D]]; [discriminate|]. rewrite D in E. injection E as <- <-.
    right. split; [discriminate|]. split; [apply semstep_refl; auto|apply rows_same_refl].
  - destruct D as [D|[D _]]; [|discriminate]. destruct rr; [|discriminate].
    destruct (t_fixed (ct s k)) eqn:Fk.
    { injection E as <- <-. right. split; [discriminate|].
      split; [apply semstep_refl; auto|apply rows_same_refl]. }
    destruct (row_col_active s i k a H WS Hi T) as [Hk [Na TK]]; auto.
    { rewrite EA. left; reflexivity. }
    destruct (tr_eq s TG i Hi T TE) as [p [q [LP [RQ PQ]]]].
    assert (XV : forall x, sat zero zero s x -> x k == fin (rhs s i) / a).
    { intros x [S1 _]. destruct (S1 i Hi T) as [X1 X2]. rewrite EA, LP, RQ in *. simpl in *. unfold exactly in *.
      assert (X : a * x k == q) by lra. rewrite <- X. field. auto. }
    rewrite TE in E. pose proof (fix_col_cases s k (fin (rhs s i) / a) (cst s k)) as FC.
    destruct (fix_col k (fin (rhs s i) / a) (cst s k) s) as [s2 st2] eqn:EF.
    destruct FC as [[-> [-> X]]|[-> [_ [_ [A [W E1]]]]]].
    + rewrite N.eqb_refl in E. injection E as <- <-. left. split; auto. intros x S.
      pose proof (XV x S) as V. destruct S as [_ [S2 _]]. destruct (S2 k Hk TK) as [Y1 Y2].
      pose proof (tr_lb s TG k Hk TK) as L0. pose proof (tr_ub s TG k Hk TK) as U0.
      pose proof tol_pos. unfold exactly in *. destruct X as [[X1 X2]|[X1 X2]]; rewrite X1 in *.
      * apply le_ext_fin in Y2; auto. lra.
      * apply ext_le_fin in Y1; auto. lra.
    + change (N.eqb REDUCED INFEASIBLE) with false in E. cbv iota zeta in E.
      fold (kill_row i s2) in E. injection E as <- <-. right. split; [discriminate|].
      assert (SF : semstep anything r tol_cols s s2).
      { eapply fix_col_sem; eauto. left. unfold tol_cols. lra. }
      split.
      * apply semstep_record, semstep_record. eapply semstep_trans; [exact SF|].
        apply kill_row_sem; [apply (se_tags _ _ _ _ _ SF)|apply (se_pend _ _ _ _ _ SF)|apply (se_empty _ _ _ _ _ SF)| | | |].
        -- rewrite E1. unfold set_col_to_fixed. sr. intros X.
           destruct (l_empty_rows s (inv_L s H) i X) as [_ [X2 _]]. congruence.
        -- rewrite E1. unfold set_col_to_fixed. sr. auto.
        -- rewrite E1. unfold set_col_to_fixed. sr. auto.
        -- intros x [P1 _]. rewrite E1 in *. unfold set_col_to_fixed in *. sra.
           specialize (P1 k). rewrite upd_same in P1. cbn [fin] in P1.
           assert (V : x k == fin (rhs s i) / a) by (apply P1, in_or_app; right; left; reflexivity).
           rewrite EA. apply (within_le 0); auto. apply within0.
           assert (DV : dot [(k, a)] x == q).
           { simpl. rewrite V, RQ. simpl. field. auto. }
           rewrite LP, RQ. simpl in *. split; lra.
      * rewrite E1. unfold kill_row, set_col_to_fixed, rows_same. sr. split; auto. split; auto.
        intros j. updg; [discriminate|]. auto.
Qed.

Lemma stonrow_ineq_sem : forall s0 s i s1 st, Inv s -> w_sub s = [] -> tags_right s -> pend_ok s -> empty_act s ->
  rows_same s0 s -> In i (w_ston_rows s) -> t_inact (rt s i) = false -> t_eq (rt s i) = false ->
  remove_stonrow i s = (s1, st) ->
  st = INFEASIBLE /\ (forall x, ~ sat zero zero s x) \/
  st <> INFEASIBLE /\ semstep anything (tol_ston s0) zero s s1 /\ rows_same s s1.
Proof.
  intros s0 s i s1 st H WS TG PO AE RS Hin T TE E.
  destruct (l_ston_rows s (inv_L s H) i Hin) as [Hi D]. specialize (D T).
  unfold remove_stonrow in E. destruct (mA s i) as [|[k a] rr] eqn:EA.
  - destruct D as [D|[_ D]]; [discriminate|]. rewrite D in E. injection E as <- <-.
    right. split; [discriminate|]. split; [apply semstep_refl; auto|apply rows_same_refl].
  - destruct D as [D|[D _]]; [|discriminate]. destruct rr; [|discriminate].
    destruct (t_fixed (ct s k)) eqn:Fk.
    { injection E as <- <-. right. split; [discriminate|].
      split; [apply semstep_refl; auto|apply rows_same_refl]. }
    destruct (row_col_active s i k a H WS Hi T) as [Hk [Na TK]]; auto.
    { rewrite EA. left; reflexivity. }
    rewrite TE in E.
    pose proof (tr_lhs s TG i Hi T) as L0. pose proof (tr_rhs s TG i Hi T) as R0.
    assert (XR : forall x, sat zero zero s x -> (t_rhs_inf (rt s i) = false -> a * x k <= fin (rhs s i)) /\
                                                (t_lhs_inf (rt s i) = false -> fin (lhs s i) <= a * x k)).
    { intros x [S1 _]. destruct (S1 i Hi T) as [X1 X2]. rewrite EA in *. simpl in *. unfold exactly in *. split; intros TT.
      - rewrite TT in R0. apply le_ext_fin in X2; auto. lra.
      - rewrite TT in L0. apply ext_le_fin in X1; auto. lra. }
    assert (TS : tol_ston s0 i == Qabs a * FEAS_TOL).
    { destruct RS as [_ [_ RS]]. destruct (RS i T) as [_ [X _]]. unfold tol_ston. rewrite <- X, EA. lra. }
    pose proof tol_pos as TP.
    (* the final step *)
    assert (FIN : forall s2, semstep anything (tol_ston s0) zero s s2 -> keeps s s2 -> Inv s2 ->
      (forall q, t_rhs_inf (rt s i) = false -> ext_le (lb s2 k) q -> le_ext q (ub s2 k) -> a * q <= fin (rhs s i) + Qabs a * FEAS_TOL) ->
      (forall q, t_lhs_inf (rt s i) = false -> ext_le (lb s2 k) q -> le_ext q (ub s2 k) -> fin (lhs s i) - Qabs a * FEAS_TOL <= a * q) ->
      semstep anything (tol_ston s0) zero s (set_row_to_inactive i 0 s2) /\
      rows_same s (set_row_to_inactive i 0 s2)).
    { intros s2 S2 [K1 [K2 [K3 [K4 [K5 [K6 [K7 [K8 [K9 [K10 K11]]]]]]]]]] H2 BR BL. split.
      - eapply semstep_trans; [exact S2|]. apply drop_row_sem; [apply (se_tags _ _ _ _ _ S2)|apply (se_pend _ _ _ _ _ S2)|apply (se_empty _ _ _ _ _ S2)| | | |].
        + rewrite K10. intros X. destruct (l_empty_rows s (inv_L s H) i X) as [_ [X2 _]]. congruence.
        + congruence.
        + congruence.
        + intros x [_ [X2 _]]. unfold set_row_to_inactive in X2. sra.
          assert (TK2 : t_cinact (ct s2 k) = false).
          { unfold t_cinact in *. destruct (K11 k) as [-> ->]. exact TK. }
          rewrite K2 in X2. specialize (X2 k Hk TK2). unfold exactly in X2. apply (proj1 (within0 (lb s2 k) (x k) (ub s2 k))) in X2.
          destruct X2 as [X1 X2]. rewrite K3, K5, K6, EA.
          assert (DV : dot [(k, a)] x == a * x k) by (simpl; lra).
          apply (within_ext _ _ (a * x k)); [lra|]. split.
          * destruct (t_lhs_inf (rt s i)); [rewrite L0; exact I|]. apply ext_le_fin; auto.
            specialize (BL (x k) eq_refl X1 X2). lra.
          * destruct (t_rhs_inf (rt s i)); [rewrite R0; exact I|]. apply le_ext_fin; auto.
            specialize (BR (x k) eq_refl X1 X2). lra.
      - unfold rows_same, set_row_to_inactive. sr. rewrite K1, K2, K3, K5, K6, K7. split; auto. split; auto.
        intros j. updg; [discriminate|]. auto. }
    (* first side *)
    assert (ST1 : forall s2 st2, (if t_rhs_inf (rt s i) then (s, UNCHANGED)
          else if Qgtb a 0 then update_ub k (fin (rhs s i) / a) i s
          else update_lb k (fin (rhs s i) / a) i s) = (s2, st2) ->
      st2 = INFEASIBLE /\ (forall x, ~ sat zero zero s x) \/
      st2 = UNCHANGED /\ semstep anything (tol_ston s0) zero s s2 /\ keeps s s2 /\ Inv s2 /\
      (t_rhs_inf (rt s i) = true \/
       0 < a /\ lb s2 = lb s /\ (forall q, le_ext q (ub s2 k) -> q <= fin (rhs s i) / a + FEAS_TOL) \/
       a < 0 /\ ub s2 = ub s /\ (forall q, ext_le (lb s2 k) q -> fin (rhs s i) / a - FEAS_TOL <= q))).
    { intros s2 st2 E1. destruct (t_rhs_inf (rt s i)) eqn:TR.
      - injection E1 as <- <-. right. split; auto. split; [apply semstep_refl; auto|].
        split; [apply keeps_refl|]. auto.
      - destruct (Qgtb a 0) eqn:SG; qb.
        + destruct (update_ub_sem anything (tol_ston s0) zero k (fin (rhs s i) / a) i s s2 st2 Hk TK TG PO AE H) with (2 := E1)
            as [[-> X]|[-> [X1 [X2 [X3 [X4 X5]]]]]].
          * intros x _ Sx. apply Qdiv_le_pos; auto. apply XR; auto.
          * left. split; auto. intros x. apply X. exact I.
          * right. split; auto. split; auto. split; auto. auto 10.
        + assert (NA : a < 0). { destruct (Qlt_le_dec a 0); auto. exfalso. apply Na. lra. }
          destruct (update_lb_sem anything (tol_ston s0) zero k (fin (rhs s i) / a) i s s2 st2 Hk TK TG PO AE H) with (2 := E1)
            as [[-> X]|[-> [X1 [X2 [X3 [X4 X5]]]]]].
          * intros x _ Sx. apply Qdiv_le_neg; auto. apply XR; auto.
          * left. split; auto. intros x. apply X. exact I.
          * right. split; auto. split; auto. split; auto. auto 10. }
    destruct (if t_rhs_inf (rt s i) then _ else _) as [s2 st2]. specialize (ST1 s2 st2 eq_refl).
    destruct ST1 as [[-> X]|[-> [S2 [KP [H2 BD]]]]].
    { rewrite N.eqb_refl in E. injection E as <- <-. left. auto. }
    change (N.eqb UNCHANGED INFEASIBLE) with false in E. cbv iota in E.
    pose proof KP as [K1 [K2 [K3 [K4 [K5 [K6 [K7 [K8 [K9 [K10 K11]]]]]]]]]].
    assert (TK2 : t_cinact (ct s2 k) = false).
    { unfold t_cinact in *. destruct (K11 k) as [-> ->]. exact TK. }
    assert (Hk2 : (k < nc s2)%nat) by congruence.
    assert (XR2 : forall x, sat zero zero s2 x -> t_lhs_inf (rt s i) = false -> fin (lhs s i) <= a * x k).
    { intros x [S1 _]. rewrite K1, K3, K5, K6, K7 in S1. destruct (S1 i Hi T) as [X1 X2]. rewrite EA in *. simpl in *.
      unfold exactly in *. intros TT. rewrite TT in L0. apply ext_le_fin in X1; auto. lra. }
    assert (ST2 : forall s3 st3, (if t_lhs_inf (rt s i) then (s2, UNCHANGED)
          else if Qgtb a 0 then update_lb k (fin (lhs s i) / a) i s2
          else update_ub k (fin (lhs s i) / a) i s2) = (s3, st3) ->
      st3 = INFEASIBLE /\ (forall x, ~ sat zero zero s x) \/
      st3 = UNCHANGED /\ semstep anything (tol_ston s0) zero s s3 /\ keeps s s3 /\ Inv s3 /\
      (t_lhs_inf (rt s i) = true /\ s3 = s2 \/
       0 < a /\ ub s3 = ub s2 /\ (forall q, ext_le (lb s3 k) q -> fin (lhs s i) / a - FEAS_TOL <= q) \/
       a < 0 /\ lb s3 = lb s2 /\ (forall q, le_ext q (ub s3 k) -> q <= fin (lhs s i) / a + FEAS_TOL))).
    { intros s3 st3 E1. destruct (t_lhs_inf (rt s i)) eqn:TR.
      - injection E1 as <- <-. right. auto 10.
      - assert (KT : forall s3, keeps s2 s3 -> keeps s s3).
        { intros s4 [Y1 [Y2 [Y3 [Y4 [Y5 [Y6 [Y7 [Y8 [Y9 [Y10 Y11]]]]]]]]]]. unfold keeps.
          repeat (split; [congruence|]). intros j. destruct (Y11 j), (K11 j). split; congruence. }
        destruct (Qgtb a 0) eqn:SG; qb.
        + destruct (update_lb_sem anything (tol_ston s0) zero k (fin (lhs s i) / a) i s2 s3 st3 Hk2 TK2 (se_tags _ _ _ _ _ S2)
             (se_pend _ _ _ _ _ S2) (se_empty _ _ _ _ _ S2) H2) with (2 := E1)
            as [[-> X]|[-> [X1 [X2 [X3 [X4 X5]]]]]].
          * intros x _ Sx. apply Qdiv_ge_pos; auto.
          * left. split; auto. intros x Sx. apply (X x I). apply (se_fwd _ _ _ _ _ S2); auto. exact I.
          * right. split; auto. split; [eapply semstep_trans; eauto|]. split; auto. auto 10.
        + assert (NA : a < 0). { destruct (Qlt_le_dec a 0); auto. exfalso. apply Na. lra. }
          destruct (update_ub_sem anything (tol_ston s0) zero k (fin (lhs s i) / a) i s2 s3 st3 Hk2 TK2 (se_tags _ _ _ _ _ S2)
             (se_pend _ _ _ _ _ S2) (se_empty _ _ _ _ _ S2) H2) with (2 := E1)
            as [[-> X]|[-> [X1 [X2 [X3 [X4 X5]]]]]].
          * intros x _ Sx. apply Qdiv_ge_neg; auto.
          * left. split; auto. intros x Sx. apply (X x I). apply (se_fwd _ _ _ _ _ S2); auto. exact I.
          * right. split; auto. split; [eapply semstep_trans; eauto|]. split; auto. auto 10. }
    destruct (if t_lhs_inf (rt s i) then _ else _) as [s3 st3]. specialize (ST2 s3 st3 eq_refl).
    destruct ST2 as [[-> X]|[-> [S3 [KP3 [H3 BD3]]]]].
    { rewrite N.eqb_refl in E. injection E as <- <-. left. auto. }
    change (N.eqb UNCHANGED INFEASIBLE) with false in E. cbv iota in E. injection E as <- <-.
    right. split; [discriminate|]. apply FIN; auto.
    + intros q TR QL QU. destruct BD as [BD|[[PA [_ BD]]|[NA [EU BD]]]]; [congruence| |].
      * assert (Q1 : q <= fin (rhs s i) / a + FEAS_TOL).
        { apply BD. destruct BD3 as [[_ ->]|[[_ [<- _]]|[? _]]]; auto. lra. }
        rewrite Qabs_pos by lra. setoid_replace (fin (rhs s i)) with (a * (fin (rhs s i) / a)) by (field; auto). nra.
      * assert (Q1 : fin (rhs s i) / a - FEAS_TOL <= q).
        { apply BD. destruct BD3 as [[_ ->]|[[? _]|[_ [<- _]]]]; auto. lra. }
        rewrite Qabs_neg by lra. setoid_replace (fin (rhs s i)) with (a * (fin (rhs s i) / a)) by (field; auto). nra.
    + intros q TR QL QU. destruct BD3 as [[BD3 _]|[[PA [_ BD3]]|[NA [EU BD3]]]]; [congruence| |].
      * specialize (BD3 q QL).
        rewrite Qabs_pos by lra. setoid_replace (fin (lhs s i)) with (a * (fin (lhs s i) / a)) by (field; auto). nra.
      * specialize (BD3 q QU).
        rewrite Qabs_neg by lra. setoid_replace (fin (lhs s i)) with (a * (fin (lhs s i) / a)) by (field; auto). nra.
Qed.

(** ** The explorer *)
Lemma ston_pass_eq_sem : forall r l s s' st, Inv s -> w_sub s = [] -> tags_right s -> pend_ok s -> empty_act s ->
  (forall i, 0 <= r i) -> (forall i, In i l -> In i (w_ston_rows s)) -> ston_pass true l s = (s', st) ->
  st = INFEASIBLE /\ (forall x, ~ sat zero zero s x) \/
  st = UNCHANGED /\ semstep anything r tol_cols s s' /\ rows_same s s'.
Proof.
  intros r. induction l as [|i l IH]; intros s s' st H WS TG PO AE HR HL E; simpl in E.
  - injection E as <- <-. right. split; auto. split; [apply semstep_refl; auto|apply rows_same_refl].
  - destruct (negb (t_eq (rt s i)) || t_inact (rt s i)) eqn:SK.
    { apply IH; auto. intros; apply HL; simpl; auto. }
    apply orb_false_iff in SK. destruct SK as [TE T]. apply negb_false_iff in TE.
    pose proof (remove_stonrow_stp s i H (HL i (or_introl eq_refl)) T) as X.
    destruct (remove_stonrow i s) as [s1 st1] eqn:E1. destruct X as [S1 [W1 W2]].
    destruct (stonrow_eq_sem r s i s1 st1 H WS TG PO AE HR (HL i (or_introl eq_refl)) T TE E1)
      as [[-> X]|[N1 [X R]]].
    + rewrite N.eqb_refl in E. injection E as <- <-. auto.
    + apply N.eqb_neq in N1. rewrite N1 in E.
      destruct (IH s1 s' st) as [[-> Y]|[-> [Y RY]]]; try apply X; auto.
      * apply S1.
      * congruence.
      * intros j Hj. rewrite W2. apply HL. simpl; auto.
      * left. split; auto. intros x Sx. apply (Y x). apply (se_fwd _ _ _ _ _ X); auto. exact I.
      * right. split; auto. split; [eapply semstep_trans; eauto|eapply rows_same_trans; eauto].
Qed.
Lemma ston_pass_ineq_sem : forall s0 l s s' st, Inv s -> w_sub s = [] -> tags_right s -> pend_ok s -> empty_act s ->
  rows_same s0 s -> (forall i, In i l -> In i (w_ston_rows s)) -> ston_pass false l s = (s', st) ->
  st = INFEASIBLE /\ (forall x, ~ sat zero zero s x) \/
  st = UNCHANGED /\ semstep anything (tol_ston s0) zero s s'.
Proof.
  intros s0. induction l as [|i l IH]; intros s s' st H WS TG PO AE RS HL E; simpl in E.
  - injection E as <- <-. right. split; auto. apply semstep_refl; auto.
  - destruct (t_inact (rt s i) || t_eq (rt s i)) eqn:SK.
    { apply IH; auto. intros; apply HL; simpl; auto. }
    apply orb_false_iff in SK. destruct SK as [T TE].
    pose proof (remove_stonrow_stp s i H (HL i (or_introl eq_refl)) T) as X.
    destruct (remove_stonrow i s) as [s1 st1] eqn:E1. destruct X as [S1 [W1 W2]].
    destruct (stonrow_ineq_sem s0 s i s1 st1 H WS TG PO AE RS (HL i (or_introl eq_refl)) T TE E1)
      as [[-> X]|[N1 [X R]]].
    + rewrite N.eqb_refl in E. injection E as <- <-. auto.
    + apply N.eqb_neq in N1. rewrite N1 in E.
      destruct (IH s1 s' st) as [[-> Y]|[-> Y]]; try apply X; auto.
      * apply S1.
      * congruence.
      * eapply rows_same_trans; eauto.
      * intros j Hj. rewrite W2. apply HL. simpl; auto.
      * left. split; auto. intros x Sx. apply (Y x). apply (se_fwd _ _ _ _ _ X); auto. exact I.
      * right. split; auto. eapply semstep_trans; eauto.
Qed.

Lemma semstep_dir : forall (C : (nat -> Q) -> Prop) r c s, Inv s -> tags_right s -> pend_ok s -> empty_act s ->
  semstep C r c s (delete_inactive_rows s).
Proof.
  intros C r c s H TG PO AE. destruct (dir_sem s H) as [A [B [D [E [_ [_ F]]]]]].
  constructor; auto; [intros x _; apply A|intros x; apply A].
Qed.
Lemma tol_ston_nonneg : forall s i, 0 <= tol_ston s i.
Proof.
  intros s i. unfold tol_ston. pose proof tol_pos. destruct (mA s i) as [|[k a] [|]]; try lra.
  pose proof (Qabs_nonneg a). nra.
Qed.

Lemma ston_rows_sem : forall s s' st, Ok s -> tags_right s -> empty_act s ->
  remove_ston_rows s = (s', st) ->
  (st = INFEASIBLE -> infeasible (reduced_lp s)) /\
  (st <> INFEASIBLE -> Ok s' /\ tags_right s' /\ empty_act s' /\
     carries_over anything (reduced_lp s) (reduced_lp s') /\
     lifts_back (tol_ston s) tol_cols (reduced_lp s) (reduced_lp s')).
Proof.
  intros s s' st OK TG AE E. pose proof OK as OK0. destruct OK as [H [Q1 Q2 Q3] N].
  pose proof (ston_rows_spec s H Q3) as SP. rewrite E in SP.
  unfold remove_ston_rows in E. destruct (w_ston_rows s) as [|i0 l0] eqn:EL.
  { injection E as <- <-. split; [discriminate|]. intros _. split; auto. split; auto. split; auto. split.
    - intros x Fx _. split; auto. lra.
    - intros x Fx. exists x. split; [intros k _; lra|]. split; [|lra]. apply feasible_up_to_0 in Fx.
      apply sat_reduced in Fx; auto. apply sat_reduced; auto. eapply sat_weaken; [| |exact Fx].
      + intros; apply tol_ston_nonneg.
      + intros. unfold tol_cols, exactly. pose proof tol_pos. lra. }
  rewrite <- EL in E.
  destruct (ston_pass true (w_ston_rows s) s) as [s1 st1] eqn:E1.
  pose proof (ston_pass_stp true (w_ston_rows s) s H (fun i X => X)) as P1. rewrite E1 in P1.
  destruct P1 as [S1 [[F1 F1'] _]].
  destruct (ston_pass_eq_sem (tol_ston s) (w_ston_rows s) s s1 st1 H Q3 TG (pend_nil s Q2) AE
              (tol_ston_nonneg s) (fun i X => X) E1) as [[-> X]|[-> [X R]]].
  { rewrite N.eqb_refl in E. injection E as <- <-. split; [|congruence]. intros _ x Fx.
    apply (X x). apply sat_feasible; auto. }
  change (N.eqb UNCHANGED INFEASIBLE) with false in E. cbv iota in E.
  assert (HL1 : forall i, In i (w_ston_rows s) -> In i (w_ston_rows s1)) by (rewrite F1'; auto).
  destruct (ston_pass false (w_ston_rows s) s1) as [s2 st2] eqn:E2.
  pose proof (ston_pass_stp false (w_ston_rows s) s1 (st_inv _ _ S1) HL1) as P2. rewrite E2 in P2.
  destruct P2 as [S2 [[F2 F2'] _]].
  assert (W1 : w_sub s1 = []) by congruence.
  destruct (ston_pass_ineq_sem s (w_ston_rows s) s1 s2 st2 (st_inv _ _ S1) W1 (se_tags _ _ _ _ _ X)
             (se_pend _ _ _ _ _ X) (se_empty _ _ _ _ _ X) R HL1 E2) as [[-> Y]|[-> Y]].
  { rewrite N.eqb_refl in E. injection E as <- <-. split; [|congruence]. intros _ x Fx.
    apply (Y x). apply (se_fwd _ _ _ _ _ X); [exact I|]. apply sat_feasible; auto. }
  change (N.eqb UNCHANGED INFEASIBLE) with false in E. cbv iota zeta in E.
  fold (finish (delete_inactive_rows (set_w_ston_rows [] s2))) in E. injection E as E <-.
  split; [discriminate|]. intros _.
  destruct SP as [I' [M' [W' SP]]]. destruct SP as [SP|[[SP _]|[_ [_ [Q' [N' _]]]]]]; [discriminate|discriminate|].
  assert (OK' : Ok s') by (constructor; auto).
  split; auto. rewrite <- E in *.
  assert (I3 : Inv (set_w_ston_rows [] s2)) by (apply clear_ston_rows; apply S2).
  destruct (delete_inactive_rows_Inv _ I3) as [I4 AD].
  destruct (dir_sem _ I3) as [_ [_ [_ [_ [FR _]]]]].
  destruct FR as [_ [_ [_ [_ [_ [_ [_ [_ [_ [_ [_ [WS4 _]]]]]]]]]]]].
  apply semend_lp; auto.
  2:{ left. rewrite WS4. sr. congruence. }
  apply (semend_comp _ _ _ (tol_ston s) zero _ s1).
  - intros; lra.
  - intros. unfold tol_cols, exactly. pose proof tol_pos. lra.
  - exact X.
  - apply semend_of; [apply tol_ston_nonneg|intros; unfold exactly; lra|].
    assert (TG3 : tags_right (set_w_ston_rows [] s2)) by (destruct Y as [[G1 G2 G3 G4 G5] _ _ _ _ _]; constructor; auto).
    assert (PO3 : pend_ok (set_w_ston_rows [] s2)) by (destruct Y as [_ [Y1 Y2] _ _ _ _]; constructor; auto).
    assert (AE3 : empty_act (set_w_ston_rows [] s2)) by apply (se_empty _ _ _ _ _ Y).
    eapply semstep_trans; [exact Y|].
    apply (semstep_trans _ _ _ _ (set_w_ston_rows [] s2)); [|apply semstep_dir; auto].
    constructor; auto. intros x. unfold obj, live_cols. sr. lra.
Qed.
