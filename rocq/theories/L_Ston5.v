(** Passes over the singleton columns. *)
From Coq Require Import NArith Lqa.
From Verif Require Import M_Num S_LP M_Settings M_Driver S_Driver M_State M_Act M_Core M_Simple
  M_StonCols M_Dton M_Parallel M_Propagate M_Init M_Post M_Run S_Run S_Struct S_Sem S_Sem2
  L_State L_Struct L_Struct2 L_Struct3 L_Struct4 L_Struct5 L_Struct6 L_Struct7 L_Struct8 L_Struct9 L_Struct10 L_Struct11
  L_Sem L_Sem2 L_Sem3 L_Sem4 L_Mid L_Mid2 L_Mid3 L_Mid4 L_Mid5 L_Act L_Act2 L_Act4 L_Act6 L_Act8 L_Free L_Ston L_Ston2 L_Ston3 L_Ston4.
Open Scope Q_scope.

Record good_state (s : state) : Prop := {
  gs_inv : Inv s; gs_mid : Mid s; gs_av : AV Qle s; gs_ord : ordered s; gs_side : sided s;
  gs_wf : w_fixed s = []; gs_ws : w_sub s = [] }.

Definition row_ok (t : state) (i : nat) : Prop := t_inact (rt t i) = false ->
  is_fin (lhs t i) = true -> is_fin (rhs t i) = true -> fin (lhs t i) <= fin (rhs t i).
Lemma step_ord : forall s t i k, stepf s t i k -> ordered s -> t_cinact (ct s k) = false -> ordered t.
Proof.
  intros s t i k F O Tk j Hj T. rewrite (sf_nc _ _ _ _ F) in Hj. rewrite (sf_lb _ _ _ _ F), (sf_ub _ _ _ _ F).
  destruct (Nat.eq_dec j k) as [->|D]; [apply O; auto|]. rewrite (sf_ct _ _ _ _ F j D) in T. apply O; auto.
Qed.
Lemma step_side : forall s t i k, stepf s t i k -> sided s -> row_ok t i -> sided t.
Proof.
  intros s t i k F O R j Hj T. rewrite (sf_nr _ _ _ _ F) in Hj.
  destruct (Nat.eq_dec j i) as [->|D]; [apply R; auto|]. destruct (sf_row _ _ _ _ F j D) as (E1 & E2 & E3 & E4).
  rewrite E1 in T. rewrite E3, E4. apply O; auto.
Qed.
Definition both (t : state) : Prop := ordered t /\ sided t.
Lemma step_both : forall s t i k, stepf s t i k -> ordered s -> sided s -> t_cinact (ct s k) = false -> row_ok t i -> both t.
Proof. intros. split; [eapply step_ord; eauto|eapply step_side; eauto]. Qed.

Section Keep.
Variables (s : state) (i k : nat) (a : Q).
Hypotheses (G : good_state s)
  (Hi : (i < nr s)%nat) (Hk : (k < nc s)%nat) (Ti : t_inact (rt s i) = false) (Tk : t_cinact (ct s k) = false)
  (IN : In (k, a) (mA s i)).
Notation H := (gs_inv s G).
Lemma keep_sub : forall b v side ck, both (set_row_to_inactive i v (record (SUB_COL k (row_view (sub_col_now k (sub_var_in_obj (row_view s i) k a b s)) i) side i ck)
     (sub_col_now k (sub_var_in_obj (row_view s i) k a b s)))).
Proof.
  intros b v side ck.
  destruct (sub_row_frame s i k a b v side ck (SRi s i H Hi) (NA s i k a H Hi IN) (VFi s i H Hi Ti)) as (F & _ & _ & RT & _).
  set (t := set_row_to_inactive _ _ _) in *. clearbody t.
  eapply step_both; [exact F|apply G|apply G|auto|]. intros T. congruence.
Qed.
Lemma keep_fix : forall v, both (push_if_ston i (fix_col_ston i k v a s)).
Proof.
  intros v. pose proof (push_if_fixed _ _ _ _ _ _ (fix_frame s i k v a (VFi s i H Hi Ti))) as X. set (t := push_if_ston _ _) in *. clearbody t.
  destruct X as (F & _ & _ & RT & _ & _ & _ & EL & ER).
  eapply step_both; [exact F|apply G|apply G|auto|]. intros T. rewrite EL, ER. rewrite RT in T. clear F EL ER RT.
  pose proof (gs_side s G i Hi Ti) as S. pose proof (tr_lhs s (md_tags s (gs_mid s G)) i Hi Ti) as TL.
  pose proof (tr_rhs s (md_tags s (gs_mid s G)) i Hi Ti) as TR.
  destruct (t_lhs_inf (rt s i)); [rewrite TL; discriminate|]. destruct (t_rhs_inf (rt s i)); [rewrite TR; intros; discriminate|].
  destruct (lhs s i), (rhs s i); try discriminate. simpl in *. intros _ _. specialize (S eq_refl eq_refl). lra.
Qed.
Lemma keep_close : forall u, both (close_row u i s).
Proof.
  intros u. destruct (close_frame u i k s) as (F & _ & _ & RT & _ & _ & _ & EL & ER). set (t := close_row u i s) in *. clearbody t.
  eapply step_both; [exact F|apply G|apply G|auto|]. intros T. rewrite EL, ER. intros. lra.
Qed.
Lemma keep_self : both s. Proof. split; apply G. Qed.
Lemma keep_eq : forall ab be, (2 <= rsz s i)%Z -> both (fst (process_colston_eq i k a ab be s)).
Proof.
  intros ab be R2. destruct (Bool.bool_dec ab be) as [E|NE].
  - unfold process_colston_eq. destruct ab, be; try discriminate; cbn [negb andb fst]; [apply keep_sub|apply keep_self].
  - destruct (process1_frame s ab be i k a (SRi s i H Hi) (VFi s i H Hi Ti) IN (NA s i k a H Hi IN) R2 NE) as (F & _ & _ & _ & _ & _ & _ & EL & ER).
    set (t := fst _) in *. clearbody t. eapply step_both; [exact F|apply G|apply G|auto|]. intros T. rewrite EL, ER. unfold new_lhs, new_rhs.
    destruct (Bool.eqb ab (Qgtb a 0)); intros; discriminate.
Qed.
Lemma keep_ineq : forall ab be, both (fst (process_colston_ineq i k a ab be s)).
Proof.
  intros ab be. unfold process_colston_ineq. cbv zeta.
  match goal with |- both (fst (if ?b then _ else _)) => destruct b end; [destruct (t_lb_inf _); cbn [fst]; [apply keep_self|apply keep_fix]|].
  match goal with |- both (fst (if ?b then _ else _)) => destruct b end; [destruct (t_ub_inf _); cbn [fst]; [apply keep_self|apply keep_fix]|].
  destruct (ab && be).
  { match goal with |- both (fst (if ?b then _ else _)) => destruct b end; [destruct (t_lhs_inf _); cbn [fst]; [apply keep_self|apply keep_sub]|].
    match goal with |- both (fst (if ?b then _ else _)) => destruct b end; [destruct (t_rhs_inf _); cbn [fst]; [apply keep_self|apply keep_sub]|].
    cbn [fst]; apply keep_sub. }
  match goal with |- both (fst (if ?b then _ else _)) => destruct b end; [apply keep_close|].
  match goal with |- both (fst (if ?b then _ else _)) => destruct b end; [apply keep_close|apply keep_self].
Qed.
End Keep.

Definition ston_sem (s t : state) (st : status) : Prop :=
  noloss s t /\ lifts s t /\ (st = UNBNDORINFEAS -> endless s).
Lemma ston_col_sem : forall s k, good_state s -> ready s k ->
  let '(t, st) := ston_col s k in good_state t /\ ston_sem s t st /\ (st = UNCHANGED \/ st = REDUCED \/ st = UNBNDORINFEAS).
Proof.
  intros s k G [Hk [C1 Tk]]. pose proof (gs_inv s G) as H.
  pose proof (ston_col_ok s k H Hk C1 Tk) as OK.
  pose proof (ston_col_Mid s k H (gs_mid s G) (gs_wf s G) Hk C1 Tk) as MD.
  pose proof (ston_col_AV s k H (gs_mid s G) (gs_av s G) (gs_ord s G) (gs_wf s G) Hk C1 Tk) as AD.
  assert (KS : both (fst (ston_col s k)) /\ ston_sem s (fst (ston_col s k)) (snd (ston_col s k))).
  { assert (SELF : both s /\ ston_sem s s UNCHANGED).
    { split; [apply (keep_self s G)|split; [apply noloss_refl|split; [apply lifts_refl|discriminate]]]. }
    pose proof (tight_csz s k (inv_0 s H) (inv_C s H) Hk Tk) as SZ. rewrite C1 in SZ.
    unfold ston_col. destruct (mAT s k) as [|[i a] r] eqn:EK.
    { unfold Z_len in SZ. simpl in SZ. lia. }
    assert (r = []) by (unfold Z_len in SZ; destruct r; simpl in SZ; [reflexivity|lia]). subst r.
    destruct (w_cin s (inv_0 s H) i k a Hk) as [Hi _]; [rewrite EK; left; reflexivity|].
    destruct (t_inact (rt s i)) eqn:Ti; cbn [orb]; auto.
    destruct (Z.leb_spec (rsz s i) 1); auto.
    assert (INk : In (k, a) (mA s i)).
    { apply (w_agree s (inv_0 s H)); auto; [apply act_alive; auto; apply H|apply cact_alive; auto; apply H|].
      rewrite EK. left; auto. }
    cbv zeta. destruct (t_eq (rt s i)) eqn:Te.
    - split; [apply keep_eq; auto; lia|].
      destruct (process_eq_sem s i k a H (gs_mid s G) (gs_av s G) (gs_wf s G) (gs_ws s G) Hi Hk Ti Tk EK INk Te) as [X Y]; [lia|].
      split; [apply same_noloss; auto|split; [auto|]]. unfold process_colston_eq.
      destruct (negb _ && negb _); [discriminate|]. destruct (_ && _); discriminate.
    - split; [apply keep_ineq; auto|].
      destruct (process_ineq_sem s i k a H (gs_mid s G) (gs_av s G) (gs_wf s G) (gs_ws s G) Hi Hk Ti Tk EK INk (gs_ord s G) (gs_side s G)) as [(X & Y & Z)|(X & Y & Z)].
      + rewrite Z. split; [apply noloss_refl|split; [apply lifts_refl|auto]].
      + split; [auto|split; [auto|congruence]]. }
  destruct (ston_col s k) as [t st]. cbn [fst snd] in *. destruct OK as [S1 [[F1 F2 F3] ST]]. destruct KS as [[K1 K2] KS].
  split; [|split; [auto|]].
  - constructor; auto; [apply S1|rewrite F1; apply G|rewrite F2; apply G].
  - destruct ST as [[-> _]|[[-> _]|[-> _]]]; auto.
Qed.
Lemma endless_back : forall s t, noloss s t -> lifts s t -> endless t -> endless s.
Proof.
  intros s t N L E [x X] B. destruct (N x X) as [y [Y _]]. destruct (E (ex_intro _ y Y) B) as [z [Z1 Z2]].
  destruct (L z Z1) as [w [_ [W1 W2]]]. exists w. split; auto. rewrite W2. auto.
Qed.
Lemma lor_unb : forall st st1, (st1 = UNCHANGED \/ st1 = REDUCED \/ st1 = UNBNDORINFEAS) ->
  HAS_STATUS (N.lor st st1) UNBNDORINFEAS = true -> HAS_STATUS st UNBNDORINFEAS = true \/ st1 = UNBNDORINFEAS.
Proof.
  intros st st1 [-> | [-> | ->]]; auto; unfold HAS_STATUS; rewrite N.land_lor_distr_l.
  - replace (N.land UNCHANGED UNBNDORINFEAS) with 0%N by reflexivity. rewrite N.lor_0_r. auto.
  - replace (N.land REDUCED UNBNDORINFEAS) with 0%N by reflexivity. rewrite N.lor_0_r. auto.
Qed.
Lemma stp_live : forall s t j, stp s t -> In j (live_cols t) -> In j (live_cols s).
Proof.
  intros s t j S Hj. apply live_cols_in in Hj. destruct Hj as [Hj C]. apply live_cols_in. rewrite (stp_nc _ _ S) in Hj.
  split; auto. intros E. apply C. apply (mo_cd _ _ (st_mono _ _ S)); auto.
Qed.

Lemma ston_pass_sem : forall l s st, good_state s -> NoDup l -> (forall k, In k l -> ready s k) ->
  let '(t, st') := fold_or ston_col l s st in good_state t /\ noloss s t /\ lifts s t /\
  (HAS_STATUS st' UNBNDORINFEAS = true -> HAS_STATUS st UNBNDORINFEAS = true \/ endless s).
Proof.
  induction l as [|k l IH]; intros s st G ND HR; simpl.
  { split; [auto|split; [apply noloss_refl|split; [apply lifts_refl|auto]]]. }
  pose proof (HR k (or_introl eq_refl)) as RK. destruct RK as [Hk [C1 Tk]].
  pose proof (ston_col_ok s k (gs_inv s G) Hk C1 Tk) as X. pose proof (ston_col_sem s k G (HR k (or_introl eq_refl))) as Y.
  destruct (ston_col s k) as [s1 st1]. destruct X as [S1 [[F1 F2 F3] ST]]. destruct Y as [G1 [[N1 [L1 E1]] ST1]].
  inversion ND; subst.
  assert (RD : forall j, In j l -> ready s1 j).
  { intros j Hj. destruct (HR j (or_intror Hj)) as [A [B C]]. destruct (F3 j) as [X1 [X2 X3]]; [intros ->; contradiction|].
    unfold ready. rewrite (stp_nc _ _ S1), X1, X2. auto. }
  pose proof (ston_pass_ok l s1 (N.lor st st1) (gs_inv s1 G1) H2 RD) as P.
  specialize (IH s1 (N.lor st st1) G1 H2 RD). destruct (fold_or ston_col l s1 (N.lor st st1)) as [t st'].
  destruct IH as (G2 & N2 & L2 & E2). destruct P as [S2 _]. split; [auto|split; [eapply noloss_trans; eauto|split]].
  - apply (lifts_trans s s1 t); [intros j Hj; apply (stp_live s1 t j); auto|auto|auto].
  - intros E. destruct (E2 E) as [E'|E'].
    + destruct (lor_unb st st1 ST1 E') as [Z|Z]; auto.
    + right. eapply endless_back; eauto.
Qed.
Lemma refresh_good : forall s, good_state s -> good_state (refresh_ston_cols s).
Proof.
  intros s [A B C D E F K]. constructor; auto; [apply refresh_Inv; auto|apply refresh_Mid; auto|].
  eapply keepA_AV; [apply good_le| |exact C]. unfold refresh_ston_cols. constructor; sr; auto.
Qed.
Lemma dir_good : forall s, good_state s -> let t := delete_inactive_rows s in
  good_state t /\ noloss s t /\ lifts s t /\ (endless t -> endless s).
Proof.
  intros s [A B C D E F K]. destruct (dir_sem s A) as (X1 & X2 & _ & _ & (Y1 & Y2 & Y3 & Y4 & Y5 & Y6 & Y7 & Y8 & Y9 & Y10 & Y11 & Y12 & Y13) & _).
  pose proof (dir_AV Qle s good_le A C) as V. pose proof (dir_Mid s A B) as V2. pose proof (stp_dir s A) as [V3 _].
  cbv zeta in *. set (t := delete_inactive_rows s) in *. clearbody t.
  assert (N : noloss s t).
  { intros x X. exists x. split; [|rewrite X2; lra]. apply sat1_sat; try congruence. apply X1. apply sat1_sat; auto. }
  assert (L : lifts s t).
  { intros x X. exists x. split; [intros; lra|split; [|rewrite X2; lra]]. apply sat1_sat; auto. apply X1. apply sat1_sat; congruence. }
  split; [|split; [auto|split; [auto|apply endless_back; auto]]].
  constructor; auto; try congruence; [apply V3| |].
  - unfold ordered. rewrite Y1, Y2, Y4, Y10. auto.
  - unfold sided. rewrite Y5, Y7, Y8, Y9. auto.
Qed.
Lemma ston_cols___sem : forall s, good_state s -> quiet s ->
  let '(t, st) := remove_ston_cols__ s in good_state t /\ ston_sem s t st.
Proof.
  intros s G QS. unfold remove_ston_cols__. cbv zeta. pose proof (gs_inv s G) as H.
  pose proof (refresh_good s G) as G0. pose proof (refresh_ready s H QS) as RR. pose proof (l_ston_cols_nd _ (inv_L _ (gs_inv _ G0))) as ND.
  assert (E0 : forall x, (sat1 s x <-> sat1 (refresh_ston_cols s) x) /\ obj s x = obj (refresh_ston_cols s) x) by (intros x; split; [apply iff_refl|reflexivity]).
  assert (L0 : live_cols (refresh_ston_cols s) = live_cols s) by reflexivity.
  set (s0 := refresh_ston_cols s) in *. clearbody s0.
  assert (N0 : noloss s s0) by (intros x X; exists x; destruct (E0 x) as [Y1 Y2]; split; [apply Y1; auto|rewrite Y2; lra]).
  assert (B0 : lifts s s0) by (intros x X; exists x; destruct (E0 x) as [Y1 Y2]; split; [intros; lra|split; [apply Y1; auto|rewrite Y2; lra]]).
  pose proof (ston_pass_sem (w_ston_cols s0) s0 UNCHANGED G0 ND RR) as Y.
  pose proof (ston_pass_ok (w_ston_cols s0) s0 UNCHANGED (gs_inv _ G0) ND RR) as Z.
  destruct (fold_or ston_col (w_ston_cols s0) s0 UNCHANGED) as [s1 st].
  destruct Y as (G1 & N1 & L1 & E1). destruct Z as [S1 _]. destruct (dir_good s1 G1) as (G2 & N2 & L2 & E2).
  pose proof (stp_dir s1 (gs_inv _ G1)) as [S2 _].
  cbv zeta in *. set (t := delete_inactive_rows s1) in *. clearbody t. split; [auto|]. split; [|split].
  - eapply noloss_trans; [exact N0|eapply noloss_trans; eauto].
  - apply (lifts_trans s s0 t); [|exact B0|].
    + intros j Hj. apply (stp_live s0 s1); [exact S1|]. apply (stp_live s1 t); auto.
    + apply (lifts_trans s0 s1 t); [|exact L1|exact L2]. intros j Hj. apply (stp_live s1 t); auto.
  - intros E. apply (endless_back s s0); auto. destruct E1 as [E1|E1]; auto; [|discriminate].
    destruct (HAS_STATUS st UNBNDORINFEAS); auto. destruct (HAS_STATUS st REDUCED); discriminate.
Qed.
Lemma ston_cols_loop_sem : forall f s, good_state s -> quiet s -> (mu s < f)%nat ->
  let '(t, st) := ston_cols_loop f s in good_state t /\ ston_sem s t st.
Proof.
  induction f as [|f IH]; intros s G QS LT; [lia|]. simpl.
  pose proof (ston_cols_pass_spec s (gs_inv s G) QS) as X. pose proof (ston_cols___sem s G QS) as Y.
  destruct (remove_ston_cols__ s) as [s1 st]. destruct X as [S1 [Q1 ST]]. destruct Y as [G1 [N1 [L1 E1]]].
  destruct ST as [->|[->|[-> MU]]].
  - cbn [N.eqb]. split; auto. split; auto.
  - cbn. split; auto. split; auto.
  - rewrite N.eqb_refl. assert (LT1 : (mu s1 < f)%nat) by lia. specialize (IH s1 G1 Q1 LT1).
    pose proof (ston_cols_loop_spec f s1 (gs_inv s1 G1) Q1 LT1) as Z.
    destruct (ston_cols_loop f s1) as [t st]. destruct IH as [G2 [N2 [L2 E2]]]. destruct Z as [S2 _].
    split; auto. split; [eapply noloss_trans; eauto|split].
    + apply (lifts_trans s s1 t); [intros j Hj; apply (stp_live s1 t j); auto|auto|auto].
    + intros E. eapply endless_back; eauto.
Qed.
Lemma ston_cols_sem0 : forall s, good_state s -> quiet s ->
  let '(t, st) := remove_ston_cols s in good_state t /\ ston_sem s t st.
Proof. intros s G QS. apply ston_cols_loop_sem; auto. pose proof (mu_le s). lia. Qed.
