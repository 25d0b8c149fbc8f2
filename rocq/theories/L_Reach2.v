(** Activities in the states of a run. *)
From Coq Require Import NArith Lqa.
From Verif Require Import M_Num S_LP M_Settings M_Driver S_Driver M_State M_Act M_Core M_Simple
  M_StonCols M_Dton M_Parallel M_Propagate M_Init M_Post M_Run S_Run S_Struct S_Sem S_Sem2 S_Sem3 S_Sem4
  L_State L_Struct L_Struct2 L_Struct3 L_Struct4 L_Struct5 L_Struct6 L_Struct7 L_Struct8 L_Tiny L_Struct9 L_Struct10 L_Struct11
  L_Init L_Sem L_Sem2 L_Sem3 L_Sem4 L_Mid L_Mid2 L_Mid3 L_Mid4 L_Mid5 L_Mid6 L_Mid7 L_Reach
  L_Act L_Act2 L_Act3 L_Act4 L_Act5 L_Act6 L_Act7 L_Act8 L_Free L_Ston L_Ston2 L_Ston3 L_Ston4 L_Ston5.
Import M_Driver.
Notation bad := M_State.bad.
Open Scope Q_scope.

Lemma via_reached : forall K stgs fits P s, reached_via K stgs fits P s -> reached stgs fits P s.
Proof.
  intros K stgs fits P s R. induction R.
  - apply rc_start.
  - eapply rc_any; eauto.
  - eapply rc_prow; eauto.
  - eapply rc_pcol; eauto.
  - eapply rc_dton; eauto.
Qed.
Lemma reached_via_all : forall stgs fits P s, reached stgs fits P s -> reached_via (fun _ => True) stgs fits P s.
Proof.
  intros stgs fits P s R. induction R.
  - apply rv_start.
  - eapply rv_any; eauto.
  - eapply rv_prow; eauto.
  - eapply rv_pcol; eauto.
  - eapply rv_dton; eauto.
Qed.

(** ** The first state *)
Lemma list_acts_num : forall l s, let t := foldS list_act l s in
  (forall i, anum (acts t i) (acts s i)) /\ exists a w, t = set_w_acts w (set_acts a s).
Proof.
  intros l s. cbv zeta. split.
  - revert s. induction l as [|j l IH]; intros s i; [apply anum_refl|]. rewrite foldS_cons.
    eapply anum_trans; [apply IH|]. unfold list_act. destruct (_ || _); [|apply anum_refl].
    unfold push_acts. sr. updg; [|apply anum_refl]. unfold anum. cbn. auto.
  - destruct (list_acts_form l s) as [a [w [E _]]]. eauto.
Qed.
Lemma count_cnt : forall l u t r, (forall k a, In (k, a) r -> t_lb_inf (t k) = negb (is_fin (l k)) /\ t_ub_inf (t k) = negb (is_fin (u k))) ->
  count_inf_min t r = cnt (lowb l u) r /\ count_inf_max t r = cnt (upb l u) r.
Proof.
  induction r as [|[k a] r IH]; intros T; simpl; [auto|]. destruct (IH ltac:(intros; eapply T; right; eauto)) as [-> ->].
  destruct (T k a (or_introl eq_refl)) as [-> ->]. unfold upb, lowb, inf1. cbn [fst snd].
  destruct (Qgtb a 0), (is_fin (l k)), (is_fin (u k)); auto.
Qed.
Lemma init_SV2 : forall R l u t r, good R ->
  (forall k a, In (k, a) r -> t_lb_inf (t k) = negb (is_fin (l k)) /\ t_ub_inf (t k) = negb (is_fin (u k))) ->
  SV2 R l u r (Activity_init l u t r).
Proof.
  intros R l u t r G T. destruct (count_cnt l u t r T) as [E1 E2]. unfold SV2, SV, Activity_init. cbn [n_inf_min n_inf_max a_min a_max].
  split.
  - split; [auto|]. intros Z0. rewrite Z0. cbn [Z.eqb].
    apply (gd_ext R G (ssum (lowb l u) r) _ (ssum (lowb l u) r) _ (ssum_min l u r) (Qeq_refl _) (gd_refl R G _)).
  - split; [auto|]. intros Z0. rewrite Z0. cbn [Z.eqb]. unfold flip.
    apply (gd_ext R G (ssum (upb l u) r) _ (ssum (upb l u) r) _ (Qeq_refl _) (ssum_max l u r) (gd_refl R G _)).
Qed.
Lemma new_presolver_AV : forall R P, good R -> wf_input P -> AV R (new_presolver P).
Proof.
  intros R P G WF.
  change (new_presolver P) with
      (foldS list_act (seq 0 (in_m P)) (foldS list_col (seq 0 (in_n P)) (foldS list_row (seq 0 (in_m P))
        (foldS add_row_locks (seq 0 (in_m P)) (init_state P))))).
  destruct (locks_only_rows (seq 0 (in_m P)) (init_state P)) as [u [d E1]]. rewrite E1.
  set (s1 := set_dns d (set_ups u (init_state P))).
  destruct (list_rows_form (seq 0 (in_m P)) s1) as [E [R0 [D [E2 _]]]]. rewrite E2.
  set (s2 := set_w_dton D (set_w_ston_rows R0 (set_w_empty_rows E s1))).
  destruct (list_cols_form (seq 0 (in_n P)) s2) as [ec [sc [E3 _]]]. rewrite E3.
  match goal with |- context [foldS list_act ?l ?s] => destruct (list_acts_num l s) as [N [a [w E4]]]; set (t := foldS list_act l s) in * end.
  assert (ACT : forall i, anum (acts t i) (Activity_init (in_lb P) (in_ub P) (fun k => new_coltag (in_lb P k) (in_ub P k)) (in_A P i))) by exact N.
  assert (LT : lb t = in_lb P /\ ub t = in_ub P /\ mA t = in_A P /\ nr t = in_m P /\ w_fixed t = []) by (rewrite E4; repeat split; reflexivity).
  clearbody t. clear N E4 E3 E2. destruct LT as (L1 & L2 & L3 & L4 & L5). constructor.
  - intros i Hi _. rewrite L4 in Hi. rewrite L1, L2, L3. eapply SV2_num; [apply ACT|]. apply init_SV2; auto.
    intros k c Hc. destruct (wf_rows P WF i Hi) as [_ CB]. destruct (CB k c Hc) as [CB' _]. pose proof (wf_lb P WF k CB'). pose proof (wf_ub P WF k CB').
    unfold new_coltag. cbn. destruct (in_lb P k), (in_ub P k); try congruence; auto.
  - rewrite L5. intros k [].
Qed.

(** ** All states *)
Lemma live_act : forall s i, Ok s -> In i (live_rows s) -> (i < nr s)%nat /\ t_inact (rt s i) = false.
Proof. intros s i [H Q _] Hi. apply live_rows_in in Hi. destruct Hi as [Hi R]. split; auto. apply quiet_row; auto; apply Q. Qed.
Lemma not_above_fin0 : forall l u, not_above l u -> is_fin l = true -> is_fin u = true -> fin l <= fin u.
Proof. intros [| |] [| |]; simpl; intros; auto; discriminate. Qed.
Lemma uncrossed : forall s, Ok s -> not_crossed (reduced_lp s) -> ordered s /\ sided s.
Proof.
  intros s OK [A B]. pose proof (ok_inv s OK) as H. split.
  - intros k Hk T. apply not_above_fin0, B, live_cols_in. split; auto. apply cact_alive; auto. apply H.
  - intros i Hi T. apply not_above_fin0, A, live_rows_in. split; auto. apply act_alive; auto. apply H.
Qed.
Lemma ok_good : forall s, Ok s -> Mid s -> AV Qle s -> not_crossed (reduced_lp s) -> good_state s.
Proof.
  intros s OK M A N. destruct (uncrossed s OK N). constructor; auto; [apply OK|apply (ok_quiet s OK)|apply (ok_quiet s OK)].
Qed.

Lemma common_AV : forall R stgs f s s' st, good R -> (forall v w, R v w -> v <= w) -> Ok s -> Mid s -> AV R s ->
  (ston_cols_on stgs = true -> R = Qle /\ not_crossed (reduced_lp s)) ->
  In f (common_steps stgs) -> f s = (s', st) -> ~ trouble st -> AV R s'.
Proof.
  intros R stgs f s s' st G RL OK M A K IN E NT.
  pose proof (ok_inv s OK) as H. pose proof (ok_quiet s OK) as [Q1 Q2 Q3]. assert (QQ : quiet s) by (constructor; auto).
  apply not_trouble in NT. destruct NT as [NI NU].
  unfold common_steps in IN. rewrite !in_app_iff in IN. destruct IN as [IN|[IN|[IN|IN]]].
  - destruct IN as [<-|[<-|[<-|[<-|[]]]]].
    + pose proof (close_bounds_AV R s G OK M A) as Y. rewrite E in Y. auto.
    + pose proof (empty_cols_AV R s G H A Q2) as Y. rewrite E in Y. auto.
    + pose proof (ston_rows_AV R s G H M A Q3) as Y. rewrite E in Y. auto.
    + pose proof (empty_rows_AV R s G A) as Y. rewrite E in Y. auto.
  - destruct (dual_fix_on stgs); [|contradiction]. destruct IN as [<-|[]].
    pose proof (dual_fix_AV R s G H M A Q3) as Y. rewrite E in Y. auto.
  - destruct (ston_cols_on stgs); [|contradiction]. destruct IN as [<-|[]].
    destruct (K eq_refl) as [-> NC]. pose proof (ston_cols_sem0 s (ok_good s OK M A NC) QQ) as Y. rewrite E in Y. destruct Y as [Y _]. apply Y.
  - destruct (primal_propagation_on stgs); [|contradiction]. destruct IN as [<-|[<-|[]]].
    + pose proof (check_activities_AV R s G H A) as Y. rewrite E in Y. auto.
    + destruct (propagate_sem R _ s s' st G RL OK M A E) as [Y _]. auto.
Qed.
Lemma via_AV : forall R (K : state -> Prop) stgs fits P s, good R -> (forall v w, R v w -> v <= w) -> wf_input P ->
  coefficients_kept stgs -> (ston_cols_on stgs = true -> R = Qle /\ forall s, K s -> not_crossed (reduced_lp s)) ->
  reached_via K stgs fits P s -> AV R s.
Proof.
  intros R K stgs fits P s G RL WF [CD CP] HK RV.
  induction RV as [|f s s' st IN RV IH KS E NT|s s' st ON C RV IH KS E NT|s s' st ON C RV IH KS E NT|s s' st ON RV IH KS E NT TN].
  - apply new_presolver_AV; auto.
  - destruct (reached_ok stgs fits P s WF (via_reached _ _ _ _ _ RV)) as [OK M].
    apply (common_AV R stgs f s s' st); auto. intros ON. destruct (HK ON). auto.
  - destruct (reached_ok stgs fits P s WF (via_reached _ _ _ _ _ RV)) as [[H Q N] M].
    pose proof (par_rows_AV R s G H IH N Q C) as Y. rewrite E in Y. auto.
  - congruence.
  - congruence.
Qed.
Lemma via_le : forall stgs fits P s, wf_input P -> coefficients_kept stgs ->
  reached_via (uncrossed_for_ston_cols stgs) stgs fits P s -> Ok s /\ Mid s /\ AV Qle s.
Proof.
  intros stgs fits P s WF CK RV. destruct (reached_ok stgs fits P s WF (via_reached _ _ _ _ _ RV)) as [OK M].
  split; [auto|split; [auto|]]. apply (via_AV Qle (uncrossed_for_ston_cols stgs) stgs fits P s); auto using good_le.
Qed.
Lemma reached_eq : forall stgs fits P s, wf_input P -> coefficients_kept stgs -> ston_cols_on stgs = false ->
  reached stgs fits P s -> Ok s /\ Mid s /\ AV Qeq s.
Proof.
  intros stgs fits P s WF CK SC RV. destruct (reached_ok stgs fits P s WF RV) as [OK M].
  split; [auto|split; [auto|]]. apply (via_AV Qeq (fun _ => True) stgs fits P s); auto using good_eq, reached_via_all; [intros; lra|congruence].
Qed.
