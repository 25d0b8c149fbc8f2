(** Activities, implied bounds and singleton columns in terms of the reduced problem. *)
From Coq Require Import NArith Lqa.
From Verif Require Import M_Num S_LP M_Settings M_Driver S_Driver M_State M_Act M_Core M_Simple
  M_StonCols M_Dton M_Parallel M_Propagate M_Init M_Post M_Run S_Run S_Struct S_Sem S_Sem2 S_Sem3 S_Sem4
  L_State L_Struct L_Struct2 L_Struct3 L_Struct4 L_Struct5 L_Struct6 L_Struct7 L_Struct8 L_Tiny L_Struct9 L_Struct10 L_Struct11
  L_Init L_Sem L_Sem2 L_Sem3 L_Sem4 L_Mid L_Mid2 L_Mid3 L_Mid4 L_Mid5 L_Mid6 L_Mid7 L_Reach
  L_Act L_Act2 L_Act3 L_Act4 L_Act5 L_Act6 L_Act7 L_Act8 L_Free L_Ston L_Ston2 L_Ston3 L_Ston4 L_Ston5 L_Reach2.
Import M_Driver.
Notation bad := M_State.bad.
Open Scope Q_scope.

(** ** Validity and exactness *)
Lemma cnt_ones : forall b r, cnt (fun e => b (fst e) (snd e)) r = Z.of_nat (infinite_ones b r).
Proof.
  intros b r. unfold infinite_ones. induction r as [|e r IH]; [reflexivity|]. cbn [cnt filter]. rewrite IH. unfold inf1.
  destruct (is_fin (b (fst e) (snd e))); cbn [negb length]; lia.
Qed.
Lemma low_is : forall s r, cnt (lowb (lb s) (ub s)) r = Z.of_nat (infinite_ones (low_end (reduced_lp s)) r).
Proof. intros. rewrite <- cnt_ones. reflexivity. Qed.
Lemma high_is : forall s r, cnt (upb (lb s) (ub s)) r = Z.of_nat (infinite_ones (high_end (reduced_lp s)) r).
Proof. intros. rewrite <- cnt_ones. reflexivity. Qed.
Lemma live_entry : forall s i k a, Ok s -> In i (live_rows s) -> In (k, a) (mA s i) -> In k (live_cols s) /\ ~ a == 0.
Proof.
  intros s i k a OK Hi Hk. pose proof (ok_inv s OK) as H. destruct (live_act s i OK Hi) as [Li Ti].
  destruct (w_rin s (inv_0 s H) i k a Li Hk) as [K N]. split; auto. apply live_cols_in. split; auto. eapply (inv_R s H); eauto.
Qed.
Lemma sum_low : forall b r x, (forall e, In e r -> is_fin (b e) = true -> snd e * fin (b e) <= snd e * x (fst e)) ->
  cnt b r = 0%Z -> ssum b r <= dot r x.
Proof.
  intros b r x F C. rewrite cnt_0 in C. induction r as [|[k a] r IH]; simpl; [lra|].
  pose proof (F (k, a) (or_introl eq_refl) (C _ (or_introl eq_refl))) as X. cbn [fst snd] in X.
  specialize (IH ltac:(intros; apply F; simpl; auto) ltac:(intros; apply C; simpl; auto)). lra.
Qed.
Lemma sum_up : forall b r x, (forall e, In e r -> is_fin (b e) = true -> snd e * x (fst e) <= snd e * fin (b e)) ->
  cnt b r = 0%Z -> dot r x <= ssum b r.
Proof.
  intros b r x F C. rewrite cnt_0 in C. induction r as [|[k a] r IH]; simpl; [lra|].
  pose proof (F (k, a) (or_introl eq_refl) (C _ (or_introl eq_refl))) as X. cbn [fst snd] in X.
  specialize (IH ltac:(intros; apply F; simpl; auto) ltac:(intros; apply C; simpl; auto)). lra.
Qed.
Lemma ends : forall s x k a, csat s x k -> ~ a == 0 ->
  (is_fin (lowb (lb s) (ub s) (k, a)) = true -> a * fin (lowb (lb s) (ub s) (k, a)) <= a * x k) /\
  (is_fin (upb (lb s) (ub s) (k, a)) = true -> a * x k <= a * fin (upb (lb s) (ub s) (k, a))).
Proof.
  intros s x k a [L U] N. unfold upb, lowb. cbn [fst snd]. destruct (Qgtb a 0) eqn:G; qb; split; intros F.
  - apply mul_le; auto. apply ext_le_fin; auto.
  - apply mul_le; auto. apply le_ext_fin; auto.
  - assert (a < 0) by (destruct (Qlt_le_dec a 0); auto; exfalso; apply N; lra). apply mul_le_neg; auto. apply le_ext_fin; auto.
  - assert (a < 0) by (destruct (Qlt_le_dec a 0); auto; exfalso; apply N; lra). apply mul_le_neg; auto. apply ext_le_fin; auto.
Qed.
Lemma AV_bounds : forall s i x, Ok s -> AV Qle s -> In i (live_rows s) ->
  (forall k a, In (k, a) (mA s i) -> csat s x k) ->
  (n_inf_min (acts s i) = 0%Z -> a_min (acts s i) <= dot (mA s i) x) /\
  (n_inf_max (acts s i) = 0%Z -> dot (mA s i) x <= a_max (acts s i)).
Proof.
  intros s i x OK A Hi X. destruct (live_act s i OK Hi) as [Li Ti]. destruct (av_rows Qle s A i Li Ti) as [[N1 V1] [N2 V2]].
  split; intros Z0.
  - eapply Qle_trans; [apply V1; auto|]. apply sum_low; [|congruence]. intros [k a] He F.
    apply (proj1 (ends s x k a (X k a He) (proj2 (live_entry s i k a OK Hi He)))); auto.
  - eapply Qle_trans; [|apply V2; auto]. apply sum_up; [|congruence]. intros [k a] He F.
    apply (proj2 (ends s x k a (X k a He) (proj2 (live_entry s i k a OK Hi He)))); auto.
Qed.
Lemma r_valid : forall stgs fits P s, wf_input P -> coefficients_kept stgs ->
  reached_via (uncrossed_for_ston_cols stgs) stgs fits P s ->
  forall i, In i (lp_rows (reduced_lp s)) -> activity_valid (reduced_lp s) i (acts s i).
Proof.
  intros stgs fits P s WF CK RV i Hi. destruct (via_le stgs fits P s WF CK RV) as [OK [M A]]. cbn in Hi.
  destruct (live_act s i OK Hi) as [Li Ti]. destruct (av_rows Qle s A i Li Ti) as [[N1 V1] [N2 V2]].
  assert (X : forall x, within_bounds (reduced_lp s) x -> forall k a, In (k, a) (mA s i) -> csat s x k).
  { intros x W k a Hk. apply W. apply (live_entry s i k a OK Hi Hk). }
  constructor.
  - cbn. rewrite N1. apply low_is.
  - cbn. rewrite N2. apply high_is.
  - intros Z0 x W. apply (AV_bounds s i x OK A Hi (X x W)); auto.
  - intros Z0 x W. apply (AV_bounds s i x OK A Hi (X x W)); auto.
Qed.
Lemma at_point : forall b r, srt r -> cnt (fun e => b (fst e) (snd e)) r = 0%Z ->
  exists x, at_ends b r x /\ ssum (fun e => b (fst e) (snd e)) r == dot r x.
Proof.
  intros b r S C. rewrite cnt_0 in C.
  set (x := fun k => fin (b k (coeff_of k r))). exists x.
  assert (E : at_ends b r x).
  { intros k a Ha. unfold x. rewrite (coeff_of_in k a r S Ha). specialize (C (k, a) Ha). cbn in C. destruct (b k a); auto; discriminate. }
  split; [exact E|]. clearbody x. clear S C. induction r as [|[k a] r IH]; cbn [ssum dot fst snd]; [lra|].
  rewrite IH by (intros j c Hj; apply E; right; auto). rewrite (E k a (or_introl eq_refl)). cbn. lra.
Qed.
Lemma r_exact : forall stgs fits P s, wf_input P -> coefficients_kept stgs -> ston_cols_on stgs = false ->
  reached stgs fits P s ->
  forall i, In i (lp_rows (reduced_lp s)) -> activity_exact (reduced_lp s) i (acts s i).
Proof.
  intros stgs fits P s WF CK SC RV i Hi. destruct (reached_eq stgs fits P s WF CK SC RV) as [OK [M A]]. cbn in Hi.
  destruct (live_act s i OK Hi) as [Li Ti]. destruct (av_rows Qeq s A i Li Ti) as [[N1 V1] [N2 V2]].
  assert (SR : srt (mA s i)) by (apply (w_rsrt s (inv_0 s (ok_inv s OK))); auto).
  constructor.
  - cbn. rewrite N1. apply low_is.
  - cbn. rewrite N2. apply high_is.
  - intros Z0. destruct (at_point (low_end (reduced_lp s)) (mA s i) SR) as [x [E1 E2]]; [rewrite cnt_ones, <- low_is; congruence|].
    exists x. split; auto. rewrite (V1 Z0). exact E2.
  - intros Z0. destruct (at_point (high_end (reduced_lp s)) (mA s i) SR) as [x [E1 E2]]; [rewrite cnt_ones, <- high_is; congruence|].
    exists x. split; auto. specialize (V2 Z0). unfold flip in V2. rewrite <- V2. exact E2.
Qed.

(** ** Implied-free tests *)
Lemma r_implied_row : forall stgs fits P s, wf_input P -> coefficients_kept stgs ->
  reached_via (uncrossed_for_ston_cols stgs) stgs fits P s ->
  forall i k a x, In i (lp_rows (reduced_lp s)) -> In (k, a) (lp_A (reduced_lp s) i) ->
  others_within (reduced_lp s) k x -> row_sat (reduced_lp s) x i ->
  (implied_free_from_above_by_row s a i (mA s i) (lb s k) (ub s k) (ct s k) (acts s i) = true -> le_ext (x k) (lp_ub (reduced_lp s) k)) /\
  (implied_free_from_below_by_row s a i (mA s i) (lb s k) (ub s k) (ct s k) (acts s i) = true -> ext_le (lp_lb (reduced_lp s) k) (x k)).
Proof.
  intros stgs fits P s WF CK RV i k a x Hi Hk O [L U]. destruct (via_le stgs fits P s WF CK RV) as [OK [M A]].
  cbn in *. destruct (live_act s i OK Hi) as [Li Ti]. pose proof (ok_inv s OK) as H.
  assert (OT : others s i k x).
  { intros j c Hj D. destruct (live_entry s i j c OK Hi Hj) as [LJ _]. destruct (O j LJ D) as [X Y]. cbn in X, Y.
    split; intros F; [apply ext_le_fin; auto|apply le_ext_fin; auto]. }
  assert (RR : dot (mA s i) x == a * x k + dot (del_entry k (mA s i)) x) by (apply dot_del; auto; apply (w_rsrt s (inv_0 s H)); auto).
  split; intros E.
  - apply (above_ok Qle s i k a x H (md_tags s M) (q_sub _ (ok_quiet s OK)) (q_fixed _ (ok_quiet s OK)) A (fun v w z => z) Li Ti Hk OT (x k) E);
      [eapply le_ext_q; [exact RR|exact U]|eapply ext_le_q; [exact RR|exact L]].
  - apply (below_ok Qle s i k a x H (md_tags s M) (q_sub _ (ok_quiet s OK)) (q_fixed _ (ok_quiet s OK)) A (fun v w z => z) Li Ti Hk OT (x k) E);
      [eapply le_ext_q; [exact RR|exact U]|eapply ext_le_q; [exact RR|exact L]].
Qed.
Lemma r_implied_free : forall stgs fits P s, wf_input P -> coefficients_kept stgs ->
  reached_via (uncrossed_for_ston_cols stgs) stgs fits P s ->
  forall k x, In k (lp_cols (reduced_lp s)) -> feasible_but (reduced_lp s) k x ->
  (is_ub_implied_free s k = true -> le_ext (x k) (lp_ub (reduced_lp s) k)) /\
  (is_lb_implied_free s k = true -> ext_le (lp_lb (reduced_lp s) k) (x k)).
Proof.
  intros stgs fits P s WF CK RV k x Hk [FR FO]. destruct (via_le stgs fits P s WF CK RV) as [OK [M A]].
  pose proof (ok_inv s OK) as H. cbn in Hk. apply live_cols_in in Hk. destruct Hk as [Lk Ck].
  assert (VW : forall i a, In (i, a) (col_view s k) -> In i (live_rows s) /\ In (k, a) (mA s i)).
  { intros i a Hin. assert (Hin' : In (i, a) (mAT s k)) by (rewrite <- (firstn_skipn (Z.to_nat (csz s k)) (mAT s k)); apply in_or_app; auto).
    destruct (w_cin s (inv_0 s H) i k a Lk Hin') as [Li _].
    assert (RA : rsz s i <> (-1)%Z). { eapply (inv_C s H); eauto. apply quiet_col; auto; apply (ok_quiet s OK). }
    split; [apply live_rows_in; auto|]. apply (w_agree s (inv_0 s H)); auto. }
  unfold is_ub_implied_free, is_lb_implied_free. split; intros E; apply existsb_exists in E; destruct E as [[i a] [Hin E]]; cbn [fst snd] in E;
    destruct (VW i a Hin) as [Hi Ha].
  - apply (r_implied_row stgs fits P s WF CK RV i k a x Hi Ha FO (FR i Hi)); auto.
  - apply (r_implied_row stgs fits P s WF CK RV i k a x Hi Ha FO (FR i Hi)); auto.
Qed.

(** ** Propagation *)
Lemma r_propagate : forall stgs fits P s, wf_input P -> coefficients_kept stgs ->
  reached_via (uncrossed_for_ston_cols stgs) stgs fits P s ->
  forall b s' st, propagate_primal b s = (s', st) ->
  exists l, nearly_forced (reduced_lp s) l /\
   (forall k v, In (k, v) l -> In k (lp_cols (reduced_lp s)) /\ lp_ub (reduced_lp s') k = Fin v) /\
   (st = INFEASIBLE -> forall x, feasible (reduced_lp s) x -> ~ fixed_at l x) /\
   (st <> INFEASIBLE -> carries_over (fixed_at l) (reduced_lp s) (reduced_lp s') /\
      lifts_back feas_tol (crossed_tol (reduced_lp s)) (reduced_lp s) (reduced_lp s') /\
      (forall k v, In (k, v) l -> ~ In k (lp_cols (reduced_lp s')))).
Proof.
  intros stgs fits P s WF CK RV b s' st E. destruct (via_le stgs fits P s WF CK RV) as [OK [M A]].
  destruct (propagate_sem_at Qle b s s' st good_le (fun v w z => z) OK M A E) as [_ [l [N [LL Y]]]].
  exists l. split; [exact N|]. split; [|exact Y]. intros k v Hin. destruct (LL k v Hin) as (B1 & _ & B3). auto.
Qed.

(** ** Singleton columns *)
Lemma lifts_exact : forall s t, Ok s -> Ok t -> lifts s t -> lifts_back exactly exactly (reduced_lp s) (reduced_lp t).
Proof.
  intros s t OS OT L x' F. apply sat_feasible in F; auto. apply sat1_sat in F; [|apply (ok_quiet t OT)|apply (ok_quiet t OT)].
  destruct (L x' F) as [x [E1 [E2 E3]]]. exists x. split; [exact E1|split; [|exact E3]].
  apply feasible_up_to_0. apply sat_feasible; auto. apply sat1_sat; [apply (ok_quiet s OS)|apply (ok_quiet s OS)|auto].
Qed.
Lemma sat1_feas : forall s x, Ok s -> (sat1 s x <-> feasible (reduced_lp s) x).
Proof. intros s x OS. rewrite <- sat_feasible by auto. symmetry. apply sat1_sat; apply (ok_quiet s OS). Qed.
Lemma noloss_exact : forall s t, Ok s -> Ok t -> noloss s t -> no_loss (reduced_lp s) (reduced_lp t).
Proof.
  intros s t OS OT L x F. apply sat1_feas in F; auto. destruct (L x F) as [x' [E1 E2]]. exists x'. split; [apply sat1_feas; auto|exact E2].
Qed.
Lemma r_ston_cols : forall stgs fits P s, wf_input P -> coefficients_kept stgs ->
  reached_via (uncrossed_for_ston_cols stgs) stgs fits P s -> not_crossed (reduced_lp s) ->
  forall s' st, remove_ston_cols s = (s', st) ->
  (st = UNBNDORINFEAS -> forall x, feasible (reduced_lp s) x -> unbounded (reduced_lp s)) /\
  no_loss (reduced_lp s) (reduced_lp s') /\
  lifts_back exactly exactly (reduced_lp s) (reduced_lp s').
Proof.
  intros stgs fits P s WF CK RV NC s' st E. destruct (via_le stgs fits P s WF CK RV) as [OK [M A]].
  pose proof (ston_cols_sem0 s (ok_good s OK M A NC) (ok_quiet s OK)) as Y. pose proof (ston_cols_spec s (ok_inv s OK) (ok_quiet s OK)) as X.
  rewrite E in X, Y. destruct X as (S1&QS&_). destruct Y as [_ [N [L U]]].
  assert (OK' : Ok s') by (constructor; [apply S1|auto|apply S1; apply OK]).
  split; [|split; [apply noloss_exact; auto|apply lifts_exact; auto]].
  intros ES x F B. destruct (U ES (ex_intro _ x (proj2 (sat1_feas s x OK) F)) B) as [y [Y1 Y2]].
  exists y. split; [apply sat1_feas; auto|exact Y2].
Qed.
Lemma r_ston_eq : forall stgs fits P s, wf_input P -> coefficients_kept stgs ->
  reached_via (uncrossed_for_ston_cols stgs) stgs fits P s ->
  forall k i a, In k (lp_cols (reduced_lp s)) -> csz s k = 1%Z -> mAT s k = [(i, a)] -> t_eq (rt s i) = true ->
  let s' := delete_inactive_rows (fst (ston_col s k)) in
  carries_over anything (reduced_lp s) (reduced_lp s') /\
  lifts_back exactly exactly (reduced_lp s) (reduced_lp s').
Proof.
  intros stgs fits P s WF CK RV k i a Hk C1 EK Te. cbv zeta. destruct (via_le stgs fits P s WF CK RV) as [OK [M A]].
  pose proof (ok_inv s OK) as H. pose proof (ok_quiet s OK) as QQ. cbn in Hk. apply live_cols_in in Hk. destruct Hk as [Lk Ck].
  assert (Tk : t_cinact (ct s k) = false) by (apply quiet_col; auto; apply QQ).
  pose proof (ston_col_ok s k H Lk C1 Tk) as X.
  assert (SM : same_pts s (fst (ston_col s k)) /\ lifts s (fst (ston_col s k))).
  { assert (SELF : same_pts s s /\ lifts s s) by (split; [intros x X0; split; auto; lra|apply lifts_refl]).
    unfold ston_col. rewrite EK. destruct (w_cin s (inv_0 s H) i k a Lk) as [Hi _]; [rewrite EK; left; reflexivity|].
    destruct (t_inact (rt s i)) eqn:Ti; cbn [orb]; auto.
    destruct (Z.leb_spec (rsz s i) 1); auto.
    assert (INk : In (k, a) (mA s i)).
    { apply (w_agree s (inv_0 s H)); auto; [apply act_alive; auto; apply H|]. rewrite EK. left; auto. }
    cbv zeta. rewrite Te. apply (process_eq_sem s i k a H M A (q_fixed _ QQ) (q_sub _ QQ) Hi Lk Ti Tk EK INk Te). lia. }
  destruct (ston_col s k) as [t st]. cbn [fst] in *. destruct X as [S1 [[F1 F2 F3] _]].
  pose proof (stp_dir t (st_inv _ _ S1)) as [S2 [_ WR]].
  destruct (dir_sem t (st_inv _ _ S1)) as (X1 & X2 & _ & _ & (Y1 & Y2 & Y3 & Y4 & Y5 & Y6 & Y7 & Y8 & Y9 & Y10 & Y11 & Y12 & Y13) & _).
  cbv zeta in *. set (s' := delete_inactive_rows t) in *. clearbody s'. destruct QQ as [Q1 Q2 Q3].
  assert (OK' : Ok s').
  { constructor; [apply S2|constructor; congruence|]. apply S2, S1. apply OK. }
  assert (SP : forall x, sat1 t x <-> sat1 s' x).
  { intros x. rewrite <- !sat1_sat by congruence. apply X1. }
  destruct SM as [SM LM]. split.
  - intros x F _. apply sat1_feas in F; auto. destruct (SM x F) as [G1 G2]. split; [apply sat1_feas; auto; apply SP; auto|].
    change (obj s' x == obj s x). rewrite X2. auto.
  - apply lifts_exact; auto. apply (lifts_trans s t s'); [intros j Hj; apply (stp_live t s' j); auto|auto|].
    intros x X. exists x. split; [intros; lra|split; [apply SP; auto|rewrite X2; lra]].
Qed.
