(** Signs and complementary slackness: the steps of a run, and whole runs. *)
From Coq Require Import NArith Lqa.
From Verif Require Import M_Num S_LP M_Settings M_Driver S_Driver M_State M_Act M_Core M_Simple
  M_StonCols M_Dton M_Parallel M_Propagate M_Init M_Post M_Run S_Run S_Struct S_Sem S_Sem4 S_Post S_Log S_Kkt
  L_State L_Struct L_Struct2 L_Struct3 L_Struct4 L_Struct5 L_Struct6 L_Struct11 L_Init L_Sem L_Sem2 L_Sem3 L_Sem4 L_Sem9 L_Mid L_Mid2
  L_Reach L_Reach2 L_Post L_Post2 L_Post3 L_Post6 L_Post7 L_Kkt L_Kkt2 L_Kkt3 L_Kkt4.
Import M_Driver.
Notation bad := M_State.bad.
Open Scope Q_scope.
Section Kkt.
Variable rtol : nat -> Q.
Hypothesis rtol0 : forall i, 0 <= rtol i.
Notation St := (L_Post.St True).
Notation Back := (L_Post.Back True).
Notation KB := (L_Kkt.KB rtol FEAS_TOL).
Notation CS := (L_Kkt.CS rtol FEAS_TOL).
Notation cover := (L_Kkt.cover rtol FEAS_TOL).

Lemma tol0 : 0 <= FEAS_TOL.
Proof. unfold FEAS_TOL. lra. Qed.
Lemma simple_KB : forall f s s' st, Ok s -> Mid s -> In f simple_steps -> f s = (s', st) -> ~ trouble st -> KB s s'.
Proof.
  intros f s s' st OK M IN E NT.
  pose proof (ok_inv s OK) as H. pose proof (ok_quiet s OK) as QQ. pose proof QQ as [Q1 Q2 Q3].
  apply not_trouble in NT. destruct NT as [NI NU].
  destruct IN as [<-|[<-|[<-|[<-|[<-|[<-|[]]]]]]].
  - pose proof (close_bounds_KB rtol FEAS_TOL tol0 s OK M) as X. rewrite E in X. apply X; auto. intros k l u _ _ _ _ L. exact L.
  - pose proof (empty_cols_KB rtol FEAS_TOL tol0 s H M Q2) as X. rewrite E in X. exact X.
  - pose proof (ston_rows_KB rtol FEAS_TOL (Qle_refl _) rtol0 s H M QQ) as X. rewrite E in X. exact X.
  - pose proof (empty_rows_KB rtol FEAS_TOL s H) as X. rewrite E in X. exact X.
  - pose proof (dual_fix_KB rtol FEAS_TOL tol0 s H M QQ) as X. rewrite E in X. exact X.
  - pose proof (check_activities_KB rtol FEAS_TOL s H) as X. rewrite E in X. exact X.
Qed.
Lemma start_CS : forall s x y z, Ok s -> complementary rtol FEAS_TOL (reduced_lp s) x y z -> CS s (start_sol s x y z).
Proof.
  intros s x y z OK [CR CC]. pose proof (ok_inv s OK) as H. pose proof (inv_0 s H) as W. pose proof (ok_quiet s OK) as [Q1 Q2 Q3].
  constructor; unfold start_sol, copy_reduced_sol, keep_map; cbn [sx sy sz].
  - intros i Hi T. pose proof (act_alive s i W Hi T) as R. pose proof R as R'. apply Z.eqb_neq in R. rewrite R. cbn [negb val].
    specialize (CR i ltac:(apply live_rows_in; auto)). cbn [reduced_lp lp_lhs lp_rhs lp_A] in CR.
    eapply pressed_ext; [exact CR|lra| |auto|auto]. apply dot_ext. intros k a Hk.
    pose proof (proj1 (w_rin s W i k a Hi Hk)) as Hk'. pose proof (inv_R s H i k a Hi T Hk) as C.
    pose proof (proj1 (quiet_col s k H Q2 Q3 Hk') C) as TK. unfold xv. rewrite (fixed_cinact _ TK). cbn [sx].
    apply Z.eqb_neq in C. rewrite C. cbn. lra.
  - intros k Hk T. pose proof (cact_alive s k W Hk T) as C. specialize (CC k ltac:(apply live_cols_in; auto)).
    apply Z.eqb_neq in C. rewrite C. cbn [negb val]. exact CC.
Qed.
Lemma CS_end : forall s t x y z, Ok s -> CS s t ->
  (forall k, (k < nc s)%nat -> t_cinact (ct s k) = false -> val (sx t k) == x k /\ val (sz t k) == z k) ->
  (forall i, (i < nr s)%nat -> t_inact (rt s i) = false -> val (sy t i) == y i) -> complementary rtol FEAS_TOL (reduced_lp s) x y z.
Proof.
  intros s t x y z OK [CR CC] HX HY. pose proof (ok_inv s OK) as H. pose proof (inv_0 s H) as W. pose proof (ok_quiet s OK) as [Q1 Q2 Q3].
  split; cbn [reduced_lp lp_rows lp_cols lp_lhs lp_rhs lp_lb lp_ub lp_A].
  - intros i Hi. destruct (live_act s i OK Hi) as [Li T]. eapply pressed_ext; [apply (CR i Li T)|apply HY; auto| |auto|auto].
    apply dot_ext. intros k a Hk.
    pose proof (proj1 (w_rin s W i k a Li Hk)) as Hk'. pose proof (inv_R s H i k a Li T Hk) as C.
    pose proof (proj1 (quiet_col s k H Q2 Q3 Hk') C) as TK. unfold xv. rewrite (fixed_cinact _ TK). apply HX; auto.
  - intros k Hk. apply live_cols_in in Hk. destruct Hk as [Hk C]. pose proof (proj1 (quiet_col s k H Q2 Q3 Hk) C) as TK.
    destruct (HX k Hk TK). eapply pressed_ext; [apply (CC k Hk TK)|auto|auto|auto|auto].
Qed.
Lemma cover_lp : forall s, Ok s -> covers rtol FEAS_TOL (reduced_lp s) -> cover s.
Proof.
  intros s OK C i k a Hi T Hin. destruct (C i) as [_ X]; [|eapply X; eauto]. cbn. apply live_rows_in. split; auto.
  apply act_alive; auto. apply OK.
Qed.
Lemma taken_start : forall new s x y z, taken_back new s x y z = replay None new (start_sol s x y z).
Proof. reflexivity. Qed.
Lemma step_CS : forall s s' new x y z, Ok s -> Ok s' -> KB s s' -> log s' = new ++ log s -> covers rtol FEAS_TOL (reduced_lp s) ->
  stationary (reduced_lp s') y z -> complementary rtol FEAS_TOL (reduced_lp s') x y z ->
  let sol := taken_back new s' x y z in
  stationary (reduced_lp s) (fun i => val (sy sol i)) (fun k => val (sz sol k)) /\
  complementary rtol FEAS_TOL (reduced_lp s) (fun k => val (sx sol k)) (fun i => val (sy sol i)) (fun k => val (sz sol k)).
Proof.
  intros s s' new x y z OK OK' [B [_ K]] L CV SY C. cbv zeta. rewrite taken_start.
  pose proof (start_St True s' x y z OK' (fun _ => SY)) as ST.
  split.
  - destruct B as [n2 [L2 [_ B]]]. assert (E : new = n2) by (apply (app_inv_tail (log s)); congruence). subst n2.
    destruct (B _ ST) as [t' [S1 [_ R1]]]. specialize (R1 []). rewrite app_nil_r in R1. rewrite R1. cbn [replay].
    destruct S1 as [_ _ _ S1]. pose proof (ok_inv s OK) as H. pose proof (ok_quiet s OK) as [Q1 Q2 Q3].
    intros k Hk. cbn [reduced_lp lp_cols lp_c lp_rows lp_A] in *. apply live_cols_in in Hk. destruct Hk as [Hk Ck].
    pose proof (proj1 (quiet_col s k H Q2 Q3 Hk) Ck) as TK. rewrite (S1 I k Hk TK).
    rewrite (col_sum s (live_rows s) k _ H); [|apply NoDup_filter, seq_NoDup|auto|auto|].
    + rewrite (ysum_dot _ (fun i => val (sy t' i))); [lra|]. intros; lra.
    + intros i. split; [apply live_act; auto|]. intros [Hi Ti]. apply live_rows_in. split; auto. apply (act_alive s i (inv_0 s H) Hi Ti).
  - eapply CS_end; [exact OK|apply (K new _ (cover_lp s OK CV) L ST (start_CS s' x y z OK' C))| |]; intros; split || idtac; lra.
Qed.
Lemma reached_KB : forall stgs fits P s, wf_input P -> signs_kept stgs -> reached stgs fits P s -> KB (new_presolver P) s.
Proof.
  intros stgs fits P s WF [[[D1 D2] D3] [SC PP]] R.
  induction R as [|f s s' st IN R IH E NT|s s' st ON C R IH E NT|s s' st ON C R IH E NT|s s' st ON R IH E NT TN]; try congruence.
  - apply KB_refl.
  - destruct (reached_ok stgs fits P s WF R) as [OK M]. eapply KB_trans; [exact IH|]. eapply simple_KB; eauto.
    unfold common_steps in IN. rewrite SC, PP, app_nil_r in IN. apply in_app_or in IN. destruct IN as [IN|IN].
    + destruct IN as [<-|[<-|[<-|[<-|[]]]]]; cbn; auto 8.
    + destruct (dual_fix_on stgs); [|contradiction]. destruct IN as [<-|[]]. cbn; auto 8.
Qed.
Lemma post_CS : forall stgs fits P s x y z x' y' z', wf_input P -> signs_kept stgs -> reached stgs fits P s ->
  covers rtol FEAS_TOL (lp_of_input P) -> stationary (reduced_lp s) y z -> complementary rtol FEAS_TOL (reduced_lp s) x y z ->
  solution_is P (postsolve_state s x y z) x' y' z' -> complementary rtol FEAS_TOL (lp_of_input P) x' y' z'.
Proof.
  intros stgs fits P s x y z x' y' z' WF SK R CV SY C [_ [SX SYS]].
  destruct (reached_ok stgs fits P s WF R) as [OK _].
  destruct (reached_KB stgs fits P s WF SK R) as [_ [_ K]].
  destruct (init_fields P) as (NR & NC & MA & _ & _ & L0 & _ & _ & LB & UB & LH & RH & _).
  assert (CV0 : cover (new_presolver P)).
  { intros i k a Hi T Hin. rewrite NR in Hi. rewrite MA in Hin. destruct (CV i) as [_ X]; [cbn; apply in_seq; lia|]. eapply X; eauto. }
  specialize (K (log s) (start_sol s x y z) CV0 ltac:(rewrite L0, app_nil_r; reflexivity) (start_St True s x y z OK (fun _ => SY)) (start_CS s x y z OK C)).
  change (replay None (log s) (start_sol s x y z)) with (postsolve_state s x y z) in K.
  set (sol := postsolve_state s x y z) in *. clearbody sol.
  destruct K as [CR CC]. split; cbn [lp_of_input lp_rows lp_cols lp_lhs lp_rhs lp_lb lp_ub lp_A].
  - intros i Hi. apply in_seq in Hi. specialize (CR i ltac:(rewrite NR; lia) (init_rows_active P i)).
    rewrite LH, RH, MA, (SYS i) in CR by lia. eapply pressed_ext; [exact CR|cbn; lra| |auto|auto]. apply dot_ext.
    intros k a Hk. unfold xv. rewrite (fixed_cinact _ (init_cols_active P k)).
    pose proof (proj1 (new_presolver_Ok P WF)) as OK0.
    destruct (w_rin _ (inv_0 _ (ok_inv _ OK0)) i k a) as [Lk _]; [rewrite NR; lia|rewrite MA; auto|]. rewrite NC in Lk.
    rewrite (proj1 (SX k Lk)). cbn. lra.
  - intros k Hk. apply in_seq in Hk. specialize (CC k ltac:(rewrite NC; lia) (init_cols_active P k)).
    destruct (SX k ltac:(lia)) as [E1 E2]. rewrite LB, UB, E1, E2 in CC. exact CC.
Qed.
End Kkt.

(** ** Tolerances that are right for the rows of the problem only *)
Definition cut (m : nat) (rtol : nat -> Q) (i : nat) : Q := if Nat.ltb i m then rtol i else 0.
Lemma cut_in : forall m r i, (i < m)%nat -> cut m r i = r i.
Proof. intros m r i H. unfold cut. apply Nat.ltb_lt in H. rewrite H. reflexivity. Qed.
Lemma comp_cut : forall m r c P x y z, (forall i, In i (lp_rows P) -> (i < m)%nat) ->
  (complementary (cut m r) c P x y z <-> complementary r c P x y z).
Proof.
  intros m r c P x y z H. unfold complementary. split; intros [A B]; (split; [|exact B]); intros i Hi;
    [rewrite <- (cut_in m r i) by auto|rewrite (cut_in m r i) by auto]; auto.
Qed.
Lemma covers_cut : forall m r c P, (forall i, In i (lp_rows P) -> (i < m)%nat) -> covers r c P -> covers (cut m r) c P.
Proof. intros m r c P H C i Hi. rewrite cut_in by auto. auto. Qed.
Lemma cut0 : forall m r c P, (forall i, (i < m)%nat -> In i (lp_rows P)) -> covers r c P -> forall i, 0 <= cut m r i.
Proof.
  intros m r c P H C i. unfold cut. destruct (Nat.ltb_spec i m); [|lra]. apply (C i (H i H0)).
Qed.
Lemma run_CS : forall stgs fits clock fuel P r rtol, wf_input P -> signs_kept stgs ->
  run_presolver stgs fits clock fuel P = Some r -> res_reduced r = true -> covers rtol FEAS_TOL (lp_of_input P) ->
  forall x y z x' y' z', stationary (reduced_lp (res_state r)) y z -> complementary rtol FEAS_TOL (reduced_lp (res_state r)) x y z ->
  solution_is P (postsolve_state (res_state r) x y z) x' y' z' -> complementary rtol FEAS_TOL (lp_of_input P) x' y' z'.
Proof.
  intros stgs fits clock fuel P r rtol WF SK H Hr CV x y z x' y' z' SY C S.
  destruct (run_reached _ _ _ _ _ _ WF (proj1 (proj1 (proj1 SK))) H Hr) as [s [R [L [_ E]]]]. rewrite E in S. rewrite L in SY, C.
  assert (I0 : forall i, In i (lp_rows (lp_of_input P)) <-> (i < in_m P)%nat) by (intros i; cbn; rewrite in_seq; lia).
  apply (comp_cut (in_m P)); [apply I0|].
  eapply (post_CS (cut (in_m P) rtol)); eauto.
  - eapply cut0; [|exact CV]. apply I0.
  - apply covers_cut; auto. apply I0.
  - apply comp_cut; auto. intros i Hi. destruct (reached_ok stgs fits P s WF R) as [OK _].
    destruct (reached_log stgs fits P s WF (proj1 (proj1 SK)) R) as [NR _]. rewrite <- NR. apply (live_act s i OK Hi).
Qed.
Lemma step_signs : forall stgs fits P s f s' st rtol, wf_input P -> reached stgs fits P s -> In f simple_steps ->
  In f (common_steps stgs) -> f s = (s', st) -> ~ trouble st ->
  (forall i, 0 <= rtol i) -> covers rtol FEAS_TOL (reduced_lp s) ->
  exists new, log s' = new ++ log s /\
  forall x y z, stationary (reduced_lp s') y z -> complementary rtol FEAS_TOL (reduced_lp s') x y z ->
  let sol := taken_back new s' x y z in
  stationary (reduced_lp s) (fun i => val (sy sol i)) (fun k => val (sz sol k)) /\
  complementary rtol FEAS_TOL (reduced_lp s) (fun k => val (sx sol k)) (fun i => val (sy sol i)) (fun k => val (sz sol k)).
Proof.
  intros stgs fits P s f s' st rtol WF R IN IC E NT R0 CV. destruct (reached_ok stgs fits P s WF R) as [OK M].
  pose proof (simple_KB rtol R0 f s s' st OK M IN E NT) as K.
  assert (OK' : Ok s') by (eapply reached_ok; [exact WF|eapply rc_any; eauto]).
  destruct (proj1 K) as [new [L _]]. exists new. split; [exact L|]. intros x y z SY C.
  eapply step_CS; eauto.
Qed.
(** used on literals *)
Lemma coversb_ok : forall rtol c P, forallb (fun i => Qle_bool 0 (rtol i) && forallb (fun e => Qle_bool (Qabs (snd e) * c) (rtol i)) (lp_A P i))
  (lp_rows P) = true -> covers rtol c P.
Proof.
  intros rtol c P H i Hi. rewrite forallb_forall in H. specialize (H i Hi). apply andb_true_iff in H. destruct H as [A B].
  split; [apply Qle_bool_iff; auto|]. intros k a Hk. rewrite forallb_forall in B. specialize (B _ Hk). apply Qle_bool_iff. exact B.
Qed.
