(** Runs in which no tolerance comes into play, all explorers. *)
From Coq Require Import NArith Lqa Lia Qabs.
From Verif Require Import M_Num S_LP M_Settings M_Driver S_Driver M_State M_Act M_Core M_Simple
  M_StonCols M_Dton M_Parallel M_Propagate M_Init M_Post M_Run S_Run S_Struct S_Sem S_Sem2 S_Sem3 S_Sem4 S_Post S_Trace S_Dton S_Merge S_MergeCol S_Exact
  L_State L_Struct L_Struct2 L_Struct3 L_Struct4 L_Struct5 L_Struct6 L_Struct7 L_Struct8 L_Struct9 L_Struct10 L_Struct11 L_Driver L_Run L_Init L_Sem L_Sem2 L_Sem3 L_Sem4 L_Sem8 L_Reach L_Mid L_Act L_Act7 L_Ston5 L_Reach2 L_ActP L_Post6 L_Post7
  L_Sem9 L_Sem10 L_ActP2 L_Trace L_Fwd L_Dton3 L_ParCol3 L_Exact.
Import M_Driver.
Notation bad := M_State.bad.
Open Scope Q_scope.

Definition patched (r : row) (x x0 : nat -> Q) (k : nat) : Q := if existsb (fun e => Nat.eqb (fst e) k) r then x k else x0 k.
Lemma patched_in : forall r x x0 k a, In (k, a) r -> patched r x x0 k = x k.
Proof.
  intros r x x0 k a H. unfold patched. replace (existsb _ r) with true; auto. symmetry. apply existsb_exists.
  exists (k, a). split; auto. apply Nat.eqb_refl.
Qed.
Lemma dot_patched : forall r' r x x0, (forall e, In e r' -> In e r) -> dot r' (patched r x x0) == dot r' x.
Proof.
  induction r' as [|[k a] r' IH]; intros r x x0 H; cbn [dot fst snd]; [lra|].
  rewrite IH by (intros; apply H; simpl; auto). rewrite (patched_in r x x0 k a) by (apply H; simpl; auto). lra.
Qed.
Lemma patched_ok : forall s i b x x0, Ok s -> feasible (reduced_lp s) x0 ->
  (forall k a, b k a = lb s k \/ b k a = ub s k) -> at_ends b (mA s i) x ->
  within_bounds (reduced_lp s) (patched (mA s i) x x0).
Proof.
  intros s i b x x0 OK F HB E k Hk. destruct (proj2 F k Hk) as [N1 N2]. cbn in N1, N2.
  unfold patched, col_sat. destruct (existsb (fun e => Nat.eqb (fst e) k) (mA s i)) eqn:X; [|split; auto].
  apply existsb_exists in X. destruct X as [[j a] [X1 X2]]. apply Nat.eqb_eq in X2. cbn in X2. subst j.
  specialize (E k a X1). cbn. destruct (HB k a) as [B|B]; rewrite B in E; rewrite E in *; cbn in *.
  - split; [lra|]. destruct (ub s k); cbn in *; auto. lra.
  - split; [|lra]. destruct (lb s k); cbn in *; auto. lra.
Qed.
Lemma stored_AV : forall s x0, Ok s -> feasible (reduced_lp s) x0 -> stored_right s -> AV Qle s.
Proof.
  intros s x0 OK F SR. constructor; [|intros k Hk; rewrite (q_fixed _ (ok_quiet s OK)) in Hk; contradiction].
  intros i Hi Ti. assert (Li : In i (live_rows s)).
  { apply live_rows_in. split; auto. apply act_alive; auto. apply (inv_0 s (ok_inv s OK)). }
  destruct (SR i Li) as [V1 V2 V3 V4]. cbn in V1, V2, V3, V4.
  assert (SO : srt (mA s i)) by (apply (w_rsrt s (inv_0 s (ok_inv s OK))); auto).
  split; (split; [rewrite ?V1, ?V2; symmetry; apply low_is || apply high_is|]); intros Z0.
  - destruct (at_point (low_end (reduced_lp s)) (mA s i) SO) as [x [E1 E2]]; [rewrite cnt_ones, <- Z0; symmetry; exact V1|].
    specialize (V3 Z0 (patched (mA s i) x x0)). rewrite dot_patched in V3 by auto.
    eapply Qle_trans; [apply V3|rewrite <- E2; apply Qle_refl].
    apply (patched_ok s i (low_end (reduced_lp s))); auto. intros k a. unfold low_end. cbn. destruct (Qgtb a 0); auto.
  - destruct (at_point (high_end (reduced_lp s)) (mA s i) SO) as [x [E1 E2]]; [rewrite cnt_ones, <- Z0; symmetry; exact V2|].
    specialize (V4 Z0 (patched (mA s i) x x0)). rewrite dot_patched in V4 by auto. unfold flip.
    eapply Qle_trans; [rewrite E2|apply V4]; [apply Qle_refl|].
    apply (patched_ok s i (high_end (reduced_lp s))); auto. intros k a. unfold high_end. cbn. destruct (Qgtb a 0); auto.
Qed.
Lemma ston_cols_at : forall s s' st, Ok s -> Mid s -> AV Qle s -> not_crossed (reduced_lp s) -> remove_ston_cols s = (s', st) ->
  (st = UNBNDORINFEAS -> forall x, feasible (reduced_lp s) x -> unbounded (reduced_lp s)) /\ no_loss (reduced_lp s) (reduced_lp s').
Proof.
  intros s s' st OK M A NC E.
  pose proof (ston_cols_sem0 s (ok_good s OK M A NC) (ok_quiet s OK)) as Y. pose proof (ston_cols_spec s (ok_inv s OK) (ok_quiet s OK)) as X.
  rewrite E in X, Y. destruct X as (S1&QS&_). destruct Y as [_ [N [L U]]].
  assert (OK' : Ok s') by (constructor; [apply S1|auto|apply S1; apply OK]).
  split; [|apply noloss_exact; auto].
  intros ES x F B. destruct (U ES (ex_intro _ x (proj2 (sat1_feas s x OK) F)) B) as [y [Y1 Y2]].
  exists y. split; [apply sat1_feas; auto|exact Y2].
Qed.

Section Step.
Variable stgs : settings.
Variable fits : nat -> bool.
Variable P : input.
Hypothesis WF : wf_input P.
Let V := reached stgs fits P.
Let RG := the_status_ranges stgs fits.

Lemma exact_step : forall c x, allowed stgs (c_kind c) -> step_of stgs fits (c_kind c) (c_before c) = (c_after c, c_status c) ->
  V (c_before c) -> exact_here fits c -> feasible (reduced_lp (c_before c)) x ->
  c_status c <> INFEASIBLE /\ (c_status c = UNBNDORINFEAS -> unbounded (reduced_lp (c_before c))) /\
  (~ trouble (c_status c) -> V (c_after c) /\
     exists x', feasible (reduced_lp (c_after c)) x' /\ objective (reduced_lp (c_after c)) x' <= objective (reduced_lp (c_before c)) x).
Proof.
  intros [k s s' st] x AL E R [X X'] F. cbn [c_kind c_before c_after c_status] in *. unfold exact_call in X. cbn [c_kind c_before c_after] in X.
  pose proof (feasible_uncrossed _ x F) as NC. destruct (reached_ok stgs fits P s WF R) as [OK M].
  assert (VV : forall f, In f (common_steps stgs) -> f s = (s', st) -> ~ trouble st -> V s').
  { intros f I Ef N. eapply rc_any; eauto. }
  destruct k; cbn [step_of allowed] in *.
  - (* close bounds *)
    pose proof (rg_close_bounds _ RG s) as Rr. rewrite E in Rr. cbn [snd] in Rr.
    destruct (r_close_bounds stgs fits P s WF R s' st E) as [A B]. split; [intros Y; exact (A Y x F)|]. split; [intros ->; in_cases Rr; discriminate|]. intros N.
    split; [apply (VV remove_variables_with_close_bounds); [unfold common_steps; cbn; auto|exact E|auto]|].
    destruct B as [B _]; [intros Y; apply N; left; auto|]. eapply same_obj; [exact B|auto|].
    intros k l u Hk EL EU Hd. destruct F as [_ FB]. specialize (FB k Hk). unfold col_sat in FB. rewrite EL, EU in FB. cbn in FB.
    destruct (Qlt_le_dec l u) as [LT|LE]; [|lra].
    pose proof (X k l u Hk EL EU LT) as G. apply Qabs.Qabs_Qle_condition in Hd. lra.
  - (* empty columns *)
    pose proof (rg_empty_cols _ RG s) as Rr. rewrite E in Rr. cbn [snd] in Rr.
    split; [in_cases Rr; subst; discriminate|].
    assert (FR : empty_cols_fresh s).
    { destruct X as [X1 X2]. split; auto. intros k Hk. split; auto. intros E1 E2. destruct NC as [_ NC].
      assert (Lk : In k (live_cols s)).
      { apply live_cols_in. assert (k < nc s)%nat by (apply (l_empty_cols s (inv_L s (ok_inv s OK)) k Hk)). split; auto. apply cact_alive; auto. apply (inv_0 s (ok_inv s OK)). }
      specialize (NC k Lk). cbn in NC. destruct (lb s k), (ub s k); try discriminate; cbn in *; auto. }
    destruct (r_empty_cols stgs fits P s WF R FR s' st E) as [_ [U B]]. split; [intros Y; exact (U Y x F)|].
    intros N. split; [apply (VV remove_empty_cols); [unfold common_steps; cbn; auto|exact E|auto]|].
    destruct B as [B _]; [intros Y; apply N; right; auto|]. destruct (B x F) as [F' O]. exists x. auto.
  - (* dual fix *)
    pose proof (rg_dual_fix _ RG s) as Rr. rewrite E in Rr. cbn [snd] in Rr.
    split; [in_cases Rr; subst; discriminate|]. destruct (r_dual_fix stgs fits P s WF R s' st E) as [_ [U [B _]]]. split; [intros Y; exact (U Y x F)|]. intros N. split; [apply (VV simple_dual_fix); [unfold common_steps; rewrite AL; cbn; auto 10|exact E|auto]|].
    exact (B x F).
  - (* singleton rows *)
    pose proof (rg_ston_rows _ RG s) as Rr. rewrite E in Rr. cbn [snd] in Rr.
    destruct (r_ston_rows stgs fits P s WF R s' st E) as [A B]. split; [intros Y; exact (A Y x F)|]. split; [intros ->; in_cases Rr; discriminate|]. intros N.
    split; [apply (VV remove_ston_rows); [unfold common_steps; cbn; auto|exact E|auto]|].
    destruct B as [B _]; [intros Y; apply N; left; auto|]. eapply same_obj; [exact B|auto|exact I].
  - (* empty rows *)
    pose proof (rg_empty_rows _ RG s) as Rr. rewrite E in Rr. cbn [snd] in Rr.
    destruct (r_empty_rows stgs fits P s WF R s' st E) as [_ [A B]]. split; [intros Y; exact (A Y x F)|]. split; [intros ->; in_cases Rr; discriminate|]. intros N.
    split; [apply (VV remove_empty_rows); [unfold common_steps; cbn; auto 10|exact E|auto]|].
    destruct B as [_ [B _]]; [intros Y; apply N; left; auto|]. eapply same_obj; [exact B|auto|exact I].
  - (* singleton columns *)
    pose proof (rg_ston_cols _ RG s) as Rr. rewrite E in Rr. cbn [snd] in Rr.
    split; [in_cases Rr; subst; discriminate|].
    destruct (ston_cols_at s s' st OK M (stored_AV s x OK F X') NC E) as [U B]. split; [intros Y; exact (U Y x F)|].
    intros N. split; [apply (VV remove_ston_cols); [unfold common_steps; rewrite AL; rewrite !in_app_iff; cbn; auto 10|exact E|auto]|].
    exact (B x F).
  - (* doubleton equations *)
    pose proof (rg_dton_eq _ RG s) as Rr. rewrite E in Rr. cbn [snd] in Rr. destruct X' as [X1 X2].
    split; [in_cases Rr; subst; discriminate|]. split; [intros ->; in_cases Rr; discriminate|]. intros N.
    split; [eapply rc_dton; eauto|]. destruct (dton_sem stgs fits P s s' st WF R X1 E) as [B _]. eapply same_obj; [exact B|auto|exact I].
  - (* activities *)
    pose proof (rg_check_acts _ RG s) as Rr. rewrite E in Rr. cbn [snd] in Rr.
    destruct (check_at s s' st OK M (stored_AV s x OK F X') E) as [A B]. split; [intros Y; exact (A Y x F)|]. split; [intros ->; in_cases Rr; discriminate|]. intros N.
    split; [apply (VV check_activities); [unfold common_steps; rewrite AL; rewrite !in_app_iff; cbn; auto 10|exact E|auto]|].
    destruct B as [B _]; [intros Y; apply N; left; auto|]. eapply same_obj; [exact B|auto|exact I].
  - (* propagation *)
    pose proof (rg_propagate _ RG s) as Rr. rewrite E in Rr. cbn [snd] in Rr.
    destruct (propagate_sem_at Qle (finite_bound_tightening_on stgs) s s' st good_le (fun v w z => z) OK M (stored_AV s x OK F X') E) as [_ [l [_ [LL [I1 B]]]]].
    assert (FX : fixed_at l x).
    { intros k v Hk. destruct (LL k v Hk) as (L1 & L2 & L3). eapply X; eauto. }
    split; [intros Y; exact (I1 Y x F FX)|]. split; [intros ->; in_cases Rr; discriminate|]. intros N.
    split; [apply (VV (propagate_primal (finite_bound_tightening_on stgs))); [unfold common_steps; rewrite AL; rewrite !in_app_iff; cbn; auto 10|exact E|auto]|].
    destruct B as [B _]; [intros Y; apply N; left; auto|]. eapply same_obj; [exact B|auto|auto].
  - (* parallel rows *)
    pose proof (rg_par_rows _ RG s) as Rr. rewrite E in Rr. cbn [snd] in Rr. destruct X' as [X1 [X2 X3]].
    destruct (parallel_rows_exact stgs fits P s s' st WF R X1 X2 X3 E) as [A B]. split; [intros Y; exact (A Y x F)|]. split; [intros ->; in_cases Rr; discriminate|]. intros N.
    split; [eapply rc_prow; eauto|]. eapply same_obj; [apply B|auto|exact I]. intros Y; apply N; left; auto.
  - (* parallel columns *)
    pose proof (rg_par_cols _ RG s) as Rr. rewrite E in Rr. cbn [snd] in Rr. destruct X' as [X1 [X2 X3]].
    split; [in_cases Rr; subst; discriminate|].
    destruct (parallel_cols_sem stgs fits P s s' st WF R X1 NC X2 X3 E) as [B [_ U]].
    split; [intros Y; apply (U Y); exists x; auto|]. intros N. split; [eapply rc_pcol; eauto|]. exact (B x F).
Qed.
Lemma exact_chain : forall s l s', linked stgs fits s l s' -> V s -> exact_run fits l -> forall x, feasible (reduced_lp s) x ->
  (bits l <> 2%N) /\ (bits l <> 0%N -> exists c, In c l /\ c_status c = UNBNDORINFEAS /\ unbounded (reduced_lp (c_before c))) /\
  (bits l = 0%N -> exists x', feasible (reduced_lp s') x' /\ objective (reduced_lp s') x' <= objective (reduced_lp s) x).
Proof.
  intros s l s' H. induction H as [s|c l s' AL E H IH]; intros RV X x F.
  { split; [discriminate|]. split; [intros Y; destruct Y; reflexivity|]. intros _. exists x. split; auto. lra. }
  destruct X as [X1 X2]. destruct (exact_step c x AL E RV X1 F) as [A [U B]].
  pose proof (rng_all stgs fits (c_kind c) (c_before c)) as RR. rewrite E in RR. cbn [snd] in RR. cbn [bits].
  assert (CS : c_status c = UNBNDORINFEAS \/ ~ trouble (c_status c) /\ tb (c_status c) = 0%N).
  { in_cases RR; auto; right; rewrite <- RR; (split; [intros [?|?]; try discriminate; congruence|try reflexivity; exfalso; congruence]). }
  destruct CS as [CS|[CS T0]].
  - rewrite CS. change (tb UNBNDORINFEAS) with 6%N.
    assert (Z6 : N.lor 6 (bits l) = 6%N).
    { rewrite <- (tb_bits l). apply N.bits_inj. intros n. rewrite N.lor_spec, N.land_spec. destruct (N.testbit 6 n), (N.testbit (bits l) n); reflexivity. }
    rewrite Z6. split; [discriminate|]. split; [|discriminate]. intros _. exists c. split; [left; reflexivity|auto].
  - rewrite T0. cbn [N.lor]. destruct (B CS) as [V' [x1 [F1 O1]]]. destruct (IH V' (X2 CS) x1 F1) as [I1 [I3 I2]].
    split; auto. split; [intros Z; destruct (I3 Z) as [c' [G1 G2]]; exists c'; split; [right; auto|auto]|]. intros Z. destruct (I2 Z) as [x' [F' O']]. exists x'. split; auto. lra.
Qed.
Lemma exact_fwd : forall clock fuel r, run_presolver stgs fits clock fuel P = Some r -> exact_run fits (calls stgs fits clock fuel P) ->
  (res_status r = INFEASIBLE -> infeasible (lp_of_input P)) /\
  (res_status r = UNBNDORINFEAS -> forall x, feasible (lp_of_input P) x ->
     exists c, In c (calls stgs fits clock fuel P) /\ c_status c = UNBNDORINFEAS /\ unbounded (reduced_lp (c_before c))) /\
  (res_reduced r = true -> no_loss (lp_of_input P) (reduced_lp (res_state r))).
Proof.
  intros clock fuel r E X. rewrite noted_faithful in E. unfold calls in *.
  destruct (noted_run stgs fits clock fuel P) as [r0|] eqn:E0; [|discriminate]. cbn [option_map] in E. injection E as <-.
  cbn [res_state res_status res_reduced].
  destruct (run_linked stgs fits clock fuel P r0 E0) as [s [L [RED [INF UNB]]]].
  assert (V0 : V (new_presolver P)) by constructor. pose proof (start_lp P WF) as SL.
  split; [|split].
  - intros H x F. rewrite <- SL in F. destruct (exact_chain _ _ _ L V0 X x F) as [A _]. auto.
  - intros H x F. rewrite <- SL in F. destruct (exact_chain _ _ _ L V0 X x F) as [_ [A _]]. apply A. rewrite (UNB H). discriminate.
  - intros H x F. destruct (RED H) as [B ES]. rewrite ES. rewrite <- SL in F. destruct (exact_chain _ _ _ L V0 X x F) as [_ [_ A]].
    rewrite SL in A. destruct (relax_bounds_on stgs); [rewrite relax_lp|]; auto.
Qed.
End Step.
Lemma exact_infeasible : forall stgs fits clock fuel P r, wf_input P ->
  run_presolver stgs fits clock fuel P = Some r -> exact_run fits (calls stgs fits clock fuel P) ->
  (res_status r = INFEASIBLE -> infeasible (lp_of_input P)) /\
  (res_status r = UNBNDORINFEAS -> forall x, feasible (lp_of_input P) x ->
     exists c, In c (calls stgs fits clock fuel P) /\ c_status c = UNBNDORINFEAS /\ unbounded (reduced_lp (c_before c))).
Proof. intros stgs fits clock fuel P r WF E X. destruct (exact_fwd stgs fits P WF clock fuel r E X) as [A [B _]]. auto. Qed.
Lemma exact_no_loss : forall stgs fits clock fuel P r, wf_input P ->
  run_presolver stgs fits clock fuel P = Some r -> exact_run fits (calls stgs fits clock fuel P) ->
  res_reduced r = true -> no_loss (lp_of_input P) (reduced_lp (res_state r)).
Proof. intros stgs fits clock fuel P r WF E X. apply (exact_fwd stgs fits P WF clock fuel r E X). Qed.
