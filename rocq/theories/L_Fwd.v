(** What a run keeps, going forward. *)
From Coq Require Import NArith Lqa.
From Verif Require Import M_Num S_LP M_Settings M_Driver S_Driver M_State M_Act M_Core M_Simple
  M_StonCols M_Dton M_Parallel M_Propagate M_Init M_Post M_Run S_Run S_Struct S_Sem S_Sem2 S_Sem3 S_Sem4 S_Post S_Trace
  L_State L_Struct L_Struct11 L_Driver L_Run L_Init L_Sem L_Sem2 L_Sem3 L_Sem4 L_Sem8 L_Reach L_Act L_Act7 L_Reach2 L_ActP L_Post6 L_Post7 L_Kkt3 L_Sem9 L_Sem10 L_ActP2 L_Trace.
Import M_Driver.
Notation bad := M_State.bad.
Open Scope Q_scope.

Lemma not_above_mid : forall l v u, ext_le l v -> le_ext v u -> not_above l u.
Proof. intros [|p|] v [|q|]; cbn; auto. intros. lra. Qed.
Lemma feasible_uncrossed : forall P x, feasible P x -> not_crossed P.
Proof.
  intros P x [A B]. split; [intros i Hi; destruct (A i Hi)|intros k Hk; destruct (B k Hk)]; eapply not_above_mid; eauto.
Qed.

Lemma forallb_filter_id : forall {A} (f : A -> bool) l, forallb f l = true -> filter f l = l.
Proof. induction l as [|a l IH]; cbn; auto. intros H. apply andb_true_iff in H. destruct H as [-> H]. f_equal. auto. Qed.
Section Step.
Variable stgs : settings.
Variable fits : nat -> bool.
Variable P : input.
Hypothesis WF : wf_input P.
Hypothesis CK : coefficients_kept stgs.
Hypothesis PO : parallel_rows_on stgs = false.
Let V := reached_via (uncrossed_for_ston_cols stgs) stgs fits P.
Let RG := the_status_ranges stgs fits.

Lemma same_obj : forall C A B x, carries_over C A B -> feasible A x -> C x -> exists x', feasible B x' /\ objective B x' <= objective A x.
Proof. intros C A B x H F X. destruct (H x F X) as [F' E]. exists x. split; auto. rewrite E. lra. Qed.
Lemma step_fwd : forall c x, allowed stgs (c_kind c) -> step_of stgs fits (c_kind c) (c_before c) = (c_after c, c_status c) ->
  V (c_before c) -> exact_call c -> feasible (reduced_lp (c_before c)) x ->
  c_status c <> INFEASIBLE /\ (c_status c = UNBNDORINFEAS -> unbounded (reduced_lp (c_before c))) /\
  (~ trouble (c_status c) -> V (c_after c) /\
     exists x', feasible (reduced_lp (c_after c)) x' /\ objective (reduced_lp (c_after c)) x' <= objective (reduced_lp (c_before c)) x).
Proof.
  intros [k s s' st] x AL E RV X F. cbn [c_kind c_before c_after c_status] in *. unfold exact_call in X. cbn [c_kind c_before c_after] in X.
  pose proof (via_reached _ _ _ _ _ RV) as R. pose proof (feasible_uncrossed _ x F) as NC.
  assert (K : uncrossed_for_ston_cols stgs s) by (intros _; exact NC).
  assert (VV : forall f, In f (common_steps stgs) -> f s = (s', st) -> ~ trouble st -> V s').
  { intros f I Ef N. eapply rv_any; eauto. }
  destruct k; cbn [step_of allowed] in *.
  - (* close bounds *)
    pose proof (rg_close_bounds _ RG s) as Rr. rewrite E in Rr. cbn [snd] in Rr.
    destruct (r_close_bounds stgs fits P s WF R s' st E) as [A B]. split; [intros Y; exact (A Y x F)|]. split; [intros ->; in_cases Rr; discriminate|]. intros N.
    split; [apply (VV remove_variables_with_close_bounds); [unfold common_steps; cbn; auto|exact E|auto]|].
    destruct B as [B _]; [intros Y; apply N; left; auto|]. eapply same_obj; [exact B|auto|].
    intros k l u Hk EL EU Hd. destruct F as [_ FB]. specialize (FB k Hk). unfold col_sat in FB. rewrite EL, EU in FB. cbn in FB.
    destruct (Qlt_le_dec l u) as [LT|LE]; [|lra].
    pose proof (X k l u Hk EL EU LT) as G. apply Qabs.Qabs_Qle_condition in Hd. lra.
  - (* empty columns *)
    pose proof (rg_empty_cols _ RG s) as Rr. rewrite E in Rr. cbn [snd] in Rr.
    split; [in_cases Rr; subst; discriminate|].
    assert (FR : empty_cols_fresh s).
    { destruct X as [X1 X2]. split; auto. intros k Hk. split; auto. intros E1 E2. destruct NC as [_ NC].
      destruct (reached_ok stgs fits P s WF R) as [OK _].
      assert (Lk : In k (live_cols s)).
      { apply live_cols_in. assert (k < nc s)%nat by (apply (l_empty_cols s (inv_L s (ok_inv s OK)) k Hk)). split; auto. apply cact_alive; auto. apply (inv_0 s (ok_inv s OK)). }
      specialize (NC k Lk). cbn in NC. destruct (lb s k), (ub s k); try discriminate; cbn in *; auto. }
    destruct (r_empty_cols stgs fits P s WF R FR s' st E) as [_ [U B]]. split; [intros Y; exact (U Y x F)|].
    intros N. split; [apply (VV remove_empty_cols); [unfold common_steps; cbn; auto|exact E|auto]|].
    destruct B as [B _]; [intros Y; apply N; right; auto|]. destruct (B x F) as [F' O]. exists x. auto.
  - (* dual fix *)
    pose proof (rg_dual_fix _ RG s) as Rr. rewrite E in Rr. cbn [snd] in Rr.
    split; [in_cases Rr; subst; discriminate|]. destruct (r_dual_fix stgs fits P s WF R s' st E) as [_ [U [B _]]]. split; [intros Y; exact (U Y x F)|]. intros N. split; [apply (VV simple_dual_fix); [unfold common_steps; rewrite AL; cbn; auto 10|exact E|auto]|].
    exact (B x F).
  - (* singleton rows *)
    pose proof (rg_ston_rows _ RG s) as Rr. rewrite E in Rr. cbn [snd] in Rr.
    destruct (r_ston_rows stgs fits P s WF R s' st E) as [A B]. split; [intros Y; exact (A Y x F)|]. split; [intros ->; in_cases Rr; discriminate|]. intros N.
    split; [apply (VV remove_ston_rows); [unfold common_steps; cbn; auto|exact E|auto]|].
    destruct B as [B _]; [intros Y; apply N; left; auto|]. eapply same_obj; [exact B|auto|exact I].
  - (* empty rows *)
    pose proof (rg_empty_rows _ RG s) as Rr. rewrite E in Rr. cbn [snd] in Rr.
    destruct (r_empty_rows stgs fits P s WF R s' st E) as [_ [A B]]. split; [intros Y; exact (A Y x F)|]. split; [intros ->; in_cases Rr; discriminate|]. intros N.
    split; [apply (VV remove_empty_rows); [unfold common_steps; cbn; auto 10|exact E|auto]|].
    destruct B as [_ [B _]]; [intros Y; apply N; left; auto|]. eapply same_obj; [exact B|auto|exact I].
  - (* singleton columns *)
    pose proof (rg_ston_cols _ RG s) as Rr. rewrite E in Rr. cbn [snd] in Rr.
    split; [in_cases Rr; subst; discriminate|]. destruct (r_ston_cols stgs fits P s WF CK RV NC s' st E) as [U [B _]]. split; [intros Y; exact (U Y x F)|]. intros N. split; [apply (VV remove_ston_cols); [unfold common_steps; rewrite AL; rewrite !in_app_iff; cbn; auto 10|exact E|auto]|].
    exact (B x F).
  - destruct CK. congruence.
  - (* activities *)
    pose proof (rg_check_acts _ RG s) as Rr. rewrite E in Rr. cbn [snd] in Rr.
    destruct (r_check stgs fits P s WF CK RV s' st E) as [A B]. split; [intros Y; exact (A Y x F)|]. split; [intros ->; in_cases Rr; discriminate|]. intros N.
    split; [apply (VV check_activities); [unfold common_steps; rewrite AL; rewrite !in_app_iff; cbn; auto 10|exact E|auto]|].
    destruct B as [B _]; [intros Y; apply N; left; auto|]. eapply same_obj; [exact B|auto|exact I].
  - (* propagation *)
    pose proof (rg_propagate _ RG s) as Rr. rewrite E in Rr. cbn [snd] in Rr.
    destruct (via_le stgs fits P s WF CK RV) as [OK [M A]].
    destruct (propagate_sem_at Qle (finite_bound_tightening_on stgs) s s' st good_le (fun v w z => z) OK M A E) as [_ [l [_ [LL [I1 B]]]]].
    assert (FX : fixed_at l x).
    { intros k v Hk. destruct (LL k v Hk) as (L1 & L2 & L3). eapply X; eauto. }
    split; [intros Y; exact (I1 Y x F FX)|]. split; [intros ->; in_cases Rr; discriminate|]. intros N.
    split; [apply (VV (propagate_primal (finite_bound_tightening_on stgs))); [unfold common_steps; rewrite AL; rewrite !in_app_iff; cbn; auto 10|exact E|auto]|].
    destruct B as [B _]; [intros Y; apply N; left; auto|]. eapply same_obj; [exact B|auto|auto].
  - congruence.
  - destruct CK. congruence.
Qed.
Lemma rng_all : forall k s, In (snd (step_of stgs fits k s)) [UNCHANGED; REDUCED; INFEASIBLE; UNBNDORINFEAS].
Proof.
  intros k s. destruct RG. destruct k; cbn [step_of];
  match goal with H : forall s, In (snd (?f s)) _ |- In (snd (?f s)) _ => specialize (H s); in_cases H; rewrite H; cbn; auto end.
Qed.
Lemma chain_fwd : forall s l s', linked stgs fits s l s' -> V s -> exact_calls l -> forall x, feasible (reduced_lp s) x ->
  (bits l <> 2%N) /\ (bits l <> 0%N -> exists c, In c l /\ c_status c = UNBNDORINFEAS /\ unbounded (reduced_lp (c_before c))) /\
  (bits l = 0%N -> exists x', feasible (reduced_lp s') x' /\ objective (reduced_lp s') x' <= objective (reduced_lp s) x).
Proof.
  intros s l s' H. induction H as [s|c l s' AL E H IH]; intros RV X x F.
  { split; [discriminate|]. split; [intros Y; destruct Y; reflexivity|]. intros _. exists x. split; auto. lra. }
  destruct X as [X1 X2]. destruct (step_fwd c x AL E RV X1 F) as [A [U B]].
  pose proof (rng_all (c_kind c) (c_before c)) as RR. rewrite E in RR. cbn [snd] in RR. cbn [bits].
  assert (CS : c_status c = UNBNDORINFEAS \/ ~ trouble (c_status c) /\ tb (c_status c) = 0%N).
  { in_cases RR; auto; right; rewrite <- RR; (split; [intros [?|?]; try discriminate; congruence|try reflexivity; exfalso; congruence]). }
  destruct CS as [CS|[CS T0]].
  - rewrite CS. change (tb UNBNDORINFEAS) with 6%N.
    assert (Z6 : N.lor 6 (bits l) = 6%N).
    { rewrite <- (tb_bits l). apply N.bits_inj. intros n. rewrite N.lor_spec, N.land_spec. destruct (N.testbit 6 n), (N.testbit (bits l) n); reflexivity. }
    rewrite Z6. split; [discriminate|]. split; [|discriminate]. intros _. exists c. split; [left; reflexivity|auto].
  - rewrite T0. cbn [N.lor]. destruct (B CS) as [V' [x1 [F1 O1]]]. destruct (IH V' (X2 CS) x1 F1) as [I1 [I3 I2]].
    split; auto. split; [intros Z; destruct (I3 Z) as [c' [G1 G2]]; exists c'; split; [right; auto|auto]|]. intros Z. destruct (I2 Z) as [x' [F' O']]. exists x'. split; auto. lra.
Qed.
Lemma start_lp : reduced_lp (new_presolver P) = lp_of_input P.
Proof.
  destruct (init_fields P) as (NR & NC & MA & CS & OF & _ & _ & _ & LB & UB & LH & RH & _).
  pose proof (proj1 (new_presolver_Ok P WF)) as OK0. pose proof (inv_0 _ (ok_inv _ OK0)) as W.
  unfold reduced_lp, lp_of_input. rewrite MA, CS, OF, LB, UB, LH, RH. f_equal.
  - unfold live_rows. rewrite NR. apply forallb_filter_id. apply forallb_forall. intros i Hi. apply in_seq in Hi.
    apply negb_true_iff, Z.eqb_neq. apply act_alive; auto; [rewrite NR; lia|apply init_rows_active].
  - unfold live_cols. rewrite NC. apply forallb_filter_id. apply forallb_forall. intros i Hi. apply in_seq in Hi.
    apply negb_true_iff, Z.eqb_neq. apply cact_alive; auto; [rewrite NC; lia|apply init_cols_active].
Qed.
Lemma run_fwd : forall clock fuel r, run_presolver stgs fits clock fuel P = Some r -> exact_calls (calls stgs fits clock fuel P) ->
  (res_status r = INFEASIBLE -> infeasible (lp_of_input P)) /\
  (res_status r = UNBNDORINFEAS -> forall x, feasible (lp_of_input P) x ->
     exists c, In c (calls stgs fits clock fuel P) /\ c_status c = UNBNDORINFEAS /\ unbounded (reduced_lp (c_before c))) /\
  (res_reduced r = true -> no_loss (lp_of_input P) (reduced_lp (res_state r))).
Proof.
  intros clock fuel r E X. rewrite noted_faithful in E. unfold calls in *.
  destruct (noted_run stgs fits clock fuel P) as [r0|] eqn:E0; [|discriminate]. cbn [option_map] in E. injection E as <-.
  cbn [res_state res_status res_reduced].
  destruct (run_linked stgs fits clock fuel P r0 E0) as [s [L [RED [INF UNB]]]].
  assert (V0 : V (new_presolver P)) by constructor.
  split; [|split].
  - intros H x F. rewrite <- start_lp in F. destruct (chain_fwd _ _ _ L V0 X x F) as [A _]. auto.
  - intros H x F. rewrite <- start_lp in F. destruct (chain_fwd _ _ _ L V0 X x F) as [_ [A _]]. apply A. rewrite (UNB H). discriminate.
  - intros H x F. destruct (RED H) as [B ES]. rewrite ES. rewrite <- start_lp in F. destruct (chain_fwd _ _ _ L V0 X x F) as [_ [_ A]].
    rewrite start_lp in A. destruct (relax_bounds_on stgs); [rewrite relax_lp|]; auto.
Qed.
End Step.
