(** The driver only goes through reached states. *)
From Coq Require Import NArith.
From Verif Require Import M_Num S_LP M_Settings M_Driver S_Driver M_State M_Act M_Core M_Simple
  M_StonCols M_Dton M_Parallel M_Propagate M_Init M_Post M_Run S_Run S_Struct S_Sem
  L_State L_Struct L_Struct2 L_Struct3 L_Struct4 L_Struct5 L_Struct6 L_Struct7 L_Struct8 L_Tiny L_Struct9 L_Struct10 L_Run L_Driver L_Struct11
  L_Init L_Mid L_Reach.
Import M_Driver.
Notation bad := M_State.bad.
Open Scope nat_scope.

Section Drive.
Variable stgs : settings.
Variable fits : nat -> bool.
Variable P : input.
Hypothesis WF : wf_input P.
Let ex := the_explorers stgs fits.
Let fuel0 (s : state) : nat := S (S (nc s)).
Let R := reached stgs fits P.

Lemma R_ok : forall s, R s -> Ok s.
Proof. intros s H. eapply reached_ok; eauto. Qed.
Lemma R_common : forall f s s' st, In f (common_steps stgs) -> R s -> f s = (s', st) -> ~ trouble st -> R s'.
Proof. intros. eapply rc_any; eauto. Qed.
Ltac rstep f := eapply (R_common f); [unfold common_steps; cbn; auto 10|eassumption|eassumption|].

Lemma nt_eq : forall a st, ~ trouble st -> trouble a -> N.eqb st a = false.
Proof. intros a st N T. apply N.eqb_neq. intros ->. auto. Qed.
Lemma unch_ok : ~ trouble UNCHANGED. Proof. intros [C|C]; discriminate. Qed.
Lemma red_ok : ~ trouble REDUCED. Proof. intros [C|C]; discriminate. Qed.
Lemma lor_ok : forall a b, In a [UNCHANGED; INFEASIBLE; UNBNDORINFEAS] -> In b [UNCHANGED; INFEASIBLE; UNBNDORINFEAS] ->
  ~ trouble (N.lor a b) -> a = UNCHANGED /\ b = UNCHANGED.
Proof.
  intros a b A B N. in_cases A; in_cases B; subst; auto; exfalso; apply N; unfold trouble; cbn; auto.
Qed.

Lemma ston_loop_R : forall f s s' st, R s -> ston_loop ex f s = Some (s', st) ->
  st = INFEASIBLE \/ st = UNCHANGED /\ R s' /\ w_ston_rows s' = [].
Proof.
  induction f as [|f IH]; intros s s' st RS; cbn [ston_loop]; [discriminate|].
  change (x_ston_rows ex s) with (remove_ston_rows s).
  destruct (R_ok s RS) as [H Q N].
  pose proof (ston_rows_spec s H (q_sub _ Q)) as SP.
  destruct (remove_ston_rows s) as [s1 st1] eqn:E.
  destruct SP as [_ [_ [_ SP]]].
  destruct SP as [->|[[-> [-> SW]]|[-> _]]].
  - rewrite N.eqb_refl. intros X. injection X as <- <-. auto.
  - cbn. intros X. injection X as <- <-. auto.
  - cbn [N.eqb REDUCED INFEASIBLE Pos.eqb]. intros X. eapply IH; [|exact X].
    rstep remove_ston_rows. apply red_ok.
Qed.

Lemma trivial_tail_R : forall s s' st, R s -> trivial_tail ex fuel0 s = Some (s', st) ->
  trouble st \/ st = UNCHANGED /\ R s' /\ w_ston_rows s' = [] /\ w_empty_rows s' = [].
Proof.
  intros s s' st RS. unfold trivial_tail. destruct (ston_loop ex _ s) as [[s1 st1]|] eqn:E1; [|discriminate].
  destruct (ston_loop_R _ _ _ _ RS E1) as [->|[-> [R1 W1]]].
  { cbn. intros X. injection X as <- <-. left; left; reflexivity. }
  cbn [N.eqb UNCHANGED INFEASIBLE].
  change (x_empty_rows ex s1) with (remove_empty_rows s1).
  destruct (R_ok s1 R1) as [H1 Q1 N1].
  pose proof (empty_rows_spec s1 H1) as SP.
  destruct (remove_empty_rows s1) as [s2 st2] eqn:E2.
  destruct SP as [S2 [A2 [B2 [C2 [D2 R2]]]]].
  destruct R2 as [->|[-> ER]].
  { cbn. intros X. injection X as <- <-. left; left; reflexivity. }
  cbn [N.eqb UNCHANGED INFEASIBLE].
  assert (RS2 : R s2) by (rstep remove_empty_rows; apply unch_ok).
  change (x_empty_cols ex s2) with (remove_empty_cols s2).
  pose proof (empty_cols_spec s2 (st_inv _ _ S2)) as SP. pose proof (empty_cols_w5 s2) as W5.
  destruct (remove_empty_cols s2) as [s3 st3] eqn:E3. cbn [fst] in W5.
  destruct SP as [S3 [A3 [B3 [C3 [D3 R3]]]]].
  destruct R3 as [->|[-> EC]]; cbn [N.eqb UNBNDORINFEAS UNCHANGED Pos.eqb]; intros X; injection X as <- <-.
  - left; right; reflexivity.
  - right. split; auto. split; [rstep remove_empty_cols; apply unch_ok|]. split; congruence.
Qed.

Lemma run_trivial_R : forall s s' st, R s -> run_trivial ex stgs fuel0 s = Some (s', st) ->
  trouble st \/ st = UNCHANGED /\ R s' /\ w_ston_rows s' = [] /\ w_empty_rows s' = [].
Proof.
  intros s s' st RS. unfold run_trivial.
  change (x_close_bounds ex s) with (remove_variables_with_close_bounds s).
  destruct (R_ok s RS) as [H Q N].
  pose proof (close_bounds_spec s H (q_sub _ Q)) as SP.
  destruct (remove_variables_with_close_bounds s) as [s1 st1] eqn:E1.
  destruct SP as [I1 [M1 [W1 [R1 SP]]]].
  destruct SP as [->|[-> [F1 N1]]].
  { cbn. intros X. injection X as <- <-. left; left; reflexivity. }
  cbn [N.eqb UNCHANGED INFEASIBLE].
  assert (RS1 : R s1) by (rstep remove_variables_with_close_bounds; apply unch_ok).
  destruct (dual_fix_on stgs) eqn:DF; [|apply trivial_tail_R; auto].
  change (x_empty_cols ex s1) with (remove_empty_cols s1).
  pose proof (empty_cols_spec s1 I1) as SP.
  destruct (remove_empty_cols s1) as [s2 st2] eqn:E2.
  destruct SP as [S2 [A2 [B2 [C2 [D2 R2]]]]].
  change (x_dual_fix ex s2) with (simple_dual_fix s2).
  pose proof (rng_dual_fix s2) as R3.
  destruct (simple_dual_fix s2) as [s3 st3] eqn:E3. cbn [snd] in R3.
  assert (R3' : st3 = UNCHANGED \/ st3 = UNBNDORINFEAS) by (in_cases R3; subst; auto).
  destruct R2 as [->|[-> _]].
  { destruct R3' as [->| ->]; cbn; intros X; injection X as <- <-; left; right; reflexivity. }
  destruct R3' as [->| ->].
  2:{ cbn; intros X; injection X as <- <-; left; right; reflexivity. }
  cbn [N.lor UNCHANGED N.eqb UNBNDORINFEAS].
  apply trivial_tail_R.
  assert (RS2 : R s2) by (rstep remove_empty_cols; apply unch_ok).
  eapply (R_common simple_dual_fix); [unfold common_steps; rewrite DF; cbn; auto 10|eassumption|eassumption|apply unch_ok].
Qed.

Lemma triv_rng : forall s s' st, R s -> run_trivial ex stgs fuel0 s = Some (s', st) ->
  In st [UNCHANGED; INFEASIBLE; UNBNDORINFEAS].
Proof.
  intros s s' st RS E. destruct (run_trivial_R s s' st RS E) as [[->| ->]|[-> _]]; cbn; auto.
Qed.
Lemma trivial_tiny : forall s s' st, run_trivial ex stgs fuel0 s = Some (s', st) -> tiny s' = false -> tiny s = false.
Proof.
  intros s s' st E T. destruct (tiny s) eqn:TS; auto.
  pose proof (run_trivial_esc stgs fits s s (v_start _ _ _) TS) as X. fold ex in X.
  unfold fuel0 in E. rewrite E in X. destruct X. congruence.
Qed.

Lemma tiny_lift : forall (f : state -> state * status) s s' st, (tiny s = true -> tiny (fst (f s)) = true) ->
  f s = (s', st) -> tiny s' = false -> tiny s = false.
Proof. intros f s s' st H E T. rewrite E in H. cbn in H. destruct (tiny s); auto. rewrite H in T; auto. Qed.

Lemma run_fast_R : forall s s' st, R s -> run_fast ex stgs fuel0 s = Some (s', st) -> tiny s' = false ->
  trouble st \/ st = UNCHANGED /\ R s'.
Proof.
  intros s s' st RS. unfold run_fast.
  pose proof (the_status_ranges stgs fits) as RG. fold ex in RG.
  set (first := if ston_cols_on stgs then _ else _).
  assert (F : forall s2 st2, first = Some (s2, st2) -> In st2 [UNCHANGED; INFEASIBLE; UNBNDORINFEAS] /\
             (trouble st2 \/ st2 = UNCHANGED /\ R s2)).
  { intros s2 st2. unfold first. destruct (ston_cols_on stgs) eqn:SC.
    - change (x_ston_cols ex s) with (remove_ston_cols s).
      pose proof (rg_ston_cols _ RG s) as R1. change (x_ston_cols ex s) with (remove_ston_cols s) in R1.
      destruct (remove_ston_cols s) as [s1 st1] eqn:E1. cbn [snd] in R1.
      destruct (run_trivial ex stgs fuel0 s1) as [[s3 st3]|] eqn:E3; [|discriminate].
      intros X. injection X as <- <-.
      pose proof (run_trivial_range ex stgs fuel0 _ _ _ E3) as R3.
      assert (R1' : In st1 [UNCHANGED; INFEASIBLE; UNBNDORINFEAS]) by (in_cases R1; subst; cbn; auto).
      split; [apply lor_range; auto|].
      destruct (N.eqb_spec st1 UNCHANGED) as [->|NE].
      + assert (RS1 : R s1).
        { eapply (R_common remove_ston_cols); [unfold common_steps; rewrite SC; rewrite !in_app_iff; cbn; auto|eassumption|eassumption|apply unch_ok]. }
        destruct (run_trivial_R s1 s3 st3 RS1 E3) as [T|[-> [A _]]]; [left|right; auto].
        apply trouble_lor; cbn; auto.
      + left. apply trouble_lor; auto. left. in_cases R1; subst; [congruence|right; reflexivity].
    - intros X. injection X as <- <-. split; [cbn; auto|]. right; auto. }
  destruct first as [[s2 st2]|]; [|discriminate]. destruct (F s2 st2 eq_refl) as [R2 F2].
  destruct (dton_eq_on stgs) eqn:DE.
  2:{ intros X. injection X as <- <-. auto. }
  change (x_dton_eq ex s2) with (remove_dton_eq_rows fits s2).
  destruct (remove_dton_eq_rows fits s2) as [s3 st3] eqn:E3.
  assert (E3' : st3 = UNCHANGED) by (unfold remove_dton_eq_rows in E3; injection E3; auto). subst st3.
  destruct (run_trivial ex stgs fuel0 s3) as [[s4 st4]|] eqn:E4; [|discriminate].
  intros X T4. injection X as <- <-.
  pose proof (run_trivial_range ex stgs fuel0 _ _ _ E4) as R4.
  rewrite N.lor_0_r. destruct F2 as [F2|[-> RS2]].
  { left. apply trouble_lor; auto. }
  assert (T3 : tiny s3 = false) by (eapply trivial_tiny; eauto).
  assert (RS3 : R s3) by (eapply rc_dton; eauto using unch_ok).
  destruct (run_trivial_R s3 s4 st4 RS3 E4) as [T|[-> [A _]]]; [left; exact T|right; auto].
Qed.

Lemma run_medium_R : forall s s' st, R s -> w_ston_rows s = [] -> w_empty_rows s = [] ->
  run_medium ex stgs fuel0 s = Some (s', st) ->
  trouble st \/ st = UNCHANGED /\ R s'.
Proof.
  intros s s' st RS WSR WE. unfold run_medium.
  pose proof (the_status_ranges stgs fits) as RG. fold ex in RG.
  set (first := if primal_propagation_on stgs then _ else _).
  assert (F : forall s2 st2, first = Some (s2, st2) -> In st2 [UNCHANGED; INFEASIBLE; UNBNDORINFEAS] /\
             (trouble st2 \/ st2 = UNCHANGED /\ R s2 /\ w_ston_rows s2 = [] /\ w_empty_rows s2 = [])).
  { intros s2 st2. unfold first. destruct (primal_propagation_on stgs) eqn:PP.
    - change (x_check_acts ex s) with (check_activities s).
      pose proof (rg_check_acts _ RG s) as R1. change (x_check_acts ex s) with (check_activities s) in R1.
      destruct (check_activities s) as [s1 st1] eqn:E1. cbn [snd] in R1.
      pose proof (rg_propagate _ RG s1) as R3. 
      change (x_propagate ex s1) with (propagate_primal (finite_bound_tightening_on stgs) s1) in *.
      destruct (propagate_primal _ s1) as [s3 st3] eqn:E3. cbn [snd] in R3.
      destruct (run_trivial ex stgs fuel0 s3) as [[s4 st4]|] eqn:E4; [|discriminate].
      intros X. injection X as <- <-.
      pose proof (run_trivial_range ex stgs fuel0 _ _ _ E4) as R4.
      assert (R1' : In st1 [UNCHANGED; INFEASIBLE; UNBNDORINFEAS]) by (in_cases R1; subst; cbn; auto).
      assert (R3' : In st3 [UNCHANGED; INFEASIBLE; UNBNDORINFEAS]) by (in_cases R3; subst; cbn; auto).
      split; [repeat apply lor_range; auto|].
      destruct (N.eqb_spec st1 UNCHANGED) as [->|NE].
      2:{ left. apply trouble_lor; auto using lor_range. left. apply trouble_lor; auto. left.
          in_cases R1; subst; [congruence|left; reflexivity]. }
      destruct (N.eqb_spec st3 UNCHANGED) as [->|NE].
      2:{ left. apply trouble_lor; auto using lor_range. left. apply trouble_lor; auto. right.
          in_cases R3; subst; [congruence|left; reflexivity]. }
      assert (RS1 : R s1).
      { eapply (R_common check_activities); [unfold common_steps; rewrite PP; rewrite !in_app_iff; cbn; auto 10|eassumption|eassumption|apply unch_ok]. }
      assert (RS3 : R s3).
      { eapply (R_common (propagate_primal (finite_bound_tightening_on stgs)));
          [unfold common_steps; rewrite PP; rewrite !in_app_iff; cbn; auto 10|eassumption|eassumption|apply unch_ok]. }
      destruct (run_trivial_R s3 s4 st4 RS3 E4) as [T|[-> [A [B C]]]]; [left|right; auto].
      apply trouble_lor; auto.
    - intros X. injection X as <- <-. split; [cbn; auto|]. right; auto. }
  destruct first as [[s2 st2]|]; [|discriminate]. destruct (F s2 st2 eq_refl) as [R2 [F2|[-> [RS2 [W2 W2']]]]].
  { replace (negb (N.eqb st2 UNCHANGED)) with true by (destruct F2 as [->| ->]; reflexivity).
    intros X. injection X as <- <-. auto. }
  cbn [N.eqb UNCHANGED negb].
  set (pr := if parallel_rows_on stgs then _ else _).
  assert (PR : trouble (snd pr) \/ snd pr = UNCHANGED /\ R (fst pr) /\ w_ston_rows (fst pr) = []).
  { subst pr. destruct (parallel_rows_on stgs) eqn:PO; [|right; auto].
    change (x_par_rows ex s2) with (remove_parallel_rows s2).
    destruct (R_ok s2 RS2) as [H2 Q2 N2].
    pose proof (par_rows_spec s2 H2 N2 Q2 W2') as SP.
    destruct (remove_parallel_rows s2) as [s4 st4] eqn:E4. cbn [fst snd].
    destruct SP as [S4 [Q4 [A4 [->| ->]]]]; [right|left; left; reflexivity].
    split; auto. split; [|congruence]. eapply rc_prow; eauto using unch_ok. }
  destruct pr as [s4 st4]. cbn [fst snd] in PR. destruct PR as [T4|[-> [RS4 W4]]].
  { replace (negb (N.eqb st4 UNCHANGED)) with true by (destruct T4 as [->| ->]; reflexivity).
    intros X. injection X as <- <-. auto. }
  cbn [N.eqb UNCHANGED negb].
  destruct (parallel_cols_on stgs) eqn:PC.
  2:{ intros X. injection X as <- <-. auto. }
  pose proof (rg_par_cols _ RG s4) as R5. 
  change (x_par_cols ex s4) with (remove_parallel_cols s4) in *.
  destruct (remove_parallel_cols s4) as [s5 st5] eqn:E5. cbn [snd] in R5.
  destruct (run_trivial ex stgs fuel0 s5) as [[s6 st6]|] eqn:E6; [|discriminate].
  intros X. injection X as <- <-.
  pose proof (run_trivial_range ex stgs fuel0 _ _ _ E6) as R6.
  destruct (N.eqb_spec st5 UNCHANGED) as [->|NE].
  - assert (RS5 : R s5) by (eapply rc_pcol; eauto using unch_ok).
    destruct (run_trivial_R s5 s6 st6 RS5 E6) as [T|[-> [A _]]]; [left; exact T|right; auto].
  - left. apply trouble_lor; auto; [in_cases R5; subst; cbn; auto|]. left.
    in_cases R5; subst; [congruence|right; reflexivity].
Qed.

Lemma main_loop_tiny : forall clock f it cx b a s s' st k,
  main_loop ex stgs fuel0 clock f it cx b a s = Some (s', st, k) -> tiny s' = false -> tiny s = false.
Proof.
  intros clock f it cx b a s s' st k E T. destruct (tiny s) eqn:TS; auto.
  pose proof (main_loop_esc stgs fits s clock f it cx b a s (v_start _ _ _) TS) as X. fold ex in X.
  unfold fuel0 in E. rewrite E in X. destruct X as [_ [X|[_ [X _]]]]; [congruence|].
  apply (mo_tiny _ _ X) in TS. congruence.
Qed.
Lemma main_loop_R : forall clock f it cx b a s s' st k, R s ->
  main_loop ex stgs fuel0 clock f it cx b a s = Some (s', st, k) -> tiny s' = false ->
  trouble st \/ st = UNCHANGED /\ R s'.
Proof.
  induction f as [|f IH]; intros it cx b a s s' st k RS; cbn [main_loop]; [discriminate|].
  destruct (run_trivial ex stgs fuel0 s) as [[s1 st1]|] eqn:E1; [|discriminate].
  destruct (run_trivial_R s s1 st1 RS E1) as [T1|[-> [R1 [W1 W2]]]].
  { replace (negb (N.eqb st1 UNCHANGED)) with true by (destruct T1 as [->| ->]; reflexivity).
    intros X. injection X as <- <- <-. auto. }
  cbn [N.eqb UNCHANGED negb].
  destruct (match cx with FAST => run_fast ex stgs fuel0 s1 | MEDIUM => run_medium ex stgs fuel0 s1 end) as [[s2 st2]|] eqn:E2; [|discriminate].
  assert (X : tiny s2 = false -> trouble st2 \/ st2 = UNCHANGED /\ R s2).
  { intros T2. destruct cx; [eapply run_fast_R; eauto|eapply run_medium_R; eauto]. }
  cbv zeta. destruct (update_termination _ _ _ _ _) eqn:U.
  { intros Y T. injection Y as <- <- <-. auto. }
  intros Y T. pose proof (main_loop_tiny _ _ _ _ _ _ _ _ _ _ Y T) as T2.
  destruct (X T2) as [X'|[-> R2]].
  - exfalso. unfold update_termination in U. destruct X' as [->| ->]; cbn in U; discriminate.
  - eapply IH; eauto.
Qed.
Lemma run_R : forall clock fuel r, run_presolver stgs fits clock fuel P = Some r ->
  tiny (res_state r) = false -> res_reduced r = true ->
  exists s, R s /\ res_state r = if relax_bounds_on stgs then remove_redundant_bounds s else s.
Proof.
  intros clock fuel r. unfold run_presolver, run_presolver_gen. fold ex.
  change (fun s => S (S (nc s))) with fuel0.
  destruct (main_loop ex stgs fuel0 clock fuel 0 FAST _ _ _) as [[[s1 st] k]|] eqn:E; [|discriminate].
  destruct (N.eqb_spec st UNCHANGED) as [->|NE]; cbn [negb]; intros X T RR; injection X as <-; [|discriminate RR].
  cbn [res_state] in *.
  change (x_clean ex (if relax_bounds_on stgs then x_relax ex s1 else s1)) with
      (if relax_bounds_on stgs then remove_redundant_bounds s1 else s1) in *.
  exists s1. split; auto.
  assert (T1 : tiny s1 = false).
  { rewrite <- T. destruct (relax_bounds_on stgs); auto. symmetry. apply (ss_tiny _ _ (relax_same s1)). }
  destruct (main_loop_R _ _ _ _ _ _ _ _ _ _ (rc_start _ _ _) E T1) as [[C|C]|[_ R1]]; try discriminate C. exact R1.
Qed.
End Drive.
