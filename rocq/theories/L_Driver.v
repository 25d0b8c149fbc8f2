From Coq Require Import NArith Lia.
From Verif Require Import M_Num M_Settings M_Driver S_Driver.
Open Scope nat_scope.

Definition bad (st : status) := HAS_STATUS st UNBNDORINFEAS.

Lemma bad_lor a b : bad (N.lor a b) = orb (bad a) (bad b).
Proof.
  unfold bad, HAS_STATUS. rewrite N.land_lor_distr_l.
  generalize (N.land a UNBNDORINFEAS) (N.land b UNBNDORINFEAS). intros x y.
  destruct x, y; reflexivity.
Qed.

Ltac neqb_case x y NE := let E := fresh "E" in
  destruct (N.eqb x y) eqn:E; [apply N.eqb_eq in E; subst x|apply N.eqb_neq in E; rename E into NE].

Ltac in_cases H := cbn [In] in H; repeat (match type of H with _ \/ _ => destruct H as [H|H] end); try contradiction.

Section Ranges.
Context {S : Type} (ex : explorers S) (stgs : settings) (fuel0 : S -> nat).
Hypothesis RG : status_ranges ex.

Lemma ston_loop_range f : forall s s' st, ston_loop ex f s = Some (s', st) ->
  In st [UNCHANGED; INFEASIBLE].
Proof.
  induction f as [|f IH]; intros s s' st H; [discriminate|]; cbn [ston_loop main_loop] in H.
  pose proof (rg_ston_rows _ RG s) as R.
  destruct (x_ston_rows ex s) as [s1 st1]; cbn [fst snd] in R.
  in_cases R; subst st1; cbn in H.
  - injection H as <- <-. cbn; auto.
  - eapply IH; eauto.
  - injection H as <- <-. cbn; auto.
Qed.

Lemma trivial_tail_range s s' st : trivial_tail ex fuel0 s = Some (s', st) ->
  In st [UNCHANGED; INFEASIBLE; UNBNDORINFEAS].
Proof.
  unfold trivial_tail.
  destruct (ston_loop ex (fuel0 s) s) as [[s1 st1]|] eqn:E; [|discriminate].
  destruct (N.eqb st1 INFEASIBLE); [intros H; injection H as <- <-; cbn; auto|].
  destruct (x_empty_rows ex s1) as [s2 st2].
  destruct (N.eqb st2 INFEASIBLE); [intros H; injection H as <- <-; cbn; auto|].
  destruct (x_empty_cols ex s2) as [s3 st3].
  destruct (N.eqb st3 UNBNDORINFEAS); intros H; injection H as <- <-; cbn; auto.
Qed.

Lemma run_trivial_range s s' st : run_trivial ex stgs fuel0 s = Some (s', st) ->
  In st [UNCHANGED; INFEASIBLE; UNBNDORINFEAS].
Proof.
  unfold run_trivial. destruct (x_close_bounds ex s) as [s1 st1].
  destruct (N.eqb st1 INFEASIBLE); [intros H; injection H as <- <-; cbn; auto|].
  destruct (dual_fix_on stgs); [|apply trivial_tail_range].
  destruct (x_empty_cols ex s1) as [s2 st2]. destruct (x_dual_fix ex s2) as [s3 st3].
  destruct (N.eqb _ UNBNDORINFEAS); [intros H; injection H as <- <-; cbn; auto|].
  apply trivial_tail_range.
Qed.

Lemma lor_range a b : In a [UNCHANGED; INFEASIBLE; UNBNDORINFEAS] ->
  In b [UNCHANGED; INFEASIBLE; UNBNDORINFEAS] ->
  In (N.lor a b) [UNCHANGED; INFEASIBLE; UNBNDORINFEAS].
Proof. intros A B. in_cases A; in_cases B; subst; cbn; auto. Qed.

Lemma range3 a l : In a l -> incl l [UNCHANGED; INFEASIBLE; UNBNDORINFEAS] ->
  In a [UNCHANGED; INFEASIBLE; UNBNDORINFEAS].
Proof. intros H K. apply K, H. Qed.

Ltac incl3 := let x := fresh in intros x; cbn; intuition.

Lemma run_fast_range s s' st : run_fast ex stgs fuel0 s = Some (s', st) ->
  In st [UNCHANGED; INFEASIBLE; UNBNDORINFEAS].
Proof.
  unfold run_fast.
  pose proof (rg_ston_cols _ RG s) as R1.
  set (first := if ston_cols_on stgs then _ else _).
  assert (F : forall s2 st2, first = Some (s2, st2) -> In st2 [UNCHANGED; INFEASIBLE; UNBNDORINFEAS]).
  { subst first. intros s2 st2. destruct (ston_cols_on stgs).
    - destruct (x_ston_cols ex s) as [a sta]; cbn [snd] in R1.
      destruct (run_trivial ex stgs fuel0 a) as [[b stb]|] eqn:E; [|discriminate].
      intros H; injection H as <- <-. apply lor_range; [|eapply run_trivial_range; eauto].
      eapply range3; eauto. incl3.
    - intros H; injection H as <- <-. cbn; auto. }
  destruct first as [[s2 st2]|]; [|discriminate]. specialize (F _ _ eq_refl).
  destruct (dton_eq_on stgs); [|intros H; injection H as <- <-; exact F].
  pose proof (rg_dton_eq _ RG s2) as R2. destruct (x_dton_eq ex s2) as [s3 st3]; cbn [snd] in R2.
  destruct (run_trivial ex stgs fuel0 s3) as [[b stb]|] eqn:E; [|discriminate].
  intros H; injection H as <- <-. apply lor_range; [|eapply run_trivial_range; eauto].
  apply lor_range; [exact F|]. eapply range3; eauto. incl3.
Qed.

Lemma run_medium_range s s' st : run_medium ex stgs fuel0 s = Some (s', st) ->
  In st [UNCHANGED; INFEASIBLE; UNBNDORINFEAS].
Proof.
  unfold run_medium.
  set (first := if primal_propagation_on stgs then _ else _).
  assert (F : forall s2 st2, first = Some (s2, st2) -> In st2 [UNCHANGED; INFEASIBLE; UNBNDORINFEAS]).
  { subst first. intros s2 st2. destruct (primal_propagation_on stgs).
    - pose proof (rg_check_acts _ RG s) as R1.
      destruct (x_check_acts ex s) as [a sta]; cbn [snd] in R1.
      pose proof (rg_propagate _ RG a) as R2.
      destruct (x_propagate ex a) as [b stb]; cbn [snd] in R2.
      destruct (run_trivial ex stgs fuel0 b) as [[d std]|] eqn:E; [|discriminate].
      intros H; injection H as <- <-. apply lor_range; [|eapply run_trivial_range; eauto].
      apply lor_range; (eapply range3; [eassumption|incl3]).
    - intros H; injection H as <- <-. cbn; auto. }
  destruct first as [[s2 st2]|]; [|discriminate]. specialize (F _ _ eq_refl).
  destruct (negb (N.eqb st2 UNCHANGED)); [intros H; injection H as <- <-; exact F|].
  set (pr := if parallel_rows_on stgs then _ else _).
  assert (P : In (snd pr) [UNCHANGED; INFEASIBLE]).
  { subst pr. destruct (parallel_rows_on stgs); [apply (rg_par_rows _ RG)|cbn; auto]. }
  destruct pr as [s4 st4]; cbn [snd] in P.
  destruct (negb (N.eqb st4 UNCHANGED)).
  { intros H; injection H as <- <-. eapply range3; eauto. incl3. }
  destruct (parallel_cols_on stgs); [|intros H; injection H as <- <-; cbn; auto].
  pose proof (rg_par_cols _ RG s4) as R2. destruct (x_par_cols ex s4) as [s5 st5]; cbn [snd] in R2.
  destruct (run_trivial ex stgs fuel0 s5) as [[b stb]|] eqn:E; [|discriminate].
  intros H; injection H as <- <-. apply lor_range; [|eapply run_trivial_range; eauto].
  eapply range3; eauto. incl3.
Qed.

Lemma main_loop_range clock f : forall it cx b a s s' st k,
  main_loop ex stgs fuel0 clock f it cx b a s = Some (s', st, k) ->
  In st [UNCHANGED; INFEASIBLE; UNBNDORINFEAS].
Proof.
  induction f as [|f IH]; intros it cx b a s s' st k H; [discriminate|]; cbn [ston_loop main_loop] in H.
  destruct (run_trivial ex stgs fuel0 s) as [[s1 st1]|] eqn:E; [|discriminate].
  destruct (negb (N.eqb st1 UNCHANGED)).
  { injection H as <- <- <-. eapply run_trivial_range; eauto. }
  set (ph := match cx with FAST => _ | MEDIUM => _ end) in H.
  destruct ph as [[s2 st2]|] eqn:P; [|discriminate].
  destruct (update_termination _ _ _ _ _).
  - injection H as <- <- <-. subst ph. destruct cx; [eapply run_fast_range|eapply run_medium_range]; eauto.
  - eapply IH; eauto.
Qed.
End Ranges.

(** ** Termination *)
Section Term.
Context {S : Type} (ex : explorers S) (stgs : settings) (fuel0 : S -> nat) (I : S -> Prop).
Hypothesis RG : status_ranges ex.
Hypothesis TM : tame_explorers ex I.
Hypothesis STON : forall s, ston_loop ex (fuel0 s) s <> None.

Definition good_res (s : S) (r : option (S * status)) : Prop :=
  match r with
  | None => False
  | Some (s', st) => I s -> bad st = false -> I s' /\ x_nnz ex s' <= x_nnz ex s
  end.

Lemma ston_loop_inv f : forall s s' st, I s -> ston_loop ex f s = Some (s', st) ->
  bad st = false -> I s' /\ x_nnz ex s' <= x_nnz ex s.
Proof.
  induction f as [|f IH]; intros s s' st Hi H Hb; [discriminate|]; cbn [ston_loop main_loop] in H.
  pose proof (tm_ston_rows _ _ TM s Hi) as T.
  destruct (x_ston_rows ex s) as [s1 st1]; cbn [fst snd] in T.
  neqb_case st1 INFEASIBLE NE.
  - injection H as <- <-. discriminate.
  - neqb_case st1 REDUCED NE2.
    + destruct (T eq_refl) as [I1 N1].
      destruct (IH _ _ _ I1 H Hb). split; [assumption|lia].
    + injection H as <- <-. apply T. exact Hb.
Qed.

Lemma trivial_tail_good s : good_res s (trivial_tail ex fuel0 s).
Proof.
  unfold trivial_tail.
  pose proof (STON s) as HS.
  destruct (ston_loop ex (fuel0 s) s) as [[s1 st1]|] eqn:E; [|congruence].
  pose proof (ston_loop_range ex RG _ _ _ _ E) as R1.
  neqb_case st1 INFEASIBLE NE; cbn; [intros; discriminate|].
  pose proof (rg_empty_rows _ RG s1) as R2. pose proof (tm_empty_rows _ _ TM s1) as T2.
  destruct (x_empty_rows ex s1) as [s2 st2] eqn:E2; cbn [fst snd] in *.
  neqb_case st2 INFEASIBLE NE2; cbn; [intros; discriminate|].
  pose proof (rg_empty_cols _ RG s2) as R3. pose proof (tm_empty_cols _ _ TM s2) as T3.
  destruct (x_empty_cols ex s2) as [s3 st3] eqn:E3; cbn [fst snd] in *.
  neqb_case st3 UNBNDORINFEAS NE3; cbn; [intros; discriminate|].
  intros Hi _. in_cases R1; in_cases R2; in_cases R3; subst; try congruence.
  destruct (ston_loop_inv _ _ _ _ Hi E eq_refl) as [I1 N1].
  destruct (T2 I1 eq_refl) as [I2 N2]. destruct (T3 I2 eq_refl) as [I3 N3].
  split; [assumption|lia].
Qed.

Lemma good_trans s s1 r : I s1 -> x_nnz ex s1 <= x_nnz ex s -> good_res s1 r -> good_res s r.
Proof.
  unfold good_res. destruct r as [[s' st]|]; [|auto]. intros H1 N1 G Hi Hb.
  destruct (G H1 Hb). split; [assumption|lia].
Qed.

Lemma good_chain s s1 r : (I s -> I s1 /\ x_nnz ex s1 <= x_nnz ex s) -> good_res s1 r -> good_res s r.
Proof.
  intros H G. unfold good_res in *. destruct r as [[s' st]|]; [|auto].
  intros Hi Hb. destruct (H Hi). destruct (G H0 Hb). split; [assumption|lia].
Qed.

Lemma run_trivial_good s : good_res s (run_trivial ex stgs fuel0 s).
Proof.
  unfold run_trivial.
  pose proof (rg_close_bounds _ RG s) as R1. pose proof (tm_close_bounds _ _ TM s) as T1.
  destruct (x_close_bounds ex s) as [s1 st1]; cbn [fst snd] in *.
  neqb_case st1 INFEASIBLE NE; [cbn; intros; discriminate|].
  in_cases R1; subst; try congruence. specialize (fun i => T1 i eq_refl).
  destruct (dual_fix_on stgs).
  2:{ eapply good_chain; [exact T1|apply trivial_tail_good]. }
  pose proof (rg_empty_cols _ RG s1) as R2. pose proof (tm_empty_cols _ _ TM s1) as T2.
  destruct (x_empty_cols ex s1) as [s2 st2]; cbn [fst snd] in *.
  pose proof (rg_dual_fix _ RG s2) as R3. pose proof (tm_dual_fix _ _ TM s2) as T3.
  destruct (x_dual_fix ex s2) as [s3 st3]; cbn [fst snd] in *.
  in_cases R2; in_cases R3; subst; cbn [N.lor UNCHANGED UNBNDORINFEAS N.eqb Pos.eqb];
    try (cbn; intros; discriminate).
  cbn. eapply good_chain; [|apply trivial_tail_good].
  intros Hi. destruct (T1 Hi) as [I1 N1]. destruct (T2 I1 eq_refl) as [I2 N2].
  destruct (T3 I2 eq_refl). split; [assumption|lia].
Qed.

Lemma good_some s r : good_res s r -> exists s' st, r = Some (s', st) /\
   (I s -> bad st = false -> I s' /\ x_nnz ex s' <= x_nnz ex s).
Proof. unfold good_res. destruct r as [[s' st]|]; [|contradiction]. eauto. Qed.

Lemma run_fast_good s : good_res s (run_fast ex stgs fuel0 s).
Proof.
  unfold run_fast. set (first := if ston_cols_on stgs then _ else _).
  assert (F : good_res s first).
  { subst first. destruct (ston_cols_on stgs); [|cbn; auto].
    pose proof (tm_ston_cols _ _ TM s) as T1.
    destruct (x_ston_cols ex s) as [s1 st1]; cbn [fst snd] in *.
    destruct (good_some _ _ (run_trivial_good s1)) as (s2 & st2 & -> & G).
    cbn. rewrite bad_lor. intros Hi Hb. apply orb_false_iff in Hb as [B1 B2].
    destruct (T1 Hi B1) as [I1 N1]. destruct (G I1 B2). split; [assumption|lia]. }
  destruct (good_some _ _ F) as (s2 & st2 & -> & G).
  destruct (dton_eq_on stgs); [|cbn; auto].
  pose proof (tm_dton_eq _ _ TM s2) as T1.
  destruct (x_dton_eq ex s2) as [s3 st3]; cbn [fst snd] in *.
  destruct (good_some _ _ (run_trivial_good s3)) as (s4 & st4 & -> & G4).
  cbn. rewrite !bad_lor. intros Hi Hb. apply orb_false_iff in Hb as [B1 B2].
  apply orb_false_iff in B1 as [B0 B1].
  destruct (G Hi B0) as [I2 N2]. destruct (T1 I2 B1) as [I3 N3]. destruct (G4 I3 B2).
  split; [assumption|lia].
Qed.

Lemma run_medium_good s : good_res s (run_medium ex stgs fuel0 s).
Proof.
  unfold run_medium. set (first := if primal_propagation_on stgs then _ else _).
  assert (F : good_res s first).
  { subst first. destruct (primal_propagation_on stgs); [|cbn; auto].
    pose proof (tm_check_acts _ _ TM s) as T1.
    destruct (x_check_acts ex s) as [s1 st1]; cbn [fst snd] in *.
    pose proof (tm_propagate _ _ TM s1) as T2.
    destruct (x_propagate ex s1) as [s2 st2]; cbn [fst snd] in *.
    destruct (good_some _ _ (run_trivial_good s2)) as (s3 & st3 & -> & G).
    cbn. rewrite !bad_lor. intros Hi Hb. apply orb_false_iff in Hb as [B1 B3].
    apply orb_false_iff in B1 as [B1 B2].
    destruct (T1 Hi B1) as [I1 N1]. destruct (T2 I1 B2) as [I2 N2].
    destruct (G I2 B3). split; [assumption|lia]. }
  destruct (good_some _ _ F) as (s3 & st & -> & G).
  neqb_case st UNCHANGED NE; cbn [negb]; [|exact G].
  set (pr := if parallel_rows_on stgs then _ else _).
  assert (P : good_res s3 (Some pr)).
  { subst pr. destruct (parallel_rows_on stgs); [|cbn; auto].
    pose proof (tm_par_rows _ _ TM s3) as T. destruct (x_par_rows ex s3); cbn in *. exact T. }
  destruct pr as [s4 st4]. cbn in P.
  neqb_case st4 UNCHANGED NE; cbn [negb].
  2:{ cbn. intros Hi Hb. destruct (G Hi eq_refl). destruct (P H Hb). split; [assumption|lia]. }
  assert (C : I s -> I s4 /\ x_nnz ex s4 <= x_nnz ex s).
  { intros Hi. destruct (G Hi eq_refl). destruct (P H eq_refl). split; [assumption|lia]. }
  destruct (parallel_cols_on stgs); [|cbn; auto].
  pose proof (tm_par_cols _ _ TM s4) as T1.
  destruct (x_par_cols ex s4) as [s5 st5]; cbn [fst snd] in *.
  destruct (good_some _ _ (run_trivial_good s5)) as (s6 & st6 & -> & G6).
  cbn. rewrite bad_lor. intros Hi Hb. apply orb_false_iff in Hb as [B1 B2].
  destruct (C Hi) as [I4 N4]. destruct (T1 I4 B1) as [I5 N5]. destruct (G6 I5 B2).
  split; [assumption|lia].
Qed.

Definition potential (cx : complexity) (nnz before : nat) : nat :=
  match cx with FAST => nnz + 2 * before + 3 | MEDIUM => nnz + 2 * before + 2 end.

Lemma ge95_false a b : ge95 a b = false -> a < b.
Proof. unfold ge95. intros H. apply Nat.leb_gt in H. lia. Qed.

Lemma main_loop_term clock f : forall it cx b a s,
  I s -> potential cx (x_nnz ex s) b <= f ->
  exists s' st k, main_loop ex stgs fuel0 clock f it cx b a s = Some (s', st, k)
    /\ k <= it + potential cx (x_nnz ex s) b
    /\ (bad st = false -> I s' /\ x_nnz ex s' <= x_nnz ex s).
Proof.
  induction f as [|f IH]; intros it cx b a s Hi HF.
  { destruct cx; cbn in HF; lia. }
  cbn [main_loop].
  destruct (good_some _ _ (run_trivial_good s)) as (s1 & st1 & E1 & G1). rewrite E1.
  neqb_case st1 UNCHANGED NE; cbn [negb].
  2:{ exists s1, st1, it. split; [reflexivity|]. split; [lia|]. auto. }
  destruct (G1 Hi eq_refl) as [I1 N1].
  assert (PH : good_res s1 (match cx with FAST => run_fast ex stgs fuel0 s1 | MEDIUM => run_medium ex stgs fuel0 s1 end)).
  { destruct cx; [apply run_fast_good|apply run_medium_good]. }
  destruct (good_some _ _ PH) as (s2 & st2 & -> & G2).
  cbn zeta.
  set (ac := if is_medium cx then x_nnz ex s2 else a).
  destruct (update_termination ac b cx st2 (clock it)) eqn:U.
  - exists s2, st2, (Datatypes.S it). split; [reflexivity|]. split; [destruct cx; cbn; lia|].
    intros Hb. destruct (G2 I1 Hb). split; [assumption|lia].
  - assert (B2 : bad st2 = false).
    { unfold update_termination in U. unfold bad. destruct (HAS_STATUS st2 UNBNDORINFEAS); [discriminate|reflexivity]. }
    destruct (G2 I1 B2) as [I2 N2].
    set (cx' := update_complexity cx (x_nnz ex s1) (x_nnz ex s2)).
    set (bc := if is_medium cx then ac else b).
    assert (PO : potential cx' (x_nnz ex s2) bc + 1 <= potential cx (x_nnz ex s) b).
    { subst cx' bc ac. unfold update_termination in U. unfold bad in B2. rewrite B2 in U.
      destruct cx; cbn [is_medium andb update_complexity] in *.
      - destruct (ge95 (x_nnz ex s2) (x_nnz ex s1)) eqn:GE; cbn [negb potential].
        + lia.
        + apply ge95_false in GE. lia.
      - destruct (ge95 (x_nnz ex s2) b) eqn:GE; [discriminate|].
        apply ge95_false in GE. cbn [potential]. lia. }
    destruct (IH (Datatypes.S it) cx' bc ac s2 I2 ltac:(lia)) as (s' & st' & k & E & K & G).
    exists s', st', k. split; [exact E|]. split; [lia|].
    intros Hb. destruct (G Hb). split; [assumption|lia].
Qed.

Lemma run_presolver_gen_terminates clock m0 n0 nnz0 s :
  I s ->
  exists r, run_presolver_gen ex stgs fuel0 clock (3 * x_nnz ex s + 3) m0 n0 nnz0 s = Some r
     /\ res_phases r <= 3 * x_nnz ex s + 3.
Proof.
  intros Hi. unfold run_presolver_gen.
  destruct (main_loop_term clock (3 * x_nnz ex s + 3) 0 FAST (x_nnz ex s) (x_nnz ex s) s Hi)
    as (s' & st & k & -> & K & _); [cbn; lia|].
  destruct (negb (N.eqb st UNCHANGED)).
  - eexists. split; [reflexivity|]. cbn in *. lia.
  - eexists. split; [reflexivity|]. cbn in *. lia.
Qed.
End Term.

(** ** Meaning of the status *)
Section Obs.
Context {S : Type} (ex : explorers S) (stgs : settings) (fuel0 : S -> nat).
Hypothesis RG : status_ranges ex.

Let oex := observed ex.
Let ofuel (t : S * list status) := fuel0 (fst t).

Definition some_trouble (l : list status) := exists st, In st l /\ trouble st.

Lemma trouble_cases st : In st [UNCHANGED; REDUCED; INFEASIBLE; UNBNDORINFEAS] ->
  (trouble st <-> bad st = true).
Proof.
  intros H. unfold trouble. in_cases H; subst; cbn; intuition discriminate.
Qed.

Lemma observe1_spec (f : S -> S * status) t t' st :
  observe1 f t = (t', st) -> snd t' = st :: snd t /\ st = snd (f (fst t)).
Proof.
  unfold observe1. destruct (f (fst t)) as [s' st0]. intros H. injection H as <- <-. cbn. auto.
Qed.

(* "the bad flag of the list seen since t" *)
Definition lbad (l : list status) := existsb bad l.

Definition obs_res (t : S * list status) (r : option ((S * list status) * status)) : Prop :=
  match r with
  | None => True
  | Some (t', st) =>
      exists l, snd t' = l ++ snd t /\ lbad l = bad st /\ Forall (fun s => In s [UNCHANGED; REDUCED; INFEASIBLE; UNBNDORINFEAS]) l
  end.

Ltac ostep f R :=
  let t' := fresh "t" in let st := fresh "st" in let E := fresh "E" in let L := fresh "L" in let V := fresh "V" in
  match goal with |- context [observe1 f ?t] =>
    destruct (observe1 f t) as [t' st] eqn:E; apply observe1_spec in E as [L V];
    let R1 := fresh "R" in pose proof (R ex RG (fst t)) as R1; rewrite <- V in R1; clear V
  end.

Lemma incl4 a l : In a l -> incl l [UNCHANGED; REDUCED; INFEASIBLE; UNBNDORINFEAS] -> In a [UNCHANGED; REDUCED; INFEASIBLE; UNBNDORINFEAS].
Proof. intros H K. apply K, H. Qed.

Lemma ston_loop_obs f : forall t, obs_res t (ston_loop oex f t).
Proof.
  induction f as [|f IH]; intros t; [exact Logic.I|]. cbn [ston_loop].
  change (x_ston_rows oex) with (observe1 (x_ston_rows ex)).
  ostep (x_ston_rows ex) (@rg_ston_rows S).
  in_cases R; subst st; cbn [N.eqb UNCHANGED REDUCED INFEASIBLE Pos.eqb].
  - unfold obs_res; exists [UNCHANGED]. repeat split; auto. constructor; [cbn; auto|constructor].
  - specialize (IH t0). destruct (ston_loop oex f t0) as [[t' st']|]; [|exact Logic.I].
    destruct IH as (l & A & B & C). unfold obs_res; exists (l ++ [REDUCED]). cbn. rewrite A, L, <- app_assoc. split; [reflexivity|].
    split. { unfold lbad in *. rewrite existsb_app, B. cbn. apply orb_false_r. }
    apply Forall_app. split; [exact C|]. constructor; [cbn; auto|constructor].
  - unfold obs_res; exists [INFEASIBLE]. repeat split; auto. constructor; [cbn; auto 6|constructor].
Qed.

Lemma obs_ext t t1 r l : snd t1 = l ++ snd t -> lbad l = false ->
  Forall (fun s => In s [UNCHANGED; REDUCED; INFEASIBLE; UNBNDORINFEAS]) l ->
  obs_res t1 r -> obs_res t r.
Proof.
  intros A B C H. destruct r as [[t' st]|]; [|exact Logic.I].
  destruct H as (l' & A' & B' & C'). unfold obs_res; exists (l' ++ l). rewrite A', A, <- app_assoc. split; [reflexivity|].
  split. { unfold lbad in *. rewrite existsb_app, B', B. apply orb_false_r. }
  apply Forall_app. auto.
Qed.

Ltac fall := repeat (constructor; [cbn; auto 8|]); constructor.

Lemma trivial_tail_obs t : obs_res t (trivial_tail oex ofuel t).
Proof.
  unfold trivial_tail. pose proof (ston_loop_obs (ofuel t) t) as G.
  destruct (ston_loop oex (ofuel t) t) as [[t1 st1]|] eqn:E; [|exact Logic.I].
  assert (R1 : In st1 [UNCHANGED; INFEASIBLE]).
  { refine (ston_loop_range oex _ _ _ _ _ E).
    constructor; intros [s0 l0]; cbn; unfold observe1; cbn [fst snd];
    [pose proof (rg_close_bounds _ RG s0) as R; destruct (x_close_bounds ex s0)
    |pose proof (rg_empty_cols _ RG s0) as R; destruct (x_empty_cols ex s0)
    |pose proof (rg_dual_fix _ RG s0) as R; destruct (x_dual_fix ex s0)
    |pose proof (rg_ston_rows _ RG s0) as R; destruct (x_ston_rows ex s0)
    |pose proof (rg_empty_rows _ RG s0) as R; destruct (x_empty_rows ex s0)
    |pose proof (rg_ston_cols _ RG s0) as R; destruct (x_ston_cols ex s0)
    |pose proof (rg_dton_eq _ RG s0) as R; destruct (x_dton_eq ex s0)
    |pose proof (rg_check_acts _ RG s0) as R; destruct (x_check_acts ex s0)
    |pose proof (rg_propagate _ RG s0) as R; destruct (x_propagate ex s0)
    |pose proof (rg_par_rows _ RG s0) as R; destruct (x_par_rows ex s0)
    |pose proof (rg_par_cols _ RG s0) as R; destruct (x_par_cols ex s0)]; cbn in R |- *; exact R. }
  in_cases R1; subst st1; cbn [N.eqb UNCHANGED INFEASIBLE Pos.eqb]; [|exact G].
  destruct G as (l & A & B & C).
  refine (obs_ext t t1 _ l A B C _).
  change (x_empty_rows oex) with (observe1 (x_empty_rows ex)).
  change (x_empty_cols oex) with (observe1 (x_empty_cols ex)).
  ostep (x_empty_rows ex) (@rg_empty_rows S).
  in_cases R; subst st; cbn [N.eqb UNCHANGED INFEASIBLE Pos.eqb].
  2:{ unfold obs_res; exists [INFEASIBLE]. repeat split; auto; try fall. }
  ostep (x_empty_cols ex) (@rg_empty_cols S).
  in_cases R; subst st; cbn [N.eqb UNCHANGED INFEASIBLE UNBNDORINFEAS Pos.eqb].
  - unfold obs_res; exists [UNCHANGED; UNCHANGED]. cbn. rewrite L0, L. repeat split; auto; try fall.
  - unfold obs_res; exists [UNBNDORINFEAS; UNCHANGED]. cbn. rewrite L0, L. repeat split; auto; try fall.
Qed.

Lemma run_trivial_obs t : obs_res t (run_trivial oex stgs ofuel t).
Proof.
  unfold run_trivial.
  change (x_close_bounds oex) with (observe1 (x_close_bounds ex)).
  change (x_empty_cols oex) with (observe1 (x_empty_cols ex)).
  change (x_dual_fix oex) with (observe1 (x_dual_fix ex)).
  ostep (x_close_bounds ex) (@rg_close_bounds S).
  in_cases R; subst st; cbn [N.eqb UNCHANGED INFEASIBLE UNBNDORINFEAS Pos.eqb].
  2:{ unfold obs_res; exists [INFEASIBLE]. repeat split; auto; try fall. }
  destruct (dual_fix_on stgs).
  2:{ refine (obs_ext t t0 _ [UNCHANGED] L eq_refl _ (trivial_tail_obs t0)). fall. }
  ostep (x_empty_cols ex) (@rg_empty_cols S).
  ostep (x_dual_fix ex) (@rg_dual_fix S).
  in_cases R; in_cases R0; subst st st0; cbn [N.lor N.eqb UNCHANGED INFEASIBLE UNBNDORINFEAS Pos.lor Pos.eqb].
  - refine (obs_ext t t2 _ [UNCHANGED;UNCHANGED;UNCHANGED] _ eq_refl _ (trivial_tail_obs t2)); [|fall].
    cbn. rewrite L1, L0, L. reflexivity.
  - unfold obs_res; exists [UNBNDORINFEAS;UNCHANGED;UNCHANGED]. cbn. rewrite L1, L0, L. repeat split; auto; try fall.
  - unfold obs_res; exists [UNCHANGED;UNBNDORINFEAS;UNCHANGED]. cbn. rewrite L1, L0, L. repeat split; auto; try fall.
  - unfold obs_res; exists [UNBNDORINFEAS;UNBNDORINFEAS;UNCHANGED]. cbn. rewrite L1, L0, L. repeat split; auto; try fall.
Qed.

(* sequencing with OR of the statuses *)
Lemma obs_seq t t1 st1 r st l : snd t1 = l ++ snd t -> lbad l = bad st1 ->
  Forall (fun s => In s [UNCHANGED; REDUCED; INFEASIBLE; UNBNDORINFEAS]) l ->
  obs_res t1 r ->
  obs_res t (match r with None => None | Some (t2, st2) => Some (t2, st st2) end) \/
  ~ (forall x, bad (st x) = bad st1 || bad x)%bool.
Proof.
  intros A B C H. 
  destruct r as [[t2 st2]|]; [|left; exact Logic.I].
  destruct H as (l' & A' & B' & C').
  destruct (bool_dec (bad (st st2)) (bad st1 || bad st2)) as [Q|Q].
  - left. unfold obs_res; exists (l' ++ l). rewrite A', A, <- app_assoc. split; [reflexivity|].
    split. { unfold lbad in *. rewrite existsb_app, B', B, Q. apply orb_comm. }
    apply Forall_app. auto.
  - right. intros F. apply Q, F.
Qed.

Lemma obs_seq' t t1 st1 r st l : snd t1 = l ++ snd t -> lbad l = bad st1 ->
  Forall (fun s => In s [UNCHANGED; REDUCED; INFEASIBLE; UNBNDORINFEAS]) l ->
  obs_res t1 r -> (forall x, bad (st x) = bad st1 || bad x)%bool ->
  obs_res t (match r with None => None | Some (t2, st2) => Some (t2, st st2) end).
Proof. intros A B C D E. destruct (obs_seq t t1 st1 r st l A B C D) as [H|H]; [exact H|contradiction]. Qed.

Lemma lbad1 st : lbad [st] = bad st.
Proof. cbn. apply orb_false_r. Qed.

Ltac one_in R := constructor; [cbn; cbn [In] in R; intuition|constructor].

Lemma run_fast_obs t : obs_res t (run_fast oex stgs ofuel t).
Proof.
  unfold run_fast. set (first := if ston_cols_on stgs then _ else _).
  assert (F : obs_res t first).
  { subst first. destruct (ston_cols_on stgs).
    2:{ unfold obs_res; exists []. repeat split; auto. }
    change (x_ston_cols oex) with (observe1 (x_ston_cols ex)).
    ostep (x_ston_cols ex) (@rg_ston_cols S).
    refine (obs_seq' t t0 st _ (fun x => N.lor st x) [st] L (lbad1 st) _ (run_trivial_obs t0) _); [one_in R|].
    intros x. apply bad_lor. }
  destruct first as [[t2 st2]|]; [|exact Logic.I].
  destruct (dton_eq_on stgs); [|exact F].
  destruct F as (l & A & B & C).
  change (x_dton_eq oex) with (observe1 (x_dton_eq ex)).
  ostep (x_dton_eq ex) (@rg_dton_eq S).
  refine (obs_seq' t t0 (N.lor st2 st) _ (fun x => N.lor (N.lor st2 st) x) (st :: l) _ _ _ (run_trivial_obs t0) _).
  - cbn. rewrite L, A. reflexivity.
  - cbn. unfold lbad in B. rewrite B, bad_lor. apply orb_comm.
  - constructor; [cbn; cbn [In] in R; intuition|exact C].
  - intros x. apply bad_lor.
Qed.

Lemma run_medium_obs t : obs_res t (run_medium oex stgs ofuel t).
Proof.
  unfold run_medium. set (first := if primal_propagation_on stgs then _ else _).
  assert (F : obs_res t first).
  { subst first. destruct (primal_propagation_on stgs).
    2:{ unfold obs_res; exists []. repeat split; auto. }
    change (x_check_acts oex) with (observe1 (x_check_acts ex)).
    change (x_propagate oex) with (observe1 (x_propagate ex)).
    ostep (x_check_acts ex) (@rg_check_acts S).
    ostep (x_propagate ex) (@rg_propagate S).
    refine (obs_seq' t t1 (N.lor st st0) _ (fun x => N.lor (N.lor st st0) x) [st0; st] _ _ _ (run_trivial_obs t1) _).
    - cbn. rewrite L0, L. reflexivity.
    - cbn. rewrite bad_lor, orb_false_r. apply orb_comm.
    - constructor; [cbn; cbn [In] in R0; intuition|one_in R].
    - intros x. apply bad_lor. }
  destruct first as [[t3 st]|]; [|exact Logic.I].
  neqb_case st UNCHANGED NE; cbn [negb]; [|exact F].
  destruct F as (l & A & B & C).
  refine (obs_ext t t3 _ l A B C _). clear l A B C.
  destruct (parallel_rows_on stgs).
  - change (x_par_rows oex) with (observe1 (x_par_rows ex)).
    ostep (x_par_rows ex) (@rg_par_rows S).
    in_cases R; subst st; cbn [negb N.eqb UNCHANGED INFEASIBLE UNBNDORINFEAS Pos.eqb].
    2:{ unfold obs_res; exists [INFEASIBLE]. repeat split; auto; try fall. }
    destruct (parallel_cols_on stgs).
    2:{ unfold obs_res; exists [UNCHANGED]. repeat split; auto; try fall. }
    refine (obs_ext t3 t0 _ [UNCHANGED] L eq_refl _ _); [fall|].
    change (x_par_cols oex) with (observe1 (x_par_cols ex)).
    ostep (x_par_cols ex) (@rg_par_cols S).
    refine (obs_seq' t0 t1 st _ (fun x => N.lor st x) [st] L0 (lbad1 st) _ (run_trivial_obs t1) _); [one_in R|].
    intros x. apply bad_lor.
  - cbn [negb N.eqb UNCHANGED].
    destruct (parallel_cols_on stgs).
    2:{ unfold obs_res; exists []. repeat split; auto. }
    change (x_par_cols oex) with (observe1 (x_par_cols ex)).
    ostep (x_par_cols ex) (@rg_par_cols S).
    refine (obs_seq' t3 t0 st _ (fun x => N.lor st x) [st] L (lbad1 st) _ (run_trivial_obs t0) _); [one_in R|].
    intros x. apply bad_lor.
Qed.

Definition obs_res3 (t : S * list status) (r : option ((S * list status) * status * nat)) : Prop :=
  match r with
  | None => True
  | Some (t', st, _) => obs_res t (Some (t', st))
  end.

Lemma main_loop_obs clock f : forall it cx b a t,
  obs_res3 t (main_loop oex stgs ofuel clock f it cx b a t).
Proof.
  induction f as [|f IH]; intros it cx b a t; [exact Logic.I|]. cbn [main_loop].
  pose proof (run_trivial_obs t) as G.
  destruct (run_trivial oex stgs ofuel t) as [[t1 st1]|]; [|exact Logic.I].
  neqb_case st1 UNCHANGED NE; cbn [negb]; [|exact G].
  destruct G as (l & A & B & C).
  set (ph := match cx with FAST => _ | MEDIUM => _ end).
  assert (P : obs_res t1 ph).
  { subst ph. destruct cx; [apply run_fast_obs|apply run_medium_obs]. }
  destruct ph as [[t2 st2]|]; [|exact Logic.I].
  destruct (update_termination _ _ _ _ _) eqn:U.
  - exact (obs_ext t t1 (Some (t2, st2)) l A B C P).
  - assert (B2 : bad st2 = false).
    { unfold update_termination in U. unfold bad. destruct (HAS_STATUS st2 UNBNDORINFEAS); [discriminate|reflexivity]. }
    set (r := main_loop _ _ _ _ _ _ _ _ _ _).
    specialize (IH (Datatypes.S it) (update_complexity cx (x_nnz oex t1) (x_nnz oex t2))
       (if is_medium cx then (if is_medium cx then x_nnz oex t2 else a) else b)
       (if is_medium cx then x_nnz oex t2 else a) t2).
    change (obs_res3 t2 r) in IH.
    destruct r as [[[t' st'] k]|]; [|exact Logic.I]. cbn [obs_res3] in *.
    destruct P as (l2 & A2 & B2' & C2).
    refine (obs_ext t t1 _ l A B C _). refine (obs_ext t1 t2 _ l2 A2 _ C2 IH). congruence.
Qed.

Lemma lbad_trouble l : Forall (fun s => In s [UNCHANGED; REDUCED; INFEASIBLE; UNBNDORINFEAS]) l ->
  (lbad l = true <-> some_trouble l).
Proof.
  intros F. unfold lbad, some_trouble. rewrite existsb_exists. rewrite Forall_forall in F.
  split; intros (st & A & B); exists st; (split; [exact A|]); apply trouble_cases; auto.
Qed.

Lemma run_presolver_status clock fuel m0 n0 nnz0 s r :
  run_presolver_gen oex stgs ofuel clock fuel m0 n0 nnz0 (s, []) = Some r ->
  (trouble (res_status r) <-> some_trouble (snd (res_state r))) /\
  (res_reduced r = false <-> some_trouble (snd (res_state r))) /\
  (~ some_trouble (snd (res_state r)) ->
     let s' := fst (res_state r) in
     (res_status r = UNCHANGED <-> (m0 = x_rows ex s' /\ n0 = x_cols ex s' /\ nnz0 = x_nnz ex s')) /\
     (res_status r = REDUCED <-> ~ (m0 = x_rows ex s' /\ n0 = x_cols ex s' /\ nnz0 = x_nnz ex s'))).
Proof.
  unfold run_presolver_gen.
  pose proof (main_loop_obs clock fuel 0 FAST (x_nnz oex (s, [])) (x_nnz oex (s, [])) (s, [])) as G.
  destruct (main_loop _ _ _ _ _ _ _ _ _ _) as [[[t1 st] k]|] eqn:E; [|discriminate].
  cbn [obs_res3 obs_res] in G. destruct G as (l & A & B & C). cbn [snd] in A. rewrite app_nil_r in A.
  assert (RO : status_ranges oex).
  { constructor; intros [s0 l0]; cbn; unfold observe1; cbn [fst snd];
    [pose proof (rg_close_bounds _ RG s0) as R; destruct (x_close_bounds ex s0)
    |pose proof (rg_empty_cols _ RG s0) as R; destruct (x_empty_cols ex s0)
    |pose proof (rg_dual_fix _ RG s0) as R; destruct (x_dual_fix ex s0)
    |pose proof (rg_ston_rows _ RG s0) as R; destruct (x_ston_rows ex s0)
    |pose proof (rg_empty_rows _ RG s0) as R; destruct (x_empty_rows ex s0)
    |pose proof (rg_ston_cols _ RG s0) as R; destruct (x_ston_cols ex s0)
    |pose proof (rg_dton_eq _ RG s0) as R; destruct (x_dton_eq ex s0)
    |pose proof (rg_check_acts _ RG s0) as R; destruct (x_check_acts ex s0)
    |pose proof (rg_propagate _ RG s0) as R; destruct (x_propagate ex s0)
    |pose proof (rg_par_rows _ RG s0) as R; destruct (x_par_rows ex s0)
    |pose proof (rg_par_cols _ RG s0) as R; destruct (x_par_cols ex s0)]; cbn in R |- *; exact R. }
  pose proof (main_loop_range oex stgs ofuel RO _ _ _ _ _ _ _ _ _ _ E) as R.
  assert (T : some_trouble l <-> bad st = true).
  { rewrite <- (lbad_trouble l C), B. reflexivity. }
  neqb_case st UNCHANGED NE; cbn [negb].
  - intros H. injection H as <-. cbn [res_status res_state res_reduced].
    set (s2 := if relax_bounds_on stgs then _ else _).
    assert (SN : snd s2 = l). { subst s2. destruct (relax_bounds_on stgs); cbn; exact A. }
    cbn [x_clean oex observed snd fst]. rewrite SN.
    assert (NT : ~ some_trouble l). { rewrite T. discriminate. }
    unfold final_status. cbn [x_rows x_cols x_nnz oex observed fst].
    set (s3 := x_clean ex (fst s2)).
    assert (FS : forall b : bool, let st := if b then UNCHANGED else REDUCED in
             (trouble st <-> some_trouble l)).
    { intros b. cbn. unfold trouble. destruct b; split; intros H; try tauto; destruct H; discriminate. }
    split; [apply FS|]. split; [split; [discriminate|tauto]|].
    intros _.
    destruct (Nat.eqb_spec n0 (x_cols ex s3)), (Nat.eqb_spec m0 (x_rows ex s3)), (Nat.eqb_spec nnz0 (x_nnz ex s3));
      cbn [andb]; unfold UNCHANGED, REDUCED; intuition congruence.
  - intros H. injection H as <-. cbn [res_status res_state res_reduced]. rewrite A.
    assert (BT : bad st = true). { in_cases R; subst; try congruence; reflexivity. }
    assert (TT : trouble st). { unfold trouble. in_cases R; subst; try congruence; auto. }
    split; [tauto|]. split; [tauto|]. tauto.
Qed.

End Obs.

(** observing does not change the run *)
Section Erase.
Context {S : Type} (ex : explorers S) (stgs : settings) (fuel0 : S -> nat).
Let oex := observed ex.
Let ofuel (t : S * list status) := fuel0 (fst t).

Definition er2 (r : option ((S * list status) * status)) : option (S * status) :=
  match r with None => None | Some (t, st) => Some (fst t, st) end.
Definition er3 (r : option ((S * list status) * status * nat)) : option (S * status * nat) :=
  match r with None => None | Some (t, st, k) => Some (fst t, st, k) end.
Definition er_result (r : run_result (S * list status)) : run_result S :=
  mkResult (fst (res_state r)) (res_status r) (res_reduced r) (res_phases r).

Lemma observe1_er (f : S -> S * status) t :
  observe1 f t = ((fst (f (fst t)), snd (f (fst t)) :: snd t), snd (f (fst t))).
Proof. unfold observe1. destruct (f (fst t)). reflexivity. Qed.

Lemma ston_loop_er f : forall t, ston_loop ex f (fst t) = er2 (ston_loop oex f t).
Proof.
  induction f as [|f IH]; intros t; [reflexivity|]. cbn [ston_loop].
  change (x_ston_rows oex) with (observe1 (x_ston_rows ex)). rewrite observe1_er.
  destruct (x_ston_rows ex (fst t)) as [s1 st]. cbn [fst snd].
  destruct (N.eqb st INFEASIBLE); [reflexivity|]. destruct (N.eqb st REDUCED); [|reflexivity].
  rewrite <- IH. reflexivity.
Qed.

Lemma trivial_tail_er t : trivial_tail ex fuel0 (fst t) = er2 (trivial_tail oex ofuel t).
Proof.
  unfold trivial_tail. change (ofuel t) with (fuel0 (fst t)). rewrite ston_loop_er.
  destruct (ston_loop oex (fuel0 (fst t)) t) as [[t1 st1]|]; [|reflexivity]. cbn [er2].
  destruct (N.eqb st1 INFEASIBLE); [reflexivity|].
  change (x_empty_rows oex) with (observe1 (x_empty_rows ex)).
  change (x_empty_cols oex) with (observe1 (x_empty_cols ex)). rewrite observe1_er.
  destruct (x_empty_rows ex (fst t1)) as [s2 st2]. cbn [fst snd].
  destruct (N.eqb st2 INFEASIBLE); [reflexivity|]. rewrite observe1_er. cbn [fst snd].
  destruct (x_empty_cols ex s2) as [s3 st3]. cbn [fst snd].
  destruct (N.eqb st3 UNBNDORINFEAS); reflexivity.
Qed.

Lemma run_trivial_er t : run_trivial ex stgs fuel0 (fst t) = er2 (run_trivial oex stgs ofuel t).
Proof.
  unfold run_trivial.
  change (x_close_bounds oex) with (observe1 (x_close_bounds ex)).
  change (x_empty_cols oex) with (observe1 (x_empty_cols ex)).
  change (x_dual_fix oex) with (observe1 (x_dual_fix ex)).
  rewrite observe1_er. destruct (x_close_bounds ex (fst t)) as [s1 st1]. cbn [fst snd].
  destruct (N.eqb st1 INFEASIBLE); [reflexivity|]. destruct (dual_fix_on stgs).
  - rewrite observe1_er. cbn [fst snd]. destruct (x_empty_cols ex s1) as [s2 st2]. cbn [fst snd].
    rewrite observe1_er. cbn [fst snd]. destruct (x_dual_fix ex s2) as [s3 st3]. cbn [fst snd].
    destruct (N.eqb _ UNBNDORINFEAS); [reflexivity|]. rewrite <- trivial_tail_er. reflexivity.
  - rewrite <- trivial_tail_er. reflexivity.
Qed.

Lemma run_fast_er t : run_fast ex stgs fuel0 (fst t) = er2 (run_fast oex stgs ofuel t).
Proof.
  unfold run_fast.
  set (f1 := if ston_cols_on stgs then _ else Some (fst t, _)).
  set (f2 := if ston_cols_on stgs then _ else Some (t, _)).
  assert (E : f1 = er2 f2).
  { subst f1 f2. destruct (ston_cols_on stgs); [|reflexivity].
    change (x_ston_cols oex) with (observe1 (x_ston_cols ex)). rewrite observe1_er.
    destruct (x_ston_cols ex (fst t)) as [s1 st1]; cbn [fst snd].
    pose proof (run_trivial_er (s1, st1 :: snd t)) as H. cbn [fst] in H. rewrite H.
    destruct (run_trivial oex stgs ofuel (s1, st1 :: snd t)) as [[? ?]|]; reflexivity. }
  rewrite E. destruct f2 as [[t2 st2]|]; [|reflexivity]. cbn [er2].
  destruct (dton_eq_on stgs); [|reflexivity].
  change (x_dton_eq oex) with (observe1 (x_dton_eq ex)). rewrite observe1_er.
  destruct (x_dton_eq ex (fst t2)) as [s3 st3]; cbn [fst snd].
  pose proof (run_trivial_er (s3, st3 :: snd t2)) as H. cbn [fst] in H. rewrite H.
  destruct (run_trivial oex stgs ofuel (s3, st3 :: snd t2)) as [[? ?]|]; reflexivity.
Qed.

Lemma run_medium_er t : run_medium ex stgs fuel0 (fst t) = er2 (run_medium oex stgs ofuel t).
Proof.
  unfold run_medium.
  set (f1 := if primal_propagation_on stgs then _ else Some (fst t, _)).
  set (f2 := if primal_propagation_on stgs then _ else Some (t, _)).
  assert (E : f1 = er2 f2).
  { subst f1 f2. destruct (primal_propagation_on stgs); [|reflexivity].
    change (x_check_acts oex) with (observe1 (x_check_acts ex)).
    change (x_propagate oex) with (observe1 (x_propagate ex)). rewrite observe1_er.
    destruct (x_check_acts ex (fst t)) as [s1 st1]; cbn [fst snd]. rewrite observe1_er. cbn [fst snd].
    destruct (x_propagate ex s1) as [s2 st2]; cbn [fst snd].
    pose proof (run_trivial_er (s2, st2 :: st1 :: snd t)) as H. cbn [fst] in H. rewrite H.
    destruct (run_trivial oex stgs ofuel (s2, st2 :: st1 :: snd t)) as [[? ?]|]; reflexivity. }
  rewrite E. destruct f2 as [[t3 st]|]; [|reflexivity]. cbn [er2].
  destruct (negb (N.eqb st UNCHANGED)); [reflexivity|].
  change (x_par_rows oex) with (observe1 (x_par_rows ex)).
  set (p1 := if parallel_rows_on stgs then _ else (fst t3, _)).
  set (p2 := if parallel_rows_on stgs then _ else (t3, _)).
  assert (P : p1 = (fst (fst p2), snd p2)).
  { subst p1 p2. destruct (parallel_rows_on stgs); [|reflexivity]. rewrite observe1_er.
    destruct (x_par_rows ex (fst t3)); reflexivity. }
  rewrite P. destruct p2 as [t4 st4]. cbn [fst snd].
  destruct (negb (N.eqb st4 UNCHANGED)); [reflexivity|].
  destruct (parallel_cols_on stgs); [|reflexivity].
  change (x_par_cols oex) with (observe1 (x_par_cols ex)). rewrite observe1_er.
  destruct (x_par_cols ex (fst t4)) as [s5 st5]; cbn [fst snd].
  pose proof (run_trivial_er (s5, st5 :: snd t4)) as H. cbn [fst] in H. rewrite H.
  destruct (run_trivial oex stgs ofuel (s5, st5 :: snd t4)) as [[? ?]|]; reflexivity.
Qed.

Lemma main_loop_er clock f : forall it cx b a t,
  main_loop ex stgs fuel0 clock f it cx b a (fst t) = er3 (main_loop oex stgs ofuel clock f it cx b a t).
Proof.
  induction f as [|f IH]; intros it cx b a t; [reflexivity|]. cbn [main_loop].
  rewrite run_trivial_er. destruct (run_trivial oex stgs ofuel t) as [[t1 st1]|]; [|reflexivity]. cbn [er2].
  destruct (negb (N.eqb st1 UNCHANGED)); [reflexivity|].
  destruct cx; cbn [is_medium].
  - rewrite run_fast_er. destruct (run_fast oex stgs ofuel t1) as [[t2 st2]|]; [|reflexivity]. cbn [er2].
    destruct (update_termination _ _ _ _ _); [reflexivity|]. rewrite IH. reflexivity.
  - rewrite run_medium_er. destruct (run_medium oex stgs ofuel t1) as [[t2 st2]|]; [|reflexivity]. cbn [er2].
    change (x_nnz oex t2) with (x_nnz ex (fst t2)).
    destruct (update_termination _ _ _ _ _); [reflexivity|]. rewrite IH. reflexivity.
Qed.

Lemma run_presolver_er clock fuel m0 n0 nnz0 s :
  run_presolver_gen ex stgs fuel0 clock fuel m0 n0 nnz0 s =
  option_map er_result (run_presolver_gen oex stgs ofuel clock fuel m0 n0 nnz0 (s, [])).
Proof.
  unfold run_presolver_gen.
  pose proof (main_loop_er clock fuel 0 FAST (x_nnz ex s) (x_nnz ex s) (s, [])) as H. cbn [fst] in H. rewrite H.
  change (x_nnz oex (s, [])) with (x_nnz ex s).
  destruct (main_loop oex stgs ofuel clock fuel 0 FAST (x_nnz ex s) (x_nnz ex s) (s, [])) as [[[t st] k]|]; [|reflexivity].
  cbn [er3]. destruct (negb (N.eqb st UNCHANGED)); [reflexivity|].
  cbn [option_map]. unfold er_result. cbn. destruct (relax_bounds_on stgs); reflexivity.
Qed.
End Erase.

Lemma settings_spec :
  (forall s, let t := set_settings_true s in
     (ston_cols_on t = true /\ dton_eq_on t = true /\ parallel_rows_on t = true /\
      parallel_cols_on t = true /\ primal_propagation_on t = true /\ dual_fix_on t = true /\
      finite_bound_tightening_on t = true /\ relax_bounds_on t = true /\ verbose_on t = true) /\
     max_shift t = max_shift s /\ max_time t = max_time s) /\
  (forall s, let t := set_settings_false s in
     (ston_cols_on t = false /\ dton_eq_on t = false /\ parallel_rows_on t = false /\
      parallel_cols_on t = false /\ primal_propagation_on t = false /\ dual_fix_on t = false /\
      finite_bound_tightening_on t = false /\ relax_bounds_on t = false /\ verbose_on t = false) /\
     max_shift t = max_shift s /\ max_time t = max_time s) /\
  set_settings_true default_settings = default_settings /\
  max_shift default_settings = 10 /\ max_time default_settings = 60%Q.
Proof. repeat split. Qed.
