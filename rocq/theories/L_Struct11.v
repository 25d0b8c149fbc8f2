(** The structural invariant along whole runs of the driver. *)
From Coq Require Import NArith.
From Verif Require Import M_Num S_LP M_Settings M_Driver S_Driver M_State M_Act M_Core M_Simple
  M_StonCols M_Dton M_Parallel M_Propagate M_Init M_Post M_Run S_Run S_Struct
  L_State L_Struct L_Struct2 L_Struct3 L_Struct4 L_Struct5 L_Struct6 L_Struct7 L_Struct8 L_Tiny
  L_Struct9 L_Struct10 L_Run L_Driver.
Import M_Driver.
Open Scope nat_scope.
Notation bad := M_State.bad.

(** ** Pending rows left behind by the singleton-row explorer have at most one entry *)
Lemma remove_stonrow_pend1 : forall s i, Inv s -> pend1 s -> In i (w_ston_rows s) ->
  t_inact (rt s i) = false -> pend1 (fst (remove_stonrow i s)).
Proof.
  intros s i H PN Hin T. destruct (l_ston_rows s (inv_L s H) i Hin) as [Hi D]. specialize (D T).
  unfold remove_stonrow. destruct (mA s i) as [|[k a] r] eqn:EA.
  - destruct D as [D|[_ D]]; [discriminate|]. rewrite D. exact PN.
  - destruct D as [D|[D _]]; [|discriminate]. destruct r; [|discriminate].
    destruct (w_rin s (inv_0 s H) i k a Hi) as [Hk Na]; [rewrite EA; left; reflexivity|].
    destruct (t_fixed (ct s k)) eqn:Fk; [exact PN|].
    assert (P0 : forall t, w_rows t = w_rows s -> rsz t = rsz s -> pend1 t).
    { intros t W R j. rewrite W, R. apply PN. }
    assert (R1 : rsz s i = 1%Z).
    { rewrite (tight_rsz s i (inv_0 s H) (inv_R s H) Hi T), EA. reflexivity. }
    destruct (t_eq (rt s i)).
    + destruct (fix_col_frame s k (fin (rhs s i) / a) (cst s k)) as [A [B [C [D1 [E [F G]]]]]].
      destruct (fix_col k _ _ s) as [s1 st]. cbn [fst snd] in *.
      destruct (N.eqb st INFEASIBLE); [apply P0; auto|]. cbn [fst].
      intros j Hj. sr. sr in Hj. rewrite A in Hj. updg; [lia|]. rewrite E. auto.
    + assert (A1 : same_struct s (fst (if t_rhs_inf (rt s i) then (s, UNCHANGED)
          else if Qgtb a 0 then update_ub k (fin (rhs s i) / a) i s
          else update_lb k (fin (rhs s i) / a) i s))).
      { destruct (t_rhs_inf _); [apply same_refl|].
        destruct (Qgtb a 0); auto using update_ub_same, update_lb_same, Inv_col_in. }
      destruct (if t_rhs_inf (rt s i) then _ else _) as [s1 st1]. cbn [fst] in A1.
      destruct (N.eqb st1 INFEASIBLE); [apply P0; [apply (ss_w1 _ _ A1)|apply (ss_rsz _ _ A1)]|].
      assert (A2 : same_struct s1 (fst (if t_lhs_inf (rt s i) then (s1, UNCHANGED)
          else if Qgtb a 0 then update_lb k (fin (lhs s i) / a) i s1
          else update_ub k (fin (lhs s i) / a) i s1))).
      { assert (CI : col_in s1 k) by (eapply col_in_same; [exact A1|apply Inv_col_in; auto]).
        destruct (t_lhs_inf _); [apply same_refl|].
        destruct (Qgtb a 0); auto using update_ub_same, update_lb_same. }
      destruct (if t_lhs_inf (rt s i) then _ else _) as [s2 st2]. cbn [fst] in A2.
      assert (A3 : same_struct s s2) by (eapply same_trans; eauto).
      destruct (N.eqb st2 INFEASIBLE); [apply P0; [apply (ss_w1 _ _ A3)|apply (ss_rsz _ _ A3)]|].
      cbn [fst]. intros j Hj. unfold set_row_to_inactive in *. sr. sr in Hj.
      rewrite (ss_w1 _ _ A3) in Hj. rewrite (ss_rsz _ _ A3).
      apply in_app_or in Hj. destruct Hj as [Hj|[<-|[]]]; [auto|lia].
Qed.

Lemma ston_pass_pend1 : forall b l s, Inv s -> pend1 s -> (forall i, In i l -> In i (w_ston_rows s)) ->
  pend1 (fst (ston_pass b l s)).
Proof.
  induction l as [|i l IH]; intros s H PN HL; simpl; auto.
  destruct (if b then _ else _) eqn:SK.
  - apply IH; auto. intros; apply HL; simpl; auto.
  - assert (T : t_inact (rt s i) = false).
    { destruct b; apply orb_false_iff in SK; tauto. }
    pose proof (remove_stonrow_stp s i H (HL i (or_introl eq_refl)) T) as X.
    pose proof (remove_stonrow_pend1 s i H PN (HL i (or_introl eq_refl)) T) as Y.
    destruct (remove_stonrow i s) as [s1 st]. destruct X as [S1 F1]. cbn [fst] in Y.
    destruct (N.eqb st INFEASIBLE); auto.
    apply IH; auto. apply S1. intros j Hj. destruct F1 as [_ F1]. rewrite F1. apply HL; simpl; auto.
Qed.

Lemma pend1_nil : forall s, w_rows s = [] -> pend1 s.
Proof. intros s E i Hi. rewrite E in Hi. contradiction. Qed.

Lemma ston_rows_pend1 : forall s, Inv s -> w_sub s = [] -> pend1 s -> pend1 (fst (remove_ston_rows s)).
Proof.
  intros s H WS PN. pose proof (ston_rows_spec s H WS) as SP.
  unfold remove_ston_rows in *. destruct (w_ston_rows s) as [|i0 l0] eqn:EL; [exact PN|].
  rewrite <- EL in *. set (l := w_ston_rows s) in *.
  pose proof (ston_pass_stp true l s H (fun i X => X)) as P1.
  pose proof (ston_pass_pend1 true l s H PN (fun i X => X)) as Q1.
  destruct (ston_pass true l s) as [s1 st1]. destruct P1 as [S1 [F1 E1]]. cbn [fst] in Q1.
  destruct (N.eqb st1 INFEASIBLE); [exact Q1|].
  assert (HL1 : forall i, In i l -> In i (w_ston_rows s1)) by (destruct F1 as [_ ->]; auto).
  pose proof (ston_pass_pend1 false l s1 (st_inv _ _ S1) Q1 HL1) as Q2.
  destruct (ston_pass false l s1) as [s2 st2]. cbn [fst] in Q2.
  destruct (N.eqb st2 INFEASIBLE); [exact Q2|]. cbv zeta in SP. cbn [fst].
  destruct SP as [_ [_ [_ SP]]].
  destruct SP as [SP|[[SP _]|[_ [_ [SP _]]]]]; [discriminate SP|discriminate SP|].
  apply pend1_nil. apply SP.
Qed.

Lemma empty_cols_w5 : forall s, w_empty_rows (fst (remove_empty_cols s)) = w_empty_rows s.
Proof.
  intros s. unfold remove_empty_cols.
  pose proof (for_until_inv UNBNDORINFEAS remove_empty_col (fun t => w_empty_rows t = w_empty_rows s)
                (w_empty_cols s) s) as X.
  destruct (for_until _ _ _ _) as [s1 st]. cbn [fst] in X.
  assert (Y : w_empty_rows s1 = w_empty_rows s).
  { apply X; auto. intros t k _ E. rewrite <- E. unfold remove_empty_col, close_empty_col.
    destruct (Qeqb _ _); [reflexivity|]. destruct (Qltb _ _); [destruct (t_ub_inf _)|destruct (t_lb_inf _)];
      reflexivity. }
  destruct (N.eqb st UNBNDORINFEAS); exact Y.
Qed.

(** ** The driver *)
Section Run.
Variable stgs : settings.
Variable fits : nat -> bool.
Let ex := the_explorers stgs fits.
Let fuel0 (s : state) : nat := S (S (nc s)).
Variable s0 : state.
Let V := visited stgs fits s0.

Lemma V_step : forall f t t' st, In f (steps stgs fits) -> V t -> f t = (t', st) -> V t'.
Proof. intros f t t' st I Vt E. replace t' with (fst (f t)) by (rewrite E; reflexivity). constructor 2; auto. Qed.
Ltac vs f := eapply (V_step f); [apply in_or_app; left; cbn; tauto|eassumption|eassumption].

Ltac vsd DT := eapply (V_step (remove_dton_eq_rows fits));
  [apply in_or_app; right; rewrite DT; left; reflexivity|eassumption|eassumption].

Definition rowsq (s s' : state) : Prop :=
  w_rows s = [] -> w_rows s' = [].

Lemma ston_loop_spec : forall f s, Inv s -> w_sub s = [] -> w_fixed s = [] -> V s ->
  (ncact s + 2 <= f \/ (w_ston_rows s = [] /\ 1 <= f)) ->
  exists s' st, ston_loop ex f s = Some (s', st) /\ V s' /\ Inv s' /\ mono s s' /\ w_sub s' = [] /\
    (pend1 s -> pend1 s') /\
    (st = INFEASIBLE \/ st = UNCHANGED /\ w_fixed s' = [] /\ w_ston_rows s' = [] /\
       rowsq s s' /\ (Nx s -> Nx s')).
Proof.
  induction f as [|f IH]; intros s H WS WF Vs HF; [lia|]. cbn [ston_loop].
  change (x_ston_rows ex s) with (remove_ston_rows s).
  pose proof (ston_rows_spec s H WS) as SP. pose proof (ston_rows_pend1 s H WS) as PP.
  destruct (remove_ston_rows s) as [s1 st] eqn:E. cbn [fst] in PP.
  assert (V1 : V s1) by (vs remove_ston_rows).
  destruct SP as [I1 [M1 [W1 SP]]].
  destruct SP as [->|[[-> [-> SW]]|[-> [NE [Q1 [N1 D]]]]]].
  - exists s1, INFEASIBLE. rewrite N.eqb_refl. auto 10.
  - exists s, UNCHANGED. cbn. split; [reflexivity|]. unfold rowsq. auto 15.
  - cbn [N.eqb REDUCED INFEASIBLE Pos.eqb].
    assert (HF1 : ncact s1 + 2 <= f \/ (w_ston_rows s1 = [] /\ 1 <= f)).
    { destruct (D WF) as [D'|D']; destruct HF as [HF|[HF _]]; try congruence; [right|left]; lia || (split; auto; lia). }
    destruct (IH s1 I1 W1 (q_fixed _ Q1) V1 HF1) as [s' [st [E' [V' [I' [M' [W' [P' R]]]]]]]].
    exists s', st. split; [exact E'|]. do 2 (split; [auto; fail|]).
    split; [eapply mono_trans; eauto|]. split; [auto|]. split; [auto|].
    destruct R as [->|[-> [A [B [C D2]]]]]; [auto|]. right.
    do 3 (split; [auto; fail|]). split; [|auto]. intros _. apply C. apply Q1.
Qed.

Lemma ncact_le : forall s, ncact s <= nc s.
Proof. intros. unfold ncact. etransitivity; [apply filter_len|]. rewrite seq_length. auto. Qed.

(** what run_trivial leaves *)
Definition triv_res (s s' : state) (st : status) : Prop :=
  V s' /\ Inv s' /\ mono s s' /\ w_sub s' = [] /\ (w_rows s = [] -> pend1 s') /\
  (trouble st \/
   st = UNCHANGED /\ w_fixed s' = [] /\ w_ston_rows s' = [] /\ w_empty_rows s' = [] /\
   (w_rows s = [] -> w_rows s' = [] /\ (Nx s -> Nx s'))).

Lemma trivial_tail_spec : forall s, Inv s -> w_sub s = [] -> w_fixed s = [] -> V s ->
  exists s' st, trivial_tail ex fuel0 s = Some (s', st) /\ triv_res s s' st.
Proof.
  intros s H WS WF Vs. unfold trivial_tail.
  destruct (ston_loop_spec (fuel0 s) s H WS WF Vs) as [s1 [st1 [-> [V1 [I1 [M1 [W1 [P1 R1]]]]]]]].
  { left. unfold fuel0. pose proof (ncact_le s). lia. }
  destruct R1 as [->|[-> [F1 [SR1 [RQ1 N1]]]]].
  { rewrite N.eqb_refl. exists s1, INFEASIBLE. split; [reflexivity|].
    unfold triv_res. do 4 (split; [auto; fail|]). split; [intros; apply P1, pend1_nil; auto|].
    left; left; reflexivity. }
  cbn [N.eqb UNCHANGED INFEASIBLE].
  change (x_empty_rows ex s1) with (remove_empty_rows s1).
  pose proof (empty_rows_spec s1 I1) as SP.
  destruct (remove_empty_rows s1) as [s2 st2] eqn:E2.
  destruct SP as [S2 [A2 [B2 [C2 [D2 R2]]]]].
  assert (V2 : V s2) by (vs remove_empty_rows).
  assert (M2 : mono s s2) by (eapply mono_trans; [exact M1|apply S2]).
  destruct R2 as [->|[-> ER]].
  { rewrite N.eqb_refl. exists s2, INFEASIBLE. split; [reflexivity|].
    unfold triv_res. split; auto. split; [apply S2|]. split; auto. split; [congruence|].
    split; [|left; left; reflexivity]. intros W. apply pend1_nil. rewrite A2. auto. }
  cbn [N.eqb UNCHANGED INFEASIBLE].
  change (x_empty_cols ex s2) with (remove_empty_cols s2).
  pose proof (empty_cols_spec s2 (st_inv _ _ S2)) as SP. pose proof (empty_cols_w5 s2) as W5.
  destruct (remove_empty_cols s2) as [s3 st3] eqn:E3. cbn [fst] in W5.
  destruct SP as [S3 [A3 [B3 [C3 [D3 R3]]]]].
  assert (V3 : V s3) by (vs remove_empty_cols).
  assert (M3 : mono s s3) by (eapply mono_trans; [exact M2|apply S3]).
  exists s3, st3.
  assert (COM : V s3 /\ Inv s3 /\ mono s s3 /\ w_sub s3 = [] /\ (w_rows s = [] -> pend1 s3)).
  { split; auto. split; [apply S3|]. split; auto. split; [congruence|].
    intros W. apply pend1_nil. rewrite A3, A2. auto. }
  destruct R3 as [->|[-> EC]]; cbn [N.eqb UNBNDORINFEAS UNCHANGED Pos.eqb]; (split; [reflexivity|]);
    unfold triv_res; (do 5 (split; [apply COM|])).
  - left; right; reflexivity.
  - right. split; auto. split; [congruence|]. split; [congruence|]. split; [congruence|].
    intros W. split; [rewrite A3, A2; auto|]. intros N. apply S3, S2, N1, N.
Qed.

Lemma triv_res_pre : forall s s1 s' st, mono s s1 -> (w_rows s = [] -> w_rows s1 = [] /\ (Nx s -> Nx s1)) ->
  triv_res s1 s' st -> triv_res s s' st.
Proof.
  intros s s1 s' st M R [A [B [C [D [E F]]]]]. unfold triv_res.
  do 2 (split; [auto; fail|]). split; [eapply mono_trans; eauto|]. split; auto.
  split; [intros W; apply E, R, W|].
  destruct F as [F|[F1 [F2 [F3 [F4 F5]]]]]; [auto|]. right. do 4 (split; [auto; fail|]).
  intros W. destruct (R W) as [R1 R2]. destruct (F5 R1). auto.
Qed.

Lemma run_trivial_spec : forall s, Inv s -> w_sub s = [] -> V s ->
  exists s' st, run_trivial ex stgs fuel0 s = Some (s', st) /\ triv_res s s' st.
Proof.
  intros s H WS Vs. unfold run_trivial.
  change (x_close_bounds ex s) with (remove_variables_with_close_bounds s).
  pose proof (close_bounds_spec s H WS) as SP.
  destruct (remove_variables_with_close_bounds s) as [s1 st1] eqn:E1.
  assert (V1 : V s1) by (vs remove_variables_with_close_bounds).
  destruct SP as [I1 [M1 [W1 [R1 SP]]]].
  destruct SP as [->|[-> [F1 N1]]].
  { rewrite N.eqb_refl. exists s1, INFEASIBLE. split; [reflexivity|]. unfold triv_res.
    do 4 (split; [auto; fail|]). split; [intros; apply pend1_nil; congruence|].
    left; left; reflexivity. }
  cbn [N.eqb UNCHANGED INFEASIBLE].
  assert (R01 : w_rows s = [] -> w_rows s1 = [] /\ (Nx s -> Nx s1)) by (intros W; split; auto; congruence).
  destruct (dual_fix_on stgs).
  2:{ destruct (trivial_tail_spec s1 I1 W1 F1 V1) as [s' [st [E T]]].
      exists s', st. split; auto. eapply triv_res_pre; eauto. }
  change (x_empty_cols ex s1) with (remove_empty_cols s1).
  pose proof (empty_cols_spec s1 I1) as SP.
  destruct (remove_empty_cols s1) as [s2 st2] eqn:E2.
  destruct SP as [S2 [A2 [B2 [C2 [D2 R2]]]]].
  assert (V2 : V s2) by (vs remove_empty_cols).
  change (x_dual_fix ex s2) with (simple_dual_fix s2).
  pose proof (dual_fix_spec s2 (st_inv _ _ S2)) as SP.
  pose proof (rng_dual_fix s2) as R3.
  destruct (simple_dual_fix s2) as [s3 st3] eqn:E3. cbn [snd] in R3.
  destruct SP as [I3 [M3 [Q3 N3]]]; [congruence|].
  assert (V3 : V s3) by (vs simple_dual_fix).
  assert (M03 : mono s s3).
  { eapply mono_trans; [exact M1|]. eapply mono_trans; [apply S2|exact M3]. }
  destruct (N.eqb _ UNBNDORINFEAS).
  { exists s3, UNBNDORINFEAS. split; [reflexivity|]. unfold triv_res.
    do 3 (split; [auto; fail|]). split; [apply Q3|]. split; [intros; apply pend1_nil, Q3|].
    left; right; reflexivity. }
  destruct (trivial_tail_spec s3 I3 (q_sub _ Q3) (q_fixed _ Q3) V3) as [s' [st [E T]]].
  exists s', st. split; auto. eapply triv_res_pre; [exact M03| |exact T].
  intros W. split; [apply Q3|]. intros N. apply N3, S2. apply R01; auto.
Qed.

(** A run of run_trivial from a state whose ghost flag is set *)
Definition esc (r : option (state * status)) : Prop :=
  match r with None => exists t, V t /\ tiny t = true | Some (s', _) => V s' /\ tiny s' = true end.

Lemma ston_loop_esc : forall f s, V s -> tiny s = true -> esc (ston_loop ex f s).
Proof.
  induction f as [|f IH]; intros s Vs T; cbn [ston_loop].
  - exists s; auto.
  - change (x_ston_rows ex s) with (remove_ston_rows s).
    pose proof (tn_ston_rows s T) as T1. destruct (remove_ston_rows s) as [s1 st] eqn:E. cbn [fst] in T1.
    assert (V1 : V s1) by (vs remove_ston_rows).
    destruct (N.eqb st INFEASIBLE); [split; auto|]. destruct (N.eqb st REDUCED); [auto|split; auto].
Qed.
Lemma trivial_tail_esc : forall s, V s -> tiny s = true -> esc (trivial_tail ex fuel0 s).
Proof.
  intros s Vs T. unfold trivial_tail. pose proof (ston_loop_esc (fuel0 s) s Vs T) as X.
  destruct (ston_loop ex (fuel0 s) s) as [[s1 st1]|]; [|exact X]. destruct X as [V1 T1].
  destruct (N.eqb st1 INFEASIBLE); [split; auto|].
  change (x_empty_rows ex s1) with (remove_empty_rows s1).
  pose proof (tn_empty_rows s1 T1) as T2. destruct (remove_empty_rows s1) as [s2 st2] eqn:E2. cbn [fst] in T2.
  assert (V2 : V s2) by (vs remove_empty_rows).
  destruct (N.eqb st2 INFEASIBLE); [split; auto|].
  change (x_empty_cols ex s2) with (remove_empty_cols s2).
  pose proof (tn_empty_cols s2 T2) as T3. destruct (remove_empty_cols s2) as [s3 st3] eqn:E3. cbn [fst] in T3.
  assert (V3 : V s3) by (vs remove_empty_cols).
  destruct (N.eqb st3 UNBNDORINFEAS); split; auto.
Qed.
Lemma run_trivial_esc : forall s, V s -> tiny s = true -> esc (run_trivial ex stgs fuel0 s).
Proof.
  intros s Vs T. unfold run_trivial.
  change (x_close_bounds ex s) with (remove_variables_with_close_bounds s).
  pose proof (tn_close_bounds s T) as T1.
  destruct (remove_variables_with_close_bounds s) as [s1 st1] eqn:E1. cbn [fst] in T1.
  assert (V1 : V s1) by (vs remove_variables_with_close_bounds).
  destruct (N.eqb st1 INFEASIBLE); [split; auto|].
  destruct (dual_fix_on stgs); [|apply trivial_tail_esc; auto].
  change (x_empty_cols ex s1) with (remove_empty_cols s1).
  pose proof (tn_empty_cols s1 T1) as T2. destruct (remove_empty_cols s1) as [s2 st2] eqn:E2. cbn [fst] in T2.
  assert (V2 : V s2) by (vs remove_empty_cols).
  change (x_dual_fix ex s2) with (simple_dual_fix s2).
  pose proof (tn_dual_fix s2 T2) as T3. destruct (simple_dual_fix s2) as [s3 st3] eqn:E3. cbn [fst] in T3.
  assert (V3 : V s3) by (vs simple_dual_fix).
  destruct (N.eqb _ UNBNDORINFEAS); [split; auto|apply trivial_tail_esc; auto].
Qed.

(** What a phase does to a clean state *)
Record Ok (s : state) : Prop := { ok_inv : Inv s; ok_quiet : quiet s; ok_nx : Nx s }.
Definition phase_res (s : state) (r : option (state * status)) : Prop :=
  match r with
  | None => exists t, V t /\ tiny t = true
  | Some (s', st) => V s' /\ (tiny s' = true \/
      (Inv s' /\ mono s s' /\ (trouble st \/ st = UNCHANGED /\ Ok s')))
  end.

Lemma trouble_lor : forall a b, In a [UNCHANGED; INFEASIBLE; UNBNDORINFEAS] ->
  In b [UNCHANGED; INFEASIBLE; UNBNDORINFEAS] -> trouble a \/ trouble b -> trouble (N.lor a b).
Proof.
  intros a b A B H. unfold trouble in *. in_cases A; in_cases B; subst; cbn in *;
    destruct H as [[H|H]|[H|H]]; try discriminate; auto.
Qed.
Lemma triv_range : forall s s' st, triv_res s s' st -> In st [UNCHANGED; INFEASIBLE; UNBNDORINFEAS].
Proof. intros s s' st [_ [_ [_ [_ [_ [[->| ->]|[-> _]]]]]]]; cbn; auto. Qed.

Lemma run_fast_spec : forall s, Ok s -> w_empty_rows s = [] -> V s -> phase_res s (run_fast ex stgs fuel0 s).
Proof.
  intros s [H Q N] WE Vs. unfold run_fast.
  set (first := if ston_cols_on stgs then _ else _).
  assert (F : exists s2 st2, first = Some (s2, st2) /\ V s2 /\ Inv s2 /\ mono s s2 /\ w_sub s2 = [] /\
              pend1 s2 /\ (trouble st2 \/ st2 = UNCHANGED /\ Ok s2)).
  { subst first. destruct (ston_cols_on stgs).
    - change (x_ston_cols ex s) with (remove_ston_cols s).
      pose proof (ston_cols_spec s H Q) as SP. destruct (remove_ston_cols s) as [s1 st1] eqn:E1.
      assert (V1 : V s1) by (vs remove_ston_cols).
      destruct SP as [S1 [Q1 R1]].
      destruct (run_trivial_spec s1 (st_inv _ _ S1) (q_sub _ Q1) V1) as [s2 [st2 [-> T]]].
      pose proof (triv_range _ _ _ T) as RG2.
      destruct T as [V2 [I2 [M2 [W2 [P2 R2]]]]].
      exists s2, (N.lor st1 st2). split; [reflexivity|]. do 2 (split; [auto; fail|]).
      split; [eapply mono_trans; [apply S1|exact M2]|]. split; auto. split; [apply P2, Q1|].
      assert (RG1 : In st1 [UNCHANGED; INFEASIBLE; UNBNDORINFEAS]) by (destruct R1 as [->| ->]; cbn; auto).
      destruct R1 as [->| ->].
      + destruct R2 as [R2|[-> [F2 [SR2 [ER2 NW]]]]].
        * left. apply trouble_lor; auto.
        * right. split; [reflexivity|]. destruct (NW (q_rows _ Q1)) as [RR NN].
          constructor; auto; [constructor; auto|]. apply NN, S1, N.
      + left. apply trouble_lor; auto. left; right; reflexivity.
    - exists s, UNCHANGED. split; [reflexivity|]. do 2 (split; [auto; fail|]).
      split; [apply mono_refl|]. split; [apply Q|]. split; [apply pend1_nil, Q|].
      right; split; auto. constructor; auto. }
  destruct F as [s2 [st2 [-> [V2 [I2 [M2 [W2 [P2 R2]]]]]]]].
  destruct (dton_eq_on stgs) eqn:DT.
  2:{ split; auto. }
  change (x_dton_eq ex s2) with (remove_dton_eq_rows fits s2).
  pose proof (dton_spec fits s2 I2 W2 P2) as SP.
  destruct (remove_dton_eq_rows fits s2) as [s3 st3] eqn:E3.
  assert (V3 : V s3) by (vsd DT).
  destruct SP as [-> SP]. destruct (tiny s3) eqn:T3.
  { pose proof (run_trivial_esc s3 V3 T3) as X.
    destruct (run_trivial ex stgs fuel0 s3) as [[s4 st4]|]; [|exact X].
    destruct X as [V4 T4]. split; auto. }
  destruct (SP eq_refl) as [I3 [M3 [W3 [R3 [F3 N3]]]]].
  destruct (run_trivial_spec s3 I3 W3 V3) as [s4 [st4 [-> T]]].
  pose proof (triv_range _ _ _ T) as RG4.
  destruct T as [V4 [I4 [M4 [W4 [P4 R4]]]]].
  split; auto. right. split; auto.
  split; [eapply mono_trans; [exact M2|]; eapply mono_trans; eauto|].
  rewrite N.lor_0_r.
  destruct R2 as [R2|[-> O2]].
  - left. apply trouble_lor; auto. destruct R2 as [->| ->]; cbn; auto.
  - destruct R4 as [R4|[-> [F4 [SR4 [ER4 NW]]]]]; [left; apply trouble_lor; cbn; auto|].
    right. split; auto. destruct O2 as [_ Q2 N2].
    destruct NW as [RR NN]; [rewrite R3; apply Q2|].
    constructor; auto; [constructor; auto|]. apply NN, N3; auto. apply Q2.
Qed.

Lemma run_medium_spec : forall s, Ok s -> w_ston_rows s = [] -> w_empty_rows s = [] -> V s ->
  phase_res s (run_medium ex stgs fuel0 s).
Proof.
  intros s [H Q N] WSR WE Vs. unfold run_medium.
  set (first := if primal_propagation_on stgs then _ else _).
  assert (F : exists s3 st3, first = Some (s3, st3) /\ V s3 /\ Inv s3 /\ mono s s3 /\
              (trouble st3 \/ st3 = UNCHANGED /\ Ok s3 /\ w_ston_rows s3 = [] /\ w_empty_rows s3 = [])).
  { subst first. destruct (primal_propagation_on stgs).
    - change (x_check_acts ex s) with (check_activities s).
      pose proof (check_activities_spec s H) as SP. destruct (check_activities s) as [s1 st1] eqn:E1.
      assert (V1 : V s1) by (vs check_activities).
      destruct SP as [S1 [FR1 R1]].
      assert (W1 : w_sub s1 = []) by (destruct FR1 as [FA [FB FC]]; destruct Q; congruence).
      change (x_propagate ex s1) with (propagate_primal (finite_bound_tightening_on stgs) s1).
      pose proof (propagate_spec (finite_bound_tightening_on stgs) s1 (st_inv _ _ S1) W1) as SP.
      destruct (propagate_primal _ s1) as [s2 st2] eqn:E2.
      assert (V2 : V s2) by (vs (propagate_primal (finite_bound_tightening_on stgs))).
      destruct SP as [I2 [M2 [W2 [RW2 R2]]]].
      destruct (run_trivial_spec s2 I2 W2 V2) as [s3 [st3 [-> T]]].
      pose proof (triv_range _ _ _ T) as RG3.
      destruct T as [V3 [I3 [M3 [W3 [P3 R3]]]]].
      exists s3, (N.lor (N.lor st1 st2) st3). split; [reflexivity|]. do 2 (split; [auto; fail|]).
      split. { eapply mono_trans; [apply S1|]. eapply mono_trans; eauto. }
      assert (RG1 : In st1 [UNCHANGED; INFEASIBLE; UNBNDORINFEAS]) by (destruct R1 as [->|[-> _]]; cbn; auto).
      assert (RG2 : In st2 [UNCHANGED; INFEASIBLE; UNBNDORINFEAS]) by (destruct R2 as [->|[-> _]]; cbn; auto).
      assert (RG12 : In (N.lor st1 st2) [UNCHANGED; INFEASIBLE; UNBNDORINFEAS]).
      { in_cases RG1; in_cases RG2; subst; cbn; auto. }
      destruct R1 as [->|[-> RW1]].
      { left. apply trouble_lor; auto. left. apply trouble_lor; auto. left; left; reflexivity. }
      destruct R2 as [->|[-> [F2 N2]]].
      { left. apply trouble_lor; auto. left. apply trouble_lor; auto. right; left; reflexivity. }
      destruct R3 as [R3|[-> [F3 [SR3 [ER3 NW]]]]].
      { left. apply trouble_lor; auto. }
      right. split; [reflexivity|]. split; auto.
      destruct NW as [RR NN]; [congruence|].
      constructor; auto; [constructor; auto|]. apply NN, N2; auto. apply S1, N.
    - exists s, UNCHANGED. split; [reflexivity|]. do 2 (split; [auto; fail|]).
      split; [apply mono_refl|]. right. split; auto. split; auto. constructor; auto. }
  destruct F as [s3 [st3 [-> [V3 [I3 [M3 R3]]]]]].
  destruct R3 as [R3|[-> [O3 [SR3 ER3]]]].
  { replace (negb (N.eqb st3 UNCHANGED)) with true by (destruct R3 as [->| ->]; reflexivity).
    split; auto. }
  cbn [N.eqb UNCHANGED negb]. destruct O3 as [_ Q3 N3].
  set (pr := if parallel_rows_on stgs then _ else _).
  assert (P : V (fst pr) /\ stp s3 (fst pr) /\ quiet (fst pr) /\ w_ston_rows (fst pr) = [] /\
              (snd pr = UNCHANGED \/ snd pr = INFEASIBLE)).
  { subst pr. destruct (parallel_rows_on stgs).
    - change (x_par_rows ex s3) with (remove_parallel_rows s3).
      pose proof (par_rows_spec s3 I3 N3 Q3 ER3) as SP.
      destruct (remove_parallel_rows s3) as [s4 st4] eqn:E4.
      assert (V4 : V s4) by (vs remove_parallel_rows).
      destruct SP as [S4 [Q4 [A4 R4]]]. cbn [fst snd]. rewrite A4. auto 10.
    - cbn [fst snd]. auto 10 using stp_refl. }
  destruct pr as [s4 st4]. cbn [fst snd] in P. destruct P as [V4 [S4 [Q4 [SR4 R4]]]].
  assert (M4 : mono s s4) by (eapply mono_trans; [exact M3|apply S4]).
  destruct R4 as [->| ->]; cbn [N.eqb INFEASIBLE UNCHANGED negb].
  2:{ split; auto. right. split; [apply S4|]. split; auto. left; left; reflexivity. }
  destruct (parallel_cols_on stgs).
  2:{ split; auto. right. split; [apply S4|]. split; auto. right. split; auto.
      constructor; [apply S4|auto|apply S4, N3]. }
  change (x_par_cols ex s4) with (remove_parallel_cols s4).
  pose proof (par_cols_spec s4 (st_inv _ _ S4) (q_rows _ Q4) SR4) as SP.
  destruct (remove_parallel_cols s4) as [s5 st5] eqn:E5.
  assert (V5 : V s5) by (vs remove_parallel_cols).
  destruct SP as [S5 [Q5 R5]].
  destruct (run_trivial_spec s5 (st_inv _ _ S5) (q_sub _ Q5) V5) as [s6 [st6 [-> T]]].
  pose proof (triv_range _ _ _ T) as RG6.
  destruct T as [V6 [I6 [M6 [W6 [P6 R6]]]]].
  split; auto. right. split; auto.
  split. { eapply mono_trans; [exact M4|]. eapply mono_trans; [apply S5|exact M6]. }
  destruct R5 as [->| ->].
  - destruct R6 as [R6|[-> [F6 [SR6 [ER6 NW]]]]]; [left; apply trouble_lor; cbn; auto|].
    right. split; auto. destruct (NW (q_rows _ Q5)) as [RR NN].
    constructor; auto; [constructor; auto|]. apply NN, S5, S4, N3.
  - left. apply trouble_lor; cbn; auto. left; right; reflexivity.
Qed.

Ltac es f TN s' st := match goal with |- context [f ?s] => let T := fresh "T" in let E := fresh "E" in
  let V' := fresh "V" in
  assert (T : tiny (fst (f s)) = true) by (apply TN; assumption);
  destruct (f s) as [s' st] eqn:E; cbn [fst] in T; assert (V' : V s') by (vs f) end.

Lemma run_fast_esc : forall s, V s -> tiny s = true -> esc (run_fast ex stgs fuel0 s).
Proof.
  intros s Vs T. unfold run_fast. set (first := if ston_cols_on stgs then _ else _).
  assert (F : esc first).
  { subst first. destruct (ston_cols_on stgs); [|split; auto].
    change (x_ston_cols ex s) with (remove_ston_cols s). es remove_ston_cols tn_ston_cols s1 st1.
    pose proof (run_trivial_esc s1 V0 T0) as X. destruct (run_trivial ex stgs fuel0 s1) as [[s2 st2]|]; exact X. }
  destruct first as [[s2 st2]|]; [|exact F]. destruct F as [V2 T2].
  destruct (dton_eq_on stgs) eqn:DT; [|split; auto].
  change (x_dton_eq ex s2) with (remove_dton_eq_rows fits s2).
  pose proof (tn_dton fits s2 T2) as T0. destruct (remove_dton_eq_rows fits s2) as [s3 st3] eqn:E3.
  cbn [fst] in T0. assert (V0 : V s3) by (vsd DT).
  pose proof (run_trivial_esc s3 V0 T0) as X. destruct (run_trivial ex stgs fuel0 s3) as [[s4 st4]|]; exact X.
Qed.
Lemma run_medium_esc : forall s, V s -> tiny s = true -> esc (run_medium ex stgs fuel0 s).
Proof.
  intros s Vs T. unfold run_medium. set (first := if primal_propagation_on stgs then _ else _).
  assert (F : esc first).
  { subst first. destruct (primal_propagation_on stgs); [|split; auto].
    change (x_check_acts ex s) with (check_activities s). es check_activities tn_check_acts s1 st1.
    change (x_propagate ex s1) with (propagate_primal (finite_bound_tightening_on stgs) s1).
    es (propagate_primal (finite_bound_tightening_on stgs)) tn_prop s2 st2.
    pose proof (run_trivial_esc s2 V1 T1) as X. destruct (run_trivial ex stgs fuel0 s2) as [[s3 st3]|]; exact X. }
  destruct first as [[s3 st3]|]; [|exact F]. destruct F as [V3 T3].
  destruct (negb _); [split; auto|].
  set (pr := if parallel_rows_on stgs then _ else _).
  assert (P : V (fst pr) /\ tiny (fst pr) = true).
  { subst pr. destruct (parallel_rows_on stgs); [|auto].
    change (x_par_rows ex s3) with (remove_parallel_rows s3).
    es remove_parallel_rows tn_par_rows s4 st4. auto. }
  destruct pr as [s4 st4]. cbn [fst] in P. destruct P as [V4 T4].
  destruct (negb _); [split; auto|].
  destruct (parallel_cols_on stgs); [|split; auto].
  change (x_par_cols ex s4) with (remove_parallel_cols s4).
  es remove_parallel_cols tn_par_cols s5 st5.
  pose proof (run_trivial_esc s5 V0 T0) as X. destruct (run_trivial ex stgs fuel0 s5) as [[s6 st6]|]; exact X.
Qed.

Definition loop_res (s : state) (r : option (state * status * nat)) : Prop :=
  match r with
  | None => exists t, V t /\ tiny t = true
  | Some (s', st, k) => V s' /\ (tiny s' = true \/
      (Inv s' /\ mono s s' /\ (trouble st \/ st = UNCHANGED /\ Ok s')))
  end.

Lemma main_loop_esc : forall clock f it cx b a s, V s -> tiny s = true ->
  loop_res s (main_loop ex stgs fuel0 clock f it cx b a s).
Proof.
  induction f as [|f IH]; intros it cx b a s Vs T; cbn [main_loop]; [exists s; auto|].
  pose proof (run_trivial_esc s Vs T) as X.
  destruct (run_trivial ex stgs fuel0 s) as [[s1 st1]|]; [|exact X]. destruct X as [V1 T1].
  destruct (negb _); [split; auto|].
  assert (X : esc (match cx with FAST => run_fast ex stgs fuel0 s1 | MEDIUM => run_medium ex stgs fuel0 s1 end)).
  { destruct cx; [apply run_fast_esc|apply run_medium_esc]; auto. }
  destruct (match cx with FAST => _ | MEDIUM => _ end) as [[s2 st2]|]; [|exact X].
  destruct X as [V2 T2]. cbv zeta. destruct (update_termination _ _ _ _ _); [split; auto|].
  match goal with |- loop_res s (main_loop ex stgs fuel0 clock f ?i ?c ?x ?y s2) =>
    specialize (IH i c x y s2 V2 T2); destruct (main_loop ex stgs fuel0 clock f i c x y s2) as [[[s3 st3] k3]|] end;
    [|exact IH].
  destruct IH as [V3 [T3|IH]]; split; auto. left.
  destruct IH as [_ [M _]]. apply (mo_tiny _ _ M). assumption.
Qed.

Lemma nnz_mono : forall s s', mono s s' -> Z.to_nat (nnz s') <= Z.to_nat (nnz s).
Proof. intros s s' M. pose proof (mo_nnz _ _ M). lia. Qed.

Lemma main_loop_spec : forall clock f it cx b a s, V s -> Ok s ->
  potential cx (x_nnz ex s) b <= f ->
  loop_res s (main_loop ex stgs fuel0 clock f it cx b a s).
Proof.
  induction f as [|f IH]; intros it cx b a s Vs [Hi Hq Hn] HF.
  { destruct cx; cbn in HF; lia. }
  cbn [main_loop].
  destruct (run_trivial_spec s Hi (q_sub _ Hq) Vs) as [s1 [st1 [-> T]]].
  destruct T as [V1 [I1 [M1 [W1 [P1 R1]]]]].
  destruct R1 as [R1|[-> [F1 [SR1 [ER1 NW]]]]].
  { replace (negb (N.eqb st1 UNCHANGED)) with true by (destruct R1 as [->| ->]; reflexivity).
    split; auto. }
  cbn [N.eqb UNCHANGED negb]. destruct (NW (q_rows _ Hq)) as [RR NN].
  assert (O1 : Ok s1) by (constructor; auto; constructor; auto).
  assert (X : phase_res s1 (match cx with FAST => run_fast ex stgs fuel0 s1 | MEDIUM => run_medium ex stgs fuel0 s1 end)).
  { destruct cx; [apply run_fast_spec|apply run_medium_spec]; auto. }
  destruct (match cx with FAST => _ | MEDIUM => _ end) as [[s2 st2]|]; [|exact X].
  destruct X as [V2 X]. cbv zeta.
  set (ac := if is_medium cx then x_nnz ex s2 else a).
  destruct (update_termination ac b cx st2 (clock it)) eqn:U.
  { split; auto. destruct X as [X|[I2 [M2 R2]]]; auto. right.
    split; auto. split; auto. eapply mono_trans; eauto. }
  destruct X as [T2|[I2 [M2 R2]]].
  { match goal with |- loop_res s (main_loop ex stgs fuel0 clock f ?i ?c ?x ?y s2) =>
      pose proof (main_loop_esc clock f i c x y s2 V2 T2) as Y;
      destruct (main_loop ex stgs fuel0 clock f i c x y s2) as [[[s3 st3] k3]|] end; [|exact Y].
    destruct Y as [V3 [T3|Y]]; split; auto. left.
    destruct Y as [_ [M _]]. apply (mo_tiny _ _ M). assumption. }
  assert (B2 : L_Driver.bad st2 = false).
  { unfold update_termination in U. unfold L_Driver.bad. destruct (HAS_STATUS st2 UNBNDORINFEAS); [discriminate|reflexivity]. }
  destruct R2 as [[->| ->]|[-> O2]]; try discriminate B2.
  set (cx' := update_complexity cx (x_nnz ex s1) (x_nnz ex s2)).
  set (bc := if is_medium cx then ac else b).
  assert (N1 : x_nnz ex s1 <= x_nnz ex s) by (apply nnz_mono; auto).
  assert (N2 : x_nnz ex s2 <= x_nnz ex s1) by (apply nnz_mono; auto).
  assert (PO : potential cx' (x_nnz ex s2) bc + 1 <= potential cx (x_nnz ex s) b).
  { subst cx' bc ac. unfold update_termination in U. cbn [HAS_STATUS N.land UNCHANGED N.eqb negb] in U.
    destruct cx; cbn [is_medium andb update_complexity] in *.
    - destruct (ge95 (x_nnz ex s2) (x_nnz ex s1)) eqn:GE; cbn [negb potential].
      + lia.
      + apply ge95_false in GE. lia.
    - destruct (ge95 (x_nnz ex s2) b) eqn:GE; [discriminate|].
      apply ge95_false in GE. cbn [potential]. lia. }
  pose proof (IH (Datatypes.S it) cx' bc ac s2 V2 O2 ltac:(lia)) as Y.
  destruct (main_loop ex stgs fuel0 clock f _ cx' bc ac s2) as [[[s3 st3] k3]|]; [|exact Y].
  destruct Y as [V3 [T3|[I3 [M3 R3]]]]; split; auto. right. split; auto. split; auto.
  eapply mono_trans; [exact M1|]. eapply mono_trans; eauto.
Qed.
End Run.

Lemma main_loop_phases : forall S (ex : explorers S) stgs fuel0 clock f it cx b a s s' st k,
  main_loop ex stgs fuel0 clock f it cx b a s = Some (s', st, k) -> k <= it + f.
Proof.
  induction f as [|f IH]; intros it cx b a s s' st k; cbn [main_loop]; [discriminate|].
  destruct (run_trivial ex stgs fuel0 s) as [[s1 st1]|]; [|discriminate].
  destruct (negb _); [intros E; injection E; intros; lia|].
  destruct (match cx with FAST => _ | MEDIUM => _ end) as [[s2 st2]|]; [|discriminate].
  cbv zeta. destruct (update_termination _ _ _ _ _); [intros E; injection E; intros; lia|].
  intros E. apply IH in E. lia.
Qed.
