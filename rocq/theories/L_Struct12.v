(** Whole runs. *)
From Coq Require Import NArith.
From Verif Require Import M_Num S_LP M_Settings M_Driver S_Driver M_State M_Act M_Core M_Simple
  M_StonCols M_Dton M_Parallel M_Propagate M_Init M_Post M_Run S_Run S_Struct
  L_State L_Struct L_Struct2 L_Struct3 L_Struct4 L_Struct5 L_Struct8 L_Tiny L_Struct11 L_Init L_Driver L_Run.
From Verif Require L_NoTiny.
Import M_Driver.
Notation bad := M_State.bad.
Open Scope nat_scope.

Lemma Ok_consistent : forall s, Ok s -> consistent s.
Proof.
  intros s [H Q N].
  assert (RA : forall i, i < nr s -> rsz s i <> (-1)%Z -> t_inact (rt s i) = false).
  { intros i Hi R. destruct (t_inact (rt s i)) eqn:T; auto. exfalso.
    assert (X : In i (w_rows s)) by (apply (l_rows s (inv_L s H)); auto).
    rewrite (q_rows _ Q) in X. contradiction. }
  assert (CA : forall k, k < nc s -> csz s k <> (-1)%Z -> t_cinact (ct s k) = false).
  { intros k Hk R. destruct (t_cinact (ct s k)) eqn:T; auto. exfalso.
    destruct (l_pend s (inv_L s H) k Hk T R) as [X|X]; [rewrite (q_fixed _ Q) in X|rewrite (q_sub _ Q) in X]; contradiction. }
  assert (RR : forall i k a, i < nr s -> In (k, a) (mA s i) -> k < nc s /\ csz s k <> (-1)%Z /\ ~ a == 0).
  { intros i k a Hi Hin. destruct (w_rin s (inv_0 s H) i k a Hi Hin). split; auto. split; auto.
    destruct (Z.eq_dec (rsz s i) (-1)) as [E|E].
    - rewrite (nx_dead s N i Hi E) in Hin. contradiction.
    - eapply (inv_R s H); eauto. }
  assert (CC : forall i k a, k < nc s -> In (i, a) (mAT s k) -> i < nr s /\ rsz s i <> (-1)%Z /\ ~ a == 0).
  { intros i k a Hk Hin. destruct (w_cin s (inv_0 s H) i k a Hk Hin). split; auto. split; auto.
    destruct (Z.eq_dec (csz s k) (-1)) as [E|E].
    - destruct (w_cdead s (inv_0 s H) k Hk E) as [_ E2]. rewrite E2 in Hin. contradiction.
    - eapply (inv_C s H); eauto. }
  constructor; auto.
  - intros i Hi. apply srt_sorted. apply (w_rsrt s (inv_0 s H)); auto.
  - intros i Hi. apply srt_sorted. apply (w_csrt s (inv_0 s H)); auto.
  - intros i k a Hi Hk. split; intros Hin.
    + destruct (RR i k a Hi Hin) as [_ [C _]].
      assert (R : rsz s i <> (-1)%Z).
      { intros E. rewrite (nx_dead s N i Hi E) in Hin. contradiction. }
      apply (w_agree s (inv_0 s H) i k a Hi Hk R C); auto.
    + destruct (CC i k a Hk Hin) as [_ [R _]].
      assert (C : csz s k <> (-1)%Z).
      { intros E. destruct (w_cdead s (inv_0 s H) k Hk E) as [_ E2]. rewrite E2 in Hin. contradiction. }
      apply (w_agree s (inv_0 s H) i k a Hi Hk R C); auto.
  - apply (nx_row s N).
  - intros k Hk C. apply tight_csz; auto; apply H.
  - apply (nx_dead s N).
  - intros k Hk C. apply (w_cdead s (inv_0 s H) k Hk C).
  - rewrite total_zsum. apply (nx_sum s N).
Qed.

Lemma run_cases : forall stgs fits clock P fu, wf_input P ->
  3 * Z.to_nat (total_len (in_m P) (in_A P)) + 3 <= fu ->
  match run_presolver stgs fits clock fu P with
  | None => exists t, visited stgs fits (new_presolver P) t /\ tiny t = true
  | Some r =>
      res_phases r <= fu /\
      (tiny (res_state r) = true ->
         exists t, visited stgs fits (new_presolver P) t /\ tiny t = true) /\
      (tiny (res_state r) = false ->
         Inv (res_state r) /\ mono (new_presolver P) (res_state r) /\
         (res_reduced r = true -> Ok (res_state r)))
  end.
Proof.
  intros stgs fits clock P fu WF FU. destruct (new_presolver_Ok P WF) as [O [B [T [NR [NC [NZ MA]]]]]].
  unfold run_presolver, run_presolver_gen.
  set (ex := the_explorers stgs fits).
  pose proof (main_loop_spec stgs fits (new_presolver P) clock fu 0 FAST
    (x_nnz ex (new_presolver P)) (x_nnz ex (new_presolver P)) (new_presolver P)
    (v_start _ _ _) O) as X.
  pose proof (main_loop_phases _ ex stgs (fun s => S (S (nc s))) clock fu 0 FAST
    (x_nnz ex (new_presolver P)) (x_nnz ex (new_presolver P)) (new_presolver P)) as Y.
  assert (LE : potential FAST (x_nnz ex (new_presolver P)) (x_nnz ex (new_presolver P)) <= fu).
  { cbn [potential]. replace (x_nnz ex (new_presolver P)) with (Z.to_nat (total_len (in_m P) (in_A P))); [lia|].
    cbn [x_nnz ex the_explorers]. rewrite NZ. reflexivity. }
  specialize (X LE). fold ex in X.
  destruct (main_loop ex stgs _ clock fu 0 FAST _ _ _) as [[[s1 st] k]|]; [|exact X].
  specialize (Y _ _ _ eq_refl). destruct X as [V1 X].
  destruct (N.eqb_spec st UNCHANGED) as [->|NE]; cbn [negb].
  - cbn [res_phases res_state res_reduced].
    change (x_clean ex (if relax_bounds_on stgs then x_relax ex s1 else s1)) with
      (if relax_bounds_on stgs then remove_redundant_bounds s1 else s1).
    assert (SS : same_struct s1 (if relax_bounds_on stgs then remove_redundant_bounds s1 else s1)).
    { destruct (relax_bounds_on stgs); [apply relax_same|apply same_refl]. }
    set (s2 := if relax_bounds_on stgs then remove_redundant_bounds s1 else s1) in *. clearbody s2.
    split; [lia|]. rewrite (ss_tiny _ _ SS). split; [eauto|]. intros T2.
    destruct X as [X|[I1 [M1 R1]]]; [congruence|].
    destruct (stp_same s1 s2 I1 SS) as [I2 M2 N2].
    split; auto. split; [eapply mono_trans; eauto|]. intros _.
    destruct R1 as [[C|C]|[_ O1]]; try discriminate C. destruct O1 as [_ Q1 N1].
    constructor; auto. eapply quiet_same; eauto.
  - cbn [res_phases res_state res_reduced]. split; [lia|]. split; [eauto|]. intros T2.
    destruct X as [X|[I1 [M1 R1]]]; [congruence|]. split; auto. split; auto. discriminate.
Qed.

Lemma no_dton_no_tiny : forall stgs fits P, wf_input P -> dton_eq_on stgs = false ->
  no_tiny_fill stgs fits (new_presolver P).
Proof.
  intros stgs fits P WF D t V. induction V as [|f t Hf V IH].
  - destruct (new_presolver_Ok P WF) as [_ [_ [T _]]]. exact T.
  - unfold steps in Hf. rewrite D, app_nil_r in Hf. cbn [In] in Hf.
    repeat destruct Hf as [<-|Hf]; [..|contradiction].
    + apply L_NoTiny.tf_close_bounds; exact IH.
    + apply L_NoTiny.tf_empty_cols; exact IH.
    + apply L_NoTiny.tf_dual_fix; exact IH.
    + apply L_NoTiny.tf_ston_rows; exact IH.
    + apply L_NoTiny.tf_empty_rows; exact IH.
    + apply L_NoTiny.tf_ston_cols; exact IH.
    + apply L_NoTiny.tf_check_acts; exact IH.
    + apply L_NoTiny.tf_prop; exact IH.
    + apply L_NoTiny.tf_par_rows; exact IH.
    + apply L_NoTiny.tf_par_cols; exact IH.
Qed.

Definition fuel_of (P : input) : nat := 3 * Z.to_nat (total_len (in_m P) (in_A P)) + 3.

Lemma run_terminates : forall stgs fits clock P, wf_input P ->
  no_tiny_fill stgs fits (new_presolver P) ->
  exists r, run_presolver stgs fits clock (fuel_of P) P = Some r /\ res_phases r <= fuel_of P.
Proof.
  intros stgs fits clock P WF NT. pose proof (run_cases stgs fits clock P _ WF (le_n _)) as X.
  unfold fuel_of. destruct (run_presolver _ _ _ _ _) as [r|].
  - exists r. split; auto. apply X.
  - destruct X as [t [V T]]. rewrite (NT t V) in T. discriminate.
Qed.

(** more fuel does not change the result *)
Lemma main_loop_more : forall S (ex : explorers S) stgs fu clock f it cx b a s x,
  main_loop ex stgs fu clock f it cx b a s = Some x ->
  forall g, f <= g -> main_loop ex stgs fu clock g it cx b a s = Some x.
Proof.
  induction f as [|f IH]; intros it cx b a s x H g L; [discriminate|].
  destruct g as [|g]; [lia|]. cbn [main_loop] in *.
  destruct (run_trivial ex stgs fu s) as [[s1 st1]|]; [|discriminate].
  destruct (negb _); auto.
  destruct (match cx with FAST => _ | MEDIUM => _ end) as [[s2 st2]|]; [|discriminate].
  cbv zeta in *. destruct (update_termination _ _ _ _ _); auto. apply IH; auto. lia.
Qed.
Lemma run_more : forall stgs fits clock P f r, run_presolver stgs fits clock f P = Some r ->
  forall g, f <= g -> run_presolver stgs fits clock g P = Some r.
Proof.
  intros stgs fits clock P f r H g L. unfold run_presolver, run_presolver_gen in *.
  destruct (main_loop _ _ _ _ f _ _ _ _ _) as [[[s1 st] k]|] eqn:E; [|discriminate].
  rewrite (main_loop_more _ _ _ _ _ _ _ _ _ _ _ _ E g L). assumption.
Qed.

Lemma run_structure : forall stgs fits clock P f r, wf_input P ->
  run_presolver stgs fits clock f P = Some r -> tiny (res_state r) = false ->
  bad (res_state r) = false /\
  (nnz (res_state r) <= total_len (in_m P) (in_A P))%Z /\
  nr (res_state r) = in_m P /\ nc (res_state r) = in_n P /\
  (forall i, i < in_m P -> length (mA (res_state r) i) <= length (in_A P i)) /\
  (res_reduced r = true -> consistent (res_state r)).
Proof.
  intros stgs fits clock P f r WF H T.
  pose proof (run_more _ _ _ _ _ _ H (f + fuel_of P) ltac:(lia)) as E.
  pose proof (run_cases stgs fits clock P (f + fuel_of P) WF ltac:(unfold fuel_of; lia)) as X.
  rewrite E in X. destruct X as [_ [_ X2]].
  destruct (X2 T) as [I [M R]].
  destruct (new_presolver_Ok P WF) as [O [B [T0 [NR [NC [NZ MA]]]]]].
  split; [|split; [|split; [|split; [|split]]]].
  - destruct (bad (res_state r)) eqn:E1; auto. destruct (mo_bad _ _ M E1); congruence.
  - rewrite <- NZ. apply (mo_nnz _ _ M).
  - rewrite (mo_nr _ _ M). auto.
  - rewrite (mo_nc _ _ M). auto.
  - intros i Hi. rewrite <- MA. apply (mo_len _ _ M). congruence.
  - intros RR. apply Ok_consistent; auto.
Qed.

Lemma run_nnz : forall stgs fits clock P fuel r, wf_input P ->
  run_presolver stgs fits clock fuel P = Some r -> tiny (res_state r) = false ->
  (nnz (res_state r) <= total_len (in_m P) (in_A P))%Z /\
  forall i, i < in_m P -> length (mA (res_state r) i) <= length (in_A P i).
Proof.
  intros stgs fits clock P fuel r WF H NT.
  destruct (run_structure stgs fits clock P fuel r WF H NT) as [_ [A [_ [_ [B _]]]]]. auto.
Qed.

Lemma run_tiny : forall stgs fits clock P fuel r, wf_input P ->
  run_presolver stgs fits clock fuel P = Some r ->
  no_tiny_fill stgs fits (new_presolver P) -> tiny (res_state r) = false.
Proof.
  intros stgs fits clock P f r WF H NT.
  pose proof (run_more _ _ _ _ _ _ H (f + fuel_of P) ltac:(lia)) as E.
  pose proof (run_cases stgs fits clock P (f + fuel_of P) WF ltac:(unfold fuel_of; lia)) as X.
  rewrite E in X. destruct X as [_ [X1 _]].
  destruct (tiny (res_state r)); auto. destruct (X1 eq_refl) as [t [V T]]. rewrite (NT t V) in T. discriminate.
Qed.
