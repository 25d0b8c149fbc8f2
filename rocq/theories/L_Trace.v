(** A run with its calls noted. *)
From Coq Require Import NArith.
From Verif Require Import M_Num S_LP M_Settings M_Driver S_Driver M_State M_Act M_Core M_Simple M_StonCols
  M_Dton M_Parallel M_Propagate M_Init M_Post M_Run S_Run S_Sem S_Trace L_Driver L_Run L_Struct11.
Import M_Driver.
Notation bad := M_State.bad.
Open Scope nat_scope.

Section Erase.
Variable ex : explorers state.
Variable stgs : settings.
Variable fuel0 : state -> nat.
Let oex := noted ex.
Let ofuel (t : state * list call) := fuel0 (fst t).

Definition er2 (r : option ((state * list call) * status)) : option (state * status) :=
  match r with None => None | Some (t, st) => Some (fst t, st) end.
Definition er3 (r : option ((state * list call) * status * nat)) : option (state * status * nat) :=
  match r with None => None | Some (t, st, k) => Some (fst t, st, k) end.
Definition er_result (r : run_result (state * list call)) : run_result state :=
  mkResult (fst (res_state r)) (res_status r) (res_reduced r) (res_phases r).

Lemma note_er k (f : state -> state * status) t :
  note k f t = ((fst (f (fst t)), snd t ++ [mkCall k (fst t) (fst (f (fst t))) (snd (f (fst t)))]), snd (f (fst t))).
Proof. unfold note. destruct (f (fst t)). reflexivity. Qed.

Lemma ston_loop_er f : forall t, ston_loop ex f (fst t) = er2 (ston_loop oex f t).
Proof.
  induction f as [|f IH]; intros t; [reflexivity|]. cbn [ston_loop].
  change (x_ston_rows oex) with (note StonRows (x_ston_rows ex)). rewrite note_er.
  destruct (x_ston_rows ex (fst t)) as [s1 st]. cbn [fst snd].
  destruct (N.eqb st INFEASIBLE); [reflexivity|]. destruct (N.eqb st REDUCED); [|reflexivity].
  rewrite <- IH. reflexivity.
Qed.

Lemma trivial_tail_er t : trivial_tail ex fuel0 (fst t) = er2 (trivial_tail oex ofuel t).
Proof.
  unfold trivial_tail. change (ofuel t) with (fuel0 (fst t)). rewrite ston_loop_er.
  destruct (ston_loop oex (fuel0 (fst t)) t) as [[t1 st1]|]; [|reflexivity]. cbn [er2].
  destruct (N.eqb st1 INFEASIBLE); [reflexivity|].
  change (x_empty_rows oex) with (note EmptyRows (x_empty_rows ex)).
  change (x_empty_cols oex) with (note EmptyCols (x_empty_cols ex)). rewrite note_er.
  destruct (x_empty_rows ex (fst t1)) as [s2 st2]. cbn [fst snd].
  destruct (N.eqb st2 INFEASIBLE); [reflexivity|]. rewrite note_er. cbn [fst snd].
  destruct (x_empty_cols ex s2) as [s3 st3]. cbn [fst snd].
  destruct (N.eqb st3 UNBNDORINFEAS); reflexivity.
Qed.

Lemma run_trivial_er t : run_trivial ex stgs fuel0 (fst t) = er2 (run_trivial oex stgs ofuel t).
Proof.
  unfold run_trivial.
  change (x_close_bounds oex) with (note CloseBounds (x_close_bounds ex)).
  change (x_empty_cols oex) with (note EmptyCols (x_empty_cols ex)).
  change (x_dual_fix oex) with (note DualFix (x_dual_fix ex)).
  rewrite note_er. destruct (x_close_bounds ex (fst t)) as [s1 st1]. cbn [fst snd].
  destruct (N.eqb st1 INFEASIBLE); [reflexivity|]. destruct (dual_fix_on stgs).
  - rewrite note_er. cbn [fst snd]. destruct (x_empty_cols ex s1) as [s2 st2]. cbn [fst snd].
    rewrite note_er. cbn [fst snd]. destruct (x_dual_fix ex s2) as [s3 st3]. cbn [fst snd].
    destruct (N.eqb _ UNBNDORINFEAS); [reflexivity|]. rewrite <- trivial_tail_er. reflexivity.
  - rewrite <- trivial_tail_er. reflexivity.
Qed.

Ltac triv := match goal with |- context [run_trivial oex stgs ofuel (?a, ?l)] =>
    pose proof (run_trivial_er (a, l)) as H; cbn [fst] in H; rewrite H;
    destruct (run_trivial oex stgs ofuel (a, l)) as [[? ?]|]; reflexivity end.
Lemma run_fast_er t : run_fast ex stgs fuel0 (fst t) = er2 (run_fast oex stgs ofuel t).
Proof.
  unfold run_fast.
  set (f1 := if ston_cols_on stgs then _ else Some (fst t, _)).
  set (f2 := if ston_cols_on stgs then _ else Some (t, _)).
  assert (E : f1 = er2 f2).
  { subst f1 f2. destruct (ston_cols_on stgs); [|reflexivity].
    change (x_ston_cols oex) with (note StonCols (x_ston_cols ex)). rewrite note_er.
    destruct (x_ston_cols ex (fst t)) as [s1 st1]; cbn [fst snd].
    triv. }
  rewrite E. destruct f2 as [[t2 st2]|]; [|reflexivity]. cbn [er2].
  destruct (dton_eq_on stgs); [|reflexivity].
  change (x_dton_eq oex) with (note DtonEq (x_dton_eq ex)). rewrite note_er.
  destruct (x_dton_eq ex (fst t2)) as [s3 st3]; cbn [fst snd].
  triv.
Qed.

Lemma run_medium_er t : run_medium ex stgs fuel0 (fst t) = er2 (run_medium oex stgs ofuel t).
Proof.
  unfold run_medium.
  set (f1 := if primal_propagation_on stgs then _ else Some (fst t, _)).
  set (f2 := if primal_propagation_on stgs then _ else Some (t, _)).
  assert (E : f1 = er2 f2).
  { subst f1 f2. destruct (primal_propagation_on stgs); [|reflexivity].
    change (x_check_acts oex) with (note CheckActs (x_check_acts ex)).
    change (x_propagate oex) with (note Propagate (x_propagate ex)). rewrite note_er.
    destruct (x_check_acts ex (fst t)) as [s1 st1]; cbn [fst snd]. rewrite note_er. cbn [fst snd].
    destruct (x_propagate ex s1) as [s2 st2]; cbn [fst snd].
    triv. }
  rewrite E. destruct f2 as [[t3 st]|]; [|reflexivity]. cbn [er2].
  destruct (negb (N.eqb st UNCHANGED)); [reflexivity|].
  change (x_par_rows oex) with (note ParRows (x_par_rows ex)).
  set (p1 := if parallel_rows_on stgs then _ else (fst t3, _)).
  set (p2 := if parallel_rows_on stgs then _ else (t3, _)).
  assert (P : p1 = (fst (fst p2), snd p2)).
  { subst p1 p2. destruct (parallel_rows_on stgs); [|reflexivity]. rewrite note_er.
    destruct (x_par_rows ex (fst t3)); reflexivity. }
  rewrite P. destruct p2 as [t4 st4]. cbn [fst snd].
  destruct (negb (N.eqb st4 UNCHANGED)); [reflexivity|].
  destruct (parallel_cols_on stgs); [|reflexivity].
  change (x_par_cols oex) with (note ParCols (x_par_cols ex)). rewrite note_er.
  destruct (x_par_cols ex (fst t4)) as [s5 st5]; cbn [fst snd].
  triv.
Qed.

Lemma main_loop_er clock f : forall it cx b a t,
  main_loop ex stgs fuel0 clock f it cx b a (fst t) = er3 (main_loop oex stgs ofuel clock f it cx b a t).
Proof.
  induction f as [|f IH]; intros it cx b a t; [reflexivity|]. cbn [main_loop].
  rewrite run_trivial_er. destruct (run_trivial oex stgs ofuel t) as [[t1 st1]|]; [|reflexivity]. cbn [er2].
  destruct (negb (N.eqb st1 UNCHANGED)); [reflexivity|].
  destruct cx; cbn [is_medium].
  - rewrite run_fast_er. destruct (run_fast oex stgs ofuel t1) as [[t2 st2]|]; [|reflexivity]. cbn [er2].
    destruct (update_termination _ _ _ _ _); [reflexivity|]. rewrite IH. reflexivity.
  - rewrite run_medium_er. destruct (run_medium oex stgs ofuel t1) as [[t2 st2]|]; [|reflexivity]. cbn [er2].
    change (x_nnz oex t2) with (x_nnz ex (fst t2)).
    destruct (update_termination _ _ _ _ _); [reflexivity|]. rewrite IH. reflexivity.
Qed.

Lemma run_presolver_er clock fuel m0 n0 nnz0 s :
  run_presolver_gen ex stgs fuel0 clock fuel m0 n0 nnz0 s =
  option_map er_result (run_presolver_gen oex stgs ofuel clock fuel m0 n0 nnz0 (s, [])).
Proof.
  unfold run_presolver_gen.
  pose proof (main_loop_er clock fuel 0 FAST (x_nnz ex s) (x_nnz ex s) (s, [])) as H. cbn [fst] in H. rewrite H.
  change (x_nnz oex (s, [])) with (x_nnz ex s).
  destruct (main_loop oex stgs ofuel clock fuel 0 FAST (x_nnz ex s) (x_nnz ex s) (s, [])) as [[[t st] k]|]; [|reflexivity].
  cbn [er3]. destruct (negb (N.eqb st UNCHANGED)); [reflexivity|].
  cbn [option_map]. unfold er_result. cbn. destruct (relax_bounds_on stgs); reflexivity.
Qed.
End Erase.

Lemma noted_faithful : forall stgs fits clock fuel P,
  run_presolver stgs fits clock fuel P =
  option_map (fun r => mkResult (fst (res_state r)) (res_status r) (res_reduced r) (res_phases r)) (noted_run stgs fits clock fuel P).
Proof. intros. unfold run_presolver, noted_run. rewrite run_presolver_er. reflexivity. Qed.

(** ** The calls are linked, and the status collects what they returned *)
Definition step_of (stgs : settings) (fits : nat -> bool) (k : kind) : state -> state * status :=
  let ex := the_explorers stgs fits in
  match k with
  | CloseBounds => x_close_bounds ex | EmptyCols => x_empty_cols ex | DualFix => x_dual_fix ex | StonRows => x_ston_rows ex
  | EmptyRows => x_empty_rows ex | StonCols => x_ston_cols ex | DtonEq => x_dton_eq ex | CheckActs => x_check_acts ex
  | Propagate => x_propagate ex | ParRows => x_par_rows ex | ParCols => x_par_cols ex
  end.
Definition allowed (stgs : settings) (k : kind) : Prop :=
  match k with
  | DualFix => dual_fix_on stgs = true | StonCols => ston_cols_on stgs = true | DtonEq => dton_eq_on stgs = true
  | CheckActs | Propagate => primal_propagation_on stgs = true
  | ParRows => parallel_rows_on stgs = true | ParCols => parallel_cols_on stgs = true
  | _ => True
  end.
Definition tb (st : status) : N := N.land st 6.
Fixpoint bits (l : list call) : N := match l with [] => 0%N | c :: l' => N.lor (tb (c_status c)) (bits l') end.
Lemma bits_app : forall a b, bits (a ++ b) = N.lor (bits a) (bits b).
Proof. induction a as [|c a IH]; intros b; cbn [app bits]; [reflexivity|]. rewrite IH. apply N.lor_assoc. Qed.
Lemma tb_lor : forall a b, tb (N.lor a b) = N.lor (tb a) (tb b).
Proof. intros. unfold tb. apply N.land_lor_distr_l. Qed.
Lemma tb_bits : forall l, N.land (bits l) 6 = bits l.
Proof.
  induction l as [|c l IH]; cbn [bits]; [reflexivity|]. rewrite N.land_lor_distr_l, IH. unfold tb at 1.
  rewrite <- N.land_assoc. reflexivity.
Qed.

Section Linked.
Variable stgs : settings.
Variable fits : nat -> bool.
Let ex := the_explorers stgs fits.
Let oex := noted ex.
Let fuel0 (t : state * list call) := S (S (nc (fst t))).

Inductive linked : state -> list call -> state -> Prop :=
| lk_nil : forall s, linked s [] s
| lk_cons : forall c l s', allowed stgs (c_kind c) -> step_of stgs fits (c_kind c) (c_before c) = (c_after c, c_status c) ->
    linked (c_after c) l s' -> linked (c_before c) (c :: l) s'.
Lemma linked_app : forall a l s b s', linked a l s -> linked s b s' -> linked a (l ++ b) s'.
Proof. intros a l s b s' H. induction H; intros; cbn [app]; auto. constructor; auto. Qed.
Definition went (w w' : state * list call) (b : N) : Prop :=
  exists new, snd w' = snd w ++ new /\ linked (fst w) new (fst w') /\ bits new = b.
Lemma went_refl : forall w, went w w 0%N.
Proof. intros w. exists []. rewrite app_nil_r. split; auto. split; [constructor|reflexivity]. Qed.
Lemma went_trans : forall w1 w2 w3 a b c, went w1 w2 a -> went w2 w3 b -> N.lor a b = c -> went w1 w3 c.
Proof.
  intros w1 w2 w3 a b c [l1 [A1 [B1 C1]]] [l2 [A2 [B2 C2]]] E. exists (l1 ++ l2). rewrite A2, A1, app_assoc. split; auto.
  split; [eapply linked_app; eauto|]. rewrite bits_app, C1, C2. auto.
Qed.
Lemma went_note : forall k w w' st, allowed stgs k -> note k (step_of stgs fits k) w = (w', st) -> went w w' (tb st).
Proof.
  intros k w w' st A. rewrite note_er. intros E. injection E as <- <-. exists [mkCall k (fst w) (fst (step_of stgs fits k (fst w))) (snd (step_of stgs fits k (fst w)))].
  cbn [fst snd]. split; auto. split.
  - eapply (lk_cons (mkCall _ _ _ _)); [exact A|cbn [c_kind c_before c_after c_status]; apply surjective_pairing|constructor].
  - cbn [bits c_status]. apply N.lor_0_r.
Qed.
Lemma note_rng : forall k l w w' st, note k (step_of stgs fits k) w = (w', st) -> (forall s, In (snd (step_of stgs fits k s)) l) -> In st l.
Proof. intros k l w w' st. rewrite note_er. intros E H. injection E as <- <-. apply H. Qed.
Let RG := the_status_ranges stgs fits.
Ltac step_ k E W R H := 
  match goal with |- context [note k ?f ?w] =>
    change f with (step_of stgs fits k); let w' := fresh "w" in let st := fresh "st" in
    destruct (note k (step_of stgs fits k) w) as [w' st] eqn:E;
    pose proof (went_note k w w' st ltac:(cbn; auto) E) as W; pose proof (note_rng k _ w w' st E H) as R
  end.

Lemma ston_loop_went : forall f w w' st, ston_loop oex f w = Some (w', st) -> went w w' (tb st) /\ In st [UNCHANGED; INFEASIBLE].
Proof.
  induction f as [|f IH]; intros w w' st; cbn [ston_loop]; [discriminate|].
  change (x_ston_rows oex) with (note StonRows (x_ston_rows ex)).
  step_ StonRows E W R (rg_ston_rows _ RG).
  destruct (N.eqb_spec st0 INFEASIBLE) as [->|N1].
  { intros X. injection X as <- <-. split; [exact W|cbn; auto]. }
  destruct (N.eqb_spec st0 REDUCED) as [->|N2].
  { intros X. destruct (IH _ _ _ X) as [A B]. split; auto. eapply went_trans; [exact W|exact A|]. reflexivity. }
  intros X. injection X as <- <-. split; [exact W|]. in_cases R; subst; try congruence; cbn; auto.
Qed.
Lemma tail_went : forall w w' st, trivial_tail oex fuel0 w = Some (w', st) -> went w w' (tb st).
Proof.
  intros w w' st. unfold trivial_tail. destruct (ston_loop oex (fuel0 w) w) as [[w1 st1]|] eqn:E1; [|discriminate].
  destruct (ston_loop_went _ _ _ _ E1) as [W1 R1].
  destruct (N.eqb_spec st1 INFEASIBLE) as [->|N1].
  { intros X. injection X as <- <-. exact W1. }
  assert (st1 = UNCHANGED) by (in_cases R1; subst; congruence). subst st1.
  change (x_empty_rows oex) with (note EmptyRows (x_empty_rows ex)). step_ EmptyRows E2 W2 R2 (rg_empty_rows _ RG).
  pose proof (went_trans _ _ _ _ _ _ W1 W2 eq_refl) as W12.
  destruct (N.eqb_spec st0 INFEASIBLE) as [->|N2].
  { intros X. injection X as <- <-. exact W12. }
  assert (st0 = UNCHANGED) by (in_cases R2; subst; congruence). subst st0.
  change (x_empty_cols oex) with (note EmptyCols (x_empty_cols ex)). step_ EmptyCols E3 W3 R3 (rg_empty_cols _ RG).
  pose proof (went_trans _ _ _ _ _ _ W12 W3 eq_refl) as W123.
  destruct (N.eqb_spec st0 UNBNDORINFEAS) as [->|N3]; intros X; injection X as <- <-; [exact W123|].
  assert (st0 = UNCHANGED) by (in_cases R3; subst; congruence). subst st0. exact W123.
Qed.
Lemma trivial_went : forall w w' st, run_trivial oex stgs fuel0 w = Some (w', st) -> went w w' (tb st).
Proof.
  intros w w' st. unfold run_trivial.
  change (x_close_bounds oex) with (note CloseBounds (x_close_bounds ex)). step_ CloseBounds E1 W1 R1 (rg_close_bounds _ RG).
  destruct (N.eqb_spec st0 INFEASIBLE) as [->|N1].
  { intros X. injection X as <- <-. exact W1. }
  assert (st0 = UNCHANGED) by (in_cases R1; subst; congruence). subst st0.
  destruct (dual_fix_on stgs) eqn:DF.
  2:{ intros X. eapply went_trans; [exact W1|apply (tail_went _ _ _ X)|reflexivity]. }
  change (x_empty_cols oex) with (note EmptyCols (x_empty_cols ex)). step_ EmptyCols E2 W2 R2 (rg_empty_cols _ RG).
  change (x_dual_fix oex) with (note DualFix (x_dual_fix ex)). step_ DualFix E3 W3 R3 (rg_dual_fix _ RG).
  pose proof (went_trans _ _ _ _ _ _ (went_trans _ _ _ _ _ _ W1 W2 eq_refl) W3 eq_refl) as W.
  destruct (N.eqb_spec (N.lor (N.lor UNCHANGED st0) st1) UNBNDORINFEAS) as [EQ|N3].
  - intros X. injection X as <- <-. in_cases R2; in_cases R3; subst; try exact W; cbn in EQ; discriminate.
  - intros X. pose proof (tail_went _ _ _ X) as WT.
    assert (st0 = UNCHANGED /\ st1 = UNCHANGED) as [-> ->] by (in_cases R2; in_cases R3; subst; auto; exfalso; apply N3; reflexivity).
    eapply went_trans; [exact W|exact WT|reflexivity].
Qed.
Lemma fast_went : forall w w' st, run_fast oex stgs fuel0 w = Some (w', st) -> went w w' (tb st).
Proof.
  intros w w' st. unfold run_fast. set (first := if ston_cols_on stgs then _ else _).
  assert (F : forall w2 st2, first = Some (w2, st2) -> went w w2 (tb st2)).
  { intros w2 st2. unfold first. destruct (ston_cols_on stgs) eqn:SC.
    - change (x_ston_cols oex) with (note StonCols (x_ston_cols ex)). step_ StonCols E1 W1 R1 (rg_ston_cols _ RG).
      destruct (run_trivial oex stgs fuel0 w0) as [[w3 st3]|] eqn:E3; [|discriminate].
      intros X. injection X as <- <-. rewrite tb_lor. eapply went_trans; [exact W1|apply (trivial_went _ _ _ E3)|reflexivity].
    - intros X. injection X as <- <-. apply went_refl. }
  destruct first as [[w2 st2]|]; [|discriminate]. specialize (F _ _ eq_refl).
  destruct (dton_eq_on stgs) eqn:DE.
  2:{ intros X. injection X as <- <-. exact F. }
  change (x_dton_eq oex) with (note DtonEq (x_dton_eq ex)). step_ DtonEq E3 W3 R3 (rg_dton_eq _ RG).
  destruct (run_trivial oex stgs fuel0 w0) as [[w4 st4]|] eqn:E4; [|discriminate].
  intros X. injection X as <- <-. rewrite !tb_lor. eapply went_trans; [eapply went_trans; [exact F|exact W3|reflexivity]|apply (trivial_went _ _ _ E4)|reflexivity].
Qed.
Lemma medium_went : forall w w' st, run_medium oex stgs fuel0 w = Some (w', st) -> went w w' (tb st).
Proof.
  intros w w' st. unfold run_medium. set (first := if primal_propagation_on stgs then _ else _).
  assert (F : forall w2 st2, first = Some (w2, st2) -> went w w2 (tb st2)).
  { intros w2 st2. unfold first. destruct (primal_propagation_on stgs) eqn:SC.
    - change (x_check_acts oex) with (note CheckActs (x_check_acts ex)). step_ CheckActs E1 W1 R1 (rg_check_acts _ RG).
      change (x_propagate oex) with (note Propagate (x_propagate ex)). step_ Propagate E2 W2 R2 (rg_propagate _ RG).
      destruct (run_trivial oex stgs fuel0 w1) as [[w3 st3]|] eqn:E3; [|discriminate].
      intros X. injection X as <- <-. rewrite !tb_lor.
      eapply went_trans; [eapply went_trans; [exact W1|exact W2|reflexivity]|apply (trivial_went _ _ _ E3)|reflexivity].
    - intros X. injection X as <- <-. apply went_refl. }
  destruct first as [[w2 st2]|]; [|discriminate]. specialize (F _ _ eq_refl).
  destruct (N.eqb_spec st2 UNCHANGED) as [->|N2]; cbn [negb].
  2:{ intros X. injection X as <- <-. exact F. }
  set (pr := if parallel_rows_on stgs then _ else _).
  assert (PR : went w2 (fst pr) (tb (snd pr))).
  { subst pr. destruct (parallel_rows_on stgs) eqn:PO; [|apply went_refl].
    change (x_par_rows oex) with (note ParRows (x_par_rows ex)). step_ ParRows E3 W3 R3 (rg_par_rows _ RG). exact W3. }
  destruct pr as [w4 st4]. cbn [fst snd] in PR. pose proof (went_trans _ _ _ _ _ _ F PR eq_refl) as W4.
  destruct (N.eqb_spec st4 UNCHANGED) as [->|N4]; cbn [negb].
  2:{ intros X. injection X as <- <-. exact W4. }
  destruct (parallel_cols_on stgs) eqn:PC.
  2:{ intros X. injection X as <- <-. exact W4. }
  change (x_par_cols oex) with (note ParCols (x_par_cols ex)). step_ ParCols E5 W5 R5 (rg_par_cols _ RG).
  destruct (run_trivial oex stgs fuel0 w0) as [[w6 st6]|] eqn:E6; [|discriminate].
  intros X. injection X as <- <-. rewrite !tb_lor.
  eapply went_trans; [eapply went_trans; [exact W4|exact W5|reflexivity]|apply (trivial_went _ _ _ E6)|reflexivity].
Qed.
Lemma loop_went : forall clock f it cx b a w w' st k, main_loop oex stgs fuel0 clock f it cx b a w = Some (w', st, k) -> went w w' (tb st).
Proof.
  induction f as [|f IH]; intros it cx b a w w' st k; cbn [main_loop]; [discriminate|].
  destruct (run_trivial oex stgs fuel0 w) as [[w1 st1]|] eqn:E1; [|discriminate].
  pose proof (trivial_went _ _ _ E1) as W1.
  destruct (N.eqb_spec st1 UNCHANGED) as [->|N1]; cbn [negb].
  2:{ intros X. injection X as <- <- <-. exact W1. }
  destruct (match cx with FAST => run_fast oex stgs fuel0 w1 | MEDIUM => run_medium oex stgs fuel0 w1 end) as [[w2 st2]|] eqn:E2; [|discriminate].
  assert (W2 : went w1 w2 (tb st2)) by (destruct cx; [apply fast_went|apply medium_went]; auto).
  pose proof (went_trans _ _ _ _ _ _ W1 W2 eq_refl) as W. cbv zeta.
  destruct (update_termination _ _ _ _ _) eqn:U.
  { intros X. injection X as <- <- <-. exact W. }
  intros X. eapply went_trans; [exact W|eapply IH; exact X|].
  unfold update_termination in U. destruct (HAS_STATUS st2 UNBNDORINFEAS) eqn:HS; [discriminate|].
  unfold HAS_STATUS in HS. apply negb_false_iff, N.eqb_eq in HS. unfold tb at 2. change UNBNDORINFEAS with 6%N in HS. rewrite HS. reflexivity.
Qed.
Lemma run_linked : forall clock fuel P r, noted_run stgs fits clock fuel P = Some r ->
  exists s, linked (new_presolver P) (snd (res_state r)) s /\
    (res_reduced r = true -> bits (snd (res_state r)) = 0%N /\ fst (res_state r) = if relax_bounds_on stgs then remove_redundant_bounds s else s) /\
    (res_status r = INFEASIBLE -> bits (snd (res_state r)) = 2%N) /\
    (res_status r = UNBNDORINFEAS -> bits (snd (res_state r)) = 6%N).
Proof.
  intros clock fuel P r. unfold noted_run, run_presolver_gen. fold ex oex fuel0.
  destruct (main_loop oex stgs fuel0 clock fuel 0 FAST _ _ _) as [[[w st] k]|] eqn:E; [|discriminate].
  destruct (loop_went _ _ _ _ _ _ _ _ _ _ E) as [new [A [B C]]]. cbn [fst snd app] in A, B.
  destruct (N.eqb_spec st UNCHANGED) as [->|NE]; cbn [negb]; intros X; injection X as <-; exists (fst w).
  - match goal with |- _ /\ (res_reduced ?r = true -> _) /\ _ => assert (X : snd (res_state r) = new) by (destruct (relax_bounds_on stgs); exact A) end.
    rewrite X. split; auto. split.
    + intros _. split; [exact C|]. destruct (relax_bounds_on stgs); reflexivity.
    + cbn [res_status]. unfold final_status. destruct (_ && _); split; discriminate.
  - cbn [res_state res_reduced res_status]. rewrite A. split; auto. split; [discriminate|]. split; intros ->; exact C.
Qed.
End Linked.
