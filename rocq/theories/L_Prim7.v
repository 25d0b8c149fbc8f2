(** Replaying the log: the primal values; the steps of a run, and whole runs. *)
From Coq Require Import NArith Lqa.
From Verif Require Import M_Num S_LP M_Settings M_Driver S_Driver M_State M_Act M_Core M_Simple
  M_StonCols M_Dton M_Parallel M_Propagate M_Init M_Post M_Run S_Run S_Struct S_Sem S_Sem2 S_Sem3 S_Sem4 S_Post S_Log S_Kkt S_Prim
  L_State L_Struct L_Struct2 L_Struct3 L_Struct4 L_Struct5 L_Struct6 L_Struct11 L_Init L_Sem L_Sem2 L_Sem3 L_Sem4 L_Sem9 L_Mid L_Mid2
  L_Reach L_Reach2 L_Act L_Act2 L_Act3 L_Act4
  L_Post L_Post2 L_Post3 L_Post4 L_Post6 L_Post7 L_Kkt L_Kkt2 L_Kkt3 L_Kkt5 L_Prim L_Prim2 L_Prim3 L_Prim4 L_Prim5 L_Prim6.
Import M_Driver.
Notation bad := M_State.bad.
Notation xv := L_Prim.xv.
Notation sub := L_Prim.sub.
Open Scope Q_scope.
Lemma AV_RT : forall s, AV Qeq s -> AV RT s.
Proof.
  intros s [A B]. constructor; auto. intros i Hi T. destruct (A i Hi T) as [[A1 _] [A2 _]]. split; (split; [auto|intros _; exact I]).
Qed.
Section Prim.
Variable rtol : nat -> Q.
Variable ctol : Q.
Hypothesis ctol1 : FEAS_TOL <= ctol.
Notation PS := (L_Prim.PS rtol ctol).
Notation PB := (L_Prim.PB rtol ctol).
Notation cover := (L_Prim.cover rtol ctol).

Lemma common_PB : forall stgs f s s' st, ston_cols_on stgs = false -> Ok s -> Mid s -> AV Qeq s -> In f (common_steps stgs) ->
  f s = (s', st) -> ~ trouble st -> PB s s'.
Proof.
  intros stgs f s s' st SC OK M A IN E NT.
  pose proof (ok_inv s OK) as H. pose proof (ok_quiet s OK) as QQ. pose proof QQ as [Q1 Q2 Q3].
  apply not_trouble in NT. destruct NT as [NI NU].
  unfold common_steps in IN. rewrite SC in IN. apply in_app_or in IN. destruct IN as [IN|IN].
  - destruct IN as [<-|[<-|[<-|[<-|[]]]]].
    + pose proof (close_bounds_PB rtol ctol ctol1 s OK M) as X. rewrite E in X. auto.
    + pose proof (empty_cols_PB rtol ctol ctol1 s H M Q2) as X. rewrite E in X. exact X.
    + pose proof (ston_rows_PB rtol ctol ctol1 s H M Q3) as X. rewrite E in X. exact X.
    + pose proof (empty_rows_PB rtol ctol ctol1 s H (md_tags _ M)) as X. rewrite E in X. exact X.
  - apply in_app_or in IN. destruct IN as [IN|IN].
    + destruct (dual_fix_on stgs); [|contradiction]. destruct IN as [<-|[]].
      pose proof (dual_fix_PB rtol ctol ctol1 s H M QQ) as X. rewrite E in X. exact X.
    + cbn [app] in IN. destruct (primal_propagation_on stgs); [|contradiction]. destruct IN as [<-|[<-|[]]].
      * pose proof (check_activities_PB rtol ctol ctol1 s H M A Q2 Q3) as X. rewrite E in X. exact X.
      * pose proof (propagate_PB rtol ctol ctol1 (finite_bound_tightening_on stgs) s H M (AV_RT s A) Q1 Q3) as X. rewrite E in X. exact X.
Qed.
Lemma reached_PB : forall stgs fits P s, wf_input P -> values_kept stgs -> reached stgs fits P s -> PB (new_presolver P) s.
Proof.
  intros stgs fits P s WF [[D1 D2] [PR SC]] R.
  induction R as [|f s s' st IN R IH E NT|s s' st ON C R IH E NT|s s' st ON C R IH E NT|s s' st ON R IH E NT TN]; try congruence.
  - apply PB_refl.
  - destruct (reached_eq stgs fits P s WF (conj D1 D2) SC R) as [OK [M A]]. eapply PB_trans; [auto|exact IH|]. eapply common_PB; eauto.
Qed.
(** the point to start from *)
Definition start_x (s : state) (x : nat -> Q) : nat -> Q := fun k => val (sx (start_sol s x (fun _ => 0) (fun _ => 0)) k).
Lemma start_PS : forall s x, Ok s -> feasible_up_to rtol (fun _ => ctol) (reduced_lp s) x -> PS s (start_x s x).
Proof.
  intros s x OK [CR CC]. pose proof (ok_inv s OK) as H. pose proof (inv_0 s H) as W. pose proof (ok_quiet s OK) as [Q1 Q2 Q3].
  constructor; unfold start_x, start_sol, copy_reduced_sol, keep_map; cbn [sx].
  - intros i Hi T. pose proof (act_alive s i W Hi T) as R.
    specialize (CR i ltac:(apply live_rows_in; auto)). cbn [reduced_lp lp_lhs lp_rhs lp_A] in CR.
    eapply within_ext; [|exact CR]. apply dot_ext. intros k a Hk.
    pose proof (proj1 (w_rin s W i k a Hi Hk)) as Hk'. pose proof (inv_R s H i k a Hi T Hk) as C.
    pose proof (proj1 (quiet_col s k H Q2 Q3 Hk') C) as TK. unfold L_Prim.xv. rewrite (fixed_cinact _ TK). cbn [sx].
    apply Z.eqb_neq in C. rewrite C. cbn. lra.
  - intros k Hk T. pose proof (cact_alive s k W Hk T) as C. specialize (CC k ltac:(apply live_cols_in; auto)).
    apply Z.eqb_neq in C. rewrite C. cbn [negb val]. exact CC.
Qed.
Lemma post_PS : forall stgs fits P s x y z x' y' z', wf_input P -> values_kept stgs -> reached stgs fits P s ->
  wide rtol ctol (lp_of_input P) -> bounds_meet (lp_of_input P) -> neighbours_known (log s) ->
  feasible_up_to rtol (fun _ => ctol) (reduced_lp s) x ->
  solution_is P (postsolve_state s x y z) x' y' z' -> feasible_up_to rtol (fun _ => ctol) (lp_of_input P) x'.
Proof.
  intros stgs fits P s x y z x' y' z' WF VK R [_ WD] BM KN FX [SE [SX _]].
  destruct (reached_ok stgs fits P s WF R) as [OK _].
  destruct (reached_PB stgs fits P s WF VK R) as (_ & _ & new & L & PN & K).
  destruct (reached_log stgs fits P s WF (proj1 VK) R) as (_ & _ & _ & GR).
  destruct (init_fields P) as (NR & NC & MA & _ & _ & L0 & _ & _ & LB & UB & LH & RH & _).
  rewrite L0, app_nil_r in L. subst new.
  assert (CV0 : cover (new_presolver P)).
  { intros i Hi T. rewrite NR in Hi. rewrite MA. apply (WD i). cbn. apply in_seq. lia. }
  assert (NB0 : NB (new_presolver P)).
  { intros k Hk T F1 F2. rewrite NC in Hk. rewrite LB, UB in *. specialize (BM k). cbn [lp_of_input lp_cols lp_lb lp_ub] in BM.
    destruct (in_lb P k) as [|l|]; try discriminate. destruct (in_ub P k) as [|u|]; try discriminate. cbn [fin].
    apply BM; auto. apply in_seq. lia. }
  assert (SM : same_x (start_sol s x y z) (start_x s x)) by (intros k; reflexivity).
  change (postsolve_state s x y z) with (replay None (log s) (start_sol s x y z)) in SE, SX.
  pose proof (fine_same (log s) 0 _ _ PN GR 0%nat [] SM SE) as XF.
  pose proof (replay_same (log s) 0 _ _ PN GR 0%nat [] SM) as SR. cbn [gr] in SR.
  specialize (K (start_x s x) CV0 NB0 KN XF (start_PS s x OK FX)).
  set (xx := xrep (log s) (start_x s x)) in *. clearbody xx. set (sol := replay _ _ _) in *. clearbody sol.
  assert (XX : forall k, (k < in_n P)%nat -> xx k = x' k).
  { intros k Hk. rewrite <- SR. rewrite (proj1 (SX k Hk)). reflexivity. }
  destruct K as [CR CC]. split; cbn [lp_of_input lp_rows lp_cols lp_lhs lp_rhs lp_lb lp_ub lp_A].
  - intros i Hi. apply in_seq in Hi. specialize (CR i ltac:(rewrite NR; lia) (init_rows_active P i)).
    rewrite LH, RH, MA in CR by lia. eapply within_ext; [|exact CR]. apply dot_ext.
    intros k a Hk. unfold L_Prim.xv. rewrite (fixed_cinact _ (init_cols_active P k)).
    pose proof (proj1 (new_presolver_Ok P WF)) as OK0.
    destruct (w_rin _ (inv_0 _ (ok_inv _ OK0)) i k a) as [Lk _]; [rewrite NR; lia|rewrite MA; auto|]. rewrite NC in Lk.
    rewrite XX by auto. lra.
  - intros k Hk. apply in_seq in Hk. specialize (CC k ltac:(rewrite NC; lia) (init_cols_active P k)).
    rewrite LB, UB, XX in CC by lia. exact CC.
Qed.
End Prim.
Lemma run_PS : forall stgs fits clock fuel P r rtol c, wf_input P -> values_kept stgs ->
  run_presolver stgs fits clock fuel P = Some r -> res_reduced r = true ->
  wide rtol c (lp_of_input P) -> bounds_meet (lp_of_input P) -> neighbours_known (log (res_state r)) ->
  forall x y z x' y' z', feasible_up_to rtol (fun _ => c) (reduced_lp (res_state r)) x ->
  solution_is P (postsolve_state (res_state r) x y z) x' y' z' -> feasible_up_to rtol (fun _ => c) (lp_of_input P) x'.
Proof.
  intros stgs fits clock fuel P r rtol c WF VK H Hr WD BM KN x y z x' y' z' FX S.
  destruct (run_reached _ _ _ _ _ _ WF (proj1 (proj1 VK)) H Hr) as [s [R [L [LG E]]]]. rewrite E in S. rewrite L in FX. rewrite LG in KN.
  eapply (post_PS rtol c); eauto. apply WD.
Qed.
