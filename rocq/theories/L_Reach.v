(** Every state a run goes through before trouble is reported satisfies the structural invariant and
    the facts of L_Mid; and the states the driver goes through are such states. *)
From Coq Require Import NArith Lqa.
From Verif Require Import M_Num S_LP M_Settings M_Driver S_Driver M_State M_Act M_Core M_Simple
  M_StonCols M_Dton M_Parallel M_Propagate M_Init M_Post M_Run S_Run S_Struct S_Sem
  L_State L_Struct L_Struct2 L_Struct3 L_Struct4 L_Struct5 L_Struct6 L_Struct7 L_Struct8 L_Tiny L_Struct9 L_Struct10 L_Struct11
  L_Init L_Sem L_Sem2 L_Sem3 L_Sem4 L_Mid L_Mid2 L_Mid3 L_Mid4 L_Mid5 L_Mid6 L_Mid7.
Import M_Driver.
Notation bad := M_State.bad.
Open Scope Q_scope.

Lemma wsum_app : forall w c d, wsum w (c ++ d) = (wsum w c + wsum w d)%Z.
Proof. induction c as [|[i a] c IH]; intros d; simpl; auto. rewrite IH. lia. Qed.
Lemma wsum_pick : forall w i k r,
  wsum w (map (fun e => (i, snd e)) (filter (fun e : nat * Q => Nat.eqb (fst e) k) r)) = ksum (w i) k r.
Proof.
  induction r as [|[j a] r IH]; simpl; auto. destruct (Nat.eqb j k); simpl; rewrite IH; reflexivity.
Qed.
Lemma rows_locks : forall l s k,
  let s' := foldS add_row_locks l s in
  ups s' k = (ups s k + wsum (fun i => upt (rt s i)) (flat_map (fun i => map (fun e => (i, snd e)) (filter (fun e => Nat.eqb (fst e) k) (mA s i))) l))%Z /\
  dns s' k = (dns s k + wsum (fun i => dnt (rt s i)) (flat_map (fun i => map (fun e => (i, snd e)) (filter (fun e => Nat.eqb (fst e) k) (mA s i))) l))%Z.
Proof.
  induction l as [|i l IH]; intros s k; cbv zeta; cbn [foldS flat_map].
  - simpl. split; lia.
  - set (s1 := add_row_locks s i).
    assert (E : exists u d, s1 = set_dns d (set_ups u s)).
    { unfold s1. destruct (locks_only_rows [i] s) as [u [d X]]. exists u, d. exact X. }
    destruct (IH s1 k) as [A B]. cbv zeta in A, B.
    assert (X : ups s1 k = (ups s k + ksum (upt (rt s i)) k (mA s i))%Z /\ dns s1 k = (dns s k + ksum (dnt (rt s i)) k (mA s i))%Z).
    { unfold s1, add_row_locks.
      assert (EQ : forall r t, rt t = rt s ->
        foldS (fun s0 e => lock_coeff 1 (t_rhs_inf (rt s0 i)) (t_lhs_inf (rt s0 i)) (fst e) (snd e) s0) r t =
        foldS (fun s0 e => lock_coeff 1 (t_rhs_inf (rt s i)) (t_lhs_inf (rt s i)) (fst e) (snd e) s0) r t).
      { induction r as [|e r IHr]; intros t Et; cbn [foldS]; [reflexivity|]. rewrite Et. apply IHr.
        destruct (locks_only_coeff 1 (t_rhs_inf (rt s i)) (t_lhs_inf (rt s i)) (fst e) (snd e) t) as [u [d ->]]. sr. exact Et. }
      rewrite EQ by reflexivity.
      destruct (lock_fold 1 (t_rhs_inf (rt s i)) (t_lhs_inf (rt s i)) (mA s i) s k) as [-> ->].
      unfold upt, dnt. split; lia. }
    destruct E as [u [d E]]. 
    assert (RE : rt s1 = rt s) by (rewrite E; reflexivity).
    assert (AE : mA s1 = mA s) by (rewrite E; reflexivity).
    rewrite RE, AE in A, B. rewrite A, B. destruct X as [-> ->].
    rewrite !wsum_app, !wsum_pick. split; lia.
Qed.

Lemma new_presolver_Mid : forall P, wf_input P -> Mid (new_presolver P).
Proof.
  intros P WF.
  change (new_presolver P) with
      (foldS list_act (seq 0 (in_m P)) (foldS list_col (seq 0 (in_n P)) (foldS list_row (seq 0 (in_m P))
        (foldS add_row_locks (seq 0 (in_m P)) (init_state P))))).
  pose proof (fun k => rows_locks (seq 0 (in_m P)) (init_state P) k) as LC. cbv zeta in LC.
  destruct (locks_only_rows (seq 0 (in_m P)) (init_state P)) as [u [d E1]].
  set (s1 := foldS add_row_locks (seq 0 (in_m P)) (init_state P)) in *.
  destruct (list_rows_form (seq 0 (in_m P)) s1) as [E [R [D [E2 [HE _]]]]]. rewrite E2.
  set (s2 := set_w_dton D (set_w_ston_rows R (set_w_empty_rows E s1))).
  destruct (list_cols_form (seq 0 (in_n P)) s2) as [ec [sc [E3 _]]]. rewrite E3.
  match goal with |- context [foldS list_act ?l ?s] =>
    destruct (list_acts_form l s) as [a [w [E4 _]]] end. rewrite E4.
  assert (RT1 : rt s1 = rt (init_state P)) by (rewrite E1; reflexivity).
  constructor.
  - unfold s2. rewrite E1. constructor; sr; unfold init_state; cbn [nr nc lhs rhs lb ub rt ct].
    + intros i Hi _. unfold new_rowtag. cbn [t_lhs_inf]. pose proof (wf_lhs P WF i Hi). destruct (in_lhs P i); simpl; congruence.
    + intros i Hi _. unfold new_rowtag. cbn [t_rhs_inf]. pose proof (wf_rhs P WF i Hi). destruct (in_rhs P i); simpl; congruence.
    + intros i Hi _. unfold new_rowtag. cbn [t_eq]. pose proof (wf_lhs P WF i Hi).
      destruct (in_lhs P i) as [|p|]; simpl; try discriminate; try congruence.
      destruct (in_rhs P i) as [|q|]; simpl; try discriminate. intros T. apply Qeqb_true in T.
      exists p, q. auto.
    + intros i Hi _. unfold new_coltag. cbn [t_lb_inf]. pose proof (wf_lb P WF i Hi). destruct (in_lb P i); simpl; congruence.
    + intros i Hi _. unfold new_coltag. cbn [t_ub_inf]. pose proof (wf_ub P WF i Hi). destruct (in_ub P i); simpl; congruence.
  - apply pend_nil. unfold s2. sr. rewrite E1. reflexivity.
  - intros i Hi. unfold s2. sr. rewrite RT1. reflexivity.
  - intros k Hk Tk. unfold s2. sr. destruct (LC k) as [-> ->]. rewrite RT1.
    replace (mAT s1) with (mAT (init_state P)) by (rewrite E1; reflexivity). cbn [ups dns init_state mAT mA].
    split; reflexivity.
Qed.

Lemma not_trouble : forall st, ~ trouble st -> st <> INFEASIBLE /\ st <> UNBNDORINFEAS.
Proof. unfold trouble. tauto. Qed.

Lemma reached_ok : forall stgs fits P s, wf_input P -> reached stgs fits P s -> Ok s /\ Mid s.
Proof.
  intros stgs fits P s WF R. induction R as [|f s s' st IN R IH E NT|s s' st ON C R IH E NT|s s' st ON C R IH E NT|s s' st ON R IH E NT TN].
  - split; [apply new_presolver_Ok; auto|apply new_presolver_Mid; auto].
  - destruct IH as [[H [Q1 Q2 Q3] N] M]. apply not_trouble in NT. destruct NT as [NI NU].
    assert (QQ : quiet s) by (constructor; auto).
    unfold common_steps in IN. rewrite !in_app_iff in IN. destruct IN as [IN|[IN|[IN|IN]]].
    + destruct IN as [<-|[<-|[<-|[<-|[]]]]].
      * pose proof (close_bounds_spec s H Q3) as X. pose proof (close_bounds_Mid s ltac:(constructor; auto) M) as Y.
        rewrite E in X, Y. destruct X as (I1&M1&W1&W2&[->|(->&F1&N1)]); [congruence|].
        split; [|auto]. constructor; auto. constructor; congruence.
      * pose proof (empty_cols_spec s H) as X. pose proof (empty_cols_Mid s H M Q2) as Y. rewrite E in X, Y.
        destruct X as (S1&A1&A2&A3&A4&[->|(->&_)]); [congruence|].
        split; [|auto]. constructor; [apply S1|constructor; congruence|apply S1; auto].
      * pose proof (ston_rows_spec s H Q3) as X. pose proof (ston_rows_Mid s H M Q3) as Y. rewrite E in X, Y.
        destruct X as (I1&M1&W1&[->|[(->&->&_)|(->&_&QS&N1&_)]]); [congruence| |].
        { split; auto. constructor; auto. }
        split; [|auto]. constructor; auto.
      * pose proof (empty_rows_spec s H) as X. pose proof (empty_rows_Mid s M) as Y. rewrite E in X, Y.
        destruct X as (S1&A1&A2&A3&A4&[->|(->&_)]); [congruence|].
        split; [|auto]. constructor; [apply S1|constructor; congruence|apply S1; auto].
    + destruct (dual_fix_on stgs); [|contradiction]. destruct IN as [<-|[]].
      pose proof (dual_fix_spec s H Q3) as X. pose proof (dual_fix_Mid s H M Q3) as Y. rewrite E in X, Y.
      destruct X as (I1&M1&QS&N1). split; [|auto]. constructor; auto.
    + destruct (ston_cols_on stgs); [|contradiction]. destruct IN as [<-|[]].
      pose proof (ston_cols_spec s H QQ) as X. pose proof (ston_cols_Mid s H M QQ) as Y. rewrite E in X, Y.
      destruct X as (S1&QS&_). split; [|auto]. constructor; [apply S1|auto|apply S1; auto].
    + destruct (primal_propagation_on stgs); [|contradiction]. destruct IN as [<-|[<-|[]]].
      * pose proof (check_activities_spec s H) as X. pose proof (check_activities_Mid s H M) as Y. rewrite E in X, Y.
        destruct X as (S1&(F1&F2&F3)&[->|(->&W1)]); [congruence|].
        split; [|auto]. constructor; [apply S1|constructor; congruence|apply S1; auto].
      * pose proof (propagate_spec (finite_bound_tightening_on stgs) s H Q3) as X.
        pose proof (propagate_Mid (finite_bound_tightening_on stgs) s H M Q3) as Y. rewrite E in X, Y.
        destruct X as (I1&M1&W1&W2&[->|(->&F1&N1)]); [congruence|].
        split; [|auto]. constructor; auto. constructor; congruence.
  - destruct IH as [[H Q N] M].
    pose proof (par_rows_spec s H N Q C) as X. pose proof (par_rows_Mid s H M N Q C) as Y. rewrite E in X, Y.
    destruct X as (S1&QS&_). split; [|auto]. constructor; [apply S1|auto|apply S1; auto].
  - destruct IH as [[H Q N] M].
    pose proof (par_cols_spec s H (q_rows _ Q) C) as X. pose proof (par_cols_Mid s H M C) as Y. rewrite E in X, Y.
    destruct X as (S1&QS&_). split; [|auto]. constructor; [apply S1|auto|apply S1; auto].
  - destruct IH as [[H [Q1 Q2 Q3] N] M].
    assert (PN : pend1 s) by (intros i; rewrite Q1; contradiction).
    pose proof (dton_spec fits s H Q3 PN) as X. pose proof (dton_Mid fits s H M Q2 PN) as Y. rewrite E in X, Y.
    destruct X as (_&X). destruct (X TN) as (I1&M1&W1&W2&W3&N1). split; [|auto].
    constructor; auto. constructor; congruence.
Qed.
