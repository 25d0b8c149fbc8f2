(** Replaying the log: the primal values; redundant rows and singleton rows. *)
From Coq Require Import NArith Lqa.
From Verif Require Import M_Num S_LP M_Settings M_Driver S_Driver M_State M_Act M_Core M_Simple
  M_StonCols M_Dton M_Parallel M_Propagate M_Init M_Post M_Run S_Run S_Struct S_Sem S_Log S_Kkt S_Prim
  L_State L_Struct L_Struct2 L_Struct3 L_Struct4 L_Struct5 L_Struct6 L_Struct11 L_Sem L_Sem2 L_Sem3 L_Sem4 L_Mid L_Mid2
  L_Post L_Post2 L_Post3 L_Kkt L_Kkt2 L_Kkt3 L_Act L_Act2 L_Act3 L_Act4 L_ActP L_Ston3 L_Prim L_Prim2.
Import M_Driver.
Notation bad := M_State.bad.
Notation xv := L_Prim.xv.
Notation sub := L_Prim.sub.
Open Scope Q_scope.
Section Prim.
Variable rtol : nat -> Q.
Variable ctol : Q.
Hypothesis ctol1 : FEAS_TOL <= ctol.
Notation PS := (L_Prim.PS rtol ctol).
Notation PB := (L_Prim.PB rtol ctol).
Notation cover := (L_Prim.cover rtol ctol).

Lemma near_low : forall a l x, l - ctol <= x -> 0 <= a -> a * l <= a * x + ctol * Qabs a.
Proof.
  intros a l x E P. rewrite (Qabs_pos a P). setoid_replace (a * x + ctol * a) with (a * (x + ctol)) by ring.
  rewrite !(Qmult_comm a). apply Qmult_le_compat_r; auto. lra.
Qed.
Lemma near_upp : forall a u x, x <= u + ctol -> 0 <= a -> a * x <= a * u + ctol * Qabs a.
Proof.
  intros a u x E P. rewrite (Qabs_pos a P). setoid_replace (a * u + ctol * a) with (a * (u + ctol)) by ring.
  rewrite !(Qmult_comm a). apply Qmult_le_compat_r; auto.
Qed.
Lemma near_low' : forall a u x, x <= u + ctol -> a <= 0 -> a * u <= a * x + ctol * Qabs a.
Proof.
  intros a u x E P. pose proof (near_upp (- a) u x E ltac:(lra)) as X. rewrite Qabs_opp in X. lra.
Qed.
Lemma near_upp' : forall a l x, l - ctol <= x -> a <= 0 -> a * x <= a * l + ctol * Qabs a.
Proof.
  intros a l x E P. pose proof (near_low (- a) l x E ltac:(lra)) as X. rewrite Qabs_opp in X. lra.
Qed.
Lemma near_sums : forall l u r x, (forall k a, In (k, a) r -> within ctol (l k) (x k) (u k)) ->
  (cnt (lowb l u) r = 0%Z -> ssum (lowb l u) r <= dot r x + ctol * norm1 r) /\
  (cnt (upb l u) r = 0%Z -> dot r x <= ssum (upb l u) r + ctol * norm1 r).
Proof.
  intros l u r x. rewrite !cnt_0. induction r as [|[k a] r IH]; intros W; cbn [ssum dot norm1 fst snd].
  - split; intros _; lra.
  - destruct (IH (fun j b Hj => W j b (or_intror Hj))) as [I1 I2]. destruct (W k a (or_introl eq_refl)) as [W1 W2]. split; intros C.
    + specialize (I1 (fun e He => C e (or_intror He))). specialize (C (k, a) (or_introl eq_refl)).
      assert (X : a * fin (lowb l u (k, a)) <= a * x k + ctol * Qabs a).
      { unfold lowb in *. cbn [fst snd] in *. destruct (Qgtb a 0) eqn:G; qb.
        - apply near_low; [|lra]. apply ext_le_fin in W1; auto. lra.
        - apply near_low'; [|lra]. apply le_ext_fin in W2; auto. lra. }
      lra.
    + specialize (I2 (fun e He => C e (or_intror He))). specialize (C (k, a) (or_introl eq_refl)).
      assert (X : a * x k <= a * fin (upb l u (k, a)) + ctol * Qabs a).
      { unfold upb, lowb in *. cbn [fst snd] in *. destruct (Qgtb a 0) eqn:G; qb.
        - apply near_upp; [|lra]. apply le_ext_fin in W2; auto. lra.
        - apply near_upp'; [|lra]. apply ext_le_fin in W1; auto. lra. }
      lra.
Qed.
(** what the stored activities say about a point near the bounds *)
Lemma near_act : forall s i x, Inv s -> AV Qeq s -> w_fixed s = [] -> w_sub s = [] -> (i < nr s)%nat -> t_inact (rt s i) = false ->
  (forall k, (k < nc s)%nat -> t_cinact (ct s k) = false -> within ctol (lb s k) (x k) (ub s k)) ->
  (n_inf_min (acts s i) = 0%Z -> a_min (acts s i) <= dot (mA s i) (xv s x) + ctol * norm1 (mA s i)) /\
  (n_inf_max (acts s i) = 0%Z -> dot (mA s i) (xv s x) <= a_max (acts s i) + ctol * norm1 (mA s i)).
Proof.
  intros s i x H A WF WS Hi T W. destruct (av_rows Qeq s A i Hi T) as [[N1 V1] [N2 V2]].
  assert (K : forall k a, In (k, a) (mA s i) -> t_cinact (ct s k) = false /\ (k < nc s)%nat).
  { intros k a Hin. pose proof (proj1 (w_rin s (inv_0 s H) i k a Hi Hin)) as Hk. split; auto.
    apply quiet_col; auto. eapply (inv_R s H); eauto. }
  assert (D : dot (mA s i) (xv s x) == dot (mA s i) x).
  { apply dot_ext. intros k a Hin. unfold xv. rewrite (fixed_cinact _ (proj1 (K k a Hin))). lra. }
  rewrite D. destruct (near_sums (lb s) (ub s) (mA s i) x) as [S1 S2].
  { intros k a Hin. destruct (K k a Hin). apply W; auto. }
  split; intros Z0.
  - rewrite (V1 Z0). apply S1. congruence.
  - unfold flip in V2. rewrite <- (V2 Z0). apply S2. congruence.
Qed.
Lemma cover_act : forall s i, cover s -> (i < nr s)%nat -> t_inact (rt s i) = false -> FEAS_TOL + ctol * norm1 (mA s i) <= rtol i.
Proof.
  intros s i C Hi T. specialize (C i Hi T). pose proof tol_pos.
  assert (0 <= FEAS_TOL * norm1 (mA s i)) by (apply Qmult_le_0_compat; [lra|apply norm1_pos]). lra.
Qed.
Lemma check_row_PB : forall s i, Inv s -> tags_right s -> AV Qeq s -> w_fixed s = [] -> w_sub s = [] -> (i < nr s)%nat -> PB s (fst (check_row i s)).
Proof.
  intros s i H TG AVs WF WS Hi. unfold check_row in *.
  destruct (t_inact (rt s i)) eqn:T; cbn [orb] in *; [apply PB_refl|].
  destruct (t_eq _); cbn [orb] in *; [apply PB_refl|].
  destruct (Z.leb_spec (rsz s i) 1); [apply PB_refl|].
  pose proof (fun x => near_act s i x H AVs WF WS Hi T) as NA.
  pose proof (tr_lhs s TG i Hi T) as TL. pose proof (tr_rhs s TG i Hi T) as TR.
  unfold check_activity.
  destruct (negb (t_rhs_inf (rt s i)) && (Z.eqb (n_inf_min (acts s i)) 0 && _)); [apply PB_refl|].
  destruct (negb (t_lhs_inf (rt s i)) && (Z.eqb (n_inf_max (acts s i)) 0 && _)); [apply PB_refl|].
  set (lr := negb (t_lhs_inf (rt s i)) && _). set (rr := negb (t_rhs_inf (rt s i)) && _).
  assert (GL : lr || t_lhs_inf (rt s i) = true -> forall x, cover s ->
    (forall k, (k < nc s)%nat -> t_cinact (ct s k) = false -> within ctol (lb s k) (x k) (ub s k)) ->
    ext_le (lhs s i) (dot (mA s i) (xv s x) + rtol i)).
  { intros L x CV W. pose proof (cover_act s i CV Hi T) as RT. destruct (t_lhs_inf (rt s i)); [rewrite TL; exact I|].
    rewrite orb_false_r in L. unfold lr in L. cbn [negb andb] in L. apply andb_true_iff in L. destruct L as [L1 L2]. apply Z.eqb_eq in L1. qb.
    apply ext_le_fin; auto. destruct (NA x W) as [N1 _]. specialize (N1 L1). lra. }
  assert (GR : rr || t_rhs_inf (rt s i) = true -> forall x, cover s ->
    (forall k, (k < nc s)%nat -> t_cinact (ct s k) = false -> within ctol (lb s k) (x k) (ub s k)) ->
    le_ext (dot (mA s i) (xv s x) - rtol i) (rhs s i)).
  { intros L x CV W. pose proof (cover_act s i CV Hi T) as RT. destruct (t_rhs_inf (rt s i)); [rewrite TR; exact I|].
    rewrite orb_false_r in L. unfold rr in L. cbn [negb andb] in L. apply andb_true_iff in L. destruct L as [L1 L2]. apply Z.eqb_eq in L1. qb.
    apply le_ext_fin; auto. destruct (NA x W) as [_ N1]. specialize (N1 L1). lra. }
  clearbody lr rr. clear NA.
  destruct ((lr || _) && (rr || _)) eqn:B.
  { cbn [fst]. apply andb_true_iff in B. destruct B as [B1 B2]. apply (row_PB rtol ctol s _ i 0); unfold set_row_to_inactive; sr; auto.
    - intros j N. rewrite upd_other; auto.
    - rewrite upd_same. reflexivity.
    - intros x CV _ W _. split; auto. }
  assert (Y : forall (f : state -> nat * Q -> state) t, (forall s0 x, locks_only s0 (f s0 x)) -> t_inact t = false ->
    let s1 := foldS f (mA s i) (set_rt1 i t s) in
    nr s1 = nr s /\ nc s1 = nc s /\ mA s1 = mA s /\ ct s1 = ct s /\ lb s1 = lb s /\ ub s1 = ub s /\ lhs s1 = lhs s /\ rhs s1 = rhs s /\
    log s1 = log s /\ rt s1 = upd (rt s) i t).
  { intros f t Hf Et. cbv zeta.
    repeat split; (rewrite foldS_keep; [reflexivity|]; intros s0 x; destruct (Hf s0 x) as [u [d E]]; rewrite E; reflexivity). }
  assert (Z : forall s1 t, t_inact t = false -> nr s1 = nr s -> nc s1 = nc s -> mA s1 = mA s -> ct s1 = ct s -> lb s1 = lb s -> ub s1 = ub s ->
    log s1 = log s -> rt s1 = upd (rt s) i t ->
    (forall x, cover s -> (forall k, (k < nc s)%nat -> t_cinact (ct s k) = false -> within ctol (lb s k) (x k) (ub s k)) ->
       within (rtol i) (lhs s1 i) (dot (mA s i) (xv s x)) (rhs s1 i) -> within (rtol i) (lhs s i) (dot (mA s i) (xv s x)) (rhs s i)) ->
    (forall j, j <> i -> lhs s1 j = lhs s j /\ rhs s1 j = rhs s j) -> PB s s1).
  { intros s1 t E0 A1 A2 A3 A4 A5 A6 A7 A8 J O. apply PB_silent; auto.
    - apply sub_same; auto; [intros; congruence|]. intros j Tj. rewrite A8. updg; auto. congruence.
    - apply NB_same; auto. intros k. rewrite A4, A5, A6. auto.
    - intros x CV _ [CR CC]. rewrite A2, A4, A5, A6 in CC. constructor; [|exact CC]. intros j Hj Tj.
      specialize (CR j ltac:(rewrite A1; auto) ltac:(rewrite A8; updg; auto)). rewrite A3 in CR.
      assert (D : dot (mA s j) (xv s1 x) == dot (mA s j) (xv s x)).
      { apply dot_ext. intros k a _. unfold xv. rewrite A4, A6. lra. }
      apply (within_ext _ _ _ _ _ D) in CR. destruct (Nat.eq_dec j i) as [->|N]; [apply J; auto|].
      destruct (O j N) as [<- <-]. exact CR. }
  destruct lr; [|destruct rr]; cbn [fst] in *; [| |apply PB_refl].
  - destruct (Y (fun s e => lock_lhs (-1) (fst e) (snd e) s) R_LHS_INF) as (A1 & A2 & A3 & A4 & A5 & A6 & A7 & A8 & A9 & A10); auto.
    { intros. apply locks_only_lock_lhs. }
    set (s1 := foldS _ _ _) in *. clearbody s1. eapply (Z (set_lhs1 i NInf s1) R_LHS_INF); sr; auto.
    + intros x CV W [_ R]. split; [apply GL; auto|]. rewrite A8 in R. exact R.
    + intros j N. rewrite upd_other, A7, A8 by auto. auto.
  - destruct (Y (fun s e => lock_rhs (-1) (fst e) (snd e) s) R_RHS_INF) as (A1 & A2 & A3 & A4 & A5 & A6 & A7 & A8 & A9 & A10); auto.
    { intros. apply locks_only_lock_rhs. }
    set (s1 := foldS _ _ _) in *. clearbody s1. eapply (Z (set_rhs1 i PInf s1) R_RHS_INF); sr; auto.
    + intros x CV W [R _]. split; [|apply GR; auto]. rewrite A7 in R. exact R.
    + intros j N. rewrite upd_other, A7, A8 by auto. auto.
Qed.
Lemma check_row_Mid' : forall s i, Inv s -> Mid s -> (i < nr s)%nat -> Mid (fst (check_row i s)).
Proof.
  intros s i H M Hi. pose proof (check_row_Mid s i H M Hi) as X. destruct (N.eq_dec (snd (check_row i s)) INFEASIBLE) as [E|E]; auto. clear X.
  unfold check_row in *. destruct (_ || _); auto. destruct (check_activity _ _ _ _) as [|lr rr]; auto.
  destruct (_ && _); [discriminate|]. destruct lr; [discriminate|]. destruct rr; [discriminate|auto].
Qed.
Lemma check_activities_PB : forall s, Inv s -> Mid s -> AV Qeq s -> w_fixed s = [] -> w_sub s = [] -> PB s (fst (check_activities s)).
Proof.
  intros s H M AVs WF WS. pose proof (l_acts s (inv_L s H)) as HW. unfold check_activities.
  pose proof (for_until_inv INFEASIBLE check_row (fun t => stp s t /\ Mid t /\ AV Qeq t /\ w_fixed t = [] /\ w_sub t = [] /\ PB s t) (w_acts s) s) as X.
  destruct (for_until INFEASIBLE check_row (w_acts s) s) as [s1 st]. cbn [fst] in X.
  destruct X as (S1 & _ & _ & _ & _ & B1).
  - intros t i Hi (St1 & M1 & A1 & F1 & W1 & Ft). assert (Hi' : (i < nr t)%nat) by (rewrite (stp_nr _ _ St1); auto).
    destruct (check_row_stp t i) as (A & F2 & F3 & F4); [apply St1|auto|].
    split; [eapply stp_trans; eauto|]. split; [apply check_row_Mid'; auto; apply St1|]. 
    split; [eapply keepA_AV; [apply good_eq|apply keepA_check_row|auto]|].
    split; [|split].
    + congruence.
    + congruence.
    + eapply PB_trans; [auto|exact Ft|]. apply check_row_PB; auto; [apply St1|apply M1].
  - auto 8 using stp_refl, PB_refl.
  - destruct (N.eqb st INFEASIBLE); cbn [fst]; auto. eapply PB_trans; [auto|exact B1|]. apply dir_PB. apply S1.
Qed.
End Prim.
