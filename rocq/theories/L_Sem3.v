(** Meaning of the single steps the explorers are made of. *)
From Coq Require Import NArith Lqa.
From Verif Require Import M_Num S_LP M_Settings M_Driver S_Driver M_State M_Act M_Core M_Simple
  M_StonCols M_Dton M_Parallel M_Propagate M_Init M_Post M_Run S_Run S_Struct S_Sem
  L_State L_Struct L_Struct2 L_Struct3 L_Struct4 L_Struct5 L_Struct6 L_Struct11 L_Sem L_Sem2.
Open Scope Q_scope.

(** ** Deleting rows *)
Lemma dir_sem : forall s, Inv s -> let s' := delete_inactive_rows s in
  (forall r c x, sat r c s x <-> sat r c s' x) /\ (forall x, obj s' x == obj s x) /\
  (tags_right s -> tags_right s') /\ (pend_ok s -> pend_ok s') /\
  (lb s' = lb s /\ ub s' = ub s /\ cst s' = cst s /\ ct s' = ct s /\ rt s' = rt s /\
   acts s' = acts s /\ lhs s' = lhs s /\ rhs s' = rhs s /\ nr s' = nr s /\ nc s' = nc s /\
   w_fixed s' = w_fixed s /\ w_sub s' = w_sub s /\ off s' = off s) /\
  (forall i, (i < nr s)%nat -> t_inact (rt s i) = false -> mA s' i = mA s i) /\
  (empty_act s -> empty_act s').
Proof.
  intros s H. destruct (delete_inactive_rows_Inv s H) as [I' AD]. cbv zeta.
  set (s' := delete_inactive_rows s) in *.
  destruct (dir_frame _ _ AD) as [u [d [c0 [M0 [r0 [n0 [MT [we [ws F]]]]]]]]].
  assert (ENR : nr s' = nr s) by (rewrite F; reflexivity).
  assert (ENC : nc s' = nc s) by (rewrite F; reflexivity).
  assert (ERT : rt s' = rt s) by (rewrite F; reflexivity).
  assert (ECT : ct s' = ct s) by (rewrite F; reflexivity).
  assert (ELB : lb s' = lb s) by (rewrite F; reflexivity).
  assert (EUB : ub s' = ub s) by (rewrite F; reflexivity).
  assert (ECS : cst s' = cst s) by (rewrite F; reflexivity).
  assert (EAC : acts s' = acts s) by (rewrite F; reflexivity).
  assert (EL : lhs s' = lhs s) by (rewrite F; reflexivity).
  assert (ER : rhs s' = rhs s) by (rewrite F; reflexivity).
  assert (EF : w_fixed s' = w_fixed s) by (rewrite F; reflexivity).
  assert (ES : w_sub s' = w_sub s) by (rewrite F; reflexivity).
  assert (EO : off s' = off s) by (rewrite F; reflexivity).
  split; [|split; [|split; [|split; [|split; [|split]]]]]; auto 15.
  - intros r c x. unfold sat, pinned. rewrite ENR, ENC, ERT, ECT, ELB, EUB, EL, ER, EF, ES.
    split; (intros [A B]; split; [|exact B]); intros i Hi T; specialize (A i Hi T);
      rewrite (dir_A _ _ AD) in *; auto.
  - intros x. unfold obj. rewrite EO, ECS. apply Qplus_inj_l. apply sumQ_same; try apply live_cols_nd.
    intros k. rewrite !live_cols_in, ENC. split; intros [A B]; split; auto; intros C; apply B;
      apply (dir_csz _ _ AD); auto.
  - intros [G1 G2 G3 G4 G5]. constructor; rewrite ?ENR, ?ENC, ?ERT, ?ECT, ?ELB, ?EUB, ?EL, ?ER; auto.
  - intros [P1 P2]. constructor; rewrite ?EF; auto. intros k Hk. rewrite ECT.
    destruct (P2 k Hk) as [A B]. split; auto. intros C. apply A. apply (dir_csz _ _ AD); auto.
    apply (l_fixed s (inv_L s H) k Hk).
  - apply (dir_A _ _ AD).
  - intros AE i. rewrite ERT, F. sr. apply AE.
Qed.

(** ** Bounds *)
Lemma fix_col_cases : forall s k v ck,
  let '(s1, st) := fix_col k v ck s in
  st = INFEASIBLE /\ s1 = s /\
    (t_ub_inf (ct s k) = false /\ fin (ub s k) + FEAS_TOL <= v \/
     t_lb_inf (ct s k) = false /\ v <= fin (lb s k) - FEAS_TOL) \/
  st = REDUCED /\
    (t_ub_inf (ct s k) = false -> v < fin (ub s k) + FEAS_TOL) /\
    (t_lb_inf (ct s k) = false -> fin (lb s k) - FEAS_TOL < v) /\
    exists A W, s1 = set_w_acts W (set_acts A (set_lb1 k (Fin v) (set_ub1 k (Fin v)
      (record (FIXED_COL k v ck (mAT s k)) (set_col_to_fixed k s))))).
Proof.
  intros s k v ck. unfold fix_col.
  destruct (t_ub_inf (ct s k)) eqn:TU; destruct (t_lb_inf (ct s k)) eqn:TL; cbn [negb andb orb];
  repeat match goal with |- context [if ?b then (s, INFEASIBLE) else _] => destruct b eqn:?E end;
  rewrite ?orb_true_iff, ?orb_false_iff in *; qb;
  try (left; split; [reflexivity|]; split; [reflexivity|]; intuition (qb; lra); fail).
  all: try (left; split; [reflexivity|]; split; [reflexivity|];
    repeat match goal with E : _ \/ _ |- _ => destruct E end; try discriminate; qb; auto; fail).
  all: right; split; [reflexivity|]; repeat match goal with E : _ /\ _ |- _ => destruct E end; qb;
    split; [intros; try discriminate; auto|split; [intros; try discriminate; auto|]].
  all: match goal with |- exists A W, ?t = _ =>
    match t with update_activities_fixed_col ?a ?b ?c ?d ?e ?f ?g ?h ?x =>
      destruct (acts_only_fixed_col a b c d e f g h x) as [A [W EQ]] end end;
    exists A, W; exact EQ.
Qed.

Definition lb_new (k : nat) (v : Q) (i : nat) (s s1 : state) : Prop := exists A W,
  s1 = record (BOUND_CHANGE_THE_ROW i (mA s i) 1) (record (BOUND_CHANGE_NO_ROW k v (ub s k) false)
         (set_ct1 k (untag_lb_inf (ct s k)) (set_w_acts W (set_acts A (set_lb1 k (Fin v) s))))).
Definition ub_new (k : nat) (v : Q) (i : nat) (s s1 : state) : Prop := exists A W,
  s1 = record (BOUND_CHANGE_THE_ROW i (mA s i) 1) (record (BOUND_CHANGE_NO_ROW k v (lb s k) true)
         (set_ct1 k (untag_ub_inf (ct s k)) (set_w_acts W (set_acts A (set_ub1 k (Fin v) s))))).

Lemma update_lb_cases : forall k v i s,
  let '(s1, st) := update_lb k v i s in
  st = INFEASIBLE /\ s1 = s /\ t_ub_inf (ct s k) = false /\ fin (ub s k) + FEAS_TOL <= v \/
  st = UNCHANGED /\ (t_ub_inf (ct s k) = false -> v < fin (ub s k) + FEAS_TOL) /\
    (s1 = s /\ t_lb_inf (ct s k) = false /\ v < fin (lb s k) + FEAS_TOL \/
     (t_lb_inf (ct s k) = false -> fin (lb s k) + FEAS_TOL <= v) /\ lb_new k v i s s1).
Proof.
  intros k v i s. unfold update_lb.
  destruct (negb (t_ub_inf (ct s k)) && Qgeb v (fin (ub s k) + FEAS_TOL)) eqn:E1.
  - apply andb_true_iff in E1. destruct E1 as [E1 E2]. apply negb_true_iff in E1. qb. left; auto.
  - assert (U : t_ub_inf (ct s k) = false -> v < fin (ub s k) + FEAS_TOL).
    { intros T. rewrite T in E1. simpl in E1. qb. exact E1. }
    destruct (t_lb_inf (ct s k) || Qgeb v (fin (lb s k) + FEAS_TOL)) eqn:E2.
    + right. split; [reflexivity|]. split; auto. right. split.
      { intros T. rewrite T in E2. simpl in E2. qb. exact E2. }
      match goal with |- context [update_activities_bound_change ?a ?b ?c ?d ?e ?x] =>
        destruct (acts_only_bound_change a b c d e x) as [A [W EQ]] end.
      rewrite EQ. exists A, W. sr. reflexivity.
    + right. split; [reflexivity|]. split; auto. left. apply orb_false_iff in E2. destruct E2. qb. auto.
Qed.
Lemma update_ub_cases : forall k v i s,
  let '(s1, st) := update_ub k v i s in
  st = INFEASIBLE /\ s1 = s /\ t_lb_inf (ct s k) = false /\ v <= fin (lb s k) - FEAS_TOL \/
  st = UNCHANGED /\ (t_lb_inf (ct s k) = false -> fin (lb s k) - FEAS_TOL < v) /\
    (s1 = s /\ t_ub_inf (ct s k) = false /\ fin (ub s k) - FEAS_TOL < v \/
     (t_ub_inf (ct s k) = false -> v <= fin (ub s k) - FEAS_TOL) /\ ub_new k v i s s1).
Proof.
  intros k v i s. unfold update_ub.
  destruct (negb (t_lb_inf (ct s k)) && Qleb v (fin (lb s k) - FEAS_TOL)) eqn:E1.
  - apply andb_true_iff in E1. destruct E1 as [E1 E2]. apply negb_true_iff in E1. qb. left; auto.
  - assert (U : t_lb_inf (ct s k) = false -> fin (lb s k) - FEAS_TOL < v).
    { intros T. rewrite T in E1. simpl in E1. qb. exact E1. }
    destruct (t_ub_inf (ct s k) || Qleb v (fin (ub s k) - FEAS_TOL)) eqn:E2.
    + right. split; [reflexivity|]. split; auto. right. split.
      { intros T. rewrite T in E2. simpl in E2. qb. exact E2. }
      match goal with |- context [update_activities_bound_change ?a ?b ?c ?d ?e ?x] =>
        destruct (acts_only_bound_change a b c d e x) as [A [W EQ]] end.
      rewrite EQ. exists A, W. sr. reflexivity.
    + right. split; [reflexivity|]. split; auto. left. apply orb_false_iff in E2. destruct E2. qb. auto.
Qed.

(** ** A step that keeps the meaning.
    [C]: solutions considered going forward; [r], [c]: tolerances going back. *)
Record semstep (C : (nat -> Q) -> Prop) (r c : nat -> Q) (s t : state) : Prop := {
  se_tags : tags_right t;
  se_pend : pend_ok t;
  se_empty : empty_act t;
  se_fwd : forall x, C x -> sat zero zero s x -> sat zero zero t x;
  se_bwd : forall x, sat r c t x -> sat r c s x;
  se_obj : forall x, obj t x == obj s x }.
Lemma semstep_refl : forall (C : (nat -> Q) -> Prop) r c s, tags_right s -> pend_ok s -> empty_act s -> semstep C r c s s.
Proof. intros. constructor; auto. intros; lra. Qed.
Lemma semstep_trans : forall (C : (nat -> Q) -> Prop) r c s t u, semstep C r c s t -> semstep C r c t u -> semstep C r c s u.
Proof.
  intros C r c s t u [A B Z D E F] [A' B' Z' D' E' F']. constructor; auto.
  intros x. rewrite F'. apply F.
Qed.
Lemma sat_weaken : forall r c r' c' s x, (forall i, r i <= r' i) -> (forall k, c k <= c' k) ->
  sat r c s x -> sat r' c' s x.
Proof.
  intros r c r' c' s x R C [A [B D]]. split; [|split; [|exact D]].
  - intros. eapply within_le; [apply R|]; auto.
  - intros. eapply within_le; [apply C|]; auto.
Qed.

Lemma ext_le_fin : forall e q, is_fin e = true -> (ext_le e q <-> fin e <= q).
Proof. destruct e; simpl; intros; try discriminate; tauto. Qed.
Lemma le_ext_fin : forall e q, is_fin e = true -> (le_ext q e <-> q <= fin e).
Proof. destruct e; simpl; intros; try discriminate; tauto. Qed.

(** *** Fixing an active column *)
Lemma fix_col_sem : forall (C : (nat -> Q) -> Prop) r c s k v ck s1, (k < nc s)%nat -> t_cinact (ct s k) = false ->
  tags_right s -> pend_ok s -> empty_act s -> Inv s ->
  fix_col k v ck s = (s1, REDUCED) ->
  (forall x, C x -> sat zero zero s x -> x k == v) ->
  (FEAS_TOL <= c k \/ (0 <= c k /\ ext_le (lb s k) v /\ le_ext v (ub s k))) ->
  semstep C r c s s1.
Proof.
  intros C r c s k v ck s1 Hk TK TG PO AE H E HC CK.
  pose proof (fix_col_cases s k v ck) as X. rewrite E in X.
  destruct X as [[X _]|[_ [UB [LB [A [W E1]]]]]]; [discriminate|]. subst s1.
  assert (TK' := TK). unfold t_cinact in TK'. apply orb_false_iff in TK'. destruct TK' as [TF TS].
  assert (NF : ~ In k (w_fixed s)).
  { intros X. destruct (l_fixed s (inv_L s H) k X). congruence. }
  assert (NS : ~ In k (w_sub s)).
  { intros X. destruct (l_sub s (inv_L s H) k X). congruence. }
  constructor.
  - destruct TG as [G1 G2 G3 G4 G5]. constructor; unfold set_col_to_fixed; sr;
      intros j Hj; updg; try discriminate; first [apply G1|apply G2|apply G3|apply G4|apply G5]; auto.
  - destruct PO as [P1 P2]. constructor; unfold set_col_to_fixed; sr.
    + apply NoDup_app_one; auto.
    + intros j Hj. apply In_app_one in Hj. destruct Hj as [Hj| ->].
      * rewrite upd_other by congruence. auto.
      * rewrite upd_same. split; [|exact TS]. apply cact_alive; auto. apply H.
  - exact AE.
  - intros x Cx S. pose proof (HC x Cx S) as XK. destruct S as [S1 [S2 [S3 S4]]].
    split; [|split; [|split]]; unfold set_col_to_fixed; sr; auto.
    + intros j Hj. updg; [discriminate|]. auto.
    + intros j Hj. apply In_app_one in Hj. destruct Hj as [Hj| ->].
      * rewrite upd_other by congruence. auto.
      * rewrite upd_same. exact XK.
  - intros x [S1 [S2 [S3 S4]]]. unfold set_col_to_fixed in *. sra.
    assert (XK : x k == v).
    { specialize (S3 k). rewrite upd_same in S3. apply S3. apply in_or_app; right; left; reflexivity. }
    split; [|split; [|split]]; auto.
    + intros j Hj TJ. destruct (Nat.eq_dec j k) as [->|D].
      * apply (within_ext _ _ v _ _); [lra|].
        pose proof (tr_lb s TG k Hk TK) as L0. pose proof (tr_ub s TG k Hk TK) as U0.
        destruct CK as [CK|[CK [L1 U1]]].
        -- split.
           ++ destruct (t_lb_inf (ct s k)); [rewrite L0; exact I|]. apply ext_le_fin; auto.
              specialize (LB eq_refl). lra.
           ++ destruct (t_ub_inf (ct s k)); [rewrite U0; exact I|]. apply le_ext_fin; auto.
              specialize (UB eq_refl). lra.
        -- apply (within_le 0 _ _ _ _ CK). apply within0. auto.
      * specialize (S2 j Hj). rewrite !upd_other in S2 by auto. auto.
    + intros j Hj. specialize (S3 j). rewrite upd_other in S3 by congruence. apply S3.
      apply in_or_app; auto.
  - intros x. unfold obj, live_cols, set_col_to_fixed. sr. lra.
Qed.

(** *** Tightening a bound of an active column *)
Lemma lb_new_sem : forall (C : (nat -> Q) -> Prop) r c s k v i s1, (k < nc s)%nat -> t_cinact (ct s k) = false ->
  tags_right s -> pend_ok s -> empty_act s -> Inv s ->
  lb_new k v i s s1 -> (t_lb_inf (ct s k) = false -> fin (lb s k) <= v) ->
  (forall x, C x -> sat zero zero s x -> v <= x k) -> semstep C r c s s1.
Proof.
  intros C r c s k v i s1 Hk TK TG PO AE H [A [W ->]] LE HC.
  assert (TK' := TK). unfold t_cinact in TK'. apply orb_false_iff in TK'. destruct TK' as [TF TS].
  assert (CE : forall j, t_cinact (upd (ct s) k (untag_lb_inf (ct s k)) j) = t_cinact (ct s j)).
  { intros j. updg; auto. }
  constructor.
  - destruct TG as [G1 G2 G3 G4 G5]. constructor; sr; auto; intros j Hj; rewrite CE; intros T.
    + updg; [reflexivity|]. apply G4; auto.
    + updg; apply G5; auto.
  - destruct PO as [P1 P2]. constructor; sr; auto. intros j Hj. updg; apply P2; auto.
  - exact AE.
  - intros x Cx S. pose proof (HC x Cx S) as XK. destruct S as [S1 [S2 S3]].
    split; [|split]; sr; auto. intros j Hj. rewrite CE. intros T. specialize (S2 j Hj T).
    updg; [|exact S2]. destruct S2 as [_ S2]. split; auto. simpl. unfold exactly. lra.
  - intros x [S1 [S2 S3]]. sra. split; [|split]; auto.
    intros j Hj T. specialize (S2 j Hj). rewrite CE in S2. specialize (S2 T). updh S2; [|exact S2].
    destruct S2 as [L U]. split; [|exact U]. simpl in L.
    pose proof (tr_lb s TG k Hk TK) as L0. destruct (t_lb_inf (ct s k)); [rewrite L0; exact I|].
    apply ext_le_fin; auto. specialize (LE eq_refl). lra.
  - intros x. unfold obj, live_cols. sr. lra.
Qed.
Lemma ub_new_sem : forall (C : (nat -> Q) -> Prop) r c s k v i s1, (k < nc s)%nat -> t_cinact (ct s k) = false ->
  tags_right s -> pend_ok s -> empty_act s -> Inv s ->
  ub_new k v i s s1 -> (t_ub_inf (ct s k) = false -> v <= fin (ub s k)) ->
  (forall x, C x -> sat zero zero s x -> x k <= v) -> semstep C r c s s1.
Proof.
  intros C r c s k v i s1 Hk TK TG PO AE H [A [W ->]] LE HC.
  assert (TK' := TK). unfold t_cinact in TK'. apply orb_false_iff in TK'. destruct TK' as [TF TS].
  assert (CE : forall j, t_cinact (upd (ct s) k (untag_ub_inf (ct s k)) j) = t_cinact (ct s j)).
  { intros j. updg; auto. }
  assert (WF : forall j, In j (w_fixed s) -> j <> k).
  { intros j Hj ->. destruct (l_fixed s (inv_L s H) k Hj). congruence. }
  constructor.
  - destruct TG as [G1 G2 G3 G4 G5]. constructor; sr; auto; intros j Hj; rewrite CE; intros T.
    + updg; apply G4; auto.
    + updg; [reflexivity|]. apply G5; auto.
  - destruct PO as [P1 P2]. constructor; sr; auto. intros j Hj. updg; apply P2; auto.
  - exact AE.
  - intros x Cx S. pose proof (HC x Cx S) as XK. destruct S as [S1 [S2 [S3 S4]]].
    split; [|split; [|split]]; sr; auto.
    + intros j Hj. rewrite CE. intros T. specialize (S2 j Hj T).
      updg; [|exact S2]. destruct S2 as [S2 _]. split; auto. simpl. unfold exactly. lra.
    + intros j Hj. rewrite upd_other by auto. auto.
  - intros x [S1 [S2 [S3 S4]]]. sra. split; [|split; [|split]]; auto.
    + intros j Hj T. specialize (S2 j Hj). rewrite CE in S2. specialize (S2 T). updh S2; [|exact S2].
      destruct S2 as [L U]. split; [exact L|]. simpl in U.
      pose proof (tr_ub s TG k Hk TK) as L0. destruct (t_ub_inf (ct s k)); [rewrite L0; exact I|].
      apply le_ext_fin; auto. specialize (LE eq_refl). lra.
    + intros j Hj. specialize (S3 j Hj). rewrite upd_other in S3 by auto. exact S3.
  - intros x. unfold obj, live_cols. sr. lra.
Qed.

(** *** Dropping a row *)
Lemma drop_row_sem : forall (C : (nat -> Q) -> Prop) r c s i v, tags_right s -> pend_ok s ->
  empty_act s -> ~ In i (w_empty_rows s) -> (i < nr s)%nat ->
  t_inact (rt s i) = false ->
  (forall x, sat r c (set_row_to_inactive i v s) x ->
     within (r i) (lhs s i) (dot (mA s i) x) (rhs s i)) ->
  semstep C r c s (set_row_to_inactive i v s).
Proof.
  intros C r c s i v TG PO AE NE Hi T HB.
  constructor.
  - destruct TG as [G1 G2 G3 G4 G5]. unfold set_row_to_inactive.
    constructor; sr; auto; intros j Hj; updg; try discriminate;
      first [apply G1|apply G2|apply G3|apply G4|apply G5]; auto.
  - destruct PO as [P1 P2]. unfold set_row_to_inactive. constructor; sr; auto.
  - intros j Hj. unfold set_row_to_inactive in *. sra. rewrite upd_other by congruence. auto.
  - intros x _ [S1 [S2 S3]]. unfold set_row_to_inactive. split; [|split]; sr; auto.
    intros j Hj. updg; [discriminate|]. auto.
  - intros x S. pose proof (HB x S) as HB'. destruct S as [S1 [S2 S3]].
    unfold set_row_to_inactive in *. sra. split; [|split]; auto.
    intros j Hj TJ. destruct (Nat.eq_dec j i) as [->|D]; [exact HB'|].
    specialize (S1 j Hj). rewrite upd_other in S1 by auto. auto.
  - intros x. unfold obj, live_cols, set_row_to_inactive. sr. lra.
Qed.
