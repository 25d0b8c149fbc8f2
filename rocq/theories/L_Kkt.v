(** Replaying the log: signs of the duals and complementary slackness. *)
From Coq Require Import NArith Lqa.
From Verif Require Import M_Num S_LP M_Settings M_Driver S_Driver M_State M_Act M_Core M_Simple
  M_StonCols M_Dton M_Parallel M_Propagate M_Init M_Post M_Run S_Run S_Struct S_Sem S_Log S_Kkt
  L_State L_Struct L_Struct2 L_Struct3 L_Struct4 L_Struct5 L_Struct6 L_Struct11 L_Sem L_Sem2 L_Sem3 L_Sem4 L_Mid L_Mid2
  L_Post L_Post2 L_Post3.
Import M_Driver.
Notation bad := M_State.bad.
Open Scope Q_scope.

Lemma pressed_ext : forall t m l v u m' l' v' u', pressed t m l v u -> m == m' -> v == v' -> l' = l -> u' = u ->
  pressed t m' l' v' u'.
Proof.
  intros t m l v u m' l' v' u' [A B] M V -> ->. split; intros H.
  - destruct A as [q [E L]]; [lra|]. exists q. split; auto. rewrite <- V; auto.
  - destruct B as [q [E L]]; [lra|]. exists q. split; auto. rewrite <- V; auto.
Qed.
Lemma pressed_0 : forall t m l v u, m == 0 -> pressed t m l v u.
Proof. intros t m l v u E. split; intros; exfalso; lra. Qed.

Section Kkt.
Variable rtol : nat -> Q.
Variable ctol : Q.
Hypothesis ctol0 : 0 <= ctol.
Hypothesis ctol1 : ctol <= FEAS_TOL.
Hypothesis rtol0 : forall i, 0 <= rtol i.
Notation St := (L_Post.St True).
Notation Back := (L_Post.Back True).

(** the value of a column that waits to be deleted is known *)
Definition xv (s : state) (t : solution) (k : nat) : Q := if t_fixed (ct s k) then fin (ub s k) else val (sx t k).
Record CS (s : state) (t : solution) : Prop := {
  cs_row : forall i, (i < nr s)%nat -> t_inact (rt s i) = false ->
    pressed (rtol i) (val (sy t i)) (lhs s i) (dot (mA s i) (xv s t)) (rhs s i);
  cs_col : forall k, (k < nc s)%nat -> t_cinact (ct s k) = false ->
    pressed ctol (val (sz t k)) (lb s k) (val (sx t k)) (ub s k) }.
(** rows only lose entries *)
Definition sub (s s' : state) : Prop := nr s' = nr s /\ forall i k a, (i < nr s)%nat -> t_inact (rt s' i) = false ->
  In (k, a) (mA s' i) -> t_inact (rt s i) = false /\ In (k, a) (mA s i).
Definition cover (s : state) : Prop := forall i k a, (i < nr s)%nat -> t_inact (rt s i) = false ->
  In (k, a) (mA s i) -> Qabs a * ctol <= rtol i.
Lemma sub_refl : forall s, sub s s.
Proof. split; auto. Qed.
Lemma sub_trans : forall a b c, sub a b -> sub b c -> sub a c.
Proof.
  intros a b c [N1 H1] [N2 H2]. split; [congruence|]. intros i k v Hi T Hin.
  destruct (H2 i k v ltac:(rewrite N1; auto) T Hin) as [T1 I1]. apply H1; auto.
Qed.
Lemma sub_cover : forall s s', sub s s' -> cover s -> cover s'.
Proof. intros s s' [N H] C i k a Hi T Hin. rewrite N in Hi. destruct (H i k a Hi T Hin). eapply C; eauto. Qed.
Lemma sub_same : forall s s', nr s' = nr s -> mA s' = mA s -> (forall i, t_inact (rt s i) = true -> t_inact (rt s' i) = true) -> sub s s'.
Proof.
  intros s s' A B C. split; auto. intros i k a Hi T Hin. rewrite B in Hin. split; auto.
  destruct (t_inact (rt s i)) eqn:E; auto. rewrite C in T; auto.
Qed.
Definition KB (s s' : state) : Prop := Back s s' /\ sub s s' /\
  forall new t, cover s -> log s' = new ++ log s -> St s' t -> CS s' t -> CS s (replay None new t).

Lemma replay_nil : forall t, replay None [] t = t.
Proof. reflexivity. Qed.
Lemma KB_refl : forall s, KB s s.
Proof.
  intros s. split; [apply Back_refl|]. split; [apply sub_refl|]. intros new t _ L _ C.
  assert (E : new = []) by (apply (app_inv_tail (log s)); auto). rewrite E, replay_nil. auto.
Qed.
Lemma KB_trans : forall a b c, KB a b -> KB b c -> KB a c.
Proof.
  intros a b c [B1 [SB1 K1]] [B2 [SB2 K2]]. split; [eapply Back_trans; eauto|]. split; [eapply sub_trans; eauto|].
  intros new t CV L ST C.
  destruct B1 as [n1 [L1 _]]. destruct B2 as [n2 [L2 [_ B2]]].
  assert (E : new = n2 ++ n1).
  { apply (app_inv_tail (log a)). rewrite <- L, L2, L1, app_assoc. reflexivity. }
  destruct (B2 t ST) as [t1 [S1 [_ R1]]]. rewrite E, R1.
  assert (E1 : t1 = replay None n2 t) by (specialize (R1 []); rewrite app_nil_r in R1; rewrite R1; reflexivity).
  apply (K1 n1 t1 CV L1 S1). rewrite E1. apply (K2 n2 t (sub_cover _ _ SB1 CV) L2 ST C).
Qed.
(** steps that log one record, or none *)
Lemma KB_silent : forall s s', Back s s' -> sub s s' -> log s' = log s -> (forall t, CS s' t -> CS s t) -> KB s s'.
Proof.
  intros s s' B SB L C. split; auto. split; auto. intros new t _ LN _ HC.
  assert (E : new = []) by (apply (app_inv_tail (log s)); rewrite <- LN, L; reflexivity). rewrite E, replay_nil. auto.
Qed.
Lemma KB_one : forall s s' r, Back s s' -> sub s s' -> log s' = r :: log s -> (forall i e n, r <> BOUND_CHANGE_THE_ROW i e n) ->
  (forall t, cover s -> St s' t -> CS s' t -> CS s (retrieve_one r t)) -> KB s s'.
Proof.
  intros s s' r B SB L N C. split; auto. split; auto. intros new t CV LN ST HC.
  assert (E : new = [r]) by (apply (app_inv_tail (log s)); rewrite <- LN, L; reflexivity). rewrite E, replay_one by auto.
  rewrite replay_nil. auto.
Qed.

(** ** Silent steps *)
Record still (s s' : state) : Prop := {
  sl_nr : nr s' = nr s;  sl_nc : nc s' = nc s;
  sl_rt : forall i, (i < nr s)%nat -> t_inact (rt s i) = false -> t_inact (rt s' i) = false;
  sl_ct : forall k, (k < nc s)%nat -> t_cinact (ct s k) = false -> t_cinact (ct s' k) = false;
  sl_bnd : forall k, (k < nc s)%nat -> t_cinact (ct s k) = false -> lb s' k = lb s k /\ ub s' k = ub s k;
  sl_fx : forall i k a, (i < nr s)%nat -> t_inact (rt s i) = false -> In (k, a) (mA s i) ->
    t_fixed (ct s' k) = t_fixed (ct s k) /\ (t_fixed (ct s k) = true -> ub s' k = ub s k);
  sl_row : forall i, (i < nr s)%nat -> t_inact (rt s i) = false -> mA s' i = mA s i /\
    (lhs s' i = lhs s i \/ lhs s' i = NInf) /\ (rhs s' i = rhs s i \/ rhs s' i = PInf) }.
Lemma still_CS : forall s s' t, still s s' -> CS s' t -> CS s t.
Proof.
  intros s s' t [A B C D E F G] [R K]. constructor.
  - intros i Hi Ti. specialize (R i ltac:(rewrite A; auto) (C i Hi Ti)). destruct (G i Hi Ti) as (G1 & G2 & G3).
    rewrite G1 in R.
    assert (X : dot (mA s i) (xv s' t) == dot (mA s i) (xv s t)).
    { apply dot_ext. intros k a Hk. unfold xv. destruct (F i k a Hi Ti Hk) as [F1 F2]. rewrite F1.
      destruct (t_fixed (ct s k)); [rewrite F2 by auto|]; lra. }
    destruct R as [R1 R2]. split; intros H.
    + destruct (R1 H) as [q [Q1 Q2]]. rewrite X in Q2. exists q. split; auto. destruct G2 as [G2|G2]; congruence.
    + destruct (R2 H) as [q [Q1 Q2]]. rewrite X in Q2. exists q. split; auto. destruct G3 as [G3|G3]; congruence.
  - intros k Hk Tk. specialize (K k ltac:(rewrite B; auto) (D k Hk Tk)). destruct (E k Hk Tk) as [-> ->] in K. auto.
Qed.
Lemma still_KB : forall s s', Back s s' -> sub s s' -> log s' = log s -> still s s' -> KB s s'.
Proof. intros s s' B SB L S. apply KB_silent; auto. intros t. apply still_CS; auto. Qed.
Lemma still_same : forall s s', nr s' = nr s -> nc s' = nc s -> rt s' = rt s -> ct s' = ct s -> lb s' = lb s -> ub s' = ub s ->
  mA s' = mA s -> lhs s' = lhs s -> rhs s' = rhs s -> still s s'.
Proof.
  intros s s' A B C D E F G H I. constructor; auto; rewrite ?C, ?D, ?E, ?F, ?G, ?H, ?I; auto.
Qed.

Lemma dir_KB : forall s, Inv s -> KB s (delete_inactive_rows s).
Proof.
  intros s H. destruct (delete_inactive_rows_Inv s H) as [_ AD].
  destruct (dir_sem s H) as (_ & _ & _ & _ & (E1 & E2 & _ & E3 & E4 & _ & E5 & E6 & E7 & E8 & _) & M & _).
  pose proof (dir_frame _ _ AD) as (? & ? & ? & ? & ? & ? & ? & ? & ? & F).
  assert (EL : log (delete_inactive_rows s) = log s) by (rewrite F; reflexivity). clear F.
  apply still_KB; [apply dir_Back; auto|split; auto; intros i k a Hi; intros T; rewrite E4 in T; rewrite M by auto; auto|auto|]. constructor; auto; rewrite ?E3, ?E4, ?E1, ?E2, ?E5, ?E6; auto.
Qed.
Lemma finish_log : forall s, Inv s -> w_sub s = [] \/ w_ston_rows s = [] -> log (finish s) = log s.
Proof.
  intros s H P. destruct (finish_cols s H P) as (_ & _ & _ & _ & _ & _ & AD). fold (finish s) in AD.
  pose proof (dic_frame _ _ AD) as (? & ? & ? & ? & ? & ? & ? & ? & ? & F). rewrite F. sr.
  apply foldS_keep. intros; apply dfc1_keep.
Qed.
Lemma finish_KB : forall s, Inv s -> tags_right s -> pend_ok s -> w_sub s = [] -> KB s (finish s).
Proof.
  intros s H TG PO WS. pose proof (or_introl WS : w_sub s = [] \/ w_ston_rows s = []) as PRE.
  destruct (finish_sem s H TG PO PRE) as (_ & _ & _ & (E1 & E2 & _ & E3 & E4 & _ & _ & E5 & E6) & M & _).
  apply KB_silent; [apply finish_Back; auto| |apply finish_log; auto|].
  { split; auto. intros i k a Hi T Hin. rewrite E4 in T. rewrite (proj1 (M i Hi T)) in Hin. apply filter_In in Hin. tauto. }
  set (s' := finish s) in *. clearbody s'. intros t [R K]. constructor.
  - intros i Hi Ti. specialize (R i ltac:(rewrite E5; auto) ltac:(rewrite E4; auto)).
    destruct (M i Hi Ti) as [M1 [M2 [M3 _]]]. rewrite M1 in R.
    assert (PN : pinned s (xv s t)).
    { split; [|rewrite WS; intros k []]. intros k Hk. unfold xv.
      destruct (l_fixed s (inv_L s H) k Hk) as [_ ->]. lra. }
    pose proof (filter_cinact_part s i (xv s t) H Hi Ti PN) as X.
    assert (Y : dot (filter (fun e => negb (t_cinact (ct s (fst e)))) (mA s i)) (xv s' t) ==
                dot (filter (fun e => negb (t_cinact (ct s (fst e)))) (mA s i)) (xv s t)).
    { apply dot_ext. intros k a _. unfold xv. rewrite E3, E2. lra. }
    rewrite <- Y in X. set (d := part _ _ _) in *. clearbody d. clear Y PN M1.
    destruct R as [R1 R2]. unfold moved in *. split; intros HY.
    + destruct (R1 HY) as [q [Q1 Q2]]. rewrite Q1 in M2.
      destruct (lhs s i) as [|p|]; [discriminate| |discriminate]. destruct M2 as [q' [Eq M2]]. injection Eq as <-. exists p. split; auto.
      setoid_replace (dot (mA s i) (xv s t) - p) with (dot (filter (fun e => negb (t_cinact (ct s (fst e)))) (mA s i)) (xv s' t) - q); auto.
      rewrite X. lra.
    + destruct (R2 HY) as [q [Q1 Q2]]. rewrite Q1 in M3.
      destruct (rhs s i) as [|p|]; [discriminate| |discriminate]. destruct M3 as [q' [Eq M3]]. injection Eq as <-. exists p. split; auto.
      setoid_replace (dot (mA s i) (xv s t) - p) with (dot (filter (fun e => negb (t_cinact (ct s (fst e)))) (mA s i)) (xv s' t) - q); auto.
      rewrite X. lra.
  - intros k Hk Tk. specialize (K k ltac:(rewrite E6; auto) ltac:(rewrite E3; auto)). rewrite E1, E2 in K. auto.
Qed.

(** ** A row removed with multiplier 0 *)
Lemma row0_KB : forall s s' i, Back s s' -> nr s' = nr s -> nc s' = nc s -> mA s' = mA s -> ct s' = ct s -> lb s' = lb s ->
  ub s' = ub s -> lhs s' = lhs s -> rhs s' = rhs s -> (forall j, j <> i -> rt s' j = rt s j) -> t_inact (rt s' i) = true ->
  log s' = DELETED_ROW i 0 :: log s -> KB s s'.
Proof.
  intros s s' i B A1 A2 A3 A4 A5 A6 A7 A8 R RI L. eapply KB_one; [auto| |exact L|discriminate|].
  - apply sub_same; auto. intros j T. destruct (Nat.eq_dec j i) as [->|N]; auto. rewrite R; auto.
  - intros t _ _ [CR CC]. cbn [retrieve_one]. unfold retrieve_deleted_row. constructor; cbn [put_y sx sy sz].
    + intros j Hj T. destruct (Nat.eq_dec j i) as [->|N]; [rewrite upd_same; apply pressed_0; reflexivity|rewrite upd_other by auto].
      specialize (CR j ltac:(rewrite A1; auto) ltac:(rewrite R; auto)). rewrite A3, A7, A8 in CR.
      eapply pressed_ext; [exact CR|lra| |auto|auto]. apply dot_ext. intros k a _. unfold xv. rewrite A4, A6. cbn [put_y sx]. lra.
    + intros k Hk T. specialize (CC k ltac:(rewrite A2; auto) ltac:(rewrite A4; auto)). rewrite A5, A6 in CC. exact CC.
Qed.
Lemma set_row_inactive_KB : forall s i, (i < nr s)%nat -> KB s (set_row_to_inactive i 0 s).
Proof.
  intros s i Hi. apply (row0_KB s _ i); [apply set_row_inactive_Back; auto|unfold set_row_to_inactive; sr; auto..].
  - intros j N. rewrite upd_other; auto.
  - rewrite upd_same. reflexivity.
Qed.

(** ** A column fixed *)
Record fixing (s s' : state) (k : nat) (v : Q) : Prop := {
  fg_nr : nr s' = nr s;  fg_nc : nc s' = nc s;
  fg_rt : forall i, (i < nr s)%nat -> t_inact (rt s i) = false -> t_inact (rt s' i) = false;
  fg_row : forall i, (i < nr s)%nat -> t_inact (rt s i) = false -> mA s' i = mA s i /\ lhs s' i = lhs s i /\ rhs s' i = rhs s i;
  fg_ct : forall j, j <> k -> ct s' j = ct s j /\ lb s' j = lb s j /\ ub s' j = ub s j;
  fg_k : forall i a, (i < nr s)%nat -> t_inact (rt s i) = false -> In (k, a) (mA s i) ->
    t_fixed (ct s k) = false /\ t_fixed (ct s' k) = true /\ fin (ub s' k) == v }.
Lemma fixing_CS : forall s s' k v ck col t, fixing s s' k v -> CS s' t ->
  (t_cinact (ct s k) = false -> pressed ctol (ck - ysum (sy t) col) (lb s k) v (ub s k)) ->
  CS s (retrieve_fix_col k v ck col t).
Proof.
  intros s s' k v ck col t [A1 A2 A3 A4 A5 A7] [CR CC] P. unfold retrieve_fix_col.
  constructor; cbn [put_z put_x err_if sx sy sz].
  - intros i Hi T. specialize (CR i ltac:(rewrite A1; auto) (A3 i Hi T)). destruct (A4 i Hi T) as (B1 & B2 & B3).
    rewrite B1 in CR. eapply pressed_ext; [exact CR|lra| |auto|auto]. apply dot_ext. intros j a Hj. unfold xv.
    cbn [put_z put_x err_if sx]. destruct (Nat.eq_dec j k) as [->|N].
    + rewrite upd_same. destruct (A7 i a Hi T Hj) as (-> & -> & E). exact E.
    + rewrite upd_other by auto. destruct (A5 j N) as (-> & _ & ->). lra.
  - intros j Hj T. destruct (Nat.eq_dec j k) as [->|N].
    + rewrite !upd_same. cbn [val]. auto.
    + rewrite !upd_other by auto. destruct (A5 j N) as (B1 & B2 & B3).
      specialize (CC j ltac:(rewrite A2; auto) ltac:(rewrite B1; auto)). rewrite B2, B3 in CC. exact CC.
Qed.
Lemma fixing_sub : forall s s' k v, fixing s s' k v -> rt s' = rt s -> sub s s'.
Proof.
  intros s s' k v F E. split; [apply F|]. intros i j a Hi T Hin. rewrite E in T. split; auto.
  destruct (fg_row _ _ _ _ F i Hi T) as [X _]. rewrite X in Hin. auto.
Qed.
Lemma fixing_KB : forall s s' k v ck col, Back s s' -> fixing s s' k v -> rt s' = rt s -> log s' = FIXED_COL k v ck col :: log s ->
  (forall t, St s' t -> CS s' t -> t_cinact (ct s k) = false -> pressed ctol (ck - ysum (sy t) col) (lb s k) v (ub s k)) ->
  KB s s'.
Proof.
  intros s s' k v ck col B F R L P. eapply KB_one; [auto|eapply fixing_sub; eauto|exact L|discriminate|].
  intros t _ ST C. cbn [retrieve_one]. eapply fixing_CS; eauto.
Qed.
Lemma fix_col_fixing : forall s k v ck, t_fixed (ct s k) = false ->
  let s1 := fst (fix_col k v ck s) in s1 = s \/ fixing s s1 k v /\ rt s1 = rt s /\ log s1 = FIXED_COL k v ck (mAT s k) :: log s.
Proof.
  intros s k v ck TF. pose proof (fix_col_cases s k v ck) as C. destruct (fix_col k v ck s) as [s1 st].
  cbn [fst]. destruct C as [[_ [-> _]]|[_ [_ [_ [A [W E]]]]]]; [left; auto|right].
  rewrite E. unfold set_col_to_fixed. split; [|split; reflexivity]. constructor; sr; auto.
  - intros j N. rewrite !upd_other by auto. auto.
  - intros i a _ _ _. rewrite !upd_same. split; [auto|]. split; [reflexivity|]. cbn. lra.
Qed.
(** a dual with a sign has a side to sit at *)
Definition signs (s : state) (t : solution) : Prop := forall i, (i < nr s)%nat -> t_inact (rt s i) = false ->
  (0 < val (sy t i) -> is_fin (lhs s i) = true) /\ (val (sy t i) < 0 -> is_fin (rhs s i) = true).
Lemma CS_signs : forall s t, CS s t -> signs s t.
Proof.
  intros s t [CR _] i Hi T. destruct (CR i Hi T) as [A B]. split; intros X.
  - destruct (A X) as [q [-> _]]. reflexivity.
  - destruct (B X) as [q [-> _]]. reflexivity.
Qed.
Lemma fix_col_KB : forall s k v ck, Inv s -> (k < nc s)%nat -> fresh s k -> ck == cst s k -> t_cinact (ct s k) = false ->
  (forall t, signs s t -> pressed ctol (ck - ysum (sy t) (mAT s k)) (lb s k) v (ub s k)) ->
  KB s (fst (fix_col k v ck s)).
Proof.
  intros s k v ck H Hk F E T P.
  assert (TF : t_fixed (ct s k) = false) by (apply orb_false_iff in T; tauto).
  pose proof (fix_col_Back True s k v ck H Hk F E) as B.
  destruct (fix_col_fixing s k v ck TF) as [->|[X [R L]]]; [apply KB_refl|].
  set (s1 := fst (fix_col k v ck s)) in *. clearbody s1.
  eapply fixing_KB; eauto. intros t ST C _. apply P. intros i Hi Ti.
  destruct (CS_signs _ _ C i) as [S1 S2]; [rewrite (fg_nr _ _ _ _ X); auto|rewrite R; auto|].
  destruct (fg_row _ _ _ _ X i Hi Ti) as (_ & EL & ER). rewrite EL, ER in *. auto.
Qed.
(** close bounds: either bound will do *)
Lemma pressed_close : forall m l u v, Qabs (v - l) <= ctol -> Qabs (v - u) <= ctol -> pressed ctol m (Fin l) v (Fin u).
Proof. intros m l u v A B. split; intros _; eauto. Qed.
Lemma ABSq_Qabs : forall x, ABSq x == Qabs x.
Proof.
  intros x. unfold ABSq. destruct (Qltb x 0) eqn:E; qb.
  - rewrite Qabs_neg by lra. lra.
  - rewrite Qabs_pos by lra. lra.
Qed.
Lemma eq_tol : forall x y, IS_EQUAL_FEAS_TOL x y = true <-> Qabs (x - y) <= FEAS_TOL.
Proof.
  intros x y. unfold IS_EQUAL_FEAS_TOL, Qleb. rewrite Qle_bool_iff, ABSq_Qabs. tauto.
Qed.
Definition close_ok (s : state) : Prop := forall k l u, (k < nc s)%nat -> t_cinact (ct s k) = false -> lb s k = Fin l -> ub s k = Fin u ->
  Qabs (l - u) <= FEAS_TOL -> Qabs (l - u) <= ctol.
Lemma Qabs_same : forall x, Qabs (x - x) <= ctol.
Proof. intros x. setoid_replace (x - x) with 0 by lra. exact ctol0. Qed.
Lemma close_bounds_KB : forall s, Ok s -> Mid s -> close_ok s ->
  let '(s', st) := remove_variables_with_close_bounds s in st <> INFEASIBLE -> KB s s'.
Proof.
  intros s OK M CO. unfold remove_variables_with_close_bounds.
  assert (ND := seq_NoDup (nc s) 0).
  assert (L : forall l t, NoDup l -> (forall k, In k l -> (k < nc s)%nat /\ ct t k = ct s k /\ lb t k = lb s k /\ ub t k = ub s k) ->
    stp s t -> Mid t -> w_sub t = [] -> csz t = csz s -> freshA t -> KB s t ->
    let '(t', st) := for_until INFEASIBLE close_bounds_col l t in stp s t' /\ Mid t' /\ w_sub t' = [] /\ KB s t').
  { clear ND. induction l as [|k l IH]; intros t ND HL S1 M1 W1 C1 FA K1; cbn [for_until]; [auto|].
    inversion ND; subst. destruct (HL k (or_introl eq_refl)) as (Hk & EC & EL & EU).
    assert (HL' : forall j, In j l -> (j < nc s)%nat /\ ct t j = ct s j /\ lb t j = lb s j /\ ub t j = ub s j) by (intros; apply HL; simpl; auto).
    unfold close_bounds_col at 1. destruct (Z.ltb_spec (csz t k) 0) as [NEG|POS]; cbn [orb].
    { cbn. apply IH; auto. }
    assert (TK : t_cinact (ct s k) = false).
    { apply quiet_col; auto; try apply OK. rewrite <- C1. lia. }
    destruct (t_lb_inf (ct t k) || t_ub_inf (ct t k)) eqn:TI; [cbn; apply IH; auto|].
    destruct (IS_EQUAL_FEAS_TOL _ _) eqn:EQ.
    - cbn [N.eqb UNCHANGED INFEASIBLE].
      assert (Hk' : (k < nc t)%nat) by (rewrite (stp_nc _ _ S1); auto).
      destruct (fix_col_frame t k (fin (lb t k)) (cst t k)) as [A [B _]].
      pose proof (stp_fix_col t k (fin (lb t k)) (cst t k) (st_inv _ _ S1) Hk') as S2.
      pose proof (fix_col_Mid t k (fin (lb t k)) (cst t k) (st_inv _ _ S1) M1 Hk') as M2.
      pose proof (fix_col_freshA t k (fin (lb t k)) (cst t k) (st_inv _ _ S1) Hk' FA) as FA2.
      assert (K2 : KB t (fst (fix_col k (fin (lb t k)) (cst t k) t))).
      { apply fix_col_KB; auto; [apply S1|apply FA; auto; lia|lra|rewrite EC; auto|].
        intros t0 _. apply orb_false_iff in TI. destruct TI as [TL TU].
        pose proof (tr_lb _ (md_tags _ M1) k Hk' ltac:(rewrite EC; auto)) as GL. rewrite TL in GL.
        pose proof (tr_ub _ (md_tags _ M1) k Hk' ltac:(rewrite EC; auto)) as GU. rewrite TU in GU.
        apply eq_tol in EQ. destruct (lb t k) as [|p|] eqn:LE; try discriminate.
        destruct (ub t k) as [|q|] eqn:UE; try discriminate. cbn [fin] in *.
        apply pressed_close; [apply Qabs_same|]. apply (CO k); auto. }
      pose proof (fix_col_cases t k (fin (lb t k)) (cst t k)) as FC.
      destruct (fix_col k (fin (lb t k)) (cst t k) t) as [t1 st1]. cbn [fst] in *.
      apply IH; auto.
      + intros j Hj. destruct (HL' j Hj) as (X1 & X2 & X3 & X4). split; auto.
        assert (NE : j <> k) by (intros ->; contradiction).
        destruct FC as [[_ [-> _]]|[_ [_ [_ [A1 [W2 ->]]]]]]; auto. unfold set_col_to_fixed. sr.
        rewrite !upd_other; auto.
      + eapply stp_trans; eauto.
      + apply M2. rewrite EC. auto.
      + congruence.
      + destruct FC as [[_ [-> _]]|[_ [_ [_ [A1 [W2 ->]]]]]]; auto.
      + eapply KB_trans; eauto.
    - destruct (Qgtb _ _); [rewrite N.eqb_refl; auto|]. cbn [N.eqb UNCHANGED INFEASIBLE]. apply IH; auto. }
  specialize (L (seq 0 (nc s)) s ND).
  destruct (for_until INFEASIBLE close_bounds_col (seq 0 (nc s)) s) as [s1 st].
  destruct L as [S1 [M1 [W1 K1]]]; auto.
  - intros k Hk. apply in_seq in Hk. repeat split; auto; lia.
  - apply stp_refl. apply OK.
  - apply OK.
  - apply quiet_freshA; apply OK.
  - apply KB_refl.
  - destruct (N.eqb_spec st INFEASIBLE); [congruence|]. intros _.
    eapply KB_trans; [exact K1|]. apply (finish_KB s1); auto; [apply S1|apply M1|apply M1].
Qed.
End Kkt.
