(** What the merging of parallel rows does to the solutions, continued: a group, all groups. *)
From Coq Require Import NArith Lqa Lia Qabs.
From Verif Require Import M_Num S_LP M_Settings M_Driver S_Driver M_State M_Act M_Core M_Simple
  M_StonCols M_Dton M_Parallel M_Propagate M_Init M_Post M_Run S_Run S_Struct S_Sem S_Merge
  L_State L_Struct L_Struct2 L_Struct3 L_Struct4 L_Struct5 L_Struct6 L_Struct7 L_Struct8 L_Struct11
  L_Sem L_Sem2 L_Sem3 L_Sem4 L_Mid L_Mid2 L_Mid3 L_Mid4 L_Mid5 L_ParRow L_Reach.
Import M_Driver.
Open Scope Q_scope.

(** What no step of this explorer touches *)
Record cfr (s s' : state) : Prop := {
  cf_nr : nr s' = nr s;  cf_nc : nc s' = nc s;  cf_A : mA s' = mA s;  cf_lb : lb s' = lb s;  cf_ub : ub s' = ub s;
  cf_ct : ct s' = ct s;  cf_cst : cst s' = cst s;  cf_off : off s' = off s;  cf_csz : csz s' = csz s;
  cf_fx : w_fixed s' = w_fixed s;  cf_sb : w_sub s' = w_sub s }.
Lemma cfr_refl : forall s, cfr s s. Proof. intros; constructor; reflexivity. Qed.
Lemma cfr_trans : forall a b c, cfr a b -> cfr b c -> cfr a c.
Proof. intros a b c [] []. constructor; congruence. Qed.

Lemma inact_fold_sides : forall bin i s,
  let s' := foldS (fun s j => if Nat.eqb j i then s else set_row_to_inactive j 0 s) bin s in
  cfr s s' /\ lhs s' = lhs s /\ rhs s' = rhs s /\
  (forall j, rt s' j = if in_dec Nat.eq_dec j bin then (if Nat.eqb j i then rt s j else tag_inactive (rt s j)) else rt s j).
Proof.
  induction bin as [|k bin IH]; intros i s; cbn zeta; cbn [foldS].
  { split; [apply cfr_refl|]. split; auto. }
  set (s1 := if Nat.eqb k i then s else set_row_to_inactive k 0 s).
  change (foldS ?f (k :: bin) s) with (foldS f bin s1).
  destruct (IH i s1) as [A [B [C D]]].
  assert (X : cfr s s1 /\ lhs s1 = lhs s /\ rhs s1 = rhs s /\
    forall j, rt s1 j = if Nat.eqb j k then (if Nat.eqb j i then rt s j else tag_inactive (rt s j)) else rt s j).
  { unfold s1. destruct (Nat.eqb_spec k i) as [->|N].
    - split; [apply cfr_refl|]. split; auto. split; auto. intros j. destruct (Nat.eqb j i); auto.
    - split; [constructor; reflexivity|]. split; [reflexivity|]. split; [reflexivity|].
      intros j. unfold set_row_to_inactive. sr. destruct (Nat.eqb_spec j k) as [->|NE].
      + rewrite upd_same. destruct (Nat.eqb_spec k i); [contradiction|reflexivity].
      + rewrite upd_other; auto. }
  destruct X as [X1 [X2 [X3 X4]]]. split; [eapply cfr_trans; eauto|]. split; [congruence|]. split; [congruence|].
  intros j. rewrite D. rewrite X4.
  destruct (in_dec Nat.eq_dec j (k :: bin)) as [I|I]; destruct (in_dec Nat.eq_dec j bin) as [J|J].
  - destruct (Nat.eqb_spec j i); destruct (Nat.eqb_spec j k); auto.
  - destruct I as [->|I]; [|contradiction]. rewrite Nat.eqb_refl. auto.
  - elim I; simpl; auto.
  - destruct (Nat.eqb_spec j k) as [->|]; auto. elim I; simpl; auto.
Qed.

Lemma fin_ext_eqb : forall a b, is_fin a = true -> ext_eqb a b = true -> is_fin b = true /\ fin a == fin b.
Proof. intros [|p|] [|q|] A B; try discriminate; cbn in *; qb; auto. Qed.

(** The sides of the kept row of a group of inequalities *)
Lemma bin_rhs : forall s i m i0 D, tags_right s -> row_view s i = mA s i -> NEI s i0 D m -> MI s i0 m -> m_idx m = i ->
  let '(s1, st1) := if negb (m_eq m) && (negb (m_rhs_inf m) && negb (ext_eqb (m_rhs m) (rhs s i)))
            then change_rhs_of_ineq i (fin (m_rhs m)) (m_rhs_from m) (m_rhs_ratio m) s
            else (s, UNCHANGED) in
  (i < nr s)%nat -> t_inact (rt s i) = false ->
  cfr s s1 /\ lhs s1 = lhs s /\ (forall j, j <> i -> rhs s1 j = rhs s j /\ rt s1 j = rt s j) /\
  t_lhs_inf (rt s1 i) = t_lhs_inf (rt s i) /\
  (st1 = INFEASIBLE -> m_rhs_inf m = false /\ t_lhs_inf (rt s i) = false /\ fin (m_rhs m) + FEAS_TOL <= fin (lhs s i)) /\
  (st1 <> INFEASIBLE ->
    m_rhs_inf m = true /\ t_rhs_inf (rt s1 i) = true \/
    m_rhs_inf m = false /\ t_rhs_inf (rt s1 i) = false /\ fin (rhs s1 i) == fin (m_rhs m) \/
    m_rhs_inf m = false /\ t_rhs_inf (rt s1 i) = false /\ t_lhs_inf (rt s i) = false /\
      rhs s1 i = lhs s i /\ - FEAS_TOL <= fin (lhs s i) - fin (m_rhs m) <= FEAS_TOL).
Proof.
  intros s i m i0 D TR RV N I E. destruct N as [N1 N2 N3 N4 N5 N6 N7 N8]. destruct (I N1) as [I1 [I2 [I3 I4]]].
  rewrite E in N2, I1. subst i0. rewrite N1. cbn [negb andb].
  destruct (negb (m_rhs_inf m) && negb (ext_eqb (m_rhs m) (rhs s i))) eqn:C.
  - apply andb_true_iff in C. destruct C as [C1 C2]. apply negb_true_iff in C1.
    pose proof (change_rhs_cases i (fin (m_rhs m)) (m_rhs_from m) (m_rhs_ratio m) s RV) as Y.
    destruct (change_rhs_of_ineq i _ _ _ s) as [s1 st1]. intros Hi Ti.
    destruct Y as [[-> [-> [Y1 Y2]]]|[-> [_ [TG [RH [u [d [W [-> [R [OT LK]]]]]]]]]]].
    + split; [apply cfr_refl|]. do 3 (split; [auto|]). split; [auto|]. intros X; elim X; auto.
    + split; [constructor; reflexivity|]. split; [reflexivity|]. sr.
      split; [intros j J; destruct (OT j J); auto|].
      split; [destruct R as [[_ [_ [-> _]]]|[_ [-> _]]]; reflexivity|].
      split; [intros X; discriminate X|]. intros _. right.
      destruct R as [[R1 [R2 [R3 R4]]]|[R1 [R2 R3]]].
      * right. rewrite R3. cbn [t_rhs_inf]. auto.
      * left. rewrite R2, R3. cbn [t_rhs_inf fin]. split; [auto|split; [auto|lra]].
  - intros Hi Ti. split; [apply cfr_refl|]. do 3 (split; [auto|]). split; [discriminate|]. intros _.
    destruct (m_rhs_inf m) eqn:MR.
    + left. split; auto. destruct (t_rhs_inf (rt s i)) eqn:T; auto. destruct (I4 eq_refl); congruence.
    + right. left. split; auto. cbn [negb andb] in C. apply negb_false_iff in C.
      destruct (fin_ext_eqb _ _ (N6 eq_refl) C) as [A B]. split; [|lra].
      pose proof (tr_rhs s TR i Hi Ti) as T. destruct (t_rhs_inf (rt s i)); auto. rewrite T in A. discriminate.
Qed.
Lemma bin_lhs : forall s s1 i m i0 D, tags_right s1 -> row_view s1 i = mA s1 i -> NEI s i0 D m -> MI s i0 m -> m_idx m = i ->
  lhs s1 = lhs s -> t_lhs_inf (rt s1 i) = t_lhs_inf (rt s i) ->
  let '(s2, st2) := if negb (m_eq m) && (negb (m_lhs_inf m) && negb (ext_eqb (m_lhs m) (lhs s1 i)))
            then change_lhs_of_ineq i (fin (m_lhs m)) (m_lhs_from m) (m_lhs_ratio m) s1
            else (s1, UNCHANGED) in
  (i < nr s1)%nat -> t_inact (rt s1 i) = false ->
  cfr s1 s2 /\ rhs s2 = rhs s1 /\ (forall j, j <> i -> lhs s2 j = lhs s1 j /\ rt s2 j = rt s1 j) /\
  t_rhs_inf (rt s2 i) = t_rhs_inf (rt s1 i) /\ t_inact (rt s2 i) = false /\
  (st2 = INFEASIBLE -> m_lhs_inf m = false /\ t_rhs_inf (rt s1 i) = false /\ fin (rhs s1 i) <= fin (m_lhs m) - FEAS_TOL) /\
  (st2 <> INFEASIBLE ->
    m_lhs_inf m = true /\ t_lhs_inf (rt s2 i) = true \/
    m_lhs_inf m = false /\ t_lhs_inf (rt s2 i) = false /\ fin (lhs s2 i) == fin (m_lhs m) \/
    m_lhs_inf m = false /\ t_lhs_inf (rt s2 i) = false /\ t_rhs_inf (rt s1 i) = false /\
      lhs s2 i = rhs s1 i /\ - FEAS_TOL <= fin (rhs s1 i) - fin (m_lhs m) <= FEAS_TOL).
Proof.
  intros s s1 i m i0 D TR RV N I E EL TL. destruct N as [N1 N2 N3 N4 N5 N6 N7 N8]. destruct (I N1) as [I1 [I2 [I3 I4]]].
  rewrite E in N2, I1. subst i0. rewrite N1. cbn [negb andb].
  destruct (negb (m_lhs_inf m) && negb (ext_eqb (m_lhs m) (lhs s1 i))) eqn:C.
  - apply andb_true_iff in C. destruct C as [C1 C2]. apply negb_true_iff in C1.
    pose proof (change_lhs_cases i (fin (m_lhs m)) (m_lhs_from m) (m_lhs_ratio m) s1 RV) as Y.
    destruct (change_lhs_of_ineq i _ _ _ s1) as [s2 st2]. intros Hi Ti.
    destruct Y as [[-> [-> [Y1 Y2]]]|[-> [_ [TG [RH [u [d [W [-> [R [OT LK]]]]]]]]]]].
    + split; [apply cfr_refl|]. do 4 (split; [auto|]). split; [auto|]. intros X; elim X; auto.
    + split; [constructor; reflexivity|]. split; [reflexivity|]. sr.
      split; [intros j J; destruct (OT j J); auto|].
      split; [destruct R as [[_ [_ [-> _]]]|[_ [-> _]]]; reflexivity|].
      split; [destruct R as [[_ [_ [-> _]]]|[_ [-> _]]]; exact Ti|].
      split; [intros X; discriminate X|]. intros _. right.
      destruct R as [[R1 [R2 [R3 R4]]]|[R1 [R2 R3]]].
      * right. rewrite R3. cbn [t_lhs_inf]. auto.
      * left. rewrite R2, R3. cbn [t_lhs_inf fin]. split; [auto|split; [auto|lra]].
  - intros Hi Ti. split; [apply cfr_refl|]. do 4 (split; [auto|]). split; [discriminate|]. intros _.
    destruct (m_lhs_inf m) eqn:MR.
    + left. split; auto. destruct (t_lhs_inf (rt s1 i)) eqn:T; auto. destruct (I3 (eq_sym TL)); congruence.
    + right. left. split; auto. cbn [negb andb] in C. apply negb_false_iff in C.
      destruct (fin_ext_eqb _ _ (N7 eq_refl) C) as [A B]. split; [|lra].
      pose proof (tr_lhs s1 TR i Hi Ti) as T. destruct (t_lhs_inf (rt s1 i)); auto. rewrite T in A. discriminate.
Qed.

(** ** Groups on which no tolerance comes into play: in the scale of row [i], row [j] ends at [u] from
    above, at [l] from below *)
Definition up_side (s : state) (i j : nat) (u : Q) : Prop := let q := fc s j / fc s i in
  0 < q /\ t_rhs_inf (rt s j) = false /\ fin (rhs s j) == q * u \/ q < 0 /\ t_lhs_inf (rt s j) = false /\ fin (lhs s j) == q * u.
Definition low_side (s : state) (i j : nat) (l : Q) : Prop := let q := fc s j / fc s i in
  0 < q /\ t_lhs_inf (rt s j) = false /\ fin (lhs s j) == q * l \/ q < 0 /\ t_rhs_inf (rt s j) = false /\ fin (rhs s j) == q * l.
Definition tight (s : state) (bin : list nat) : Prop := forall i j k l u, In i bin -> In j bin -> In k bin ->
  low_side s i j l -> up_side s i k u -> l < u -> FEAS_TOL < u - l.
Definition Upj (s : state) (i j : nat) (w : Q) : Prop := let q := fc s j / fc s i in
  (0 < q -> SU s j (q * w)) /\ (q < 0 -> SL s j (q * w)).
Definition Lwj (s : state) (i j : nat) (w : Q) : Prop := let q := fc s j / fc s i in
  (0 < q -> SL s j (q * w)) /\ (q < 0 -> SU s j (q * w)).
Lemma quot_nz : forall a b, ~ a == 0 -> ~ b == 0 -> ~ a / b == 0.
Proof. intros a b A B Z. apply A. setoid_replace a with (a / b * b) by (field; auto). rewrite Z. ring. Qed.
Lemma RO_split : forall s c j w1 w2, ~ c == 0 -> ~ fc s j == 0 ->
  let q := fc s j / c in
  RO s c ((w2 - w1) / 2) j ((w1 + w2) / 2 / c) <->
  ((0 < q -> SU s j (q * w1)) /\ (q < 0 -> SL s j (q * w1))) /\ ((0 < q -> SL s j (q * w2)) /\ (q < 0 -> SU s j (q * w2))).
Proof.
  intros s c j w1 w2 C F q. pose proof (quot_nz _ _ F C) as N. fold q in N. unfold RO. fold q.
  assert (E : fc s j * ((w1 + w2) / 2 / c) == q * ((w1 + w2) / 2)) by (unfold q; field; auto).
  destruct (Qlt_le_dec 0 q) as [P|P].
  - assert (A1 : fc s j * ((w1 + w2) / 2 / c) - (w2 - w1) / 2 * Qabs q == q * w1) by (rewrite E, Qabs_pos by lra; field).
    assert (A2 : fc s j * ((w1 + w2) / 2 / c) + (w2 - w1) / 2 * Qabs q == q * w2) by (rewrite E, Qabs_pos by lra; field).
    rewrite (SU_ext _ _ _ _ A1), (SL_ext _ _ _ _ A2). split; [intros [X Y]|intros [[X _] [Y _]]; auto].
    repeat split; auto; intros; exfalso; lra.
  - assert (P' : q < 0) by (destruct (Qlt_le_dec q 0); auto; exfalso; apply N; lra).
    assert (A1 : fc s j * ((w1 + w2) / 2 / c) - (w2 - w1) / 2 * Qabs q == q * w2) by (rewrite E, Qabs_neg by lra; field).
    assert (A2 : fc s j * ((w1 + w2) / 2 / c) + (w2 - w1) / 2 * Qabs q == q * w1) by (rewrite E, Qabs_neg by lra; field).
    rewrite (SU_ext _ _ _ _ A1), (SL_ext _ _ _ _ A2). split; [intros [X Y]|intros [[_ X] [_ Y]]; auto].
    repeat split; auto; intros; exfalso; lra.
Qed.
Lemma merge_split : forall s i0 D m, NEI s i0 D m -> (forall j, In j D -> ~ fc s j == 0) -> forall w1 w2,
  (MU m w1 /\ ML m w2 <-> forall j, In j D -> Upj s i0 j w1 /\ Lwj s i0 j w2).
Proof.
  intros s i0 D m N F w1 w2. assert (C := F i0 (ne_in _ _ _ _ N)).
  pose proof (ne_iff _ _ _ _ N ((w2 - w1) / 2) ((w1 + w2) / 2 / fc s i0)) as X.
  assert (A1 : fc s i0 * ((w1 + w2) / 2 / fc s i0) - (w2 - w1) / 2 == w1) by (field; auto).
  assert (A2 : fc s i0 * ((w1 + w2) / 2 / fc s i0) + (w2 - w1) / 2 == w2) by (field; auto).
  split.
  - intros [U L] j Hj. apply (RO_split s (fc s i0) j w1 w2 C (F j Hj)). apply X; auto.
    split; [revert U; apply MU_ext|revert L; apply ML_ext]; lra.
  - intros H. destruct (proj2 X) as [U L]; [intros j Hj; apply (RO_split s (fc s i0) j w1 w2 C (F j Hj)); apply H; auto|].
    split; [revert U; apply MU_ext|revert L; apply ML_ext]; lra.
Qed.
Lemma mul_cancel : forall q a b, 0 < q -> (q * a <= q * b <-> a <= b).
Proof. intros q a b H. apply Qmult_le_l; auto. Qed.
Lemma mul_cancel_neg : forall q a b, q < 0 -> (q * a <= q * b <-> b <= a).
Proof.
  intros q a b H. split; intros X.
  - apply (mul_cancel (- q)); lra.
  - assert (- q * b <= - q * a) by (apply mul_cancel; lra). lra.
Qed.
Lemma Up_mono : forall s i j w w', w' <= w -> Upj s i j w -> Upj s i j w'.
Proof.
  intros s i j w w' H [A B]. unfold Upj, SU, SL in *. split; intros Q T.
  - eapply Qle_trans; [|apply A; auto]. apply mul_cancel; auto.
  - eapply Qle_trans; [apply B; auto|]. apply mul_cancel_neg; auto.
Qed.
Lemma Lw_mono : forall s i j w w', w <= w' -> Lwj s i j w -> Lwj s i j w'.
Proof.
  intros s i j w w' H [A B]. unfold Lwj, SU, SL in *. split; intros Q T.
  - eapply Qle_trans; [apply A; auto|]. apply mul_cancel; auto.
  - eapply Qle_trans; [|apply B; auto]. apply mul_cancel_neg; auto.
Qed.
Lemma up_room : forall s i U j, ~ fc s j / fc s i == 0 -> Upj s i j U -> up_side s i j U \/ exists d, U < d /\ Upj s i j d.
Proof.
  intros s i U j N [A B]. unfold up_side, Upj, SU, SL in *. set (q := fc s j / fc s i) in *. clearbody q.
  destruct (Qlt_le_dec 0 q) as [P|P].
  - destruct (t_rhs_inf (rt s j)) eqn:T; [right; exists (U + 1); split; [lra|split; [discriminate|intros; exfalso; lra]]|].
    specialize (A P eq_refl). destruct (Qeq_dec (fin (rhs s j)) (q * U)) as [E|E]; [left; left; auto|right].
    assert (W : fin (rhs s j) == q * (fin (rhs s j) / q)) by (field; lra).
    exists (fin (rhs s j) / q). split.
    + apply Qnot_le_lt. intros Z. apply (mul_cancel q) in Z; auto. apply E. lra.
    + split; intros ? ?; [lra|exfalso; lra].
  - assert (P' : q < 0) by (destruct (Qlt_le_dec q 0); auto; exfalso; apply N; lra).
    destruct (t_lhs_inf (rt s j)) eqn:T; [right; exists (U + 1); split; [lra|split; [intros; exfalso; lra|discriminate]]|].
    specialize (B P' eq_refl). destruct (Qeq_dec (fin (lhs s j)) (q * U)) as [E|E]; [left; right; auto|right].
    assert (W : fin (lhs s j) == q * (fin (lhs s j) / q)) by (field; lra).
    exists (fin (lhs s j) / q). split.
    + apply Qnot_le_lt. intros Z. apply (mul_cancel_neg q) in Z; auto. apply E. lra.
    + split; intros ? ?; [exfalso; lra|lra].
Qed.
Lemma low_room : forall s i U j, ~ fc s j / fc s i == 0 -> Lwj s i j U -> low_side s i j U \/ exists d, d < U /\ Lwj s i j d.
Proof.
  intros s i U j N [A B]. unfold low_side, Lwj, SU, SL in *. set (q := fc s j / fc s i) in *. clearbody q.
  destruct (Qlt_le_dec 0 q) as [P|P].
  - destruct (t_lhs_inf (rt s j)) eqn:T; [right; exists (U - 1); split; [lra|split; [discriminate|intros; exfalso; lra]]|].
    specialize (A P eq_refl). destruct (Qeq_dec (fin (lhs s j)) (q * U)) as [E|E]; [left; left; auto|right].
    assert (W : fin (lhs s j) == q * (fin (lhs s j) / q)) by (field; lra).
    exists (fin (lhs s j) / q). split.
    + apply Qnot_le_lt. intros Z. apply (mul_cancel q) in Z; auto. apply E. lra.
    + split; intros ? ?; [lra|exfalso; lra].
  - assert (P' : q < 0) by (destruct (Qlt_le_dec q 0); auto; exfalso; apply N; lra).
    destruct (t_rhs_inf (rt s j)) eqn:T; [right; exists (U - 1); split; [lra|split; [intros; exfalso; lra|discriminate]]|].
    specialize (B P' eq_refl). destruct (Qeq_dec (fin (rhs s j)) (q * U)) as [E|E]; [left; right; auto|right].
    assert (W : fin (rhs s j) == q * (fin (rhs s j) / q)) by (field; lra).
    exists (fin (rhs s j) / q). split.
    + apply Qnot_le_lt. intros Z. apply (mul_cancel_neg q) in Z; auto. apply E. lra.
    + split; intros ? ?; [exfalso; lra|lra].
Qed.
Lemma up_search : forall s i U D, (forall j, In j D -> ~ fc s j / fc s i == 0) -> (forall j, In j D -> Upj s i j U) ->
  (exists j, In j D /\ up_side s i j U) \/ exists d, U < d /\ forall j, In j D -> Upj s i j d.
Proof.
  induction D as [|j D IH]; intros F H; [right; exists (U + 1); split; [lra|intros j []]|].
  destruct IH as [[k [K1 K2]]|[d [D1 D2]]]; [intros; apply F; simpl; auto|intros; apply H; simpl; auto|left; exists k; simpl; auto|].
  destruct (up_room s i U j (F j (or_introl eq_refl)) (H j (or_introl eq_refl))) as [A|[e [E1 E2]]]; [left; exists j; simpl; auto|].
  right. destruct (Qlt_le_dec d e) as [L|L].
  - exists d. split; auto. intros k [<-|Hk]; auto. eapply Up_mono; [|exact E2]. lra.
  - exists e. split; auto. intros k [<-|Hk]; auto. eapply Up_mono; [exact L|auto].
Qed.
Lemma low_search : forall s i U D, (forall j, In j D -> ~ fc s j / fc s i == 0) -> (forall j, In j D -> Lwj s i j U) ->
  (exists j, In j D /\ low_side s i j U) \/ exists d, d < U /\ forall j, In j D -> Lwj s i j d.
Proof.
  induction D as [|j D IH]; intros F H; [right; exists (U - 1); split; [lra|intros j []]|].
  destruct IH as [[k [K1 K2]]|[d [D1 D2]]]; [intros; apply F; simpl; auto|intros; apply H; simpl; auto|left; exists k; simpl; auto|].
  destruct (low_room s i U j (F j (or_introl eq_refl)) (H j (or_introl eq_refl))) as [A|[e [E1 E2]]]; [left; exists j; simpl; auto|].
  right. destruct (Qlt_le_dec d e) as [L|L].
  - exists e. split; auto. intros k [<-|Hk]; auto. eapply Lw_mono; [|apply D2; auto]. lra.
  - exists d. split; auto. intros k [<-|Hk]; auto. eapply Lw_mono; [exact L|auto].
Qed.
(** The merged sides are sides of rows of the group. *)
Lemma merged_at : forall s i0 D m, NEI s i0 D m -> (forall j, In j D -> ~ fc s j == 0) ->
  (m_rhs_inf m = false -> exists j, In j D /\ up_side s i0 j (fin (m_rhs m))) /\
  (m_lhs_inf m = false -> exists j, In j D /\ low_side s i0 j (fin (m_lhs m))).
Proof.
  intros s i0 D m N F. pose proof (merge_split s i0 D m N F) as X. pose proof (F i0 (ne_in _ _ _ _ N)) as C.
  assert (Q : forall j, In j D -> ~ fc s j / fc s i0 == 0) by (intros; apply quot_nz; auto).
  assert (U0 : MU m (fin (m_rhs m))) by (intros _; lra). assert (L0 : ML m (fin (m_lhs m))) by (intros _; lra).
  pose proof (proj1 (X _ _) (conj U0 L0)) as A. split; intros E.
  - destruct (up_search s i0 (fin (m_rhs m)) D Q) as [Y|[d [D1 D2]]]; [intros; apply A; auto|exact Y|exfalso].
    destruct (proj2 (X d (fin (m_lhs m)))) as [Z _]; [intros j Hj; split; [auto|apply A; auto]|]. specialize (Z E). lra.
  - destruct (low_search s i0 (fin (m_lhs m)) D Q) as [Y|[d [D1 D2]]]; [intros; apply A; auto|exact Y|exfalso].
    destruct (proj2 (X (fin (m_rhs m)) d)) as [_ Z]; [intros j Hj; split; [apply A; auto|auto]|]. specialize (Z E). lra.
Qed.
Lemma own_low : forall s i, ~ fc s i == 0 -> t_lhs_inf (rt s i) = false -> low_side s i i (fin (lhs s i)).
Proof.
  intros s i F T. assert (E : fc s i / fc s i == 1) by (field; auto). left. rewrite E. split; [reflexivity|split; auto]. lra.
Qed.

Record row_kept (s s' : state) (bin : list nat) (i : nat) : Prop := {
  rk_in : In i bin;
  rk_act : t_inact (rt s' i) = false;
  rk_del : forall j, In j bin -> j <> i -> t_inact (rt s' j) = true;
  rk_fwd : forall t, (forall j, In j bin -> R0 s j t) ->
     SU s' i (fc s i * t - FEAS_TOL) /\ SL s' i (fc s i * t + FEAS_TOL);
  rk_exact : tight s bin -> forall t, (forall j, In j bin -> R0 s j t) -> SU s' i (fc s i * t) /\ SL s' i (fc s i * t);
  rk_bwd : nomix s bin -> forall t, SU s' i (fc s i * t) -> SL s' i (fc s i * t) ->
     forall j, In j bin -> RO s (fc s i) FEAS_TOL j t }.
Definition edge (s : state) (bin : list nat) (t : Q) : Prop :=
  exists j, In j bin /\ t_lhs_inf (rt s j) = false /\ fc s j * t == fin (lhs s j) + FEAS_TOL.

Lemma SU_tag : forall s s' i v, rhs s' i = rhs s i -> t_rhs_inf (rt s' i) = t_rhs_inf (rt s i) -> (SU s' i v <-> SU s i v).
Proof. intros s s' i v A B. unfold SU. rewrite A, B. tauto. Qed.
Lemma SL_tag : forall s s' i v, lhs s' i = lhs s i -> t_lhs_inf (rt s' i) = t_lhs_inf (rt s i) -> (SL s' i v <-> SL s i v).
Proof. intros s s' i v A B. unfold SL. rewrite A, B. tauto. Qed.

Lemma live_fine : forall s j, Inv s -> live_row s j -> fine s j.
Proof.
  intros s j H [A [B C]]. split; auto. split; auto. unfold fc. destruct (mA s j) as [|[k a] r] eqn:E; [congruence|].
  cbn. apply (w_rin s (inv_0 s H) j k a A). rewrite E. left; auto.
Qed.

Lemma row_bin_sem : forall bin s, Inv s -> Mid s -> NoDup bin -> (forall j, In j bin -> live_row s j) -> bin <> [] ->
  let '(s', st) := process_row_bin bin s in
  cfr s s' /\
  (forall j, ~ In j bin -> lhs s' j = lhs s j /\ rhs s' j = rhs s j /\ rt s' j = rt s j) /\
  (st = INFEASIBLE -> forall t, (forall j, In j bin -> R0 s j t) -> edge s bin t /\ ~ tight s bin) /\
  (st <> INFEASIBLE -> exists i, row_kept s s' bin i).
Proof.
  intros bin s H M ND HL NN. unfold process_row_bin. destruct bin as [|i0 l]; [congruence|].
  assert (TR := md_tags s M).
  assert (HF : forall j, In j (i0 :: l) -> fine s j) by (intros; apply live_fine; auto).
  assert (I0 : NEI s i0 [i0] (merge_init s i0) \/ EQI s [i0] (merge_init s i0)).
  { destruct (t_eq (rt s i0)) eqn:E; [right; apply EQ_init; auto; apply HF; simpl; auto|left; apply NE_init; auto; apply HF; simpl; auto]. }
  pose proof (loop_spec s TR i0 l [i0] _ ND HF (or_introl eq_refl) I0) as LS. cbn [app] in LS.
  destruct (merge_loop s (merge_init s i0) l) as [m|] eqn:EM.
  2:{ split; [apply cfr_refl|]. split; [auto|]. split; [|intros X; elim X; auto]. intros _ t K. elim (LS t K). }
  assert (I := MI_loop _ _ _ _ _ (MI_init s i0) EM).
  assert (HI : In (m_idx m) (i0 :: l)).
  { apply merge_loop_idx in EM. simpl in *. destruct EM; auto. }
  set (i := m_idx m) in *. destruct (HL i HI) as [Hi [Ti Ni]]. cbv zeta.
  destruct LS as [N|E].
  - pose proof (bin_rhs s i m i0 _ TR (view_full s i H Hi Ti) N I eq_refl) as BR.
    assert (Mid1 : Mid (fst (if negb (m_eq m) && (negb (m_rhs_inf m) && negb (ext_eqb (m_rhs m) (rhs s i)))
             then change_rhs_of_ineq i (fin (m_rhs m)) (m_rhs_from m) (m_rhs_ratio m) s
             else (s, UNCHANGED))) /\ stp s (fst (if negb (m_eq m) && (negb (m_rhs_inf m) && negb (ext_eqb (m_rhs m) (rhs s i)))
             then change_rhs_of_ineq i (fin (m_rhs m)) (m_rhs_from m) (m_rhs_ratio m) s
             else (s, UNCHANGED))) /\ t_inact (rt (fst (if negb (m_eq m) && (negb (m_rhs_inf m) && negb (ext_eqb (m_rhs m) (rhs s i)))
             then change_rhs_of_ineq i (fin (m_rhs m)) (m_rhs_from m) (m_rhs_ratio m) s
             else (s, UNCHANGED))) i) = false).
    { destruct (negb (m_eq m) && _); [|cbn [fst]; auto using stp_refl].
      destruct (change_rhs_stp i (fin (m_rhs m)) (m_rhs_from m) (m_rhs_ratio m) s H Hi Ti) as [A [B [C [D _]]]].
      split; [|split; [exact A|rewrite D; auto]]. apply change_rhs_Mid; auto.
      destruct (I (ne_eq _ _ _ _ N)) as [I1 [I2 _]]. fold i in I1. rewrite I1. auto. }
    destruct (if negb (m_eq m) && (negb (m_rhs_inf m) && negb (ext_eqb (m_rhs m) (rhs s i)))
             then change_rhs_of_ineq i (fin (m_rhs m)) (m_rhs_from m) (m_rhs_ratio m) s
             else (s, UNCHANGED)) as [s1 st1]. cbn [fst] in Mid1. destruct Mid1 as [M1 [S1 Ti1]].
    destruct (BR Hi Ti) as [B1 [B2 [B3 [B4 [B5 B6]]]]]. clear BR.
    assert (FI : fc s i0 = fc s i) by (unfold i; rewrite (ne_ix _ _ _ _ N); auto).
    assert (F0 : forall t, (forall j, In j (i0 :: l) -> R0 s j t) -> MU m (fc s i * t) /\ ML m (fc s i * t)).
    { intros t K. pose proof (proj2 (ne_iff _ _ _ _ N 0 t)) as X. rewrite FI in X.
      destruct X as [X1 X2]; [intros j Hj; apply RO_0; auto|].
      split; [revert X1; apply MU_ext; ring|revert X2; apply ML_ext; ring]. }
    assert (IM : t_lhs_inf (rt s i) = false -> m_lhs_inf m = false /\ fin (lhs s i) <= fin (m_lhs m)).
    { destruct (I (ne_eq _ _ _ _ N)) as [I1 [_ [I3 _]]]. fold i in I1. rewrite I1. auto. }
    assert (NZ : forall j, In j (i0 :: l) -> ~ fc s j == 0) by (intros; apply HF; auto).
    destruct (merged_at s i0 _ m N NZ) as [AU AL].
    assert (T1 : tight s (i0 :: l) -> t_lhs_inf (rt s i) = false -> m_rhs_inf m = false -> fin (lhs s i) <= fin (m_rhs m) ->
      fin (m_rhs m) <= fin (lhs s i) + FEAS_TOL -> fin (lhs s i) == fin (m_rhs m)).
    { intros TI TL TU X1 X2. destruct (AU TU) as [k [K1 K2]].
      assert (IE : i = i0) by (unfold i; apply (ne_ix _ _ _ _ N)).
      destruct (Qlt_le_dec (fin (lhs s i)) (fin (m_rhs m))) as [LT|GE]; [exfalso|lra].
      pose proof (TI i0 i0 k (fin (lhs s i)) (fin (m_rhs m)) (ne_in _ _ _ _ N) (ne_in _ _ _ _ N) K1) as Z.
      rewrite IE in *. specialize (Z (own_low s i0 (NZ i0 (ne_in _ _ _ _ N)) TL) K2 LT). lra. }
    assert (T2 : tight s (i0 :: l) -> m_lhs_inf m = false -> m_rhs_inf m = false -> fin (m_lhs m) <= fin (m_rhs m) ->
      fin (m_rhs m) <= fin (m_lhs m) + FEAS_TOL -> fin (m_lhs m) == fin (m_rhs m)).
    { intros TI TL TU X1 X2. destruct (AU TU) as [k [K1 K2]]. destruct (AL TL) as [j [J1 J2]].
      destruct (Qlt_le_dec (fin (m_lhs m)) (fin (m_rhs m))) as [LT|GE]; [exfalso|lra].
      pose proof (TI i0 j k _ _ (ne_in _ _ _ _ N) J1 K1 J2 K2 LT) as Z. lra. }
    destruct (N.eqb_spec st1 INFEASIBLE) as [EI|NI].
    { split; [exact B1|]. split; [|split; [|intros X; elim X; auto]].
      - intros j Hj. destruct (B3 j) as [X1 X2]; [intros ->; auto|]. rewrite B2. auto.
      - intros _ t K. exfalso. destruct (F0 t K) as [K1 K2]. destruct (B5 EI) as [C1 [C2 C3]].
        destruct (IM C2) as [D1 D2]. specialize (K1 C1). specialize (K2 D1). unfold FEAS_TOL in C3. lra. }
    specialize (B6 NI).
    assert (Hi1 : (i < nr s1)%nat) by (rewrite (stp_nr _ _ S1); auto).
    pose proof (bin_lhs s s1 i m i0 _ (md_tags _ M1) (view_full s1 i (st_inv _ _ S1) Hi1 Ti1) N I eq_refl B2 B4) as BL.
    destruct (if negb (m_eq m) && (negb (m_lhs_inf m) && negb (ext_eqb (m_lhs m) (lhs s1 i)))
             then change_lhs_of_ineq i (fin (m_lhs m)) (m_lhs_from m) (m_lhs_ratio m) s1
             else (s1, UNCHANGED)) as [s2 st2].
    destruct (BL Hi1 Ti1) as [L1 [L2 [L3 [L4 [L5 [L6 L7]]]]]]. clear BL.
    assert (OUT : forall j, ~ In j (i0 :: l) -> lhs s2 j = lhs s j /\ rhs s2 j = rhs s j /\ rt s2 j = rt s j).
    { intros j Hj. assert (J : j <> i) by (intros ->; auto). destruct (B3 j J) as [X1 X2]. destruct (L3 j J) as [Y1 Y2].
      rewrite Y1, Y2, L2, B2, X1, X2. auto. }
    assert (C2 : cfr s s2) by (eapply cfr_trans; eauto).
    destruct (N.eqb_spec st2 INFEASIBLE) as [EI2|NI2].
    { split; [exact C2|]. split; [exact OUT|]. split; [|intros X; elim X; auto].
      intros _ t K. destruct (F0 t K) as [K1 K2]. destruct (L6 EI2) as [X1 [X2 X3]]. specialize (K2 X1).
      destruct B6 as [[B6 B7]|[[B6 [B7 B8]]|[B6 [B7 [B8 [B9 B10]]]]]].
      - congruence.
      - exfalso. specialize (K1 B6). unfold FEAS_TOL in *. lra.
      - specialize (K1 B6). destruct (IM B8) as [_ D2]. rewrite B9 in X3. split; [exists i; split; auto; split; auto; lra|].
        intros TI. pose proof (T1 TI B8 B6 ltac:(lra) ltac:(lra)) as Z. unfold FEAS_TOL in *. lra. }
    specialize (L7 NI2).
    destruct (inact_fold_sides (i0 :: l) i s2) as [G1 [G2 [G3 G4]]].
    set (s3 := foldS _ (i0 :: l) s2) in *. clearbody s3.
    assert (Ti3 : rt s3 i = rt s2 i).
    { rewrite G4. destruct (in_dec _ i _); auto. rewrite Nat.eqb_refl. auto. }
    split; [eapply cfr_trans; eauto|]. split; [|split; [intros X; discriminate X|]].
    { intros j Hj. destruct (OUT j Hj) as [O1 [O2 O3]]. rewrite G2, G3, G4. destruct (in_dec _ j _); [contradiction|]. auto. }
    intros _. exists i. constructor; auto.
    + rewrite Ti3. auto.
    + intros j Hj J. rewrite G4. destruct (in_dec _ j _); [|contradiction]. destruct (Nat.eqb_spec j i); [contradiction|]. reflexivity.
    + intros t K. destruct (F0 t K) as [K1 K2]. clear - Ti3 G2 G3 K1 K2 B6 L7 L2 L4. unfold SU, SL. rewrite Ti3, G2, G3, L2, L4.
      unfold MU, ML in *. set (v := fc s i * t) in *. clearbody v.
      assert (0 < FEAS_TOL) by reflexivity. set (e := FEAS_TOL) in *. clearbody e.
      destruct B6 as [[B6 B7]|[[B6 [B7 B8]]|[B6 [B7 [B8 [B9 B10]]]]]]; destruct L7 as [[L6 L7]|[[L6 [L7 L8]]|[L6 [L7 [L8 [L9 L10]]]]]];
        rewrite ?B6, ?B7, ?B9, ?L6, ?L7, ?L9 in *;
        (split; intros Z; try discriminate; try (specialize (K1 eq_refl)); try (specialize (K2 eq_refl)); rewrite ?B9 in *; lra).
    + intros TI t K. destruct (F0 t K) as [K1 K2]. specialize (T1 TI). specialize (T2 TI).
      clear - Ti3 G2 G3 K1 K2 B6 L7 L2 L4 T1 T2 IM. unfold SU, SL. rewrite Ti3, G2, G3, L2, L4.
      unfold MU, ML in *. set (v := fc s i * t) in *. clearbody v.
      assert (0 < FEAS_TOL) by reflexivity. set (e := FEAS_TOL) in *. clearbody e.
      destruct B6 as [[B6 B7]|[[B6 [B7 B8]]|[B6 [B7 [B8 [B9 B10]]]]]]; destruct L7 as [[L6 L7]|[[L6 [L7 L8]]|[L6 [L7 [L8 [L9 L10]]]]]];
        try (destruct (IM B8) as [IM1 IM2]);
        rewrite ?B6, ?B7, ?B9, ?L6, ?L7, ?L9 in *;
        try (specialize (K1 eq_refl)); try (specialize (K2 eq_refl));
        try (pose proof (T1 B8 eq_refl ltac:(lra) ltac:(lra)));
        try (pose proof (T2 eq_refl eq_refl ltac:(lra) ltac:(lra)));
        (split; intros Z; try discriminate; rewrite ?B9 in *; lra).
    + intros _ t K1 K2 j Hj. rewrite <- FI. apply (proj1 (ne_iff _ _ _ _ N FEAS_TOL t)); auto. rewrite FI.
      clear - Ti3 G2 G3 K1 K2 B6 L7 L2 L4. unfold SU, SL in *. rewrite Ti3, ?G2, ?G3, ?L2, ?L4 in *.
      unfold MU, ML in *. set (v := fc s i * t) in *. clearbody v.
      assert (0 < FEAS_TOL) by reflexivity. set (e := FEAS_TOL) in *. clearbody e.
      destruct B6 as [[B6 B7]|[[B6 [B7 B8]]|[B6 [B7 [B8 [B9 B10]]]]]]; destruct L7 as [[L6 L7]|[[L6 [L7 L8]]|[L6 [L7 [L8 [L9 L10]]]]]];
        rewrite ?B6, ?B7, ?B9, ?L6, ?L7, ?L9 in *;
        (split; intros Z; try discriminate; try (specialize (K1 eq_refl)); try (specialize (K2 eq_refl)); rewrite ?B9 in *; lra).
  - destruct E as [E1 E2 E3 E4 E5 E6]. rewrite E1. cbn [negb andb].
    change (N.eqb UNCHANGED INFEASIBLE) with false. cbv iota.
    destruct (inact_fold_sides (i0 :: l) i s) as [G1 [G2 [G3 G4]]].
    set (s3 := foldS _ (i0 :: l) s) in *. clearbody s3.
    assert (Ti3 : rt s3 i = rt s i).
    { rewrite G4. destruct (in_dec _ i _); auto. rewrite Nat.eqb_refl. auto. }
    split; [auto|]. split; [|split; [intros X; discriminate X|]].
    { intros j Hj. rewrite G2, G3, G4. destruct (in_dec _ j _); [contradiction|]. auto. }
    intros _. exists i. constructor; auto.
    + rewrite Ti3. auto.
    + intros j Hj J. rewrite G4. destruct (in_dec _ j _); [|contradiction]. destruct (Nat.eqb_spec j i); [contradiction|]. reflexivity.
    + intros t K. destruct (K i HI) as [K1 K2]. unfold SU, SL in *. rewrite Ti3, G2, G3.
      unfold FEAS_TOL. split; intros Z; [specialize (K1 Z)|specialize (K2 Z)]; lra.
    + intros _ t K. destruct (K i HI) as [K1 K2]. unfold SU, SL in *. rewrite Ti3, G2, G3. auto.
    + intros NM t K1 K2 j Hj. fold i in E3, E4, E5. rewrite <- E4. apply E6; auto. rewrite E4, E5.
      apply (R0_eq s TR); auto. split; [revert K1; apply SU_tag|revert K2; apply SL_tag]; congruence.
Qed.

(** ** All groups *)
Definition same_on (s s' : state) (j : nat) : Prop := lhs s' j = lhs s j /\ rhs s' j = rhs s j /\ rt s' j = rt s j.
Lemma R0_same : forall s s' j t, mA s' = mA s -> same_on s s' j -> (R0 s' j t <-> R0 s j t).
Proof. intros s s' j t A [B [C D]]. unfold R0, SU, SL, fc. rewrite A, B, C, D. tauto. Qed.
Lemma RO_same : forall s s' c e j t, mA s' = mA s -> same_on s s' j -> (RO s' c e j t <-> RO s c e j t).
Proof. intros s s' c e j t A [B [C D]]. unfold RO, SU, SL, fc. rewrite A, B, C, D. tauto. Qed.
Lemma tight_same : forall s s' g, mA s' = mA s -> (forall j, In j g -> same_on s s' j) -> tight s g -> tight s' g.
Proof.
  intros s s' g A B T i j k l u Hi Hj Hk. unfold low_side, up_side, fc. rewrite A.
  destruct (B j Hj) as [-> [-> ->]]. destruct (B k Hk) as [-> [-> ->]]. intros L U. apply (T i j k l u); auto.
Qed.
Lemma kept_src : forall s s0 s' g i, mA s0 = mA s -> (forall j, In j g -> same_on s s0 j) -> row_kept s0 s' g i -> row_kept s s' g i.
Proof.
  intros s s0 s' g i A B [K1 K2 K3 K4 KE K5]. unfold fc in *. rewrite A in *. constructor; auto.
  - intros t H. apply K4. intros j Hj. apply (R0_same s s0 j t A (B j Hj)). auto.
  - intros T t H. apply KE; [apply (tight_same s); auto|]. intros j Hj. apply (R0_same s s0 j t A (B j Hj)). auto.
  - intros NM t H1 H2 j Hj. apply (RO_same s s0 _ _ j t A (B j Hj)). apply K5; auto.
    intros a b c Ha Hb Hc N. destruct (B a Ha) as [_ [_ ->]]. destruct (B b Hb) as [_ [_ ->]]. destruct (B c Hc) as [_ [_ ->]].
    apply (NM a b c); auto.
Qed.
Lemma kept_dst : forall s s1 s' g i, mA s' = mA s1 -> (forall j, In j g -> same_on s1 s' j) -> row_kept s s1 g i -> row_kept s s' g i.
Proof.
  intros s s1 s' g i A B [K1 K2 K3 K4 KE K5]. destruct (B i K1) as [X [Y Z]]. constructor; auto.
  - rewrite Z; auto.
  - intros j Hj N. destruct (B j Hj) as [_ [_ ->]]. auto.
  - intros t H. unfold SU, SL in *. rewrite X, Y, Z. apply K4; auto.
  - intros T t H. unfold SU, SL in *. rewrite X, Y, Z. apply KE; auto.
  - intros NM t H1 H2. apply K5; auto; [revert H1|revert H2]; unfold SU, SL; rewrite ?X, ?Y, ?Z; auto.
Qed.

Lemma row_bins_sem : forall gs s, Inv s -> Mid s -> NoDup (concat gs) ->
  (forall g j, In g gs -> In j g -> live_row s j) -> (forall g, In g gs -> g <> []) ->
  let '(s', st) := process_row_bins gs s in
  cfr s s' /\ (forall j, ~ In j (concat gs) -> same_on s s' j) /\
  (st = INFEASIBLE -> exists g, In g gs /\ forall t, (forall j, In j g -> R0 s j t) -> edge s g t /\ ~ tight s g) /\
  (st <> INFEASIBLE -> forall g, In g gs -> exists i, row_kept s s' g i).
Proof.
  induction gs as [|g gs IH]; intros s H M ND HL NN; cbn [process_row_bins].
  { split; [apply cfr_refl|]. split; [unfold same_on; auto|]. split; [discriminate|]. intros _ g []. }
  cbn [concat] in *.
  assert (ND1 : NoDup g) by (apply NoDup_app_remove_r in ND; auto).
  assert (ND2 : NoDup (concat gs)) by (apply NoDup_app_remove_l in ND; auto).
  assert (DJ : forall j, In j g -> In j (concat gs) -> False).
  { intros j A B. clear - ND A B. induction g as [|z t IHt]; simpl in *; [contradiction|].
    inversion ND; subst. destruct A as [->|A]; auto. apply H1, in_or_app; auto. }
  assert (HL1 : forall j, In j g -> live_row s j) by (intros; eapply HL; simpl; eauto).
  pose proof (row_bin_stp g s H ND1 HL1) as X. pose proof (row_bin_Mid g s H M ND1 HL1) as M1.
  pose proof (row_bin_sem g s H M ND1 HL1 (NN g (or_introl eq_refl))) as Y.
  destruct (process_row_bin g s) as [s1 st]. cbn [fst] in M1.
  destruct X as [S1 [F1 [A1 R1]]]. destruct Y as [C1 [O1 [I1 K1]]].
  destruct (N.eqb_spec st INFEASIBLE) as [EI|NI].
  { split; auto. split; [|split; [|intros X; elim X; auto]].
    - intros j Hj. apply O1. intros X; apply Hj, in_or_app; auto.
    - intros _. exists g. split; [left; auto|auto]. }
  assert (SG : forall g' j, In g' gs -> In j g' -> same_on s s1 j).
  { intros g' j Hg Hj. apply O1. intros X. apply (DJ j X). apply in_concat; eauto. }
  pose proof (IH s1 (st_inv _ _ S1) M1 ND2) as Z.
  destruct (process_row_bins gs s1) as [s2 st2]. destruct Z as [C2 [O2 [I2 K2]]].
  { intros g' j Hg Hj. destruct (HL g' j (or_intror Hg) Hj) as [A [B C]].
    unfold live_row. destruct (SG g' j Hg Hj) as [_ [_ ->]]. rewrite (stp_nr _ _ S1), A1. auto. }
  { intros; apply NN; simpl; auto. }
  split; [eapply cfr_trans; eauto|]. split; [|split].
  - intros j Hj. destruct (O1 j) as [a [b c]]; [intros X; apply Hj, in_or_app; auto|].
    destruct (O2 j) as [a' [b' c']]; [intros X; apply Hj, in_or_app; auto|]. unfold same_on. rewrite a', b', c'. auto.
  - intros EI. destruct (I2 EI) as [g' [Hg P]]. exists g'. split; [right; auto|].
    intros t K. destruct (P t) as [[j [J1 [J2 J3]]] NT].
    { intros j Hj. apply (R0_same s s1 j t A1 (SG g' j Hg Hj)). auto. }
    split; [|intros T; apply NT; apply (tight_same s); auto; intros z Hz; apply (SG g' z Hg Hz)].
    destruct (SG g' j Hg J1) as [B1 [B2 B3]]. exists j. rewrite B1, B3 in *. unfold fc in *. rewrite A1 in J3. auto.
  - intros NE g' [<-|Hg].
    + destruct (K1 NI) as [i K]. exists i. eapply kept_dst; [apply C2| |exact K].
      intros j Hj. apply O2. intros X. apply (DJ j Hj X).
    + destruct (K2 NE g' Hg) as [i K]. exists i. eapply kept_src; [exact A1| |exact K]. intros; eapply SG; eauto.
Qed.

(** ** The explorer *)
Lemma group_scaled : forall s g, Inv s -> clear_cut (reduced_lp s) ->
  (forall j, In j g -> live_row s j) ->
  (exists f l, g = find_parallel_rows_in_bin (mA s) (f :: l)) ->
  forall i j, In i g -> In j g -> scaled (fc s j / fc s i) (mA s j) (mA s i).
Proof.
  intros s g H CC HL [f [l E]] i j Hi Hj.
  assert (LV : forall j, In j g -> In j (live_rows s)).
  { intros k Hk. destruct (HL k Hk) as [A [B C]]. apply live_rows_in. split; auto. apply act_alive; auto. apply H. }
  assert (Hf : In f g).
  { subst g. unfold find_parallel_rows_in_bin in *. destruct (filter _ l); [contradiction|]. apply in_or_app. right. left. auto. }
  assert (NZ : forall j, In j g -> ~ fc s j == 0) by (intros k Hk; apply (live_fine s k H (HL k Hk))).
  assert (X : forall k, In k g -> scaled (fc s f / fc s k) (mA s f) (mA s k)).
  { intros k Hk. destruct (Nat.eq_dec k f) as [->|NE].
    - apply (scaled_ext 1); [field; auto|apply scaled_refl].
    - assert (P : parallel (mA s f) (mA s k) = true).
      { rewrite E in Hk. apply fpr_char in Hk. destruct Hk as [->|[_ P]]; [congruence|auto]. }
      pose proof (CC f k (LV f Hf) (LV k Hk) (fun e => NE (eq_sym e))) as Y. cbv zeta in Y.
      cbn [lp_A reduced_lp] in Y. rewrite !first_entry_eq in Y. apply Y. apply nearly_of.
      unfold parallel in P. destruct (HL f Hf) as [_ [_ N1]]. destruct (HL k Hk) as [_ [_ N2]].
      destruct (mA s f) as [|[] ?]; [congruence|]. destruct (mA s k) as [|[] ?]; [congruence|]. exact P. }
  assert (NQ : ~ fc s f / fc s j == 0).
  { intros Z. apply (NZ f Hf). setoid_replace (fc s f) with (fc s f / fc s j * fc s j) by (field; auto). rewrite Z. ring. }
  eapply scaled_ext; [|apply (scaled_trans _ _ _ _ _ (scaled_sym _ _ _ NQ (X j Hj)) (X i Hi))].
  field. auto.
Qed.

Theorem parallel_rows_sem : forall stgs fits P s s' st, wf_input P -> reached stgs fits P s ->
  w_empty_rows s = [] -> clear_cut (reduced_lp s) -> remove_parallel_rows s = (s', st) ->
  (st = INFEASIBLE -> forall x, feasible (reduced_lp s) x -> on_the_edge (reduced_lp s) x) /\
  (st <> INFEASIBLE ->
    (forall x, feasible (reduced_lp s) x ->
       feasible_up_to feas_tol exactly (reduced_lp s') x /\ objective (reduced_lp s') x == objective (reduced_lp s) x) /\
    (unmixed s -> forall x, feasible (reduced_lp s') x ->
       (forall k, In k (lp_cols (reduced_lp s)) -> col_sat (reduced_lp s) x k) /\
       (forall i, In i (lp_rows (reduced_lp s)) -> holds_by_parallel (reduced_lp s) (reduced_lp s') x i) /\
       objective (reduced_lp s) x == objective (reduced_lp s') x)).
Proof.
  intros stgs fits P s s' st WF RC WE CC EQ.
  destruct (reached_ok stgs fits P s WF RC) as [OK M]. assert (H := ok_inv s OK).
  assert (TR := md_tags s M).
  assert (SP := par_rows_spec s H (ok_nx s OK) (ok_quiet s OK) WE). rewrite EQ in SP. destruct SP as [ST [QU' _]].
  assert (M' : Mid s') by (pose proof (par_rows_Mid s H M (ok_nx s OK) (ok_quiet s OK) WE) as X; rewrite EQ in X; exact X).
  assert (OK' : Ok s') by (constructor; auto; [apply ST|apply ST; apply OK]).
  unfold remove_parallel_rows, remove_parallel_rows_with in EQ.
  pose proof (par_groups_live s H (ok_nx s OK) (ok_quiet s OK) WE) as HL.
  pose proof (hash_bins_ok (mA s) (fun i => t_inact (rt s i)) (nr s)) as BO.
  set (bins := hash_bins _ _ _) in *.
  assert (ND := groups_nd (mA s) (fun i => t_inact (rt s i)) bins (bo_nd _ _ _ BO)).
  assert (GF : forall g, In g (groups_of (mA s) bins) -> exists f l, g = find_parallel_rows_in_bin (mA s) (f :: l)).
  { intros g Hg. assert (Hg' := Hg). apply groups_in in Hg'. destruct Hg' as [[|f l] [_ ->]]; eauto.
    apply filter_In in Hg. destruct Hg as [_ Hg]. discriminate. }
  assert (NN : forall g, In g (groups_of (mA s) bins) -> g <> []).
  { intros g Hg. apply filter_In in Hg. destruct Hg as [_ Hg]. intros ->. discriminate. }
  assert (GS : forall g, In g (groups_of (mA s) bins) -> forall i j, In i g -> In j g -> scaled (fc s j / fc s i) (mA s j) (mA s i)).
  { intros g Hg. apply (group_scaled s g H CC); auto. intros; eapply HL; eauto. }
  pose proof (row_bins_stp _ s H ND HL) as S1. pose proof (row_bins_Mid _ s H M ND HL) as M1.
  pose proof (row_bins_sem _ s H M ND HL NN) as SM.
  set (gs := groups_of (mA s) bins) in *. clearbody gs.
  destruct (process_row_bins gs s) as [s1 st1]. cbn [fst] in M1.
  injection EQ as <- <-. destruct S1 as [S1 _]. destruct SM as [CF [OUT [INF KEPT]]].
  assert (H1 := st_inv _ _ S1).
  destruct (dir_sem s1 H1) as [DS [DO [_ [_ [DF [DA _]]]]]]. cbv zeta in *.
  set (s' := delete_inactive_rows s1) in *.
  assert (VAL : forall g x, In g gs -> exists t, forall j, In j g -> dot (mA s j) x == fc s j * t).
  { intros g x Hg. destruct g as [|i g]; [elim (NN _ Hg); auto|].
    assert (F := live_fine s i H (HL _ i Hg (or_introl eq_refl))).
    exists (dot (mA s i) x / fc s i). intros j Hj. rewrite (scaled_dot _ _ _ x (GS _ Hg i j (or_introl eq_refl) Hj)). field. apply F. }
  assert (ROWS : forall x, sat exactly exactly s x -> forall g, In g gs -> exists t,
     (forall j, In j g -> dot (mA s j) x == fc s j * t) /\ forall j, In j g -> R0 s j t).
  { intros x [SR _] g Hg. destruct (VAL g x Hg) as [t T]. exists t. split; auto. intros j Hj.
    destruct (HL g j Hg Hj) as [A [B _]]. specialize (SR j A B). apply (within_tags s j _ _ TR A B) in SR. unfold exactly in SR.
    destruct SR as [L U]. split; [revert U; apply SU_ext|revert L; apply SL_ext]; rewrite T by auto; ring. }
  assert (OB : forall x, objective (reduced_lp s') x == objective (reduced_lp s) x).
  { intros x. rewrite <- !obj_reduced. rewrite DO. unfold obj, live_cols.
    rewrite (cf_off _ _ CF), (cf_nc _ _ CF), (cf_csz _ _ CF), (cf_cst _ _ CF). lra. }
  split; [|intros NI; split].
  - intros EI x FX. apply (sat_feasible s x OK) in FX. destruct (INF EI) as [g [Hg G]].
    destruct (ROWS x FX g Hg) as [t [T1 T2]]. destruct (G t T2) as [[j [J1 [J2 J3]]] _].
    destruct (HL g j Hg J1) as [A [B _]]. pose proof (tr_lhs s TR j A B) as L. rewrite J2 in L.
    exists j, (fin (lhs s j)). cbn. split; [apply live_rows_in; split; auto; apply act_alive; auto; apply H|].
    split; [destruct (lhs s j); try discriminate; auto|]. rewrite T1; auto.
  - intros x FX. split; [|apply OB]. apply (sat_feasible s x OK) in FX.
    apply (sat_reduced feas_tol exactly s' x OK'). apply DS.
    assert (FX0 := FX). destruct FX as [SR [SC SPN]].
    split; [|split].
    + intros i Hi Ti. destruct (in_dec Nat.eq_dec i (concat gs)) as [I|I].
      * apply in_concat in I. destruct I as [g [Hg Hig]]. destruct (KEPT NI g Hg) as [r [K1 K2 K3 K4 KE K5]].
        destruct (Nat.eq_dec i r) as [->|NE]; [|rewrite (K3 i Hig NE) in Ti; discriminate].
        destruct (ROWS x FX0 g Hg) as [t [T1 T2]]. apply (within_tags s1 r _ _ (md_tags _ M1) Hi Ti).
        destruct (K4 t T2) as [U L]. rewrite (cf_A _ _ CF). unfold feas_tol.
        split; [revert L; apply SL_ext|revert U; apply SU_ext]; rewrite T1 by auto; ring.
      * destruct (OUT i I) as [A [B C]]. rewrite A, B, (cf_A _ _ CF). rewrite C in Ti. rewrite (cf_nr _ _ CF) in Hi.
        apply (within_le (exactly i)); [discriminate|]. apply SR; auto.
    + intros k. rewrite (cf_nc _ _ CF), (cf_ct _ _ CF), (cf_lb _ _ CF), (cf_ub _ _ CF). apply SC.
    + unfold pinned. rewrite (cf_fx _ _ CF), (cf_sb _ _ CF), (cf_ub _ _ CF). exact SPN.
  - intros UM x FX. split; [|split; [|symmetry; apply OB]]; apply (sat_feasible s' x OK') in FX; apply DS in FX; destruct FX as [SR [SC SPN]].
    + intros k Hk. cbn in Hk. apply live_cols_in in Hk. destruct Hk as [Hk R]. apply quiet_col in R; auto; try apply OK.
      rewrite (cf_nc _ _ CF), (cf_ct _ _ CF), (cf_lb _ _ CF), (cf_ub _ _ CF) in SC.
      apply within0. apply (SC k Hk R).
    + intros j Hj. cbn in Hj. apply live_rows_in in Hj. destruct Hj as [Hj R]. apply quiet_row in R; auto; try apply OK.
      assert (LV' : forall r, (r < nr s1)%nat -> t_inact (rt s1 r) = false -> In r (lp_rows (reduced_lp s')) /\ mA s' r = mA s r).
      { intros r A B. split; [|rewrite DA by auto; rewrite (cf_A _ _ CF); auto].
        cbn. apply live_rows_in. destruct DF as [_ [_ [_ [_ [F1 [_ [_ [_ [F2 _]]]]]]]]]. rewrite F2. split; auto.
        apply act_alive; [apply OK'|rewrite F2; auto|rewrite F1; auto]. }
      destruct (in_dec Nat.eq_dec j (concat gs)) as [I|I].
      * apply in_concat in I. destruct I as [g [Hg Hjg]]. destruct (KEPT NI g Hg) as [r [K1 K2 K3 K4 KE K5]].
        destruct (HL g r Hg K1) as [Ar [Br Cr]].
        assert (Ar1 : (r < nr s1)%nat) by (rewrite (cf_nr _ _ CF); auto).
        destruct (LV' r Ar1 K2) as [LV1 LV2].
        exists r, (fc s j / fc s r). split; auto. cbn [lp_A reduced_lp lp_lhs lp_rhs]. rewrite LV2. split; [apply (GS g); auto|].
        apply (within_tags s j _ _ TR Hj R).
        destruct (VAL g x Hg) as [t T].
        specialize (SR r Ar1 K2). apply (within_tags s1 r _ _ (md_tags _ M1) Ar1 K2) in SR. rewrite (cf_A _ _ CF) in SR. unfold exactly in SR.
        assert (NM : nomix s g).
        { intros a b c Ha Hb Hc NE T1 T2 T3.
          assert (LV : forall j, In j g -> In j (live_rows s)).
          { intros k Hk. destruct (HL g k Hg Hk) as [A [B C]]. apply live_rows_in. split; auto. apply act_alive; auto. apply H. }
          apply (UM a b c (fc s b / fc s a) (fc s c / fc s a)); auto; apply (GS g); auto. }
        destruct (K5 NM t) with (j := j) as [U L]; auto.
        { destruct SR as [_ U]. revert U. apply SU_ext. rewrite T by auto. ring. }
        { destruct SR as [L _]. revert L. apply SL_ext. rewrite T by auto. ring. }
        split; [revert L; apply SL_ext|revert U; apply SU_ext]; rewrite T by auto; ring.
      * destruct (OUT j I) as [A [B C]]. rewrite <- C in R.
        assert (Hj1 : (j < nr s1)%nat) by (rewrite (cf_nr _ _ CF); auto).
        destruct (LV' j Hj1 R) as [LV1 LV2].
        exists j, 1. split; auto. cbn [lp_A reduced_lp lp_lhs lp_rhs]. rewrite LV2. split; [apply scaled_refl|].
        specialize (SR j Hj1 R). rewrite A, B, (cf_A _ _ CF) in SR. eapply within_le; [|exact SR]. discriminate.
Qed.
