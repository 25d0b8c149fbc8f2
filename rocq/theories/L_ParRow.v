(** What the merging of parallel rows does to the solutions (src/explorers/Parallel_rows.c). *)
From Coq Require Import NArith Lqa Lia Qabs.
From Verif Require Import M_Num S_LP M_Settings M_Driver S_Driver M_State M_Act M_Core M_Simple
  M_StonCols M_Dton M_Parallel M_Propagate M_Init M_Post M_Run S_Run S_Struct S_Sem S_Merge
  L_State L_Struct L_Struct2 L_Struct3 L_Struct4 L_Struct5 L_Struct6 L_Struct7 L_Struct8 L_Struct11
  L_Sem L_Sem2 L_Sem3 L_Sem4 L_Mid L_Mid2 L_Mid3 L_Mid4 L_Mid5.
Open Scope Q_scope.

(** ** Sides as seen through the tags *)
Definition SU (s : state) (i : nat) (v : Q) : Prop := t_rhs_inf (rt s i) = false -> v <= fin (rhs s i).
Definition SL (s : state) (i : nat) (v : Q) : Prop := t_lhs_inf (rt s i) = false -> fin (lhs s i) <= v.
Definition MU (m : merge) (v : Q) : Prop := m_rhs_inf m = false -> v <= fin (m_rhs m).
Definition ML (m : merge) (v : Q) : Prop := m_lhs_inf m = false -> fin (m_lhs m) <= v.

Lemma within_tags : forall s i e v, tags_right s -> (i < nr s)%nat -> t_inact (rt s i) = false ->
  (within e (lhs s i) v (rhs s i) <-> SL s i (v + e) /\ SU s i (v - e)).
Proof.
  intros s i e v T Hi Ti. pose proof (tr_lhs s T i Hi Ti) as A. pose proof (tr_rhs s T i Hi Ti) as B.
  unfold within, SL, SU.
  assert (X : ext_le (lhs s i) (v + e) <-> (t_lhs_inf (rt s i) = false -> fin (lhs s i) <= v + e)).
  { destruct (t_lhs_inf (rt s i)).
    - rewrite A. cbn. split; [discriminate|auto].
    - destruct (lhs s i); try discriminate. cbn. tauto. }
  assert (Y : le_ext (v - e) (rhs s i) <-> (t_rhs_inf (rt s i) = false -> v - e <= fin (rhs s i))).
  { destruct (t_rhs_inf (rt s i)).
    - rewrite B. cbn. split; [discriminate|auto].
    - destruct (rhs s i); try discriminate. cbn. tauto. }
  tauto.
Qed.

(** ** Scaled rows *)
Lemma scaled_dot : forall q r r' x, scaled q r r' -> dot r x == q * dot r' x.
Proof.
  intros q r r' x H. induction H as [|[k a] [k' a'] r r' [E1 E2] H IH]; cbn in *; [lra|].
  subst k'. rewrite IH, E2. ring.
Qed.
Lemma scaled_refl : forall r, scaled 1 r r.
Proof. induction r as [|e r IH]; constructor; auto. split; auto. ring. Qed.
Lemma scaled_ext : forall q q' r r', q == q' -> scaled q r r' -> scaled q' r r'.
Proof. intros q q' r r' E H. induction H as [|e e' r r' [A B] H IH]; constructor; auto. rewrite <- E. auto. Qed.
Lemma scaled_trans : forall q p a b c, scaled q a b -> scaled p b c -> scaled (q * p) a c.
Proof.
  intros q p a b c H. revert c. induction H as [|e e' r r' [A B] H IH]; intros c K; inversion K as [|e0 e1 r0 r1 [C D] K' E0 E1]; subst; constructor.
  - split; [congruence|]. rewrite B, D. ring.
  - apply IH. exact K'.
Qed.
Lemma scaled_sym : forall q a b, ~ q == 0 -> scaled q a b -> scaled (/ q) b a.
Proof.
  intros q a b N H. induction H as [|e e' r r' [A B] H IH]; constructor; auto.
  split; auto. rewrite B. field. auto.
Qed.
Lemma nearly_of : forall q r r', same_pattern q r r' = true -> nearly_scaled q r r'.
Proof.
  intros q r. induction r as [|[k a] r IH]; intros [|[k' a'] r'] H; cbn in H; try discriminate; constructor.
  - apply andb_true_iff in H. destruct H as [H _]. apply andb_true_iff in H. destruct H as [H1 H2].
    apply Nat.eqb_eq in H2. subst. split; auto. cbn [fst snd]. unfold IS_ZERO_FEAS_TOL in H1. qb.
    apply absq_le in H1. apply Qabs_Qle_condition. destruct H1. split; lra.
  - apply andb_true_iff in H. destruct H as [_ H]. apply IH; auto.
Qed.
Lemma first_entry_eq : forall r, first_entry r = first_coeff r.
Proof. destruct r as [|[k a] r]; reflexivity. Qed.

Lemma abs_pos : forall q, 0 < q -> Qabs q == q. Proof. intros. apply Qabs_pos. lra. Qed.
Lemma abs_neg : forall q, q < 0 -> Qabs q == - q. Proof. intros. apply Qabs_neg. lra. Qed.

(** One row against the scaled value: c the coefficient of the kept row, a that of the other. *)
Lemma scale_le : forall r c a t e, ~ c == 0 -> ~ a == 0 ->
  (0 < c / a -> (c * t - e <= r * (c / a) <-> a * t - e * Qabs (a / c) <= r) /\
                (r * (c / a) <= c * t + e <-> r <= a * t + e * Qabs (a / c))) /\
  (c / a < 0 -> (r * (c / a) <= c * t + e <-> a * t - e * Qabs (a / c) <= r) /\
                (c * t - e <= r * (c / a) <-> r <= a * t + e * Qabs (a / c))).
Proof.
  intros r c a t e NC NA.
  set (q := a / c). assert (I : c / a == / q) by (unfold q; field; auto).
  assert (C0 : c * t == (a * t) * (c / a)) by (field; auto).
  assert (NQ : ~ q == 0).
  { intros E. unfold q in E. assert (a == 0); [|auto]. setoid_replace a with ((a / c) * c) by (field; auto). rewrite E. ring. }
  rewrite C0, I. clearbody q. clear C0 I. generalize (a * t). intros w.
  assert (S0 : / q * q == 1) by (field; auto). set (h := / q) in *. clearbody h.
  assert (HH : h == / q) by (setoid_replace h with (h * q * / q) by (field; auto); rewrite S0; field; auto).
  split; intros H.
  - assert (P : 0 < q) by (apply Qnot_le_lt; intros L; nra). rewrite (abs_pos q P).
    split; rewrite <- (Qmult_le_r _ _ q P); (setoid_replace ((w * h - e) * q) with (w * (h * q) - e * q) by ring) ||
      (setoid_replace ((w * h + e) * q) with (w * (h * q) + e * q) by ring);
      setoid_replace (r * h * q) with (r * (h * q)) by ring; rewrite S0; split; intros; lra.
  - assert (P : q < 0) by (apply Qnot_le_lt; intros L; nra). rewrite (abs_neg q P).
    assert (P' : 0 < - q) by lra.
    split; rewrite <- (Qmult_le_r _ _ (- q) P'); (setoid_replace ((w * h - e) * - q) with (- w * (h * q) + e * q) by ring) ||
      (setoid_replace ((w * h + e) * - q) with (- w * (h * q) - e * q) by ring);
      setoid_replace (r * h * - q) with (- r * (h * q)) by ring; rewrite S0; split; intros; lra.
Qed.

(** ** One more row *)
Ltac ms1 K := split; intros Z; try discriminate; try (specialize (K eq_refl)); auto; lra.
Ltac ms2 K := let K1 := fresh in let K2 := fresh in destruct K as [K1 K2];
  try (specialize (K1 eq_refl)); try (specialize (K2 eq_refl)); intros Z; try discriminate; lra.
Ltac ms := split; intros v; split; intros K; (ms1 K || ms2 K).
Lemma merge_step_ineq : forall s m o, m_eq m = false -> t_eq (rt s o) = false ->
  (m_rhs_inf m = false -> is_fin (m_rhs m) = true) -> (m_lhs_inf m = false -> is_fin (m_lhs m) = true) ->
  let ratio := m_coeff m / first_coeff (mA s o) in
  exists m', merge_step s m o = Some m' /\ m_eq m' = false /\ m_idx m' = m_idx m /\ m_coeff m' = m_coeff m /\
   (m_rhs_inf m' = false -> is_fin (m_rhs m') = true) /\ (m_lhs_inf m' = false -> is_fin (m_lhs m') = true) /\
   (0 < ratio ->
     (forall v, MU m' v <-> MU m v /\ (t_rhs_inf (rt s o) = false -> v <= fin (rhs s o) * ratio)) /\
     (forall v, ML m' v <-> ML m v /\ (t_lhs_inf (rt s o) = false -> fin (lhs s o) * ratio <= v))) /\
   (ratio < 0 ->
     (forall v, ML m' v <-> ML m v /\ (t_rhs_inf (rt s o) = false -> fin (rhs s o) * ratio <= v)) /\
     (forall v, MU m' v <-> MU m v /\ (t_lhs_inf (rt s o) = false -> v <= fin (lhs s o) * ratio))).
Proof.
  intros s m o E EO FR FL ratio. unfold merge_step. cbv zeta. rewrite E, EO. cbn [negb andb].
  fold ratio. clearbody ratio. rewrite E.
  set (orhs := fin (rhs s o) * ratio). set (olhs := fin (lhs s o) * ratio). clearbody orhs olhs.
  destruct (Qgtb ratio 0) eqn:G; qb.
  - destruct (negb (t_rhs_inf (rt s o)) && (m_rhs_inf m || Qltb orhs (fin (m_rhs m)))) eqn:C1;
    cbn [m_lhs_inf m_lhs];
    destruct (negb (t_lhs_inf (rt s o)) && (m_lhs_inf m || Qgtb olhs (fin (m_lhs m)))) eqn:C2;
    (eexists; split; [reflexivity|]; cbn [m_eq m_idx m_coeff m_rhs_inf m_lhs_inf m_rhs m_lhs is_fin];
     do 5 (split; [auto|]); split; [intros _|intros; exfalso; lra]; unfold MU, ML;
     cbn [m_rhs_inf m_lhs_inf m_rhs m_lhs fin]; clear - C1 C2;
     destruct (t_rhs_inf (rt s o)), (t_lhs_inf (rt s o)), (m_rhs_inf m), (m_lhs_inf m); cbn in C1, C2; qb; try discriminate;
     ms).
  - destruct (negb (t_rhs_inf (rt s o)) && (m_lhs_inf m || Qgtb orhs (fin (m_lhs m)))) eqn:C1;
    cbn [m_rhs_inf m_rhs];
    destruct (negb (t_lhs_inf (rt s o)) && (m_rhs_inf m || Qltb olhs (fin (m_rhs m)))) eqn:C2;
    (eexists; split; [reflexivity|]; cbn [m_eq m_idx m_coeff m_rhs_inf m_lhs_inf m_rhs m_lhs is_fin];
     do 5 (split; [auto|]); split; [intros; exfalso; lra|intros _]; unfold MU, ML;
     cbn [m_rhs_inf m_lhs_inf m_rhs m_lhs fin]; clear - C1 C2;
     destruct (t_rhs_inf (rt s o)), (t_lhs_inf (rt s o)), (m_rhs_inf m), (m_lhs_inf m); cbn in C1, C2; qb; try discriminate;
     ms).
Qed.

(** ** All rows of a group *)
Ltac qg := match goal with |- ?b = _ => let E := fresh in destruct b eqn:E; qb; try reflexivity; exfalso; lra end.
Definition fc (s : state) (j : nat) : Q := first_coeff (mA s j).
Definition RO (s : state) (c e : Q) (j : nat) (t : Q) : Prop :=
  SU s j (fc s j * t - e * Qabs (fc s j / c)) /\ SL s j (fc s j * t + e * Qabs (fc s j / c)).
Definition R0 (s : state) (j : nat) (t : Q) : Prop := SU s j (fc s j * t) /\ SL s j (fc s j * t).
Lemma SU_ext : forall s j v w, v == w -> (SU s j v <-> SU s j w).
Proof. intros s j v w E. unfold SU. split; intros H K; specialize (H K); lra. Qed.
Lemma SL_ext : forall s j v w, v == w -> (SL s j v <-> SL s j w).
Proof. intros s j v w E. unfold SL. split; intros H K; specialize (H K); lra. Qed.
Lemma MU_ext : forall m v w, v == w -> (MU m v <-> MU m w).
Proof. intros m v w E. unfold MU. split; intros H K; specialize (H K); lra. Qed.
Lemma ML_ext : forall m v w, v == w -> (ML m v <-> ML m w).
Proof. intros m v w E. unfold ML. split; intros H K; specialize (H K); lra. Qed.
Lemma RO_0 : forall s c j t, RO s c 0 j t <-> R0 s j t.
Proof.
  intros. unfold RO, R0. rewrite (SU_ext s j _ (fc s j * t)) by ring. rewrite (SL_ext s j _ (fc s j * t)) by ring. tauto.
Qed.
Lemma RO_weaken : forall s c e j t, 0 <= e -> R0 s j t -> RO s c e j t.
Proof.
  intros s c e j t E [A B]. assert (P : 0 <= e * Qabs (fc s j / c)) by (apply Qmult_le_0_compat; auto; apply Qabs_nonneg).
  split; intros K; [specialize (A K)|specialize (B K)]; lra.
Qed.

Record NEI (s : state) (i0 : nat) (D : list nat) (m : merge) : Prop := {
  ne_eq : m_eq m = false;  ne_ix : m_idx m = i0;  ne_co : m_coeff m = fc s i0;
  ne_no : forall j, In j D -> t_eq (rt s j) = false;
  ne_in : In i0 D;
  ne_fr : m_rhs_inf m = false -> is_fin (m_rhs m) = true;
  ne_fl : m_lhs_inf m = false -> is_fin (m_lhs m) = true;
  ne_iff : forall e t, MU m (fc s i0 * t - e) /\ ML m (fc s i0 * t + e) <-> (forall j, In j D -> RO s (fc s i0) e j t) }.

Definition nomix (s : state) (D : list nat) : Prop := forall i j k, In i D -> In j D -> In k D -> j <> k ->
  t_eq (rt s i) = true -> t_eq (rt s j) = false -> t_eq (rt s k) = false -> False.
Record EQI (s : state) (D : list nat) (m : merge) : Prop := {
  qe_eq : m_eq m = true;  qe_in : In (m_idx m) D;  qe_tag : t_eq (rt s (m_idx m)) = true;
  qe_co : m_coeff m = fc s (m_idx m);  qe_rhs : m_rhs m = rhs s (m_idx m);
  qe_rows : nomix s D -> forall t, m_coeff m * t == fin (m_rhs m) ->
     forall j, In j D -> RO s (m_coeff m) FEAS_TOL j t }.

Section Loop.
Variable s : state.
Hypothesis TR : tags_right s.
Definition fine (j : nat) : Prop := (j < nr s)%nat /\ t_inact (rt s j) = false /\ ~ fc s j == 0.

Lemma eq_tag : forall j, fine j -> t_eq (rt s j) = true ->
  t_rhs_inf (rt s j) = false /\ t_lhs_inf (rt s j) = false /\ fin (lhs s j) == fin (rhs s j).
Proof.
  intros j [A [B _]] E. destruct (tr_eq s TR j A B E) as [p [q [X [Y Z]]]].
  pose proof (tr_lhs s TR j A B) as L. pose proof (tr_rhs s TR j A B) as R. rewrite X in *. rewrite Y in *.
  destruct (t_lhs_inf (rt s j)), (t_rhs_inf (rt s j)); try discriminate. auto.
Qed.
Lemma div_sign : forall c a, ~ c == 0 -> ~ a == 0 -> 0 < c / a \/ c / a < 0.
Proof.
  intros c a C A. destruct (Q_dec 0 (c / a)) as [[H|H]|H]; auto. exfalso. apply C.
  setoid_replace c with ((c / a) * a) by (field; auto). rewrite <- H. ring.
Qed.
Lemma NE_init : forall i, fine i -> t_eq (rt s i) = false -> NEI s i [i] (merge_init s i).
Proof.
  intros i [A [B C]] E. pose proof (tr_lhs s TR i A B) as L. pose proof (tr_rhs s TR i A B) as R.
  constructor; cbn [merge_init m_eq m_idx m_coeff m_rhs_inf m_lhs_inf m_rhs m_lhs]; auto.
  - intros j [->|[]]; auto.
  - left; auto.
  - intros K; rewrite K in R; auto.
  - intros K; rewrite K in L; auto.
  - intros e t. assert (Q1 : Qabs (fc s i / fc s i) == 1).
    { setoid_replace (fc s i / fc s i) with 1 by (field; auto). reflexivity. }
    split.
    + intros [U W] j [<-|[]]. split; [apply (SU_ext s i _ (fc s i * t - e))|apply (SL_ext s i _ (fc s i * t + e))]; auto; rewrite Q1; ring.
    + intros H. destruct (H i (or_introl eq_refl)) as [U W]. unfold MU, ML, SU, SL in *. cbn. 
      rewrite Q1 in U, W. split; intros K; [specialize (U K)|specialize (W K)]; lra.
Qed.
Lemma EQ_init : forall i, fine i -> t_eq (rt s i) = true -> EQI s [i] (merge_init s i).
Proof.
  intros i F E. constructor; cbn [merge_init m_eq m_idx m_coeff m_rhs]; auto; [left; auto|].
  intros _ t K j [<-|[]]. fold (fc s i) in *. destruct (eq_tag i F E) as [_ [_ X]]. apply RO_weaken; [unfold FEAS_TOL; lra|].
  split; intros _; rewrite ?X; lra.
Qed.
Lemma row_scaled : forall i o t e, fine i -> fine o ->
  let ratio := fc s i / fc s o in
  (0 < ratio -> (RO s (fc s i) e o t <->
     (t_rhs_inf (rt s o) = false -> fc s i * t - e <= fin (rhs s o) * ratio) /\
     (t_lhs_inf (rt s o) = false -> fin (lhs s o) * ratio <= fc s i * t + e))) /\
  (ratio < 0 -> (RO s (fc s i) e o t <->
     (t_rhs_inf (rt s o) = false -> fin (rhs s o) * ratio <= fc s i * t + e) /\
     (t_lhs_inf (rt s o) = false -> fc s i * t - e <= fin (lhs s o) * ratio))).
Proof.
  intros i o t e [_ [_ NI]] [_ [_ NO]] ratio. unfold RO, SU, SL, ratio.
  pose proof (scale_le (fin (rhs s o)) (fc s i) (fc s o) t e NI NO) as [A1 A2].
  pose proof (scale_le (fin (lhs s o)) (fc s i) (fc s o) t e NI NO) as [B1 B2].
  split; intros H.
  - destruct (A1 H) as [-> _]. destruct (B1 H) as [_ ->]. tauto.
  - destruct (A2 H) as [-> _]. destruct (B2 H) as [_ ->]. tauto.
Qed.

Lemma NE_step : forall i D m o, fine i -> fine o -> NEI s i D m -> t_eq (rt s o) = false ->
  exists m', merge_step s m o = Some m' /\ NEI s i (D ++ [o]) m'.
Proof.
  intros i D m o Fi Fo N EO. destruct N as [N1 N2 N3 N4 N5 N6 N7 N8].
  destruct (merge_step_ineq s m o N1 EO N6 N7) as [m' [E [M1 [M2 [M3 [M4 [M5 [P1 P2]]]]]]]].
  fold (fc s o) in *. rewrite N3 in *.
  exists m'. split; [exact E|]. constructor; auto; try congruence.
  - intros j Hj. apply in_app_or in Hj. destruct Hj as [Hj|[<-|[]]]; auto.
  - apply in_or_app; auto.
  - intros e t. pose proof (row_scaled i o t e Fi Fo) as [R1 R2]. cbv zeta in R1, R2.
    assert (X : (forall j, In j (D ++ [o]) -> RO s (fc s i) e j t) <-> (forall j, In j D -> RO s (fc s i) e j t) /\ RO s (fc s i) e o t).
    { split; [intros H; split; [intros j Hj|]; apply H, in_or_app; simpl; auto|].
      intros [H1 H2] j Hj. apply in_app_or in Hj. destruct Hj as [Hj|[<-|[]]]; auto. }
    rewrite X, <- N8. destruct Fi as [_ [_ Ni]]. destruct Fo as [_ [_ No]].
    destruct (div_sign (fc s i) (fc s o) Ni No) as [S|S].
    + destruct (P1 S) as [U L]. rewrite U, L, (R1 S). tauto.
    + destruct (P2 S) as [U L]. rewrite U, L, (R2 S). tauto.
Qed.

Lemma R0_eq : forall i t, fine i -> t_eq (rt s i) = true -> R0 s i t -> fc s i * t == fin (rhs s i).
Proof.
  intros i t F E [A B]. destruct (eq_tag i F E) as [X [Y Z]]. specialize (A X). specialize (B Y). lra.
Qed.

(** An equation against another row: [b] its right side. *)
Lemma eq_vs_eq : forall i o, fine i -> fine o -> t_eq (rt s i) = true -> t_eq (rt s o) = true ->
  let orhs := fin (rhs s o) * (fc s i / fc s o) in
  (IS_EQUAL_FEAS_TOL (fin (rhs s i)) orhs = true ->
     forall t, fc s i * t == fin (rhs s i) -> RO s (fc s i) FEAS_TOL o t) /\
  (IS_EQUAL_FEAS_TOL (fin (rhs s i)) orhs = false -> forall t, R0 s i t -> R0 s o t -> False).
Proof.
  intros i o Fi Fo Ei Eo orhs. destruct (eq_tag o Fo Eo) as [X [Y Z]].
  assert (W : fin (lhs s o) * (fc s i / fc s o) == orhs) by (unfold orhs; rewrite Z; ring).
  split; intros H t.
  - intros K. unfold IS_EQUAL_FEAS_TOL in H. qb. apply absq_le in H.
    pose proof (row_scaled i o t FEAS_TOL Fi Fo) as [R1 R2]. cbv zeta in R1, R2.
    destruct (div_sign (fc s i) (fc s o) (proj2 (proj2 Fi)) (proj2 (proj2 Fo))) as [S|S].
    + apply R1; auto. fold orhs. rewrite W. split; intros _; lra.
    + apply R2; auto. fold orhs. rewrite W. split; intros _; lra.
  - intros A B. apply (R0_eq i t Fi Ei) in A. apply (proj2 (RO_0 s (fc s i) o t)) in B.
    assert (~ ABSq (fin (rhs s i) - orhs) <= FEAS_TOL) as N by (unfold IS_EQUAL_FEAS_TOL in H; qb; lra).
    apply N. apply absq_le.
    pose proof (row_scaled i o t 0 Fi Fo) as [R1 R2]. cbv zeta in R1, R2.
    destruct (div_sign (fc s i) (fc s o) (proj2 (proj2 Fi)) (proj2 (proj2 Fo))) as [S|S].
    + apply R1 in B; auto. fold orhs in B. rewrite W in B. destruct B as [B1 B2].
      specialize (B1 X). specialize (B2 Y). unfold FEAS_TOL. lra.
    + apply R2 in B; auto. fold orhs in B. rewrite W in B. destruct B as [B1 B2].
      specialize (B1 X). specialize (B2 Y). unfold FEAS_TOL. lra.
Qed.

Definition ineq_bad (b orhs olhs ratio : Q) (o : nat) : bool :=
  (negb (t_rhs_inf (rt s o)) && ((Qgtb ratio 0 && Qgtb b orhs) || (Qltb ratio 0 && Qltb b orhs))) ||
  (negb (t_lhs_inf (rt s o)) && ((Qgtb ratio 0 && Qltb b olhs) || (Qltb ratio 0 && Qgtb b olhs))).
Lemma eq_vs_ineq : forall i o, fine i -> fine o -> t_eq (rt s i) = true ->
  let ratio := fc s i / fc s o in
  (ineq_bad (fin (rhs s i)) (fin (rhs s o) * ratio) (fin (lhs s o) * ratio) ratio o = false ->
     forall t, fc s i * t == fin (rhs s i) -> R0 s o t) /\
  (ineq_bad (fin (rhs s i)) (fin (rhs s o) * ratio) (fin (lhs s o) * ratio) ratio o = true ->
     forall t, R0 s i t -> R0 s o t -> False).
Proof.
  intros i o Fi Fo Ei ratio.
  assert (X : forall t, fc s i * t == fin (rhs s i) ->
    (ineq_bad (fin (rhs s i)) (fin (rhs s o) * ratio) (fin (lhs s o) * ratio) ratio o = false <-> R0 s o t)).
  { intros t K. rewrite <- (RO_0 s (fc s i) o t). pose proof (row_scaled i o t 0 Fi Fo) as [R1 R2]. cbv zeta in R1, R2. fold ratio in R1, R2.
    unfold ineq_bad.
    destruct (div_sign (fc s i) (fc s o) (proj2 (proj2 Fi)) (proj2 (proj2 Fo))) as [S|S]; fold ratio in S.
    - rewrite (R1 S). clear R1 R2. assert (G : Qgtb ratio 0 = true) by qg. assert (G' : Qltb ratio 0 = false) by qg.
      rewrite G, G'. cbn [andb]. rewrite !orb_false_r.
      set (R := fin (rhs s o) * ratio). set (L := fin (lhs s o) * ratio). clearbody R L.
      split.
      + intros H. apply orb_false_iff in H. destruct H as [H1 H2].
        split; intros T; rewrite T in *; cbn [negb andb] in *; qb; lra.
      + intros [H1 H2]. apply orb_false_iff. split.
        * destruct (t_rhs_inf (rt s o)); [auto|]. cbn [negb andb]. specialize (H1 eq_refl). qg.
        * destruct (t_lhs_inf (rt s o)); [auto|]. cbn [negb andb]. specialize (H2 eq_refl). qg.
    - rewrite (R2 S). clear R1 R2. assert (G : Qltb ratio 0 = true) by qg. assert (G' : Qgtb ratio 0 = false) by qg.
      rewrite G, G'. cbn [andb orb].
      set (R := fin (rhs s o) * ratio). set (L := fin (lhs s o) * ratio). clearbody R L.
      split.
      + intros H. apply orb_false_iff in H. destruct H as [H1 H2].
        split; intros T; rewrite T in *; cbn [negb andb] in *; qb; lra.
      + intros [H1 H2]. apply orb_false_iff. split.
        * destruct (t_rhs_inf (rt s o)); [auto|]. cbn [negb andb]. specialize (H1 eq_refl). qg.
        * destruct (t_lhs_inf (rt s o)); [auto|]. cbn [negb andb]. specialize (H2 eq_refl). qg. }
  split.
  - intros H t K. apply (X t K). auto.
  - intros H t A B. apply (R0_eq i t Fi Ei) in A. apply (X t A) in B. congruence.
Qed.

Lemma nomix_l : forall D D', nomix s (D ++ D') -> nomix s D.
Proof. intros D D' H i j k A B C. apply H; apply in_or_app; auto. Qed.

Lemma EQ_step : forall D m o, (forall j, In j (D ++ [o]) -> fine j) -> EQI s D m ->
  match merge_step s m o with
  | Some m' => EQI s (D ++ [o]) m'
  | None => forall t, R0 s (m_idx m) t -> R0 s o t -> False
  end.
Proof.
  intros D m o HF [Q1 Q2 Q3 Q4 Q5 Q6]. unfold merge_step. cbv zeta. rewrite Q1. cbn [negb andb].
  fold (fc s o). rewrite Q1, Q4, Q5. cbn [andb].
  assert (Fi : fine (m_idx m)) by (apply HF, in_or_app; auto).
  assert (Fo : fine o) by (apply HF, in_or_app; simpl; auto).
  assert (G : (forall t, fc s (m_idx m) * t == fin (rhs s (m_idx m)) -> RO s (fc s (m_idx m)) FEAS_TOL o t) -> EQI s (D ++ [o]) m).
  { intros H. constructor; auto.
    - apply in_or_app; auto.
    - intros NM t K j Hj. apply in_app_or in Hj. destruct Hj as [Hj|[<-|[]]].
      + apply Q6; auto. eapply nomix_l; eauto.
      + rewrite Q4 in *. rewrite Q5 in K. auto. }
  destruct (t_eq (rt s o)) eqn:EO.
  - destruct (eq_vs_eq (m_idx m) o Fi Fo Q3 EO) as [A B]. cbv zeta in A, B.
    destruct (IS_EQUAL_FEAS_TOL _ _); [apply G; apply A; reflexivity|apply B; reflexivity].
  - destruct (eq_vs_ineq (m_idx m) o Fi Fo Q3) as [A B]. cbv zeta in A, B. unfold ineq_bad in A, B.
    match goal with |- context [if ?b then None else _] => destruct b eqn:C end; [apply B; auto|].
    apply G. intros t K. apply RO_weaken; [unfold FEAS_TOL; lra|]. apply A; auto.
Qed.

Lemma swap_step : forall i D m o, NoDup (D ++ [o]) -> (forall j, In j (D ++ [o]) -> fine j) -> NEI s i D m -> t_eq (rt s o) = true ->
  match merge_step s m o with
  | Some m' => EQI s (D ++ [o]) m'
  | None => forall t, R0 s i t -> R0 s o t -> False
  end.
Proof.
  intros i D m o ND HF [N1 N2 N3 N4 N5 N6 N7 N8] EO. unfold merge_step. cbv zeta. rewrite N1, EO. cbn [negb andb m_eq m_coeff m_rhs].
  rewrite N2. fold (fc s i) (fc s o).
  assert (Fi : fine i) by (apply HF, in_or_app; auto).
  assert (Fo : fine o) by (apply HF, in_or_app; simpl; auto).
  destruct (eq_vs_ineq o i Fo Fi EO) as [A B]. cbv zeta in A, B. unfold ineq_bad in A, B.
  match goal with |- context [if ?b then None else _] => destruct b eqn:C end.
  { intros t H1 H2. eapply B; eauto. }
  constructor; cbn [m_eq m_idx m_coeff m_rhs]; auto.
  - apply in_or_app; simpl; auto.
  - intros NM t K j Hj.
    apply RO_weaken; [unfold FEAS_TOL; lra|]. apply in_app_or in Hj. destruct Hj as [Hj|[<-|[]]].
    + destruct (Nat.eq_dec j i) as [->|NE]; [apply A; auto|]. exfalso.
      apply (NM o i j); auto; apply in_or_app; simpl; auto.
    + destruct (eq_tag o Fo EO) as [_ [_ Z]]. split; intros _; rewrite ?Z; fold (fc s o) in K; lra.
Qed.

Lemma loop_spec : forall i l D m, NoDup (D ++ l) -> (forall j, In j (D ++ l) -> fine j) -> In i D ->
  NEI s i D m \/ EQI s D m ->
  match merge_loop s m l with
  | Some m' => NEI s i (D ++ l) m' \/ EQI s (D ++ l) m'
  | None => forall t, (forall j, In j (D ++ l) -> R0 s j t) -> False
  end.
Proof.
  intros i. induction l as [|o l IH]; intros D m ND HF Hi I; cbn [merge_loop].
  { rewrite app_nil_r. exact I. }
  assert (A : D ++ o :: l = (D ++ [o]) ++ l) by (rewrite <- app_assoc; reflexivity).
  rewrite A in *.
  assert (ND1 : NoDup (D ++ [o])) by (apply NoDup_app_remove_r in ND; auto).
  assert (HF1 : forall j, In j (D ++ [o]) -> fine j) by (intros; apply HF, in_or_app; auto).
  assert (Hi1 : In i (D ++ [o])) by (apply in_or_app; auto).
  assert (Ho1 : In o (D ++ [o])) by (apply in_or_app; simpl; auto).
  assert (X : match merge_step s m o with
    | Some m' => NEI s i (D ++ [o]) m' \/ EQI s (D ++ [o]) m'
    | None => forall t, (forall j, In j (D ++ [o]) -> R0 s j t) -> False end).
  { destruct I as [I|I].
    - destruct (t_eq (rt s o)) eqn:EO.
      + pose proof (swap_step i D m o ND1 HF1 I EO) as Y. destruct (merge_step s m o); auto.
        intros t H. eapply Y; apply H; auto.
      + destruct (NE_step i D m o (HF1 _ Hi1) (HF1 _ Ho1) I EO) as [m' [-> Y]]. auto.
    - pose proof (EQ_step D m o HF1 I) as Y. destruct (merge_step s m o); auto.
      intros t H. eapply Y; apply H; auto. apply in_or_app. left. apply (qe_in _ _ _ I). }
  destruct (merge_step s m o) as [m1|].
  - apply IH; auto.
  - intros t H. apply (X t). intros j Hj. apply H, in_or_app; auto.
Qed.
End Loop.
