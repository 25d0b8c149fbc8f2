(** Activities of rows: the stored bounds on the value of a row stay valid (or exact) while bounds
    change and columns are fixed and deleted. *)
From Coq Require Import NArith Lqa.
From Verif Require Import M_Num S_LP M_Settings M_Driver S_Driver M_State M_Act M_Core M_Simple
  M_StonCols M_Dton M_Parallel M_Propagate M_Init M_Post M_Run S_Run S_Struct S_Sem
  L_State L_Struct L_Struct2 L_Struct3 L_Struct4 L_Struct5 L_Struct6 L_Struct11
  L_Sem L_Sem2 L_Sem3 L_Sem4 L_Mid L_Mid2 L_Mid3.
Open Scope Q_scope.

(** ** Contributions of the entries of a row *)
Definition lowb (l u : nat -> ext) (e : nat * Q) : ext := if Qgtb (snd e) 0 then l (fst e) else u (fst e).
Definition upb (l u : nat -> ext) (e : nat * Q) : ext := lowb u l e.
Definition inf1 (e : ext) : Z := if is_fin e then 0%Z else 1%Z.
Fixpoint cnt (b : nat * Q -> ext) (r : row) : Z :=
  match r with [] => 0%Z | e :: r' => (inf1 (b e) + cnt b r')%Z end.
Fixpoint ssum (b : nat * Q -> ext) (r : row) : Q :=
  match r with [] => 0 | e :: r' => snd e * fin (b e) + ssum b r' end.

Lemma ssum_min : forall l u r, ssum (lowb l u) r == compute_min_act_no_tags l u r.
Proof.
  induction r as [|[j a] r IH]; simpl; [lra|]. rewrite IH. unfold lowb. simpl. destruct (Qgtb a 0); lra.
Qed.
Lemma ssum_max : forall l u r, ssum (upb l u) r == compute_max_act_no_tags l u r.
Proof.
  induction r as [|[j a] r IH]; simpl; [lra|]. rewrite IH. unfold upb, lowb. simpl. destruct (Qgtb a 0); lra.
Qed.

(** Bounds that are the same up to [==] *)
Definition beq (a b : ext) : Prop := is_fin a = is_fin b /\ (is_fin a = true -> fin a == fin b).
Lemma beq_refl : forall a, beq a a.
Proof. intros; split; auto. intros; lra. Qed.
Lemma beq_eq : forall a b, a = b -> beq a b.
Proof. intros a b ->. apply beq_refl. Qed.
Lemma cnt_ext : forall b b' r, (forall e, In e r -> beq (b e) (b' e)) -> cnt b r = cnt b' r.
Proof.
  induction r as [|e r IH]; intros H; simpl; auto. rewrite IH by (intros; apply H; right; auto).
  unfold inf1. destruct (H e (or_introl eq_refl)) as [-> _]. reflexivity.
Qed.
Lemma cnt_nonneg : forall b r, (0 <= cnt b r)%Z.
Proof. induction r as [|e r IH]; simpl; [lia|]. unfold inf1. destruct (is_fin (b e)); lia. Qed.
Lemma cnt_0 : forall b r, cnt b r = 0%Z <-> forall e, In e r -> is_fin (b e) = true.
Proof.
  induction r as [|e r IH]; simpl.
  - split; auto; intros _ e [].
  - pose proof (cnt_nonneg b r). unfold inf1. split.
    + intros E. destruct (is_fin (b e)) eqn:F; [|lia]. intros f [<-|Hf]; auto. apply IH; auto.
    + intros E. rewrite (E e) by auto. rewrite (proj2 IH); auto.
Qed.
Lemma ssum_ext : forall b b' r, (forall e, In e r -> beq (b e) (b' e)) -> cnt b r = 0%Z -> ssum b r == ssum b' r.
Proof.
  intros b b' r H C. rewrite cnt_0 in C. induction r as [|e r IH]; simpl; [lra|].
  rewrite IH by (intros; first [apply H|apply C]; right; auto).
  destruct (H e (or_introl eq_refl)) as [_ E]. rewrite E; [lra|]. apply C. left; auto.
Qed.

(** ** Relations kept by shifting: [Qle] for validity, [Qeq] for exactness *)
Record good (R : Q -> Q -> Prop) : Prop := {
  gd_ext : forall v v' w w', v == v' -> w == w' -> R v w -> R v' w';
  gd_add : forall v w t, R v w -> R (v + t) (w + t);
  gd_refl : forall v, R v v }.
Lemma good_le : good Qle.
Proof. constructor; intros; lra. Qed.
Lemma good_ge : good (fun v w => w <= v).
Proof. constructor; intros; lra. Qed.
Lemma good_eq : good Qeq.
Proof. constructor; intros; lra. Qed.
Definition flip (R : Q -> Q -> Prop) : Q -> Q -> Prop := fun v w => R w v.
Lemma good_flip : forall R, good R -> good (flip R).
Proof. intros R []. unfold flip. constructor; intros; eauto. Qed.

(** [n] infinite contributions; if there is none, [v] bounds the sum. *)
Definition SV (R : Q -> Q -> Prop) (b : nat * Q -> ext) (r : row) (n : Z) (v : Q) : Prop :=
  n = cnt b r /\ (n = 0%Z -> R v (ssum b r)).
Definition SV2 (R : Q -> Q -> Prop) (l u : nat -> ext) (r : row) (a : activity) : Prop :=
  SV R (lowb l u) r (n_inf_min a) (a_min a) /\ SV (flip R) (upb l u) r (n_inf_max a) (a_max a).
Lemma SV_ext : forall R b b' r n v, good R -> (forall e, In e r -> beq (b e) (b' e)) -> SV R b r n v -> SV R b' r n v.
Proof.
  intros R b b' r n v G H [N V]. split; [rewrite N; apply cnt_ext; auto|].
  intros Z. eapply (gd_ext R G); [reflexivity| |exact (V Z)]. apply ssum_ext; auto. congruence.
Qed.
Lemma SV2_ext : forall R l u l' u' r a, good R -> (forall k c, In (k, c) r -> beq (l k) (l' k) /\ beq (u k) (u' k)) ->
  SV2 R l u r a -> SV2 R l' u' r a.
Proof.
  intros R l u l' u' r a G H [A B]. split; eapply SV_ext; try eassumption; auto using good_flip;
    intros [k c] He; destruct (H k c He); unfold upb, lowb; simpl; destruct (Qgtb c 0); auto.
Qed.
(** Only the numbers matter *)
Definition anum (a b : activity) : Prop :=
  a_min a = a_min b /\ a_max a = a_max b /\ n_inf_min a = n_inf_min b /\ n_inf_max a = n_inf_max b.
Lemma anum_refl : forall a, anum a a. Proof. repeat split. Qed.
Lemma anum_trans : forall a b c, anum a b -> anum b c -> anum a c.
Proof. unfold anum. intuition congruence. Qed.
Lemma SV2_num : forall R l u r a a', anum a' a -> SV2 R l u r a -> SV2 R l u r a'.
Proof. intros R l u r a a' [A [B [C D]]] [X Y]. unfold SV2. rewrite A, B, C, D. split; auto. Qed.

(** ** One bound changes *)
Lemma swap : forall b b' r k a, srt r -> In (k, a) r ->
  (forall e, In e r -> fst e <> k -> beq (b e) (b' e)) ->
  cnt b' r = (cnt b r - inf1 (b (k, a)) + inf1 (b' (k, a)))%Z /\
  (cnt b' r = 0%Z -> cnt b r = 0%Z -> ssum b' r == ssum b r + (fin (b' (k, a)) - fin (b (k, a))) * a).
Proof.
  induction r as [|[j c] r IH]; intros k a S Hin H; [contradiction|].
  apply srt_inv in S. destruct S as [S L]. simpl. destruct Hin as [E|Hin].
  - injection E as -> ->.
    assert (H' : forall e, In e r -> beq (b e) (b' e)).
    { intros e He. apply H; [right; auto|]. pose proof (L e He). simpl in *. lia. }
    rewrite (cnt_ext b b' r H'). split; [lia|]. intros C1 C2.
    pose proof (cnt_nonneg b' r). unfold inf1 in *.
    assert (C : cnt b r = 0%Z). { rewrite (cnt_ext b b' r H'). destruct (is_fin _), (is_fin _); lia. }
    rewrite (ssum_ext b b' r H' C). lra.
  - assert (D : j <> k). { pose proof (L _ Hin). simpl in *. lia. }
    destruct (H (j, c) (or_introl eq_refl) D) as [E1 E2].
    destruct (IH k a S Hin) as [C1 C2]. { intros; apply H; auto. right; auto. }
    unfold inf1 in *. rewrite <- E1. split; [lia|]. intros X Y.
    pose proof (cnt_nonneg b r). pose proof (cnt_nonneg b' r).
    destruct (is_fin (b (j, c))) eqn:F; [|lia]. rewrite (E2 eq_refl) by auto. rewrite C2 by lia. lra.
Qed.

Definition change (n : Z) (v a : Q) (old : ext) (new : Q) (S : Q) : Z * Q :=
  if Z.eqb n 0 then (n, v + (new - fin old) * a)
  else if negb (is_fin old) then ((n - 1)%Z, if Z.eqb (n - 1) 0 then S else v) else (n, v).
Lemma change_SV : forall R b b' r k a n v new S, good R -> srt r -> In (k, a) r ->
  (forall e, In e r -> fst e <> k -> beq (b e) (b' e)) -> beq (b' (k, a)) (Fin new) ->
  (cnt b' r = 0%Z -> S == ssum b' r) ->
  SV R b r n v -> SV R b' r (fst (change n v a (b (k, a)) new S)) (snd (change n v a (b (k, a)) new S)).
Proof.
  intros R b b' r k a n v new S G SR Hin H B ES [N V].
  destruct (swap b b' r k a SR Hin H) as [C1 C2]. destruct B as [B1 B2]. simpl in B1. specialize (B2 B1).
  simpl in B2. assert (I0 : inf1 (b' (k, a)) = 0%Z) by (unfold inf1; rewrite B1; auto).
  unfold change. subst n.
  destruct (Z.eqb_spec (cnt b r) 0) as [Z0|Z0]; cbn [fst snd].
  - assert (F : is_fin (b (k, a)) = true) by (apply (proj1 (cnt_0 b r) Z0); auto).
    assert (E : cnt b' r = 0%Z) by (unfold inf1 in *; rewrite F in C1; lia).
    split; [congruence|]. intros _. eapply (gd_ext R G); [reflexivity| |apply (gd_add R G); apply V; auto].
    rewrite C2 by auto. rewrite B2. lra.
  - destruct (is_fin (b (k, a))) eqn:F; cbn [negb fst snd]; unfold inf1 in C1, I0; rewrite F, I0 in C1.
    + split; [lia|]. intros X. contradiction.
    + split; [lia|]. intros X. rewrite X. eapply (gd_ext R G); [symmetry; apply ES; lia|reflexivity|]. apply (gd_refl R G).
Qed.

Lemma min_change_num : forall l u A c old new r, let A' := min_change l u A c old new (is_fin old) r in
  n_inf_min A' = fst (change (n_inf_min A) (a_min A) c old new (compute_min_act_no_tags l u r)) /\
  a_min A' = snd (change (n_inf_min A) (a_min A) c old new (compute_min_act_no_tags l u r)) /\
  n_inf_max A' = n_inf_max A /\ a_max A' = a_max A.
Proof.
  intros. unfold A', min_change, change. destruct (Z.eqb (n_inf_min A) 0); [repeat split|].
  destruct (negb (is_fin old)); repeat split.
Qed.
Lemma max_change_num : forall l u A c old new r, let A' := max_change l u A c old new (is_fin old) r in
  n_inf_max A' = fst (change (n_inf_max A) (a_max A) c old new (compute_max_act_no_tags l u r)) /\
  a_max A' = snd (change (n_inf_max A) (a_max A) c old new (compute_max_act_no_tags l u r)) /\
  n_inf_min A' = n_inf_min A /\ a_min A' = a_min A.
Proof.
  intros. unfold A', max_change, change. destruct (Z.eqb (n_inf_max A) 0); [repeat split|].
  destruct (negb (is_fin old)); repeat split.
Qed.

(** A new upper bound for column [k]; [ls], [us] are the bounds in store, new ones already. *)
Lemma bc_upper : forall R l u ls us r k a A v, good R -> srt r -> In (k, a) r -> ~ a == 0 ->
  beq (us k) (Fin v) -> (forall j, j <> k -> beq (l j) (ls j) /\ beq (u j) (us j)) ->
  SV2 R l u r A ->
  SV2 R l (upd u k (Fin v)) r (fst (update_act_bound_change ls us A a (u k) v (is_fin (u k)) false r)).
Proof.
  intros R l u ls us r k a A v G SR Hin Na UK OF [S1 S2]. unfold update_act_bound_change.
  destruct (Qltb a 0) eqn:LT; qb; cbn [fst].
  - destruct (min_change_num ls us A a (u k) v r) as [E1 [E2 [E3 E4]]]. cbv zeta in *.
    split; [rewrite E1, E2|rewrite E3, E4].
    + assert (KB : lowb l u (k, a) = u k). { unfold lowb. simpl. destruct (Qgtb a 0) eqn:X; qb; [lra|auto]. }
      rewrite <- KB. apply change_SV; auto.
      * intros [j c] Hj D. cbn [fst] in D. unfold lowb. simpl. rewrite upd_other by auto. destruct (Qgtb c 0); apply beq_refl.
      * unfold lowb. simpl. rewrite upd_same. destruct (Qgtb a 0) eqn:X; qb; [lra|apply beq_refl].
      * intros C0. rewrite <- ssum_min. symmetry. apply ssum_ext; auto. intros [j c] Hj.
        unfold lowb. simpl. destruct (Nat.eq_dec j k) as [->|D].
        -- assert (c = a) by (eapply srt_uniq; eauto). subst c. rewrite upd_same.
           destruct (Qgtb a 0) eqn:X; qb; [lra|]. destruct UK as [X1 X2]. split; auto. intros _. symmetry. apply X2. auto.
        -- rewrite upd_other by auto. destruct (OF j D). destruct (Qgtb c 0); auto.
    + eapply SV_ext; [apply good_flip; auto| |exact S2]. intros [j c] Hj. unfold upb, lowb. simpl.
      destruct (Nat.eq_dec j k) as [->|D].
      * assert (c = a) by (eapply srt_uniq; eauto). subst c. destruct (Qgtb a 0) eqn:X; qb; [lra|]. apply beq_refl.
      * rewrite upd_other by auto. apply beq_refl.
  - assert (GT : 0 < a) by (destruct (Q_dec a 0) as [[X|X]|X]; [lra|auto|contradiction]).
    destruct (max_change_num ls us A a (u k) v r) as [E1 [E2 [E3 E4]]]. cbv zeta in *.
    split; [rewrite E3, E4|rewrite E1, E2].
    + eapply SV_ext; [auto| |exact S1]. intros [j c] Hj. unfold upb, lowb. simpl.
      destruct (Nat.eq_dec j k) as [->|D].
      * assert (c = a) by (eapply srt_uniq; eauto). subst c. destruct (Qgtb a 0) eqn:X; qb; [|lra]. apply beq_refl.
      * rewrite upd_other by auto. apply beq_refl.
    + assert (KB : upb l u (k, a) = u k). { unfold upb, lowb. simpl. destruct (Qgtb a 0) eqn:X; qb; [auto|lra]. }
      rewrite <- KB. apply change_SV; auto using good_flip.
      * intros [j c] Hj D. cbn [fst] in D. unfold upb, lowb. simpl. rewrite upd_other by auto. destruct (Qgtb c 0); apply beq_refl.
      * unfold upb, lowb. simpl. rewrite upd_same. destruct (Qgtb a 0) eqn:X; qb; [apply beq_refl|lra].
      * intros C0. rewrite <- ssum_max. symmetry. apply ssum_ext; auto. intros [j c] Hj.
        unfold upb, lowb. simpl. destruct (Nat.eq_dec j k) as [->|D].
        -- assert (c = a) by (eapply srt_uniq; eauto). subst c. rewrite upd_same.
           destruct (Qgtb a 0) eqn:X; qb; [|lra]. destruct UK as [X1 X2]. split; auto. intros _. symmetry. apply X2. auto.
        -- rewrite upd_other by auto. destruct (OF j D). destruct (Qgtb c 0); auto.
Qed.
Lemma bc_lower : forall R l u ls us r k a A v, good R -> srt r -> In (k, a) r -> ~ a == 0 ->
  beq (ls k) (Fin v) -> (forall j, j <> k -> beq (l j) (ls j) /\ beq (u j) (us j)) ->
  SV2 R l u r A ->
  SV2 R (upd l k (Fin v)) u r (fst (update_act_bound_change ls us A a (l k) v (is_fin (l k)) true r)).
Proof.
  intros R l u ls us r k a A v G SR Hin Na UK OF [S1 S2]. unfold update_act_bound_change.
  destruct (Qltb a 0) eqn:LT; qb; cbn [fst].
  - destruct (max_change_num ls us A a (l k) v r) as [E1 [E2 [E3 E4]]]. cbv zeta in *.
    split; [rewrite E3, E4|rewrite E1, E2].
    + eapply SV_ext; [auto| |exact S1]. intros [j c] Hj. unfold upb, lowb. simpl.
      destruct (Nat.eq_dec j k) as [->|D].
      * assert (c = a) by (eapply srt_uniq; eauto). subst c. destruct (Qgtb a 0) eqn:X; qb; [lra|]. apply beq_refl.
      * rewrite upd_other by auto. apply beq_refl.
    + assert (KB : upb l u (k, a) = l k). { unfold upb, lowb. simpl. destruct (Qgtb a 0) eqn:X; qb; [lra|auto]. }
      rewrite <- KB. apply change_SV; auto using good_flip.
      * intros [j c] Hj D. cbn [fst] in D. unfold upb, lowb. simpl. rewrite upd_other by auto. destruct (Qgtb c 0); apply beq_refl.
      * unfold upb, lowb. simpl. rewrite upd_same. destruct (Qgtb a 0) eqn:X; qb; [lra|apply beq_refl].
      * intros C0. rewrite <- ssum_max. symmetry. apply ssum_ext; auto. intros [j c] Hj.
        unfold upb, lowb. simpl. destruct (Nat.eq_dec j k) as [->|D].
        -- assert (c = a) by (eapply srt_uniq; eauto). subst c. rewrite upd_same.
           destruct (Qgtb a 0) eqn:X; qb; [lra|]. destruct UK as [X1 X2]. split; auto. intros _. symmetry. apply X2. auto.
        -- rewrite upd_other by auto. destruct (OF j D). destruct (Qgtb c 0); auto.
  - assert (GT : 0 < a) by (destruct (Q_dec a 0) as [[X|X]|X]; [lra|auto|contradiction]).
    destruct (min_change_num ls us A a (l k) v r) as [E1 [E2 [E3 E4]]]. cbv zeta in *.
    split; [rewrite E1, E2|rewrite E3, E4].
    + assert (KB : lowb l u (k, a) = l k). { unfold lowb. simpl. destruct (Qgtb a 0) eqn:X; qb; [auto|lra]. }
      rewrite <- KB. apply change_SV; auto.
      * intros [j c] Hj D. cbn [fst] in D. unfold lowb. simpl. rewrite upd_other by auto. destruct (Qgtb c 0); apply beq_refl.
      * unfold lowb. simpl. rewrite upd_same. destruct (Qgtb a 0) eqn:X; qb; [apply beq_refl|lra].
      * intros C0. rewrite <- ssum_min. symmetry. apply ssum_ext; auto. intros [j c] Hj.
        unfold lowb. simpl. destruct (Nat.eq_dec j k) as [->|D].
        -- assert (c = a) by (eapply srt_uniq; eauto). subst c. rewrite upd_same.
           destruct (Qgtb a 0) eqn:X; qb; [|lra]. destruct UK as [X1 X2]. split; auto. intros _. symmetry. apply X2. auto.
        -- rewrite upd_other by auto. destruct (OF j D). destruct (Qgtb c 0); auto.
    + eapply SV_ext; [apply good_flip; auto| |exact S2]. intros [j c] Hj. unfold upb, lowb. simpl.
      destruct (Nat.eq_dec j k) as [->|D].
      * assert (c = a) by (eapply srt_uniq; eauto). subst c. destruct (Qgtb a 0) eqn:X; qb; [|lra]. apply beq_refl.
      * rewrite upd_other by auto. apply beq_refl.
Qed.

(** ** All rows of a column *)
Lemma foldS_ext : forall X (f g : state -> X -> state) l s, (forall t x, f t x = g t x) -> foldS f l s = foldS g l s.
Proof. induction l as [|x l IH]; intros s E; cbn [foldS]; auto. rewrite E. auto. Qed.
Section Fold.
Variable G : (nat -> ext) -> (nat -> ext) -> row -> activity -> Q -> activity * (bool * bool).
Definition upd_one (s : state) (e : nat * Q) : state :=
  let '(a, alt) := G (lb s) (ub s) (mA s (fst e)) (acts s (fst e)) (snd e) in
  note_altered (fst e) alt (set_act1 (fst e) a s).
Lemma note_num : forall i alt s j, anum (acts (note_altered i alt s) j) (acts s j).
Proof.
  intros i alt s j. unfold note_altered. destruct (_ || _); [|apply anum_refl].
  destruct (a_st _); try apply anum_refl; unfold push_acts; sr; updg; try apply anum_refl; repeat split; reflexivity.
Qed.
Lemma upd_one_only : forall s e, acts_only s (upd_one s e).
Proof.
  intros. unfold upd_one. destruct (G _ _ _ _ _) as [a alt].
  eapply acts_only_trans; [apply acts_only_set|apply acts_only_note].
Qed.
Lemma fold_acts : forall c s, NoDup (map fst c) ->
  acts_only s (foldS upd_one c s) /\
  forall i, (forall a, In (i, a) c -> anum (acts (foldS upd_one c s) i) (fst (G (lb s) (ub s) (mA s i) (acts s i) a))) /\
            (~ has i c -> anum (acts (foldS upd_one c s) i) (acts s i)).
Proof.
  induction c as [|[j b] c IH]; intros s ND; cbn [foldS].
  - split; [apply acts_only_refl|]. intros i. split; [intros a []|intros _; apply anum_refl].
  - inversion ND; subst. pose proof (upd_one_only s (j, b)) as O1.
    destruct (IH (upd_one s (j, b)) H2) as [O2 X]. split; [eapply acts_only_trans; eauto|].
    intros i. destruct (X i) as [X1 X2]. destruct O1 as [A [W E]].
    assert (E1 : lb (upd_one s (j, b)) = lb s) by (rewrite E; reflexivity).
    assert (E2 : ub (upd_one s (j, b)) = ub s) by (rewrite E; reflexivity).
    assert (E3 : mA (upd_one s (j, b)) = mA s) by (rewrite E; reflexivity).
    rewrite E1, E2, E3 in X1.
    assert (N : i <> j -> anum (acts (upd_one s (j, b)) i) (acts s i)).
    { intros D. unfold upd_one. cbn [fst snd]. destruct (G _ _ _ _ _) as [a alt].
      eapply anum_trans; [apply note_num|]. sr. rewrite upd_other by auto. apply anum_refl. }
    assert (Y : anum (acts (upd_one s (j, b)) j) (fst (G (lb s) (ub s) (mA s j) (acts s j) b))).
    { unfold upd_one. cbn [fst snd]. destruct (G _ _ _ _ _) as [a alt].
      eapply anum_trans; [apply note_num|]. sr. rewrite upd_same. apply anum_refl. }
    split.
    + intros a [Ea|Hin].
      * injection Ea as -> ->. eapply anum_trans; [apply X2|exact Y]. intros [a0 Ha]. apply H1.
        change i with (fst (i, a0)). apply in_map; auto.
      * assert (D : i <> j). { intros ->. apply H1. change j with (fst (j, a)). apply in_map; auto. }
        assert (EQ : acts (upd_one s (j, b)) i = acts s i).
        { unfold upd_one. cbn [fst snd]. destruct (G _ _ _ _ _) as [a1 alt]. unfold note_altered, push_acts.
          destruct (_ || _); [destruct (a_st _)|]; sr; rewrite ?upd_other by auto; reflexivity. }
        rewrite <- EQ. apply X1; auto.
    + intros NH. eapply anum_trans; [apply X2|apply N].
      * intros [a Ha]. apply NH. exists a. right; auto.
      * intros ->. apply NH. exists b. left; auto.
Qed.
End Fold.

(** ** The invariant *)
Record AV (R : Q -> Q -> Prop) (s : state) : Prop := {
  av_rows : forall i, (i < nr s)%nat -> t_inact (rt s i) = false -> SV2 R (lb s) (ub s) (mA s i) (acts s i);
  av_pend : forall k, In k (w_fixed s) -> is_fin (lb s k) = true /\ beq (lb s k) (ub s k) }.

Lemma AV_frame : forall R s t, good R -> AV R s -> nr t = nr s ->
  (forall i, (i < nr s)%nat -> t_inact (rt t i) = false -> t_inact (rt s i) = false /\
     mA t i = mA s i /\ anum (acts t i) (acts s i) /\
     forall k a, In (k, a) (mA s i) -> lb t k = lb s k /\ ub t k = ub s k) ->
  (forall k, In k (w_fixed t) -> In k (w_fixed s) /\ lb t k = lb s k /\ ub t k = ub s k) ->
  AV R t.
Proof.
  intros R s t G [A P] N H W. constructor.
  - intros i Hi T. rewrite N in Hi. destruct (H i Hi T) as [T' [M [X B]]]. rewrite M.
    eapply SV2_num; [exact X|]. eapply SV2_ext; [auto| |apply A; auto].
    intros k a Ha. destruct (B k a Ha) as [-> ->]. split; apply beq_refl.
  - intros k Hk. destruct (W k Hk) as [X [-> ->]]. auto.
Qed.
(** The same problem with other lists, log, costs, locks ... *)
Lemma AV_same : forall R s t, good R -> AV R s -> nr t = nr s -> mA t = mA s -> lb t = lb s -> ub t = ub s ->
  (forall i, t_inact (rt t i) = false -> t_inact (rt s i) = false) -> (forall i, anum (acts t i) (acts s i)) ->
  (forall k, In k (w_fixed t) -> In k (w_fixed s)) -> AV R t.
Proof.
  intros R s t G A N M L U T X W. apply (AV_frame R s); auto.
  - intros i Hi Ti. rewrite M, L, U. auto.
  - intros k Hk. rewrite L, U. auto.
Qed.

(** ** Fixing a column *)
Lemma fix_col_AV : forall R s k v ck, good R -> Inv s -> tags_right s -> AV R s -> (k < nc s)%nat ->
  t_cinact (ct s k) = false -> AV R (fst (fix_col k v ck s)).
Proof.
  intros R s k v ck G H TG [A P] Hk TK. unfold fix_col.
  destruct (_ || _); cbn [fst]; [constructor; auto|].
  set (iu := t_ub_inf (ct s k)). set (il := t_lb_inf (ct s k)).
  set (s2 := set_lb1 k (Fin v) (set_ub1 k (Fin v) (record (FIXED_COL k v ck (mAT s k)) (set_col_to_fixed k s)))).
  set (GG := fun (l u : nat -> ext) (r : row) (a : activity) (c : Q) =>
    let '(a1, alt1) := if (iu || negb (Qeqb v (fin (ub s k)))) then update_act_bound_change l u a c (ub s k) v (negb iu) false r else (a, (false, false)) in
    let '(a2, alt2) := if (il || negb (Qeqb v (fin (lb s k)))) then update_act_bound_change l u a1 c (lb s k) v (negb il) true r else (a1, (false, false)) in
    (a2, (fst alt1 || fst alt2, snd alt1 || snd alt2))).
  assert (EQ : update_activities_fixed_col (mAT s k) (ub s k) (lb s k) v (iu || negb (Qeqb v (fin (ub s k))))
                 (il || negb (Qeqb v (fin (lb s k)))) iu il s2 = foldS (upd_one GG) (mAT s k) s2).
  { unfold update_activities_fixed_col. apply foldS_ext. intros t e. unfold upd_one, GG. cbv zeta.
    destruct (if iu || _ then _ else _) as [a1 alt1]. destruct (if il || _ then _ else _) as [a2 alt2]. reflexivity. }
  rewrite EQ. clear EQ.
  pose proof (w_csrt s (inv_0 s H) k Hk) as SC.
  destruct (fold_acts GG (mAT s k) s2 (srt_NoDup _ SC)) as [[A2 [W2 E2]] X].
  set (t := foldS (upd_one GG) (mAT s k) s2) in *.
  assert (CK : csz s k <> (-1)%Z) by (apply cact_alive; auto; apply H).
  assert (LB : lb t = upd (lb s) k (Fin v)) by (rewrite E2; reflexivity).
  assert (UB : ub t = upd (ub s) k (Fin v)) by (rewrite E2; reflexivity).
  assert (AE : mA t = mA s) by (rewrite E2; reflexivity).
  pose proof (tr_lb s TG k Hk TK) as TL. pose proof (tr_ub s TG k Hk TK) as TU.
  assert (FU : is_fin (ub s k) = negb iu). { unfold iu. destruct (t_ub_inf (ct s k)); [rewrite TU|]; auto. }
  assert (FL : is_fin (lb s k) = negb il). { unfold il. destruct (t_lb_inf (ct s k)); [rewrite TL|]; auto. }
  constructor.
  - intros i Hi T. assert (Hi' : (i < nr s)%nat) by (rewrite E2 in Hi; exact Hi).
    assert (T' : t_inact (rt s i) = false) by (rewrite E2 in T; exact T).
    pose proof (act_alive s i (inv_0 s H) Hi' T') as RZ.
    rewrite LB, UB, AE. destruct (X i) as [X1 X2].
    destruct (hasb k (mA s i)) eqn:HB.
    + apply hasb_has in HB. destruct HB as [a Ha].
      assert (Ha' : In (i, a) (mAT s k)) by (apply (w_agree s (inv_0 s H)); auto).
      eapply SV2_num; [apply X1; exact Ha'|].
      assert (Na : ~ a == 0) by (apply (w_rin s (inv_0 s H) i k a Hi' Ha)).
      pose proof (w_rsrt s (inv_0 s H) i Hi') as SR.
      change (lb s2) with (upd (lb s) k (Fin v)). change (ub s2) with (upd (ub s) k (Fin v)).
      change (mA s2 i) with (mA s i). change (acts s2 i) with (acts s i).
      unfold GG. rewrite <- FU, <- FL.
      assert (OFF : forall j, j <> k -> beq (lb s j) (upd (lb s) k (Fin v) j) /\ beq (ub s j) (upd (ub s) k (Fin v) j)).
      { intros j D. rewrite !upd_other by auto. split; apply beq_refl. }
      (* the upper bound *)
      match goal with |- context [if iu || ?b then ?p else ?q] => set (p1 := if iu || b then p else q) end.
      assert (V1 : SV2 R (lb s) (upd (ub s) k (Fin v)) (mA s i) (fst p1)).
      { unfold p1. destruct (iu || negb (Qeqb v (fin (ub s k)))) eqn:U1.
        - apply bc_upper; auto. rewrite upd_same. apply beq_refl.
        - apply orb_false_iff in U1. destruct U1 as [U1 U2]. rewrite negb_false_iff in U2. qb. cbn [fst].
          eapply SV2_ext; [auto| |apply A; auto]. intros j c Hj. split; [apply beq_refl|]. updg; [|apply beq_refl].
          rewrite U1 in FU. split; [auto|]. intros _. simpl. lra. }
      destruct p1 as [a1 alt1]. cbn [fst] in V1.
      match goal with |- context [if il || ?b then ?p else ?q] => set (p2 := if il || b then p else q) end.
      assert (V2 : SV2 R (upd (lb s) k (Fin v)) (upd (ub s) k (Fin v)) (mA s i) (fst p2)).
      { unfold p2. destruct (il || negb (Qeqb v (fin (lb s k)))) eqn:U1.
        - apply bc_lower; auto. { rewrite upd_same. apply beq_refl. }
          intros j D. rewrite !upd_other by auto. split; apply beq_refl.
        - apply orb_false_iff in U1. destruct U1 as [U1 U2]. rewrite negb_false_iff in U2. qb. cbn [fst].
          eapply SV2_ext; [auto| |exact V1]. intros j c Hj. split; [|apply beq_refl]. updg; [|apply beq_refl].
          rewrite U1 in FL. split; [auto|]. intros _. simpl. lra. }
      destruct p2 as [a2 alt2]. cbn [fst] in *. exact V2.
    + assert (NH : ~ has k (mA s i)) by (intros C; apply hasb_has in C; congruence).
      eapply SV2_num; [apply X2|].
      { intros [a Ha]. apply NH. exists a. apply (w_agree s (inv_0 s H)); auto. }
      change (acts s2 i) with (acts s i). eapply SV2_ext; [auto| |apply A; auto].
      intros j c Hj. assert (D : j <> k) by (intros ->; apply NH; exists c; auto).
      rewrite !upd_other by auto. split; apply beq_refl.
  - intros j Hj. rewrite LB, UB. destruct (Nat.eq_dec j k) as [->|D].
    + rewrite !upd_same. split; auto. apply beq_refl.
    + rewrite !upd_other by auto. apply P. rewrite E2 in Hj. unfold s2, set_col_to_fixed, push_fixed in Hj. sr in Hj.
      apply in_app_or in Hj. destruct Hj as [Hj|[Hj|[]]]; auto. congruence.
Qed.
