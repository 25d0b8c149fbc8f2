(** A run that removes nothing leaves the matrix as it was. *)
From Coq Require Import NArith Sorted.
From Verif Require Import M_Num S_LP M_Settings M_Driver S_Driver M_State M_Act M_Core M_Simple
  M_StonCols M_Dton M_Parallel M_Propagate M_Init M_Post M_Run S_Run S_Sem S_Sem4 S_Matrix S_Same
  L_State L_Struct L_Struct2 L_Struct3 L_Struct4 L_Struct5 L_Struct6 L_Struct7 L_Struct8 L_Struct10 L_Struct11 L_Tiny L_Init L_Sem L_Reach L_Drive L_Post6 L_Post7 L_Sub L_Keep.
Import M_Driver.
Notation bad := M_State.bad.
Open Scope Q_scope.

Definition Gone (s : state) : Prop :=
  (exists i, (i < nr s)%nat /\ (t_inact (rt s i) = true \/ rsz s i = (-1)%Z)) \/
  (exists k, (k < nc s)%nat /\ (t_cinact (ct s k) = true \/ csz s k = (-1)%Z)).
Lemma Gone_mono : forall s s', mono s s' -> Gone s -> Gone s'.
Proof.
  intros s s' M [[i [Hi H]]|[k [Hk H]]]; [left; exists i|right; exists k].
  - rewrite (mo_nr _ _ M). split; auto. destruct H as [H|H]; [left; apply (mo_rt _ _ M _ H)|right; apply (mo_rd _ _ M); auto].
  - rewrite (mo_nc _ _ M). split; auto. destruct H as [H|H]; [left; apply (mo_ci _ _ _ M H)|right; apply (mo_cd _ _ M); auto].
Qed.
Lemma alive_Gone : forall s, (alive s < nr s)%nat -> Gone s.
Proof.
  intros s H. left. unfold alive in H.
  destruct (existsb (fun i => Z.eqb (rsz s i) (-1)) (seq 0 (nr s))) eqn:E.
  - apply existsb_exists in E. destruct E as [i [Hi E]]. apply in_seq in Hi. apply Z.eqb_eq in E. exists i. split; [lia|auto].
  - exfalso. rewrite filter_ext_in with (g := fun _ => true) in H.
    + assert (F : forall l : list nat, filter (fun _ => true) l = l) by (induction l as [|a l IH]; cbn; [auto|rewrite IH; auto]).
      rewrite F, seq_length in H. lia.
    + intros i Hi. apply negb_true_iff. destruct (Z.eqb (rsz s i) (-1)) eqn:X; auto.
      exfalso. assert (existsb (fun i => Z.eqb (rsz s i) (-1)) (seq 0 (nr s)) = true); [|congruence]. apply existsb_exists. exists i. auto.
Qed.

(** ** Doubleton equations *)
Definition bs (s : state) := (lb s, ub s, lhs s, rhs s).
Definition idle (s s' : state) : Prop := mA s' = mA s /\ cst s' = cst s /\ off s' = off s /\ bs s' = bs s.
Lemma idle_refl : forall s, idle s s.
Proof. intros; repeat split; auto. Qed.
Lemma idle_trans : forall a b c, idle a b -> idle b c -> idle a c.
Proof. intros a b c (A & B & C & X) (D & E & F & Y). repeat split; congruence. Qed.
Lemma dton_row_idle : forall fits s nd st i, let '(s', _, st') := dton_row fits (s, nd, st) i in st' = REDUCED \/ st' = st /\ idle s s'.
Proof.
  intros fits s nd st i. unfold dton_row. destruct (Z.ltb _ _); [right; split; auto using idle_refl|].
  destruct (row_view s i) as [|[c0 v0] [|[c1 v1] l]]; [right; split; auto; repeat split| |]; [right; split; auto; repeat split|].
  destruct (_ || _); [right; split; auto using idle_refl|].
  destruct (can_dton_be_eliminated _ _ _ _ _ _ _ _) as [[[[[j k] aij] aik]|] tk]; [|right; split; auto; repeat split].
  cbv zeta. destruct (t_cinact _); [left; auto|].
  destruct (execute_substitution _ _ _ _ _ _ _ _ _) as [s4 nd']. left; auto.
Qed.
Lemma dton_fold_idle : forall fits l s nd st, let '(s', _, st') := fold_left (dton_row fits) l (s, nd, st) in st' = REDUCED \/ st' = st /\ idle s s'.
Proof.
  intros fits. induction l as [|i l IH]; intros s nd st; cbn [fold_left]; [right; split; auto using idle_refl|].
  pose proof (dton_row_idle fits s nd st i) as A. destruct (dton_row fits (s, nd, st) i) as [[s1 nd1] st1].
  specialize (IH s1 nd1 st1). destruct (fold_left (dton_row fits) l (s1, nd1, st1)) as [[s' nd'] st'].
  destruct IH as [->|[-> I]]; [auto|]. destruct A as [->|[-> J]]; [auto|]. right. split; auto. eapply idle_trans; eauto.
Qed.
Lemma dton_pass_idle : forall fits s, snd (remove_dton_eq_rows__ fits s) = REDUCED \/ idle s (fst (remove_dton_eq_rows__ fits s)).
Proof.
  intros fits s. unfold remove_dton_eq_rows__. pose proof (dton_fold_idle fits (w_dton s) s [] UNCHANGED) as A.
  destruct (fold_left _ _ _) as [[s1 nd] st]. cbn [fst snd]. destruct A as [A|[_ A]]; [auto|]. right. exact A.
Qed.
Lemma dton_idle : forall fits s, Inv s -> quiet s -> tiny (fst (remove_dton_eq_rows fits s)) = false ->
  idle s (fst (remove_dton_eq_rows fits s)) \/ Gone (fst (remove_dton_eq_rows fits s)).
Proof.
  intros fits s H Q. assert (PN : pend1 s) by (intros i; rewrite (q_rows _ Q); contradiction).
  unfold remove_dton_eq_rows. cbv zeta. cbn [fst].
  assert (AB := alive_bound s).
  assert (X : tiny (dton_loop fits (S (nr s)) s) = false -> (idle s (dton_loop fits (S (nr s)) s) \/ Gone (dton_loop fits (S (nr s)) s)) /\ w_fixed (dton_loop fits (S (nr s)) s) = []).
  { intros HT. destruct (dton_loop_spec fits (S (nr s)) s H PN ltac:(lia) HT) as (_ & (_ & _ & _ & F & _) & _).
    split; [|rewrite F; apply Q]. clear F. cbn [dton_loop] in *. destruct (w_dton s) eqn:W; [left; apply idle_refl|].
    pose proof (dton_pass_spec fits s H PN) as P. pose proof (dton_pass_idle fits s) as D.
    destruct (remove_dton_eq_rows__ fits s) as [s1 st] eqn:E. cbn [fst snd] in D.
    assert (T1 : tiny s1 = false).
    { destruct (tiny s1) eqn:E1; auto. destruct (N.eqb _ _); [|congruence].
      pose proof (tn_dton_loop fits (nr s) s1 E1) as C. unfold T in C. congruence. }
    destruct (P T1) as (I1 & F1 & PN1 & D1).
    destruct (N.eqb_spec st REDUCED) as [->|NE].
    - destruct D1 as [D1|[_ D1]]; [discriminate|].
      destruct (dton_loop_spec fits (nr s) s1 I1 PN1 ltac:(lia) HT) as (_ & (M & _) & _).
      right. eapply Gone_mono; [exact M|]. apply alive_Gone. rewrite (mo_nr _ _ (proj1 F1)). lia.
    - left. destruct D as [D|D]; [contradiction|exact D]. }
  intros HT.
  assert (T1 : tiny (dton_loop fits (S (nr s)) s) = false).
  { destruct (tiny _) eqn:E1 in |- *; auto. exfalso. destruct (w_fixed _) in HT; [congruence|].
    pose proof (tn_dic _ (tn_dfc _ E1)) as C. unfold T in C. congruence. }
  destruct (X T1) as [Y F]. rewrite F. exact Y.
Qed.

(** ** The matrix *)
Lemma reached_matrix : forall stgs fits P s, wf_input P -> reached stgs fits P s ->
  Gone s \/ Keep (new_presolver P) s /\ Sub (new_presolver P) s.
Proof.
  intros stgs fits P s WF R.
  assert (ST : forall a b, Keep a b -> Sub a b -> Gone a \/ Keep (new_presolver P) a /\ Sub (new_presolver P) a -> Gone b \/ Keep (new_presolver P) b /\ Sub (new_presolver P) b).
  { intros a b K S [G|[A B]]; [left; eapply Gone_mono; [apply K|exact G]|right; split; [eapply Keep_trans|eapply Sub_trans]; eauto]. }
  induction R as [|f s s' st IN R IH E NT|s s' st ON C R IH E NT|s s' st ON C R IH E NT|s s' st ON R IH E NT TN].
  - right. split; [apply Keep_refl|apply Sub_refl].
  - destruct (common_kept stgs f s (proj1 (reached_ok _ _ _ _ WF R)) IN) as [X Y]. rewrite E in X, Y. eapply ST; eauto.
  - destruct (reached_ok _ _ _ _ WF R) as [[H Q N] _].
    pose proof (Keep_par_rows s H N Q C) as X. pose proof (Sub_par_rows s) as Y. rewrite E in X, Y. eapply ST; eauto.
  - destruct (reached_ok _ _ _ _ WF R) as [[H Q N] _].
    pose proof (Keep_par_cols s H C) as X. pose proof (Sub_par_cols s) as Y. rewrite E in X, Y. eapply ST; eauto.
  - destruct (reached_ok _ _ _ _ WF R) as [[H Q N] _].
    pose proof (dton_idle fits s H Q) as X. rewrite E in X. cbn [fst] in X.
    assert (PN : pend1 s) by (intros i; rewrite (q_rows _ Q); contradiction).
    pose proof (dton_spec fits s H (q_sub _ Q) PN) as D. rewrite E in D. destruct D as [_ D]. destruct (D TN) as (_ & M & _).
    destruct (X TN) as [(A & _)|G]; [|auto]. apply (ST s s'); auto; [apply Keep_eq; auto|apply Sub_eq; auto].
Qed.
(** All rows and columns there: nothing is marked either. *)
Lemma all_live : forall s, Inv s -> quiet s -> length (live_rows s) = nr s -> length (live_cols s) = nc s -> ~ Gone s.
Proof.
  intros s H Q LR LC.
  assert (F : forall (p : nat -> bool) l, length (filter p l) = length l -> forall x, In x l -> p x = true).
  { intros p. induction l as [|a l IH]; cbn [filter length]; intros X x [].
    - subst. destruct (p x); auto. pose proof (filter_len _ p l). lia.
    - destruct (p a); cbn [length] in X; [apply IH; auto; lia|]. pose proof (filter_len _ p l). lia. }
  assert (LR' : forall i, (i < nr s)%nat -> rsz s i <> (-1)%Z).
  { intros i Hi. unfold live_rows in LR. assert (X := F (fun i => negb (Z.eqb (rsz s i) (-1))) (seq 0 (nr s)) ltac:(rewrite seq_length; exact LR) i ltac:(apply in_seq; lia)).
    cbv beta in X. apply negb_true_iff, Z.eqb_neq in X. exact X. }
  assert (LC' : forall k, (k < nc s)%nat -> csz s k <> (-1)%Z).
  { intros i Hi. unfold live_cols in LC. assert (X := F (fun i => negb (Z.eqb (csz s i) (-1))) (seq 0 (nc s)) ltac:(rewrite seq_length; exact LC) i ltac:(apply in_seq; lia)).
    cbv beta in X. apply negb_true_iff, Z.eqb_neq in X. exact X. }
  intros [[i [Hi [T|T]]]|[k [Hk [T|T]]]]; [|exact (LR' i Hi T)| |exact (LC' k Hk T)].
  - assert (X : In i (w_rows s)) by (apply (l_rows s (inv_L s H)); auto). rewrite (q_rows _ Q) in X. contradiction.
  - destruct (l_pend s (inv_L s H) k Hk T (LC' k Hk)) as [Z|Z]; [rewrite (q_fixed _ Q) in Z|rewrite (q_sub _ Q) in Z]; contradiction.
Qed.
Lemma filter_full : forall (p : nat -> bool) l, length (filter p l) = length l -> filter p l = l.
Proof.
  intros p. induction l as [|a l IH]; cbn [filter length]; auto. destruct (p a); cbn [length]; intros X.
  - f_equal. apply IH. lia.
  - pose proof (filter_len _ p l). lia.
Qed.
Lemma reached_dims : forall stgs fits P s, wf_input P -> reached stgs fits P s -> nr s = in_m P /\ nc s = in_n P.
Proof.
  intros stgs fits P s WF R. destruct (init_fields P) as (NR & NC & _).
  assert (ST : forall a b, mono a b -> nr a = in_m P /\ nc a = in_n P -> nr b = in_m P /\ nc b = in_n P).
  { intros a b M [A B]. rewrite (mo_nr _ _ M), (mo_nc _ _ M). auto. }
  induction R as [|f s s' st IN R IH E NT|s s' st ON C R IH E NT|s s' st ON C R IH E NT|s s' st ON R IH E NT TN].
  - auto.
  - destruct (common_kept stgs f s (proj1 (reached_ok _ _ _ _ WF R)) IN) as [X _]. rewrite E in X. eapply ST; [apply X|auto].
  - destruct (reached_ok _ _ _ _ WF R) as [[H Q N] _]. pose proof (Keep_par_rows s H N Q C) as X. rewrite E in X. eapply ST; [apply X|auto].
  - destruct (reached_ok _ _ _ _ WF R) as [[H Q N] _]. pose proof (Keep_par_cols s H C) as X. rewrite E in X. eapply ST; [apply X|auto].
  - destruct (reached_ok _ _ _ _ WF R) as [[H Q N] _].
    assert (PN : pend1 s) by (intros i; rewrite (q_rows _ Q); contradiction).
    pose proof (dton_spec fits s H (q_sub _ Q) PN) as D. rewrite E in D. destruct D as [_ D]. destruct (D TN) as (_ & M & _).
    eapply ST; [exact M|auto].
Qed.
Lemma reached_same_matrix : forall stgs fits P s, wf_input P -> reached stgs fits P s ->
  length (live_rows s) = in_m P -> length (live_cols s) = in_n P -> same_matrix (lp_of_input P) (reduced_lp s) /\ ~ Gone s.
Proof.
  intros stgs fits P s WF R LR LC. destruct (reached_ok _ _ _ _ WF R) as [[H Q N] _].
  destruct (reached_dims _ _ _ _ WF R) as [NR' NC'].
  assert (NG : ~ Gone s) by (apply all_live; auto; congruence). split; [|exact NG].
  destruct (reached_matrix _ _ _ _ WF R) as [G|[[M K] SB]]; [contradiction|].
  destruct (init_fields P) as (NR & NC & MA & _). assert (W := inv_0 s H).
  pose proof (proj1 (new_presolver_Ok P WF)) as OK0. pose proof (inv_0 _ (ok_inv _ OK0)) as W0.
  constructor; cbn [lp_rows lp_cols lp_A reduced_lp lp_of_input].
  - rewrite <- NR'. apply filter_full. rewrite seq_length. unfold live_rows in LR. congruence.
  - rewrite <- NC'. apply filter_full. rewrite seq_length. unfold live_cols in LC. congruence.
  - intros i Hi. apply in_seq in Hi. assert (Hi' : (i < nr s)%nat) by lia.
    apply srt_ext; [apply (w_rsrt s W); auto|rewrite <- MA; apply (w_rsrt _ W0); lia|].
    intros [k a]. rewrite <- MA. split; intros X; [apply SB; exact X|].
    destruct (K i k a ltac:(lia) X) as [Y|[Y|Y]]; [| |exact Y]; exfalso; apply NG.
    + left. exists i. auto.
    + right. exists k. split; auto. rewrite (mo_nc _ _ M). destruct (w_rin _ W0 i k a ltac:(lia) X) as [Hk _]. exact Hk.
Qed.
Lemma final_UNCHANGED : forall m0 n0 z0 m1 n1 z1, final_status m0 n0 z0 m1 n1 z1 = UNCHANGED -> m0 = m1 /\ n0 = n1.
Proof.
  intros m0 n0 z0 m1 n1 z1. unfold final_status. destruct (Nat.eqb_spec n0 n1) as [A|A]; [|intros U; discriminate U].
  destruct (Nat.eqb_spec m0 m1) as [B|B]; [auto|intros U; discriminate U].
Qed.
Lemma UNCHANGED_sizes : forall stgs fits clock fuel P r, run_presolver stgs fits clock fuel P = Some r -> res_reduced r = true ->
  res_status r = UNCHANGED -> length (live_rows (res_state r)) = in_m P /\ length (live_cols (res_state r)) = in_n P.
Proof.
  intros stgs fits clock fuel P r. unfold run_presolver, run_presolver_gen.
  destruct (main_loop _ _ _ _ _ _ _ _ _ _) as [[[s1 st] k]|]; [|discriminate].
  destruct (negb (N.eqb st UNCHANGED)); intros X RR; injection X as <-; [discriminate RR|].
  cbn [res_status res_state]. intros U. apply final_UNCHANGED in U. destruct U as [A B]. split; symmetry; [exact A|exact B].
Qed.
Lemma UNCHANGED_reached : forall stgs fits clock fuel P r, wf_input P -> run_presolver stgs fits clock fuel P = Some r ->
  tiny (res_state r) = false -> res_reduced r = true -> res_status r = UNCHANGED ->
  exists s, reached stgs fits P s /\ reduced_lp (res_state r) = reduced_lp s /\ same_matrix (lp_of_input P) (reduced_lp s) /\ ~ Gone s.
Proof.
  intros stgs fits clock fuel P r WF H T RR U.
  destruct (run_R stgs fits P WF clock fuel r H T RR) as [s [R E]].
  destruct (UNCHANGED_sizes _ _ _ _ _ _ H RR U) as [A B].
  assert (EL : reduced_lp (res_state r) = reduced_lp s) by (rewrite E; destruct (relax_bounds_on stgs); [apply relax_lp|reflexivity]).
  exists s. split; [exact R|]. split; [exact EL|].
  change (length (lp_rows (reduced_lp (res_state r))) = in_m P) in A. change (length (lp_cols (reduced_lp (res_state r))) = in_n P) in B.
  rewrite EL in A, B. eapply reached_same_matrix; eauto.
Qed.
