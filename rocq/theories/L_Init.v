(** The state built by new_presolver satisfies the structural invariant. *)
From Coq Require Import NArith Sorted.
From Verif Require Import M_Num S_LP M_Settings M_Driver M_State M_Act M_Core M_Simple
  M_StonCols M_Dton M_Parallel M_Propagate M_Init M_Post M_Run S_Run S_Struct
  L_State L_Struct L_Struct2 L_Struct3 L_Struct4 L_Struct5 L_Struct11.

Definition init_state (P : input) : state :=
  let A := in_A P in
  let AT := transposed (in_m P) A in
  let cts := fun k => new_coltag (in_lb P k) (in_ub P k) in
  mkState (in_m P) (in_n P) A AT (in_lhs P) (in_rhs P) (in_lb P) (in_ub P)
      (fun i => new_rowtag (in_lhs P i) (in_rhs P i)) cts
      (fun i => Z_len (A i)) (fun k => Z_len (AT k)) (fun _ => 0%Z) (fun _ => 0%Z)
      (fun i => Activity_init (in_lb P) (in_ub P) cts (A i))
      (in_c P) 0 (total_len (in_m P) A)
      [] [] [] [] [] [] [] [] [] (fun _ => O) O false false [].

Lemma foldS_cons : forall A (f : state -> A -> state) x l s, foldS f (x :: l) s = foldS f l (f s x).
Proof. reflexivity. Qed.

Lemma list_rows_form : forall l s, exists E R D,
  foldS list_row l s = set_w_dton D (set_w_ston_rows R (set_w_empty_rows E s)) /\
  (forall i, In i E <-> In i (w_empty_rows s) \/ In i l /\ rsz s i = 0%Z) /\
  (forall i, In i R <-> In i (w_ston_rows s) \/ In i l /\ rsz s i = 1%Z) /\
  (forall i, In i D <-> In i (w_dton s) \/ In i l /\ rsz s i = 2%Z /\ t_eq (rt s i) = true).
Proof.
  induction l as [|i l IH]; intros s.
  - exists (w_empty_rows s), (w_ston_rows s), (w_dton s). split; [destruct s; reflexivity|].
    simpl. intuition.
  - rewrite foldS_cons. destruct (IH (list_row s i)) as [E [R [D [EQ [HE [HR HD]]]]]].
    exists E, R, D. rewrite EQ. unfold list_row in *.
    destruct (Z.eqb_spec (rsz s i) 0) as [Z0|Z0];
      [|destruct (Z.eqb_spec (rsz s i) 1) as [Z1|Z1];
        [|destruct (Z.eqb_spec (rsz s i) 2) as [Z2|Z2]; destruct (t_eq (rt s i)) eqn:TE; cbn [andb] in *]];
      (split; [destruct s; reflexivity|]); (split; [|split]); intros j;
      rewrite ?HE, ?HR, ?HD; sr; rewrite ?in_app_iff; cbn [In]; intuition (subst; auto; try lia; try congruence).
Qed.
Lemma list_cols_form : forall l s, exists E R,
  foldS list_col l s = set_w_ston_cols R (set_w_empty_cols E s) /\
  (forall i, In i E <-> In i (w_empty_cols s) \/ In i l /\ csz s i = 0%Z) /\
  (forall i, In i R <-> In i (w_ston_cols s) \/ In i l /\ csz s i = 1%Z) /\
  (NoDup (w_ston_cols s) -> NoDup l -> (forall i, In i l -> ~ In i (w_ston_cols s)) -> NoDup R).
Proof.
  induction l as [|i l IH]; intros s.
  - exists (w_empty_cols s), (w_ston_cols s). split; [destruct s; reflexivity|].
    simpl. intuition.
  - rewrite foldS_cons. destruct (IH (list_col s i)) as [E [R [EQ [HE [HR ND]]]]].
    exists E, R. rewrite EQ. unfold list_col in *.
    destruct (Z.eqb_spec (csz s i) 0) as [Z0|Z0];
      [|destruct (Z.eqb_spec (csz s i) 1) as [Z1|Z1]]; (split; [destruct s; reflexivity|]).
    + sr in HE. sr in HR. sr in ND. split; [|split].
      * intros j. rewrite HE. sr. rewrite in_app_iff. simpl. intuition (subst; auto).
      * intros j. rewrite HR. simpl. intuition (subst; auto; lia).
      * intros A B C. inversion B; subst. apply ND; auto. intros j Hj. apply C. simpl. auto.
    + sr in HE. sr in HR. sr in ND. split; [|split].
      * intros j. rewrite HE. simpl. intuition (subst; auto; lia).
      * intros j. rewrite HR. rewrite in_app_iff. simpl. intuition (subst; auto).
      * intros A B C. inversion B; subst. apply ND; auto.
        -- apply NoDup_app_one; auto. apply C. simpl. auto.
        -- intros j Hj X. apply in_app_iff in X. destruct X as [X|[X|[]]].
           ++ apply (C j); simpl; auto.
           ++ subst; auto.
    + split; [|split].
      * intros j. rewrite HE. simpl. intuition (subst; auto; lia).
      * intros j. rewrite HR. simpl. intuition (subst; auto; lia).
      * intros A B C. inversion B; subst. apply ND; auto. intros j Hj. apply C. simpl. auto.
Qed.
Lemma list_acts_form : forall l s, exists a w,
  foldS list_act l s = set_w_acts w (set_acts a s) /\
  (forall i, In i w -> In i (w_acts s) \/ In i l).
Proof.
  induction l as [|i l IH]; intros s.
  - exists (acts s), (w_acts s). split; [destruct s; reflexivity|]. auto.
  - rewrite foldS_cons. destruct (IH (list_act s i)) as [a [w [EQ HW]]].
    exists a, w. rewrite EQ. unfold list_act in *. cbv zeta in *. destruct (_ || _).
    + split; [destruct s; reflexivity|]. intros j Hj. apply HW in Hj. sr in Hj.
      rewrite in_app_iff in Hj. simpl in *. intuition.
    + split; [destruct s; reflexivity|]. intros j Hj. apply HW in Hj. simpl. intuition.
Qed.
Lemma locks_only_rows : forall l s, locks_only s (foldS add_row_locks l s).
Proof.
  intros. apply foldS_rel; [apply locks_only_refl|apply locks_only_trans|].
  intros. unfold add_row_locks. apply foldS_rel; [apply locks_only_refl|apply locks_only_trans|].
  intros. apply locks_only_coeff.
Qed.

Lemma transposed_in : forall m A k i a,
  In (i, a) (transposed m A k) <-> (i < m)%nat /\ In (k, a) (A i).
Proof.
  intros m A k i a. unfold transposed. rewrite in_flat_map. split.
  - intros [x [Hx H]]. apply in_seq in Hx. apply in_map_iff in H. destruct H as [[c b] [E H]].
    injection E as <- <-. apply filter_In in H. destruct H as [H T]. cbn [fst] in T.
    apply Nat.eqb_eq in T. subst. cbn [snd]. split; [lia|auto].
  - intros [Hi H]. exists i. split; [apply in_seq; lia|]. apply in_map_iff. exists (k, a).
    split; auto. apply filter_In. split; auto. apply Nat.eqb_refl.
Qed.
Lemma sorted_srt : forall r, sorted_row r -> srt r.
Proof.
  induction r as [|[j a] r IH]; intros H; [apply srt_nil|]. destruct H as [H1 H2].
  specialize (IH H2). apply srt_cons; auto. destruct r as [|[k b] r]; [simpl; tauto|].
  intros e [<-|He]; simpl; auto. apply srt_inv in IH. destruct IH as [_ L]. specialize (L e He). simpl in *. lia.
Qed.
Lemma srt_sorted : forall r, srt r -> sorted_row r.
Proof.
  induction r as [|[j a] r IH]; intros H; [exact I|]. apply srt_inv in H. destruct H as [H L].
  split; auto. destruct r as [|[k b] r]; auto. apply (L (k, b)). left; auto.
Qed.
Lemma transposed_srt : forall A k m, (forall i, (i < m)%nat -> srt (A i)) -> srt (transposed m A k).
Proof.
  intros A k m H. unfold transposed.
  assert (X : forall n a, (forall i, In i (seq a n) -> srt (A i)) ->
     srt (flat_map (fun i => map (fun e => (i, snd e)) (filter (fun e => Nat.eqb (fst e) k) (A i))) (seq a n))).
  { induction n as [|n IH]; intros a Ha; [apply srt_nil|]. cbn [seq flat_map].
    specialize (IH (S a) (fun i Hi => Ha i (or_intror Hi))).
    set (rest := flat_map _ (seq (S a) n)) in *.
    assert (LR : forall e, In e rest -> (a < fst e)%nat).
    { intros [i b] He. unfold rest in He. apply in_flat_map in He. destruct He as [x [Hx He]].
      apply in_seq in Hx. apply in_map_iff in He. destruct He as [y [E _]]. injection E as <- <-. simpl. lia. }
    assert (SA : srt (filter (fun e => Nat.eqb (fst e) k) (A a))).
    { apply srt_filter. apply Ha. left; auto. }
    destruct (filter (fun e => Nat.eqb (fst e) k) (A a)) as [|[c1 b1] l1] eqn:EF; [exact IH|].
    destruct l1 as [|[c2 b2] l2].
    - cbn [map app snd]. apply srt_cons; auto.
    - exfalso. apply srt_inv in SA. destruct SA as [_ L]. specialize (L (c2, b2) (or_introl eq_refl)).
      assert (I1 : In (c1, b1) (filter (fun e => Nat.eqb (fst e) k) (A a))) by (rewrite EF; left; auto).
      assert (I2 : In (c2, b2) (filter (fun e => Nat.eqb (fst e) k) (A a))) by (rewrite EF; right; left; auto).
      apply filter_In in I1, I2. destruct I1 as [_ I1], I2 as [_ I2]. simpl in *.
      apply Nat.eqb_eq in I1, I2. lia. }
  apply X. intros i Hi. apply in_seq in Hi. apply H. lia.
Qed.
Lemma total_zsum : forall m A, total_len m A = zsum (fun i => Z_len (A i)) (seq 0 m).
Proof. intros. unfold total_len. induction (seq 0 m) as [|i l IH]; simpl; auto. rewrite IH. reflexivity. Qed.

Lemma dropr_all : forall z r, (forall i a, In (i, a) r -> z i <> (-1)%Z) -> dropr z r = r.
Proof.
  intros z r H. unfold dropr. apply filter_all. intros [i a] Hi. apply negb_true_iff, Z.eqb_neq.
  eapply H; eauto.
Qed.
Lemma Z_len_nn : forall r : row, Z_len r <> (-1)%Z. Proof. intros. unfold Z_len. lia. Qed.

Lemma new_presolver_Ok : forall P, wf_input P -> Ok (new_presolver P) /\
  bad (new_presolver P) = false /\ tiny (new_presolver P) = false /\
  nr (new_presolver P) = in_m P /\ nc (new_presolver P) = in_n P /\
  nnz (new_presolver P) = total_len (in_m P) (in_A P) /\ mA (new_presolver P) = in_A P.
Proof.
  intros P WF.
  assert (FORM : exists u d E R D ec sc a w,
    new_presolver P = set_w_acts w (set_acts a (set_w_ston_cols sc (set_w_empty_cols ec
      (set_w_dton D (set_w_ston_rows R (set_w_empty_rows E (set_dns d (set_ups u (init_state P))))))))) /\
    (forall i, In i E <-> (i < in_m P)%nat /\ in_A P i = []) /\
    (forall i, In i R <-> (i < in_m P)%nat /\ length (in_A P i) = 1%nat) /\
    (forall i, In i D -> (i < in_m P)%nat /\ length (in_A P i) = 2%nat) /\
    (forall k, In k ec <-> (k < in_n P)%nat /\ transposed (in_m P) (in_A P) k = []) /\
    (forall k, In k sc -> (k < in_n P)%nat /\ length (transposed (in_m P) (in_A P) k) = 1%nat) /\
    NoDup sc /\ (forall i, In i w -> (i < in_m P)%nat)).
  { change (new_presolver P) with
      (foldS list_act (seq 0 (in_m P)) (foldS list_col (seq 0 (in_n P)) (foldS list_row (seq 0 (in_m P))
        (foldS add_row_locks (seq 0 (in_m P)) (init_state P))))).
    destruct (locks_only_rows (seq 0 (in_m P)) (init_state P)) as [u [d E1]]. rewrite E1.
    set (s1 := set_dns d (set_ups u (init_state P))).
    destruct (list_rows_form (seq 0 (in_m P)) s1) as [E [R [D [E2 [HE [HR HD]]]]]]. rewrite E2.
    set (s2 := set_w_dton D (set_w_ston_rows R (set_w_empty_rows E s1))).
    destruct (list_cols_form (seq 0 (in_n P)) s2) as [ec [sc [E3 [HC [HS ND]]]]]. rewrite E3.
    match goal with |- context [foldS list_act ?l ?s] =>
      destruct (list_acts_form l s) as [a [w [E4 HW]]] end. rewrite E4.
    exists u, d, E, R, D, ec, sc, a, w. split; [reflexivity|].
    unfold s2, s1 in *. sr in HE. sr in HR. sr in HD. sr in HC. sr in HS. sr in HW. sr in ND.
    unfold init_state in *. cbn [w_empty_rows w_ston_rows w_dton w_empty_cols w_ston_cols w_acts rsz csz In] in *.
    split; [|split; [|split; [|split; [|split; [|split]]]]].
    - intros i. rewrite HE, in_seq. unfold Z_len. destruct (in_A P i); simpl; intuition (auto; try lia; try discriminate).
    - intros i. rewrite HR, in_seq. unfold Z_len. intuition lia.
    - intros i Hi. apply HD in Hi. rewrite in_seq in Hi. unfold Z_len in Hi. intuition lia.
    - intros k. rewrite HC, in_seq. unfold Z_len. destruct (transposed _ _ k); simpl; intuition (auto; try lia; try discriminate).
    - intros k Hk. apply HS in Hk. rewrite in_seq in Hk. unfold Z_len in Hk. intuition lia.
    - apply ND; [constructor|apply seq_NoDup|auto].
    - intros i Hi. destruct (HW i Hi) as [[]|X]. apply in_seq in X. lia. }
  destruct FORM as (u & d & E & R & D & ec & sc & a & w & -> & HE & HR & HD & HC & HS & ND & HW).
  assert (RW : forall i, (i < in_m P)%nat -> srt (in_A P i) /\ forall j v, In (j, v) (in_A P i) -> (j < in_n P)%nat /\ ~ v == 0).
  { intros i Hi. destruct (wf_rows P WF i Hi) as [A B]. split; auto. apply sorted_srt; auto. }
  assert (NAr : forall i, t_inact (new_rowtag (in_lhs P i) (in_rhs P i)) = false) by reflexivity.
  assert (NAc : forall k, t_cinact (new_coltag (in_lb P k) (in_ub P k)) = false) by reflexivity.
  split.
  2:{ sr. unfold init_state. cbn [bad tiny nr nc nnz mA]. auto 10. }
  constructor.
  - constructor.
    + constructor; sr; unfold init_state; cbn [nr nc mA mAT rsz csz rt ct].
      * intros i Hi C. apply Z_len_nn in C. contradiction.
      * intros i Hi C. apply Z_len_nn in C. contradiction.
      * intros i Hi. apply RW; auto.
      * intros k Hk. apply transposed_srt. intros; apply RW; auto.
      * intros i k v Hi Hin. eapply RW; eauto.
      * intros i k v Hk Hin. apply transposed_in in Hin. destruct Hin as [Hi Hin]. split; auto. eapply RW; eauto.
      * intros i k v Hi Hk _ _. rewrite transposed_in. tauto.
      * intros i Hi _. rewrite dropr_all; auto. intros; apply Z_len_nn.
      * intros i Hi _. rewrite dropr_all; [lia|]. intros; apply Z_len_nn.
      * intros i Hi _. rewrite dropr_all; auto. intros; apply Z_len_nn.
      * intros i Hi _. rewrite dropr_all; [lia|]. intros; apply Z_len_nn.
    + intros i k v Hi _ _. sr. apply Z_len_nn.
    + intros i k v Hi _ _. sr. apply Z_len_nn.
    + constructor; sr; unfold init_state; cbn [nr nc mA mAT rsz csz rt ct w_rows w_fixed w_sub stale].
      * constructor.
      * intros i. split; [contradiction|]. intros [_ [C _]]. discriminate.
      * contradiction.
      * contradiction.
      * intros k Hk C. discriminate.
      * intros i Hi. apply HR in Hi. tauto.
      * intros i Hi _ Z0. apply HE. split; auto. unfold Z_len in Z0. destruct (in_A P i); auto. simpl in Z0. lia.
      * intros i Hi. apply HE in Hi. split; [tauto|]. split; [tauto|]. discriminate.
      * intros k Hk _ Z0. apply HC. split; auto. unfold Z_len in Z0. destruct (transposed _ _ k); auto. simpl in Z0. lia.
      * intros k Hk. apply HC in Hk. tauto.
      * assumption.
      * intros k Hk. apply HS in Hk. unfold Z_len. split; [tauto|]. lia.
      * intros i Hi. apply HD in Hi. unfold Z_len. split; [tauto|]. lia.
      * assumption.
  - constructor; reflexivity.
  - constructor; sr; unfold init_state; cbn [nr mA nnz rsz].
    + apply total_zsum.
    + reflexivity.
    + intros i Hi C. apply Z_len_nn in C. contradiction.
Qed.
