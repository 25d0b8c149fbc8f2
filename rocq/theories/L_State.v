(** Lemmas about the state record, lists of entries and frames. *)
From Coq Require Import NArith Sorted.
From Verif Require Import M_Num S_LP M_Driver M_State M_Act M_Core M_Simple M_StonCols M_Dton.

(** Projections of record updates *)
Ltac sr := cbn [nr nc mA mAT lhs rhs lb ub rt ct rsz csz ups dns acts cst off nnz w_ston_rows w_ston_cols w_dton w_empty_rows w_empty_cols w_acts w_fixed w_sub w_rows stale tick bad tiny log set_mA set_mAT set_lhs set_rhs set_lb set_ub set_rt set_ct set_rsz set_csz set_ups set_dns set_acts set_cst set_off set_nnz set_w_ston_rows set_w_ston_cols set_w_dton set_w_empty_rows set_w_empty_cols set_w_acts set_w_fixed set_w_sub set_w_rows set_stale set_tick set_bad set_tiny set_log push_ston_rows push_ston_cols push_dton push_empty_rows push_empty_cols push_acts push_fixed push_sub push_rows record setA setAT set_lhs1 set_rhs1 set_lb1 set_ub1 set_rt1 set_ct1 set_rsz1 set_csz1 set_act1 set_cst1].
Tactic Notation "sr" "in" hyp(H) := cbn [nr nc mA mAT lhs rhs lb ub rt ct rsz csz ups dns acts cst off nnz w_ston_rows w_ston_cols w_dton w_empty_rows w_empty_cols w_acts w_fixed w_sub w_rows stale tick bad tiny log set_mA set_mAT set_lhs set_rhs set_lb set_ub set_rt set_ct set_rsz set_csz set_ups set_dns set_acts set_cst set_off set_nnz set_w_ston_rows set_w_ston_cols set_w_dton set_w_empty_rows set_w_empty_cols set_w_acts set_w_fixed set_w_sub set_w_rows set_stale set_tick set_bad set_tiny set_log push_ston_rows push_ston_cols push_dton push_empty_rows push_empty_cols push_acts push_fixed push_sub push_rows record setA setAT set_lhs1 set_rhs1 set_lb1 set_ub1 set_rt1 set_ct1 set_rsz1 set_csz1 set_act1 set_cst1] in H.
Ltac sra := cbn [nr nc mA mAT lhs rhs lb ub rt ct rsz csz ups dns acts cst off nnz w_ston_rows w_ston_cols w_dton w_empty_rows w_empty_cols w_acts w_fixed w_sub w_rows stale tick bad tiny log set_mA set_mAT set_lhs set_rhs set_lb set_ub set_rt set_ct set_rsz set_csz set_ups set_dns set_acts set_cst set_off set_nnz set_w_ston_rows set_w_ston_cols set_w_dton set_w_empty_rows set_w_empty_cols set_w_acts set_w_fixed set_w_sub set_w_rows set_stale set_tick set_bad set_tiny set_log push_ston_rows push_ston_cols push_dton push_empty_rows push_empty_cols push_acts push_fixed push_sub push_rows record setA setAT set_lhs1 set_rhs1 set_lb1 set_ub1 set_rt1 set_ct1 set_rsz1 set_csz1 set_act1 set_cst1] in *.

Lemma upd_same : forall A (f : nat -> A) i v, upd f i v i = v.
Proof. intros. unfold upd. rewrite Nat.eqb_refl. reflexivity. Qed.
Lemma upd_other : forall A (f : nat -> A) i j v, j <> i -> upd f i v j = f j.
Proof. intros. unfold upd. destruct (Nat.eqb_spec j i); congruence. Qed.
Lemma upd_case : forall A (f : nat -> A) i v j,
  (j = i /\ upd f i v j = v) \/ (j <> i /\ upd f i v j = f j).
Proof. intros. unfold upd. destruct (Nat.eqb_spec j i); auto. Qed.
(** case analysis on every [upd] application in the goal *)
Ltac updg := repeat match goal with
  | |- context [upd ?f ?i ?v ?j] =>
      let H := fresh "U" in let E := fresh "E" in
      destruct (upd_case _ f i v j) as [[E H] | [E H]]; rewrite !H; clear H; try subst; try match goal with E1 : ?x <> ?x |- _ => exfalso; exact (E1 eq_refl) end
  end.
Ltac updh H0 := repeat match type of H0 with
  | context [upd ?f ?i ?v ?j] =>
      let H := fresh "U" in let E := fresh "E" in
      destruct (upd_case _ f i v j) as [[E H] | [E H]]; rewrite !H in H0; clear H; try subst; try match goal with E1 : ?x <> ?x |- _ => exfalso; exact (E1 eq_refl) end
  end.

(** ** foldS *)
Lemma foldS_app : forall X (f : state -> X -> state) l1 l2 s,
  foldS f (l1 ++ l2) s = foldS f l2 (foldS f l1 s).
Proof. induction l1; simpl; auto. Qed.
Lemma foldS_rel : forall X (f : state -> X -> state) (R : state -> state -> Prop),
  (forall s, R s s) -> (forall a b c, R a b -> R b c -> R a c) ->
  forall l s, (forall s x, In x l -> R s (f s x)) -> R s (foldS f l s).
Proof.
  intros X f R Rr Rt. induction l as [|x l IH]; simpl; intros s H; auto.
  eapply Rt; [apply H; auto|]. apply IH. intros; apply H; auto.
Qed.
Lemma foldS_inv : forall X (f : state -> X -> state) (P : state -> Prop) l s,
  (forall s x, In x l -> P s -> P (f s x)) -> P s -> P (foldS f l s).
Proof. induction l as [|x l IH]; simpl; intros s H Hs; auto. Qed.

(** ** Frames: only the named components change *)
Definition acts_only (s s' : state) : Prop := exists a w, s' = set_w_acts w (set_acts a s).
Definition locks_only (s s' : state) : Prop := exists u d, s' = set_dns d (set_ups u s).

Lemma acts_only_refl : forall s, acts_only s s.
Proof. intros s. exists (acts s), (w_acts s). destruct s; reflexivity. Qed.
Lemma acts_only_trans : forall a b c, acts_only a b -> acts_only b c -> acts_only a c.
Proof. intros a b c [x [y ->]] [z [w ->]]. exists z, w. reflexivity. Qed.
Lemma locks_only_refl : forall s, locks_only s s.
Proof. intros s. exists (ups s), (dns s). destruct s; reflexivity. Qed.
Lemma locks_only_trans : forall a b c, locks_only a b -> locks_only b c -> locks_only a c.
Proof. intros a b c [x [y ->]] [z [w ->]]. exists z, w. reflexivity. Qed.

Lemma acts_only_set : forall i a s, acts_only s (set_act1 i a s).
Proof. intros. exists (upd (acts s) i a), (w_acts s). destruct s; reflexivity. Qed.
Lemma acts_only_push : forall i s, acts_only s (push_acts i s).
Proof. intros. exists (acts s), (w_acts s ++ [i]). destruct s; reflexivity. Qed.
Lemma acts_only_note : forall i alt s, acts_only s (note_altered i alt s).
Proof.
  intros. unfold note_altered. destruct (_ || _); [|apply acts_only_refl].
  destruct (a_st _); try apply acts_only_refl;
    (eapply acts_only_trans; [apply acts_only_set | apply acts_only_push]).
Qed.
Lemma acts_only_bound_change : forall col old new f l s,
  acts_only s (update_activities_bound_change col old new f l s).
Proof.
  intros. unfold update_activities_bound_change.
  apply foldS_rel; [apply acts_only_refl | apply acts_only_trans |].
  intros s0 e _. destruct (update_act_bound_change _ _ _ _ _ _ _ _ _) as [a alt].
  eapply acts_only_trans; [apply acts_only_set | apply acts_only_note].
Qed.
Lemma acts_only_fixed_col : forall col u l v b1 b2 b3 b4 s,
  acts_only s (update_activities_fixed_col col u l v b1 b2 b3 b4 s).
Proof.
  intros. unfold update_activities_fixed_col.
  apply foldS_rel; [apply acts_only_refl | apply acts_only_trans |].
  intros s0 e _. cbv zeta.
  destruct (if b1 then _ else _) as [a1 alt1]. destruct (if b2 then _ else _) as [a2 alt2].
  eapply acts_only_trans; [apply acts_only_set | apply acts_only_note].
Qed.

Lemma locks_only_lock_rhs : forall d j a s, locks_only s (lock_rhs d j a s).
Proof.
  intros. unfold lock_rhs. destruct (Qgtb a 0).
  - exists (upd (ups s) j (ups s j + d)%Z), (dns s). destruct s; reflexivity.
  - exists (ups s), (upd (dns s) j (dns s j + d)%Z). destruct s; reflexivity.
Qed.
Lemma locks_only_lock_lhs : forall d j a s, locks_only s (lock_lhs d j a s).
Proof.
  intros. unfold lock_lhs. destruct (Qgtb a 0).
  - exists (ups s), (upd (dns s) j (dns s j + d)%Z). destruct s; reflexivity.
  - exists (upd (ups s) j (ups s j + d)%Z), (dns s). destruct s; reflexivity.
Qed.
Lemma locks_only_coeff : forall d ri li j a s, locks_only s (lock_coeff d ri li j a s).
Proof.
  intros. unfold lock_coeff. destruct ri, li;
    eauto using locks_only_refl, locks_only_lock_rhs, locks_only_lock_lhs, locks_only_trans.
Qed.
Lemma locks_only_eq_to_ineq : forall r b s, locks_only s (update_locks_eq_to_ineq r b s).
Proof.
  intros. unfold update_locks_eq_to_ineq.
  apply foldS_rel; [apply locks_only_refl | apply locks_only_trans |].
  intros. destruct b; auto using locks_only_lock_rhs, locks_only_lock_lhs.
Qed.
Lemma locks_only_ineq_to_eq : forall r b s, locks_only s (update_locks_ineq_to_eq r b s).
Proof.
  intros. unfold update_locks_ineq_to_eq.
  apply foldS_rel; [apply locks_only_refl | apply locks_only_trans |].
  intros. destruct b; auto using locks_only_lock_rhs, locks_only_lock_lhs.
Qed.
Lemma locks_only_count : forall col k s, locks_only s (count_locks_one_column col k s).
Proof.
  intros. unfold count_locks_one_column.
  eapply locks_only_trans with (b := set_dns (upd (dns s) k 0%Z) (set_ups (upd (ups s) k 0%Z) s)).
  - exists (upd (ups s) k 0%Z), (upd (dns s) k 0%Z). reflexivity.
  - apply foldS_rel; [apply locks_only_refl | apply locks_only_trans |].
    intros. apply locks_only_coeff.
Qed.

(** rows that enter the list of changed activities *)
Definition acts_in (col : row) (s s' : state) : Prop :=
  forall i, In i (w_acts s') -> In i (w_acts s) \/ exists a, In (i, a) col.
Lemma note_altered_in : forall i alt s j, In j (w_acts (note_altered i alt s)) ->
  In j (w_acts s) \/ j = i.
Proof.
  intros i alt s j. unfold note_altered. destruct (_ || _); auto.
  destruct (a_st _); auto; sr; intros H; apply in_app_or in H; destruct H as [H|[H|[]]]; auto.
Qed.
Lemma acts_in_bound_change : forall col old new f l s,
  acts_in col s (update_activities_bound_change col old new f l s).
Proof.
  intros. unfold update_activities_bound_change, acts_in.
  apply foldS_inv with (P := fun t => forall i, In i (w_acts t) -> In i (w_acts s) \/ exists a, In (i, a) col).
  - intros t [i a] He IH j. destruct (update_act_bound_change _ _ _ _ _ _ _ _ _) as [b alt].
    intros H. apply note_altered_in in H. destruct H as [H| ->]; [sr in H; auto|].
    right. exists a. exact He.
  - auto.
Qed.
Lemma acts_in_fixed_col : forall col u l v b1 b2 b3 b4 s,
  acts_in col s (update_activities_fixed_col col u l v b1 b2 b3 b4 s).
Proof.
  intros. unfold update_activities_fixed_col, acts_in.
  apply foldS_inv with (P := fun t => forall i, In i (w_acts t) -> In i (w_acts s) \/ exists a, In (i, a) col).
  - intros t [i a] He IH j. cbv zeta.
    destruct (if b1 then _ else _) as [a1 alt1]. destruct (if b2 then _ else _) as [a2 alt2].
    intros H. apply note_altered_in in H. destruct H as [H| ->]; [sr in H; auto|].
    right. exists a. exact He.
  - auto.
Qed.

(** ** Sorted rows *)
Definition srt (r : row) : Prop := StronglySorted lt (map fst r).

Lemma srt_nil : srt []. Proof. constructor. Qed.
Lemma srt_inv : forall k a r, srt ((k, a) :: r) -> srt r /\ forall e, In e r -> (k < fst e)%nat.
Proof.
  unfold srt; simpl; intros k a r H. inversion H; subst. split; auto.
  intros e He. rewrite Forall_forall in H3. apply H3. apply in_map; assumption.
Qed.
Lemma srt_cons : forall k a r, srt r -> (forall e, In e r -> (k < fst e)%nat) -> srt ((k, a) :: r).
Proof.
  unfold srt; simpl; intros. constructor; auto. apply Forall_forall.
  intros x Hx. apply in_map_iff in Hx. destruct Hx as [e [<- He]]. auto.
Qed.
Lemma srt_NoDup : forall r, srt r -> NoDup (map fst r).
Proof.
  unfold srt. intros r H. induction H; constructor; auto.
  intros C. rewrite Forall_forall in H0. apply H0 in C. lia.
Qed.
Lemma srt_uniq : forall r k a b, srt r -> In (k, a) r -> In (k, b) r -> a = b.
Proof.
  induction r as [|[c v] r IH]; simpl; [tauto|]. intros k a b H Ha Hb.
  apply srt_inv in H. destruct H as [H L].
  destruct Ha as [Ha|Ha], Hb as [Hb|Hb].
  - congruence.
  - injection Ha as -> ->. apply L in Hb. simpl in Hb. lia.
  - injection Hb as -> ->. apply L in Ha. simpl in Ha. lia.
  - eauto.
Qed.
Lemma srt_filter : forall f r, srt r -> srt (filter f r).
Proof.
  induction r as [|[c v] r IH]; simpl; auto. intros H. apply srt_inv in H. destruct H as [H L].
  destruct (f (c, v)); auto. apply srt_cons; auto.
  intros e He. apply filter_In in He. apply L. tauto.
Qed.

Definition has (k : nat) (r : row) : Prop := exists a, In (k, a) r.
Definition hasb (k : nat) (r : row) : bool := existsb (fun e => Nat.eqb (fst e) k) r.
Lemma hasb_has : forall k r, hasb k r = true <-> has k r.
Proof.
  intros. unfold hasb, has. rewrite existsb_exists. split.
  - intros [[c a] [H E]]. apply Nat.eqb_eq in E. simpl in E. subst. eauto.
  - intros [a H]. exists (k, a). split; auto. apply Nat.eqb_refl.
Qed.

Lemma del_entry_In : forall k r e, In e (del_entry k r) <-> In e r /\ fst e <> k.
Proof.
  intros. unfold del_entry. rewrite filter_In. destruct (Nat.eqb_spec (fst e) k); simpl; intuition congruence.
Qed.
Lemma del_entry_srt : forall k r, srt r -> srt (del_entry k r).
Proof. intros. apply srt_filter; assumption. Qed.
Lemma del_entry_absent : forall k r, ~ has k r -> del_entry k r = r.
Proof.
  induction r as [|[c v] r IH]; simpl; auto. intros H.
  destruct (Nat.eqb_spec c k); simpl.
  - subst. exfalso. apply H. exists v. left; reflexivity.
  - rewrite IH; auto. intros [a Ha]. apply H. exists a. right; assumption.
Qed.
Lemma del_entry_len : forall k a r, srt r -> In (k, a) r ->
  length r = S (length (del_entry k r)).
Proof.
  induction r as [|[c v] r IH]; simpl; [tauto|]. intros H Hin.
  apply srt_inv in H. destruct H as [H L].
  destruct Hin as [E|Hin].
  - injection E as -> ->. rewrite Nat.eqb_refl. simpl. f_equal.
    change (filter _ r) with (del_entry k r). rewrite del_entry_absent; auto.
    intros [b Hb]. apply L in Hb. simpl in Hb. lia.
  - assert (c < k)%nat by (apply (L (k, a)); assumption).
    destruct (Nat.eqb_spec c k); [lia|]. simpl. f_equal. apply IH; auto.
Qed.

Lemma coeff_of_in : forall k a r, srt r -> In (k, a) r -> coeff_of k r = a.
Proof.
  induction r as [|[c v] r IH]; simpl; [tauto|]. intros H Hin.
  apply srt_inv in H. destruct H as [H L]. destruct Hin as [E|Hin].
  - injection E as -> ->. rewrite Nat.eqb_refl. reflexivity.
  - specialize (L _ Hin). simpl in L. destruct (Nat.eqb_spec c k); [lia|]. auto.
Qed.
Lemma find_coeff_in : forall k a r, srt r -> In (k, a) r -> find_coeff k r = a.
Proof.
  induction r as [|[c v] r IH]; simpl; [tauto|]. intros H Hin.
  apply srt_inv in H. destruct H as [H L]. destruct Hin as [E|Hin].
  - injection E as -> ->. rewrite Nat.leb_refl, Nat.eqb_refl. reflexivity.
  - specialize (L _ Hin). simpl in L. destruct (Nat.leb_spec k c); [lia|]. auto.
Qed.
Lemma find_coeff_out : forall k r, srt r -> ~ has k r -> find_coeff k r = 0.
Proof.
  induction r as [|[c v] r IH]; simpl; auto. intros H Hn.
  apply srt_inv in H. destruct H as [H L].
  destruct (Nat.leb_spec k c).
  - destruct (Nat.eqb_spec c k); auto. subst. exfalso. apply Hn. exists v. left; reflexivity.
  - apply IH; auto. intros [a Ha]. apply Hn. exists a. right; assumption.
Qed.

Lemma put_entry_In : forall j v r e, srt r ->
  (In e (put_entry j v r) <-> e = (j, v) \/ (In e r /\ fst e <> j)).
Proof.
  induction r as [|[c w] r IH]; simpl; intros e H.
  - intuition.
  - apply srt_inv in H. destruct H as [H L].
    destruct (Nat.leb_spec j c).
    + destruct (Nat.eqb_spec c j).
      * subst c. simpl. split.
        -- intros [E|E]; [left; congruence|]. right. split; [auto|]. apply L in E. lia.
        -- intros [E|[[E|E] N]]; auto. subst e. simpl in N. congruence.
      * simpl. split.
        -- intros [E|[E|E]]; [left; congruence | |].
           ++ right. subst e. simpl. split; auto.
           ++ right. split; [auto|]. apply L in E. lia.
        -- intros [E|[[E|E] N]]; auto.
    + simpl. rewrite IH; auto. split.
      * intros [E|[E|[E N]]]; auto. subst e. right. simpl. split; [auto|lia].
      * intros [E|[[E|E] N]]; auto.
Qed.
Lemma put_entry_srt : forall j v r, srt r -> srt (put_entry j v r).
Proof.
  induction r as [|[c w] r IH]; simpl; intros H.
  - apply srt_cons; [assumption|]. simpl. tauto.
  - pose proof H as H0. apply srt_inv in H. destruct H as [H L].
    destruct (Nat.leb_spec j c).
    + destruct (Nat.eqb_spec c j).
      * subst c. apply srt_cons; auto.
      * apply srt_cons; auto. intros e [E|E]; [subst e; simpl; lia|]. apply L in E. lia.
    + apply srt_cons; auto. intros e He. apply put_entry_In in He; auto.
      destruct He as [E|[E _]]; [subst e; simpl; lia|auto].
Qed.
Lemma put_entry_len_in : forall j v a r, srt r -> In (j, a) r ->
  length (put_entry j v r) = length r.
Proof.
  induction r as [|[c w] r IH]; simpl; [tauto|]. intros H Hin.
  apply srt_inv in H. destruct H as [H L].
  destruct (Nat.leb_spec j c).
  - destruct (Nat.eqb_spec c j); auto. destruct Hin as [E|Hin]; [congruence|].
    apply L in Hin. simpl in Hin. lia.
  - destruct Hin as [E|Hin]; [injection E as -> ->; lia|]. simpl. f_equal. auto.
Qed.
Lemma put_entry_len_out : forall j v r, srt r -> ~ has j r ->
  length (put_entry j v r) = S (length r).
Proof.
  induction r as [|[c w] r IH]; simpl; auto. intros H Hn.
  apply srt_inv in H. destruct H as [H L].
  destruct (Nat.leb_spec j c).
  - destruct (Nat.eqb_spec c j); auto. subst. exfalso. apply Hn. exists w. left; reflexivity.
  - simpl. f_equal. apply IH; auto. intros [a Ha]. apply Hn. exists a. right; assumption.
Qed.
Lemma drop_entry_in : forall j a r, srt r -> In (j, a) r -> drop_entry j r = Some (del_entry j r).
Proof.
  induction r as [|[c w] r IH]; simpl; [tauto|]. intros H Hin.
  apply srt_inv in H. destruct H as [H L].
  destruct (Nat.leb_spec j c).
  - destruct Hin as [E|Hin].
    + injection E as -> ->. rewrite Nat.eqb_refl. simpl. f_equal.
      change (filter _ r) with (del_entry j r). symmetry. apply del_entry_absent.
      intros [b Hb]. apply L in Hb. simpl in Hb. lia.
    + apply L in Hin. simpl in Hin. lia.
  - destruct Hin as [E|Hin]; [injection E as -> ->; lia|].
    rewrite (IH H Hin). destruct (Nat.eqb_spec c j); [lia|]. reflexivity.
Qed.

(** ** lists *)
Lemma NoDup_app_one : forall A (l : list A) x, NoDup l -> ~ In x l -> NoDup (l ++ [x]).
Proof.
  intros. apply NoDup_rev in H. rewrite <- rev_involutive. apply NoDup_rev.
  rewrite rev_app_distr. simpl. constructor; auto. rewrite <- in_rev. assumption.
Qed.
Lemma In_app_one : forall A (l : list A) x y, In y (l ++ [x]) <-> In y l \/ y = x.
Proof. intros. rewrite in_app_iff. simpl. intuition. Qed.

Lemma filter_len : forall A (f : A -> bool) l, (length (filter f l) <= length l)%nat.
Proof. induction l; simpl; auto. destruct (f a); simpl; lia. Qed.
Lemma filter_full : forall A (f : A -> bool) l, length (filter f l) = length l ->
  forall x, In x l -> f x = true.
Proof.
  induction l as [|y l IH]; simpl; [tauto|]. intros H x.
  pose proof (filter_len _ f l). destruct (f y) eqn:E; simpl in H; [|lia].
  intros [->|Hx]; auto.
Qed.
Lemma filter_all : forall A (f : A -> bool) l, (forall x, In x l -> f x = true) -> filter f l = l.
Proof. induction l as [|y l IH]; simpl; auto. intros H. rewrite H, IH; auto. Qed.
Lemma filter_none : forall A (f : A -> bool) l, (forall x, In x l -> f x = false) -> filter f l = [].
Proof. induction l as [|y l IH]; simpl; auto. intros H. rewrite H, IH; auto. Qed.
Lemma filter_ext_in' : forall A (f g : A -> bool) l, (forall x, In x l -> f x = g x) ->
  filter f l = filter g l.
Proof. exact (fun A => filter_ext_in (A := A)). Qed.
