(** Bound propagation and removal of redundant bounds preserve the structural invariant; the
    propagation loop ends within its fuel. *)
From Coq Require Import NArith Sorted.
From Verif Require Import M_Num S_LP M_Driver M_State M_Act M_Core M_Simple M_StonCols M_Dton
  M_Parallel M_Propagate L_State L_Struct L_Struct2 L_Struct3 L_Struct4 L_Struct5 L_Struct6 L_Struct7.

(** ** The potential: how often a row can still be pushed *)
Definition apot (t : astatus) : nat :=
  match t with NOT_ADDED => 2 | ADDED => 1 | PROPAGATED_THIS_ROUND => 1 | PROPAGATE_NEXT_ROUND => 0 end.
Fixpoint sumn (f : nat -> nat) (l : list nat) : nat :=
  match l with [] => O | i :: l' => (f i + sumn f l')%nat end.
Definition lp (s : state) : nat :=
  (length (w_acts s) + sumn (fun i => apot (a_st (acts s i))) (seq 0 (nr s)))%nat.

Lemma sumn_le : forall f g l, (forall i, In i l -> (f i <= g i)%nat) -> (sumn f l <= sumn g l)%nat.
Proof.
  induction l as [|i l IH]; simpl; intros H; auto.
  pose proof (H i (or_introl eq_refl)). assert (forall j, In j l -> (f j <= g j)%nat) by auto.
  specialize (IH H1). lia.
Qed.
Lemma sumn_lt : forall f g l i, (forall i, In i l -> (f i <= g i)%nat) -> In i l -> (f i < g i)%nat ->
  (sumn f l < sumn g l)%nat.
Proof.
  induction l as [|k l IH]; simpl; intros i H Hi L; [contradiction|].
  pose proof (H k (or_introl eq_refl)) as K.
  assert (H1 : forall j, In j l -> (f j <= g j)%nat) by auto.
  destruct Hi as [->|Hi].
  - pose proof (sumn_le f g l H1). lia.
  - specialize (IH i H1 Hi L). lia.
Qed.
Lemma sumn_bound : forall f c l, (forall i, (f i <= c)%nat) -> (sumn f l <= c * length l)%nat.
Proof. induction l as [|k l IH]; simpl; intros H; [lia|]. specialize (IH H). specialize (H k). lia. Qed.
Lemma lp_bound : forall s, (lp s <= length (w_acts s) + 2 * nr s)%nat.
Proof.
  intros s. unfold lp. pose proof (sumn_bound (fun i => apot (a_st (acts s i))) 2 (seq 0 (nr s))) as X.
  rewrite seq_length in X. assert (forall i, (apot (a_st (acts s i)) <= 2)%nat).
  { intros i. destruct (a_st _); simpl; lia. }
  specialize (X H). lia.
Qed.

Lemma lp_set : forall i a s, (apot (a_st a) <= apot (a_st (acts s i)))%nat -> (lp (set_act1 i a s) <= lp s)%nat.
Proof.
  intros i a s H. unfold lp. sr.
  assert (sumn (fun k => apot (a_st (upd (acts s) i a k))) (seq 0 (nr s)) <=
          sumn (fun k => apot (a_st (acts s k))) (seq 0 (nr s)))%nat; [|lia].
  apply sumn_le. intros k _. updg; auto.
Qed.
Lemma lp_push : forall i a s, (i < nr s)%nat -> (apot (a_st a) < apot (a_st (acts s i)))%nat ->
  (lp (push_acts i (set_act1 i a s)) <= lp s)%nat.
Proof.
  intros i a s Hi H. unfold lp. sr. rewrite app_length. simpl length.
  assert (sumn (fun k => apot (a_st (upd (acts s) i a k))) (seq 0 (nr s)) <
          sumn (fun k => apot (a_st (acts s k))) (seq 0 (nr s)))%nat; [|lia].
  apply sumn_lt with (i := i).
  - intros k _. updg; auto. lia.
  - apply in_seq. lia.
  - rewrite upd_same. auto.
Qed.
Lemma lp_note : forall i alt s, (i < nr s)%nat -> (lp (note_altered i alt s) <= lp s)%nat.
Proof.
  intros i alt s Hi. unfold note_altered. destruct (_ || _); auto.
  destruct (a_st (acts s i)) eqn:E; auto; apply lp_push; auto; rewrite E; simpl; lia.
Qed.
Lemma max_change_st : forall l u a c o n f r, a_st (max_change l u a c o n f r) = a_st a.
Proof. intros. unfold max_change. destruct (_ =? _)%Z; [reflexivity|]. destruct f; reflexivity. Qed.
Lemma min_change_st : forall l u a c o n f r, a_st (min_change l u a c o n f r) = a_st a.
Proof. intros. unfold min_change. destruct (_ =? _)%Z; [reflexivity|]. destruct f; reflexivity. Qed.
Lemma act_change_st : forall l u a c o n f lo r,
  a_st (fst (update_act_bound_change l u a c o n f lo r)) = a_st a.
Proof.
  intros. unfold update_act_bound_change. destruct lo, (Qltb c 0); cbn [fst]; auto using max_change_st, min_change_st.
Qed.
Definition lpr (s s' : state) : Prop := nr s' = nr s /\ (lp s' <= lp s)%nat.
Lemma lpr_refl : forall s, lpr s s. Proof. split; auto. Qed.
Lemma lpr_trans : forall a b c, lpr a b -> lpr b c -> lpr a c.
Proof. intros a b c [? ?] [? ?]. split; [congruence|lia]. Qed.
Lemma lpr_note : forall i alt a s, (i < nr s)%nat -> a_st a = a_st (acts s i) ->
  lpr s (note_altered i alt (set_act1 i a s)).
Proof.
  intros i alt a s Hi E. split.
  - destruct (acts_only_note i alt (set_act1 i a s)) as [x [y X]]. rewrite X. reflexivity.
  - etransitivity; [apply lp_note; exact Hi|]. apply lp_set. rewrite E. auto.
Qed.
Lemma foldS_lpr : forall X (f : state -> X -> state) n l s, nr s = n ->
  (forall t x, In x l -> nr t = n -> lpr t (f t x)) -> lpr s (foldS f l s).
Proof.
  induction l as [|x l IH]; simpl; intros s E H; [apply lpr_refl|].
  eapply lpr_trans; [apply H; auto|]. apply IH; auto. destruct (H s x (or_introl eq_refl) E). congruence.
Qed.
Lemma lpr_bound_change : forall col old new f l s, (forall i a, In (i, a) col -> (i < nr s)%nat) ->
  lpr s (update_activities_bound_change col old new f l s).
Proof.
  intros. unfold update_activities_bound_change. apply foldS_lpr with (n := nr s); auto.
  intros t [i a] Hin E. cbv zeta. cbn [fst snd].
  pose proof (act_change_st (lb t) (ub t) (acts t i) a old new f l (mA t i)) as X.
  destruct (update_act_bound_change _ _ _ _ _ _ _ _ _) as [b alt]. apply lpr_note; auto.
  rewrite E. eauto.
Qed.
Lemma lpr_fixed_col : forall col u l v b1 b2 b3 b4 s, (forall i a, In (i, a) col -> (i < nr s)%nat) ->
  lpr s (update_activities_fixed_col col u l v b1 b2 b3 b4 s).
Proof.
  intros. unfold update_activities_fixed_col. apply foldS_lpr with (n := nr s); auto.
  intros t [i a] Hin E. cbv zeta. cbn [fst snd].
  pose proof (act_change_st (lb t) (ub t) (acts t i) a u v (negb b3) false (mA t i)) as X1.
  set (p1 := if b1 then _ else _).
  assert (Y1 : a_st (fst p1) = a_st (acts t i)) by (unfold p1; destruct b1; auto).
  destruct p1 as [a1 alt1]. cbn [fst] in Y1.
  pose proof (act_change_st (lb t) (ub t) a1 a l v (negb b4) true (mA t i)) as X2.
  set (p2 := if b2 then _ else _).
  assert (Y2 : a_st (fst p2) = a_st a1) by (unfold p2; destruct b2; auto).
  destruct p2 as [a2 alt2]. cbn [fst] in Y2. apply lpr_note; [|congruence]. rewrite E. eauto.
Qed.
Lemma lpr_eq : forall s s', nr s' = nr s -> w_acts s' = w_acts s -> acts s' = acts s -> lpr s s'.
Proof. intros s s' A B C. split; auto. unfold lp. rewrite A, B, C. lia. Qed.
Lemma lpr_fix_col : forall s k v c, col_in s k -> lpr s (fst (fix_col k v c s)).
Proof.
  intros s k v c CI. unfold fix_col. destruct (_ || _); [apply lpr_refl|]. cbv zeta. cbn [fst].
  set (s2 := set_lb1 k _ _). eapply lpr_trans; [|apply lpr_fixed_col; exact CI].
  apply lpr_eq; reflexivity.
Qed.

(** ** One bound *)
Record prs (s s' : state) : Prop := {
  pr_stp : stp s s';  pr_rows : w_rows s' = w_rows s;  pr_sub : w_sub s' = w_sub s;
  pr_ston : w_ston_rows s' = w_ston_rows s;  pr_lp : lpr s s' }.
Lemma prs_refl : forall s, Inv s -> prs s s.
Proof. intros; constructor; auto using stp_refl, lpr_refl. Qed.
Lemma prs_trans : forall a b c, prs a b -> prs b c -> prs a c.
Proof. intros a b c [] []. constructor; try congruence; eauto using stp_trans, lpr_trans. Qed.
Lemma prs_same : forall s s', Inv s -> same_struct s s' -> lpr s s' -> prs s s'.
Proof. intros s s' H E L. constructor; auto using stp_same; destruct E; auto. Qed.
Lemma prs_record : forall s r, Inv s -> prs s (record r s).
Proof. intros. apply prs_same; auto using same_record. apply lpr_eq; reflexivity. Qed.
Lemma prs_inv : forall s s', prs s s' -> Inv s'. Proof. intros s s' []. apply pr_stp0. Qed.
Lemma prs_fix_col : forall s k v c, Inv s -> (k < nc s)%nat -> prs s (fst (fix_col k v c s)).
Proof.
  intros s k v c H Hk. destruct (fix_col_frame s k v c) as [A [B [C _]]].
  constructor; auto using stp_fix_col, lpr_fix_col, Inv_col_in.
Qed.

Lemma prs_lb_prop : forall b k v s, Inv s -> (k < nc s)%nat -> prs s (fst (update_lb_prop b k v s)).
Proof.
  intros b k v s H Hk. unfold update_lb_prop. cbv zeta.
  destruct (_ && _); [apply prs_refl; auto|].
  destruct (_ && _).
  { cbn [fst]. eapply prs_trans; [apply prs_record; auto|]. apply prs_fix_col; auto.
    eapply prs_inv, prs_record; auto. }
  destruct (_ || _); [|apply prs_refl; auto]. cbn [fst].
  match goal with |- context [set_lb1 k ?z ?t] => set (s1 := set_lb1 k z t) end.
  assert (P1 : prs s s1).
  { apply prs_same; auto; [|apply lpr_eq; reflexivity]. unfold s1. constructor; sr; auto; intros j; updg; auto. }
  pose proof (prs_inv _ _ P1) as I1.
  assert (CI : col_in s1 k) by (apply Inv_col_in; auto).
  eapply prs_trans; [exact P1|]. eapply prs_trans; [|apply prs_record].
  - apply prs_same; [auto|apply bound_change_same; auto|apply lpr_bound_change; exact CI].
  - eapply same_Inv; [apply bound_change_same; auto|auto].
Qed.
Lemma prs_ub_prop : forall b k v s, Inv s -> (k < nc s)%nat -> prs s (fst (update_ub_prop b k v s)).
Proof.
  intros b k v s H Hk. unfold update_ub_prop. cbv zeta.
  destruct (_ && _); [apply prs_refl; auto|].
  destruct (_ && _).
  { cbn [fst]. eapply prs_trans; [apply prs_record; auto|]. apply prs_fix_col; auto.
    eapply prs_inv, prs_record; auto. }
  destruct (_ || _); [|apply prs_refl; auto]. cbn [fst].
  match goal with |- context [set_ub1 k ?z ?t] => set (s1 := set_ub1 k z t) end.
  assert (P1 : prs s s1).
  { apply prs_same; auto; [|apply lpr_eq; reflexivity]. unfold s1. constructor; sr; auto; intros j; updg; auto. }
  pose proof (prs_inv _ _ P1) as I1.
  assert (CI : col_in s1 k) by (apply Inv_col_in; auto).
  eapply prs_trans; [exact P1|]. eapply prs_trans; [|apply prs_record].
  - apply prs_same; [auto|apply bound_change_same; auto|apply lpr_bound_change; exact CI].
  - eapply same_Inv; [apply bound_change_same; auto|auto].
Qed.

Definition st_of (p : tight) : state := fst (fst p).
Lemma prs_try_lb : forall b k v p, Inv (st_of p) -> (k < nc (st_of p))%nat ->
  prs (st_of p) (st_of (try_lb b k v p)).
Proof.
  intros b k v [[s st] n] H Hk. unfold try_lb, st_of in *. cbn [fst] in *.
  destruct (_ && _); [apply prs_lb_prop; auto|apply prs_refl; auto].
Qed.
Lemma prs_try_ub : forall b k v p, Inv (st_of p) -> (k < nc (st_of p))%nat ->
  prs (st_of p) (st_of (try_ub b k v p)).
Proof.
  intros b k v [[s st] n] H Hk. unfold try_ub, st_of in *. cbn [fst] in *.
  destruct (_ && _); [apply prs_ub_prop; auto|apply prs_refl; auto].
Qed.
Definition row_in (s : state) (r : row) : Prop := forall k a, In (k, a) r -> (k < nc s)%nat.
Lemma prs_fold : forall (f : tight -> nat * Q -> tight) r p,
  (forall p k a, Inv (st_of p) -> (k < nc (st_of p))%nat -> prs (st_of p) (st_of (f p (k, a)))) ->
  Inv (st_of p) -> row_in (st_of p) r -> prs (st_of p) (st_of (fold_left f r p)).
Proof.
  intros f r p F. revert p. induction r as [|[k a] r IH]; simpl; intros p H R; [apply prs_refl; auto|].
  assert (P1 : prs (st_of p) (st_of (f p (k, a)))) by (apply F; auto; eapply R; simpl; eauto).
  eapply prs_trans; [exact P1|]. apply IH; [eapply prs_inv; eauto|].
  intros j b Hj. rewrite (stp_nc _ _ (pr_stp _ _ P1)). eapply R; simpl; eauto.
Qed.
Lemma find_inf_in : forall s mn r l e, find_inf s mn r l = Some e -> In e r \/ l = Some e.
Proof.
  induction r as [|[k a] r IH]; simpl; intros l e E; auto.
  destruct (_ && _); [inversion E; auto|]. apply IH in E. destruct E as [E|E]; auto.
  inversion E; auto.
Qed.
Lemma prs_tighten_rhs : forall b i r p, Inv (st_of p) -> row_in (st_of p) r ->
  prs (st_of p) (st_of (tighten_rhs b i r p)).
Proof.
  intros b i r [[s st] n] H R. unfold tighten_rhs. cbv zeta.
  destruct (_ && _).
  { apply prs_fold; auto. intros [[t st'] n'] k a I K. unfold rhs_entry. cbv zeta.
    destruct (t_cinact _); [apply prs_refl; auto|].
    destruct (Qgtb a 0); [apply prs_try_ub|apply prs_try_lb]; auto. }
  destruct (_ && _); [|apply prs_refl; auto].
  destruct (find_inf s true r None) as [[k a]|] eqn:E; [|apply prs_refl; auto].
  apply find_inf_in in E. destruct E as [E|E]; [|discriminate].
  destruct (Qgtb a 0); [apply prs_try_ub|apply prs_try_lb]; auto; eapply R; eauto.
Qed.
Lemma prs_tighten_lhs : forall b i r p, Inv (st_of p) -> row_in (st_of p) r ->
  prs (st_of p) (st_of (tighten_lhs b i r p)).
Proof.
  intros b i r [[s st] n] H R. unfold tighten_lhs. cbv zeta.
  destruct (_ && _).
  { apply prs_fold; auto. intros [[t st'] n'] k a I K. unfold lhs_entry. cbv zeta.
    destruct (t_cinact _); [apply prs_refl; auto|].
    destruct (Qgtb a 0); [apply prs_try_lb|apply prs_try_ub]; auto. }
  destruct (_ && _); [|apply prs_refl; auto].
  destruct (find_inf s false r None) as [[k a]|] eqn:E; [|apply prs_refl; auto].
  apply find_inf_in in E. destruct E as [E|E]; [|discriminate].
  destruct (Qgtb a 0); [apply prs_try_lb|apply prs_try_ub]; auto; eapply R; eauto.
Qed.
Lemma view_in : forall s i, Inv s -> (i < nr s)%nat -> row_in s (row_view s i).
Proof.
  intros s i H Hi k a Hin. unfold row_view in Hin.
  assert (X : In (k, a) (mA s i)).
  { rewrite <- (firstn_skipn (Z.to_nat (rsz s i)) (mA s i)). apply in_or_app. auto. }
  apply (w_rin s (inv_0 s H) i k a); auto.
Qed.
Lemma prs_single_row : forall b i s, Inv s -> (i < nr s)%nat ->
  prs s (fst (bound_tightening_single_row b i s)).
Proof.
  intros b i s H Hi. unfold bound_tightening_single_row. cbv zeta.
  pose proof (view_in s i H Hi) as R.
  pose proof (prs_tighten_rhs b i (row_view s i) (s, UNCHANGED, O) H R) as P1.
  set (p1 := tighten_rhs _ _ _ _) in *.
  assert (I1 : Inv (st_of p1)) by (eapply prs_inv; eauto).
  assert (R1 : row_in (st_of p1) (row_view s i)).
  { intros k a Hin. rewrite (stp_nc _ _ (pr_stp _ _ P1)). eapply R; eauto. }
  pose proof (prs_tighten_lhs b i (row_view s i) p1 I1 R1) as P2.
  set (p2 := tighten_lhs _ _ _ p1) in *. clearbody p1 p2. destruct p2 as [[s2 st2] n].
  unfold st_of in *. cbn [fst] in *.
  assert (P : prs s s2) by (eapply prs_trans; eauto).
  destruct n; cbn [fst]; auto. eapply prs_trans; [exact P|apply prs_record; eapply prs_inv; eauto].
Qed.

Lemma prs_set_ast : forall i t s, Inv s -> (apot t <= apot (a_st (acts s i)))%nat -> prs s (set_ast i t s).
Proof.
  intros i t s H L. apply prs_same; auto; [unfold set_ast; same_ref|].
  split; [reflexivity|]. apply lp_set. exact L.
Qed.

Lemma prop_loop_spec : forall b fuel ii s, Inv s -> (lp s <= ii + fuel)%nat ->
  let '(s', st) := prop_loop b fuel ii s in prs s s' /\ (st = UNCHANGED \/ st = INFEASIBLE).
Proof.
  intros b. induction fuel as [|f IH]; intros ii s H L; cbn [prop_loop].
  - destruct (nth_error (w_acts s) ii) eqn:E; [|split; auto using prs_refl].
    exfalso. assert (X : (ii < length (w_acts s))%nat) by (apply nth_error_Some; congruence).
    unfold lp in L. lia.
  - destruct (nth_error (w_acts s) ii) as [i|] eqn:E; [|split; auto using prs_refl].
    assert (Hi : (i < nr s)%nat) by (apply (l_acts s (inv_L s H)); eapply nth_error_In; eauto).
    destruct (skip_row s i) eqn:SK; [apply IH; auto; lia|].
    assert (P0 : prs s (set_ast i PROPAGATED_THIS_ROUND s)).
    { apply prs_set_ast; auto. unfold skip_row in SK. apply orb_false_iff in SK. destruct SK as [SK _].
      apply orb_false_iff in SK. destruct SK as [_ SK]. apply negb_false_iff in SK.
      unfold ast_is in SK. destruct (a_st (acts s i)); try discriminate. simpl. lia. }
    pose proof (prs_single_row b i (set_ast i PROPAGATED_THIS_ROUND s) (prs_inv _ _ P0) Hi) as P1.
    destruct (bound_tightening_single_row b i _) as [s1 st]. cbn [fst] in P1.
    assert (P : prs s s1) by (eapply prs_trans; eauto).
    destruct (HAS_STATUS st INFEASIBLE); [split; auto|].
    specialize (IH (S ii) s1 (prs_inv _ _ P)). destruct (prop_loop b f (S ii) s1) as [s2 st2].
    destruct IH as [P2 E2]. { destruct (pr_lp _ _ P) as [_ X]. lia. }
    split; auto. eapply prs_trans; eauto.
Qed.

Lemma same_set_ast : forall i t s, same_struct s (set_ast i t s).
Proof. intros. unfold set_ast. same_ref. Qed.
Lemma next_round_same : forall s, same_struct s (next_round s).
Proof.
  intros s. unfold next_round. cbv zeta.
  set (keep := nodup Nat.eq_dec _). 
  set (s1 := foldS (fun s i => set_ast i NOT_ADDED s) (seq 0 (nr s)) s).
  assert (E1 : same_struct s s1) by (apply same_foldS; intros; apply same_set_ast).
  set (s2 := foldS (fun s i => set_ast i ADDED s) keep s1).
  assert (E2 : same_struct s s2).
  { eapply same_trans; [exact E1|]. apply same_foldS. intros; apply same_set_ast. }
  eapply same_trans; [exact E2|].
  assert (KI : forall i, In i keep -> In i (w_acts s)).
  { intros i Hi. unfold keep in Hi. apply nodup_In in Hi. apply filter_In in Hi. apply Hi. }
  assert (WA : w_acts s2 = w_acts s).
  { unfold s2, s1.
    assert (G : forall t l z, w_acts (foldS (fun s i => set_ast i t s) l z) = w_acts z).
    { intros t. induction l as [|x l IHl]; simpl; intros z; auto. rewrite IHl. reflexivity. }
    rewrite !G. reflexivity. }
  constructor; try reflexivity. sr. intros i Hi. left. rewrite WA. auto.
Qed.

Lemma propagate_spec : forall b s, Inv s -> w_sub s = [] ->
  let '(s', st) := propagate_primal b s in
  Inv s' /\ mono s s' /\ w_sub s' = [] /\ w_rows s' = w_rows s /\
  (st = INFEASIBLE \/
   st = UNCHANGED /\ w_fixed s' = [] /\ (w_rows s = [] -> Nx s -> Nx s')).
Proof.
  intros b s H WS. unfold propagate_primal.
  pose proof (prop_loop_spec b (length (w_acts s) + 2 * nr s) 0 s H) as X.
  destruct (prop_loop b _ 0 s) as [s1 st].
  destruct X as [P E]. { pose proof (lp_bound s). lia. }
  destruct P as [S1 R1 U1 T1 _].
  assert (I1 := st_inv _ _ S1).
  destruct (N.eqb_spec st INFEASIBLE).
  { split; auto. split; [apply S1|]. split; [congruence|]. split; auto. }
  pose proof (next_round_same s1) as SN. set (s2 := next_round s1) in *.
  assert (S2 : stp s s2). { eapply stp_trans; [exact S1|]. apply stp_same; auto. }
  destruct (finish_cols s2 (st_inv _ _ S2)) as [I3 [M3 [N3 [R3 [F3 [U3 _]]]]]].
  { left. rewrite (ss_w3 _ _ SN). congruence. }
  set (s3 := delete_inactive_cols_from_A_and_AT _) in *.
  pose proof (empty_rows_spec s3 I3) as X. destruct (remove_empty_rows s3) as [s4 st4].
  destruct X as [S4 [R4 [F4 [U4 [T4 E4]]]]].
  assert (RR : w_rows s4 = w_rows s) by (rewrite R4, R3, (ss_w1 _ _ SN); auto).
  assert (MM : mono s s4). { eapply mono_trans; [apply S2|]. eapply mono_trans; [exact M3|apply S4]. }
  destruct (N.eqb_spec st4 INFEASIBLE).
  { split; [apply S4|]. split; [exact MM|]. split; [congruence|]. split; auto. }
  destruct E4 as [E4|[E4 W4]]; [contradiction|].
  split; [apply S4|]. split; [exact MM|]. split; [congruence|]. split; [exact RR|].
  right. split; auto. split; [congruence|]. intros WR NX. apply S4. apply N3.
  - rewrite (ss_w1 _ _ SN). congruence.
  - apply S2; auto.
Qed.

(** ** Redundant bounds *)
Lemma rem_lb_acts : forall col v s, acts_only s (remove_finite_lb_from_activities col v s).
Proof.
  intros. unfold remove_finite_lb_from_activities.
  apply foldS_rel; [apply acts_only_refl | apply acts_only_trans |].
  intros t [i a] _. cbv zeta. destruct (Qgtb a 0); [apply acts_only_set|].
  destruct (Qltb a 0); [apply acts_only_set|apply acts_only_refl].
Qed.
Lemma rem_ub_acts : forall col v s, acts_only s (remove_finite_ub_from_activities col v s).
Proof.
  intros. unfold remove_finite_ub_from_activities.
  apply foldS_rel; [apply acts_only_refl | apply acts_only_trans |].
  intros t [i a] _. cbv zeta. destruct (Qgtb a 0); [apply acts_only_set|].
  destruct (Qltb a 0); [apply acts_only_set|apply acts_only_refl].
Qed.
Lemma rem_lb_w : forall col v s, w_acts (remove_finite_lb_from_activities col v s) = w_acts s.
Proof.
  intros. unfold remove_finite_lb_from_activities.
  apply foldS_inv with (P := fun t => w_acts t = w_acts s); auto.
  intros t [i a] _ E. cbv zeta. destruct (Qgtb a 0); [exact E|]. destruct (Qltb a 0); exact E.
Qed.
Lemma rem_ub_w : forall col v s, w_acts (remove_finite_ub_from_activities col v s) = w_acts s.
Proof.
  intros. unfold remove_finite_ub_from_activities.
  apply foldS_inv with (P := fun t => w_acts t = w_acts s); auto.
  intros t [i a] _ E. cbv zeta. destruct (Qgtb a 0); [exact E|]. destruct (Qltb a 0); exact E.
Qed.
Lemma relax_col_same : forall s k, same_struct s (relax_col s k).
Proof.
  intros s k. unfold relax_col. cbv zeta. destruct (t_cinact (ct s k)); [apply same_refl|].
  destruct (_ && _); [apply same_refl|].
  assert (G : forall s1 l u, same_struct s s1 -> ct s1 = ct s ->
     same_struct s (set_ct1 k (CT l u (t_fixed (ct s k)) (t_sub (ct s k))) s1)).
  { intros s1 l u E C. eapply same_trans; [exact E|]. constructor; sr; auto; intros j; updg; auto;
    rewrite C; reflexivity. }
  destruct (t_ub_inf (ct s k)).
  - destruct (is_lb_implied_free s k); [|apply same_refl].
    pose proof (rem_lb_acts (col_view s k) (fin (lb s k)) s) as [x [y E]].
    apply G; [|rewrite E; reflexivity].
    apply same_acts; [apply rem_lb_acts|]. intros i. rewrite rem_lb_w. auto.
  - destruct (is_ub_implied_free s k); [|apply same_refl].
    pose proof (rem_ub_acts (col_view s k) (fin (ub s k)) s) as [x [y E]].
    apply G; [|rewrite E; reflexivity].
    apply same_acts; [apply rem_ub_acts|]. intros i. rewrite rem_ub_w. auto.
Qed.
Lemma relax_same : forall s, same_struct s (remove_redundant_bounds s).
Proof. intros. apply same_foldS. intros. apply relax_col_same. Qed.
