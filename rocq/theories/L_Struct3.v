(** Single steps of the explorers preserve the structural invariant. *)
From Coq Require Import NArith Sorted.
From Verif Require Import M_Num S_LP M_Driver M_State M_Act M_Core M_Simple M_StonCols M_Dton
  L_State L_Struct L_Struct2.

Lemma pend_or_dead : forall s i, W0 s -> WL s -> (i < nr s)%nat -> t_inact (rt s i) = true ->
  w_rows s = [] -> rsz s i = (-1)%Z.
Proof.
  intros s i H L Hi T E. destruct (Z.eq_dec (rsz s i) (-1)); auto. exfalso.
  assert (In i (w_rows s)) by (apply (l_rows s L); auto). rewrite E in *. contradiction.
Qed.

(** ** Marking a row *)
Lemma set_row_inactive_Inv : forall s i v, Inv s -> (i < nr s)%nat -> t_inact (rt s i) = false ->
  ~ In i (w_empty_rows s) -> Inv (set_row_to_inactive i v s).
Proof.
  intros s i v [H TR TC L] Hi Ti Ne. unfold set_row_to_inactive.
  pose proof (act_alive s i H Hi Ti) as RA.
  assert (TT : forall j, t_inact (upd (rt s) i (tag_inactive (rt s i)) j) = false ->
                 j <> i /\ t_inact (rt s j) = false).
  { intros j. updg; [discriminate|auto]. }
  constructor.
  - destruct H as [A1 A2 A3 A4 A5 A6 A7 A8 A9 A10 A11]. constructor; sr; auto.
    + intros j Hj R. updg; auto.
    + intros j Hj T. apply TT in T. apply A8; tauto.
  - intros j k a. sr. intros Hj T Hin. apply TT in T. eapply TR; eauto. tauto.
  - exact TC.
  - destruct L as [B1 B2 B3 B4 B5 B6 B7 B8 B9 B10 B11 B12 B13 B14]. constructor; sr; auto.
    + apply NoDup_app_one; auto. rewrite B2. intros [_ [T _]]. congruence.
    + intros j. rewrite In_app_one, B2. updg.
      * split; [intros _; auto|auto].
      * split; [intros [C|C]; [exact C|congruence]|tauto].
    + intros j Hj. destruct (B6 j Hj) as [C D]. split; auto. intros T. apply TT in T. apply D; tauto.
    + intros j Hj T. apply TT in T. apply B7; tauto.
    + intros j Hj. destruct (B8 j Hj) as [C [D E]]. split; auto. split; auto.
      rewrite upd_other by (intros ->; auto). assumption.
Qed.

(** ** Marking a column *)
Lemma mark_col_Inv : forall s k t wf ws, Inv s -> (k < nc s)%nat ->
  (t_fixed (ct s k) = true -> t_fixed t = true) -> (t_sub (ct s k) = true -> t_sub t = true) ->
  t_cinact t = true ->
  (wf = w_fixed s ++ [k] /\ ws = w_sub s /\ t_fixed t = true \/
   wf = w_fixed s /\ ws = w_sub s ++ [k] /\ t_sub t = true) ->
  Inv (set_w_sub ws (set_w_fixed wf (set_ct1 k t s))).
Proof.
  intros s k t wf ws [H TR TC L] Hk M1 M2 M3 LS.
  assert (TT : forall j, t_cinact (upd (ct s) k t j) = false -> j <> k /\ t_cinact (ct s j) = false).
  { intros j. updg; [congruence|auto]. }
  assert (F : forall j, t_fixed (ct s j) = true -> t_fixed (upd (ct s) k t j) = true).
  { intros j. updg; auto. }
  assert (S : forall j, t_sub (ct s j) = true -> t_sub (upd (ct s) k t j) = true).
  { intros j. updg; auto. }
  constructor.
  - destruct H as [A1 A2 A3 A4 A5 A6 A7 A8 A9 A10 A11]. constructor; sr; auto.
    + intros j Hj R. destruct (A2 j Hj R) as [C D]. split; auto.
      unfold t_cinact in *. apply orb_true_iff in C. apply orb_true_iff. destruct C; auto.
    + intros j Hj T. apply TT in T. apply A10; tauto.
  - exact TR.
  - intros i j a. sr. intros Hj T Hin. apply TT in T. eapply TC; eauto. tauto.
  - destruct L as [B1 B2 B3 B4 B5 B6 B7 B8 B9 B10 B11 B12 B13 B14]. constructor; sr; auto.
    + intros j Hj. destruct LS as [[-> [_ X]]|[-> [_ X]]].
      * apply In_app_one in Hj. destruct Hj as [Hj| ->].
        -- destruct (B3 j Hj). split; auto.
        -- rewrite upd_same. auto.
      * destruct (B3 j Hj). split; auto.
    + intros j Hj. destruct LS as [[_ [-> X]]|[_ [-> X]]].
      * destruct (B4 j Hj). split; auto.
      * apply In_app_one in Hj. destruct Hj as [Hj| ->].
        -- destruct (B4 j Hj). split; auto.
        -- rewrite upd_same. auto.
    + intros j Hj T Cj. destruct (Nat.eq_dec j k) as [->|N].
      * destruct LS as [[-> _]|[_ [-> _]]]; [left|right]; apply In_app_one; auto.
      * rewrite upd_other in T by auto. destruct (B5 j Hj T Cj) as [C|C];
        destruct LS as [[-> [-> _]]|[-> [-> _]]]; rewrite ?In_app_one; auto.
    + intros i Hi. destruct (B6 i Hi) as [C D]. split; auto. intros T.
      destruct (D T) as [E|[E E']]; auto.
    + intros j Hj T. apply TT in T. apply B9; tauto.
Qed.

Lemma set_col_to_fixed_Inv : forall s k, Inv s -> (k < nc s)%nat -> Inv (set_col_to_fixed k s).
Proof.
  intros s k H Hk.
  assert (X : Inv (set_w_sub (w_sub s) (set_w_fixed (w_fixed s ++ [k])
                     (set_ct1 k (tag_fixed (ct s k)) s)))).
  { apply mark_col_Inv; auto. }
  exact X.
Qed.
Lemma set_col_to_sub_Inv : forall s k, Inv s -> (k < nc s)%nat -> Inv (set_col_to_substituted k s).
Proof.
  intros s k H Hk.
  assert (X : Inv (set_w_sub (w_sub s ++ [k]) (set_w_fixed (w_fixed s)
                     (set_ct1 k (tag_sub (ct s k)) s)))).
  { apply mark_col_Inv; auto. unfold t_cinact, tag_sub. simpl. apply orb_true_r. }
  exact X.
Qed.

(** ** Frames of the bound changes *)
Definition col_in (s : state) (col : nat) : Prop :=
  forall i a, In (i, a) (mAT s col) -> (i < nr s)%nat.
Lemma Inv_col_in : forall s col, Inv s -> (col < nc s)%nat -> col_in s col.
Proof. intros s col H Hc i a Hin. apply (w_cin s (inv_0 s H) i col a); auto. Qed.
Lemma col_in_same : forall s s' col, same_struct s s' -> col_in s col -> col_in s' col.
Proof. intros s s' col E H i a. rewrite (ss_AT _ _ E), (ss_nr _ _ E). apply H. Qed.

Lemma fix_col_same : forall s col val ck, col_in s col ->
  fst (fix_col col val ck s) = s /\ snd (fix_col col val ck s) = INFEASIBLE \/
  same_struct (set_col_to_fixed col s) (fst (fix_col col val ck s)) /\
  snd (fix_col col val ck s) = REDUCED.
Proof.
  intros s col val ck CI. unfold fix_col. destruct (_ || _); [left; auto|right]. cbv zeta. split; [|reflexivity].
  cbn [fst]. eapply same_trans; [|apply same_acts; [apply acts_only_fixed_col|]].
  - same_ref.
  - intros i Hi. destruct (acts_in_fixed_col _ _ _ _ _ _ _ _ _ _ Hi) as [X|[a X]]; auto.
    right. apply (CI i a X).
Qed.
Lemma fix_col_Inv : forall s col val ck, Inv s -> (col < nc s)%nat ->
  Inv (fst (fix_col col val ck s)).
Proof.
  intros s col val ck H Hc. destruct (fix_col_same s col val ck (Inv_col_in s col H Hc)) as [[E _]|[E _]].
  - rewrite E. assumption.
  - eapply same_Inv; [exact E|]. apply set_col_to_fixed_Inv; auto.
Qed.

Lemma bound_change_same : forall col s old new f l, col_in s col ->
  same_struct s (update_activities_bound_change (mAT s col) old new f l s).
Proof.
  intros col s old new f l CI. apply same_acts; [apply acts_only_bound_change|].
  intros i Hi. destruct (acts_in_bound_change _ _ _ _ _ _ _ Hi) as [X|[a X]]; auto.
  right. apply (CI i a X).
Qed.
Lemma update_lb_same : forall col v i s, col_in s col -> same_struct s (fst (update_lb col v i s)).
Proof.
  intros col v i s CI. unfold update_lb. destruct (_ && _); [apply same_refl|].
  destruct (_ || _); [|apply same_refl]. cbv zeta. cbn [fst].
  eapply same_trans; [|apply same_record]. eapply same_trans; [|apply same_record].
  assert (X : same_struct s (set_lb1 col (Fin v) s)) by same_ref.
  eapply same_trans.
  { eapply same_trans; [exact X|]. change (mAT s col) with (mAT (set_lb1 col (Fin v) s) col).
    apply bound_change_same. eapply col_in_same; eauto. }
  constructor; intros; sr; try reflexivity; try (updg; reflexivity). auto.
Qed.
Lemma update_ub_same : forall col v i s, col_in s col -> same_struct s (fst (update_ub col v i s)).
Proof.
  intros col v i s CI. unfold update_ub. destruct (_ && _); [apply same_refl|].
  destruct (_ || _); [|apply same_refl]. cbv zeta. cbn [fst].
  eapply same_trans; [|apply same_record]. eapply same_trans; [|apply same_record].
  assert (X : same_struct s (set_ub1 col (Fin v) s)) by same_ref.
  eapply same_trans.
  { eapply same_trans; [exact X|]. change (mAT s col) with (mAT (set_ub1 col (Fin v) s) col).
    apply bound_change_same. eapply col_in_same; eauto. }
  constructor; intros; sr; try reflexivity; try (updg; reflexivity). auto.
Qed.

Lemma same_foldS : forall X (f : state -> X -> state) l s,
  (forall s x, In x l -> same_struct s (f s x)) -> same_struct s (foldS f l s).
Proof. intros. apply foldS_rel; auto using same_refl. exact same_trans. Qed.

Lemma shift_sides_same : forall v s e, same_struct s (shift_sides v s e).
Proof.
  intros. unfold shift_sides. destruct (t_inact _); [apply same_refl|]. cbv zeta.
  destruct (t_lhs_inf (rt s (fst e))); sr; destruct (t_rhs_inf _); same_ref.
Qed.
Lemma delete_fixed_col_same : forall s k, same_struct s (delete_fixed_col_from_problem s k).
Proof.
  intros. unfold delete_fixed_col_from_problem. destruct (Qeqb _ _); [apply same_refl|].
  eapply same_trans; [apply same_foldS; intros; apply shift_sides_same|].
  same_ref.
Qed.
Lemma delete_fixed_cols_same : forall s, same_struct s (delete_fixed_cols_from_problem s).
Proof. intros. apply same_foldS. intros. apply delete_fixed_col_same. Qed.

(** ** A killed singleton equality row: the row goes at once, the column is listed *)
Definition kill_ston (i k : nat) (s : state) : state :=
  set_nnz (nnz s - 1)%Z (setA i [] (set_rt1 i R_INACTIVE (set_rsz1 i (-1)%Z s))).
Lemma kill_ston_Inv : forall s i k a, Inv s -> (i < nr s)%nat -> mA s i = [(k, a)] ->
  t_inact (rt s i) = false -> t_cinact (ct s k) = true ->
  Inv (kill_ston i k s).
Proof.
  intros s i k a [H TR TC L] Hi EA Ti Tk. unfold kill_ston.
  pose proof (act_alive s i H Hi Ti) as RA.
  assert (Hk : (k < nc s)%nat). { apply (w_rin s H i k a Hi). rewrite EA. left; reflexivity. }
  assert (NIN : ~ In i (w_rows s)). { rewrite (l_rows s L). intros [_ [T _]]; congruence. }
  assert (TT : forall j, t_inact (upd (rt s) i R_INACTIVE j) = false ->
                 j <> i /\ t_inact (rt s j) = false).
  { intros j. updg; [discriminate|auto]. }
  assert (OC : forall j b, (j < nc s)%nat -> j <> k -> csz s j <> (-1)%Z -> In (i, b) (mAT s j) -> False).
  { intros j b Hj Nj Cj Hin. apply (w_agree s H i j b Hi Hj RA Cj) in Hin. rewrite EA in Hin.
    destruct Hin as [E|[]]. congruence. }
  assert (DR : forall j, (j < nc s)%nat -> j <> k -> csz s j <> (-1)%Z ->
             dropr (upd (rsz s) i (-1)%Z) (mAT s j) = dropr (rsz s) (mAT s j)).
  { intros j Hj Nj Cj. rewrite dropr_kill. apply del_entry_absent. intros [b Hb].
    apply dropr_In in Hb. eapply OC; eauto. apply Hb. }
  constructor.
  - destruct H as [A1 A2 A3 A4 A5 A6 A7 A8 A9 A10 A11]. constructor; sr; auto.
    + intros j Hj R. updg; auto. rewrite upd_other in R by auto. auto.
    + intros j Hj. updg; auto. apply srt_nil.
    + intros j c b Hj Hin. updh Hin; [contradiction|]. eapply A5; eauto.
    + intros j c b Hj Hc Rj Cc. updh Rj. rewrite upd_other by auto. auto.
    + intros j Hj T. apply TT in T. destruct T as [N T]. rewrite !upd_other by auto. auto.
    + intros j Hj Rj. updh Rj. rewrite !upd_other by auto. auto.
    + intros j Hj T. rewrite DR; auto; [intros ->; congruence|].
      intros C. destruct (A2 j Hj C). congruence.
    + intros j Hj Cj. destruct (Nat.eq_dec j k) as [->|N]; [|rewrite DR; auto].
      rewrite dropr_kill. etransitivity; [|apply A11; auto]. unfold Z_len, del_entry.
      pose proof (filter_len _ (fun e : nat * Q => negb (fst e =? i)%nat) (dropr (rsz s) (mAT s k))). lia.
  - intros j c b. sr. intros Hj T Hin. apply TT in T. rewrite upd_other in Hin by tauto.
    eapply TR; eauto. tauto.
  - intros j c b. sr. intros Hc T Hin. updg; [|eapply TC; eauto].
    exfalso. eapply (OC c b); eauto; [intros ->; congruence|]. apply cact_alive; auto.
  - destruct L as [B1 B2 B3 B4 B5 B6 B7 B8 B9 B10 B11 B12 B13 B14]. constructor; sr; auto.
    + intros j. rewrite B2. updg; [|reflexivity]. split; [intros [_ [T _]]; congruence|].
      intros [_ [_ C]]. congruence.
    + intros j Hj. destruct (B6 j Hj) as [C D]. split; auto. intros T. apply TT in T.
      rewrite upd_other by tauto. apply D; tauto.
    + intros j Hj T R. apply TT in T. rewrite upd_other in R by tauto. apply B7; tauto.
    + intros j Hj. destruct (B8 j Hj) as [C [D E]]. split; auto. split; updg; auto.
    + intros j Hj. destruct (B13 j Hj) as [C D]. split; auto. updg; lia.
Qed.

(** ** Removing an empty row at once *)
Lemma remove_empty_row_Inv : forall s i, Inv s -> In i (w_empty_rows s) ->
  Inv (fst (remove_empty_row i s)).
Proof.
  intros s i [H TR TC L] Hin0. unfold remove_empty_row.
  destruct (_ || _); cbn [fst]; [constructor; assumption|].
  destruct (l_empty_rows s L i Hin0) as [Hi [EA PD]].
  assert (NIN : ~ In i (w_rows s)). { rewrite (l_rows s L). intros [_ [T C]]; auto. }
  assert (TT : forall j, t_inact (upd (rt s) i (tag_inactive (rt s i)) j) = false ->
                 j <> i /\ t_inact (rt s j) = false).
  { intros j. updg; [discriminate|auto]. }
  assert (OC : forall j b, (j < nc s)%nat -> csz s j <> (-1)%Z -> rsz s i <> (-1)%Z ->
                In (i, b) (mAT s j) -> False).
  { intros j b Hj Cj RA Hin. apply (w_agree s H i j b Hi Hj RA Cj) in Hin. rewrite EA in Hin. auto. }
  assert (DR : forall j, (j < nc s)%nat -> csz s j <> (-1)%Z ->
             dropr (upd (rsz s) i (-1)%Z) (mAT s j) = dropr (rsz s) (mAT s j)).
  { intros j Hj Cj. rewrite dropr_kill. apply del_entry_absent. intros [b Hb].
    apply dropr_In in Hb. eapply OC; eauto; apply Hb. }
  constructor.
  - destruct H as [A1 A2 A3 A4 A5 A6 A7 A8 A9 A10 A11]. constructor; sr; auto.
    + intros j Hj R. updg; auto. rewrite upd_other in R by auto. auto.
    + intros j c b Hj Hc Rj Cc. updh Rj. auto.
    + intros j Hj T. apply TT in T. destruct T as [N T]. rewrite !upd_other by auto. auto.
    + intros j Hj Rj. updh Rj. rewrite !upd_other by auto. auto.
    + intros j Hj T. rewrite DR; auto.
      intros C. destruct (A2 j Hj C). congruence.
    + intros j Hj Cj. rewrite DR; auto.
  - intros j c b. sr. intros Hj T Hin. apply TT in T. eapply TR; eauto. tauto.
  - intros j c b. sr. intros Hc T Hin. updg; [|eapply TC; eauto].
    exfalso. eapply (OC c b); eauto. apply cact_alive; auto.
  - destruct L as [B1 B2 B3 B4 B5 B6 B7 B8 B9 B10 B11 B12 B13 B14]. constructor; sr; auto.
    + intros j. rewrite B2. updg; [|reflexivity]. split; [intros C; exfalso; apply NIN, B2, C|].
      intros [_ [_ C]]. congruence.
    + intros j Hj. destruct (B6 j Hj) as [C D]. split; auto. intros T. apply TT in T. apply D; tauto.
    + intros j Hj T R. apply TT in T. rewrite upd_other in R by tauto. apply B7; tauto.
    + intros j Hj. destruct (B8 j Hj) as [C [D E]]. split; auto. split; [auto|]. updg; auto.
    + intros j Hj. destruct (B13 j Hj) as [C D]. split; auto. updg; lia.
Qed.

(** ** Columns that go at once *)

(** Column k is given an inactive tag and size -1, and AT's row k is emptied; every row that
    holds an entry of it is inactive. *)
Lemma drop_col_Inv : forall s k t c, Inv s -> (k < nc s)%nat ->
  (t_fixed (ct s k) = true -> t_fixed t = true) -> (t_sub (ct s k) = true -> t_sub t = true) ->
  t_cinact t = true -> c = [] ->
  (forall i a, (i < nr s)%nat -> In (k, a) (mA s i) -> csz s k <> (-1)%Z -> t_inact (rt s i) = true) ->
  Inv (setAT k c (set_csz1 k (-1)%Z (set_ct1 k t s))).
Proof.
  intros s k t c [H TR TC L] Hk M1 M2 M3 Ec NR. subst c.
  assert (TT : forall j, t_cinact (upd (ct s) k t j) = false -> j <> k /\ t_cinact (ct s j) = false).
  { intros j. updg; [congruence|auto]. }
  assert (F : forall j, t_fixed (ct s j) = true -> t_fixed (upd (ct s) k t j) = true).
  { intros j. updg; auto. }
  assert (S : forall j, t_sub (ct s j) = true -> t_sub (upd (ct s) k t j) = true).
  { intros j. updg; auto. }
  constructor.
  - destruct H as [A1 A2 A3 A4 A5 A6 A7 A8 A9 A10 A11]. constructor; sr; auto.
    + intros j Hj R. updg; auto. rewrite upd_other in R by auto. auto.
    + intros j Hj. updg; auto. apply srt_nil.
    + intros i j b Hj Hin. updh Hin; [contradiction|]. eapply A6; eauto.
    + intros i j b Hi Hj Ri Cj. updh Cj. rewrite upd_other by auto. auto.
    + intros i Hi T. rewrite dropr_kill, del_entry_absent; auto. intros [b Hb].
      apply dropr_In in Hb. destruct Hb as [Hb Cb]. rewrite (NR i b Hi Hb Cb) in T. discriminate.
    + intros i Hi Ri. rewrite dropr_kill. etransitivity; [|apply A9; auto]. unfold Z_len, del_entry.
      pose proof (filter_len _ (fun e : nat * Q => negb (fst e =? k)%nat) (dropr (csz s) (mA s i))). lia.
    + intros j Hj T. apply TT in T. destruct T as [N T]. rewrite !upd_other by auto. auto.
    + intros j Hj Cj. updh Cj. rewrite !upd_other by auto. auto.
  - intros i j b. sr. intros Hi T Hin. updg; [|eapply TR; eauto]. intros _.
    rewrite (NR i b Hi Hin) in T; [discriminate|]. eapply TR; eauto.
  - intros i j b. sr. intros Hj T Hin. apply TT in T. rewrite upd_other in Hin by tauto.
    eapply TC; eauto. tauto.
  - destruct L as [B1 B2 B3 B4 B5 B6 B7 B8 B9 B10 B11 B12 B13 B14]. constructor; sr; auto.
    + intros j Hj. destruct (B3 j Hj). auto.
    + intros j Hj. destruct (B4 j Hj). auto.
    + intros j Hj T Cj. updh Cj. rewrite upd_other in T by auto. auto.
    + intros i Hi. destruct (B6 i Hi) as [C D]. split; auto. intros T.
      destruct (D T) as [E|[E E']]; auto.
    + intros j Hj T Cj. apply TT in T. rewrite upd_other in Cj by tauto. apply B9; tauto.
    + intros j Hj. destruct (B10 j Hj) as [C D]. split; auto. updg; auto.
    + intros j Hj. destruct (B12 j Hj) as [C D]. split; auto. updg; lia.
Qed.

(** the same with AT's row k left alone, when it is empty already *)
Lemma drop_empty_col_Inv : forall s k t, Inv s -> (k < nc s)%nat -> mAT s k = [] ->
  (t_fixed (ct s k) = true -> t_fixed t = true) -> (t_sub (ct s k) = true -> t_sub t = true) ->
  t_cinact t = true ->
  Inv (set_csz1 k (-1)%Z (set_ct1 k t s)).
Proof.
  intros s k t [H TR TC L] Hk EK M1 M2 M3.
  assert (NR : forall i a, (i < nr s)%nat -> In (k, a) (mA s i) -> csz s k <> (-1)%Z ->
                 rsz s i = (-1)%Z).
  { intros i a Hi Hin Ck. destruct (Z.eq_dec (rsz s i) (-1)); auto. exfalso.
    apply (w_agree s H i k a Hi Hk n Ck) in Hin. rewrite EK in Hin. contradiction. }
  assert (X : Inv (setAT k [] (set_csz1 k (-1)%Z (set_ct1 k t s)))).
  { apply drop_col_Inv; auto. constructor; auto.
    intros i a Hi Hin Ck. apply (w_rdead s H i Hi). eapply NR; eauto. }
  assert (PE : forall j, upd (mAT s) k [] j = mAT s j) by (intros j; updg; auto).
  destruct X as [[A1 A2 A3 A4 A5 A6 A7 A8 A9 A10 A11] X2 X3 [B1 B2 B3 B4 B5 B6 B7 B8 B9 B10 B11 B12 B13 B14]].
  unfold tightR, tightC in *. sra. constructor.
  - constructor; sr; auto; intros *; rewrite <- ?PE; auto. intros; eapply A6; eauto.
  - intros i j b. sr. eauto.
  - intros i j b. sr. intros Hj T Hin. eapply (X3 i j b); auto. rewrite PE. assumption.
  - constructor; sr; auto; intros *; rewrite <- ?PE; auto.
Qed.
