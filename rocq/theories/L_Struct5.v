(** The simple explorers preserve the structural invariant. *)
From Coq Require Import NArith Sorted.
From Verif Require Import M_Num S_LP M_Driver M_State M_Act M_Core M_Simple M_StonCols M_Dton
  L_State L_Struct L_Struct2 L_Struct3 L_Struct4.

(** A step: the invariant holds after it, nothing is undone, exact counts stay exact. *)
Record stp (s s' : state) : Prop := mkStp {
  st_inv : Inv s';  st_mono : mono s s';  st_nx : Nx s -> Nx s' }.
Lemma stp_refl : forall s, Inv s -> stp s s.
Proof. intros; constructor; auto using mono_refl. Qed.
Lemma stp_trans : forall a b c, stp a b -> stp b c -> stp a c.
Proof. intros a b c [] []. constructor; eauto using mono_trans. Qed.
Lemma stp_same : forall s s', Inv s -> same_struct s s' -> stp s s'.
Proof. intros. constructor; eauto using same_Inv, mono_same, Nx_same. Qed.
Lemma stp_nr : forall s s', stp s s' -> nr s' = nr s. Proof. intros s s' [_ [] _]; auto. Qed.
Lemma stp_nc : forall s s', stp s s' -> nc s' = nc s. Proof. intros s s' [_ [] _]; auto. Qed.

(** ** for_until *)
Lemma for_until_inv : forall b f (P : state -> Prop) l s,
  (forall s i, In i l -> P s -> P (fst (f i s))) -> P s -> P (fst (for_until b f l s)).
Proof.
  induction l as [|i l IH]; simpl; intros s H Hs; auto.
  pose proof (H s i (or_introl eq_refl) Hs) as H1. destruct (f i s) as [s1 st]. simpl in H1.
  destruct (N.eqb st b); simpl; auto.
Qed.
Lemma for_until_st : forall b f l s, snd (for_until b f l s) = UNCHANGED \/ snd (for_until b f l s) = b.
Proof.
  induction l as [|i l IH]; simpl; intros s; auto.
  destruct (f i s) as [s1 st]. destruct (N.eqb st b); simpl; auto.
Qed.
Lemma for_until_all : forall b f (P : state -> Prop) (Q : nat -> state -> Prop) l s,
  (forall s i, In i l -> P s -> P (fst (f i s))) ->
  (forall s i, In i l -> P s -> snd (f i s) <> b -> Q i (fst (f i s))) ->
  (forall s i j, In i l -> P s -> Q j s -> Q j (fst (f i s))) ->
  P s -> snd (for_until b f l s) <> b -> forall i, In i l -> Q i (fst (for_until b f l s)).
Proof.
  intros b f P Q. induction l as [|i l IH]; simpl; intros s HP HQ HS Hs Nb j Hj; [contradiction|].
  pose proof (HP s i (or_introl eq_refl) Hs) as H1.
  pose proof (HQ s i (or_introl eq_refl) Hs) as H2.
  destruct (f i s) as [s1 st] eqn:E. simpl in H1, H2.
  destruct (N.eqb_spec st b); [simpl in Nb; congruence|].
  destruct Hj as [->|Hj].
  - specialize (H2 n). clear - H1 H2 HP HS.
    revert s1 H1 H2. induction l as [|i l IH]; simpl; intros s1 H1 H2; auto.
    pose proof (HP s1 i (or_intror (or_introl eq_refl)) H1) as A.
    pose proof (HS s1 i j (or_intror (or_introl eq_refl)) H1 H2) as B.
    destruct (f i s1) as [s2 st2]. simpl in A, B. destruct (N.eqb st2 b); simpl; auto.
    apply IH; auto.
    + intros s0 k m X Ps Qs. apply HS; auto. simpl in *; tauto.
    + intros s0 k X Ps. apply HP; auto. simpl in *; tauto.
  - apply IH; auto.
Qed.

(** ** Steps *)
Lemma stp_row_inactive : forall s i v, Inv s -> (i < nr s)%nat -> t_inact (rt s i) = false ->
  ~ In i (w_empty_rows s) -> stp s (set_row_to_inactive i v s).
Proof.
  intros s i v H Hi T N. constructor; [apply set_row_inactive_Inv; auto| |].
  - unfold set_row_to_inactive. constructor; sr; auto; intros; try lia. updg; auto.
  - intros [A B C]. unfold set_row_to_inactive. constructor; sr; auto.
Qed.
Lemma stp_fixed : forall s k, Inv s -> (k < nc s)%nat -> stp s (set_col_to_fixed k s).
Proof.
  intros s k H Hk. constructor; [apply set_col_to_fixed_Inv; auto| |].
  - unfold set_col_to_fixed. constructor; sr; auto; intros; try lia; updg; auto.
  - intros [A B C]. unfold set_col_to_fixed. constructor; sr; auto.
Qed.
Lemma stp_sub : forall s k, Inv s -> (k < nc s)%nat -> stp s (set_col_to_substituted k s).
Proof.
  intros s k H Hk. constructor; [apply set_col_to_sub_Inv; auto| |].
  - unfold set_col_to_substituted. constructor; sr; auto; intros; try lia; updg; auto.
  - intros [A B C]. unfold set_col_to_substituted. constructor; sr; auto.
Qed.
Lemma stp_fix_col : forall s k v c, Inv s -> (k < nc s)%nat -> stp s (fst (fix_col k v c s)).
Proof.
  intros s k v c H Hk. destruct (fix_col_same s k v c (Inv_col_in s k H Hk)) as [[E _]|[E _]].
  - rewrite E. apply stp_refl; auto.
  - eapply stp_trans; [apply stp_fixed; eauto|]. apply stp_same; auto. apply set_col_to_fixed_Inv; auto.
Qed.
Lemma fix_col_frame : forall s k v c,
  let s' := fst (fix_col k v c s) in
  w_rows s' = w_rows s /\ w_sub s' = w_sub s /\ w_ston_rows s' = w_ston_rows s /\
  mA s' = mA s /\ rsz s' = rsz s /\ rt s' = rt s /\
  (snd (fix_col k v c s) = INFEASIBLE /\ s' = s \/
   snd (fix_col k v c s) = REDUCED /\ t_fixed (ct s' k) = true /\ w_fixed s' = w_fixed s ++ [k]).
Proof.
  intros s k v c s'. subst s'. unfold fix_col. destruct (_ || _); cbn [fst snd].
  - repeat (split; [reflexivity|]). auto.
  - cbv zeta. match goal with |- context [update_activities_fixed_col ?a ?b ?c ?d ?e ?f ?g ?h ?x] =>
      destruct (acts_only_fixed_col a b c d e f g h x) as [y [w E]]; rewrite E; clear E end.
    unfold set_col_to_fixed. sr. repeat (split; [reflexivity|]). right. rewrite upd_same.
    repeat split; auto.
Qed.

Lemma stp_kill : forall s i k a, Inv s -> (i < nr s)%nat -> mA s i = [(k, a)] ->
  t_inact (rt s i) = false -> t_cinact (ct s k) = true -> stp s (kill_ston i k s).
Proof.
  intros s i k a H Hi EA T Tk. constructor; [eapply kill_ston_Inv; eauto| |].
  - unfold kill_ston. constructor; sr; auto; intros; try lia; updg; auto. simpl. lia.
  - intros [A B C]. unfold kill_ston. constructor; sr.
    + rewrite A.
      rewrite (zsum_ext (fun i0 => Z_len (upd (mA s) i [] i0))
                        (upd (fun i0 => Z_len (mA s i0)) i 0%Z)).
      * rewrite zsum_upd; [|apply seq_NoDup|apply in_seq; lia]. rewrite EA. unfold Z_len. simpl. lia.
      * intros j _. unfold upd. destruct (Nat.eqb j i); reflexivity.
    + intros j Hj R. updh R. rewrite !upd_other by auto. auto.
    + intros j Hj R. updg; auto. rewrite upd_other in R by auto. auto.
Qed.

Lemma stp_empty_row : forall s i, Inv s -> In i (w_empty_rows s) ->
  stp s (fst (remove_empty_row i s)).
Proof.
  intros s i H Hin. pose proof (remove_empty_row_Inv s i H Hin) as X.
  destruct (l_empty_rows s (inv_L s H) i Hin) as [Hi [EA PD]].
  unfold remove_empty_row in *. destruct (_ || _); cbn [fst] in *; [apply stp_refl; auto|].
  constructor; auto.
  - constructor; sr; auto; intros; try lia; updg; auto.
  - intros [A B C]. constructor; sr; auto.
    + intros j Hj R. updh R. rewrite !upd_other by auto. auto.
    + intros j Hj R. updh R; auto.
Qed.

Lemma stp_empty_col : forall s k, Inv s -> In k (w_empty_cols s) ->
  stp s (fst (remove_empty_col k s)).
Proof.
  intros s k H Hin. destruct (l_empty_cols s (inv_L s H) k Hin) as [Hk EK].
  assert (X : forall v s0, same_struct s s0 -> stp s (close_empty_col k v s0)).
  { intros v s0 E. eapply stp_trans; [apply stp_same; eauto|].
    assert (H0 : Inv s0) by (eapply same_Inv; eauto).
    assert (Y : stp s0 (set_csz1 k (-1)%Z (set_ct1 k (tag_fixed (ct s0 k)) s0))).
    { constructor.
      - apply drop_empty_col_Inv; auto.
        + rewrite (ss_nc _ _ E). auto.
        + rewrite (ss_AT _ _ E). auto.
      - constructor; sr; auto; intros; try lia; updg; auto.
      - intros [A B C]. constructor; sr; auto. }
    eapply stp_trans; [exact Y|]. apply stp_same; [apply Y|].
    unfold close_empty_col. same_ref. }
  unfold remove_empty_col. destruct (Qeqb _ _); cbn [fst]; [apply X, same_refl|].
  destruct (Qltb _ _).
  - destruct (t_ub_inf _); cbn [fst]; [apply stp_refl; auto|]. apply X. same_ref.
  - destruct (t_lb_inf _); cbn [fst]; [apply stp_refl; auto|]. apply X. same_ref.
Qed.

(** ** remove_variables_with_close_bounds *)
Lemma stp_dfc : forall s, Inv s -> stp s (delete_fixed_cols_from_problem s).
Proof. intros. apply stp_same; auto. apply delete_fixed_cols_same. Qed.

Lemma finish_cols : forall s, Inv s -> w_sub s = [] \/ w_ston_rows s = [] ->
  let s' := delete_inactive_cols_from_A_and_AT (delete_fixed_cols_from_problem s) in
  Inv s' /\ mono s s' /\ (w_rows s = [] -> Nx s -> Nx s') /\ w_rows s' = w_rows s /\
  w_fixed s' = [] /\ w_sub s' = [] /\
  after_dic (delete_fixed_cols_from_problem s) s'.
Proof.
  intros s H P s'. set (s1 := delete_fixed_cols_from_problem s) in *.
  pose proof (delete_fixed_cols_same s) as SS. fold s1 in SS.
  pose proof (stp_dfc s H) as [H1 M1 N1]. fold s1 in H1, M1, N1.
  destruct (delete_inactive_cols_Inv s1 H1) as [H2 AD].
  { rewrite (ss_w3 _ _ SS), (ss_w4 _ _ SS). assumption. }
  fold s' in H2, AD. split; [assumption|]. split; [|split; [|split; [|split; [|split]]]].
  - eapply mono_trans; [exact M1|]. eapply after_dic_mono; eauto.
  - intros W N. apply (after_dic_Nx s1 s' H1 H2 AD); auto. rewrite (ss_w1 _ _ SS). assumption.
  - destruct (dic_frame _ _ AD) as (? & ? & ? & ? & ? & ? & ? & ? & ? & E). rewrite E. sr.
    apply (ss_w1 _ _ SS).
  - destruct (dic_frame _ _ AD) as (? & ? & ? & ? & ? & ? & ? & ? & ? & E). rewrite E. reflexivity.
  - destruct (dic_frame _ _ AD) as (? & ? & ? & ? & ? & ? & ? & ? & ? & E). rewrite E. reflexivity.
  - assumption.
Qed.

Lemma close_bounds_spec : forall s, Inv s -> w_sub s = [] ->
  let '(s', st) := remove_variables_with_close_bounds s in
  Inv s' /\ mono s s' /\ w_sub s' = [] /\ w_rows s' = w_rows s /\
  (st = INFEASIBLE \/
   st = UNCHANGED /\ w_fixed s' = [] /\ (w_rows s = [] -> Nx s -> Nx s')).
Proof.
  intros s H WS. unfold remove_variables_with_close_bounds.
  pose proof (for_until_inv INFEASIBLE close_bounds_col
    (fun t => stp s t /\ w_sub t = [] /\ w_rows t = w_rows s) (seq 0 (nc s)) s) as X.
  pose proof (for_until_st INFEASIBLE close_bounds_col (seq 0 (nc s)) s) as Y.
  destruct (for_until INFEASIBLE close_bounds_col (seq 0 (nc s)) s) as [s1 st]. cbn [fst snd] in *.
  destruct X as [S1 [W1 R1]].
  - intros t k Hk [S1 [W1 R1]]. unfold close_bounds_col.
    destruct (_ || _); cbn [fst]; auto. destruct (IS_EQUAL_FEAS_TOL _ _).
    + cbn [fst]. apply in_seq in Hk.
      destruct (fix_col_frame t k (fin (lb t k)) (cst t k)) as [A [B _]].
      split; [|split; congruence]. eapply stp_trans; [exact S1|]. apply stp_fix_col.
      * apply S1.
      * rewrite (stp_nc _ _ S1). lia.
    + destruct (Qgtb _ _); cbn [fst]; auto.
  - auto using stp_refl.
  - destruct (N.eqb_spec st INFEASIBLE).
    + split; [apply S1|]. split; [apply S1|]. auto.
    + destruct (finish_cols s1 (st_inv _ _ S1) (or_introl W1)) as [A [B [C [D [E [F G]]]]]].
      split; auto. split; [eapply mono_trans; eauto; apply S1|]. split; auto. split; [congruence|].
      right. split; auto. split; auto. intros W N. apply C; [congruence|]. apply S1; auto.
Qed.

(** ** remove_empty_cols, remove_empty_rows *)
Lemma remove_empty_col_frame : forall s k, let s' := fst (remove_empty_col k s) in
  w_rows s' = w_rows s /\ w_fixed s' = w_fixed s /\ w_sub s' = w_sub s /\
  w_empty_cols s' = w_empty_cols s /\ w_ston_rows s' = w_ston_rows s /\
  (snd (remove_empty_col k s) = UNCHANGED /\ t_cinact (ct s' k) = true \/
   snd (remove_empty_col k s) = UNBNDORINFEAS).
Proof.
  intros s k s'. subst s'. unfold remove_empty_col, close_empty_col.
  destruct (Qeqb _ _); cbn [fst snd].
  - sr. rewrite upd_same. repeat (split; [reflexivity|]). left; auto.
  - destruct (Qltb _ _); [destruct (t_ub_inf _)|destruct (t_lb_inf _)]; cbn [fst snd]; sr;
      rewrite ?upd_same; repeat (split; [reflexivity|]); auto.
Qed.
Lemma remove_empty_row_frame : forall s i, let s' := fst (remove_empty_row i s) in
  w_rows s' = w_rows s /\ w_fixed s' = w_fixed s /\ w_sub s' = w_sub s /\
  w_empty_rows s' = w_empty_rows s /\ w_ston_rows s' = w_ston_rows s /\
  (snd (remove_empty_row i s) = UNCHANGED /\ t_inact (rt s' i) = true \/
   snd (remove_empty_row i s) = INFEASIBLE).
Proof.
  intros s k s'. subst s'. unfold remove_empty_row. destruct (_ || _); cbn [fst snd]; sr;
    rewrite ?upd_same; repeat (split; [reflexivity|]); auto.
Qed.

Lemma clear_empty_cols : forall s, Inv s ->
  (forall k, In k (w_empty_cols s) -> t_cinact (ct s k) = true) -> Inv (set_w_empty_cols [] s).
Proof.
  intros s [H TR TC L] C. constructor; auto.
  - destruct H; constructor; sr; auto.
  - destruct L as [B1 B2 B3 B4 B5 B6 B7 B8 B9 B10 B11 B12 B13 B14]. constructor; sr; auto.
    + intros k Hk T Z0. pose proof (C k (B9 k Hk T Z0)). congruence.
    + simpl. tauto.
Qed.
Lemma clear_empty_rows : forall s, Inv s ->
  (forall i, In i (w_empty_rows s) -> t_inact (rt s i) = true) -> Inv (set_w_empty_rows [] s).
Proof.
  intros s [H TR TC L] C. constructor; auto.
  - destruct H; constructor; sr; auto.
  - destruct L as [B1 B2 B3 B4 B5 B6 B7 B8 B9 B10 B11 B12 B13 B14]. constructor; sr; auto.
    + intros k Hk T Z0. pose proof (C k (B7 k Hk T Z0)). congruence.
    + simpl. tauto.
Qed.
Lemma clear_ston_rows : forall s, Inv s -> Inv (set_w_ston_rows [] s).
Proof.
  intros s [H TR TC L]. constructor; auto.
  - destruct H; constructor; sr; auto.
  - destruct L as [B1 B2 B3 B4 B5 B6 B7 B8 B9 B10 B11 B12 B13 B14]. constructor; sr; auto. simpl. tauto.
Qed.

Lemma empty_cols_spec : forall s, Inv s ->
  let '(s', st) := remove_empty_cols s in
  stp s s' /\ w_rows s' = w_rows s /\ w_fixed s' = w_fixed s /\ w_sub s' = w_sub s /\
  w_ston_rows s' = w_ston_rows s /\
  (st = UNBNDORINFEAS \/ st = UNCHANGED /\ w_empty_cols s' = []).
Proof.
  intros s H. unfold remove_empty_cols.
  set (P := fun t => stp s t /\ w_rows t = w_rows s /\ w_fixed t = w_fixed s /\ w_sub t = w_sub s /\
                     w_empty_cols t = w_empty_cols s /\ w_ston_rows t = w_ston_rows s).
  assert (HP : forall t k, In k (w_empty_cols s) -> P t -> P (fst (remove_empty_col k t))).
  { intros t k Hk [S1 [R1 [R2 [R3 [R4 R5]]]]].
    destruct (remove_empty_col_frame t k) as [A [B [C [D [E _]]]]].
    unfold P. rewrite A, B, C, D, E. split; [|auto].
    eapply stp_trans; [exact S1|]. apply stp_empty_col; [apply S1|congruence]. }
  assert (PS : P s) by (unfold P; auto 10 using stp_refl).
  pose proof (for_until_inv UNBNDORINFEAS remove_empty_col P _ s HP PS) as X.
  pose proof (for_until_st UNBNDORINFEAS remove_empty_col (w_empty_cols s) s) as Y.
  pose proof (for_until_all UNBNDORINFEAS remove_empty_col P
                (fun k t => t_cinact (ct t k) = true) (w_empty_cols s) s HP) as Z.
  destruct (for_until UNBNDORINFEAS remove_empty_col (w_empty_cols s) s) as [s1 st].
  cbn [fst snd] in *. destruct X as [S1 [R1 [R2 [R3 [R4 R5]]]]].
  destruct (N.eqb_spec st UNBNDORINFEAS).
  - auto 10.
  - assert (AL : forall k, In k (w_empty_cols s1) -> t_cinact (ct s1 k) = true).
    { intros k Hk. rewrite R4 in Hk. apply Z; auto.
      - intros t i Hi Pt Ni. destruct (remove_empty_col_frame t i) as [_ [_ [_ [_ [_ F]]]]].
        destruct F as [[_ F]|F]; [auto|congruence].
      - intros t i j Hi Pt Hj. destruct Pt as [St [_ [_ [_ [R4' _]]]]].
        assert (M : stp t (fst (remove_empty_col i t))).
        { apply stp_empty_col; [apply St|congruence]. }
        eapply mo_ci; [apply M|auto]. }
    split.
    + eapply stp_trans; [exact S1|]. constructor.
      * apply clear_empty_cols; auto. apply S1.
      * constructor; sr; auto; intros; lia.
      * intros [A B C]. constructor; sr; auto.
    + sr. repeat (split; [assumption|]). right. split; auto.
Qed.

Lemma empty_rows_spec : forall s, Inv s ->
  let '(s', st) := remove_empty_rows s in
  stp s s' /\ w_rows s' = w_rows s /\ w_fixed s' = w_fixed s /\ w_sub s' = w_sub s /\
  w_ston_rows s' = w_ston_rows s /\
  (st = INFEASIBLE \/ st = UNCHANGED /\ w_empty_rows s' = []).
Proof.
  intros s H. unfold remove_empty_rows.
  set (P := fun t => stp s t /\ w_rows t = w_rows s /\ w_fixed t = w_fixed s /\ w_sub t = w_sub s /\
                     w_empty_rows t = w_empty_rows s /\ w_ston_rows t = w_ston_rows s).
  assert (HP : forall t k, In k (w_empty_rows s) -> P t -> P (fst (remove_empty_row k t))).
  { intros t k Hk [S1 [R1 [R2 [R3 [R4 R5]]]]].
    destruct (remove_empty_row_frame t k) as [A [B [C [D [E _]]]]].
    unfold P. rewrite A, B, C, D, E. split; [|auto].
    eapply stp_trans; [exact S1|]. apply stp_empty_row; [apply S1|congruence]. }
  assert (PS : P s) by (unfold P; auto 10 using stp_refl).
  pose proof (for_until_inv INFEASIBLE remove_empty_row P _ s HP PS) as X.
  pose proof (for_until_st INFEASIBLE remove_empty_row (w_empty_rows s) s) as Y.
  pose proof (for_until_all INFEASIBLE remove_empty_row P
                (fun k t => t_inact (rt t k) = true) (w_empty_rows s) s HP) as Z.
  destruct (for_until INFEASIBLE remove_empty_row (w_empty_rows s) s) as [s1 st].
  cbn [fst snd] in *. destruct X as [S1 [R1 [R2 [R3 [R4 R5]]]]].
  destruct (N.eqb_spec st INFEASIBLE).
  - auto 10.
  - assert (AL : forall k, In k (w_empty_rows s1) -> t_inact (rt s1 k) = true).
    { intros k Hk. rewrite R4 in Hk. apply Z; auto.
      - intros t i Hi Pt Ni. destruct (remove_empty_row_frame t i) as [_ [_ [_ [_ [_ F]]]]].
        destruct F as [[_ F]|F]; [auto|congruence].
      - intros t i j Hi Pt Hj. destruct Pt as [St [_ [_ [_ [R4' _]]]]].
        assert (M : stp t (fst (remove_empty_row i t))).
        { apply stp_empty_row; [apply St|congruence]. }
        apply (mo_rt _ _ (st_mono _ _ M)); auto. }
    split.
    + eapply stp_trans; [exact S1|]. constructor.
      * apply clear_empty_rows; auto. apply S1.
      * constructor; sr; auto; intros; lia.
      * intros [A B C]. constructor; sr; auto.
    + sr. repeat (split; [assumption|]). right. split; auto.
Qed.

(** ** Singleton rows *)
Definition frame4 (s s' : state) : Prop :=
  w_sub s' = w_sub s /\ w_ston_rows s' = w_ston_rows s.
Lemma frame4_refl : forall s, frame4 s s. Proof. split; reflexivity. Qed.
Lemma frame4_trans : forall a b c, frame4 a b -> frame4 b c -> frame4 a c.
Proof. intros a b c [] []. split; congruence. Qed.
Lemma frame4_same : forall s s', same_struct s s' -> frame4 s s'.
Proof. intros s s' []. split; auto. Qed.

Lemma nempty : forall s i, Inv s -> mA s i <> [] -> ~ In i (w_empty_rows s).
Proof. intros s i H N X. destruct (l_empty_rows s (inv_L s H) i X) as [_ [E _]]. auto. Qed.

Lemma remove_stonrow_stp : forall s i, Inv s -> In i (w_ston_rows s) -> t_inact (rt s i) = false ->
  let '(s', st) := remove_stonrow i s in stp s s' /\ frame4 s s'.
Proof.
  intros s i H Hin T. destruct (l_ston_rows s (inv_L s H) i Hin) as [Hi D]. specialize (D T).
  unfold remove_stonrow. destruct (mA s i) as [|[k a] r] eqn:EA.
  - destruct D as [D|[_ D]]; [discriminate|]. rewrite D. auto using stp_refl, frame4_refl.
  - destruct D as [D|[D _]]; [|discriminate]. destruct r; [|discriminate].
    destruct (w_rin s (inv_0 s H) i k a Hi) as [Hk Na]; [rewrite EA; left; reflexivity|].
    destruct (t_fixed (ct s k)) eqn:Fk; [auto using stp_refl, frame4_refl|].
    destruct (t_eq (rt s i)).
    + pose proof (stp_fix_col s k (fin (rhs s i) / a) (cst s k) H Hk) as S1.
      destruct (fix_col_frame s k (fin (rhs s i) / a) (cst s k)) as [A [B [C [D1 [E [F G]]]]]].
      destruct (fix_col k _ _ s) as [s1 st]. cbn [fst snd] in *.
      destruct G as [[-> ->]|[-> [G1 G2]]].
      * rewrite N.eqb_refl. auto using stp_refl, frame4_refl.
      * change (N.eqb REDUCED INFEASIBLE) with false. cbv iota zeta.
        assert (S2 : stp s1 (kill_ston i k s1)).
        { eapply stp_kill; [apply S1| | | |].
          - rewrite (stp_nr _ _ S1). auto.
          - rewrite D1. eassumption.
          - rewrite F. auto.
          - unfold t_cinact. rewrite G1. reflexivity. }
        assert (S3 : stp s (kill_ston i k s1)) by (eapply stp_trans; eauto).
        split.
        -- eapply stp_trans; [exact S3|]. apply stp_same; [apply S3|].
           unfold kill_ston. same_ref.
        -- split; sr; auto.
    + assert (A1 : same_struct s (fst (if t_rhs_inf (rt s i) then (s, UNCHANGED)
          else if Qgtb a 0 then update_ub k (fin (rhs s i) / a) i s
          else update_lb k (fin (rhs s i) / a) i s))).
      { destruct (t_rhs_inf _); [apply same_refl|].
        destruct (Qgtb a 0); auto using update_ub_same, update_lb_same, Inv_col_in. }
      destruct (if t_rhs_inf (rt s i) then _ else _) as [s1 st1]. cbn [fst] in A1.
      destruct (N.eqb st1 INFEASIBLE); [auto using stp_same, frame4_same|].
      assert (A2 : same_struct s1 (fst (if t_lhs_inf (rt s i) then (s1, UNCHANGED)
          else if Qgtb a 0 then update_lb k (fin (lhs s i) / a) i s1
          else update_ub k (fin (lhs s i) / a) i s1))).
      { assert (CI : col_in s1 k) by (eapply col_in_same; [exact A1|apply Inv_col_in; auto]).
        destruct (t_lhs_inf _); [apply same_refl|].
        destruct (Qgtb a 0); auto using update_ub_same, update_lb_same. }
      destruct (if t_lhs_inf (rt s i) then _ else _) as [s2 st2]. cbn [fst] in A2.
      assert (A3 : same_struct s s2) by (eapply same_trans; eauto).
      destruct (N.eqb st2 INFEASIBLE); [auto using stp_same, frame4_same|].
      assert (S2 : stp s s2) by auto using stp_same.
      split.
      * eapply stp_trans; [exact S2|]. apply stp_row_inactive.
        -- apply S2.
        -- rewrite (stp_nr _ _ S2). auto.
        -- rewrite (ss_rt _ _ A3). auto.
        -- apply nempty; [apply S2|]. rewrite (ss_A _ _ A3), EA. discriminate.
      * destruct (frame4_same _ _ A3). split; sr; auto.
Qed.

Lemma ston_pass_stp : forall b l s, Inv s -> (forall i, In i l -> In i (w_ston_rows s)) ->
  let '(s', st) := ston_pass b l s in stp s s' /\ frame4 s s' /\ (st = UNCHANGED \/ st = INFEASIBLE).
Proof.
  induction l as [|i l IH]; intros s H HL; simpl.
  - auto using stp_refl, frame4_refl.
  - destruct (if b then _ else _) eqn:SK.
    + apply IH; auto. intros; apply HL; simpl; auto.
    + assert (T : t_inact (rt s i) = false).
      { destruct b; apply orb_false_iff in SK; tauto. }
      pose proof (remove_stonrow_stp s i H (HL i (or_introl eq_refl)) T) as X.
      destruct (remove_stonrow i s) as [s1 st]. destruct X as [S1 F1].
      destruct (N.eqb st INFEASIBLE); auto.
      specialize (IH s1 (st_inv _ _ S1)). destruct (ston_pass b l s1) as [s2 st2].
      destruct IH as [S2 [F2 E]].
      { intros j Hj. destruct F1 as [_ F1]. rewrite F1. apply HL; simpl; auto. }
      split; [eapply stp_trans; eauto|]. split; [eapply frame4_trans; eauto|auto].
Qed.

(** number of active columns *)
Definition ncact (s : state) : nat := length (filter (fun k => negb (t_cinact (ct s k))) (seq 0 (nc s))).
Lemma filter_le : forall A (f g : A -> bool) l, (forall x, In x l -> f x = true -> g x = true) ->
  (length (filter f l) <= length (filter g l))%nat.
Proof.
  induction l as [|x l IH]; simpl; intros H; auto.
  assert (X : (length (filter f l) <= length (filter g l))%nat) by (apply IH; auto).
  destruct (f x) eqn:E; simpl; [rewrite (H x (or_introl eq_refl) E); simpl; lia|].
  destruct (g x); simpl; lia.
Qed.
Lemma filter_lt : forall A (f g : A -> bool) l y, (forall x, In x l -> f x = true -> g x = true) ->
  In y l -> f y = false -> g y = true -> (length (filter f l) < length (filter g l))%nat.
Proof.
  induction l as [|x l IH]; simpl; intros y H I1 Fy Gy; [contradiction|].
  assert (X : (length (filter f l) <= length (filter g l))%nat) by (apply filter_le; auto).
  destruct I1 as [->|I1].
  - rewrite Fy, Gy. simpl. lia.
  - assert (Y : (length (filter f l) < length (filter g l))%nat) by (eapply IH; eauto).
    destruct (f x) eqn:E; simpl; [rewrite (H x (or_introl eq_refl) E); simpl; lia|].
    destruct (g x); simpl; lia.
Qed.
Lemma mono_ncact : forall s s', mono s s' -> (ncact s' <= ncact s)%nat.
Proof.
  intros s s' M. unfold ncact. rewrite (mo_nc _ _ M). apply filter_le. intros k _.
  destruct (t_cinact (ct s k)) eqn:E; auto. rewrite (mo_ci _ _ k M E). auto.
Qed.
Lemma mono_ncact_lt : forall s s' k, mono s s' -> (k < nc s)%nat -> t_cinact (ct s k) = false ->
  t_cinact (ct s' k) = true -> (ncact s' < ncact s)%nat.
Proof.
  intros s s' k M Hk A B. unfold ncact. rewrite (mo_nc _ _ M).
  apply filter_lt with (y := k).
  - intros j _. destruct (t_cinact (ct s j)) eqn:E; auto. rewrite (mo_ci _ _ j M E). auto.
  - apply in_seq; lia.
  - rewrite B; auto.
  - rewrite A; auto.
Qed.

Lemma mono_set_w_ston : forall s l, mono s (set_w_ston_rows l s).
Proof. intros. constructor; sr; auto; intros; lia. Qed.

Lemma ston_rows_spec : forall s, Inv s -> w_sub s = [] ->
  let '(s', st) := remove_ston_rows s in
  Inv s' /\ mono s s' /\ w_sub s' = [] /\
  (st = INFEASIBLE \/
   st = UNCHANGED /\ s' = s /\ w_ston_rows s = [] \/
   st = REDUCED /\ w_ston_rows s <> [] /\ quiet s' /\ (Nx s -> Nx s') /\
     (w_fixed s = [] -> w_ston_rows s' = [] \/ (ncact s' < ncact s)%nat)).
Proof.
  intros s H WS. unfold remove_ston_rows.
  destruct (w_ston_rows s) as [|i0 l0] eqn:EL.
  { split; auto. split; [apply mono_refl|]. split; auto. }
  rewrite <- EL. set (l := w_ston_rows s).
  pose proof (ston_pass_stp true l s H (fun i X => X)) as P1.
  destruct (ston_pass true l s) as [s1 st1]. destruct P1 as [S1 [F1 E1]].
  destruct (N.eqb_spec st1 INFEASIBLE).
  { split; [apply S1|]. split; [apply S1|]. destruct F1. split; [congruence|auto]. }
  assert (HL1 : forall i, In i l -> In i (w_ston_rows s1)) by (destruct F1 as [_ ->]; auto).
  pose proof (ston_pass_stp false l s1 (st_inv _ _ S1) HL1) as P2.
  destruct (ston_pass false l s1) as [s2 st2]. destruct P2 as [S2' [F2' E2]].
  assert (S2 : stp s s2) by (eapply stp_trans; eauto).
  assert (F2 : frame4 s s2) by (eapply frame4_trans; eauto).
  destruct (N.eqb_spec st2 INFEASIBLE).
  { split; [apply S2|]. split; [apply S2|]. destruct F2. split; [congruence|auto]. }
  destruct S2 as [I2 M2 N2].
  set (s3 := set_w_ston_rows [] s2).
  assert (I3 : Inv s3) by (apply clear_ston_rows; auto).
  assert (M3 : mono s s3) by (eapply mono_trans; [exact M2|apply mono_set_w_ston]).
  assert (N3 : Nx s -> Nx s3). { intros N. destruct (N2 N). constructor; auto. }
  destruct (delete_inactive_rows_Inv s3 I3) as [I4 AD].
  set (s4 := delete_inactive_rows s3) in *.
  pose proof (after_dir_mono _ _ I3 AD) as M4.
  assert (FR : w_sub s4 = [] /\ w_ston_rows s4 = [] /\ w_fixed s4 = w_fixed s2).
  { destruct (dir_frame _ _ AD) as (? & ? & ? & ? & ? & ? & ? & ? & ? & E). rewrite E. unfold s3. sr.
    destruct F2. split; [congruence|]. split; reflexivity. }
  destruct FR as [FS [FT FF]].
  destruct (finish_cols s4 I4 (or_introl FS)) as [I5 [M5 [N5 [R5 [W5 [V5 D5]]]]]].
  set (s4' := delete_fixed_cols_from_problem s4) in *.
  set (s5 := delete_inactive_cols_from_A_and_AT s4') in *.
  assert (M : mono s s5) by (eapply mono_trans; [exact M3|eapply mono_trans; eauto]).
  split; auto. split; auto. split; auto. right; right.
  split; [reflexivity|]. split; [unfold l; rewrite EL; discriminate|].
  split; [constructor; auto; rewrite R5; apply (dir_rows _ _ AD)|].
  split.
  { intros N. apply N5; [apply (dir_rows _ _ AD)|]. apply (after_dir_Nx s3 s4 I3 I4 AD); auto. }
  intros WF. destruct (w_ston_rows s5) as [|i l'] eqn:E5; auto. right.
  pose proof (delete_fixed_cols_same s4) as SS. fold s4' in SS.
  destruct (dic_ston _ _ D5 i) as [X|[T [Hi [k [a [Hin [Tk [Hk Ck]]]]]]]].
  { rewrite E5; left; reflexivity. }
  { rewrite (ss_w4 _ _ SS), FT in X. contradiction. }
  assert (M6 : mono s s4'). { eapply mono_trans; [exact M3|]. eapply mono_trans; [exact M4|].
    apply mono_same; auto. }
  assert (Hk' : (k < nc s)%nat) by (rewrite <- (mo_nc _ _ M6); auto).
  eapply Nat.le_lt_trans with (m := ncact s4').
  - apply mono_ncact. eapply after_dic_mono; eauto. eapply same_Inv; eauto.
  - eapply mono_ncact_lt; eauto. destruct (t_cinact (ct s k)) eqn:E; auto. exfalso.
    assert (C : csz s k <> (-1)%Z).
    { intros C. apply Ck. apply (mo_cd _ _ M6); auto. }
    destruct (l_pend s (inv_L s H) k Hk' E C) as [X|X]; [rewrite WF in X|rewrite WS in X]; contradiction.
Qed.

(** ** check_activities *)
Lemma rsz_nempty : forall s i, Inv s -> (i < nr s)%nat -> t_inact (rt s i) = false ->
  rsz s i <> 0%Z -> mA s i <> [].
Proof.
  intros s i H Hi T N E. apply N. rewrite (tight_rsz s i (inv_0 s H) (inv_R s H) Hi T), E. reflexivity.
Qed.

Definition frame5 (s s' : state) : Prop :=
  w_fixed s' = w_fixed s /\ w_sub s' = w_sub s /\ w_ston_rows s' = w_ston_rows s.
Lemma frame5_refl : forall s, frame5 s s. Proof. unfold frame5; auto. Qed.
Lemma frame5_trans : forall a b c, frame5 a b -> frame5 b c -> frame5 a c.
Proof. unfold frame5; intros a b c [A1 [A2 A3]] [B1 [B2 B3]]. split; [|split]; congruence. Qed.
Lemma frame5_same : forall s s', same_struct s s' -> frame5 s s'.
Proof. intros s s' []. unfold frame5; auto. Qed.

Lemma check_row_stp : forall s i, Inv s -> (i < nr s)%nat ->
  stp s (fst (check_row i s)) /\ frame5 s (fst (check_row i s)).
Proof.
  intros s i H Hi. unfold check_row.
  destruct (t_inact (rt s i)) eqn:T; cbn [orb]; [cbn [fst]; auto using stp_refl, frame5_refl|].
  destruct (t_eq _); cbn [orb]; [cbn [fst]; auto using stp_refl, frame5_refl|].
  destruct (Z.leb_spec (rsz s i) 1); [cbn [fst]; auto using stp_refl, frame5_refl|].
  destruct (check_activity _ _ _ _) as [|lr rr]; [cbn [fst]; auto using stp_refl, frame5_refl|].
  destruct (_ && _).
  { cbn [fst]. split; [|unfold frame5; sr; auto]. apply stp_row_inactive; auto.
    apply nempty; auto. apply rsz_nempty; auto. lia. }
  assert (X : forall t, t_inact t = false -> same_struct s (set_rt1 i t s)).
  { intros t Et. constructor; sr; auto. intros j. updg; congruence. }
  assert (Y : forall (f : state -> nat * Q -> state) t e b, (forall s0 x, locks_only s0 (f s0 x)) -> t_inact t = false ->
    same_struct s (if b : bool then set_lhs1 i e (foldS f (mA s i) (set_rt1 i t s))
                            else set_rhs1 i e (foldS f (mA s i) (set_rt1 i t s)))).
  { intros f t e b Hf Et. assert (Z : same_struct s (foldS f (mA s i) (set_rt1 i t s))).
    { eapply same_trans; [apply (X t Et)|]. apply same_foldS. intros. apply same_locks; auto. }
    eapply same_trans; [exact Z|]. destruct b; same_ref. }
  destruct lr; [|destruct rr]; cbn [fst].
  - assert (Z : same_struct s (set_lhs1 i NInf (foldS (fun s e => lock_lhs (-1) (fst e) (snd e) s) (mA s i)
                                  (set_rt1 i R_LHS_INF s)))).
    { apply (Y (fun s e => lock_lhs (-1) (fst e) (snd e) s) R_LHS_INF NInf true); auto.
      intros. apply locks_only_lock_lhs. }
    auto using stp_same, frame5_same.
  - assert (Z : same_struct s (set_rhs1 i PInf (foldS (fun s e => lock_rhs (-1) (fst e) (snd e) s) (mA s i)
                                  (set_rt1 i R_RHS_INF s)))).
    { apply (Y (fun s e => lock_rhs (-1) (fst e) (snd e) s) R_RHS_INF PInf false); auto.
      intros. apply locks_only_lock_rhs. }
    auto using stp_same, frame5_same.
  - auto using stp_refl, frame5_refl.
Qed.

Lemma stp_dir : forall s, Inv s -> stp s (delete_inactive_rows s) /\ frame5 s (delete_inactive_rows s) /\
  w_rows (delete_inactive_rows s) = [].
Proof.
  intros s H. destruct (delete_inactive_rows_Inv s H) as [I4 AD]. split.
  - constructor; auto; [eapply after_dir_mono; eauto|intros; apply (after_dir_Nx _ _ H I4 AD); auto].
  - split; [|apply (dir_rows _ _ AD)].
    destruct (dir_frame _ _ AD) as (? & ? & ? & ? & ? & ? & ? & ? & ? & E). rewrite E.
    unfold frame5. sr. auto.
Qed.

Lemma check_activities_spec : forall s, Inv s ->
  let '(s', st) := check_activities s in
  stp s s' /\ frame5 s s' /\ (st = INFEASIBLE \/ st = UNCHANGED /\ w_rows s' = []).
Proof.
  intros s H. pose proof (l_acts s (inv_L s H)) as HW. unfold check_activities.
  pose proof (for_until_inv INFEASIBLE check_row (fun t => stp s t /\ frame5 s t) (w_acts s) s) as X.
  destruct (for_until INFEASIBLE check_row (w_acts s) s) as [s1 st]. cbn [fst] in X.
  destruct X as [S1 F1].
  - intros t i Hi [St Ft]. destruct (check_row_stp t i) as [A B]; [apply St| |].
    + rewrite (stp_nr _ _ St). auto.
    + split; [eapply stp_trans|eapply frame5_trans]; eauto.
  - auto using stp_refl, frame5_refl.
  - destruct (N.eqb_spec st INFEASIBLE); auto.
    destruct (stp_dir s1 (st_inv _ _ S1)) as [A [B C]].
    split; [eapply stp_trans; eauto|]. split; [eapply frame5_trans; eauto|auto].
Qed.

(** ** Dual fixing *)
Lemma inf_rows_fold : forall (l : row) s, Inv s ->
  (forall e, In e l -> (fst e < nr s)%nat /\ mA s (fst e) <> [] \/ t_inact (rt s (fst e)) = true) ->
  let s' := foldS (fun s e => if t_inact (rt s (fst e)) then s
                              else set_row_to_inactive (fst e) 0 s) l s in
  stp s s' /\ frame5 s s' /\ (forall e, In e l -> t_inact (rt s' (fst e)) = true) /\
  mA s' = mA s /\ mAT s' = mAT s /\ csz s' = csz s /\ rsz s' = rsz s /\ ct s' = ct s.
Proof.
  induction l as [|e l IH]; intros s H HL; cbn zeta; simpl foldS.
  - split; [apply stp_refl; auto|]. split; [apply frame5_refl|]. split; [intros ? []|auto 10].
  - set (s1 := if t_inact (rt s (fst e)) then s else set_row_to_inactive (fst e) 0 s).
    assert (B : stp s s1 /\ frame5 s s1 /\ t_inact (rt s1 (fst e)) = true /\
            mA s1 = mA s /\ mAT s1 = mAT s /\ csz s1 = csz s /\ rsz s1 = rsz s /\ ct s1 = ct s).
    { unfold s1. destruct (t_inact (rt s (fst e))) eqn:T.
      - split; [apply stp_refl; auto|]. split; [apply frame5_refl|]. auto 10.
      - split; [|unfold frame5, set_row_to_inactive; sr; rewrite upd_same; auto 10].
        destruct (HL e (or_introl eq_refl)) as [[Hi Ne]|X]; [|congruence].
        apply stp_row_inactive; auto. apply nempty; auto. }
    destruct B as [S1 [F1 [T1 [E1 [E2 [E3 [E4 E5]]]]]]].
    destruct (IH s1 (st_inv _ _ S1)) as [S2 [F2 [T2 [G1 [G2 [G3 [G4 G5]]]]]]].
    { intros x Hx. rewrite (stp_nr _ _ S1), E1. destruct (HL x (or_intror Hx)) as [?|T]; auto.
      right. apply (mo_rt _ _ (st_mono _ _ S1)); auto. }
    split; [eapply stp_trans; eauto|]. split; [eapply frame5_trans; eauto|].
    split; [|split; [congruence|split; [congruence|split; [congruence|split; congruence]]]].
    intros x [->|Hx]; auto. apply (mo_rt _ _ (st_mono _ _ S2)); auto.
Qed.

Lemma fix_col_to_inf_stp : forall pos k s, Inv s -> (k < nc s)%nat ->
  stp s (fix_col_to_inf pos k s) /\ frame5 s (fix_col_to_inf pos k s).
Proof.
  intros pos k s H Hk. unfold fix_col_to_inf.
  set (rec := FIXED_COL_INF pos k _ _). set (s1 := record rec s).
  assert (I1 : Inv s1) by (eapply same_Inv; [apply same_record|auto]).
  assert (HA : forall i, rsz s i <> (-1)%Z -> forall a, In (i, a) (mAT s k) ->
                (i < nr s)%nat /\ In (k, a) (mA s i)).
  { intros i Ri a Hin. destruct (w_cin s (inv_0 s H) i k a Hk Hin) as [Hi _]. split; auto.
    apply (w_agree s (inv_0 s H)); auto. intros C.
    destruct (w_cdead s (inv_0 s H) k Hk C) as [_ E]. rewrite E in Hin. contradiction. }
  destruct (inf_rows_fold (mAT s k) s1 I1) as [S2 [F2 [T2 [G1 [G2 [G3 [G4 G5]]]]]]].
  { intros [i a] Hin. cbn [fst]. unfold s1; sr. destruct (t_inact (rt s i)) eqn:T; auto. left.
    destruct (w_cin s (inv_0 s H) i k a Hk Hin) as [Hi _]. split; auto.
    destruct (HA i) with (a := a) as [_ X]; auto.
    - apply (act_alive s i (inv_0 s H) Hi T).
    - intros E. rewrite E in X. contradiction. }
  set (s2 := foldS _ (mAT s k) s1) in *.
  assert (S2' : stp s s2).
  { eapply stp_trans; [|exact S2]. apply stp_same; auto. apply same_record. }
  set (s3 := setAT k [] (set_csz1 k (-1)%Z (set_ct1 k (tag_fixed (ct s2 k)) s2))).
  assert (S3 : stp s s3).
  { eapply stp_trans; [exact S2'|]. constructor.
    - apply drop_col_Inv; auto.
      + apply S2'.
      + rewrite (stp_nc _ _ S2'). auto.
      + intros i a. rewrite (stp_nr _ _ S2'), G1, G3. unfold s1; sr. intros Hi Hin Ck.
        destruct (Z.eq_dec (rsz s i) (-1)) as [R|R].
        * apply (mo_rt _ _ (st_mono _ _ S2')). apply (w_rdead s (inv_0 s H)); auto.
        * apply (w_agree s (inv_0 s H)) in Hin; auto. apply (T2 (i, a)); auto.
    - unfold s3. constructor; sr; auto; intros; try lia; updg; auto.
    - intros [A B C]. unfold s3. constructor; sr; auto. }
  split.
  - eapply stp_trans; [exact S3|]. apply stp_same; [apply S3|]. unfold s3. same_ref.
  - destruct F2 as [f1 [f2 f3]]. unfold frame5. sr. unfold s1 in *. sr in f1. sr in f2. sr in f3. auto.
Qed.

Lemma dual_fix_loop_stp : forall l s ti st, Inv s -> (forall k, In k l -> (k < nc s)%nat) ->
  (forall e, In e ti -> (snd e < nc s)%nat) ->
  let '(s', ti', _) := dual_fix_loop l s ti st in
  stp s s' /\ frame4 s s' /\ (forall e, In e ti' -> (snd e < nc s)%nat).
Proof.
  induction l as [|k l IH]; intros s ti st H HL HT; simpl.
  - auto using stp_refl, frame4_refl.
  - assert (HL' : forall j, In j l -> (j < nc s)%nat) by (intros; apply HL; simpl; auto).
    assert (Hk : (k < nc s)%nat) by (apply HL; simpl; auto).
    destruct (_ || _); [apply IH; auto|].
    assert (X : let '(s', ti', _) := simple_dual_fix_col k s ti in
                stp s s' /\ frame4 s s' /\ (forall e, In e ti' -> (snd e < nc s)%nat)).
    { assert (F : forall v, stp s (fst (fix_col k v (cst s k) s)) /\ frame4 s (fst (fix_col k v (cst s k) s))).
      { intros v. split; [apply stp_fix_col; auto|].
        destruct (fix_col_frame s k v (cst s k)) as [_ [B [C _]]]. split; auto. }
      assert (P : forall b e, In e (ti ++ [(b, k)]) -> (snd e < nc s)%nat).
      { intros b e He. apply in_app_or in He. destruct He as [He|[<-|[]]]; auto. }
      pose proof (stp_refl s H). pose proof (frame4_refl s).
      unfold simple_dual_fix_col.
      repeat match goal with |- context [if ?b then _ else _] => destruct b end;
        try (split; [apply F|]; split; [apply F|]; assumption); auto.
      all: split; [assumption|]; split; [assumption|]; eauto. }
    destruct (simple_dual_fix_col k s ti) as [[s1 ti1] st1]. destruct X as [S1 [F1 T1]].
    specialize (IH s1 ti1 (N.lor st st1) (st_inv _ _ S1)).
    rewrite (stp_nc _ _ S1) in IH. specialize (IH HL' T1).
    destruct (dual_fix_loop l s1 ti1 _) as [[s2 ti2] st2]. destruct IH as [S2 [F2 T2]].
    split; [eapply stp_trans; eauto|]. split; [eapply frame4_trans; eauto|auto].
Qed.

Lemma inf_steps_stp : forall l s, Inv s -> (forall e, In e l -> (snd e < nc s)%nat) ->
  stp s (foldS inf_step l s) /\ frame5 s (foldS inf_step l s).
Proof.
  induction l as [|[b k] l IH]; intros s H HL; simpl.
  - auto using stp_refl, frame5_refl.
  - assert (X : stp s (inf_step s (b, k)) /\ frame5 s (inf_step s (b, k))).
    { assert (Hk : (k < nc s)%nat) by (apply (HL (b, k)); left; reflexivity).
      unfold inf_step. repeat match goal with |- context [if ?b then _ else _] => destruct b end;
        auto using fix_col_to_inf_stp, stp_refl, frame5_refl. }
    destruct X as [S1 F1]. destruct (IH (inf_step s (b, k)) (st_inv _ _ S1)) as [S2 F2].
    { rewrite (stp_nc _ _ S1). intros; apply HL; simpl; auto. }
    split; [eapply stp_trans; eauto|eapply frame5_trans; eauto].
Qed.

Lemma dual_fix_spec : forall s, Inv s -> w_sub s = [] ->
  let '(s', st) := simple_dual_fix s in
  Inv s' /\ mono s s' /\ quiet s' /\ (Nx s -> Nx s').
Proof.
  intros s H WS. unfold simple_dual_fix.
  pose proof (dual_fix_loop_stp (seq 0 (nc s)) s [] UNCHANGED H) as X.
  destruct (dual_fix_loop (seq 0 (nc s)) s [] UNCHANGED) as [[s1 ti] st].
  destruct X as [S1 [F1 T1]].
  { intros k Hk. apply in_seq in Hk. lia. }
  { intros e []. }
  destruct (inf_steps_stp ti s1 (st_inv _ _ S1)) as [S2 F2].
  { rewrite (stp_nc _ _ S1). auto. }
  set (s2 := foldS inf_step ti s1) in *.
  destruct (stp_dir s2 (st_inv _ _ S2)) as [S3 [F3 W3]].
  set (s3 := delete_inactive_rows s2) in *.
  assert (S : stp s s3) by (eapply stp_trans; [exact S1|eapply stp_trans; eauto]).
  assert (W : w_sub s3 = []). { destruct F1 as [f1 _], F2 as [_ [f2 _]], F3 as [_ [f3 _]]. congruence. }
  destruct (finish_cols s3 (st_inv _ _ S) (or_introl W)) as [I5 [M5 [N5 [R5 [W5 [V5 _]]]]]].
  split; auto. split; [eapply mono_trans; [apply S|eauto]|].
  split; [constructor; auto; congruence|]. intros N. apply N5; auto. apply S; auto.
Qed.
