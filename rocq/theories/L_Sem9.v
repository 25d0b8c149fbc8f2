(** Dual fixing keeps an optimal solution. *)
From Coq Require Import NArith Lqa Qabs Qminmax.
From Verif Require Import M_Num S_LP M_Settings M_Driver S_Driver M_State M_Act M_Core M_Simple
  M_StonCols M_Dton M_Parallel M_Propagate M_Init M_Post M_Run S_Run S_Struct S_Sem S_Sem2
  L_State L_Struct L_Struct2 L_Struct3 L_Struct4 L_Struct5 L_Struct6 L_Struct11
  L_Sem L_Sem2 L_Sem3 L_Sem4 L_Sem5 L_Sem6 L_Mid L_Mid2 L_Mid3 L_Sem7.
Open Scope Q_scope.

(** ** Steps that keep a best solution *)
Record gstep (r c : nat -> Q) (s t : state) : Prop := {
  g_nc : nc t = nc s;
  g_act : forall k, t_cinact (ct t k) = false -> t_cinact (ct s k) = false;
  g_fwd : forall x, sat zero zero s x -> exists y, sat zero zero t y /\ obj t y <= obj s x;
  g_bwd : forall x, sat r c t x -> exists y,
     (forall k, (k < nc s)%nat -> t_cinact (ct t k) = false -> y k == x k) /\
     sat r c s y /\ obj s y == obj t x }.
Lemma gstep_refl : forall r c s, gstep r c s s.
Proof.
  intros. constructor; auto.
  - intros x S. exists x. split; auto. lra.
  - intros x S. exists x. split; [intros; lra|]. split; auto. lra.
Qed.
Lemma gstep_trans : forall r c s t u, gstep r c s t -> gstep r c t u -> gstep r c s u.
Proof.
  intros r c s t u [N1 A1 F1 B1] [N2 A2 F2 B2]. constructor; auto.
  - congruence.
  - intros x S. destruct (F1 x S) as [y [Sy O]]. destruct (F2 y Sy) as [z [Sz O']]. exists z. split; auto. lra.
  - intros x S. destruct (B2 x S) as [y [E [Sy O]]]. destruct (B1 y Sy) as [z [E' [Sz O']]].
    exists z. split; [|split; auto].
    + intros k Hk T. rewrite E' by auto. apply E; auto. rewrite N1. auto.
    + rewrite O'. auto.
Qed.
Lemma gstep_of_semstep : forall r c s t, nc t = nc s -> (forall k, t_cinact (ct t k) = false -> t_cinact (ct s k) = false) ->
  semstep anything r c s t -> gstep r c s t.
Proof.
  intros r c s t N A [_ _ _ F B O]. constructor; auto.
  - intros x S. exists x. split; [apply F; auto; exact I|]. rewrite O. lra.
  - intros x S. exists x. split; [intros; lra|]. split; auto. rewrite O. lra.
Qed.
Lemma gstep_lp : forall r c s t, Ok s -> Inv t -> tags_right t -> pend_ok t -> gstep r c s t ->
  w_sub t = [] \/ w_ston_rows t = [] -> Ok (finish t) -> (forall i, 0 <= r i) -> (forall k, 0 <= c k) ->
  no_loss (reduced_lp s) (reduced_lp (finish t)) /\
  lifts_back r c (reduced_lp s) (reduced_lp (finish t)).
Proof.
  intros r c s t OK H S1 S2 [N A F B] PRE OK' HR HC.
  destruct (finish_sem t H S1 S2 PRE) as [F1 [F2 [F4 [_ [_ [F3 F5]]]]]]. split.
  - intros x Fx. apply sat_feasible in Fx; auto. destruct (F x Fx) as [y [Sy O]].
    exists y. pose proof (sat_pinned _ _ _ _ Sy) as PN. apply F1 in Sy. destruct Sy as [Sy _].
    split; [apply sat_feasible; auto|]. rewrite <- !obj_reduced. rewrite (F2 y PN). exact O.
  - intros x' Fx. apply sat_feasible in Fx; auto.
    assert (FX : sat r c (finish t) x') by (eapply sat_weaken; [| |exact Fx]; auto).
    destruct (finish_back r c t x' H S1 S2 PRE FX) as [y [Ay [By Dy]]].
    destruct (B y By) as [z [Az [Bz Dz]]].
    exists z. split; [|split].
    + intros k Hk. cbn [lp_cols reduced_lp] in Hk. rewrite <- (Ay k Hk). apply F3 in Hk.
      apply Az; [rewrite <- N|]; tauto.
    + apply sat_reduced; auto.
    + rewrite <- !obj_reduced. rewrite Dz. auto.
Qed.

(** ** A variable that no row stops in one direction *)
Definition free_dir (up : bool) (s : state) (k : nat) : Prop := forall i a,
  (i < nr s)%nat -> t_inact (rt s i) = false -> In (k, a) (mA s i) ->
  (0 < a -> if up then t_rhs_inf (rt s i) = true else t_lhs_inf (rt s i) = true) /\
  (a < 0 -> if up then t_lhs_inf (rt s i) = true else t_rhs_inf (rt s i) = true).
Definition toward (up : bool) (v w : Q) : Prop := if up then v <= w else w <= v.

Lemma wsum_zero : forall w c, (forall i a, In (i, a) c -> (0 <= w i a)%Z) -> wsum w c = 0%Z ->
  forall i a, In (i, a) c -> w i a = 0%Z.
Proof.
  intros w. assert (NN : forall c, (forall i a, In (i, a) c -> (0 <= w i a)%Z) -> (0 <= wsum w c)%Z).
  { induction c as [|[i a] c IH]; intros H; simpl; [lia|].
    pose proof (H i a (or_introl eq_refl)). specialize (IH (fun j b X => H j b (or_intror X))). lia. }
  induction c as [|[j b] c IH]; intros H E i a Hin; [contradiction|]. simpl in E.
  pose proof (H j b (or_introl eq_refl)). pose proof (NN c (fun i0 a0 X => H i0 a0 (or_intror X))).
  destruct Hin as [X|X]; [injection X as <- <-; lia|]. apply IH; auto; [|lia]. intros; apply H; right; auto.
Qed.
Lemma locks_free : forall (up : bool) s k, Inv s -> LK s -> (k < nc s)%nat -> t_cinact (ct s k) = false ->
  (if up then ups s k else dns s k) = 0%Z -> free_dir up s k.
Proof.
  intros up s k H L Hk TK E i a Hi T Hin. destruct (L k Hk TK) as [LU LD].
  assert (X : In (i, a) (mAT s k)).
  { apply (w_agree s (inv_0 s H)); auto; [apply act_alive|apply cact_alive]; auto; apply H. }
  destruct up.
  - rewrite LU in E. pose proof (wsum_zero (fun i => upt (rt s i)) (mAT s k)) as Z.
    assert (Y : upt (rt s i) a = 0%Z).
    { apply (Z (fun j b _ => ltac:(destruct (upw_cases (rt s j) b) as [-> | ->]; lia)) E i a X). }
    unfold upt, upw in Y. destruct (Qgtb a 0) eqn:G; qb; split; intros; try lra;
      destruct (t_rhs_inf (rt s i)), (t_lhs_inf (rt s i)); auto; discriminate.
  - rewrite LD in E. pose proof (wsum_zero (fun i => dnt (rt s i)) (mAT s k)) as Z.
    assert (Y : dnt (rt s i) a = 0%Z).
    { apply (Z (fun j b _ => ltac:(destruct (dnw_cases (rt s j) b) as [-> | ->]; lia)) E i a X). }
    unfold dnt, dnw, upw in Y. destruct (Qgtb a 0) eqn:G; qb; split; intros; try lra;
      destruct (t_rhs_inf (rt s i)), (t_lhs_inf (rt s i)); auto; discriminate.
Qed.

Lemma dot_upd : forall r k a x v, srt r -> In (k, a) r -> dot r (upd x k v) == dot r x + a * (v - x k).
Proof.
  induction r as [|[j b] r IH]; intros k a x v S Hin; [contradiction|].
  apply srt_inv in S. destruct S as [S L]. cbn [dot]. destruct Hin as [E|Hin].
  - injection E as -> ->. rewrite dot_off.
    + rewrite upd_same. lra.
    + intros [c Hc]. apply L in Hc. simpl in Hc. lia.
  - rewrite (IH k a x v S Hin). rewrite upd_other; [lra|]. intros ->. apply L in Hin. simpl in Hin. lia.
Qed.

(** Moving it that way keeps every row that holds. *)
Lemma free_row : forall (up : bool) s k i x v t, Inv s -> tags_right s -> free_dir up s k -> (i < nr s)%nat ->
  t_inact (rt s i) = false -> toward up (x k) v -> within t (lhs s i) (dot (mA s i) x) (rhs s i) ->
  within t (lhs s i) (dot (mA s i) (upd x k v)) (rhs s i).
Proof.
  intros up s k i x v t H TG FD Hi T TW [W1 W2].
  destruct (hasb k (mA s i)) eqn:HB.
  - apply hasb_has in HB. destruct HB as [a Ha].
    pose proof (dot_upd _ _ _ x v (w_rsrt s (inv_0 s H) i Hi) Ha) as E.
    destruct (FD i a Hi T Ha) as [D1 D2].
    pose proof (tr_lhs s TG i Hi T) as TL. pose proof (tr_rhs s TG i Hi T) as TR.
    assert (Na : ~ a == 0) by (apply (w_rin s (inv_0 s H) i k a Hi Ha)).
    unfold toward in TW. destruct (Q_dec a 0) as [[L|G]|Z]; [| |contradiction]; destruct up.
    + rewrite (D2 L) in TL. split; [rewrite TL; exact I|]. destruct (rhs s i); simpl in *; auto. nra.
    + rewrite (D2 L) in TR. split; [|rewrite TR; exact I]. destruct (lhs s i); simpl in *; auto. nra.
    + rewrite (D1 G) in TR. split; [|rewrite TR; exact I]. destruct (lhs s i); simpl in *; auto. nra.
    + rewrite (D1 G) in TL. split; [rewrite TL; exact I|]. destruct (rhs s i); simpl in *; auto. nra.
  - assert (NH : ~ has k (mA s i)) by (intros C; apply hasb_has in C; congruence).
    eapply within_ext; [symmetry; apply dot_off; auto|]. split; auto.
Qed.
Lemma active_unlisted : forall s k, Inv s -> t_cinact (ct s k) = false -> ~ In k (w_fixed s) /\ ~ In k (w_sub s).
Proof.
  intros s k H T. apply orb_false_iff in T. destruct T as [T1 T2]. split; intros X.
  - destruct (l_fixed s (inv_L s H) k X). congruence.
  - destruct (l_sub s (inv_L s H) k X). congruence.
Qed.
Lemma pinned_upd : forall s k x v, Inv s -> t_cinact (ct s k) = false -> pinned s x -> pinned s (upd x k v).
Proof.
  intros s k x v H T [A B]. destruct (active_unlisted s k H T) as [N1 N2].
  split; intros j Hj; rewrite upd_other by (intros ->; contradiction); auto.
Qed.
Lemma free_move : forall (up : bool) r c s k x v, Inv s -> tags_right s -> free_dir up s k ->
  t_cinact (ct s k) = false -> toward up (x k) v -> within (c k) (lb s k) v (ub s k) ->
  sat r c s x -> sat r c s (upd x k v).
Proof.
  intros up r c s k x v H TG FD TK TW WB [S1 [S2 S3]]. split; [|split].
  - intros i Hi T. eapply free_row; eauto.
  - intros j Hj T. destruct (Nat.eq_dec j k) as [->|D]; [rewrite upd_same; auto|].
    rewrite upd_other by auto. auto.
  - apply pinned_upd; auto.
Qed.

(** ** Fixing at the bound *)
Lemma fix_free : forall (up : bool) r c s k v s1, Inv s -> tags_right s -> pend_ok s -> empty_act s ->
  (k < nc s)%nat -> t_cinact (ct s k) = false -> free_dir up s k ->
  (if up then cst s k <= 0 /\ ub s k = Fin v else 0 <= cst s k /\ lb s k = Fin v) ->
  (0 <= c k /\ (FEAS_TOL <= c k \/ (ext_le (lb s k) v /\ le_ext v (ub s k)))) ->
  fix_col k v (cst s k) s = (s1, REDUCED) -> gstep r c s s1.
Proof.
  intros up r c s k v s1 H TG PO AE Hk TK FD CB [CN CK] E.
  assert (SS : semstep (fun x => x k == v) r c s s1).
  { eapply fix_col_sem; eauto. destruct CK as [CK|CK]; auto. }
  pose proof (fix_col_cases s k v (cst s k)) as FC. rewrite E in FC.
  destruct FC as [[X _]|[_ [_ [_ [A [W E1]]]]]]; [discriminate|].
  constructor.
  - rewrite E1. unfold set_col_to_fixed. sr. reflexivity.
  - rewrite E1. unfold set_col_to_fixed. sr. intros j. updg; [discriminate|auto].
  - intros x S.
    assert (XB : ext_le (lb s k) (x k) /\ le_ext (x k) (ub s k)).
    { apply (proj1 (within0 (lb s k) (x k) (ub s k))). destruct S as [_ [S2 _]]. exact (S2 k Hk TK). }
    assert (TW : toward up (x k) v).
    { destruct up; destruct CB as [_ CB]; rewrite CB in XB; simpl in XB; simpl; tauto. }
    assert (VB : ext_le (lb s k) v /\ le_ext v (ub s k)).
    { destruct XB as [XB1 XB2]. destruct up; destruct CB as [_ CB]; rewrite CB in *; simpl in *.
      - split; [|lra]. destruct (lb s k); simpl in *; auto; lra.
      - split; [lra|]. destruct (ub s k); simpl in *; auto; lra. }
    exists (upd x k v). split.
    + apply (se_fwd _ _ _ _ _ SS); [rewrite upd_same; lra|].
      apply (free_move up); auto. unfold exactly. apply within0. auto.
    + rewrite (se_obj _ _ _ _ _ SS). rewrite obj_move by (auto; apply cact_alive; auto; apply H).
      destruct up; destruct CB as [CB _]; simpl in TW; nra.
  - intros x S. exists x. split; [intros; lra|]. split; [apply (se_bwd _ _ _ _ _ SS); auto|].
    rewrite (se_obj _ _ _ _ _ SS). lra.
Qed.

(** ** Sending it to infinity *)
Lemma inf_rows_shape : forall (l : row) s, exists R W L,
  foldS (fun s e => if t_inact (rt s (fst e)) then s else set_row_to_inactive (fst e) 0 s) l s =
    set_log L (set_w_rows W (set_rt R s)) /\
  forall j, (R j = rt s j /\ (t_inact (rt s j) = true \/ ~ has j l)) \/ (R j = tag_inactive (rt s j) /\ has j l).
Proof.
  induction l as [|[i a] l IH]; intros s; cbn [foldS fst].
  - exists (rt s), (w_rows s), (log s). split; [destruct s; reflexivity|]. intros j. left. split; auto.
    right. intros [b []].
  - destruct (t_inact (rt s i)) eqn:T.
    + destruct (IH s) as [R [W [L [E X]]]]. exists R, W, L. split; auto. intros j.
      destruct (X j) as [[A B]|[A B]].
      * left. split; auto. destruct (Nat.eq_dec i j) as [->|D]; auto. destruct B as [B|B]; auto.
        right. intros [b [Y|Y]]; [congruence|]. apply B. exists b; auto.
      * right. split; auto. destruct B as [b B]. exists b. right; auto.
    + destruct (IH (set_row_to_inactive i 0 s)) as [R [W [L [E X]]]]. exists R, W, L. split.
      * rewrite E. unfold set_row_to_inactive. destruct s; reflexivity.
      * intros j. specialize (X j). unfold set_row_to_inactive in X. sr in X.
        destruct (Nat.eq_dec j i) as [->|D].
        -- rewrite upd_same in X. right. split; [|exists a; left; auto].
           destruct X as [[X _]|[X _]]; rewrite X; destruct (rt s i); reflexivity.
        -- rewrite upd_other in X by auto. destruct X as [[X1 X2]|[X1 X2]].
           ++ left. split; auto. destruct X2 as [X2|X2]; auto. right.
              intros [b [Y|Y]]; [congruence|]. apply X2. exists b; auto.
           ++ right. split; auto. destruct X2 as [b X2]. exists b. right; auto.
Qed.
Lemma inf_shape : forall pos k s, exists R W L,
  fix_col_to_inf pos k s = (let v := if pos then PInf else NInf in
    set_ub1 k v (set_lb1 k v (setAT k [] (set_csz1 k (-1)%Z (set_ct1 k (tag_fixed (ct s k))
      (set_log L (set_w_rows W (set_rt R s)))))))) /\
  forall j, (R j = rt s j /\ (t_inact (rt s j) = true \/ ~ has j (mAT s k))) \/
            (R j = tag_inactive (rt s j) /\ has j (mAT s k)).
Proof.
  intros pos k s. unfold fix_col_to_inf.
  set (rec := FIXED_COL_INF pos k _ _).
  destruct (inf_rows_shape (mAT s k) (record rec s)) as [R [W [L [E X]]]].
  exists R, W, L. rewrite E. split; [|exact X]. destruct s; reflexivity.
Qed.

Definition eventually (up : bool) (p : Q -> Prop) : Prop := exists b, forall v, toward up b v -> p v.
Lemma ev_all : forall A (up : bool) (l : list A) (p : A -> Q -> Prop),
  (forall e, In e l -> eventually up (p e)) -> eventually up (fun v => forall e, In e l -> p e v).
Proof.
  intros A up l p. induction l as [|e l IH]; intros H.
  - exists 0. intros v _ e [].
  - destruct (H e (or_introl eq_refl)) as [b1 B1]. destruct IH as [b2 B2].
    { intros; apply H; right; auto. }
    exists (if up then Qmax b1 b2 else Qmin b1 b2). intros v TW f [<-|Hf].
    + apply B1. destruct up; simpl in *; [pose proof (Q.le_max_l b1 b2)|pose proof (Q.le_min_l b1 b2)]; lra.
    + apply B2; auto. destruct up; simpl in *; [pose proof (Q.le_max_r b1 b2)|pose proof (Q.le_min_r b1 b2)]; lra.
Qed.
Lemma ev_and : forall (up : bool) (p q : Q -> Prop), eventually up p -> eventually up q ->
  eventually up (fun v => p v /\ q v).
Proof.
  intros up p q [b1 B1] [b2 B2]. exists (if up then Qmax b1 b2 else Qmin b1 b2). intros v TW. split.
  - apply B1. destruct up; simpl in *; [pose proof (Q.le_max_l b1 b2)|pose proof (Q.le_min_l b1 b2)]; lra.
  - apply B2. destruct up; simpl in *; [pose proof (Q.le_max_r b1 b2)|pose proof (Q.le_min_r b1 b2)]; lra.
Qed.
(** Far enough that way every row containing it holds. *)
Lemma free_far : forall (up : bool) s k i a x, Inv s -> tags_right s -> free_dir up s k -> (i < nr s)%nat ->
  t_inact (rt s i) = false -> In (k, a) (mA s i) ->
  eventually up (fun v => within 0 (lhs s i) (dot (mA s i) (upd x k v)) (rhs s i)).
Proof.
  intros up s k i a x H TG FD Hi T Ha.
  assert (E : forall v, dot (mA s i) (upd x k v) == dot (mA s i) x + a * (v - x k)).
  { intros v. apply dot_upd; auto. apply (w_rsrt s (inv_0 s H) i Hi). }
  destruct (FD i a Hi T Ha) as [D1 D2].
  pose proof (tr_lhs s TG i Hi T) as TL. pose proof (tr_rhs s TG i Hi T) as TR.
  assert (Na : ~ a == 0) by (apply (w_rin s (inv_0 s H) i k a Hi Ha)).
  set (d := dot (mA s i) x) in *.
  assert (SOL : forall b, a * ((b - d) / a + x k - x k) == b - d) by (intros; field; auto).
  destruct (Q_dec a 0) as [[L|G]|Z]; [| |contradiction]; destruct up.
  - rewrite (D2 L) in TL. rewrite TL. destruct (rhs s i) as [|b|]; simpl.
    + destruct (t_rhs_inf (rt s i)); discriminate.
    + exists ((b - d) / a + x k). intros v TW. simpl in TW. split; [exact I|]. cbn [le_ext]. specialize (E v).
      specialize (SOL b). set (w := (b - d) / a + x k) in *. clearbody w. clear - E SOL TW L.
      assert (0 <= (0 - a) * (v - w)) by (apply Qmult_le_0_compat; lra). lra.
    + exists 0. intros; split; exact I.
  - rewrite (D2 L) in TR. rewrite TR. destruct (lhs s i) as [|b|]; simpl.
    + exists 0. intros; split; exact I.
    + exists ((b - d) / a + x k). intros v TW. simpl in TW. split; [|exact I]. cbn [ext_le]. specialize (E v).
      specialize (SOL b). set (w := (b - d) / a + x k) in *. clearbody w. clear - E SOL TW L.
      assert (0 <= (0 - a) * (w - v)) by (apply Qmult_le_0_compat; lra). lra.
    + destruct (t_lhs_inf (rt s i)); discriminate.
  - rewrite (D1 G) in TR. rewrite TR. destruct (lhs s i) as [|b|]; simpl.
    + exists 0. intros; split; exact I.
    + exists ((b - d) / a + x k). intros v TW. simpl in TW. split; [|exact I]. cbn [ext_le]. specialize (E v).
      specialize (SOL b). set (w := (b - d) / a + x k) in *. clearbody w. clear - E SOL TW G.
      assert (0 <= a * (v - w)) by (apply Qmult_le_0_compat; lra). lra.
    + destruct (t_lhs_inf (rt s i)); discriminate.
  - rewrite (D1 G) in TL. rewrite TL. destruct (rhs s i) as [|b|]; simpl.
    + destruct (t_rhs_inf (rt s i)); discriminate.
    + exists ((b - d) / a + x k). intros v TW. simpl in TW. split; [exact I|]. cbn [le_ext]. specialize (E v).
      specialize (SOL b). set (w := (b - d) / a + x k) in *. clearbody w. clear - E SOL TW G.
      assert (0 <= a * (w - v)) by (apply Qmult_le_0_compat; lra). lra.
    + exists 0. intros; split; exact I.
Qed.
Lemma inf_gstep : forall (up : bool) r c s k, Inv s -> tags_right s ->
  (k < nc s)%nat -> t_cinact (ct s k) = false -> free_dir up s k -> cst s k == 0 ->
  (if up then ub s k = PInf else lb s k = NInf) -> (forall i, 0 <= r i) -> (forall k, 0 <= c k) ->
  gstep r c s (fix_col_to_inf up k s).
Proof.
  intros up r c s k H TG Hk TK FD C0 BD RN CN.
  pose proof (cact_alive s k (inv_0 s H) Hk TK) as CK.
  destruct (inf_shape up k s) as [R [W [L [E X]]]]. cbv zeta in E. set (t := fix_col_to_inf up k s) in *.
  assert (AC : forall i, (i < nr s)%nat -> t_inact (rt t i) = false ->
                t_inact (rt s i) = false /\ ~ has k (mA s i)).
  { intros i Hi T. rewrite E in T. sr in T. destruct (X i) as [[A B]|[A B]]; rewrite A in T; [|discriminate].
    split; auto. destruct B as [B|B]; [congruence|]. intros [a Ha]. apply B. exists a.
    apply (w_agree s (inv_0 s H)); auto. apply act_alive; auto. apply H. }
  assert (OB : forall x, obj t x == obj s x).
  { intros x. unfold obj.
    assert (I0 : In k (live_cols s)) by (apply live_cols_in; auto).
    rewrite (sumQ_perm1 k (live_cols s)); auto using live_cols_nd. rewrite C0.
    rewrite (sumQ_same (live_cols t) (filter (fun j => negb (Nat.eqb j k)) (live_cols s))).
    - rewrite E. sr. lra.
    - apply live_cols_nd.
    - apply NoDup_filter, live_cols_nd.
    - intros j. rewrite filter_In, !live_cols_in, negb_true_iff, Nat.eqb_neq. rewrite E. sr.
      unfold upd. destruct (Nat.eqb_spec j k); intuition congruence. }
  constructor.
  - rewrite E. sr. reflexivity.
  - intros j. rewrite E. sr. updg; [discriminate|auto].
  - intros x [S1 [S2 S3]]. exists x. split; [|rewrite OB; lra]. split; [|split].
    + intros i Hi T. assert (Hi' : (i < nr s)%nat) by (rewrite E in Hi; exact Hi).
      destruct (AC i Hi' T) as [T' _]. specialize (S1 i Hi' T'). rewrite E. sr. exact S1.
    + rewrite E. sr. intros j Hj. updg; [discriminate|]. auto.
    + destruct S3 as [P1 P2]. destruct (active_unlisted s k H TK) as [N1 N2].
      split; rewrite E; sr; intros j Hj; [rewrite upd_other by (intros ->; contradiction)|]; auto.
  - intros x S. 
    assert (EV : eventually up (fun v =>
       (forall e, In e (mAT s k) -> (fst e < nr s)%nat -> t_inact (rt s (fst e)) = false ->
          within 0 (lhs s (fst e)) (dot (mA s (fst e)) (upd x k v)) (rhs s (fst e))) /\
       within 0 (lb s k) v (ub s k))).
    { apply ev_and.
      - apply ev_all. intros [i a] Hin. cbn [fst].
        destruct (w_cin s (inv_0 s H) i k a Hk Hin) as [Hi _].
        destruct (t_inact (rt s i)) eqn:T.
        + exists 0. intros v _ _. discriminate.
        + assert (Ha : In (k, a) (mA s i)).
          { apply (w_agree s (inv_0 s H)); auto. apply act_alive; auto. apply H. }
          destruct (free_far up s k i a x H TG FD Hi T Ha) as [b B]. exists b. auto.
      - pose proof (tr_lb s TG k Hk TK) as TL. pose proof (tr_ub s TG k Hk TK) as TU.
        destruct up; rewrite BD.
        + destruct (lb s k) as [|b|].
          * exists 0. intros; split; exact I.
          * exists b. intros v TW. simpl in TW. split; simpl; auto. lra.
          * destruct (t_lb_inf (ct s k)); discriminate.
        + destruct (ub s k) as [|b|].
          * destruct (t_ub_inf (ct s k)); discriminate.
          * exists b. intros v TW. simpl in TW. split; simpl; auto. lra.
          * exists 0. intros; split; exact I. }
    destruct EV as [v EV]. specialize (EV v). destruct EV as [EV1 EV2]; [destruct up; simpl; lra|].
    exists (upd x k v). split; [|split].
    + intros j Hj T. rewrite E in T. sr in T. updh T; [discriminate|]. rewrite upd_other by auto. lra.
    + destruct S as [S1 [S2 [P1 P2]]]. split; [|split].
      * intros i Hi T. destruct (hasb k (mA s i)) eqn:HB.
        -- apply hasb_has in HB. destruct HB as [a Ha].
           assert (Hin : In (i, a) (mAT s k)).
           { apply (w_agree s (inv_0 s H)); auto. apply act_alive; auto. apply H. }
           apply (within_le 0); auto. apply (EV1 (i, a)); auto.
        -- assert (NH : ~ has k (mA s i)) by (intros C; apply hasb_has in C; congruence).
           eapply within_ext; [symmetry; apply dot_off; auto|].
           assert (NT : ~ has i (mAT s k)).
           { intros [a Ha]. apply NH. exists a. apply (w_agree s (inv_0 s H)); auto. apply act_alive; auto. apply H. }
           assert (T' : t_inact (rt t i) = false).
           { rewrite E. sr. destruct (X i) as [[A _]|[_ A]]; [congruence|contradiction]. }
           specialize (S1 i). rewrite E in S1. sr in S1. apply S1; auto. rewrite E in T'. exact T'.
      * intros j Hj T. destruct (Nat.eq_dec j k) as [->|D].
        -- rewrite upd_same. apply (within_le 0); auto.
        -- rewrite upd_other by auto. specialize (S2 j). rewrite E in S2. sr in S2.
           rewrite !upd_other in S2 by auto. auto.
      * destruct (active_unlisted s k H TK) as [N1 N2].
        split; intros j Hj; rewrite upd_other by (intros ->; contradiction).
        -- specialize (P1 j). rewrite E in P1. sr in P1. rewrite upd_other in P1 by (intros ->; contradiction). auto.
        -- specialize (P2 j). rewrite E in P2. sr in P2. auto.
    + rewrite OB. rewrite obj_move by auto. rewrite C0. lra.
Qed.

(** ** The loop *)
Definition goes_off (s : state) (k : nat) : Prop :=
  t_cinact (ct s k) = false /\
  (0 < cst s k /\ dns s k = 0%Z /\ t_lb_inf (ct s k) = true \/
   cst s k < 0 /\ ups s k = 0%Z /\ t_ub_inf (ct s k) = true).
Definition inf_ok (s : state) (e : bool * nat) : Prop :=
  (snd e < nc s)%nat /\ t_cinact (ct s (snd e)) = false /\ cst s (snd e) == 0 /\
  if fst e then dns s (snd e) <> 0%Z /\ ups s (snd e) = 0%Z /\ t_ub_inf (ct s (snd e)) = true
  else dns s (snd e) = 0%Z /\ t_lb_inf (ct s (snd e)) = true.
Definition tol_ok (c : nat -> Q) (s : state) : Prop := forall k, (k < nc s)%nat -> t_cinact (ct s k) = false ->
  0 <= c k /\ (FEAS_TOL <= c k \/ (is_fin (lb s k) = true -> is_fin (ub s k) = true -> fin (lb s k) <= fin (ub s k))).
Record DF (r c : nat -> Q) (s0 s : state) (l : list nat) (ti : list (bool * nat)) : Prop := {
  df_inv : Inv s; df_mid : Mid s; df_g : gstep r c s0 s;
  df_nc : nc s = nc s0;
  df_ups : ups s = ups s0; df_dns : dns s = dns s0; df_cst : cst s = cst s0;
  df_rest : forall j, In j l \/ In j (map snd ti) -> ct s j = ct s0 j /\ lb s j = lb s0 j /\ ub s j = ub s0 j;
  df_l : forall j, In j l -> (j < nc s0)%nat;
  df_nd : NoDup l; df_nt : NoDup (map snd ti); df_dis : forall j, In j l -> ~ In j (map snd ti);
  df_ti : forall e, In e ti -> inf_ok s0 e }.

Lemma DF_skip : forall r c s0 s k l ti, DF r c s0 s (k :: l) ti -> DF r c s0 s l ti.
Proof.
  intros r c s0 s k l ti []. inversion df_nd0; subst. constructor; auto.
  - intros j [X|X]; apply df_rest0; auto. left; right; auto.
  - intros; apply df_l0; right; auto.
  - intros; apply df_dis0; right; auto.
Qed.
Lemma DF_push : forall r c s0 s k l ti b, DF r c s0 s (k :: l) ti -> inf_ok s0 (b, k) -> DF r c s0 s l (ti ++ [(b, k)]).
Proof.
  intros r c s0 s k l ti b [] I0. inversion df_nd0; subst. constructor; auto.
  - intros j X. apply df_rest0. rewrite map_app, in_app_iff in X. simpl in *. tauto.
  - intros; apply df_l0; right; auto.
  - rewrite map_app. simpl. apply NoDup_app_one; auto. apply df_dis0. left; auto.
  - intros j Hj. rewrite map_app, in_app_iff. simpl. intros [X|[X|[]]].
    + revert X. apply df_dis0. right; auto.
    + subst j. contradiction.
  - intros e He. apply in_app_or in He. destruct He as [He|[<-|[]]]; auto.
Qed.
Lemma DF_fix : forall (up : bool) r c s0 s k l ti, DF r c s0 s (k :: l) ti -> tol_ok c s0 ->
  t_cinact (ct s0 k) = false ->
  (if up then ups s0 k = 0%Z /\ cst s0 k <= 0 /\ t_ub_inf (ct s0 k) = false
   else dns s0 k = 0%Z /\ 0 <= cst s0 k /\ t_lb_inf (ct s0 k) = false) ->
  DF r c s0 (fst (fix_col k (if up then fin (ub s k) else fin (lb s k)) (cst s k) s)) l ti.
Proof.
  intros up r c s0 s k l ti D TO TK CB. pose proof D as [].
  assert (Hk : (k < nc s)%nat) by (rewrite df_nc0; apply df_l0; left; auto).
  destruct (df_rest0 k (or_introl (or_introl eq_refl))) as [E1 [E2 E3]].
  rewrite <- E1 in TK. inversion df_nd0; subst.
  set (v := if up then fin (ub s k) else fin (lb s k)).
  pose proof (fix_col_cases s k v (cst s k)) as FC.
  pose proof (stp_fix_col s k v (cst s k) df_inv0 Hk) as SP.
  pose proof (fix_col_Mid s k v (cst s k) df_inv0 df_mid0 Hk TK) as MM.
  destruct (fix_col k v (cst s k) s) as [s1 st] eqn:EF. cbn [fst] in *.
  destruct FC as [[_ [-> _]]|[-> [_ [_ [A [W EE]]]]]]; [eapply DF_skip; eauto|].
  assert (GS : gstep r c s s1).
  { assert (FD : free_dir up s k).
    { apply locks_free; auto; [apply df_mid0|]. rewrite df_ups0, df_dns0. destruct up; tauto. }
    assert (BV : if up then ub s k = Fin v else lb s k = Fin v).
    { rewrite <- E1 in CB. destruct up; destruct CB as [_ [_ CB]].
      - pose proof (tr_ub s (md_tags s df_mid0) k Hk TK) as X. rewrite CB in X. unfold v. destruct (ub s k); try discriminate; auto.
      - pose proof (tr_lb s (md_tags s df_mid0) k Hk TK) as X. rewrite CB in X. unfold v. destruct (lb s k); try discriminate; auto. }
    apply (fix_free up r c s k v s1); auto; try apply df_mid0.
    - rewrite df_cst0. destruct up; tauto.
    - assert (K0 : (k < nc s0)%nat) by congruence. rewrite E1 in TK.
      destruct (TO k K0 TK) as [N0 OR]. split; auto. destruct OR as [OR|OR]; auto. right.
      pose proof (tr_ub s (md_tags s df_mid0) k Hk) as XU. pose proof (tr_lb s (md_tags s df_mid0) k Hk) as XL.
      rewrite E1, E3 in XU. rewrite E1, E2 in XL. specialize (XU TK). specialize (XL TK).
      rewrite E2, E3. clear E1. rewrite E2, E3 in BV. clear - BV OR XU XL.
      destruct up; rewrite BV in *; cbn [is_fin fin ext_le le_ext] in *.
      + split; [|lra]. destruct (lb s0 k); cbn [ext_le is_fin fin] in *; auto;
          destruct (t_lb_inf (ct s0 k)); discriminate.
      + split; [lra|]. destruct (ub s0 k); cbn [le_ext is_fin fin] in *; auto;
          destruct (t_ub_inf (ct s0 k)); discriminate. }
  assert (KI : ~ In k (map snd ti)) by (apply df_dis0; left; auto).
  constructor; auto.
  - apply SP.
  - eapply gstep_trans; eauto.
  - rewrite EE. exact df_nc0.
  - rewrite EE. exact df_ups0.
  - rewrite EE. exact df_dns0.
  - rewrite EE. exact df_cst0.
  - intros j X. assert (DJ : j <> k) by (intros ->; destruct X; contradiction).
    rewrite EE. unfold set_col_to_fixed. sr. rewrite !upd_other by auto. apply df_rest0. simpl. tauto.
  - intros; apply df_l0; right; auto.
  - intros; apply df_dis0; right; auto.
Qed.
Lemma DF_loop : forall r c s0, tol_ok c s0 ->
  forall l s ti st, DF r c s0 s l ti -> st = UNCHANGED \/ st = UNBNDORINFEAS ->
  let '(s', ti', st') := dual_fix_loop l s ti st in
  DF r c s0 s' [] ti' /\ (st' = UNCHANGED \/ st' = UNBNDORINFEAS) /\
  (st' = UNBNDORINFEAS <-> st = UNBNDORINFEAS \/ exists k, In k l /\ goes_off s0 k).
Proof.
  intros r c s0 TO. induction l as [|k l IH]; intros s ti st D ST; cbn [dual_fix_loop].
  - split; auto. split; auto. split; auto. intros [X|[k [[] _]]]; auto.
  - pose proof (df_rest _ _ _ _ _ _ D k (or_introl (or_introl eq_refl))) as [E1 [E2 E3]].
    rewrite E1, (df_ups _ _ _ _ _ _ D), (df_dns _ _ _ _ _ _ D).
    pose proof (df_l _ _ _ _ _ _ D k (or_introl eq_refl)) as K0.
    assert (NEXT : forall s1 ti1 st1, DF r c s0 s1 l ti1 -> st1 = UNCHANGED \/ st1 = UNBNDORINFEAS ->
      (st1 = UNBNDORINFEAS <-> goes_off s0 k) ->
      let '(s', ti', st') := dual_fix_loop l s1 ti1 (N.lor st st1) in
      DF r c s0 s' [] ti' /\ (st' = UNCHANGED \/ st' = UNBNDORINFEAS) /\
      (st' = UNBNDORINFEAS <-> st = UNBNDORINFEAS \/ exists k0, In k0 (k :: l) /\ goes_off s0 k0)).
    { intros s1 ti1 st1 D1 S1 G1.
      assert (LO : N.lor st st1 = UNCHANGED \/ N.lor st st1 = UNBNDORINFEAS)
        by (destruct ST as [-> | ->], S1 as [-> | ->]; cbn; auto).
      assert (LE : N.lor st st1 = UNBNDORINFEAS <-> st = UNBNDORINFEAS \/ st1 = UNBNDORINFEAS).
      { destruct ST as [-> | ->], S1 as [-> | ->]; cbn; intuition discriminate. }
      specialize (IH s1 ti1 (N.lor st st1) D1 LO).
      destruct (dual_fix_loop l s1 ti1 (N.lor st st1)) as [[s' ti'] st'].
      destruct IH as [A [B C]]. split; auto. split; auto. rewrite C, LE, G1. clear. split.
      - intros [[X|X]|[j [X Y]]]; auto.
        + right. exists k. split; auto. left; auto.
        + right. exists j. split; auto. right; auto.
      - intros [X|[j [[->|X] Y]]]; auto. right. exists j; auto. }
    destruct (t_cinact (ct s0 k)) eqn:TK; cbn [orb].
    { specialize (NEXT s ti UNCHANGED (DF_skip _ _ _ _ _ _ _ D) (or_introl eq_refl)).
      rewrite N.lor_0_r in NEXT. apply NEXT. split; [discriminate|]. intros [X _]. congruence. }
    destruct (Z.gtb (ups s0 k) 0 && Z.gtb (dns s0 k) 0) eqn:LL.
    { apply andb_true_iff in LL. destruct LL as [L1 L2]. apply Z.gtb_lt in L1, L2.
      specialize (NEXT s ti UNCHANGED (DF_skip _ _ _ _ _ _ _ D) (or_introl eq_refl)).
      rewrite N.lor_0_r in NEXT. apply NEXT. split; [discriminate|].
      intros [_ [[_ [X _]]|[_ [X _]]]]; lia. }
    assert (OFF : UNCHANGED = UNBNDORINFEAS <-> False) by (split; [discriminate|tauto]).
    assert (KEY : let '(s1, ti1, st1) := simple_dual_fix_col k s ti in
      DF r c s0 s1 l ti1 /\ (st1 = UNCHANGED \/ st1 = UNBNDORINFEAS) /\ (st1 = UNBNDORINFEAS <-> goes_off s0 k)).
    { unfold simple_dual_fix_col. rewrite E1, (df_ups _ _ _ _ _ _ D), (df_dns _ _ _ _ _ _ D).
      pose proof (DF_skip _ _ _ _ _ _ _ D) as DS.
      pose proof (fun b => DF_push _ _ _ _ _ _ _ b D) as DP.
      pose proof (fun b => DF_fix b _ _ _ _ _ _ _ D TO TK) as DX.
      pose proof (DX true) as DU. pose proof (DX false) as DL. cbn iota in DU, DL. clear DX.
      rewrite (df_cst _ _ _ _ _ _ D) in *. clear NEXT IH.
      destruct (Qgtb (cst s0 k) 0) eqn:C1; destruct (Z.eqb (dns s0 k) 0) eqn:Z1; cbn [andb];
        rewrite ?Z.eqb_eq, ?Z.eqb_neq in *;
      (destruct (Qltb (cst s0 k) 0) eqn:C2; destruct (Z.eqb (ups s0 k) 0) eqn:Z2; cbn [andb];
        rewrite ?Z.eqb_eq, ?Z.eqb_neq in *);
      (destruct (Qeqb (cst s0 k) 0) eqn:C3); qb;
      try (destruct (t_lb_inf (ct s0 k)) eqn:TL); try (destruct (t_ub_inf (ct s0 k)) eqn:TU);
      try lra;
      first
       [ split; [exact DS|split; [auto|]]; split; [discriminate|];
         intros [_ [[? [? ?]]|[? [? ?]]]]; solve [congruence|lra]
       | split; [exact DS|split; [auto|]]; split; [intros _|auto]; split; [exact TK|]; solve [left; auto|right; auto]
       | split; [apply DL; repeat split; auto; lra|split; [auto|]]; split; [discriminate|];
         intros [_ [[? [? ?]]|[? [? ?]]]]; solve [congruence|lra]
       | split; [apply DU; repeat split; auto; lra|split; [auto|]]; split; [discriminate|];
         intros [_ [[? [? ?]]|[? [? ?]]]]; solve [congruence|lra]
       | split; [apply DP; split; [exact K0|]; split; [exact TK|]; cbn [fst snd]; repeat split; auto; lra|split; [auto|]];
         split; [discriminate|]; intros [_ [[? [? ?]]|[? [? ?]]]]; solve [congruence|lra]
       | idtac ]. }
    destruct (simple_dual_fix_col k s ti) as [[s1 ti1] st1]. destruct KEY as [A [B C]]. apply NEXT; auto.
Qed.

Lemma DF_inf : forall r c s0, (forall i, 0 <= r i) -> (forall k, 0 <= c k) -> forall ti s, DF r c s0 s [] ti ->
  DF r c s0 (foldS inf_step ti s) [] [].
Proof.
  intros r c s0 RN CN. induction ti as [|[b k] ti IH]; intros s D; cbn [foldS]; auto. apply IH.
  pose proof D as []. cbn [map snd] in *. inversion df_nt0; subst.
  destruct (df_ti0 (b, k) (or_introl eq_refl)) as [K0 [TK [C0 LB]]]. cbn [fst snd] in *.
  destruct (df_rest0 k (or_intror (or_introl eq_refl))) as [E1 [E2 E3]].
  assert (ES : inf_step s (b, k) = fix_col_to_inf b k s).
  { unfold inf_step. destruct (Nat.eqb k 0); auto. rewrite df_dns0, df_ups0. destruct b.
    - destruct LB as [L1 [L2 _]]. rewrite L2. apply Z.eqb_neq in L1. rewrite L1. reflexivity.
    - destruct LB as [L1 _]. rewrite L1. reflexivity. }
  assert (Hk : (k < nc s)%nat) by congruence.
  rewrite <- E1 in TK.
  assert (GS : gstep r c s (fix_col_to_inf b k s)).
  { apply inf_gstep; auto.
    - apply df_mid0.
    - apply locks_free; auto; [apply df_mid0|]. rewrite df_ups0, df_dns0. destruct b; tauto.
    - rewrite df_cst0. auto.
    - rewrite <- E1 in LB.
      pose proof (tr_ub s (md_tags s df_mid0) k Hk TK) as XU. pose proof (tr_lb s (md_tags s df_mid0) k Hk TK) as XL.
      destruct b; [destruct LB as [_ [_ LB]]; rewrite LB in XU|destruct LB as [_ LB]; rewrite LB in XL]; auto. }
  destruct (active_unlisted s k df_inv0 TK) as [NF _].
  pose proof (inf_step_stp s b k df_inv0 Hk) as [SP _]. rewrite ES in *.
  pose proof (fix_col_to_inf_Mid b k s df_inv0 df_mid0 Hk NF) as MM.
  destruct (inf_shape b k s) as [R [W [L [EE _]]]]. cbv zeta in EE.
  constructor; auto.
  - apply SP.
  - eapply gstep_trans; eauto.
  - rewrite EE. exact df_nc0.
  - rewrite EE. exact df_ups0.
  - rewrite EE. exact df_dns0.
  - rewrite EE. exact df_cst0.
  - intros j [[]|X]. assert (DJ : j <> k) by (intros ->; contradiction).
    rewrite EE. sr. rewrite !upd_other by auto. apply df_rest0. simpl. tauto.
  - intros; apply df_ti0; right; auto.
Qed.

(** ** Running away *)
Lemma wsum_all0 : forall w c, (forall i a, In (i, a) c -> w i a = 0%Z) -> wsum w c = 0%Z.
Proof.
  induction c as [|[i a] c IH]; intros H; cbn [wsum]; auto. rewrite IH by (intros; apply H; right; auto).
  rewrite (H i a) by (left; auto). reflexivity.
Qed.
Lemma free_locks : forall (up : bool) s k, Ok s -> LK s ->
  (k < nc s)%nat -> t_cinact (ct s k) = false -> free_dir up s k -> (if up then ups s k else dns s k) = 0%Z.
Proof.
  intros up s k [H QU _] L Hk TK FD. destruct (L k Hk TK) as [LU LD].
  assert (Z : forall i a, In (i, a) (mAT s k) -> (if up then upt (rt s i) a else dnt (rt s i) a) = 0%Z).
  { intros i a Hin. destruct (w_cin s (inv_0 s H) i k a Hk Hin) as [Hi _].
    pose proof (cact_alive s k (inv_0 s H) Hk TK) as CK.
    pose proof (inv_C s H i k a Hk TK Hin) as RZ.
    assert (T : t_inact (rt s i) = false) by (apply quiet_row; auto; apply QU).
    assert (Ha : In (k, a) (mA s i)) by (apply (w_agree s (inv_0 s H)); auto).
    assert (Na : ~ a == 0) by (apply (w_rin s (inv_0 s H) i k a Hi Ha)).
    destruct (FD i a Hi T Ha) as [D1 D2]. unfold upt, dnt, dnw, upw.
    destruct up; destruct (Qgtb a 0) eqn:G; qb;
      first [rewrite D1 by auto|rewrite D2 by lra];
      destruct (t_rhs_inf (rt s i)), (t_lhs_inf (rt s i)); reflexivity. }
  destruct up; [rewrite LU|rewrite LD]; apply wsum_all0; auto.
Qed.
Lemma free_unstopped : forall (up : bool) s k, Ok s -> Mid s -> free_dir up s k <-> unstopped (reduced_lp s) up k.
Proof.
  intros up s k OK M. pose proof (md_tags s M) as TG. split.
  - intros FD i a Hi Ha. cbn [lp_rows lp_A lp_lhs lp_rhs reduced_lp] in *. apply live_row_act in Hi; auto.
    destruct Hi as [Hi T]. destruct (FD i a Hi T Ha) as [D1 D2].
    pose proof (tr_lhs s TG i Hi T) as TL. pose proof (tr_rhs s TG i Hi T) as TR.
    destruct up; split; intros X; first [specialize (D1 X); clear D2|specialize (D2 X); clear D1];
      first [rewrite D1 in TL|rewrite D1 in TR|rewrite D2 in TL|rewrite D2 in TR]; auto.
  - intros US i a Hi T Ha. destruct (US i a) as [D1 D2]; [apply live_row_act; auto|exact Ha|].
    cbn [lp_rows lp_A lp_lhs lp_rhs reduced_lp] in *.
    pose proof (tr_lhs s TG i Hi T) as TL. pose proof (tr_rhs s TG i Hi T) as TR.
    destruct up; split; intros X; first [specialize (D1 X); clear D2|specialize (D2 X); clear D1];
      first [rewrite D1 in TL|rewrite D1 in TR|rewrite D2 in TL|rewrite D2 in TR];
      destruct (t_lhs_inf (rt s i)), (t_rhs_inf (rt s i)); auto; discriminate.
Qed.
Lemma goes_off_runs : forall s k, Ok s -> Mid s -> (k < nc s)%nat -> goes_off s k <->
  In k (lp_cols (reduced_lp s)) /\ runs_away (reduced_lp s) k.
Proof.
  intros s k OK M Hk. unfold goes_off, runs_away. cbn [lp_cols lp_c lp_lb lp_ub reduced_lp].
  rewrite (live_col_act s k OK). rewrite <- !free_unstopped by auto.
  pose proof (md_tags s M) as TG.
  split.
  - intros [TK X]. split; auto.
    pose proof (tr_ub s TG k Hk TK) as XU. pose proof (tr_lb s TG k Hk TK) as XL.
    destruct X as [[X [Y Z]]|[X [Y Z]]]; [left|right]; (split; [auto|split]).
    + rewrite Z in XL. auto.
    + apply locks_free; auto; [apply OK|apply M].
    + rewrite Z in XU. auto.
    + apply locks_free; auto; [apply OK|apply M].
  - intros [[_ TK] X]. split; auto.
    pose proof (tr_ub s TG k Hk TK) as XU. pose proof (tr_lb s TG k Hk TK) as XL.
    destruct X as [[X [Y Z]]|[X [Y Z]]]; [left|right]; (split; [auto|split]).
    + apply (free_locks false); auto. apply M.
    + rewrite Y in XL. destruct (t_lb_inf (ct s k)); auto; discriminate.
    + apply (free_locks true); auto. apply M.
    + rewrite Y in XU. destruct (t_ub_inf (ct s k)); auto; discriminate.
Qed.
Lemma runs_unbounded : forall s k x, Ok s -> Mid s -> In k (live_cols s) -> runs_away (reduced_lp s) k ->
  feasible (reduced_lp s) x -> unbounded (reduced_lp s).
Proof.
  intros s k x OK M Hk RA Fx B. apply live_col_act in Hk; auto. destruct Hk as [Hk TK].
  unfold runs_away in RA. rewrite <- !free_unstopped in RA by auto. cbn [lp_c lp_lb lp_ub reduced_lp] in RA.
  apply sat_feasible in Fx; auto.
  pose proof (cact_alive s k (inv_0 s (ok_inv _ OK)) Hk TK) as CK.
  assert (XB : ext_le (lb s k) (x k) /\ le_ext (x k) (ub s k)).
  { apply (proj1 (within0 (lb s k) (x k) (ub s k))). destruct Fx as [_ [S2 _]]. exact (S2 k Hk TK). }
  destruct XB as [XB1 XB2].
  set (d := Qabs ((obj s x - B + 1) / cst s k)).
  assert (DN : 0 <= d) by apply Qabs_nonneg.
  set (q := (obj s x - B + 1) / cst s k) in *.
  assert (DQ : q <= d) by apply Qle_Qabs.
  assert (DQ' : - q <= d) by (unfold d; rewrite <- Qabs_opp; apply Qle_Qabs).
  clearbody d. destruct RA as [[X [Y Z]]|[X [Y Z]]].
  - exists (upd x k (x k - d)).
    assert (CQ : cst s k * q == obj s x - B + 1) by (unfold q; field; lra).
    split.
    + apply sat_feasible; auto. apply (free_move false); auto; [apply OK|apply M|simpl; lra|].
      rewrite Y in *. apply within0. split; [exact I|]. destruct (ub s k); simpl in *; auto. lra.
    + rewrite <- obj_reduced. rewrite obj_move by auto.
      assert (0 <= cst s k * (d - q)) by (apply Qmult_le_0_compat; lra). lra.
  - exists (upd x k (x k + d)).
    assert (CQ : cst s k * q == obj s x - B + 1) by (unfold q; field; lra).
    split.
    + apply sat_feasible; auto. apply (free_move true); auto; [apply OK|apply M|simpl; lra|].
      rewrite Y in *. apply within0. split; [|exact I]. destruct (lb s k); simpl in *; auto. lra.
    + rewrite <- obj_reduced. rewrite obj_move by auto.
      assert (0 <= (0 - cst s k) * (d + q)) by (apply Qmult_le_0_compat; lra). lra.
Qed.

Lemma dual_fix_sem : forall s s' st, Ok s -> Mid s -> simple_dual_fix s = (s', st) ->
  (st = UNBNDORINFEAS <-> exists k, In k (lp_cols (reduced_lp s)) /\ runs_away (reduced_lp s) k) /\
  (st = UNBNDORINFEAS -> forall x, feasible (reduced_lp s) x -> unbounded (reduced_lp s)) /\
  no_loss (reduced_lp s) (reduced_lp s') /\
  lifts_back exactly (crossed_tol (reduced_lp s)) (reduced_lp s) (reduced_lp s').
Proof.
  intros s s' st OK M E. pose proof OK as [H QU NX].
  pose proof (dual_fix_spec s H (q_sub _ QU)) as SPC. rewrite E in SPC. destruct SPC as [I' [MO [Q' N']]].
  unfold simple_dual_fix in E.
  assert (CN : forall k, 0 <= crossed_tol (reduced_lp s) k).
  { intros k. unfold crossed_tol. cbn [lp_lb lp_ub reduced_lp]. destruct (lb s k), (ub s k); try lra. destruct (Qle_bool _ _); unfold FEAS_TOL; lra. }
  assert (D0 : DF exactly (crossed_tol (reduced_lp s)) s s (seq 0 (nc s)) []).
  { constructor; auto using gstep_refl, seq_NoDup.
    - intros j Hj. apply in_seq in Hj. lia.
    - constructor.
    - intros e []. }
  assert (TO : tol_ok (crossed_tol (reduced_lp s)) s).
  { intros k Hk TK. split; auto. unfold crossed_tol. cbn [lp_lb lp_ub reduced_lp].
    destruct (lb s k); try (right; discriminate). destruct (ub s k); try (right; discriminate).
    destruct (Qle_bool q q0) eqn:LE; [|left; lra]. right. intros _ _. apply Qle_bool_iff in LE. auto. }
  pose proof (DF_loop exactly (crossed_tol (reduced_lp s)) s TO (seq 0 (nc s)) s [] UNCHANGED D0 (or_introl eq_refl)) as L1.
  pose proof (dual_fix_loop_stp (seq 0 (nc s)) s [] UNCHANGED H) as SS1.
  destruct (dual_fix_loop (seq 0 (nc s)) s [] UNCHANGED) as [[s1 ti] st1].
  destruct L1 as [D1 [ST1 EQ1]].
  destruct SS1 as [S1 [F1 T1]].
  { intros k Hk. apply in_seq in Hk. lia. }
  { intros e []. }
  pose proof (DF_inf _ _ s (fun i => Qle_refl 0) CN ti s1 D1) as D2.
  destruct (inf_steps_stp ti s1 (st_inv _ _ S1)) as [S2 F2].
  { rewrite (stp_nc _ _ S1). auto. }
  set (s2 := foldS inf_step ti s1) in *. clearbody s2.
  destruct (stp_dir s2 (st_inv _ _ S2)) as [S3 [F3 W3]].
  destruct (dir_sem s2 (st_inv _ _ S2)) as [A1 [A2 [A3 [A4 [A5 [A6 A7]]]]]].
  pose proof (dir_Mid s2 (st_inv _ _ S2) (df_mid _ _ _ _ _ _ D2)) as M3.
  set (s3 := delete_inactive_rows s2) in *. clearbody s3.
  assert (W : w_sub s3 = []).
  { destruct F1 as [f1 _], F2 as [_ [f2 _]], F3 as [_ [f3 _]]. rewrite f3, f2, f1. apply QU. }
  injection E as E <-. fold (finish s3) in E.
  assert (EX : st1 = UNBNDORINFEAS <-> exists k, In k (lp_cols (reduced_lp s)) /\ runs_away (reduced_lp s) k).
  { rewrite EQ1. split.
    - intros [X|[k [X Y]]]; [discriminate|]. apply in_seq in X. exists k. apply goes_off_runs; auto. lia.
    - intros [k X]. right. exists k. pose proof (proj1 X) as Hk. apply live_col_act in Hk; auto. destruct Hk as [Hk _].
      split; [apply in_seq; lia|apply goes_off_runs; auto]. }
  split; auto. split.
  { intros X x Fx. apply EX in X. destruct X as [k [X Y]]. eapply runs_unbounded; eauto. }
  assert (G3 : gstep exactly (crossed_tol (reduced_lp s)) s s3).
  { eapply gstep_trans; [apply D2|].
    assert (N3 : nc s3 = nc s2) by (destruct A5 as [_ [_ [_ [_ [_ [_ [_ [_ [_ [X _]]]]]]]]]]; exact X).
    assert (C3 : ct s3 = ct s2) by (destruct A5 as [_ [_ [_ [X _]]]]; exact X).
    constructor; auto.
    - rewrite C3. auto.
    - intros x S. exists x. split; [apply A1; auto|]. rewrite A2. lra.
    - intros x S. exists x. split; [intros; lra|]. split; [apply A1; auto|]. rewrite A2. lra. }
  subst s'. apply (gstep_lp exactly (crossed_tol (reduced_lp s)) s s3); auto.
  - apply S3.
  - apply M3.
  - apply M3.
  - constructor; auto.
  - intros; unfold exactly; lra.
Qed.
