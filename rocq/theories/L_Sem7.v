(** The lock counters count the rows that stop a variable; exact conditions for the reports of the
    empty-row and empty-column explorers; fixing a single column. *)
From Coq Require Import NArith Lqa Qabs.
From Verif Require Import M_Num S_LP M_Settings M_Driver S_Driver M_State M_Act M_Core M_Simple
  M_StonCols M_Dton M_Parallel M_Propagate M_Init M_Post M_Run S_Run S_Struct S_Sem S_FixCols
  L_State L_Struct L_Struct2 L_Struct3 L_Struct4 L_Struct5 L_Struct6 L_Struct11
  L_Sem L_Sem2 L_Sem3 L_Sem4 L_Sem5 L_Sem6 L_Mid L_Mid2 L_Mid3.
Open Scope Q_scope.

Lemma dot_moved_out : forall r k x d, ~ has k r -> dot r (moved_by x k d) == dot r x.
Proof.
  intros r k x d N. apply dot_ext. intros j a Hin. unfold moved_by.
  destruct (Nat.eqb_spec j k) as [->|]; [|lra]. exfalso. apply N. exists a. auto.
Qed.
Lemma dot_moved : forall r k a x d, srt r -> In (k, a) r -> dot r (moved_by x k d) == dot r x + a * d.
Proof.
  induction r as [|[j b] r IH]; intros k a x d S Hin; [contradiction|].
  apply srt_inv in S. destruct S as [S L]. cbn [dot]. destruct Hin as [E|Hin].
  - injection E as -> ->. rewrite dot_moved_out.
    + unfold moved_by. rewrite Nat.eqb_refl. lra.
    + intros [c Hc]. apply L in Hc. simpl in Hc. lia.
  - rewrite (IH k a x d S Hin). unfold moved_by. destruct (Nat.eqb_spec j k) as [->|]; [|lra].
    apply L in Hin. simpl in Hin. lia.
Qed.

Lemma wsum_count : forall w c, (forall i a, In (i, a) c -> w i a = 0%Z \/ w i a = 1%Z) ->
  wsum w c = Z.of_nat (length (filter (fun e : nat * Q => Z.eqb (w (fst e) (snd e)) 1) c)).
Proof.
  induction c as [|[i a] c IH]; intros H; [reflexivity|]. cbn [wsum filter fst snd].
  rewrite IH by (intros; apply H; right; auto).
  destruct (H i a (or_introl eq_refl)) as [E|E]; rewrite E; cbn [Z.eqb Pos.eqb length]; [lia|]. rewrite Nat2Z.inj_succ. lia.
Qed.
Lemma upw_cases : forall t a, upt t a = 0%Z \/ upt t a = 1%Z.
Proof. intros [l r e i] a. unfold upt, upw. simpl. destruct l, r, (Qgtb a 0); simpl; auto. Qed.
Lemma dnw_cases : forall t a, dnt t a = 0%Z \/ dnt t a = 1%Z.
Proof. intros [l r e i] a. unfold dnt, dnw, upw. simpl. destruct l, r, (Qgtb a 0); simpl; auto. Qed.

Lemma far_above : forall (v b a : Q), 0 < a -> exists d, 0 <= d /\ b < v + a * d.
Proof.
  intros v b a A. exists (Qabs (b - v) / a + 1 / a). 
  assert (E : a * (Qabs (b - v) / a + 1 / a) == Qabs (b - v) + 1) by (field; lra).
  pose proof (Qabs_nonneg (b - v)). pose proof (Qle_Qabs (b - v)). split.
  - assert (0 <= (Qabs (b - v) + 1) / a). { apply Qle_shift_div_l; lra. }
    assert (E2 : Qabs (b - v) / a + 1 / a == (Qabs (b - v) + 1) / a) by (field; lra). lra.
  - lra.
Qed.

(** a row with coefficient [b] in the direction moved *)
Lemma row_stops : forall P k i a (dir : Q), srt (lp_A P i) -> In (k, a) (lp_A P i) ->
  (0 < a * dir /\ is_fin (lp_rhs P i) = true \/ a * dir < 0 /\ is_fin (lp_lhs P i) = true) ->
  stops P dir k i.
Proof.
  intros P k i a dir S Hin C x. destruct C as [[A F]|[A F]].
  - destruct (lp_rhs P i) as [|b|] eqn:E; try discriminate.
    destruct (far_above (dot (lp_A P i) x) b (a * dir) A) as [d [D1 D2]]. exists d. split; auto.
    intros [_ R]. rewrite E in R. simpl in R. rewrite (dot_moved _ _ _ _ _ S Hin) in R.
    assert (a * (dir * d) == a * dir * d) by ring. lra.
  - destruct (lp_lhs P i) as [|b|] eqn:E; try discriminate.
    destruct (far_above (- dot (lp_A P i) x) (- b) (- (a * dir)) ltac:(lra)) as [d [D1 D2]]. exists d. split; auto.
    intros [R _]. rewrite E in R. simpl in R. rewrite (dot_moved _ _ _ _ _ S Hin) in R.
    assert (a * (dir * d) == a * dir * d) by ring. lra.
Qed.
Lemma row_lets : forall P k i a (dir : Q), srt (lp_A P i) -> In (k, a) (lp_A P i) ->
  (0 < a * dir /\ lp_rhs P i = PInf \/ a * dir < 0 /\ lp_lhs P i = NInf) ->
  lets_go P dir k i.
Proof.
  intros P k i a dir S Hin C x d D [R1 R2]. unfold row_sat.
  assert (EQ := dot_moved _ _ _ x (dir * d) S Hin).
  assert (a * (dir * d) == a * dir * d) by ring.
  destruct C as [[A F]|[A F]]; rewrite F in *; simpl; split; auto.
  - assert (0 <= a * dir * d) by (apply Qmult_le_0_compat; lra).
    destruct (lp_lhs P i); simpl in *; auto. lra.
  - assert (0 <= - (a * dir) * d) by (apply Qmult_le_0_compat; lra).
    destruct (lp_rhs P i); simpl in *; auto. lra.
Qed.
Lemma row_lets_out : forall P k i dir, ~ has k (lp_A P i) -> lets_go P dir k i.
Proof.
  intros P k i dir N x d D [R1 R2]. unfold row_sat.
  assert (EQ := dot_moved_out _ _ x (dir * d) N).
  split; [destruct (lp_lhs P i)|destruct (lp_rhs P i)]; simpl in *; auto; lra.
Qed.

Lemma live_row_act : forall s i, Ok s -> In i (live_rows s) <-> (i < nr s)%nat /\ t_inact (rt s i) = false.
Proof.
  intros s i [H Q N]. rewrite live_rows_in. split; intros [A B]; split; auto;
  apply (quiet_row s i H (q_rows _ Q) A); auto.
Qed.
Lemma live_col_act : forall s k, Ok s -> In k (live_cols s) <-> (k < nc s)%nat /\ t_cinact (ct s k) = false.
Proof.
  intros s k [H Q N]. rewrite live_cols_in. split; intros [A B]; split; auto;
  apply (quiet_col s k H (q_fixed _ Q) (q_sub _ Q) A); auto.
Qed.

Lemma locks_gen : forall s k (w : rowtag -> Q -> Z) dir n, Ok s -> tags_right s ->
  (k < nc s)%nat -> t_cinact (ct s k) = false -> (dir == 1 \/ dir == - (1)) ->
  (forall t a, w t a = 0%Z \/ w t a = 1%Z) ->
  (forall t a, ~ a == 0 -> (w t a = 1%Z <-> (0 < a * dir /\ t_rhs_inf t = false \/ a * dir < 0 /\ t_lhs_inf t = false))) ->
  n = wsum (fun i => w (rt s i)) (mAT s k) -> locks_are (reduced_lp s) dir k n.
Proof.
  intros s k w dir n OK TG Hk Tk DIR WC WS E. pose proof OK as [H QU N].
  pose proof (inv_0 s H) as W. pose proof (cact_alive s k W Hk Tk) as CK.
  pose proof (w_csrt s W k Hk) as SC.
  set (l := map fst (filter (fun e : nat * Q => Z.eqb (w (rt s (fst e)) (snd e)) 1) (mAT s k))).
  assert (AL : forall i a, In (i, a) (mAT s k) -> (i < nr s)%nat /\ t_inact (rt s i) = false /\ In (k, a) (mA s i) /\ ~ a == 0).
  { intros i a Hin. destruct (w_cin s W i k a Hk Hin) as [Hi Na].
    assert (R : rsz s i <> (-1)%Z) by (eapply (inv_C s H); eauto).
    split; auto. split; [|split; auto; apply (w_agree s W); auto].
    apply (quiet_row s i H (q_rows _ QU) Hi). exact R. }
  assert (LI : forall i, In i l <-> exists a, In (i, a) (mAT s k) /\ w (rt s i) a = 1%Z).
  { intros i. unfold l. rewrite in_map_iff. split.
    - intros [[j a] [E1 F]]. simpl in E1. subst j. apply filter_In in F. destruct F as [F1 F2].
      exists a. split; auto. apply Z.eqb_eq in F2. exact F2.
    - intros [a [F1 F2]]. exists (i, a). split; auto. apply filter_In. split; auto. apply Z.eqb_eq. exact F2. }
  exists l. split; [|split; [|split]].
  - apply srt_NoDup. apply srt_filter. exact SC.
  - intros i Hi. apply LI in Hi. destruct Hi as [a [Ha _]]. destruct (AL i a Ha) as [A [B _]].
    cbn [lp_rows reduced_lp]. apply live_row_act; auto.
  - rewrite E, wsum_count by auto. unfold l. rewrite map_length. reflexivity.
  - intros i Hi. cbn [lp_rows reduced_lp] in Hi. apply live_row_act in Hi; auto. destruct Hi as [Hi Ti].
    pose proof (w_rsrt s W i Hi) as SR.
    assert (AGR : forall a, In (k, a) (mA s i) <-> In (i, a) (mAT s k)).
    { intros a. apply (w_agree s W); auto. apply act_alive; auto. }
    pose proof (tr_lhs s TG i Hi Ti) as TL. pose proof (tr_rhs s TG i Hi Ti) as TR.
    destruct (in_dec Nat.eq_dec i l) as [Y|Y].
    + apply LI in Y. destruct Y as [a [Ha Wa]]. destruct (AL i a Ha) as [_ [_ [Hin Na]]].
      apply (row_stops (reduced_lp s) k i a dir); auto. apply WS in Wa; auto. cbn [lp_rhs lp_lhs reduced_lp].
      destruct Wa as [[A B]|[A B]]; [left|right]; rewrite B in *; auto.
    + destruct (hasb k (mA s i)) eqn:HB.
      * apply hasb_has in HB. destruct HB as [a Ha].
        assert (Na : ~ a == 0) by (apply (w_rin s W i k a Hi Ha)).
        assert (NW : w (rt s i) a <> 1%Z). { intros C. apply Y, LI. exists a. split; auto. apply AGR; auto. }
        apply (row_lets (reduced_lp s) k i a dir); auto. cbn [lp_rhs lp_lhs reduced_lp].
        assert (ND : ~ a * dir == 0) by (destruct DIR as [D|D]; rewrite D; lra).
        destruct (Q_dec (a * dir) 0) as [[L|G]|Z]; [| |contradiction].
        -- right. split; auto. destruct (t_lhs_inf (rt s i)) eqn:TT; auto. exfalso. apply NW, WS; auto.
        -- left. split; auto. destruct (t_rhs_inf (rt s i)) eqn:TT; auto. exfalso. apply NW, WS; auto.
      * apply row_lets_out. intros C. apply hasb_has in C. cbn [lp_A reduced_lp] in C. congruence.
Qed.
Lemma locks_exact : forall s k, Ok s -> Mid s -> In k (live_cols s) ->
  locks_are (reduced_lp s) 1 k (ups s k) /\ locks_are (reduced_lp s) (- (1)) k (dns s k).
Proof.
  intros s k OK M Hk. apply live_col_act in Hk; auto. destruct Hk as [Hk Tk].
  destruct (md_lk s M k Hk Tk) as [LU LD]. split.
  - apply (locks_gen s k upt); auto using upw_cases, md_tags.
    + left; lra.
    + intros [li ri e ia] a Na. unfold upt, upw. simpl.
      destruct (Qgtb a 0) eqn:G; qb; destruct ri, li; simpl; split; try discriminate; intros; auto;
        try (left; split; auto; lra); try (right; split; auto; lra);
        repeat match goal with X : _ \/ _ |- _ => destruct X as [[? ?]|[? ?]] end; try discriminate; try lra.
  - apply (locks_gen s k dnt); auto using dnw_cases, md_tags.
    + right; lra.
    + intros [li ri e ia] a Na. unfold dnt, dnw, upw. simpl.
      destruct (Qgtb a 0) eqn:G; qb; destruct ri, li; simpl; split; try discriminate; intros; auto;
        try (left; split; auto; lra); try (right; split; auto; lra);
        repeat match goal with X : _ \/ _ |- _ => destruct X as [[? ?]|[? ?]] end; try discriminate; try lra.
Qed.

(** ** Fixing several columns and deleting them *)
Lemma fix_in_bounds : forall s k v ck, (k < nc s)%nat -> t_cinact (ct s k) = false -> tags_right s ->
  ext_le (lb s k) v -> le_ext v (ub s k) -> exists s1, fix_col k v ck s = (s1, REDUCED).
Proof.
  intros s k v ck Hk TK TG L U. pose proof (fix_col_cases s k v ck) as X.
  destruct (fix_col k v ck s) as [s1 st]. destruct X as [[-> [_ X]]|[-> _]]; [|eauto]. exfalso.
  pose proof (tr_lb s TG k Hk TK) as L0. pose proof (tr_ub s TG k Hk TK) as U0. pose proof tol_pos.
  destruct X as [[T X]|[T X]]; rewrite T in *.
  - apply le_ext_fin in U; auto. lra.
  - apply ext_le_fin in L; auto. lra.
Qed.
Lemma fix_cols_loop : forall l s, Inv s -> tags_right s -> pend_ok s -> empty_act s ->
  NoDup (map fst l) ->
  (forall k v, In (k, v) l -> (k < nc s)%nat /\ t_cinact (ct s k) = false /\
     ext_le (lb s k) v /\ le_ext v (ub s k)) ->
  let t := fix_cols l s in
  Inv t /\ (Nx s -> Nx t) /\ nc t = nc s /\ nr t = nr s /\ w_sub t = w_sub s /\ w_rows t = w_rows s /\
  w_fixed t = w_fixed s ++ map fst l /\
  semstep (fun x => forall k v, In (k, v) l -> x k == v) zero zero s t /\
  (forall k v, In (k, v) l -> ub t k = Fin v) /\
  (forall k, ~ In k (map fst l) -> ub t k = ub s k /\ ct t k = ct s k) /\
  (forall k, In k (map fst l) -> t_cinact (ct t k) = true).
Proof.
  induction l as [|[k v] l IH]; intros s H TG PO AE ND HL; cbv zeta.
  - simpl. rewrite app_nil_r. repeat (split; [solve [auto]|]).
    split; [apply semstep_refl; auto|]. repeat split; auto; simpl; tauto.
  - inversion ND as [|? ? NI ND']; subst. cbn [map fst] in NI.
    destruct (HL k v (or_introl eq_refl)) as [Hk [TK [L U]]].
    destruct (fix_in_bounds s k v (cst s k) Hk TK TG L U) as [s1 EF].
    pose proof (stp_fix_col s k v (cst s k) H Hk) as SP. rewrite EF in SP. cbn [fst] in SP.
    assert (SS : semstep (fun x => forall k0 v0, In (k0, v0) ((k, v) :: l) -> x k0 == v0) zero zero s s1).
    { eapply fix_col_sem; [exact Hk|exact TK|exact TG|exact PO|exact AE|exact H|exact EF| |].
      - intros x Cx _. apply Cx. left; auto.
      - right. unfold exactly. split; [lra|auto]. }
    pose proof (fix_col_cases s k v (cst s k)) as FC. rewrite EF in FC.
    destruct FC as [[X _]|[_ [_ [_ [A [W E1]]]]]]; [discriminate|].
    assert (NK : forall j w, In (j, w) l -> j <> k).
    { intros j w Hj ->. apply NI. apply in_map_iff. exists (k, w). auto. }
    assert (FR : nc s1 = nc s /\ nr s1 = nr s /\ w_sub s1 = w_sub s /\ w_rows s1 = w_rows s /\
      w_fixed s1 = w_fixed s ++ [k] /\ ub s1 k = Fin v /\ t_cinact (ct s1 k) = true /\
      forall j, j <> k -> ub s1 j = ub s j /\ lb s1 j = lb s j /\ ct s1 j = ct s j).
    { rewrite E1. unfold set_col_to_fixed. sr. rewrite !upd_same. repeat (split; [reflexivity|]).
      intros j D. rewrite !upd_other by auto. auto. }
    destruct FR as [F1 [F2 [F3 [F4 [F5 [F6 [F7 F8]]]]]]].
    cbn [fix_cols fold_left fst snd]. rewrite EF. cbn [fst]. fold (fix_cols l s1).
    destruct (IH s1) as [I1 [I2 [I3 [I4 [I5 [I6 [I7 [I8 [I9 [I10 I11]]]]]]]]]].
    + apply SP.
    + apply SS.
    + apply SS.
    + apply SS.
    + exact ND'.
    + intros j w Hj. destruct (HL j w (or_intror Hj)) as [X1 [X2 [X3 X4]]].
      destruct (F8 j (NK j w Hj)) as [Y1 [Y2 Y3]]. rewrite F1, Y1, Y2, Y3. auto.
    + repeat (split; [solve [congruence|auto|intros; apply I2, SP; auto]|]).
      split. { rewrite I7, F5, <- app_assoc. reflexivity. }
      split.
      { destruct SS as [A1 A2 A3 A4 A5 A6]. destruct I8 as [B1 B2 B3 B4 B5 B6]. constructor; auto.
        - intros x Cx S. apply B4; [intros; apply Cx; right; auto|]. auto.
        - intros x. rewrite B6. apply A6. }
      split; [|split].
      * intros j w [E|Hj]; [|apply I9; auto]. injection E as <- <-.
        destruct (I10 k NI) as [X _]. congruence.
      * intros j NJ. cbn [map fst] in NJ. destruct (I10 j) as [X Y]; [simpl in NJ; tauto|].
        destruct (F8 j) as [X1 [X2 X3]]; [simpl in NJ; intros ->; tauto|]. split; congruence.
      * intros j [E|Hj]; [|apply I11; auto]. simpl in E. subst j.
        destruct (I10 k NI) as [_ X]. congruence.
Qed.

Lemma fix_cols_sem : forall l s, Ok s -> Mid s -> NoDup (map fst l) ->
  (forall k v, In (k, v) l -> In k (live_cols s) /\ ext_le (lb s k) v /\ le_ext v (ub s k)) ->
  let s' := finish (fix_cols l s) in
  (forall x, (forall k v, In (k, v) l -> x k == v) ->
     (feasible (reduced_lp s) x <-> feasible (reduced_lp s') x) /\
     objective (reduced_lp s') x == objective (reduced_lp s) x) /\
  (forall k, In k (live_cols s') <-> In k (live_cols s) /\ ~ In k (map fst l)).
Proof.
  intros l s OK M ND HL s'. pose proof OK as [H QU N].
  destruct (fix_cols_loop l s) as [I1 [I2 [I3 [I4 [I5 [I6 [I7 [I8 [I9 [I10 I11]]]]]]]]]]; auto.
  { apply M. } { apply M. } { apply M. }
  { intros k v Hin. destruct (HL k v Hin) as [A B]. apply live_col_act in A; auto. tauto. }
  set (t := fix_cols l s) in *. unfold s' in *. clear s'.
  assert (ES : w_sub t = [] \/ w_ston_rows t = []) by (left; rewrite I5; apply QU).
  assert (OK' : Ok (finish t)).
  { pose proof (finish_cols t I1 ES) as FC. cbv zeta in FC. fold (finish t) in FC.
    destruct FC as [A1 [A2 [A3 [A4 [A5 [A6 A7]]]]]]. constructor; auto.
    - constructor; auto. rewrite A4, I6. apply QU.
    - apply A3; auto. rewrite I6. apply QU. }
  destruct (finish_sem t I1 (se_tags _ _ _ _ _ I8) (se_pend _ _ _ _ _ I8) ES)
    as [F1 [F2 [F3 [F4 [F5 [F6 F7]]]]]].
  split.
  - intros x Cx.
    assert (PN : pinned t x).
    { split.
      - intros k Hk. rewrite I7, (q_fixed _ QU) in Hk. simpl in Hk. apply in_map_iff in Hk.
        destruct Hk as [[j v] [E Hk]]. simpl in E. subst j. rewrite (I9 k v Hk). simpl. auto.
      - intros k Hk. rewrite I5, (q_sub _ QU) in Hk. contradiction. }
    split.
    + rewrite <- !(sat_feasible _ _ OK), <- !(sat_feasible _ _ OK'). split; intros S.
      * apply F1. apply (se_fwd _ _ _ _ _ I8); auto.
      * apply (se_bwd _ _ _ _ _ I8). apply F1. auto.
    + rewrite <- !obj_reduced. rewrite (F2 x PN). apply (se_obj _ _ _ _ _ I8).
  - intros k. rewrite F6, live_col_act by auto. rewrite I3. split.
    + intros [A B]. destruct (in_dec Nat.eq_dec k (map fst l)) as [Y|Y].
      * rewrite (I11 k Y) in B. discriminate.
      * destruct (I10 k Y) as [_ E]. rewrite E in B. auto.
    + intros [[A B] NI]. destruct (I10 k NI) as [_ E]. rewrite E. auto.
Qed.

(** ** When the empty-row and empty-column explorers report *)
Definition er_bad (s : state) (i : nat) : bool :=
  (negb (t_lhs_inf (rt s i)) && Qgeb (fin (lhs s i)) FEAS_TOL)
     || (negb (t_rhs_inf (rt s i)) && Qleb (fin (rhs s i)) (- FEAS_TOL)).
Lemma empty_rows_exact_loop : forall s l t,
  lhs t = lhs s -> rhs t = rhs s ->
  (forall i, t_lhs_inf (rt t i) = t_lhs_inf (rt s i) /\ t_rhs_inf (rt t i) = t_rhs_inf (rt s i)) ->
  (snd (for_until INFEASIBLE remove_empty_row l t) = INFEASIBLE <-> existsb (er_bad s) l = true).
Proof.
  intros s l. induction l as [|i l IH]; intros t EL ER ET; cbn [for_until existsb snd].
  - split; discriminate.
  - unfold remove_empty_row at 1. rewrite EL, ER. destruct (ET i) as [-> ->].
    unfold er_bad at 1. match goal with |- context [if ?b then _ else _] => destruct b eqn:V end; cbv iota.
    + rewrite N.eqb_refl. cbn. tauto.
    + cbn [N.eqb UNCHANGED INFEASIBLE orb]. apply IH; auto.
      sr. intros j. unfold tag_inactive. updg; auto. cbn. auto.
Qed.
Lemma empty_rows_exact : forall s, Ok s -> Mid s ->
  (snd (remove_empty_rows s) = INFEASIBLE <-> exists i, In i (live_rows s) /\ excludes_zero (reduced_lp s) i).
Proof.
  intros s OK M. pose proof (ok_inv _ OK) as H. pose proof (inv_L s H) as L.
  assert (E : snd (remove_empty_rows s) = INFEASIBLE <-> existsb (er_bad s) (w_empty_rows s) = true).
  { rewrite <- (empty_rows_exact_loop s (w_empty_rows s) s) by auto. unfold remove_empty_rows.
    pose proof (for_until_st INFEASIBLE remove_empty_row (w_empty_rows s) s) as RG.
    destruct (for_until INFEASIBLE remove_empty_row (w_empty_rows s) s) as [t st]. cbn [snd] in *.
    destruct RG as [->| ->]; cbn; tauto. }
  rewrite E, existsb_exists. clear E.
  assert (BD : forall i, (i < nr s)%nat -> t_inact (rt s i) = false -> mA s i = [] ->
     (er_bad s i = true <-> excludes_zero (reduced_lp s) i)).
  { intros i Hi Ti EA. unfold er_bad, excludes_zero. cbn [lp_A lp_lhs lp_rhs reduced_lp]. rewrite EA.
    pose proof (tr_lhs s (md_tags s M) i Hi Ti) as TL. pose proof (tr_rhs s (md_tags s M) i Hi Ti) as TR.
    rewrite orb_true_iff, !andb_true_iff, !negb_true_iff. split.
    - intros C. split; auto. destruct C as [[A B]|[A B]]; rewrite A in *; qb; [left|right].
      + destruct (lhs s i); try discriminate. eexists; split; [reflexivity|auto].
      + destruct (rhs s i); try discriminate. eexists; split; [reflexivity|auto].
    - intros [_ [[b [A B]]|[b [A B]]]]; [left|right]; rewrite A in *; cbn [fin]; split.
      + destruct (t_lhs_inf (rt s i)); auto; discriminate.
      + unfold Qgeb. apply Qle_bool_iff. auto.
      + destruct (t_rhs_inf (rt s i)); auto; discriminate.
      + unfold Qleb. apply Qle_bool_iff. auto. }
  split.
  - intros [i [Hin B]]. exists i. pose proof (md_empty s M i Hin) as Ti.
    destruct (l_empty_rows s L i Hin) as [Hi [EA _]]. split; [apply live_row_act; auto|].
    apply BD; auto.
  - intros [i [Hi B]]. exists i. apply live_row_act in Hi; auto. destruct Hi as [Hi Ti].
    pose proof (proj1 B) as EA. cbn [lp_A reduced_lp] in EA. split.
    + apply (l_empty_rows_c s L); auto. rewrite (w_ract s (inv_0 s H) i Hi Ti). rewrite EA. reflexivity.
    + apply BD; auto.
Qed.
Lemma empty_rows_gone : forall s s', Ok s -> Mid s -> remove_empty_rows s = (s', UNCHANGED) ->
  forall i, In i (live_rows s') -> mA s' i <> [].
Proof.
  intros s s' OK M E i Hi EA. pose proof OK as [H QU N].
  destruct (empty_rows_sem s s' UNCHANGED OK (md_tags s M) (md_empty s M) E) as [_ X].
  destruct (X eq_refl) as [OK' _]. apply live_row_act in Hi; auto. destruct Hi as [Hi Ti].
  pose proof (empty_rows_spec s H) as SP. rewrite E in SP.
  destruct SP as [_ [_ [_ [_ [_ [SP|[_ SP]]]]]]]; [discriminate|].
  assert (Y : In i (w_empty_rows s')).
  { apply (l_empty_rows_c s' (inv_L s' (ok_inv _ OK'))); auto.
    rewrite (w_ract s' (inv_0 s' (ok_inv _ OK')) i Hi Ti), EA. reflexivity. }
  rewrite SP in Y. contradiction.
Qed.

Definition ec_bad (s : state) (k : nat) : bool :=
  negb (Qeqb (cst s k) 0) && (if Qltb (cst s k) 0 then t_ub_inf (ct s k) else t_lb_inf (ct s k)).
Lemma empty_cols_exact_loop : forall s l t, NoDup l ->
  (forall k, In k l -> cst t k = cst s k /\ ct t k = ct s k) ->
  (snd (for_until UNBNDORINFEAS remove_empty_col l t) = UNBNDORINFEAS <-> existsb (ec_bad s) l = true).
Proof.
  intros s l. induction l as [|k l IH]; intros t ND HL; cbn [for_until existsb snd].
  - split; discriminate.
  - inversion ND as [|? ? NI ND']; subst. destruct (HL k (or_introl eq_refl)) as [EC ET].
    assert (GO : forall v t0, (forall j, cst t0 j = cst t j /\ ct t0 j = ct t j) ->
      snd (for_until UNBNDORINFEAS remove_empty_col l (close_empty_col k v t0)) = UNBNDORINFEAS <->
      existsb (ec_bad s) l = true).
    { intros v t0 F. apply IH; auto. intros j Hj. destruct (HL j (or_intror Hj)) as [A B].
      destruct (F j) as [C D]. unfold close_empty_col. sr. rewrite upd_other by (intros ->; contradiction).
      split; congruence. }
    unfold remove_empty_col at 1. unfold ec_bad at 1. rewrite EC, ET.
    destruct (Qeqb (cst s k) 0); [cbn [negb andb orb N.eqb UNCHANGED UNBNDORINFEAS]; apply GO; auto|].
    destruct (Qltb (cst s k) 0).
    + destruct (t_ub_inf (ct s k)); cbn [negb andb orb N.eqb UNCHANGED UNBNDORINFEAS Pos.eqb snd]; [tauto|].
      apply GO. intros; sr; auto.
    + destruct (t_lb_inf (ct s k)); cbn [negb andb orb N.eqb UNCHANGED UNBNDORINFEAS Pos.eqb snd]; [tauto|].
      apply GO. intros; sr; auto.
Qed.
Lemma no_entries : forall s, Inv s -> forall k, (k < nc s)%nat -> t_cinact (ct s k) = false ->
  (mAT s k = [] <-> in_no_row (reduced_lp s) k).
Proof.
  intros s H.
  intros k Hk Tk. pose proof (cact_alive s k (inv_0 s H) Hk Tk) as CK. split.
    - intros EA i a Hi Hin. cbn [lp_A lp_rows reduced_lp] in *. apply live_rows_in in Hi. destruct Hi as [Hi Ri].
      apply (w_agree s (inv_0 s H) i k a Hi Hk Ri CK) in Hin. rewrite EA in Hin. contradiction.
    - intros X. destruct (mAT s k) as [|[i a] c] eqn:EA; auto. exfalso.
      assert (Hin : In (i, a) (mAT s k)) by (rewrite EA; left; auto).
      destruct (w_cin s (inv_0 s H) i k a Hk Hin) as [Hi _].
      assert (Ri : rsz s i <> (-1)%Z) by (eapply (inv_C s H); eauto).
      apply (X i a); cbn [lp_A lp_rows reduced_lp].
      + apply live_rows_in; auto.
      + apply (w_agree s (inv_0 s H)); auto.
Qed.
Lemma empty_cols_exact : forall s, Ok s -> Mid s -> empty_cols_fresh s ->
  (snd (remove_empty_cols s) = UNBNDORINFEAS <->
   exists k, In k (live_cols s) /\ in_no_row (reduced_lp s) k /\ pulled_away (reduced_lp s) k).
Proof.
  intros s OK M [ND FR]. pose proof (ok_inv _ OK) as H. pose proof (inv_L s H) as L.
  assert (E : snd (remove_empty_cols s) = UNBNDORINFEAS <-> existsb (ec_bad s) (w_empty_cols s) = true).
  { rewrite <- (empty_cols_exact_loop s (w_empty_cols s) s) by auto. unfold remove_empty_cols.
    pose proof (for_until_st UNBNDORINFEAS remove_empty_col (w_empty_cols s) s) as RG.
    destruct (for_until UNBNDORINFEAS remove_empty_col (w_empty_cols s) s) as [t st]. cbn [snd] in *.
    destruct RG as [->| ->]; cbn; tauto. }
  rewrite E, existsb_exists. clear E.
  assert (BD : forall k, (k < nc s)%nat -> t_cinact (ct s k) = false ->
     (ec_bad s k = true <-> pulled_away (reduced_lp s) k)).
  { intros k Hk Tk. unfold ec_bad, pulled_away. cbn [lp_c lp_lb lp_ub reduced_lp].
    pose proof (tr_lb s (md_tags s M) k Hk Tk) as TL. pose proof (tr_ub s (md_tags s M) k Hk Tk) as TR.
    rewrite andb_true_iff, negb_true_iff. destruct (Qltb (cst s k) 0) eqn:C; qb; split.
    - intros [A B]. rewrite B in TR. auto.
    - intros [[A B]|[A B]]; [|lra]. split.
      + apply Qeqb_false. lra.
      + destruct (t_ub_inf (ct s k)); auto. rewrite B in TR. discriminate.
    - intros [A B]. rewrite B in TL. right. split; auto. apply Qeqb_false in A. destruct (Qlt_le_dec 0 (cst s k)); auto. lra.
    - intros [[A B]|[A B]]; [lra|]. split.
      + apply Qeqb_false. lra.
      + destruct (t_lb_inf (ct s k)); auto. rewrite B in TL. discriminate. }
  pose proof (no_entries s H) as EM.
  split.
  - intros [k [Hin B]]. exists k. destruct (FR k Hin) as [Tk _].
    destruct (l_empty_cols s L k Hin) as [Hk EA]. split; [apply live_col_act; auto|].
    split; [apply EM; auto|]. apply BD; auto.
  - intros [k [Hk [EA B]]]. exists k. apply live_col_act in Hk; auto. destruct Hk as [Hk Tk].
    apply EM in EA; auto. split.
    + apply (l_empty_cols_c s L); auto. rewrite (w_cact s (inv_0 s H) k Hk Tk). rewrite EA. reflexivity.
    + apply BD; auto.
Qed.
