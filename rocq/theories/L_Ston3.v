(** The meaning of one singleton column. *)
From Coq Require Import NArith Lqa.
From Verif Require Import M_Num S_LP M_Settings M_Driver S_Driver M_State M_Act M_Core M_Simple
  M_StonCols M_Dton M_Parallel M_Propagate M_Init M_Post M_Run S_Run S_Struct S_Sem
  L_State L_Struct L_Struct2 L_Struct3 L_Struct4 L_Struct5 L_Struct6 L_Struct7 L_Struct8 L_Struct9 L_Struct10 L_Struct11
  L_Sem L_Sem2 L_Sem3 L_Sem4 L_Mid L_Mid2 L_Mid3 L_Mid4 L_Mid5 L_Act L_Act2 L_Act4 L_Act6 L_Act8 L_Free L_Ston L_Ston2.
Open Scope Q_scope.

Definition on (s : state) (i : nat) (b : Q) : Prop := ext_le (lhs s i) b /\ le_ext b (rhs s i).
Lemma on_q : forall s i b c, b == c -> on s i b -> on s i c.
Proof. intros s i b c E X. eapply rsat_q; eauto. Qed.
Lemma le_ext_q : forall u b c, b == c -> le_ext b u -> le_ext c u.
Proof. intros [|u|] b c E; simpl; auto. intros; lra. Qed.
Lemma ext_le_q : forall u b c, b == c -> ext_le u b -> ext_le u c.
Proof. intros [|u|] b c E; simpl; auto. intros; lra. Qed.
Lemma le_ext_le : forall u b c, c <= b -> le_ext b u -> le_ext c u.
Proof. intros [|u|] b c E; simpl; auto. intros; lra. Qed.
Lemma ext_le_le : forall u b c, b <= c -> ext_le u b -> ext_le u c.
Proof. intros [|u|] b c E; simpl; auto. intros; lra. Qed.

Section Steps.
Variables (s : state) (i k : nat) (a : Q).
Hypotheses (H : Inv s) (M : Mid s) (A : AV Qle s) (WF : w_fixed s = []) (WS : w_sub s = [])
  (Hi : (i < nr s)%nat) (Hk : (k < nc s)%nat) (Ti : t_inact (rt s i) = false) (Tk : t_cinact (ct s k) = false)
  (EK : mAT s k = [(i, a)]) (IN : In (k, a) (mA s i)).
Notation rest x := (dot (del_entry k (mA s i)) x).
Notation ab := (implied_free_from_above_by_row s a i (row_view s i) (lb s k) (ub s k) (ct s k) (acts s i)).
Notation be := (implied_free_from_below_by_row s a i (row_view s i) (lb s k) (ub s k) (ct s k) (acts s i)).
Lemma AB : ab = true -> forall x v, ocol s k x -> on s i (a * v + rest x) -> le_ext v (ub s k).
Proof.
  rewrite (VFi s i H Hi Ti). intros E x v O [L U].
  apply (above_ok Qle s i k a x H (md_tags s M) WS WF A (fun v w z => z) Hi Ti IN) with (v := v); auto.
  apply (ocol_others s i k H WF WS Hi Ti x O).
Qed.
Lemma BE : be = true -> forall x v, ocol s k x -> on s i (a * v + rest x) -> ext_le (lb s k) v.
Proof.
  rewrite (VFi s i H Hi Ti). intros E x v O [L U].
  apply (below_ok Qle s i k a x H (md_tags s M) WS WF A (fun v w z => z) Hi Ti IN) with (v := v); auto.
  apply (ocol_others s i k H WF WS Hi Ti x O).
Qed.
Lemma NA : ~ a == 0. Proof. apply (Na s i k a H Hi IN). Qed.
Lemma CKn : csz s k <> (-1)%Z. Proof. apply (CK s k H Hk Tk). Qed.
Lemma parts : forall x, sat1 s x <-> orow s i x /\ ocol s k x /\ on s i (a * x k + rest x) /\ csat s x k.
Proof.
  intros x. rewrite (sat1_parts s i k x Hi Hk). unfold on, rsat.
  pose proof (row_rest s i k a H Hi IN x) as RR.
  split; intros (X1 & X2 & X3 & X4); (split; [exact X1|split; [exact X2|split]]).
  - specialize (X3 Ti). eapply rsat_q; eauto.
  - exact (X4 Tk).
  - intros _. eapply rsat_q; [symmetry; exact RR|exact X3].
  - intros _. exact X4.
Qed.
Lemma parts_upd : forall x v, sat1 s (upd x k v) <-> orow s i x /\ ocol s k x /\ on s i (a * v + rest x) /\ ext_le (lb s k) v /\ le_ext v (ub s k).
Proof.
  intros x v. rewrite parts. rewrite (orow_upd s i k a H Hk Tk EK), (ocol_upd s k).
  unfold csat. rewrite upd_same.
  assert (E : rest (upd x k v) == rest x).
  { apply dot_ext. intros j c Hj. apply del_entry_In in Hj. destruct Hj as [_ D]. rewrite upd_other; [lra|auto]. }
  split; intros (X1 & X2 & X3 & X4); (split; [exact X1|split; [exact X2|split; [|exact X4]]]); eapply on_q; [|exact X3| |exact X3]; lra.
Qed.

(** What the step leaves behind: row [i] without [k], or no row [i] *)
Lemma parts_t : forall t x, stepf s t i k -> t_cinact (ct t k) = true ->
  (sat1 t x <-> orow s i x /\ ocol s k x /\ (t_inact (rt t i) = false -> rsat t x i)).
Proof.
  intros t x F CT. destruct (stepf_o s t i k x F) as [O1 O2].
  rewrite (sat1_parts t i k x); [|rewrite (sf_nr _ _ _ _ F); auto|rewrite (sf_nc _ _ _ _ F); auto].
  rewrite O1, O2, CT. intuition congruence.
Qed.
Lemma live_not_k : forall t j, csz t = upd (csz s) k (-1)%Z -> In j (live_cols t) -> j <> k.
Proof. intros t j E Hj ->. apply live_cols_in in Hj. rewrite E, upd_same in Hj. destruct Hj; congruence. Qed.

Lemma solve_k : forall b r, a * ((b - r) / a) + r == b.
Proof. intros. field. apply NA. Qed.

(** Both bounds implied *)
Lemma sub_row_lifts : forall b v side ck, ab = true -> be = true -> on s i b ->
  lifts s (set_row_to_inactive i v (record (SUB_COL k (row_view (sub_col_now k (sub_var_in_obj (row_view s i) k a b s)) i) side i ck)
     (sub_col_now k (sub_var_in_obj (row_view s i) k a b s)))).
Proof.
  intros b v side ck E1 E2 ON.
  destruct (sub_row_frame s i k a b v side ck (SRi s i H Hi) NA (VFi s i H Hi Ti)) as (F & CZ & CT & RT & CO & OF).
  set (t := set_row_to_inactive _ _ _) in *. clearbody t.
  intros x' X. apply (parts_t t x' F CT) in X. destruct X as (X1 & X2 & _).
  set (w := (b - rest x') / a). assert (EW : a * w + rest x' == b) by apply solve_k. clearbody w.
  assert (ONw : on s i (a * w + rest x')) by (eapply on_q; [symmetry; exact EW|auto]).
  exists (upd x' k w). split; [|split].
  - intros j Hj. rewrite upd_other; [lra|]. apply (live_not_k t j CZ Hj).
  - apply parts_upd. split; [auto|split; [auto|split; [auto|split]]]; [eapply BE; eauto|eapply AB; eauto].
  - symmetry. apply (sub_obj s i k a H Hi Hk Ti Tk IN t b); auto. apply F.
Qed.
Lemma sub_row_pts : forall b v side ck x, sat1 s x ->
  let t := set_row_to_inactive i v (record (SUB_COL k (row_view (sub_col_now k (sub_var_in_obj (row_view s i) k a b s)) i) side i ck)
     (sub_col_now k (sub_var_in_obj (row_view s i) k a b s))) in
  sat1 t x /\ exists w, a * w + rest x == b /\ obj t x == obj s x + cst s k * (w - x k).
Proof.
  intros b v side ck x X.
  destruct (sub_row_frame s i k a b v side ck (SRi s i H Hi) NA (VFi s i H Hi Ti)) as (F & CZ & CT & RT & CO & OF).
  cbv zeta. set (t := set_row_to_inactive _ _ _) in *. clearbody t.
  apply parts in X. destruct X as (X1 & X2 & X3 & X4). split.
  - apply (parts_t t x F CT). split; [auto|split; [auto|congruence]].
  - set (w := (b - rest x) / a). assert (EW : a * w + rest x == b) by apply solve_k. clearbody w.
    exists w. split; auto. rewrite <- (obj_upd s k x w Hk CKn).
    apply (sub_obj s i k a H Hi Hk Ti Tk IN t b); auto. apply F.
Qed.

(** Equality rows *)
Lemma eq_fin : t_eq (rt s i) = true -> forall v, on s i v <-> v == fin (rhs s i).
Proof.
  intros Te v. destruct (tr_eq s (md_tags s M) i Hi Ti Te) as (p & q & E1 & E2 & E). unfold on. rewrite E1, E2. simpl. split; [intros []; lra|split; lra].
Qed.
Lemma process_eq_sem : t_eq (rt s i) = true -> (2 <= rsz s i)%Z ->
  let t := fst (process_colston_eq i k a ab be s) in same_pts s t /\ lifts s t.
Proof.
  intros Te R2. pose proof (eq_fin Te) as EF. pose proof NA as NA. cbv zeta.
  destruct ab eqn:E1; destruct be eqn:E2.
  - unfold process_colston_eq. cbn [negb andb fst]. split.
    + intros x X. destruct (sub_row_pts (fin (rhs s i)) (cst s k / a) (rhs (sub_col_now k (sub_var_in_obj (row_view s i) k a (fin (rhs s i)) s)) i) (cst s k) x X)
        as [Y [w [W O]]]. split; [exact Y|]. rewrite O. clear Y O.
      apply parts in X. destruct X as (_ & _ & X3 & _). apply EF in X3.
      assert (W1 : a * (w - x k) == 0) by lra.
      assert (W2 : w - x k == 0) by (destruct (Qmult_integral _ _ W1); [contradiction|auto]). rewrite W2. ring.
    + apply sub_row_lifts; auto. apply EF. lra.
  - pose proof (process1_frame s true false i k a (SRi s i H Hi) (VFi s i H Hi Ti) IN NA R2 ltac:(discriminate)) as FR.
    cbv zeta in FR. set (t := fst (process_colston_eq i k a true false s)) in *. clearbody t.
    destruct FR as (F & CZ & CT & RT & CO & OF & EM & EL & ER).
    assert (LF : is_fin (lb s k) = true).
    { apply not_below_fin in E2. pose proof (tr_lb s (md_tags s M) k Hk Tk) as X. rewrite E2 in X. auto. }
    destruct (tr_eq s (md_tags s M) i Hi Ti Te) as (p & q & P1 & P2 & PE).
    assert (RS : forall x, rsat t x i <-> 0 <= a * (q - a * fin (lb s k) - rest x)).
    { intros x. unfold rsat. rewrite EM, EL, ER. unfold new_lhs, new_rhs.
      destruct (Qgtb a 0) eqn:G; cbn [Bool.eqb]; rewrite ?P1, ?P2; simpl; qb.
      - split; [intros [_ X]; apply Qmult_le_0_compat; lra|]. intros X. split; auto.
        assert (Y : 0 <= q - a * fin (lb s k) - rest x).
        { apply Qnot_lt_le. intros Y. assert (a * (q - a * fin (lb s k) - rest x) < 0); [|lra].
          setoid_replace (a * (q - a * fin (lb s k) - rest x)) with (- (a * - (q - a * fin (lb s k) - rest x))) by ring.
          assert (0 < a * - (q - a * fin (lb s k) - rest x)); [|lra]. apply Qmult_lt_0_compat; lra. }
        lra.
      - split; [intros [X _]; assert (0 <= (- a) * (- (q - a * fin (lb s k) - rest x))) by (apply Qmult_le_0_compat; lra); lra|].
        intros X. split; auto.
        assert (Y : q - a * fin (lb s k) - rest x <= 0).
        { apply Qnot_lt_le. intros Y. assert (0 < - a) by (destruct (Qlt_le_dec 0 (- a)); auto; exfalso; apply NA; lra).
          assert (0 < (- a) * (q - a * fin (lb s k) - rest x)) by (apply Qmult_lt_0_compat; lra). lra. }
        lra. }
    assert (KEY : forall x w, a * w + rest x == q -> (fin (lb s k) <= w <-> 0 <= a * (q - a * fin (lb s k) - rest x))).
    { intros x w W. setoid_replace (a * (q - a * fin (lb s k) - rest x)) with ((a * a) * (w - fin (lb s k))) by (rewrite <- W; ring).
      assert (0 < a * a). { destruct (Qlt_le_dec 0 a); [apply Qmult_lt_0_compat; auto|]. assert (0 < (- a) * (- a)); [|lra]. apply Qmult_lt_0_compat; destruct (Qlt_le_dec 0 (-a)); auto; exfalso; apply NA; lra. }
      split; intros Y; [apply Qmult_le_0_compat; lra|]. apply Qnot_lt_le. intros Z.
      assert (0 < a * a * (fin (lb s k) - w)) by (apply Qmult_lt_0_compat; lra). lra. }
    split.
    + intros x X. pose proof (proj1 (parts x) X) as (X1 & X2 & X3 & X4). apply EF in X3. rewrite P2 in X3. cbn [fin] in X3.
      split.
      * apply (parts_t t x F CT). split; [auto|split; [auto|intros _; apply RS]]. apply (KEY x (x k) X3). destruct X4 as [X4 _]. apply ext_le_fin in X4; auto.
      * rewrite (sub_obj s i k a H Hi Hk Ti Tk IN t (fin (rhs s i)) x (x k)); auto; [|apply F|rewrite P2; cbn [fin]; lra].
        rewrite (obj_upd s k x (x k) Hk CKn). ring.
    + intros x' X. apply (parts_t t x' F CT) in X. destruct X as (X1 & X2 & X3). specialize (X3 RT). apply RS in X3.
      set (w := (q - rest x') / a). assert (EW : a * w + rest x' == q) by apply solve_k. clearbody w.
      assert (ONw : on s i (a * w + rest x')) by (apply EF; rewrite P2; cbn [fin]; auto).
      exists (upd x' k w). split; [|split].
      * intros j Hj. rewrite upd_other; [lra|]. apply (live_not_k t j CZ Hj).
      * apply parts_upd. split; [auto|split; [auto|split; [auto|split]]]; [|eapply AB; eauto]. apply ext_le_fin; auto. apply (KEY x' w EW); auto.
      * symmetry. apply (sub_obj s i k a H Hi Hk Ti Tk IN t (fin (rhs s i))); auto; [apply F|rewrite P2; cbn [fin]; auto].
  - pose proof (process1_frame s false true i k a (SRi s i H Hi) (VFi s i H Hi Ti) IN NA R2 ltac:(discriminate)) as FR.
    cbv zeta in FR. set (t := fst (process_colston_eq i k a false true s)) in *. clearbody t.
    destruct FR as (F & CZ & CT & RT & CO & OF & EM & EL & ER).
    assert (UF : is_fin (ub s k) = true).
    { apply not_above_fin in E1. pose proof (tr_ub s (md_tags s M) k Hk Tk) as X. rewrite E1 in X. auto. }
    destruct (tr_eq s (md_tags s M) i Hi Ti Te) as (p & q & P1 & P2 & PE).
    assert (SQ : 0 < a * a). { destruct (Qlt_le_dec 0 a); [apply Qmult_lt_0_compat; auto|]. assert (0 < (- a) * (- a)); [|lra]. apply Qmult_lt_0_compat; destruct (Qlt_le_dec 0 (-a)); auto; exfalso; apply NA; lra. }
    assert (RS : forall x, rsat t x i <-> a * (q - a * fin (ub s k) - rest x) <= 0).
    { intros x. unfold rsat. rewrite EM, EL, ER. unfold new_lhs, new_rhs.
      destruct (Qgtb a 0) eqn:G; cbn [Bool.eqb]; rewrite ?P1, ?P2; simpl; qb.
      - split.
        + intros [X _]. assert (0 <= a * (- (q - a * fin (ub s k) - rest x))) by (apply Qmult_le_0_compat; lra). lra.
        + intros X. split; auto.
          assert (Y : q - a * fin (ub s k) - rest x <= 0).
          { apply Qnot_lt_le. intros Y. assert (0 < a * (q - a * fin (ub s k) - rest x)) by (apply Qmult_lt_0_compat; lra). lra. }
          lra.
      - assert (0 < - a) by (destruct (Qlt_le_dec 0 (- a)); auto; exfalso; apply NA; lra). split.
        + intros [_ X]. assert (0 <= (- a) * (q - a * fin (ub s k) - rest x)) by (apply Qmult_le_0_compat; lra). lra.
        + intros X. split; auto.
          assert (Y : 0 <= q - a * fin (ub s k) - rest x).
          { apply Qnot_lt_le. intros Y. assert (0 < (- a) * (- (q - a * fin (ub s k) - rest x))) by (apply Qmult_lt_0_compat; lra). lra. }
          lra. }
    assert (KEY : forall x w, a * w + rest x == q -> (w <= fin (ub s k) <-> a * (q - a * fin (ub s k) - rest x) <= 0)).
    { intros x w W. setoid_replace (a * (q - a * fin (ub s k) - rest x)) with (- ((a * a) * (fin (ub s k) - w))) by (rewrite <- W; ring).
      split; intros Y; [assert (0 <= a * a * (fin (ub s k) - w)) by (apply Qmult_le_0_compat; lra); lra|]. apply Qnot_lt_le. intros Z.
      assert (0 < a * a * (w - fin (ub s k))) by (apply Qmult_lt_0_compat; lra). lra. }
    split.
    + intros x X. pose proof (proj1 (parts x) X) as (X1 & X2 & X3 & X4). apply EF in X3. rewrite P2 in X3. cbn [fin] in X3.
      split.
      * apply (parts_t t x F CT). split; [auto|split; [auto|intros _; apply RS]]. apply (KEY x (x k) X3). destruct X4 as [_ X4]. apply le_ext_fin in X4; auto.
      * rewrite (sub_obj s i k a H Hi Hk Ti Tk IN t (fin (rhs s i)) x (x k)); auto; [|apply F|rewrite P2; cbn [fin]; lra].
        rewrite (obj_upd s k x (x k) Hk CKn). ring.
    + intros x' X. apply (parts_t t x' F CT) in X. destruct X as (X1 & X2 & X3). specialize (X3 RT). apply RS in X3.
      set (w := (q - rest x') / a). assert (EW : a * w + rest x' == q) by apply solve_k. clearbody w.
      assert (ONw : on s i (a * w + rest x')) by (apply EF; rewrite P2; cbn [fin]; auto).
      exists (upd x' k w). split; [|split].
      * intros j Hj. rewrite upd_other; [lra|]. apply (live_not_k t j CZ Hj).
      * apply parts_upd. split; [auto|split; [auto|split; [auto|split]]]; [eapply BE; eauto|]. apply le_ext_fin; auto. apply (KEY x' w EW); auto.
      * symmetry. apply (sub_obj s i k a H Hi Hk Ti Tk IN t (fin (rhs s i))); auto; [apply F|rewrite P2; cbn [fin]; auto].
  - unfold process_colston_eq. cbn [negb andb fst]. split; [intros x X; split; auto; lra|apply lifts_refl].
Qed.
End Steps.
