(** The meaning of one singleton column in an inequality row, and of one pass. *)
From Coq Require Import NArith Lqa Qminmax.
From Verif Require Import M_Num S_LP M_Settings M_Driver S_Driver M_State M_Act M_Core M_Simple
  M_StonCols M_Dton M_Parallel M_Propagate M_Init M_Post M_Run S_Run S_Struct S_Sem
  L_State L_Struct L_Struct2 L_Struct3 L_Struct4 L_Struct5 L_Struct6 L_Struct7 L_Struct8 L_Struct9 L_Struct10 L_Struct11
  L_Sem L_Sem2 L_Sem3 L_Sem4 L_Mid L_Mid2 L_Mid3 L_Mid4 L_Mid5 L_Act L_Act2 L_Act4 L_Act6 L_Act8 L_Free L_Ston L_Ston2 L_Ston3.
Open Scope Q_scope.

Definition sided (s : state) : Prop := forall i, (i < nr s)%nat -> t_inact (rt s i) = false ->
  is_fin (lhs s i) = true -> is_fin (rhs s i) = true -> fin (lhs s i) <= fin (rhs s i).
Definition endless (s : state) : Prop := (exists x, sat1 s x) -> forall B, exists x, sat1 s x /\ obj s x < B.

Lemma pos_le : forall a v w, 0 < a -> (a * v <= a * w <-> v <= w).
Proof.
  intros a v w G. split; intros X; [|assert (0 <= a * (w - v)) by (apply Qmult_le_0_compat; lra); lra].
  apply Qnot_lt_le. intros Y. assert (0 < a * (v - w)) by (apply Qmult_lt_0_compat; lra). lra.
Qed.
Lemma neg_le : forall a v w, a < 0 -> (a * v <= a * w <-> w <= v).
Proof. intros a v w G. pose proof (pos_le (- a) w v ltac:(lra)). split; intros X; [apply H|apply H in X]; lra. Qed.

Definition fixed_frame (s t : state) (i k : nat) (v a : Q) : Prop :=
  stepf s t i k /\ csz t = upd (csz s) k (-1)%Z /\ t_cinact (ct t k) = true /\ rt t i = rt s i /\
  cst t = cst s /\ off t = off s + cst s k * v /\ mA t i = del_entry k (mA s i) /\
  lhs t i = (if t_lhs_inf (rt s i) then lhs s i else ext_sub (lhs s i) (a * v)) /\
  rhs t i = (if t_rhs_inf (rt s i) then rhs s i else ext_sub (rhs s i) (a * v)).
Lemma push_if_fixed : forall s t i k v a, fixed_frame s t i k v a -> fixed_frame s (push_if_ston i t) i k v a.
Proof.
  intros s t i k v a (F & X). split; [apply push_if_frame; auto|]. clear F. unfold push_if_ston. destruct (Z.eqb _ 1); exact X.
Qed.

Section Steps2.
Variables (s : state) (i k : nat) (a : Q).
Hypotheses (H : Inv s) (M : Mid s) (A : AV Qle s) (WF : w_fixed s = []) (WS : w_sub s = [])
  (Hi : (i < nr s)%nat) (Hk : (k < nc s)%nat) (Ti : t_inact (rt s i) = false) (Tk : t_cinact (ct s k) = false)
  (EK : mAT s k = [(i, a)]) (IN : In (k, a) (mA s i)) (OD : ordered s) (SD : sided s).
Notation rest x := (dot (del_entry k (mA s i)) x).
Notation ab := (implied_free_from_above_by_row s a i (row_view s i) (lb s k) (ub s k) (ct s k) (acts s i)).
Notation be := (implied_free_from_below_by_row s a i (row_view s i) (lb s k) (ub s k) (ct s k) (acts s i)).
Notation NA := (NA s i k a H Hi IN).
Notation CKn := (CKn s k H Hk Tk).
Notation parts := (parts s i k a H Hi Hk Ti Tk IN).
Notation parts_upd := (parts_upd s i k a H Hi Hk Ti Tk EK IN).
Notation parts_t := (parts_t s i k Hi Hk).

Lemma tl_lhs : t_lhs_inf (rt s i) = true -> lhs s i = NInf.
Proof. intros E. pose proof (tr_lhs s (md_tags s M) i Hi Ti) as X. rewrite E in X. auto. Qed.
Lemma tl_rhs : t_rhs_inf (rt s i) = true -> rhs s i = PInf.
Proof. intros E. pose proof (tr_rhs s (md_tags s M) i Hi Ti) as X. rewrite E in X. auto. Qed.
Lemma tf_lhs : t_lhs_inf (rt s i) = false -> is_fin (lhs s i) = true.
Proof. intros E. pose proof (tr_lhs s (md_tags s M) i Hi Ti) as X. rewrite E in X. auto. Qed.
Lemma tf_rhs : t_rhs_inf (rt s i) = false -> is_fin (rhs s i) = true.
Proof. intros E. pose proof (tr_rhs s (md_tags s M) i Hi Ti) as X. rewrite E in X. auto. Qed.

Lemma fix_sem_t : forall v t, ext_le (lb s k) v -> le_ext v (ub s k) ->
  (forall y, ext_le (lb s k) y -> le_ext y (ub s k) -> cst s k * (v - y) <= 0 /\
     (t_lhs_inf (rt s i) = false -> a * y <= a * v) /\ (t_rhs_inf (rt s i) = false -> a * v <= a * y)) ->
  fixed_frame s t i k v a -> noloss s t /\ lifts s t.
Proof.
  intros v t BL BU FW (F' & CZ & CT & RT & CO & OF & EM & EL & ER).
  assert (RS : forall x, rsat t x i <-> on s i (a * v + rest x)).
  { intros x. unfold rsat, on. rewrite EM, EL, ER.
    pose proof tl_lhs as T1. pose proof tl_rhs as T2. pose proof tf_lhs as T3. pose proof tf_rhs as T4.
    assert (Y1 : ext_le (if t_lhs_inf (rt s i) then lhs s i else ext_sub (lhs s i) (a * v)) (rest x) <-> ext_le (lhs s i) (a * v + rest x)).
    { destruct (t_lhs_inf (rt s i)); [rewrite T1 by auto; simpl; tauto|]. specialize (T3 eq_refl). destruct (lhs s i); try discriminate. simpl. split; intros; lra. }
    assert (Y2 : le_ext (rest x) (if t_rhs_inf (rt s i) then rhs s i else ext_sub (rhs s i) (a * v)) <-> le_ext (a * v + rest x) (rhs s i)).
    { destruct (t_rhs_inf (rt s i)); [rewrite T2 by auto; simpl; tauto|]. specialize (T4 eq_refl). destruct (rhs s i); try discriminate. simpl. split; intros; lra. }
    tauto. }
  split.
  - intros x X. apply parts in X. destruct X as (X1 & X2 & X3 & [X4 X5]). destruct (FW (x k) X4 X5) as (W1 & W2 & W3).
    exists x. split.
    + apply (parts_t t x F' CT). split; [auto|split; [auto|intros _; apply RS]]. destruct X3 as [L U]. split.
      * destruct (t_lhs_inf (rt s i)) eqn:T; [rewrite (tl_lhs T); exact I|]. eapply ext_le_le; [|exact L]. specialize (W2 eq_refl). lra.
      * destruct (t_rhs_inf (rt s i)) eqn:T; [rewrite (tl_rhs T); exact I|]. eapply le_ext_le; [|exact U]. specialize (W3 eq_refl). lra.
    + rewrite (fix_obj s k H Hk Tk t x v); auto; [|apply F'|rewrite OF; lra]. rewrite (obj_upd s k x v Hk CKn). lra.
  - intros x' X. apply (parts_t t x' F' CT) in X. destruct X as (X1 & X2 & X3). rewrite RT in X3. specialize (X3 Ti). apply RS in X3.
    exists (upd x' k v). split; [|split].
    + intros j Hj. rewrite upd_other; [lra|]. apply (live_not_k s k t j CZ Hj).
    + apply parts_upd. auto.
    + symmetry. apply (fix_obj s k H Hk Tk t); auto; [apply F'|rewrite OF; lra].
Qed.

Lemma fix_sem : forall v, ext_le (lb s k) v -> le_ext v (ub s k) ->
  (forall y, ext_le (lb s k) y -> le_ext y (ub s k) -> cst s k * (v - y) <= 0 /\
     (t_lhs_inf (rt s i) = false -> a * y <= a * v) /\ (t_rhs_inf (rt s i) = false -> a * v <= a * y)) ->
  noloss s (push_if_ston i (fix_col_ston i k v a s)) /\ lifts s (push_if_ston i (fix_col_ston i k v a s)).
Proof.
  intros v BL BU FW. apply (fix_sem_t v); auto. apply push_if_fixed. exact (fix_frame s i k v a (VFi s i H Hi Ti)).
Qed.

Lemma close_sem : forall (u : bool) b, (if u then rhs s i else lhs s i) = Fin b ->
  (forall x w, sat1 s x -> a * w + rest x == b -> cst s k * (w - x k) <= 0 /\ ext_le (lb s k) w /\ le_ext w (ub s k)) ->
  let t := close_row u i s in noloss s t /\ lifts s t.
Proof.
  intros u b EB FW. cbv zeta. destruct (close_frame u i k s) as (F & CZ & CT & RT & CO & OF & EM & EL & ER).
  set (t := close_row u i s) in *. clearbody t.
  assert (OB : forall x, obj t x == obj s x).
  { intros x. unfold obj. rewrite CO, OF. replace (live_cols t) with (live_cols s); [lra|]. unfold live_cols. rewrite CZ, (sf_nc _ _ _ _ F). auto. }
  assert (PT : forall x, sat1 t x <-> orow s i x /\ ocol s k x /\ dot (mA s i) x == b /\ csat s x k).
  { intros x. destruct (stepf_o s t i k x F) as [O1 O2].
    rewrite (sat1_parts t i k x); [|rewrite (sf_nr _ _ _ _ F); auto|rewrite (sf_nc _ _ _ _ F); auto].
    rewrite O1, O2, CT, RT. unfold rsat, csat. rewrite EM, EL, ER, (sf_lb _ _ _ _ F), (sf_ub _ _ _ _ F), EB. simpl.
    split; intros (Y1 & Y2 & Y3 & Y4); (split; [auto|split; [auto|split]]); auto.
    - destruct (Y3 eq_refl). lra.
    - intros _. rewrite Y3. split; lra. }
  split.
  - intros x X. set (w := (b - rest x) / a). assert (EW : a * w + rest x == b) by apply (solve_k s i k a H Hi IN). clearbody w.
    destruct (FW x w X EW) as (W1 & W2 & W3). exists (upd x k w).
    pose proof (proj1 (parts x) X) as (X1 & X2 & X3 & X4). split.
    + apply PT. split; [apply (orow_upd s i k a H Hk Tk EK); auto|split; [apply (ocol_upd s k); auto|split]].
      * rewrite (row_upd s i k a H Hi IN). auto.
      * unfold csat. rewrite upd_same. auto.
    + rewrite OB, (obj_upd s k x w Hk CKn). lra.
  - intros x X. exists x. split; [intros; lra|]. split; [|symmetry; apply OB]. apply PT in X. destruct X as (X1 & X2 & X3 & X4).
    apply parts. split; [auto|split; [auto|split; [|auto]]]. rewrite (row_rest s i k a H Hi IN) in X3.
    apply (on_q s i b); [lra|]. pose proof (SD i Hi Ti) as S. unfold on. destruct u; rewrite EB in S |- *; cbn [is_fin fin] in S; (split; [|simpl; try lra]); simpl; try lra.
    + pose proof (tr_lhs s (md_tags s M) i Hi Ti) as T. destruct (t_lhs_inf (rt s i)); [rewrite T; exact I|].
      apply ext_le_fin; auto.
    + pose proof (tr_rhs s (md_tags s M) i Hi Ti) as T. destruct (t_rhs_inf (rt s i)); [rewrite T; exact I|].
      apply le_ext_fin; auto.
Qed.

(** The cost drives [k] off without limit. *)
Lemma run_off : forall d, cst s k * d < 0 ->
  (forall y c, 0 <= c -> ext_le (lb s k) y -> le_ext y (ub s k) -> ext_le (lb s k) (y + c * d) /\ le_ext (y + c * d) (ub s k)) ->
  (forall r c, 0 <= c -> on s i r -> on s i (r + c * (a * d))) -> endless s.
Proof.
  intros d CD BD RD [x X] B. pose proof (proj1 (parts x) X) as (X1 & X2 & X3 & [X4 X5]).
  set (c := Qmax 0 ((B - obj s x) / (cst s k * d) + 1)).
  assert (C0 : 0 <= c) by apply Q.le_max_l.
  assert (C1 : (B - obj s x) / (cst s k * d) + 1 <= c) by apply Q.le_max_r.
  assert (C2 : obj s x + c * (cst s k * d) < B).
  { assert (Y : ((B - obj s x) / (cst s k * d) + 1) * - (cst s k * d) <= c * - (cst s k * d)) by (apply Qmult_le_compat_r; lra).
    assert (Z : (B - obj s x) / (cst s k * d) * (cst s k * d) == B - obj s x) by (field; split; intros E; rewrite E in CD; lra). lra. }
  clearbody c. exists (upd x k (x k + c * d)). destruct (BD (x k) c C0 X4 X5) as [B1 B2]. split.
  - apply parts_upd. split; [auto|split; [auto|split; [|auto]]]. eapply on_q; [|apply (RD _ c C0 X3)]. ring.
  - rewrite (obj_upd s k x _ Hk CKn). lra.
Qed.

Definition sem1 (t : state) (st : status) : Prop :=
  (st = UNBNDORINFEAS /\ endless s /\ t = s) \/ (st <> UNBNDORINFEAS /\ noloss s t /\ lifts s t).
Lemma k_lb : t_lb_inf (ct s k) = true -> lb s k = NInf.
Proof. intros E. pose proof (tr_lb s (md_tags s M) k Hk Tk) as X. rewrite E in X. auto. Qed.
Lemma k_ub : t_ub_inf (ct s k) = true -> ub s k = PInf.
Proof. intros E. pose proof (tr_ub s (md_tags s M) k Hk Tk) as X. rewrite E in X. auto. Qed.
Lemma k_lbf : t_lb_inf (ct s k) = false -> is_fin (lb s k) = true.
Proof. intros E. pose proof (tr_lb s (md_tags s M) k Hk Tk) as X. rewrite E in X. auto. Qed.
Lemma k_ubf : t_ub_inf (ct s k) = false -> is_fin (ub s k) = true.
Proof. intros E. pose proof (tr_ub s (md_tags s M) k Hk Tk) as X. rewrite E in X. auto. Qed.

Lemma case_low : 0 < cst s k -> (0 < a /\ t_lhs_inf (rt s i) = true \/ a < 0 /\ t_rhs_inf (rt s i) = true) ->
  if t_lb_inf (ct s k) then endless s
  else noloss s (push_if_ston i (fix_col_ston i k (fin (lb s k)) a s)) /\ lifts s (push_if_ston i (fix_col_ston i k (fin (lb s k)) a s)).
Proof.
  intros CP AS. destruct (t_lb_inf (ct s k)) eqn:TL.
  - apply (run_off (-(1))); [lra| |].
    + intros y c C0 _ U. rewrite (k_lb TL). split; [exact I|]. eapply le_ext_le; [|exact U]. lra.
    + intros r c C0 [L U]. destruct AS as [[G T]|[G T]].
      * split; [rewrite (tl_lhs T); exact I|]. eapply le_ext_le; [|exact U].
        assert (0 <= c * a) by (apply Qmult_le_0_compat; lra). lra.
      * split; [|rewrite (tl_rhs T); exact I]. eapply ext_le_le; [|exact L].
        assert (0 <= c * (- a)) by (apply Qmult_le_0_compat; lra). lra.
  - pose proof (k_lbf TL) as LF. apply fix_sem.
    + apply ext_le_fin; auto. lra.
    + destruct (t_ub_inf (ct s k)) eqn:TU; [rewrite (k_ub TU); exact I|]. pose proof (k_ubf TU) as UF.
      apply le_ext_fin; auto. 
    + intros y Y1 Y2. apply ext_le_fin in Y1; auto. split; [|split].
      * assert (0 <= cst s k * (y - fin (lb s k))) by (apply Qmult_le_0_compat; lra). lra.
      * intros T. destruct AS as [[G T']|[G T']]; [congruence|]. apply neg_le; auto.
      * intros T. destruct AS as [[G T']|[G T']]; [|congruence]. apply pos_le; auto.
Qed.
Lemma case_up : cst s k < 0 -> (a < 0 /\ t_lhs_inf (rt s i) = true \/ 0 < a /\ t_rhs_inf (rt s i) = true) ->
  if t_ub_inf (ct s k) then endless s
  else noloss s (push_if_ston i (fix_col_ston i k (fin (ub s k)) a s)) /\ lifts s (push_if_ston i (fix_col_ston i k (fin (ub s k)) a s)).
Proof.
  intros CP AS. destruct (t_ub_inf (ct s k)) eqn:TL.
  - apply (run_off 1); [lra| |].
    + intros y c C0 U _. rewrite (k_ub TL). split; [|exact I]. eapply ext_le_le; [|exact U]. lra.
    + intros r c C0 [L U]. destruct AS as [[G T]|[G T]].
      * split; [rewrite (tl_lhs T); exact I|]. eapply le_ext_le; [|exact U].
        assert (0 <= c * - a) by (apply Qmult_le_0_compat; lra). lra.
      * split; [|rewrite (tl_rhs T); exact I]. eapply ext_le_le; [|exact L].
        assert (0 <= c * a) by (apply Qmult_le_0_compat; lra). lra.
  - pose proof (k_ubf TL) as UF. apply fix_sem.
    + destruct (t_lb_inf (ct s k)) eqn:TU; [rewrite (k_lb TU); exact I|]. pose proof (k_lbf TU) as LF.
      apply ext_le_fin; auto.
    + apply le_ext_fin; auto. lra.
    + intros y Y1 Y2. apply le_ext_fin in Y2; auto. split; [|split].
      * assert (0 <= (- cst s k) * (fin (ub s k) - y)) by (apply Qmult_le_0_compat; lra). lra.
      * intros T. destruct AS as [[G T']|[G T']]; [congruence|]. apply pos_le; auto.
      * intros T. destruct AS as [[G T']|[G T']]; [|congruence]. apply neg_le; auto.
Qed.
Notation fin_t b v side ck := (set_row_to_inactive i v (record (SUB_COL k (row_view (sub_col_now k (sub_var_in_obj (row_view s i) k a b s)) i) side i ck)
     (sub_col_now k (sub_var_in_obj (row_view s i) k a b s)))).
Lemma finish_sem1 : forall b v side ck, ab = true -> be = true -> on s i b ->
  (forall x w, sat1 s x -> a * w + rest x == b -> cst s k * (w - x k) <= 0) ->
  noloss s (fin_t b v side ck) /\ lifts s (fin_t b v side ck).
Proof.
  intros b v side ck E1 E2 ON FW. split.
  - intros x X. destruct (sub_row_pts s i k a H Hi Hk Ti Tk IN b v side ck x X) as [Y [w [W O]]]. exists x. split; [exact Y|].
    rewrite O. pose proof (FW x w X W). lra.
  - apply (sub_row_lifts s i k a H M A WF WS Hi Hk Ti Tk EK IN); auto.
Qed.
Lemma on_side : forall (u : bool), (if u then t_rhs_inf (rt s i) else t_lhs_inf (rt s i)) = false -> on s i (fin (if u then rhs s i else lhs s i)).
Proof.
  intros u T. pose proof (SD i Hi Ti) as S. destruct u.
  - pose proof (tf_rhs T) as F. split; [|apply le_ext_fin; auto; lra].
    destruct (t_lhs_inf (rt s i)) eqn:TL; [rewrite (tl_lhs TL); exact I|]. pose proof (tf_lhs TL). apply ext_le_fin; auto.
  - pose proof (tf_lhs T) as F. split; [apply ext_le_fin; auto; lra|].
    destruct (t_rhs_inf (rt s i)) eqn:TL; [rewrite (tl_rhs TL); exact I|]. pose proof (tf_rhs TL). apply le_ext_fin; auto.
Qed.
(** Moving [k] until the row meets its side *)
Lemma meet : forall (u : bool) x w, (if u then t_rhs_inf (rt s i) else t_lhs_inf (rt s i)) = false -> sat1 s x ->
  a * w + rest x == fin (if u then rhs s i else lhs s i) ->
  (if u then a * x k <= a * w else a * w <= a * x k).
Proof.
  intros u x w T X W. apply parts in X. destruct X as (_ & _ & [L U] & _). destruct u.
  - apply le_ext_fin in U; [|apply tf_rhs; auto]. lra.
  - apply ext_le_fin in L; [|apply tf_lhs; auto]. lra.
Qed.
Lemma fin_is : forall e, is_fin e = true -> e = Fin (fin e). Proof. intros [| |]; simpl; auto; discriminate. Qed.

Lemma process_ineq_sem : sem1 (fst (process_colston_ineq i k a ab be s)) (snd (process_colston_ineq i k a ab be s)).
Proof.
  pose proof NA as NA. unfold process_colston_ineq. cbv zeta.
  assert (CN : forall u : bool, cst s k == 0 -> forall x w, sat1 s x -> a * w + rest x == fin (if u then rhs s i else lhs s i) -> cst s k * (w - x k) <= 0).
  { intros u E x w _ _. rewrite E. lra. }
  assert (CL : (0 < cst s k /\ 0 < a \/ cst s k < 0 /\ a < 0) -> t_lhs_inf (rt s i) = false ->
     forall x w, sat1 s x -> a * w + rest x == fin (lhs s i) -> cst s k * (w - x k) <= 0 /\ (0 < a -> w <= x k) /\ (a < 0 -> x k <= w)).
  { intros S T x w X W. pose proof (meet false x w T X W) as Y. simpl in Y. destruct S as [[S1 S2]|[S1 S2]].
    - apply pos_le in Y; auto. split; [|split; intros; lra]. assert (0 <= cst s k * (x k - w)) by (apply Qmult_le_0_compat; lra). lra.
    - apply neg_le in Y; auto. split; [|split; intros; lra]. assert (0 <= (- cst s k) * (w - x k)) by (apply Qmult_le_0_compat; lra). lra. }
  assert (CR : (0 < cst s k /\ a < 0 \/ cst s k < 0 /\ 0 < a) -> t_rhs_inf (rt s i) = false ->
     forall x w, sat1 s x -> a * w + rest x == fin (rhs s i) -> cst s k * (w - x k) <= 0 /\ (0 < a -> x k <= w) /\ (a < 0 -> w <= x k)).
  { intros S T x w X W. pose proof (meet true x w T X W) as Y. simpl in Y. destruct S as [[S1 S2]|[S1 S2]].
    - apply neg_le in Y; auto. split; [|split; intros; lra]. assert (0 <= cst s k * (x k - w)) by (apply Qmult_le_0_compat; lra). lra.
    - apply pos_le in Y; auto. split; [|split; intros; lra]. assert (0 <= (- cst s k) * (w - x k)) by (apply Qmult_le_0_compat; lra). lra. }
  assert (SB : forall x, sat1 s x -> on s i (a * x k + rest x) /\ ocol s k x /\ csat s x k) by (intros x X; apply parts in X; tauto).
  match goal with |- sem1 (fst (if ?b then _ else _)) _ => destruct b eqn:C1 end.
  { assert (X : 0 < cst s k /\ (0 < a /\ t_lhs_inf (rt s i) = true \/ a < 0 /\ t_rhs_inf (rt s i) = true)).
    { apply orb_true_iff in C1. rewrite !andb_true_iff in C1. destruct C1 as [[[C1 C2] C3]|[[C1 C2] C3]]; qb; auto. }
    destruct X as [X1 X2]. pose proof (case_low X1 X2) as Y. destruct (t_lb_inf (ct s k)); cbn [fst snd].
    - left; auto.
    - right. split; [discriminate|exact Y]. }
  match goal with |- sem1 (fst (if ?b then _ else _)) _ => destruct b eqn:C2 end.
  { assert (X : cst s k < 0 /\ (a < 0 /\ t_lhs_inf (rt s i) = true \/ 0 < a /\ t_rhs_inf (rt s i) = true)).
    { apply orb_true_iff in C2. rewrite !andb_true_iff in C2. destruct C2 as [[[C2 C4] C3]|[[C2 C4] C3]]; qb; auto. }
    destruct X as [X1 X2]. pose proof (case_up X1 X2) as Y. destruct (t_ub_inf (ct s k)); cbn [fst snd].
    - left; auto.
    - right. split; [discriminate|exact Y]. }
  destruct (ab && be) eqn:E.
  { apply andb_true_iff in E. destruct E as [E1 E2].
    match goal with |- sem1 (fst (if ?b then _ else _)) _ => destruct b eqn:C3 end.
    { assert (X : 0 < cst s k /\ 0 < a \/ cst s k < 0 /\ a < 0).
      { apply orb_true_iff in C3. rewrite !andb_true_iff in C3. destruct C3 as [[C3 C4]|[C3 C4]]; qb; auto. }
      destruct (t_lhs_inf (rt s i)) eqn:T.
      - exfalso. rewrite !andb_true_r in C1, C2. apply orb_false_iff in C1, C2. destruct C1, C2, X as [[X1 X2]|[X1 X2]].
        + apply andb_false_iff in H0. destruct H0; qb; lra.
        + apply andb_false_iff in H2. destruct H2; qb; lra.
      - cbn [fst snd]. right. split; [discriminate|]. apply finish_sem1; auto.
        + apply (on_side false); auto.
        + intros x w X' W. apply (CL X eq_refl x w X' W). }
    match goal with |- sem1 (fst (if ?b then _ else _)) _ => destruct b eqn:C4 end.
    { assert (X : 0 < cst s k /\ a < 0 \/ cst s k < 0 /\ 0 < a).
      { apply orb_true_iff in C4. rewrite !andb_true_iff in C4. destruct C4 as [[C4 C5]|[C4 C5]]; qb; auto. }
      destruct (t_rhs_inf (rt s i)) eqn:T.
      - exfalso. rewrite !andb_true_r in C1, C2. apply orb_false_iff in C1, C2. destruct C1, C2, X as [[X1 X2]|[X1 X2]].
        + apply andb_false_iff in H1. destruct H1; qb; lra.
        + apply andb_false_iff in H3. destruct H3; qb; lra.
      - cbn [fst snd]. right. split; [discriminate|]. apply finish_sem1; auto.
        + apply (on_side true); auto.
        + intros x w X' W. apply (CR X eq_refl x w X' W). }
    assert (C0 : cst s k == 0).
    { apply orb_false_iff in C3, C4. rewrite !andb_false_iff in C3, C4. destruct C3, C4.
      destruct (Q_dec (cst s k) 0) as [[Z|Z]|Z]; [| |auto]; exfalso;
        destruct (Q_dec a 0) as [[Z'|Z']|Z']; [| |contradiction| | |contradiction];
        repeat match goal with HH : _ \/ _ |- _ => destruct HH end; qb; lra. }
    cbn [fst snd]. right. split; [discriminate|]. apply finish_sem1; auto.
    - destruct (t_lhs_inf (rt s i)) eqn:TL; [|apply (on_side false); auto].
      destruct (t_rhs_inf (rt s i)) eqn:TR; [|apply (on_side true); auto].
      unfold on. rewrite (tl_lhs TL), (tl_rhs TR). simpl. auto.
    - intros x w X W. rewrite C0. lra. }
  apply andb_false_iff in E.
  match goal with |- sem1 (fst (if ?b then _ else _)) _ => destruct b eqn:C3 end.
  { cbn [fst snd]. right. split; [discriminate|].
    assert (X : cst s k < 0 /\ 0 < a /\ ab = true \/ 0 < cst s k /\ a < 0 /\ be = true).
    { apply orb_true_iff in C3. rewrite !andb_true_iff in C3. destruct C3 as [[[C3 C4] C5]|[[C3 C4] C5]]; qb; auto. }
    assert (T : t_rhs_inf (rt s i) = false).
    { destruct (t_rhs_inf (rt s i)) eqn:T; auto. exfalso. rewrite !andb_true_r in C1, C2. apply orb_false_iff in C1, C2. destruct C1 as [_ C1], C2 as [_ C2].
      apply andb_false_iff in C1, C2. destruct X as [(X1&X2&_)|(X1&X2&_)]; [destruct C2|destruct C1]; qb; lra. }
    pose proof (tf_rhs T) as F. apply (close_sem true (fin (rhs s i))); [apply fin_is; auto|].
    intros x w X' W. destruct (CR ltac:(tauto) T x w X' W) as (W1 & W2 & W3). split; [auto|].
    destruct (SB x X') as (S1 & S2 & [S3 S4]).
    assert (ON : on s i (a * w + rest x)).
    { split; [|apply le_ext_fin; auto; lra]. destruct S1 as [S1 S5]. apply le_ext_fin in S5; auto. eapply ext_le_le; [|exact S1]. lra. }
    destruct X as [(X1&X2&X3)|(X1&X2&X3)].
    - split; [eapply ext_le_le; [|exact S3]; auto|]. apply (AB s i k a H M A WF WS Hi Ti IN X3 x w S2 ON).
    - split; [|eapply le_ext_le; [|exact S4]; auto]. apply (BE s i k a H M A WF WS Hi Ti IN X3 x w S2 ON). }
  match goal with |- sem1 (fst (if ?b then _ else _)) _ => destruct b eqn:C4 end.
  { cbn [fst snd]. right. split; [discriminate|].
    assert (X : 0 < cst s k /\ 0 < a /\ be = true \/ cst s k < 0 /\ a < 0 /\ ab = true).
    { apply orb_true_iff in C4. rewrite !andb_true_iff in C4. destruct C4 as [[[C4 C5] C6]|[[C4 C5] C6]]; qb; auto. }
    assert (T : t_lhs_inf (rt s i) = false).
    { destruct (t_lhs_inf (rt s i)) eqn:T; auto. exfalso. rewrite !andb_true_r in C1, C2. apply orb_false_iff in C1, C2. destruct C1 as [C1 _], C2 as [C2 _].
      apply andb_false_iff in C1, C2. destruct X as [(X1&X2&_)|(X1&X2&_)]; [destruct C1|destruct C2]; qb; lra. }
    pose proof (tf_lhs T) as F. apply (close_sem false (fin (lhs s i))); [apply fin_is; auto|].
    intros x w X' W. destruct (CL ltac:(tauto) T x w X' W) as (W1 & W2 & W3). split; [auto|].
    destruct (SB x X') as (S1 & S2 & [S3 S4]).
    assert (ON : on s i (a * w + rest x)).
    { split; [apply ext_le_fin; auto; lra|]. destruct S1 as [S1 S5]. apply ext_le_fin in S1; auto. eapply le_ext_le; [|exact S5]. lra. }
    destruct X as [(X1&X2&X3)|(X1&X2&X3)].
    - split; [|eapply le_ext_le; [|exact S4]; auto]. apply (BE s i k a H M A WF WS Hi Ti IN X3 x w S2 ON).
    - split; [eapply ext_le_le; [|exact S3]; auto|]. apply (AB s i k a H M A WF WS Hi Ti IN X3 x w S2 ON). }
  cbn [fst snd]. right. split; [discriminate|]. split; [apply noloss_refl|apply lifts_refl].
Qed.
End Steps2.
