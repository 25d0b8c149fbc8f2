(** Merging parallel columns keeps the solutions: the loops and the explorer. *)
From Coq Require Import NArith Lqa Lia Qabs.
From Verif Require Import M_Num S_LP M_Settings M_Driver S_Driver M_State M_Act M_Core M_Simple
  M_StonCols M_Dton M_Parallel M_Propagate M_Init M_Post M_Run S_Run S_Struct S_Sem S_Sem2 S_Sem4 S_Merge S_MergeCol
  L_State L_Struct L_Struct2 L_Struct5 L_Struct7 L_Struct11 L_Sem L_Sem2 L_Sem3 L_Sem4 L_Sem6 L_Sem9 L_Ston L_Mid L_Mid5 L_Mid6
  L_ParRow L_ParCol L_Reach.
Import M_Driver.
Open Scope Q_scope.

(** What is needed of a pair *)
Record pairok (t : state) (j k : nat) : Prop := {
  pk_j : ~ first_coeff (mAT t j) == 0;
  pk_k : ~ first_coeff (mAT t k) == 0;
  pk_cr : CR t j k (first_coeff (mAT t k) / first_coeff (mAT t j));
  pk_c : IS_EQUAL_FEAS_TOL (cst t k * first_coeff (mAT t j)) (cst t j * first_coeff (mAT t k)) = true ->
         cst t k * first_coeff (mAT t j) == cst t j * first_coeff (mAT t k) }.
Lemma pairok_pfr : forall s t j k, pfr s t -> pairok s j k -> pairok t j k.
Proof.
  intros s t j k F [A B C D]. constructor; unfold CR in *; rewrite ?(pf_AT _ _ F), ?(pf_cst _ _ F), ?(pf_A _ _ F), ?(pf_nr _ _ F), ?(pf_rt _ _ F); auto.
Qed.

Lemma neg_mul : forall q d, q < 0 -> d <= 0 -> 0 <= q * d.
Proof. intros. setoid_replace (q * d) with ((- q) * (- d)) by ring. apply Qmult_le_0_compat; lra. Qed.
Lemma neg_pos : forall q d, q < 0 -> 0 <= d -> q * d <= 0.
Proof. intros. assert (0 <= (- q) * d) by (apply Qmult_le_0_compat; lra). lra. Qed.
Lemma pos_neg : forall q d, 0 < q -> d <= 0 -> q * d <= 0.
Proof. intros. assert (0 <= q * (- d)) by (apply Qmult_le_0_compat; lra). lra. Qed.
Lemma pos_pos : forall q d, 0 < q -> 0 <= d -> 0 <= q * d.
Proof. intros. apply Qmult_le_0_compat; lra. Qed.
Lemma sign_l : forall q d, 0 < q -> q * d <= 0 -> d <= 0.
Proof. intros q d A B. destruct (Qlt_le_dec 0 d); auto. assert (0 < q * d) by (apply Qmult_lt_0_compat; auto). lra. Qed.
Lemma sign_r : forall q d, q < 0 -> q * d <= 0 -> 0 <= d.
Proof. intros q d A B. destruct (Qlt_le_dec d 0); auto. assert (0 < (- q) * (- d)) by (apply Qmult_lt_0_compat; lra). lra. Qed.

Section Pair.
Variables (t : state) (j k : nat) (b : bool).
Hypotheses (H : Inv t) (M : Mid t) (N : nocross t) (D : j <> k) (Hj : (j < nc t)%nat) (Hk : (k < nc t)%nat)
  (Tj : t_cinact (ct t j) = false) (Tk : t_cinact (ct t k) = false) (q : Q) (C : CR t j k q) (NZ : ~ q == 0)
  (NE : ~ cst t k == q * cst t j).
Let D0 := cst t k - q * cst t j.

(** Moving far enough against the difference of the costs reaches the bound of [c]. *)
Lemma dom_k : forall v ck, inb t k v ->
  (forall x, sat zero zero t x -> D0 * (v - x k) <= 0 /\ inb t j (x j - q * (v - x k))) ->
  pfr t (fst (fix_col k v ck t)) /\ keeps t (fst (fix_col k v ck t)) /\ nocross (fst (fix_col k v ck t)).
Proof.
  intros v ck B X. apply fix_keeps; auto. intros x S. destruct (X x S) as [X1 X2].
  destruct (exch t j k q x (v - x k) H (md_tags t M) D Hj Hk Tj Tk C S X2) as [Y1 Y2].
  { eapply inb_ext; [|exact B]. ring. }
  eexists. split; [exact Y1|]. split; [rewrite Y2; fold D0; lra|]. rewrite two_k. ring.
Qed.
Lemma dom_j : forall v cj, inb t j v ->
  (forall x, sat zero zero t x -> D0 * ((x j - v) / q) <= 0 /\ inb t k (x k + (x j - v) / q)) ->
  pfr t (fst (fix_col j v cj t)) /\ keeps t (fst (fix_col j v cj t)) /\ nocross (fst (fix_col j v cj t)).
Proof.
  intros v ck B X. apply fix_keeps; auto. intros x S. destruct (X x S) as [X1 X2].
  assert (E : x j - q * ((x j - v) / q) == v) by (field; auto).
  destruct (exch t j k q x ((x j - v) / q) H (md_tags t M) D Hj Hk Tj Tk C S) as [Y1 Y2]; auto.
  { eapply inb_ext; [|exact B]. symmetry. exact E. }
  eexists. split; [exact Y1|]. split; [rewrite Y2; fold D0; lra|]. rewrite two_j by auto. exact E.
Qed.
Lemma fall : (forall x d, sat zero zero t x -> D0 * d <= 0 -> inb t j (x j - q * d) /\ inb t k (x k + d)) -> down t.
Proof. intros X x S M0. eapply (ray t j k q x); eauto. apply M. Qed.
End Pair.

Lemma lb_at : forall t c, nocross t -> (c < nc t)%nat -> t_cinact (ct t c) = false -> t_lb_inf (ct t c) = false -> inb t c (fin (lb t c)).
Proof. intros t c N Hc T L. split; intros; [lra|]. apply N; auto. Qed.
Lemma ub_at : forall t c, nocross t -> (c < nc t)%nat -> t_cinact (ct t c) = false -> t_ub_inf (ct t c) = false -> inb t c (fin (ub t c)).
Proof. intros t c N Hc T L. split; intros; [|lra]. apply N; auto. Qed.
Lemma sat_inb : forall t x c, tags_right t -> sat zero zero t x -> (c < nc t)%nat -> t_cinact (ct t c) = false -> inb t c (x c).
Proof. intros t x c TG [_ [S _]] Hc T. apply (proj1 (inb_within t c (x c) TG Hc T)). apply S; auto. Qed.

Lemma div_pos : forall q d, 0 < q -> 0 <= d -> 0 <= d / q.
Proof. intros. apply Qle_shift_div_l; auto. lra. Qed.
Lemma div_npos : forall q d, 0 < q -> d <= 0 -> d / q <= 0.
Proof. intros. apply Qle_shift_div_r; auto. lra. Qed.
Lemma div_neg : forall q d, q < 0 -> 0 <= d -> d / q <= 0.
Proof. intros. setoid_replace (d / q) with (- (d / - q)) by (field; lra). pose proof (div_pos (- q) d). lra. Qed.
Lemma div_nneg : forall q d, q < 0 -> d <= 0 -> 0 <= d / q.
Proof. intros. setoid_replace (d / q) with (- (d / - q)) by (field; lra). pose proof (div_npos (- q) d). lra. Qed.

Lemma col_pair_sem : forall t j k b, Inv t -> Mid t -> nocross t -> j <> k -> (j < nc t)%nat -> (k < nc t)%nat ->
  t_cinact (ct t j) = false -> (t_cinact (ct t k) = false -> pairok t j k) ->
  let '(t', _, res) := col_pair j k t b in
  pfr t t' /\ keeps t t' /\ nocross t' /\ (res = PReturn -> t' = t /\ down t).
Proof.
  intros t j k b H M N D Hj Hk Tj PK. unfold col_pair. cbv zeta.
  assert (SAME : pfr t t /\ keeps t t /\ nocross t) by auto using pfr_refl, keeps_refl.
  assert (W : forall t' (r : pair_res), r <> PReturn -> pfr t t' /\ keeps t t' /\ nocross t' ->
     pfr t t' /\ keeps t t' /\ nocross t' /\ (r = PReturn -> t' = t /\ down t)) by (intros; intuition congruence).
  assert (W0 : down t -> pfr t t /\ keeps t t /\ nocross t /\ (PReturn = PReturn -> t = t /\ down t)) by tauto.
  destruct (t_cinact (ct t k)) eqn:Tk; [apply W; [discriminate|auto]|].
  destruct (PK eq_refl) as [NJ NK C CC]. clear PK.
  set (aj := first_coeff (mAT t j)) in *. set (ak := first_coeff (mAT t k)) in *.
  set (q := ak / aj) in *.
  assert (NZ : ~ q == 0).
  { intros Z. apply NK. setoid_replace ak with (q * aj) by (unfold q; field; auto). rewrite Z. ring. }
  assert (CQ : cst t k * aj == cst t j * ak <-> cst t k == q * cst t j).
  { unfold q. split; intros E.
    - setoid_replace (cst t k) with (cst t k * aj / aj) by (field; auto). rewrite E. field. auto.
    - rewrite E. field. auto. }
  destruct (IS_EQUAL_FEAS_TOL (cst t k * aj) (cst t j * ak)) eqn:EQ.
  { apply W; [discriminate|]. apply merge_sem; auto. apply CQ; auto. }
  assert (NE : ~ cst t k == q * cst t j).
  { intros Z. apply CQ in Z. unfold IS_EQUAL_FEAS_TOL in EQ. qb. assert (X := Z).
    assert (A : ABSq (cst t k * aj - cst t j * ak) <= FEAS_TOL).
    { apply absq_le. pose proof tol_pos. split; lra. }
    lra. }
  clear CQ CC EQ.
  assert (TG := md_tags t M).
  assert (DK := fun v ck A B => dom_k t j k H M N D Hj Hk Tj Tk q C v ck A B).
  assert (DJ := fun v ck A B => dom_j t j k H M N D Hj Hk Tj Tk q C NZ v ck A B).
  assert (FA := fall t j k H M D Hj Hk Tj Tk q C NE).
  assert (IJ := fun x S => sat_inb t x j TG S Hj Tj). assert (IK := fun x S => sat_inb t x k TG S Hk Tk).
  set (D0 := cst t k - q * cst t j) in *.
  assert (GT : if Qgtb (cst t k) (q * cst t j) then 0 < D0 else D0 < 0).
  { unfold D0. destruct (Qgtb (cst t k) (q * cst t j)) eqn:G; qb; [lra|].
    destruct (Qlt_le_dec (cst t k) (q * cst t j)); [lra|]. exfalso. apply NE. lra. }
  assert (PS : if Qgtb q 0 then 0 < q else q < 0).
  { destruct (Qgtb q 0) eqn:G; qb; auto. destruct (Qlt_le_dec q 0); auto. exfalso. apply NZ. lra. }
  assert (LK := lb_at t k N Hk Tk). assert (UK := ub_at t k N Hk Tk).
  assert (LJ := lb_at t j N Hj Tj). assert (UJ := ub_at t j N Hj Tj).
  clear NE NJ NK. clearbody D0 q.
  assert (TJ0 : forall c, t_lb_inf (ct t c) = true \/ t_lb_inf (ct t c) = false) by (intros c; destruct (t_lb_inf (ct t c)); auto).
  destruct (Qgtb (cst t k) (q * cst t j)), (Qgtb q 0); cbn [andb negb].
  - (* ck larger, ratio > 0 *)
    destruct (t_ub_inf (ct t j)) eqn:UJI.
    + destruct (t_lb_inf (ct t k)) eqn:LKI.
      * apply W0, FA. intros x d S Sd. apply (sign_l _ _ GT) in Sd. destruct (IJ x S) as [J1 J2]. destruct (IK x S) as [K1 K2].
        pose proof (pos_neg q d PS Sd). split; (split; intros X; try congruence); [specialize (J1 X)|specialize (K2 X)]; lra.
      * apply W; [discriminate|]. apply DK; auto. intros x S. destruct (IJ x S) as [J1 J2]. destruct (IK x S) as [K1 K2].
        specialize (K1 LKI). split; [apply pos_neg; lra|]. pose proof (pos_neg q (fin (lb t k) - x k) PS).
        split; intros X; [specialize (J1 X); lra|congruence].
    + destruct (t_lb_inf (ct t k)) eqn:LKI; [|apply W; [discriminate|auto]].
      apply W; [discriminate|]. apply DJ; auto. intros x S. destruct (IJ x S) as [J1 J2]. destruct (IK x S) as [K1 K2].
      specialize (J2 UJI). pose proof (div_npos q (x j - fin (ub t j)) PS). split; [apply pos_neg; lra|].
      split; intros X; [congruence|specialize (K2 X); lra].
  - (* ck larger, ratio < 0 *)
    destruct (t_lb_inf (ct t j)) eqn:LJI.
    + destruct (t_lb_inf (ct t k)) eqn:LKI.
      * apply W0, FA. intros x d S Sd. apply (sign_l _ _ GT) in Sd. destruct (IJ x S) as [J1 J2]. destruct (IK x S) as [K1 K2].
        pose proof (neg_mul q d PS Sd). split; (split; intros X; try congruence); [specialize (J2 X)|specialize (K2 X)]; lra.
      * apply W; [discriminate|]. apply DK; auto. intros x S. destruct (IJ x S) as [J1 J2]. destruct (IK x S) as [K1 K2].
        specialize (K1 LKI). split; [apply pos_neg; lra|]. pose proof (neg_mul q (fin (lb t k) - x k) PS).
        split; intros X; [congruence|specialize (J2 X); lra].
    + destruct (t_lb_inf (ct t k)) eqn:LKI; [|apply W; [discriminate|auto]].
      apply W; [discriminate|]. apply DJ; auto. intros x S. destruct (IJ x S) as [J1 J2]. destruct (IK x S) as [K1 K2].
      specialize (J1 LJI). pose proof (div_neg q (x j - fin (lb t j)) PS). split; [apply pos_neg; lra|].
      split; intros X; [congruence|specialize (K2 X); lra].
  - (* ck smaller, ratio > 0 *)
    destruct (t_lb_inf (ct t j)) eqn:LJI.
    + destruct (t_ub_inf (ct t k)) eqn:UKI.
      * apply W0, FA. intros x d S Sd. apply (sign_r _ _ GT) in Sd. destruct (IJ x S) as [J1 J2]. destruct (IK x S) as [K1 K2].
        pose proof (pos_pos q d PS Sd). split; (split; intros X; try congruence); [specialize (J2 X)|specialize (K1 X)]; lra.
      * apply W; [discriminate|]. apply DK; auto. intros x S. destruct (IJ x S) as [J1 J2]. destruct (IK x S) as [K1 K2].
        specialize (K2 UKI). split; [apply neg_pos; lra|]. pose proof (pos_pos q (fin (ub t k) - x k) PS).
        split; intros X; [congruence|specialize (J2 X); lra].
    + destruct (t_ub_inf (ct t k)) eqn:UKI; [|apply W; [discriminate|auto]].
      apply W; [discriminate|]. apply DJ; auto. intros x S. destruct (IJ x S) as [J1 J2]. destruct (IK x S) as [K1 K2].
      specialize (J1 LJI). pose proof (div_pos q (x j - fin (lb t j)) PS). split; [apply neg_pos; lra|].
      split; intros X; [specialize (K1 X); lra|congruence].
  - (* ck smaller, ratio < 0 *)
    destruct (t_ub_inf (ct t j)) eqn:UJI.
    + destruct (t_ub_inf (ct t k)) eqn:UKI.
      * apply W0, FA. intros x d S Sd. apply (sign_r _ _ GT) in Sd. destruct (IJ x S) as [J1 J2]. destruct (IK x S) as [K1 K2].
        pose proof (neg_pos q d PS Sd). split; (split; intros X; try congruence); [specialize (J1 X)|specialize (K1 X)]; lra.
      * apply W; [discriminate|]. apply DK; auto. intros x S. destruct (IJ x S) as [J1 J2]. destruct (IK x S) as [K1 K2].
        specialize (K2 UKI). split; [apply neg_pos; lra|]. pose proof (neg_pos q (fin (ub t k) - x k) PS).
        split; intros X; [specialize (J1 X); lra|congruence].
    + destruct (t_ub_inf (ct t k)) eqn:UKI; [|apply W; [discriminate|auto]].
      apply W; [discriminate|]. apply DJ; auto. intros x S. destruct (IJ x S) as [J1 J2]. destruct (IK x S) as [K1 K2].
      specialize (J2 UJI). pose proof (div_nneg q (x j - fin (ub t j)) PS). split; [apply neg_pos; lra|].
      split; intros X; [specialize (K1 X); lra|congruence].
Qed.

(** ** The loops *)
Definition gok (s : state) (g : list nat) : Prop := forall j k, In j g -> In k g -> j <> k ->
  t_cinact (ct s j) = false -> t_cinact (ct s k) = false -> pairok s j k.
Lemma gok_pfr : forall s t g, pfr s t -> gok s g -> gok t g.
Proof. intros s t g F G j k A B C X Y. apply (pairok_pfr s t); auto. apply G; auto; apply (pf_act _ _ F); auto. Qed.

Lemma col_pairs_sem : forall ks t j b, Inv t -> Mid t -> nocross t -> (j < nc t)%nat -> (forall k, In k ks -> (k < nc t)%nat) ->
  ~ In j ks -> t_cinact (ct t j) = false -> gok t (j :: ks) ->
  let '(t', _, res) := col_pairs j ks t b in
  pfr t t' /\ keeps t t' /\ nocross t' /\ (res = PReturn -> down t').
Proof.
  induction ks as [|k ks IH]; intros t j b H M N Hj HK NI Tj G; cbn [col_pairs].
  { split; [apply pfr_refl|]. split; [apply keeps_refl|]. split; auto. discriminate. }
  assert (D : j <> k) by (intros ->; apply NI; left; auto).
  assert (Hk : (k < nc t)%nat) by (apply HK; left; auto).
  pose proof (col_pair_stp t j k b H Hj Hk) as X. pose proof (col_pair_Mid t j k b H M Hj Hk D Tj) as Y.
  pose proof (col_pair_sem t j k b H M N D Hj Hk Tj) as Z.
  destruct (col_pair j k t b) as [[t1 b1] res]. cbn [fst] in X. destruct X as [S1 _]. destruct Y as [M1 T1].
  destruct Z as [F1 [K1 [N1 R1]]].
  { intros Tk. apply G; auto; [left|right; left]; auto. }
  destruct res.
  - pose proof (IH t1 j b1 (st_inv _ _ S1) M1 N1) as W.
    destruct (col_pairs j ks t1 b1) as [[t2 b2] res2]. destruct W as [F2 [K2 [N2 R2]]].
    + rewrite (pf_nc _ _ F1). auto.
    + intros c Hc. rewrite (pf_nc _ _ F1). apply HK. right. auto.
    + intros X. apply NI. right. auto.
    + auto.
    + apply (gok_pfr t t1); auto. intros c d A B. apply G; [destruct A|destruct B]; subst; cbn; auto.
    + split; [eapply pfr_trans; eauto|]. split; [eapply keeps_trans; eauto|]. auto.
  - split; auto. split; auto. split; auto. discriminate.
  - split; auto. split; auto. split; auto. intros _. destruct (R1 eq_refl) as [-> R]. exact R.
Qed.

Lemma recount_form : forall j s, exists A, recount j s = set_acts A s.
Proof.
  intros j s. unfold recount. generalize (mAT s j). intros l. revert s.
  induction l as [|e l IH]; intros s; cbn [foldS].
  - exists (acts s). destruct s; reflexivity.
  - destruct (IH (set_act1 (fst e) (recompute_n_infs (ct s) (acts s (fst e)) (mA s (fst e))) s)) as [A E].
    exists A. unfold foldS in *. cbn [fold_left]. rewrite E. destruct s; reflexivity.
Qed.
Lemma recount_sem : forall j s, pfr s (recount j s) /\ keeps s (recount j s) /\ (nocross s -> nocross (recount j s)).
Proof.
  intros j s. destruct (recount_form j s) as [A ->]. split; [constructor; sr; auto|].
  split; [|exact (fun N => N)]. split; intros x X; exists x; (split; [exact X|]); unfold obj, live_cols; sr; lra.
Qed.

Lemma keeps_down : forall s t, keeps s t -> down t -> down s.
Proof.
  intros s t [F B] R x S M. destruct (F x S) as [y [Y _]]. destruct (R y Y M) as [z [Z1 Z2]].
  destruct (B z Z1) as [w [W1 W2]]. exists w. split; auto. lra.
Qed.
Lemma col_bin_sem : forall bin t, Inv t -> Mid t -> nocross t -> NoDup bin -> (forall k, In k bin -> (k < nc t)%nat) -> gok t bin ->
  let '(t', st) := process_col_bin bin t in
  pfr t t' /\ keeps t t' /\ nocross t' /\ (st = UNBNDORINFEAS -> down t).
Proof.
  induction bin as [|j rest IH]; intros t H M N ND HK G; cbn [process_col_bin].
  { split; [apply pfr_refl|]. split; [apply keeps_refl|]. split; auto. discriminate. }
  inversion ND as [|? ? NI ND']; subst.
  assert (HR : forall k, In k rest -> (k < nc t)%nat) by (intros; apply HK; right; auto).
  assert (Hj : (j < nc t)%nat) by (apply HK; left; auto).
  assert (GR : gok t rest) by (intros c d A B; apply G; right; auto).
  destruct rest as [|k0 rest0] eqn:ER; [split; [apply pfr_refl|]; split; [apply keeps_refl|]; split; auto; discriminate|].
  rewrite <- ER in *. clear ER k0 rest0.
  destruct (t_cinact (ct t j)) eqn:Tj; [apply IH; auto|].
  pose proof (col_pairs_stp rest t j false H Hj HR) as X. pose proof (col_pairs_Mid rest t j false H M Hj HR NI Tj) as Y.
  pose proof (col_pairs_sem rest t j false H M N Hj HR NI Tj G) as Z.
  destruct (col_pairs j rest t false) as [[t1 rec] res]. cbn [fst] in X, Y. destruct X as [S1 _].
  destruct Z as [F1 [K1 [N1 R1]]].
  assert (K : let '(t', st) := process_col_bin rest (if rec then recount j t1 else t1) in
     pfr t t' /\ keeps t t' /\ nocross t' /\ (st = UNBNDORINFEAS -> down t)).
  { set (t2 := if rec then recount j t1 else t1).
    assert (E2 : pfr t1 t2 /\ keeps t1 t2 /\ nocross t2 /\ Mid t2 /\ Inv t2).
    { unfold t2. destruct rec.
      - destruct (recount_sem j t1) as [A [B C]]. split; auto. split; auto. split; auto.
        split; [apply recount_Mid; auto|]. eapply same_Inv; [apply recount_same|apply S1].
      - split; [apply pfr_refl|]. split; [apply keeps_refl|]. split; auto. split; auto. apply S1. }
    destruct E2 as [F2 [K2 [N2 [M2 I2]]]]. assert (F := pfr_trans _ _ _ F1 F2). assert (KK := keeps_trans _ _ _ K1 K2).
    pose proof (IH t2 I2 M2 N2 ND') as W. destruct (process_col_bin rest t2) as [t3 st]. destruct W as [F3 [K3 [N3 R3]]].
    - intros c Hc. rewrite (pf_nc _ _ F). auto.
    - apply (gok_pfr t t2); auto.
    - split; [eapply pfr_trans; eauto|]. split; [eapply keeps_trans; eauto|]. split; auto. intros E. apply (keeps_down t t2); auto. }
  destruct res; auto. split; auto. split; auto. split; auto. intros _. apply (keeps_down t t1); auto.
Qed.

Lemma col_groups_sem : forall gs t st, Inv t -> Mid t -> nocross t -> (forall g, In g gs -> NoDup g) ->
  (forall g k, In g gs -> In k g -> (k < nc t)%nat) -> (forall g, In g gs -> gok t g) ->
  let '(t', st') := fold_or (fun s g => process_col_bin g s) gs t st in
  pfr t t' /\ keeps t t' /\ nocross t' /\ (st = UNCHANGED \/ st = UNBNDORINFEAS -> st' = UNBNDORINFEAS -> st = UNBNDORINFEAS \/ down t).
Proof.
  induction gs as [|g gs IH]; intros t st H M N ND HG G; cbn [fold_or].
  { split; [apply pfr_refl|]. split; [apply keeps_refl|]. split; auto. }
  assert (HK : forall k, In k g -> (k < nc t)%nat) by (intros; eapply HG; [left; eauto|auto]).
  pose proof (col_bin_stp g t H HK) as X. pose proof (col_bin_Mid g t H M (ND g (or_introl eq_refl)) HK) as Y.
  pose proof (col_bin_sem g t H M N (ND g (or_introl eq_refl)) HK (G g (or_introl eq_refl))) as Z.
  destruct (process_col_bin g t) as [t1 st1]. cbn [fst] in Y. destruct X as [S1 [_ E1]]. destruct Z as [F1 [K1 [N1 R1]]].
  pose proof (IH t1 (N.lor st st1) (st_inv _ _ S1) Y N1) as W.
  destruct (fold_or _ gs t1 (N.lor st st1)) as [t2 st2]. destruct W as [F2 [K2 [N2 R2]]].
  - intros; apply ND; right; auto.
  - intros g' k A B. rewrite (pf_nc _ _ F1). eapply HG; [right; eauto|auto].
  - intros g' Hg. apply (gok_pfr t t1); auto. apply G. right. auto.
  - split; [eapply pfr_trans; eauto|]. split; [eapply keeps_trans; eauto|]. split; auto. intros E0 E.
    destruct (R2) as [A|A]; auto.
    + destruct E0 as [->| ->], E1 as [->| ->]; cbn; auto.
    + destruct E0 as [->| ->], E1 as [->| ->]; cbn in A; auto; discriminate.
    + right. apply (keeps_down t t1); auto.
Qed.

(** ** The groups of the search *)
Lemma coeff_AT : forall s i k, Inv s -> (i < nr s)%nat -> t_inact (rt s i) = false -> (k < nc s)%nat -> t_cinact (ct s k) = false ->
  coeff (mA s i) k == coeff (mAT s k) i.
Proof.
  intros s i k H Hi Ti Hk Tk. assert (W := inv_0 s H).
  assert (AG := fun a => w_agree s W i k a Hi Hk (act_alive s i W Hi Ti) (cact_alive s k W Hk Tk)).
  assert (S1 := w_rsrt s W i Hi). assert (S2 := w_csrt s W k Hk).
  destruct (has_dec k (mA s i)) as [[a X]|X].
  - rewrite (coeff_in _ _ a S1 X). apply AG in X. rewrite (coeff_in _ _ a S2 X). lra.
  - rewrite (coeff_out _ _ X). rewrite coeff_out; [lra|]. intros [a Y]. apply X. exists a. apply AG; auto.
Qed.
Lemma nearly_keys : forall q r r', nearly_scaled q r r' -> map fst r = map fst r'.
Proof. intros q r r' HN. induction HN as [|e e' r r' [A B] HN IH]; cbn; [auto|]. rewrite A, IH. auto. Qed.
Lemma nearly_coeff : forall q r r', srt r -> nearly_scaled q r r' -> forall i, Qabs (coeff r i - q * coeff r' i) <= FEAS_TOL.
Proof.
  intros q r r' S HN. induction HN as [|[c v] [c' v'] r r' [A B] HN IH]; intros i; cbn [coeff].
  - setoid_replace (0 - q * 0) with 0 by ring. discriminate.
  - cbn [fst snd] in A, B. subst c'. apply srt_inv in S. destruct S as [S L]. specialize (IH S i).
    destruct (Nat.eqb c i) eqn:E.
    + apply Nat.eqb_eq in E. subst i.
      assert (X : forall p, In p r' -> (c < fst p)%nat).
      { intros p Hp. apply (in_map fst) in Hp. rewrite <- (nearly_keys _ _ _ HN) in Hp. apply in_map_iff in Hp.
        destruct Hp as [e [E He]]. rewrite <- E. apply L. auto. }
      rewrite (coeff_out r c), (coeff_out r' c).
      * eapply Qle_trans; [|exact B]. apply Qle_lteq. right. apply Qabs_wd. ring.
      * intros [a Y]. apply X in Y. simpl in Y. lia.
      * intros [a Y]. apply L in Y. simpl in Y. lia.
    + eapply Qle_trans; [|exact IH]. apply Qle_lteq. right. apply Qabs_wd. ring.
Qed.
Lemma nearly_has : forall q r r' i, nearly_scaled q r r' -> (has i r <-> has i r').
Proof.
  intros q r r' i HN. induction HN as [|[c v] [c' v'] r r' [A B] HN IH]; [tauto|]. cbn [fst] in A. subst c'.
  split; intros [a [E|Y]].
  - injection E as -> ->. exists v'. left. auto.
  - destruct (proj1 IH) as [b Z]; [exists a; auto|]. exists b. right. auto.
  - injection E as -> ->. exists v. left. auto.
  - destruct (proj2 IH) as [b Z]; [exists a; auto|]. exists b. right. auto.
Qed.
