(** Merging parallel columns keeps the solutions: one pair. *)
From Coq Require Import NArith Lqa Lia Qabs.
From Verif Require Import M_Num S_LP M_Settings M_Driver S_Driver M_State M_Act M_Core M_Simple
  M_StonCols M_Dton M_Parallel M_Propagate M_Init M_Post M_Run S_Run S_Struct S_Sem S_Sem2 S_MergeCol
  L_State L_Struct L_Struct2 L_Struct5 L_Struct7 L_Struct11 L_Sem L_Sem2 L_Sem3 L_Sem4 L_Sem6 L_Sem9 L_Ston L_Mid L_Mid5 L_Mid6.
Import M_Driver.
Open Scope Q_scope.

(** ** What stays the same *)
Record pfr (s t : state) : Prop := {
  pf_nr : nr t = nr s; pf_nc : nc t = nc s; pf_A : mA t = mA s; pf_AT : mAT t = mAT s;
  pf_lhs : lhs t = lhs s; pf_rhs : rhs t = rhs s; pf_rt : rt t = rt s; pf_cst : cst t = cst s;
  pf_off : off t = off s; pf_csz : csz t = csz s;
  pf_act : forall c, t_cinact (ct t c) = false -> t_cinact (ct s c) = false }.
Lemma pfr_refl : forall s, pfr s s. Proof. intros; constructor; auto. Qed.
Lemma pfr_trans : forall a b c, pfr a b -> pfr b c -> pfr a c.
Proof. intros a b c [] []; constructor; try congruence. auto. Qed.

Definition keeps (s t : state) : Prop :=
  (forall x, sat zero zero s x -> exists y, sat zero zero t y /\ obj t y <= obj s x) /\
  (forall y, sat zero zero t y -> exists x, sat zero zero s x /\ obj s x == obj t y).
Lemma keeps_refl : forall s, keeps s s.
Proof. intros s. split; intros x X; exists x; split; auto; lra. Qed.
Lemma keeps_trans : forall a b c, keeps a b -> keeps b c -> keeps a c.
Proof.
  intros a b c [F1 B1] [F2 B2]. split.
  - intros x X. destruct (F1 x X) as [y [Y1 Y2]]. destruct (F2 y Y1) as [z [Z1 Z2]]. exists z. split; auto. lra.
  - intros z Z. destruct (B2 z Z) as [y [Y1 Y2]]. destruct (B1 y Y1) as [x [X1 X2]]. exists x. split; auto. lra.
Qed.
Definition nocross (t : state) : Prop := forall k, (k < nc t)%nat -> t_cinact (ct t k) = false ->
  t_lb_inf (ct t k) = false -> t_ub_inf (ct t k) = false -> fin (lb t k) <= fin (ub t k).
Definition down (t : state) : Prop := forall x, sat zero zero t x -> forall M, exists y, sat zero zero t y /\ obj t y < M.

Definition inb (t : state) (k : nat) (v : Q) : Prop :=
  (t_lb_inf (ct t k) = false -> fin (lb t k) <= v) /\ (t_ub_inf (ct t k) = false -> v <= fin (ub t k)).
Lemma inb_within : forall t k v, tags_right t -> (k < nc t)%nat -> t_cinact (ct t k) = false ->
  (within 0 (lb t k) v (ub t k) <-> inb t k v).
Proof.
  intros t k v TG Hk T. rewrite within0. unfold inb.
  pose proof (tr_lb t TG k Hk T) as L. pose proof (tr_ub t TG k Hk T) as U.
  destruct (t_lb_inf (ct t k)), (t_ub_inf (ct t k)); rewrite ?L, ?U; cbn [ext_le le_ext];
    rewrite ?ext_le_fin, ?le_ext_fin by auto; intuition discriminate.
Qed.
Lemma inb_ext : forall t k v w, v == w -> inb t k v -> inb t k w.
Proof. intros t k v w E [A B]. split; intros X; [specialize (A X)|specialize (B X)]; lra. Qed.

(** ** Two columns at once *)
Definition CR (t : state) (j k : nat) (q : Q) : Prop := forall i, (i < nr t)%nat -> t_inact (rt t i) = false ->
  coeff (mA t i) k == q * coeff (mA t i) j.

Lemma has_dec : forall k r, {has k r} + {~ has k r}.
Proof.
  intros k r. induction r as [|[j b] r [IH|IH]].
  - right. intros [a H]. contradiction.
  - left. destruct IH as [a H]. exists a. right. auto.
  - destruct (Nat.eq_dec j k) as [->|N].
    + left. exists b. left. auto.
    + right. intros [a [E|H]]; [congruence|]. apply IH. exists a. auto.
Qed.
Lemma dot_coeff_upd : forall r k x v, srt r -> dot r (upd x k v) == dot r x + coeff r k * (v - x k).
Proof.
  intros r k x v S. destruct (has_dec k r) as [[a H]|H].
  - rewrite (coeff_in r k a S H). apply dot_upd; auto.
  - rewrite (coeff_out r k H). rewrite dot_off by auto. ring.
Qed.
Definition two (x : nat -> Q) (j k : nat) (p q : Q) : nat -> Q := upd (upd x j p) k q.
Lemma two_j : forall x j k p q, j <> k -> two x j k p q j = p.
Proof. intros. unfold two. rewrite upd_other, upd_same; auto. Qed.
Lemma two_k : forall x j k p q, two x j k p q k = q.
Proof. intros. apply upd_same. Qed.
Lemma two_o : forall x j k p q c, c <> j -> c <> k -> two x j k p q c = x c.
Proof. intros. unfold two. rewrite !upd_other; auto. Qed.

Lemma dot_two : forall t j k r x p q i, W0 t -> j <> k -> CR t j k r -> (i < nr t)%nat -> t_inact (rt t i) = false ->
  p + r * q == x j + r * x k -> dot (mA t i) (two x j k p q) == dot (mA t i) x.
Proof.
  intros t j k r x p q i H D C Hi T E. unfold two.
  assert (S := w_rsrt t H i Hi). rewrite dot_coeff_upd by auto. rewrite dot_coeff_upd by auto.
  rewrite upd_other by auto. rewrite (C i Hi T).
  setoid_replace p with (x j + r * x k - r * q) by lra. ring.
Qed.
Lemma obj_two : forall t j k x p q, j <> k -> (j < nc t)%nat -> (k < nc t)%nat -> csz t j <> (-1)%Z -> csz t k <> (-1)%Z ->
  obj t (two x j k p q) == obj t x + cst t j * (p - x j) + cst t k * (q - x k).
Proof.
  intros. unfold two. rewrite obj_upd by auto. rewrite obj_upd by auto. rewrite upd_other by auto. ring.
Qed.
Lemma pinned_two : forall t j k x p q, Inv t -> t_cinact (ct t j) = false -> t_cinact (ct t k) = false ->
  pinned t x -> pinned t (two x j k p q).
Proof.
  intros t j k x p q H Tj Tk [P1 P2]. apply orb_false_iff in Tj, Tk. destruct Tj, Tk.
  split; intros c Hc; rewrite two_o; auto; intros ->;
    first [destruct (l_fixed t (inv_L t H) _ Hc)|destruct (l_sub t (inv_L t H) _ Hc)]; congruence.
Qed.

(** Moving along the direction that leaves every row unchanged *)
Lemma exch : forall t j k r x d, Inv t -> tags_right t -> j <> k -> (j < nc t)%nat -> (k < nc t)%nat ->
  t_cinact (ct t j) = false -> t_cinact (ct t k) = false -> CR t j k r -> sat zero zero t x ->
  inb t j (x j - r * d) -> inb t k (x k + d) ->
  sat zero zero t (two x j k (x j - r * d) (x k + d)) /\
  obj t (two x j k (x j - r * d) (x k + d)) == obj t x + (cst t k - r * cst t j) * d.
Proof.
  intros t j k r x d H TG D Hj Hk Tj Tk C [S1 [S2 S3]] Bj Bk. split; [split; [|split]|].
  - intros i Hi T. eapply within_ext; [|apply S1; auto]. symmetry. apply (dot_two t j k r); auto; [apply H|]. ring.
  - intros c Hc T. destruct (Nat.eq_dec c k) as [->|Nk].
    + rewrite two_k. apply inb_within; auto.
    + destruct (Nat.eq_dec c j) as [->|Nj].
      * rewrite two_j by auto. apply inb_within; auto.
      * rewrite two_o by auto. auto.
  - apply pinned_two; auto.
  - rewrite obj_two; auto; try (apply cact_alive; auto; apply H). ring.
Qed.

(** *** A column that is dominated is fixed at a bound *)
Lemma fix_exact : forall t c v q, Inv t -> Mid t -> (c < nc t)%nat -> t_cinact (ct t c) = false -> inb t c v ->
  pfr t (fst (fix_col c v q t)) /\ semstep (fun x => x c == v) zero zero t (fst (fix_col c v q t)) /\
  (nocross t -> nocross (fst (fix_col c v q t))).
Proof.
  intros t c v q H M Hc T B. pose proof (fix_col_cases t c v q) as X.
  destruct (fix_col c v q t) as [t1 st] eqn:E. cbn [fst].
  destruct X as [[_ [_ X]]|[-> [_ [_ [A [W E1]]]]]].
  { exfalso. destruct B as [B1 B2]. pose proof tol_pos. destruct X as [[X Y]|[X Y]]; [specialize (B2 X)|specialize (B1 X)]; lra. }
  split; [|split].
  - subst t1. constructor; unfold set_col_to_fixed; sr; auto. intros d. updg; auto; unfold t_cinact; cbn; discriminate.
  - destruct M as [TG PO EA LK]. apply (fix_col_sem _ _ _ t c v q t1); auto.
    right. split; [unfold zero; lra|]. apply (within0 (lb t c) v (ub t c)). apply (inb_within t c v); auto.
  - subst t1. intros N d. unfold set_col_to_fixed; sr. intros Hd. updg; [unfold t_cinact; cbn; discriminate|]. apply N. auto.
Qed.
Lemma fix_keeps : forall t c v q, Inv t -> Mid t -> (c < nc t)%nat -> t_cinact (ct t c) = false -> inb t c v -> nocross t ->
  (forall x, sat zero zero t x -> exists y, sat zero zero t y /\ obj t y <= obj t x /\ y c == v) ->
  pfr t (fst (fix_col c v q t)) /\ keeps t (fst (fix_col c v q t)) /\ nocross (fst (fix_col c v q t)).
Proof.
  intros t c v q H M Hc T B N X. destruct (fix_exact t c v q H M Hc T B) as [F [S NC]].
  split; [exact F|]. split; [|auto]. destruct S as [_ _ _ S1 S2 S3]. split.
  - intros x Sx. destruct (X x Sx) as [y [Y1 [Y2 Y3]]]. exists y. split; [auto|]. rewrite S3. auto.
  - intros y Sy. exists y. split; auto. rewrite S3. lra.
Qed.

(** *** Nothing stops the pair: the objective falls for ever *)
Lemma ray : forall t j k r x, Inv t -> tags_right t -> j <> k -> (j < nc t)%nat -> (k < nc t)%nat ->
  t_cinact (ct t j) = false -> t_cinact (ct t k) = false -> CR t j k r -> ~ cst t k == r * cst t j ->
  (forall d, (cst t k - r * cst t j) * d <= 0 -> inb t j (x j - r * d) /\ inb t k (x k + d)) ->
  sat zero zero t x -> forall M, exists y, sat zero zero t y /\ obj t y < M.
Proof.
  intros t j k r x H TG D Hj Hk Tj Tk C NE B S M.
  set (D0 := cst t k - r * cst t j) in *.
  assert (N0 : ~ D0 == 0) by (unfold D0; intros Z; apply NE; lra).
  set (d := - (Qabs (M - obj t x) + 1) / D0).
  assert (E : D0 * d == - (Qabs (M - obj t x) + 1)) by (unfold d; field; auto).
  pose proof (Qabs_nonneg (M - obj t x)) as A0. pose proof (Qle_Qabs (- (M - obj t x))) as A1. rewrite Qabs_opp in A1.
  destruct (B d) as [Bj Bk]; [lra|].
  destruct (exch t j k r x d H TG D Hj Hk Tj Tk C S Bj Bk) as [Y1 Y2].
  eexists; split; [exact Y1|]. rewrite Y2. fold D0. lra.
Qed.

(** *** Merging *)
Lemma merge_form : forall j k q t, exists r, merge_cols j k q t =
  let lbk := if Qgtb q 0 then lb t k else ub t k in
  let ubk := if Qgtb q 0 then ub t k else lb t k in
  let l := t_lb_inf (ct t j) || (if Qgtb q 0 then t_lb_inf (ct t k) else t_ub_inf (ct t k)) in
  let u := t_ub_inf (ct t j) || (if Qgtb q 0 then t_ub_inf (ct t k) else t_lb_inf (ct t k)) in
  record r (set_col_to_substituted k (set_ct1 j (CT l u (t_fixed (ct t j)) (t_sub (ct t j)))
    (set_ub1 j (if u then PInf else Fin (fin (ub t j) + fin ubk * q))
    (set_lb1 j (if l then NInf else Fin (fin (lb t j) + fin lbk * q)) t)))).
Proof. intros. unfold merge_cols. destruct (Qgtb q 0); cbv zeta; eexists; reflexivity. Qed.

(** The value of the merged column splits. *)
Lemma split_val : forall (l1i u1i l2i u2i : bool) l1 u1 l2 u2 v,
  (l1i = false -> u1i = false -> l1 <= u1) -> (l2i = false -> u2i = false -> l2 <= u2) ->
  (l1i || l2i = false -> l1 + l2 <= v) -> (u1i || u2i = false -> v <= u1 + u2) ->
  exists p q, p + q == v /\ (l1i = false -> l1 <= p) /\ (u1i = false -> p <= u1) /\
  (l2i = false -> l2 <= q) /\ (u2i = false -> q <= u2).
Proof.
  intros l1i u1i l2i u2i l1 u1 l2 u2 v A B C D.
  destruct l2i.
  - (* second part may go down for ever *)
    destruct u2i.
    + destruct l1i.
      * exists u1, (v - u1). repeat split; intros; try discriminate; lra.
      * exists l1, (v - l1). repeat split; intros; try discriminate; try lra. apply A; auto.
    + destruct u1i.
      * destruct l1i.
        -- exists (v - u2), u2. repeat split; intros; try discriminate; lra.
        -- destruct (Qlt_le_dec (v - u2) l1).
           ++ exists l1, (v - l1). repeat split; intros; try discriminate; lra.
           ++ exists (v - u2), u2. repeat split; intros; try discriminate; lra.
      * specialize (D eq_refl). exists u1, (v - u1). repeat split; intros; try discriminate; try lra. apply A; auto.
  - destruct u2i.
    + destruct l1i.
      * destruct u1i.
        -- exists (v - l2), l2. repeat split; intros; try discriminate; lra.
        -- destruct (Qlt_le_dec u1 (v - l2)).
           ++ exists u1, (v - u1). repeat split; intros; try discriminate; lra.
           ++ exists (v - l2), l2. repeat split; intros; try discriminate; lra.
      * specialize (C eq_refl). exists l1, (v - l1). repeat split; intros; try discriminate; try lra. apply A; auto.
    + specialize (B eq_refl eq_refl). destruct l1i.
      * destruct u1i.
        -- exists (v - l2), l2. repeat split; intros; try discriminate; lra.
        -- specialize (D eq_refl). destruct (Qlt_le_dec u1 (v - l2)).
           ++ exists u1, (v - u1). repeat split; intros; try discriminate; lra.
           ++ exists (v - l2), l2. repeat split; intros; try discriminate; lra.
      * specialize (C eq_refl). destruct u1i.
        -- destruct (Qlt_le_dec (v - u2) l1).
           ++ exists l1, (v - l1). repeat split; intros; try discriminate; lra.
           ++ exists (v - u2), u2. repeat split; intros; try discriminate; lra.
        -- specialize (D eq_refl). specialize (A eq_refl eq_refl). destruct (Qlt_le_dec (v - u2) l1).
           ++ exists l1, (v - l1). repeat split; intros; try discriminate; lra.
           ++ exists (v - u2), u2. repeat split; intros; try discriminate; lra.
Qed.

Lemma mul_lo : forall q a b, 0 < q -> (a <= b <-> a * q <= b * q).
Proof. intros. split; intros; [apply Qmult_le_compat_r; lra|]. apply Qmult_le_r in H0; auto. Qed.
Lemma mul_hi : forall q a b, q < 0 -> (a <= b <-> b * q <= a * q).
Proof.
  intros q a b N. rewrite (mul_lo (- q) a b) by lra.
  assert (a * - q == - (a * q)) by ring. assert (b * - q == - (b * q)) by ring. split; intros; lra.
Qed.

Lemma merge_sem : forall t j k q, Inv t -> Mid t -> nocross t -> j <> k -> (j < nc t)%nat -> (k < nc t)%nat ->
  t_cinact (ct t j) = false -> t_cinact (ct t k) = false -> CR t j k q -> ~ q == 0 -> cst t k == q * cst t j ->
  pfr t (merge_cols j k q t) /\ keeps t (merge_cols j k q t) /\ nocross (merge_cols j k q t).
Proof.
  intros t j k q H M N D Hj Hk Tj Tk C NZ CE.
  assert (M' : Mid (merge_cols j k q t)) by (apply merge_cols_Mid; auto).
  assert (TG := md_tags _ M). assert (TG' := md_tags _ M').
  destruct (merge_form j k q t) as [r E]. cbv zeta in E.
  set (lbk := if Qgtb q 0 then lb t k else ub t k) in *.
  set (ubk := if Qgtb q 0 then ub t k else lb t k) in *.
  set (lk := if Qgtb q 0 then t_lb_inf (ct t k) else t_ub_inf (ct t k)) in *.
  set (uk := if Qgtb q 0 then t_ub_inf (ct t k) else t_lb_inf (ct t k)) in *.
  set (t' := merge_cols j k q t) in *.
  assert (Ejl : t_lb_inf (ct t' j) = t_lb_inf (ct t j) || lk /\ t_ub_inf (ct t' j) = t_ub_inf (ct t j) || uk).
  { rewrite E. unfold set_col_to_substituted. sr. rewrite (upd_other _ _ k) by auto. rewrite upd_same. auto. }
  assert (Ejb : (t_lb_inf (ct t' j) = false -> fin (lb t' j) = fin (lb t j) + fin lbk * q) /\
  (t_ub_inf (ct t' j) = false -> fin (ub t' j) = fin (ub t j) + fin ubk * q)).
  { destruct Ejl as [-> ->]. rewrite E. unfold set_col_to_substituted. sr. rewrite !upd_same.
    split; intros ->; reflexivity. }
  assert (Ek : t_cinact (ct t' k) = true).
  { rewrite E. unfold set_col_to_substituted. sr. rewrite upd_same. unfold t_cinact, tag_sub. cbn. apply orb_true_r. }
  assert (Eo : forall c, c <> j -> c <> k -> ct t' c = ct t c /\ lb t' c = lb t c /\ ub t' c = ub t c).
  { intros c A B. rewrite E. unfold set_col_to_substituted. sr. rewrite !(upd_other _ _ k), !(upd_other _ _ j) by auto. auto. }
  assert (Eja : t_cinact (ct t' j) = false) by (unfold t'; rewrite merge_cols_other; auto).
  assert (F : pfr t t').
  { rewrite E. constructor; unfold set_col_to_substituted; sr; auto. intros c.
    destruct (Nat.eq_dec c k) as [->|Nk]; [rewrite upd_same; unfold t_cinact, tag_sub; cbn; rewrite orb_true_r; discriminate|].
    rewrite (upd_other _ _ k) by auto. updg; auto. }
  assert (EW : w_fixed t' = w_fixed t /\ w_sub t' = w_sub t ++ [k]).
  { rewrite E. unfold set_col_to_substituted. sr. auto. }
  clearbody t'. clear E.
  assert (Hj' : (j < nc t')%nat) by (rewrite (pf_nc _ _ F); auto).
  (* bounds of the scaled second column *)
  assert (BK : forall v, inb t k v <-> (lk = false -> fin lbk * q <= v * q) /\ (uk = false -> v * q <= fin ubk * q)).
  { intros v. unfold inb, lk, uk, lbk, ubk. destruct (Qgtb q 0) eqn:G; qb.
    - rewrite (mul_lo q (fin (lb t k)) v), (mul_lo q v (fin (ub t k))) by auto. tauto.
    - assert (Q0 : q < 0) by (destruct (Qlt_le_dec q 0); auto; exfalso; apply NZ; lra).
      rewrite (mul_hi q (fin (lb t k)) v), (mul_hi q v (fin (ub t k))) by auto. tauto. }
  assert (NK : lk = false -> uk = false -> fin lbk * q <= fin ubk * q).
  { intros A B. specialize (N k Hk Tk). unfold lk, uk, lbk, ubk in *. destruct (Qgtb q 0) eqn:G; qb.
    - apply mul_lo; auto.
    - assert (Q0 : q < 0) by (destruct (Qlt_le_dec q 0); auto; exfalso; apply NZ; lra). apply mul_hi; auto. }
  assert (NJ := N j Hj Tj).
  assert (BJ : forall v, inb t' j v <->
     (t_lb_inf (ct t j) || lk = false -> fin (lb t j) + fin lbk * q <= v) /\
  (t_ub_inf (ct t j) || uk = false -> v <= fin (ub t j) + fin ubk * q)).
  { intros v. unfold inb. destruct Ejl as [E1 E2]. destruct Ejb as [E3 E4]. rewrite E1 in *. rewrite E2 in *.
    split; intros [A B].
    - split; intros X; [specialize (A X)|specialize (B X)]; [rewrite (E3 X) in A|rewrite (E4 X) in B]; auto.
    - split; intros X; [rewrite (E3 X)|rewrite (E4 X)]; auto. }
  assert (AL := fun c A B => cact_alive t c (inv_0 t H) A B).
  split; [exact F|]. split; [split|].
  - intros x [S1 [S2 S3]]. exists (two x j k (x j + q * x k) 0). split; [split; [|split]|].
    + rewrite (pf_nr _ _ F), (pf_rt _ _ F), (pf_lhs _ _ F), (pf_rhs _ _ F), (pf_A _ _ F).
      intros i Hi T. eapply within_ext; [|apply S1; auto]. symmetry. apply (dot_two t j k q); auto; [apply H|]. ring.
    + rewrite (pf_nc _ _ F). intros c Hc T. destruct (Nat.eq_dec c k) as [->|Nk]; [congruence|].
      destruct (Nat.eq_dec c j) as [->|Nj].
      * rewrite two_j by auto. apply inb_within; auto. apply BJ.
        pose proof (S2 j Hj Tj) as Bj. apply inb_within in Bj; auto. destruct Bj as [J1 J2].
        pose proof (S2 k Hk Tk) as Bk. apply inb_within in Bk; auto. apply BK in Bk. destruct Bk as [K1 K2].
        split; intros X; apply orb_false_iff in X; destruct X as [X1 X2];
          [specialize (J1 X1); specialize (K1 X2)|specialize (J2 X1); specialize (K2 X2)]; lra.
      * rewrite two_o by auto. destruct (Eo c Nj Nk) as [A1 [A2 A3]]. rewrite A1 in T. rewrite A2, A3. auto.
    + destruct EW as [W1 W2]. destruct (pinned_two t j k x (x j + q * x k) 0 H Tj Tk S3) as [P1 P2].
      split; rewrite ?W1, ?W2.
      * intros c Hc. rewrite (P1 c Hc). destruct (l_fixed t (inv_L t H) c Hc) as [_ FX].
        apply orb_false_iff in Tj, Tk. destruct (Eo c) as [_ [_ ->]]; try (intros ->; intuition congruence). lra.
      * intros c Hc. apply In_app_one in Hc. destruct Hc as [Hc| ->]; [apply P2; auto|]. rewrite two_k. lra.
    + assert (OB : obj t' (two x j k (x j + q * x k) 0) == obj t (two x j k (x j + q * x k) 0)).
      { unfold obj, live_cols. rewrite (pf_nc _ _ F), (pf_csz _ _ F), (pf_cst _ _ F), (pf_off _ _ F). lra. }
      rewrite OB, obj_two by auto. rewrite CE. 
      assert (Z : cst t j * (x j + q * x k - x j) + q * cst t j * (0 - x k) == 0) by ring. lra.
  - intros y [S1 [S2 S3]]. destruct EW as [W1 W2].
    assert (Yk : y k == 0). { destruct S3 as [_ P2]. apply P2. rewrite W2. apply in_or_app. right. left. auto. }
    pose proof (S2 j Hj' Eja) as Bj. apply inb_within in Bj; auto. apply BJ in Bj. destruct Bj as [J1 J2].
    destruct (split_val (t_lb_inf (ct t j)) (t_ub_inf (ct t j)) lk uk (fin (lb t j)) (fin (ub t j)) (fin lbk * q) (fin ubk * q) (y j))
      as [p [v [V1 [V2 [V3 [V4 V5]]]]]]; auto.
    exists (two y j k p (v / q)).
    assert (VQ : v / q * q == v) by (field; auto).
    split; [split; [|split]|].
    + intros i Hi T. rewrite (pf_nr _ _ F), (pf_rt _ _ F), (pf_lhs _ _ F), (pf_rhs _ _ F), (pf_A _ _ F) in S1.
      eapply within_ext; [|apply S1; auto]. symmetry. apply (dot_two t j k q); auto; [apply H|]. rewrite Yk.
      rewrite (Qmult_comm q (v / q)), VQ. lra.
    + intros c Hc T. destruct (Nat.eq_dec c k) as [->|Nk].
      * rewrite two_k. apply inb_within; auto. apply BK. rewrite VQ. auto.
      * destruct (Nat.eq_dec c j) as [->|Nj].
        -- rewrite two_j by auto. apply inb_within; auto. split; auto.
        -- rewrite two_o by auto. destruct (Eo c Nj Nk) as [A1 [A2 A3]]. rewrite (pf_nc _ _ F) in S2. specialize (S2 c Hc).
           rewrite A1, A2, A3 in S2. auto.
    + apply pinned_two; auto. destruct S3 as [P1 P2]. rewrite W1 in P1. rewrite W2 in P2. split.
      * intros c Hc. rewrite (P1 c Hc). destruct (l_fixed t (inv_L t H) c Hc) as [_ FX].
        apply orb_false_iff in Tj, Tk. destruct (Eo c) as [_ [_ ->]]; try (intros ->; intuition congruence). lra.
      * intros c Hc. apply P2. apply in_or_app. auto.
    + rewrite obj_two by auto. rewrite CE, Yk.
      assert (OB : obj t' y == obj t y).
      { unfold obj, live_cols. rewrite (pf_nc _ _ F), (pf_csz _ _ F), (pf_cst _ _ F), (pf_off _ _ F). lra. }
      rewrite OB. assert (Z : cst t j * (p - y j) + q * cst t j * (v / q - 0) == cst t j * (p + (v / q * q) - y j)) by ring.
      rewrite VQ in Z. rewrite V1 in Z. lra.
  - intros c Hc T A B. rewrite (pf_nc _ _ F) in Hc. destruct (Nat.eq_dec c k) as [->|Nk]; [congruence|].
    destruct (Nat.eq_dec c j) as [->|Nj].
    + destruct Ejl as [E1 E2]. destruct Ejb as [E3 E4]. rewrite (E3 A), (E4 B). rewrite E1 in A. rewrite E2 in B.
      apply orb_false_iff in A, B. destruct A as [A1 A2], B as [B1 B2]. specialize (NJ A1 B1). specialize (NK A2 B2). lra.
    + destruct (Eo c Nj Nk) as [A1 [A2 A3]]. rewrite A1 in *. rewrite A2, A3. apply N; auto.
Qed.
