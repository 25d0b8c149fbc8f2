(** Doubleton equality rows: what the substitution does to the problem. *)
From Coq Require Import NArith Lqa Lia Qabs.
From Verif Require Import M_Num S_LP M_Settings M_Driver S_Driver M_State M_Act M_Core M_Simple
  M_StonCols M_Dton M_Parallel M_Propagate M_Init M_Post M_Run S_Run S_Struct S_Sem S_Dton
  L_State L_Struct L_Struct2 L_Struct3 L_Struct4 L_Struct5 L_Struct6 L_Struct7 L_Struct8 L_Tiny L_Struct9 L_Struct10 L_Struct11
  L_Sem L_Sem2 L_Sem3 L_Sem4 L_Sem5 L_Mid L_Mid2 L_Mid3 L_Mid4 L_Mid5 L_Mid7 L_Ston L_ParCol L_ParCol2 L_ParCol3.
Import M_Driver.
Notation bad := M_State.bad.
Open Scope Q_scope.

(** ** Rows *)
Lemma find_coeff_coeff : forall j r, srt r -> find_coeff j r == coeff r j.
Proof.
  intros j r S. destruct (has_dec j r) as [[a A]|N].
  - rewrite (find_coeff_in j a r S A), (coeff_in r j a S A). reflexivity.
  - rewrite (find_coeff_out j r S N), (coeff_out r j N). reflexivity.
Qed.
Lemma dot_put : forall j v r x, dot (put_entry j v r) x == dot r x + (v - find_coeff j r) * x j.
Proof.
  induction r as [|[c w] r IH]; intros x; cbn [put_entry find_coeff dot]; [lra|].
  destruct (Nat.leb j c); [destruct (Nat.eqb_spec c j) as [->|D]|]; cbn [dot]; [lra|lra|]. rewrite IH. lra.
Qed.
Lemma find_del : forall j k r, srt r -> j <> k -> find_coeff j (del_entry k r) == find_coeff j r.
Proof.
  intros j k r S D. rewrite find_coeff_coeff by (apply del_entry_srt; auto). rewrite find_coeff_coeff by auto.
  rewrite coeff_del. destruct (Nat.eqb_spec j k); [congruence|lra].
Qed.
(** The new entry is zero or kept. *)
Definition clear_new (new : Q) : Prop := new == 0 \/ ZERO_TOL < Qabs new.
Lemma clear_new_tol : forall new, clear_new new -> Qleb (ABSq new) ZERO_TOL = true -> new == 0.
Proof.
  intros new [H|H] E; auto. exfalso. apply Qle_bool_iff in E. unfold ABSq in E. revert E H.
  apply Qabs_case; intros; destruct (Qltb new 0) eqn:T; qb; lra.
Qed.
Lemma set_coeff_dot : forall j k aqk new r r', srt r -> j <> k -> In (k, aqk) r -> clear_new new ->
  (new == 0 -> ~ coeff r j == 0) ->
  set_coeff j new (del_entry k r) = Some r' ->
  forall x, dot r' x == dot r x - aqk * x k + (new - coeff r j) * x j.
Proof.
  intros j k aqk new r r' S D HK CN NZ E x. unfold set_coeff in E.
  assert (SD : srt (del_entry k r)) by (apply del_entry_srt; auto).
  rewrite (dot_del r k aqk x S HK).
  destruct (Qleb _ _) eqn:B.
  - pose proof (clear_new_tol new CN B) as Z. specialize (NZ Z).
    destruct (has_dec j r) as [[a A]|N]; [|exfalso; apply NZ, coeff_out; auto].
    assert (A' : In (j, a) (del_entry k r)) by (apply del_entry_In; cbn [fst]; auto).
    rewrite (drop_entry_in j a _ SD A') in E. injection E as <-.
    rewrite (dot_del (del_entry k r) j a x SD A'), Z, (coeff_in r j a S A). lra.
  - injection E as <-. rewrite dot_put, (find_del j k r S D), (find_coeff_coeff j r S). lra.
Qed.

(** ** One row of the substituted column *)
Definition subst_new (j k : nat) (aij aik : Q) (r : row) : Q := find_coeff j r - aij / aik * coeff_of k r.
Definition after (i j k : nat) (aij aik : Q) (s s' : state) (q : nat) : Prop :=
  (forall x, dot (mA s' q) x == dot (mA s q) x - coeff (mA s q) k * (x k + aij / aik * x j)) /\
  moved (lhs s q) (lhs s' q) (coeff (mA s q) k / aik * fin (rhs s i)) /\
  moved (rhs s q) (rhs s' q) (coeff (mA s q) k / aik * fin (rhs s i)).
Definition untouched (s s' : state) (p : nat) : Prop :=
  mA s' p = mA s p /\ lhs s' p = lhs s p /\ rhs s' p = rhs s p.
Record rest_same (s s' : state) : Prop := {
  rs_off : off s' = off s;  rs_cst : cst s' = cst s;  rs_tiny : tiny s' = tiny s }.
Lemma rest_refl : forall s, rest_same s s.
Proof. constructor; auto. Qed.
Lemma rest_trans : forall a b c, rest_same a b -> rest_same b c -> rest_same a c.
Proof. intros a b c [] []; constructor; congruence. Qed.
Lemma rest_acts : forall s s', acts_only s s' -> rest_same s s'.
Proof. intros s s' [a [w ->]]. constructor; sr; auto. Qed.
Lemma acts_only_rows : forall s s', acts_only s s' -> mA s' = mA s /\ lhs s' = lhs s /\ rhs s' = rhs s.
Proof. intros s s' [a [w ->]]. sr. auto. Qed.

Lemma subst_tail_eff : forall i q j k aik old new aqk s, tags_lr s q -> i <> q ->
  let s' := subst_tail i q j k aik old new aqk s in
  rest_same s s' /\ mA s' = mA s /\ (forall p, p <> q -> lhs s' p = lhs s p /\ rhs s' p = rhs s p) /\
  moved (lhs s q) (lhs s' q) (aqk / aik * fin (rhs s i)) /\ moved (rhs s q) (rhs s' q) (aqk / aik * fin (rhs s i)).
Proof.
  intros i q j k aik old new aqk s [P1 P2] NI. cbv zeta. unfold subst_tail. cbv zeta.
  set (s4 := if Qeqb _ _ then _ else _).
  assert (S4 : rest_same s s4 /\ mA s4 = mA s /\ (forall p, p <> q -> lhs s4 p = lhs s p /\ rhs s4 p = rhs s p) /\
    moved (lhs s q) (lhs s4 q) (aqk / aik * fin (rhs s i)) /\ moved (rhs s q) (rhs s4 q) (aqk / aik * fin (rhs s i))).
  { unfold s4. destruct (Qeqb _ _) eqn:EB.
    - qb. split; [apply rest_refl|]. do 2 (split; [auto|]).
      split; apply moved_0; rewrite EB; lra.
    - destruct (t_lhs_inf (rt s q)) eqn:TL; sr; destruct (t_rhs_inf (rt s q)) eqn:TR; sr;
        (split; [constructor; sr; auto|]; split; [reflexivity|]; split; [intros p Dp; rewrite ?upd_other by auto; auto|]);
        rewrite ?upd_same; rewrite ?P1, ?P2; (split;
          [first [reflexivity | destruct (lhs s q); simpl; auto; eexists; split; [reflexivity|lra]]
          |first [reflexivity | destruct (rhs s q); simpl; auto; eexists; split; [reflexivity|lra]]]). }
  clearbody s4.
  match goal with |- context [update_activity_coeff_change ?a ?b ?c ?d ?f ?g] =>
    destruct (update_activity_coeff_change a b c d f g) as [a1 alt1] end.
  match goal with |- context [update_activity_coeff_change ?a ?b ?c ?d ?f ?g] =>
    destruct (update_activity_coeff_change a b c d f g) as [a2 alt2] end.
  match goal with |- context [rest_same s ?x] => assert (AO : acts_only s4 x) end.
  { set (s5 := set_act1 q a2 s4).
    assert (A5 : acts_only s4 s5) by apply set_act1_acts. clearbody s5.
    match goal with |- context [if ?b then note_added q (set_act1 q (Act ?x (a_max ?y) ?z ?t ?u) s5) else s5] =>
      set (s6 := if b then note_added q (set_act1 q (Act x (a_max y) z t u) s5) else s5);
      assert (A6 : acts_only s4 s6) by (unfold s6; destruct b; [|exact A5];
        eapply acts_only_trans; [exact A5|]; eapply acts_only_trans; [apply set_act1_acts|apply note_added_acts])
    end.
    clearbody s6.
    match goal with |- context [if ?b then _ else _] => destruct b end; [|exact A6].
    eapply acts_only_trans; [exact A6|]. eapply acts_only_trans; [apply set_act1_acts|apply note_added_acts]. }
  match goal with |- context [rest_same s ?x] => set (s7 := x) in * end. clearbody s7.
  destruct S4 as (R4&E4&O4&M1&M2). destruct (acts_only_rows _ _ AO) as (F1&F2&F3). rewrite F1, F2, F3.
  split; [eapply rest_trans; [exact R4|apply rest_acts; exact AO]|]. auto.
Qed.

Lemma subst_row_eff : forall i j k aij aik s nd q a, t_inact (rt s q) = false -> srt (mA s q) -> In (k, a) (mA s q) ->
  ~ a == 0 -> ~ aij == 0 -> ~ aik == 0 -> j <> k -> tags_lr s q -> i <> q ->
  clear_new (subst_new j k aij aik (mA s q)) ->
  forall b, let s' := fst (subst_row i j k aij aik (s, nd) (q, b)) in
  rest_same s s' /\ (forall p, p <> q -> untouched s s' p) /\ after i j k aij aik s s' q.
Proof.
  intros i j k aij aik s nd q a Tq SQ HK NA NIJ NIK NJ TG NI CN b. cbv zeta.
  rewrite subst_row_eq by exact Tq. cbn [fst].
  unfold update_row_A_dton. cbv zeta. unfold subst_new in CN.
  rewrite (coeff_of_in k a _ SQ HK) in *.
  set (new := find_coeff j (mA s q) - aij / aik * a) in *.
  assert (EN : new == coeff (mA s q) j - aij / aik * a) by (unfold new; rewrite (find_coeff_coeff j _ SQ); reflexivity).
  assert (NZ : new == 0 -> ~ coeff (mA s q) j == 0).
  { intros Z C. rewrite EN, C in Z. assert (X : aij / aik * a == 0) by lra.
    apply Qmult_integral in X. destruct X as [X|X]; [|contradiction].
    apply NIJ. assert (Y : aij == aij / aik * aik) by (field; auto). rewrite Y, X. lra. }
  assert (ET : (if Qleb (ABSq new) ZERO_TOL && negb (existsb (fun e => Nat.eqb (fst e) j) (mA s q)) then set_tiny true s else s) = s).
  { destruct (Qleb _ _) eqn:B; [|reflexivity].
    pose proof (clear_new_tol new CN B) as Z. specialize (NZ Z).
    destruct (has_dec j (mA s q)) as [[c C]|N]; [|exfalso; apply NZ, coeff_out; auto].
    assert (X : existsb (fun e => Nat.eqb (fst e) j) (mA s q) = true).
    { apply existsb_exists. exists (j, c). split; auto. cbn. apply Nat.eqb_refl. }
    rewrite X. reflexivity. }
  rewrite ET. clear ET.
  destruct (set_coeff j new (del_entry k (mA s q))) as [r'|] eqn:ES.
  2:{ exfalso. unfold set_coeff in ES. destruct (Qleb _ _) eqn:B; [|discriminate].
      pose proof (clear_new_tol new CN B) as Z. specialize (NZ Z).
      destruct (has_dec j (mA s q)) as [[c C]|N]; [|apply NZ, coeff_out; auto].
      assert (A' : In (j, c) (del_entry k (mA s q))) by (apply del_entry_In; cbn [fst]; auto).
      rewrite (drop_entry_in j c _ (del_entry_srt k _ SQ) A') in ES. discriminate. }
  pose proof (set_coeff_dot j k a new _ r' SQ NJ HK CN NZ ES) as DT.
  set (s1 := set_nnz _ (set_rsz1 q _ (setA q r' _))).
  assert (X1 : rest_same s s1 /\ mA s1 = upd (mA s) q r' /\ lhs s1 = lhs s /\ rhs s1 = rhs s /\ rt s1 = rt s).
  { unfold s1. split; [constructor; reflexivity|]. split; [reflexivity|]. auto. }
  clearbody s1.
  assert (X2 : let p := subst_push q (rsz s q) s1 nd in
    rest_same s1 (fst p) /\ mA (fst p) = mA s1 /\ lhs (fst p) = lhs s1 /\ rhs (fst p) = rhs s1 /\ rt (fst p) = rt s1).
  { cbv zeta. unfold subst_push. cbv zeta.
    destruct (Z.eqb _ 0); [|destruct (Z.eqb _ 1); [destruct (Z.eqb _ 1)|destruct (Z.eqb _ 2)]]; cbn [fst];
      (split; [constructor; sr; reflexivity|]); sr; auto. }
  destruct (subst_push _ _ _ _) as [s2 nd']. cbn [fst] in *.
  set (s3 := update_col_AT j q new s2).
  assert (X3 : rest_same s2 s3 /\ mA s3 = mA s2 /\ lhs s3 = lhs s2 /\ rhs s3 = rhs s2 /\ rt s3 = rt s2).
  { unfold s3, update_col_AT. destruct (set_coeff q new (mAT s2 j)); (split; [constructor; reflexivity|]); auto. }
  clearbody s3.
  destruct X1 as (R1&A1&L1&H1&T1). destruct X2 as (R2&A2&L2&H2&T2). destruct X3 as (R3&A3&L3&H3&T3).
  rewrite A2, A1 in A3. rewrite L2, L1 in L3. rewrite H2, H1 in H3. rewrite T2, T1 in T3.
  assert (TG3 : tags_lr s3 q) by (unfold tags_lr; rewrite T3, L3, H3; exact TG).
  pose proof (subst_tail_eff i q j k aik (find_coeff j (mA s q)) new a s3 TG3 NI) as P. cbv zeta in P.
  destruct P as (R4&A4&O4&M1&M2). rewrite L3, H3 in *.
  split; [eapply rest_trans; [exact R1|]; eapply rest_trans; [exact R2|]; eapply rest_trans; eauto|].
  split.
  - intros p Dp. unfold untouched. rewrite A4, A3, upd_other by auto. destruct (O4 p Dp). auto.
  - assert (EK : coeff (mA s q) k == a) by (apply coeff_in; auto).
    assert (EM : coeff (mA s q) k / aik * fin (rhs s i) == a / aik * fin (rhs s i)) by (rewrite EK; reflexivity).
    unfold after. split; [|split; eapply moved_ext; try eassumption; symmetry; exact EM].
    intros x. rewrite A4, A3, upd_same, DT, EK, EN. lra.
Qed.

(** ** All rows of the substituted column *)
Definition ready (i j k : nat) (aij aik : Q) (s : state) (q : nat) : Prop :=
  srt (mA s q) /\ (exists a, In (k, a) (mA s q) /\ ~ a == 0) /\ tags_lr s q /\ i <> q /\
  clear_new (subst_new j k aij aik (mA s q)).
Lemma untouched_ready : forall i j k aij aik s s' q, rt s' = rt s -> untouched s s' q ->
  ready i j k aij aik s q -> ready i j k aij aik s' q.
Proof.
  intros i j k aij aik s s' q RT (A&L&R) (H1&H2&H3&H4&H5). unfold ready, tags_lr in *. rewrite RT, A, L, R. auto.
Qed.
Lemma untouched_trans : forall a b c q, untouched a b q -> untouched b c q -> untouched a c q.
Proof. intros a b c q (A1&A2&A3) (B1&B2&B3). repeat split; congruence. Qed.
Lemma subst_fold_eff : forall i j k aij aik, ~ aij == 0 -> ~ aik == 0 -> j <> k -> forall todo s nd,
  NoDup (map fst todo) ->
  (forall e, In e todo -> t_inact (rt s (fst e)) = false -> ready i j k aij aik s (fst e)) -> t_inact (rt s i) = true ->
  let s' := fst (fold_left (subst_row i j k aij aik) todo (s, nd)) in
  rest_same s s' /\ (forall p, t_inact (rt s p) = true \/ ~ In p (map fst todo) -> untouched s s' p) /\
  (forall p, t_inact (rt s p) = false -> In p (map fst todo) -> after i j k aij aik s s' p).
Proof.
  intros i j k aij aik NIJ NIK NJ. induction todo as [|[q a] todo IH]; intros s nd ND HR TI; cbv zeta; cbn [fold_left].
  - cbn [fst]. split; [apply rest_refl|]. split; [intros; repeat split; auto|]. intros p _ [].
  - cbn [map fst] in ND. inversion ND as [|x l Nq ND']; subst.
    destruct (t_inact (rt s q)) eqn:Tq.
    + rewrite subst_row_inact by exact Tq.
      destruct (IH s nd ND') as (R&U&A); auto. { intros e He. apply HR. right; auto. }
      split; [exact R|]. split.
      * intros p Hp. apply U. destruct Hp as [Hp|Hp]; auto. right. intros C. apply Hp. right; auto.
      * intros p Tp [E|Hp]; [cbn in E; congruence|]. apply A; auto.
    + destruct (HR (q, a) (or_introl eq_refl) Tq) as (H1&[a' [H2 H2']]&H3&H4&H5). cbn [fst] in *.
      destruct (subst_row_eff i j k aij aik s nd q a' Tq H1 H2 H2' NIJ NIK NJ H3 H4 H5 a) as (R1&U1&A1).
      pose proof (subst_row_sbx i j k aij aik (s, nd) (q, a)) as SB. cbn [fst] in SB.
      destruct (subst_row i j k aij aik (s, nd) (q, a)) as [s1 nd1]. cbn [fst] in *.
      pose proof (sb_rt _ _ _ SB) as RT.
      destruct (IH s1 nd1 ND') as (R2&U2&A2).
      { intros e He Te. rewrite RT in Te.
        assert (De : fst e <> q). { intros C. apply Nq. rewrite <- C. apply in_map; auto. }
        eapply untouched_ready; [exact RT|apply U1; auto|]. apply HR; auto. right; auto. }
      { rewrite RT. auto. }
      rewrite RT in U2, A2.
      split; [eapply rest_trans; eauto|]. split.
      * intros p Hp. assert (Dp : p <> q).
        { intros ->. destruct Hp as [Hp|Hp]; [congruence|]. apply Hp. left; auto. }
        eapply untouched_trans; [apply U1; auto|]. apply U2. destruct Hp as [Hp|Hp]; auto. right.
        intros C. apply Hp. right; auto.
      * intros p Tp Hp. destruct (Nat.eq_dec p q) as [->|Dp].
        -- destruct (U2 q (or_intror Nq)) as (B1&B2&B3). destruct A1 as (C1&C2&C3).
           unfold after. rewrite B1, B2, B3. auto.
        -- destruct Hp as [E|Hp]; [cbn in E; congruence|].
           destruct (U1 p Dp) as (B1&B2&B3). destruct (U1 i H4) as (_&_&B4).
           specialize (A2 p Tp Hp). unfold after in *. rewrite B1, B2, B3, B4 in A2. exact A2.
Qed.

(** ** The whole substitution *)
Lemma eq2 : forall aij aik b xj xk, ~ aik == 0 -> (aij * xj + aik * xk == b <-> xk + aij / aik * xj == b / aik).
Proof.
  intros aij aik b xj xk N. split; intros E.
  - assert (X : xk + aij / aik * xj == (aij * xj + aik * xk) / aik) by (field; auto). rewrite X, E. reflexivity.
  - assert (X : aij * xj + aik * xk == aik * (xk + aij / aik * xj)) by (field; auto). rewrite X, E. field. auto.
Qed.
Lemma ext_le_moved : forall e e' d v w, moved e e' d -> w == v - d -> (ext_le e v <-> ext_le e' w).
Proof.
  intros [|p|] e' d v w M E; cbn [moved] in M; try (subst; cbn; tauto).
  destruct M as [p' [-> M]]. cbn. split; intros; lra.
Qed.
Lemma le_ext_moved : forall e e' d v w, moved e e' d -> w == v - d -> (le_ext v e <-> le_ext w e').
Proof.
  intros [|p|] e' d v w M E; cbn [moved] in M; try (subst; cbn; tauto).
  destruct M as [p' [-> M]]. cbn. split; intros; lra.
Qed.
Lemma within_moved : forall t e e' f f' d v w, moved e e' d -> moved f f' d -> w == v - d ->
  (within t e v f <-> within t e' w f').
Proof.
  intros t e e' f f' d v w M1 M2 E. unfold within.
  rewrite (ext_le_moved e e' d (v + t) (w + t) M1), (le_ext_moved f f' d (v - t) (w - t) M2) by lra. tauto.
Qed.

Definition at_eq (aij aik b : Q) (j k : nat) (x : nat -> Q) : Prop := aij * x j + aik * x k == b.

Lemma exec_eff : forall i j k aij aik ck ents s nd, Inv s -> tags_right s ->
  (i < nr s)%nat -> t_inact (rt s i) = false -> j <> k ->
  length (mA s i) = 2%nat -> In (j, aij) (mA s i) -> In (k, aik) (mA s i) -> ~ aij == 0 -> ~ aik == 0 ->
  t_cinact (ct s j) = false -> t_cinact (ct s k) = false ->
  (forall q, (q < nr s)%nat -> t_inact (rt s q) = false -> ~ coeff (mA s q) k == 0 ->
     clear_new (coeff (mA s q) j - aij / aik * coeff (mA s q) k)) ->
  (forall q c a, (q < nr s)%nat -> In (c, a) (mA s q) -> ~ a == 0) ->
  let s' := fst (execute_substitution i j k aij aik ck ents (kill_row2 i s) nd) in
  rest_same s s' /\ nr s' = nr s /\ nc s' = nc s /\ lb s' = lb s /\ ub s' = ub s /\
  ct s' = upd (ct s) k (CT false false true true) /\ rt s' = upd (rt s) i R_INACTIVE /\
  w_fixed s' = w_fixed s /\
  (forall q, (q < nr s)%nat -> q <> i -> t_inact (rt s q) = false -> after i j k aij aik s s' q).
Proof.
  intros i j k aij aik ck ents s nd H TG Hi Ti NJ L2 IJ IK NIJ NIK Tj Tk CN NZ. cbv zeta.
  assert (W := inv_0 s H).
  assert (Hk : (k < nc s)%nat) by (eapply (w_rin s W); eauto).
  unfold execute_substitution. cbv zeta.
  change (mAT (kill_row2 i s) k) with (mAT s k). change (mAT (kill_row2 i s) j) with (mAT s j).
  change (csz (kill_row2 i s) j) with (csz s j).
  set (s1 := setAT k [] (set_csz1 j (csz s j - 1)%Z (setAT j (del_entry i (mAT s j)) (kill_row2 i s)))).
  assert (KN : NoDup (map fst (mAT s k))) by (apply srt_NoDup, (w_csrt s W); auto).
  assert (R1 : rt s1 = upd (rt s) i R_INACTIVE) by reflexivity.
  assert (A1 : forall q, q <> i -> mA s1 q = mA s q). { intros q D. unfold s1, kill_row2. sr. apply upd_other; auto. }
  assert (LR1 : lhs s1 = lhs s /\ rhs s1 = rhs s) by (split; reflexivity). destruct LR1 as [L1 H1].
  pose proof (subst_fold_eff i j k aij aik NIJ NIK NJ (mAT s k) s1 nd KN) as P.
  pose proof (subst_fold_sbx i j k aij aik (mAT s k) (s1, nd)) as X. cbn [fst] in X. cbv zeta in P.
  destruct (fold_left _ _ _) as [s2 nd']. cbn [fst] in *.
  destruct P as (RS&U&A).
  { intros [q a] He Tq. cbn [fst] in *. rewrite R1 in Tq. updh Tq; [discriminate|].
    assert (Hq : (q < nr s)%nat) by (eapply (w_cin s W); eauto).
    assert (AK : In (k, a) (mA s q)) by (apply (w_agree s W); auto using act_alive, cact_alive).
    assert (SQ := w_rsrt s W q Hq).
    assert (NA : ~ a == 0) by (eapply NZ; eauto).
    unfold ready. rewrite A1 by auto. split; [exact SQ|]. split; [exists a; auto|]. split.
    - unfold tags_lr. rewrite R1, L1, H1, upd_other by auto. apply tags_lr_of; auto.
    - split; [auto|]. pose proof (coeff_in _ _ _ SQ AK) as EA. assert (NA' : ~ coeff (mA s q) k == 0) by (rewrite EA; auto).
      specialize (CN q Hq Tq NA'). unfold clear_new, subst_new in *.
      rewrite (coeff_of_in k a _ SQ AK). rewrite EA in CN.
      assert (EQ : find_coeff j (mA s q) - aij / aik * a == coeff (mA s q) j - aij / aik * a) by (rewrite (find_coeff_coeff j _ SQ); reflexivity).
      rewrite EQ. exact CN. }
  { rewrite R1, upd_same. reflexivity. }
  set (s3 := if Z.eqb (csz s2 j) 0 then _ else _).
  assert (X3 : sbx j s1 s3 /\ rest_same s2 s3 /\ mA s3 = mA s2 /\ lhs s3 = lhs s2 /\ rhs s3 = rhs s2).
  { split.
    - eapply sbx_trans; [exact X|]. unfold s3.
      destruct (Z.eqb (csz s2 j) 0); [sb_ref|]. destruct (Z.eqb (csz s2 j) 1); [sb_ref|apply sbx_refl].
    - unfold s3. destruct (Z.eqb (csz s2 j) 0); [split; [constructor; reflexivity|auto]|].
      destruct (Z.eqb (csz s2 j) 1); (split; [constructor; reflexivity|auto]). }
  clearbody s3. destruct X3 as (X3&RS3&E1&E2&E3).
  set (s4 := set_csz1 _ _ _).
  destruct (locks_only_count (mAT s4 j) j s4) as [UU [DD E5]].
  set (s5 := count_locks_one_column (mAT s4 j) j s4) in *. clearbody s5. subst s5. unfold s4. sr.
  destruct X3 as [B1 B2 B3 B4 B5 B6 B7 B8 B9 B10 B11 B12].
  destruct RS as [O1 O2 O3]. destruct RS3 as [Q1 Q2 Q3].
  split. { constructor; sr; [rewrite Q1, O1|rewrite Q2, O2|rewrite Q3, O3]; reflexivity. }
  rewrite B1, B2, B3, B4, B5, B6, B9. do 7 (split; [reflexivity|]).
  intros q Hq Dq Tq.
  assert (AF : after i j k aij aik s1 s2 q).
  { destruct (in_dec Nat.eq_dec q (map fst (mAT s k))) as [C|C].
    - apply A; auto. rewrite R1, upd_other by auto. auto.
    - destruct (U q (or_intror C)) as (F1&F2&F3).
      assert (Z : coeff (mA s1 q) k == 0).
      { rewrite A1 by auto. apply coeff_out. intros [a Ha]. apply C.
        apply (w_agree s W) in Ha; auto using act_alive, cact_alive. apply in_map_iff. exists (q, a). auto. }
      unfold after. rewrite F1, F2, F3. split; [intros x; rewrite Z; lra|].
      split; apply moved_0; rewrite Z; field; auto. }
  unfold after in *. sr. rewrite E1, E2, E3. rewrite A1, L1, H1 in AF by auto. exact AF.
Qed.
