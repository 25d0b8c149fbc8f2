(** Doubleton equality rows, continued: the loops. *)
From Coq Require Import NArith Sorted Lqa Lia.
From Verif Require Import M_Num S_LP M_Driver M_State M_Act M_Core M_Simple M_StonCols M_Dton
  L_State L_Struct L_Struct2 L_Struct3 L_Struct4 L_Struct5 L_Struct6 L_Tiny L_Struct9.

(** what follows the writes to the two matrices in subst_row *)
Definition subst_tail (i q j k : nat) (aik old new aqk : Q) (s3 : state) : state :=
    let b := fin (rhs s3 i) in
    let s4 :=
      if Qeqb b 0 then s3
      else
        let change := aqk / aik * b in
        let s' := if t_lhs_inf (rt s3 q) then s3
                  else set_lhs1 q (ext_sub (lhs s3 q) change) s3 in
        if t_rhs_inf (rt s' q) then s' else set_rhs1 q (ext_sub (rhs s' q) change) s' in
    let '(a1, alt1) := update_activity_coeff_change (acts s4 q) (lb s4 j) (ub s4 j) old new
                                                    (ct s4 j) in
    let '(a2, alt2) := update_activity_coeff_change a1 (lb s4 k) (ub s4 k) aqk 0 (ct s4 k) in
    let s5 := set_act1 q a2 s4 in
    let is_min r := match r with MIN_RECOMPUTE => true | _ => false end in
    let is_max r := match r with MAX_RECOMPUTE => true | _ => false end in
    let r := row_view s5 q in
    let s6 :=
      if is_min alt1 || is_min alt2 then
        let a := acts s5 q in
        note_added q (set_act1 q (Act (compute_min_act_no_tags (lb s5) (ub s5) r) (a_max a)
                                      (n_inf_min a) (n_inf_max a) (a_st a)) s5)
      else s5 in
      if is_max alt1 || is_max alt2 then
        let a := acts s6 q in
        note_added q (set_act1 q (Act (a_min a) (compute_max_act_no_tags (lb s6) (ub s6) r)
                                      (n_inf_min a) (n_inf_max a) (a_st a)) s6)
      else s6.
Definition subst_push (q : nat) (old_len : Z) (s1 : state) (nd : list nat) : state * list nat :=
  let len := rsz s1 q in
      if Z.eqb len 0 then (push_empty_rows q s1, nd)
      else if Z.eqb len 1 then (if Z.eqb old_len 1 then s1 else push_ston_rows q s1, nd)
      else if Z.eqb len 2 then
        (s1, if t_eq (rt s1 q) && negb (Z.eqb old_len 2) then nd ++ [q] else nd)
      else (s1, nd).
Lemma subst_row_eq : forall i j k aij aik s nd e, t_inact (rt s (fst e)) = false ->
  subst_row i j k aij aik (s, nd) e =
  let '(s1, old, new, aqk) := update_row_A_dton i (fst e) j k aij aik s in
  let '(s2, nd') := subst_push (fst e) (rsz s (fst e)) s1 nd in
  (subst_tail i (fst e) j k aik old new aqk (update_col_AT j (fst e) new s2), nd').
Proof.
  intros. unfold subst_row. rewrite H. destruct (update_row_A_dton _ _ _ _ _ _ _) as [[[s1 old] new] aqk].
  fold (subst_push (fst e) (rsz s (fst e)) s1 nd). destruct (subst_push _ _ _ _) as [s2 nd'].
  unfold subst_tail. cbv zeta.
  match goal with |- context [update_activity_coeff_change ?a ?b ?c ?d ?f ?g] =>
    destruct (update_activity_coeff_change a b c d f g) as [a1 alt1] end.
  match goal with |- context [update_activity_coeff_change ?a ?b ?c ?d ?f ?g] =>
    destruct (update_activity_coeff_change a b c d f g) as [a2 alt2] end.
  reflexivity.
Qed.
Lemma note_added_same : forall q s, (q < nr s)%nat -> same_struct s (note_added q s).
Proof.
  intros q s H. unfold note_added. destruct (a_st (acts s q)); try apply same_refl.
  cbv zeta. constructor; sr; auto. intros p Hp. apply In_app_one in Hp. destruct Hp; [auto|subst; auto].
Qed.
Lemma set_act1_same : forall q a s, same_struct s (set_act1 q a s).
Proof. intros. same_ref. Qed.
Lemma subst_tail_same : forall i q j k aik old new aqk s, (q < nr s)%nat ->
  same_struct s (subst_tail i q j k aik old new aqk s).
Proof.
  intros. unfold subst_tail. cbv zeta.
  set (s4 := if Qeqb _ _ then _ else _).
  assert (S4 : same_struct s s4).
  { unfold s4. destruct (Qeqb _ _); [apply same_refl|]. set (s' := if t_lhs_inf _ then _ else _).
    assert (same_struct s s') by (unfold s'; destruct (t_lhs_inf _); [apply same_refl|same_ref]).
    eapply same_trans; [exact H0|]. destruct (t_rhs_inf _); [apply same_refl|same_ref]. }
  clearbody s4.
  match goal with |- context [update_activity_coeff_change ?a ?b ?c ?d ?f ?g] =>
    destruct (update_activity_coeff_change a b c d f g) as [a1 alt1] end.
  match goal with |- context [update_activity_coeff_change ?a ?b ?c ?d ?f ?g] =>
    destruct (update_activity_coeff_change a b c d f g) as [a2 alt2] end.
  set (s5 := set_act1 q a2 s4). assert (S5 : same_struct s s5) by (eapply same_trans; [exact S4|apply set_act1_same]).
  clearbody s5.
  match goal with |- context [if ?b then note_added q (set_act1 q (Act ?x (a_max ?y) ?z ?t ?u) s5) else s5] =>
    set (s6 := if b then note_added q (set_act1 q (Act x (a_max y) z t u) s5) else s5);
    assert (S6 : same_struct s s6) by (unfold s6; destruct b; [|exact S5];
      eapply same_trans; [exact S5|]; eapply same_trans; [apply set_act1_same|]; apply note_added_same;
      rewrite (ss_nr _ _ (set_act1_same _ _ _)), (ss_nr _ _ S5); exact H) end.
  clearbody s6.
  match goal with |- same_struct s (if ?b then _ else _) => destruct b end; [|exact S6].
  eapply same_trans; [exact S6|]; eapply same_trans; [apply set_act1_same|]; apply note_added_same.
  rewrite (ss_nr _ _ (set_act1_same _ _ _)), (ss_nr _ _ S6); exact H.
Qed.

(** the writes proper: everything but what [same_struct] covers *)
Definition ndok (s : state) (nd : list nat) : Prop := forall p, In p nd -> (p < nr s)%nat /\ (rsz s p <= 2)%Z.
Lemma ndok_fr : forall s s' nd, fr s s' -> ndok s nd -> ndok s' nd.
Proof.
  intros s s' nd F H p Hp. destruct (H p Hp) as [A B]. rewrite (mo_nr _ _ (fr_mono _ _ F)). split; auto.
  pose proof (fr_rsz _ _ F p A). lia.
Qed.
Lemma ndok_one : forall s nd q, ndok s nd -> (q < nr s)%nat -> (rsz s q <= 2)%Z -> ndok s (nd ++ [q]).
Proof. intros s nd q H A B p Hp. apply In_app_one in Hp. destruct Hp; [auto|subst; auto]. Qed.

Lemma subst_row_step : forall i j k aij aik rest s nd q aqk, 
  InvX j k (virt k rest s) -> t_inact (rt s q) = false ->
  In (q, aqk) rest -> (j < nc s)%nat -> (k < nc s)%nat -> j <> k ->
  t_cinact (ct s j) = false -> t_cinact (ct s k) = false -> ~ In j (w_ston_cols s) -> ndok s nd ->
  let '(s', nd') := subst_row i j k aij aik (s, nd) (q, aqk) in
  tiny s' = false ->
  InvX j k (virt k (del_entry q rest) s') /\ fr s s' /\ ndok s' nd' /\
  w_ston_cols s' = w_ston_cols s /\ (forall p, t_inact (rt s' p) = t_inact (rt s p)) /\
  (forall c, t_fixed (ct s' c) = t_fixed (ct s c)) /\ (forall c, t_sub (ct s' c) = t_sub (ct s c)) /\
  (mAT s k = [] -> mAT s' k = []).
Proof.
  intros i j k aij aik rest s nd q aqk X Tq Hin Hj Hk NJ Tj Tk NS ND.
  assert (XW := xv_0 _ _ _ X).
  assert (Hq : (q < nr s)%nat).
  { apply (w_cin _ XW q k aqk). unfold virt. sr. auto. unfold virt. sr. rewrite upd_same. auto. }
  assert (RA : rsz s q <> (-1)%Z) by (apply (act_alive _ q XW); auto).
  assert (IK : In (k, aqk) (mA s q)).
  { apply (w_agree _ XW q k aqk); unfold virt; sr; auto; rewrite upd_same; auto. unfold Z_len. lia. }
  assert (SQ : srt (mA s q)) by (apply (w_rsrt _ XW); auto).
  assert (SJ : srt (mAT s j)).
  { pose proof (w_csrt _ XW j Hj) as C. unfold virt in C. sr in C. rewrite upd_other in C by auto. exact C. }
  assert (LQ : rsz s q = Z_len (mA s q)).
  { apply (tight_rsz _ q XW (xv_R _ _ _ X)); auto. }
  assert (LJ : csz s j = Z_len (mAT s j)).
  { pose proof (tight_csz _ j XW (xv_C _ _ _ X) Hj Tj) as C. unfold virt in C. sr in C.
    rewrite !upd_other in C by auto. exact C. }
  assert (AJ : forall a, In (j, a) (mA s q) <-> In (q, a) (mAT s j)).
  { intros a. pose proof (w_agree _ XW q j a Hq Hj RA) as C. unfold virt in C. sr in C.
    rewrite !upd_other in C by auto. apply C. rewrite LJ. unfold Z_len. lia. }
  rewrite subst_row_eq by exact Tq. cbn [fst]. unfold update_row_A_dton.
  rewrite (coeff_of_in k aqk _ SQ IK). cbv zeta.
  set (old := find_coeff j (mA s q)). set (new := old - aij / aik * aqk).
  set (s0 := record _ _).
  assert (TS : tiny s0 = false -> (Qleb (ABSq new) ZERO_TOL = true -> has j (mA s q)) /\ tiny s = false).
  { unfold s0. sr. destruct (Qleb (ABSq new) ZERO_TOL); simpl; [|intros; split; [discriminate|auto]].
    destruct (existsb _ _) eqn:EX; simpl; [|discriminate]. intros; split; auto. intros _. apply hasb_has. exact EX. }
  destruct (set_coeff j new (del_entry k (mA s q))) as [r'|] eqn:ER.
  2:{ (* no entry to remove *)
    destruct (subst_push q (rsz s q) (set_bad true s0) nd) as [s2 nd'] eqn:EP.
    intros Ht. exfalso.
    assert (T0 : tiny s0 = false).
    { destruct (tiny s0) eqn:E0; auto. exfalso.
      assert (T s2). { unfold subst_push in EP. revert EP. repeat match goal with |- (if ?b then _ else _, _) = _ -> _ => destruct b | |- (if ?b then _ else _) = _ -> _ => destruct b end; intros EP; injection EP; intros; subst; exact E0. }
      assert (T (update_col_AT j q new s2)) by (unfold update_col_AT; destruct (set_coeff q new (mAT s2 j)); exact H).
      assert (Hq2 : (q < nr (update_col_AT j q new s2))%nat).
      { assert (E2 : nr s2 = nr s). { unfold subst_push in EP. revert EP. repeat match goal with |- (if ?b then _ else _, _) = _ -> _ => destruct b | |- (if ?b then _ else _) = _ -> _ => destruct b end; intros EP; injection EP; intros; subst s2; unfold s0; sr; match goal with |- context [if ?b then _ else _] => destruct b end; reflexivity. }
        unfold update_col_AT; destruct (set_coeff q new (mAT s2 j)); sr; congruence. }
      pose proof (ss_tiny _ _ (subst_tail_same i q j k aik old new aqk _ Hq2)) as E. unfold T in H0. congruence. }
    destruct (TS T0) as [HJ _]. unfold set_coeff in ER. destruct (Qleb (ABSq new) ZERO_TOL); [|discriminate].
    destruct (HJ eq_refl) as [a Ha].
    rewrite (drop_entry_in j a) in ER; [discriminate|apply del_entry_srt; auto|]. apply del_entry_In. auto. }
  set (d := (Z_len (mA s q) - Z_len r')%Z).
  set (s1 := set_nnz (nnz s0 - d)%Z (set_rsz1 q (rsz s0 q - d)%Z (setA q r' s0))).
  assert (F0 : nr s0 = nr s /\ nc s0 = nc s /\ mA s0 = mA s /\ mAT s0 = mAT s /\ rsz s0 = rsz s /\ csz s0 = csz s /\
     rt s0 = rt s /\ ct s0 = ct s /\ nnz s0 = nnz s /\ bad s0 = bad s /\ stale s0 = stale s /\ w_rows s0 = w_rows s /\ w_fixed s0 = w_fixed s /\
     w_sub s0 = w_sub s /\ w_ston_rows s0 = w_ston_rows s /\ w_empty_rows s0 = w_empty_rows s /\
     w_empty_cols s0 = w_empty_cols s /\ w_ston_cols s0 = w_ston_cols s /\ w_dton s0 = w_dton s /\ w_acts s0 = w_acts s).
  { unfold s0. sr. destruct (_ && _); sr; auto 30. }
  destruct F0 as (G1&G2&G3&G4&G5&G6&G7&G8&G9&G10&G11&G12&G13&G14&G15&G16&G17&G18&G19&G20).
  assert (R1 : rsz s1 q = Z_len r'). { unfold s1. sr. rewrite upd_same, G5, LQ. unfold d. lia. }
  destruct (subst_push q (rsz s q) s1 nd) as [s2 nd'] eqn:EP.
  assert (F2 : nr s2 = nr s1 /\ nc s2 = nc s1 /\ mA s2 = mA s1 /\ mAT s2 = mAT s1 /\ rsz s2 = rsz s1 /\ csz s2 = csz s1 /\
     rt s2 = rt s1 /\ ct s2 = ct s1 /\ nnz s2 = nnz s1 /\ bad s2 = bad s1 /\ tiny s2 = tiny s1 /\ stale s2 = stale s1 /\ w_rows s2 = w_rows s1 /\ w_fixed s2 = w_fixed s1 /\
     w_sub s2 = w_sub s1 /\
     (forall p, In p (w_ston_rows s2) -> In p (w_ston_rows s1) \/ p = q /\ length r' = 1%nat) /\
     (forall p, In p (w_empty_rows s2) <-> In p (w_empty_rows s1) \/ p = q /\ r' = []) /\
     w_empty_cols s2 = w_empty_cols s1 /\ w_ston_cols s2 = w_ston_cols s1 /\ w_dton s2 = w_dton s1 /\ w_acts s2 = w_acts s1 /\
     (nd' = nd \/ nd' = nd ++ [q] /\ Z_len r' = 2%Z)).
  { unfold subst_push in EP. rewrite R1 in EP. unfold Z_len in EP.
    assert (NE : (Z.of_nat (length r') <> 0)%Z -> forall p, In p (w_empty_rows s1) <-> In p (w_empty_rows s1) \/ p = q /\ r' = []).
    { intros E p. split; [auto|]. intros [C|[_ C]]; auto. rewrite C in E. simpl in E. lia. }
    destruct (Z.eqb_spec (Z.of_nat (length r')) 0) as [E|E].
    { injection EP; intros <- <-. sr. do 15 (split; [reflexivity|]). split; [auto|]. split; [|auto 10].
      intros p. rewrite In_app_one. destruct r'; [|simpl in E; lia]. tauto. }
    destruct (Z.eqb_spec (Z.of_nat (length r')) 1) as [E1|E1].
    { destruct (Z.eqb (rsz s q) 1); injection EP; intros <- <-; sr; do 15 (split; [reflexivity|]);
      (split; [|split; [apply NE; auto|auto 10]]); auto. intros p. rewrite In_app_one. intros [C|C]; auto.
      right. split; auto. lia. }
    destruct (Z.eqb_spec (Z.of_nat (length r')) 2) as [E2|E2];
    [destruct (t_eq (rt s1 q) && negb (rsz s q =? 2)%Z)|]; injection EP; intros <- <-; do 15 (split; [reflexivity|]);
      (split; [auto|]); (split; [apply NE; auto|]); auto 10. }
  destruct F2 as (K1&K2&K3&K4&K5&K6&K7&K8&K9&K10&K11&K12&K13&K14&K15&K16&K17&K18&K19&K20&K21&K22).
  assert (SC : exists c', set_coeff q new (mAT s j) = Some c' \/ tiny s0 = true).
  { destruct (tiny s0) eqn:E0; [exists []; auto|]. destruct (TS eq_refl) as [HJ _].
    unfold set_coeff. destruct (Qleb _ _); [|eauto]. destruct (HJ eq_refl) as [a Ha]. apply AJ in Ha.
    rewrite (drop_entry_in q a _ SJ Ha). eauto. }
  destruct SC as [c' SC]. cbv zeta.
  set (s3 := update_col_AT j q new s2).
  assert (N3 : nr s3 = nr s).
  { unfold s3, update_col_AT. destruct (set_coeff q new (mAT s2 j)); sr; rewrite K1; unfold s1; sr; exact G1. }
  assert (Hq3 : (q < nr s3)%nat) by congruence.
  pose proof (subst_tail_same i q j k aik old new aqk s3 Hq3) as ST.
  set (s7 := subst_tail i q j k aik old new aqk s3) in *.
  intros HT. rewrite (ss_tiny _ _ ST) in HT.
  assert (T0 : tiny s0 = false).
  { destruct (tiny s0) eqn:E0; auto. unfold s3, update_col_AT in HT.
    destruct (set_coeff q new (mAT s2 j)); sr in HT; rewrite K11 in HT; unfold s1 in HT; sr in HT; congruence. }
  destruct SC as [SC|SC]; [|congruence]. destruct (TS T0) as [HJ TSF].
  assert (HJ1 : Qleb (ABSq new) ZERO_TOL = true -> has j (del_entry k (mA s q))).
  { intros E. destruct (HJ E) as [a Ha]. exists a. apply del_entry_In. auto. }
  assert (HJ2 : Qleb (ABSq new) ZERO_TOL = true -> has q (mAT s j)).
  { intros E. destruct (HJ E) as [a Ha]. exists a. apply AJ. auto. }
  destruct (set_coeff_row j new _ r' (del_entry_srt k _ SQ) ER HJ1) as [SR [B [HR [BT [BF [LR BL]]]]]].
  destruct (set_coeff_row q new _ c' SJ SC HJ2) as [SC' [B' [HC [_ [_ [_ _]]]]]].
  assert (EB : B = B').
  { assert (HA : forall B0 : bool, B0 = true <-> (B0 = true)) by tauto.
    assert (X1 : In (j, new) r' <-> B = true).
    { rewrite HR. simpl. split; [intros [[C _]|[C _]]; [congruence|auto]|auto]. }
    unfold set_coeff in ER, SC. destruct (Qleb (ABSq new) ZERO_TOL) eqn:QZ.
    - destruct (HJ1 eq_refl) as [a Ha]. rewrite (drop_entry_in j a) in ER; [|apply del_entry_srt; auto|auto].
      destruct (HJ2 eq_refl) as [a2 Ha2]. rewrite (drop_entry_in q a2) in SC; [|auto|auto].
      assert (B = false). { destruct B; auto. assert (C : In (j, new) r') by (apply X1; auto).
        injection ER; intros E; rewrite <- E in C. apply del_entry_In in C. simpl in C. tauto. }
      assert (B' = false). { destruct B'; auto. assert (C : In (q, new) c') by (apply HC; auto).
        injection SC; intros E; rewrite <- E in C. apply del_entry_In in C. simpl in C. tauto. }
      congruence.
    - assert (B = true). { apply X1. injection ER; intros <-. apply put_entry_In; [apply del_entry_srt; auto|auto]. }
      assert (B' = true). { assert (C : In (q, new) c') by (injection SC; intros <-; apply put_entry_In; auto).
        apply HC in C. simpl in C. destruct C as [[C _]|[C _]]; [congruence|auto]. }
      congruence. }
  subst B'.
  pose proof (del_entry_len k aqk _ SQ IK) as LK.
  assert (LEN : (length r' <= length (mA s q))%nat).
  { rewrite LR. destruct B; [|lia]. destruct (hasb _ _); lia. }
  assert (E3 : s3 = set_csz1 j (csz s2 j + (Z_len c' - Z_len (mAT s2 j)))%Z (setAT j c' s2)).
  { unfold s3, update_col_AT. rewrite K4. unfold s1. sr. rewrite G4, SC. reflexivity. }
  assert (ZJ : (csz s2 j + (Z_len c' - Z_len (mAT s2 j)) = Z_len c')%Z).
  { rewrite K6, K4. unfold s1. sr. rewrite G6, G4, LJ. lia. }
  rewrite ZJ in E3. clearbody s7. clear ZJ.
  assert (SD : substd q j k r' c' (virt k rest s) (virt k (del_entry q rest) s7)).
  { constructor; unfold virt; sr; rewrite ?(ss_nr _ _ ST), ?(ss_nc _ _ ST), ?(ss_A _ _ ST), ?(ss_AT _ _ ST),
      ?(ss_rsz _ _ ST), ?(ss_csz _ _ ST), ?(ss_w1 _ _ ST), ?(ss_w2 _ _ ST), ?(ss_w3 _ _ ST), ?(ss_w4 _ _ ST),
      ?(ss_w5 _ _ ST), ?(ss_w6 _ _ ST), ?(ss_w7 _ _ ST), ?(ss_w8 _ _ ST), ?(ss_stale _ _ ST); rewrite ?E3; sr;
      rewrite ?K1, ?K2, ?K3, ?K4, ?K5, ?K6, ?K7, ?K8, ?K12, ?K13, ?K14, ?K15, ?K18, ?K19, ?K20; unfold s1; sr;
      rewrite ?G1, ?G2, ?G3, ?G4, ?G5, ?G6, ?G7, ?G8, ?G11, ?G12, ?G13, ?G14, ?G17, ?G18, ?G19; auto.
    - intros p. unfold upd. destruct (p =? q)%nat; auto. rewrite LQ. unfold d. lia.
    - intros p. rewrite (ss_rt _ _ ST), E3. sr. rewrite K7. unfold s1. sr. rewrite G7. reflexivity.
    - intros p. rewrite (ss_fx _ _ ST), E3. sr. rewrite K8. unfold s1. sr. rewrite G8. reflexivity.
    - intros p. rewrite (ss_sb _ _ ST), E3. sr. rewrite K8. unfold s1. sr. rewrite G8. reflexivity.
    - intros c. rewrite upd_same. unfold upd. destruct (Nat.eqb_spec c k).
      + subst c. destruct (Nat.eqb_spec k j); [congruence|reflexivity].
      + reflexivity.
    - intros c. rewrite upd_same. unfold upd. destruct (Nat.eqb_spec c k).
      + subst c. destruct (Nat.eqb_spec k j); [congruence|reflexivity].
      + reflexivity.
    - intros p Hp. apply K16 in Hp. unfold s1 in Hp. sr in Hp. rewrite G15 in Hp. exact Hp.
    - intros p. rewrite K17. unfold s1. sr. rewrite G16. tauto.
    - intros p Hp. apply (ss_acts _ _ ST) in Hp. rewrite N3 in Hp. destruct Hp as [Hp|Hp]; auto. left.
      rewrite E3 in Hp. sr in Hp. rewrite K21 in Hp. unfold s1 in Hp. sr in Hp. congruence. }
  assert (NR7 : nr s7 = nr s) by (apply (sd_nr _ _ _ _ _ _ _ SD)).
  assert (A7 : forall p, mA s7 p = if Nat.eqb p q then r' else mA s p) by (apply (sd_A _ _ _ _ _ _ _ SD)).
  assert (RZ7 : forall p, rsz s7 p = if Nat.eqb p q then Z_len r' else rsz s p) by (apply (sd_rsz _ _ _ _ _ _ _ SD)).
  assert (RT7 : forall p, t_inact (rt s7 p) = t_inact (rt s p)) by (apply (sd_rt _ _ _ _ _ _ _ SD)).
  assert (FX7 : forall c, t_fixed (ct s7 c) = t_fixed (ct s c)) by (apply (sd_fx _ _ _ _ _ _ _ SD)).
  assert (SB7 : forall c, t_sub (ct s7 c) = t_sub (ct s c)) by (apply (sd_sb _ _ _ _ _ _ _ SD)).
  assert (NNZ : nnz s7 = (nnz s - (Z_len (mA s q) - Z_len r'))%Z).
  { rewrite (ss_nnz _ _ ST), E3. sr. rewrite K9. unfold s1. sr. rewrite G9. reflexivity. }
  assert (CZ7 : forall c, c <> j -> csz s7 c = csz s c).
  { intros c N. rewrite (ss_csz _ _ ST), E3. sr. rewrite upd_other by auto. rewrite K6. unfold s1. sr. congruence. }
  assert (BD : bad s7 = bad s).
  { rewrite (ss_bad _ _ ST), E3. sr. rewrite K10. unfold s1. sr. exact G10. }
  assert (TN : tiny s7 = tiny s). { rewrite (ss_tiny _ _ ST), TSF. exact HT. }
  split; [|split; [|split; [|split; [|split; [|split; [|split]]]]]]; auto.
  - eapply (substd_InvX q j k aqk new B r' c' _ _ X SD); auto.
    + intros e. rewrite HR, del_entry_In. unfold virt. sr. tauto.
    + intros e. rewrite HC. unfold virt. sr. rewrite upd_other by auto. tauto.
    + intros E. destruct (BF E) as [a Ha]. apply del_entry_In in Ha. exists a. apply Ha.
  - constructor.
    + constructor.
      * apply (sd_nr _ _ _ _ _ _ _ SD).
      * apply (sd_nc _ _ _ _ _ _ _ SD).
      * rewrite BD. auto.
      * rewrite TN. auto.
      * intros p. rewrite RT7. auto.
      * intros c. rewrite FX7. auto.
      * intros c. rewrite SB7. auto.
      * intros p Hp R. rewrite RZ7. destruct (Nat.eqb_spec p q); [congruence|auto].
      * intros c Hc Z. rewrite CZ7; auto. intros ->. rewrite LJ in Z. unfold Z_len in Z. lia.
      * rewrite NNZ. unfold Z_len. lia.
      * intros p Hp. rewrite A7. destruct (Nat.eqb_spec p q); [subst; auto|lia].
    + intros [N1 N2 N3']. constructor.
      * rewrite NNZ, N1, NR7.
        rewrite (zsum_ext (fun p => Z_len (mA s7 p)) (upd (fun p => Z_len (mA s p)) q (Z_len r'))).
        { rewrite zsum_upd; [lia|apply seq_NoDup|]. apply in_seq. lia. }
        intros p _. rewrite A7. unfold upd. destruct (p =? q)%nat; reflexivity.
      * rewrite NR7. intros p Hp. rewrite RZ7, A7. destruct (_ =? _)%nat; auto.
      * rewrite NR7. intros p Hp. rewrite RZ7, A7.
        destruct (_ =? _)%nat; auto. unfold Z_len. lia.
    + intros p Hp. rewrite RZ7. destruct (Nat.eqb_spec p q); [subst|lia]. rewrite LQ. unfold Z_len. lia.
    + apply (sd_w1 _ _ _ _ _ _ _ SD).
    + apply (sd_w2 _ _ _ _ _ _ _ SD).
    + apply (sd_w3 _ _ _ _ _ _ _ SD).
    + apply (sd_w8 _ _ _ _ _ _ _ SD).
  - assert (NO : ndok s7 nd).
    { intros p Hp. destruct (ND p Hp) as [C D]. rewrite (ss_nr _ _ ST), N3. split; auto. rewrite RZ7.
      destruct (Nat.eqb_spec p q); [subst|lia]. rewrite LQ in D. unfold Z_len in *. lia. }
    destruct K22 as [->|[-> E]]; auto. apply ndok_one; auto.
    + rewrite (ss_nr _ _ ST), N3. auto.
    + rewrite RZ7, Nat.eqb_refl. lia.
  - apply (sd_w7 _ _ _ _ _ _ _ SD).
  - intros E. rewrite (ss_AT _ _ ST), E3. sr. rewrite upd_other by auto. rewrite K4. unfold s1. sr. rewrite G4. exact E.
Qed.

Lemma subst_row_inact : forall i j k aij aik s nd e, t_inact (rt s (fst e)) = true ->
  subst_row i j k aij aik (s, nd) e = (s, nd).
Proof. intros. unfold subst_row. rewrite H. reflexivity. Qed.
Lemma subst_fold_inact : forall i j k aij aik s nd l,
  (forall e, In e l -> t_inact (rt s (fst e)) = true) ->
  fold_left (subst_row i j k aij aik) l (s, nd) = (s, nd).
Proof.
  induction l as [|e l IH]; intros H; auto. cbn [fold_left]. rewrite subst_row_inact by (apply H; left; auto).
  apply IH. intros; apply H; right; auto.
Qed.

Lemma subst_fold : forall i j k aij aik, j <> k -> forall todo rest s nd,
  InvX j k (virt k rest s) ->
  (forall e, In e todo -> t_inact (rt s (fst e)) = true \/ In e rest) ->
  (forall e, In e rest -> t_inact (rt s (fst e)) = true \/ In e todo) ->
  NoDup (map fst todo) ->
  (j < nc s)%nat -> (k < nc s)%nat -> t_cinact (ct s j) = false -> t_cinact (ct s k) = false ->
  (forall e, In e todo -> t_inact (rt s (fst e)) = false -> ~ In j (w_ston_cols s)) -> ndok s nd ->
  let '(s', nd') := fold_left (subst_row i j k aij aik) todo (s, nd) in
  tiny s' = false ->
  exists rest', InvX j k (virt k rest' s') /\ fr s s' /\ ndok s' nd' /\
  w_ston_cols s' = w_ston_cols s /\ (forall p, t_inact (rt s' p) = t_inact (rt s p)) /\
  (forall c, t_fixed (ct s' c) = t_fixed (ct s c)) /\ (forall c, t_sub (ct s' c) = t_sub (ct s c)) /\
  (mAT s k = [] -> mAT s' k = []) /\ (forall e, In e rest' -> t_inact (rt s' (fst e)) = true).
Proof.
  intros i j k aij aik NJ. induction todo as [|[q a] todo IH]; intros rest s nd X H1 H2 ND Hj Hk Tj Tk NS NO.
  - cbn [fold_left]. intros _. exists rest. do 8 (split; [auto using fr_refl; fail|]).
    intros e He. destruct (H2 e He); auto.
  - cbn [fold_left]. simpl in ND. inversion ND as [|x l Nq ND']; subst.
    destruct (t_inact (rt s q)) eqn:Tq.
    + rewrite subst_row_inact by exact Tq. apply (IH rest s nd); auto.
      * intros e He. apply H1. right; auto.
      * intros e He. destruct (H2 e He) as [C|[C|C]]; auto. subst e. auto.
      * intros e He. apply NS. right; auto.
    + assert (HI : In (q, a) rest).
      { destruct (H1 (q, a) (or_introl eq_refl)) as [C|C]; auto. simpl in C. congruence. }
      assert (NJS : ~ In j (w_ston_cols s)) by (apply (NS (q, a)); [left; auto|exact Tq]).
      pose proof (subst_row_step i j k aij aik rest s nd q a X Tq HI Hj Hk NJ Tj Tk NJS NO) as P.
      destruct (subst_row i j k aij aik (s, nd) (q, a)) as [s1 nd1].
      destruct (fold_left (subst_row i j k aij aik) todo (s1, nd1)) as [s' nd'] eqn:EF.
      intros HT.
      assert (T1 : tiny s1 = false).
      { destruct (tiny s1) eqn:E; auto.
        pose proof (tn_subst_fold todo i j k aij aik (s1, nd1) E) as C. rewrite EF in C. unfold T in C. simpl in C. congruence. }
      destruct (P T1) as (X1&F1&N1&W1&R1&FX1&SB1&A1).
      assert (CI1 : forall c, t_cinact (ct s1 c) = t_cinact (ct s c)).
      { intros c. unfold t_cinact. rewrite FX1, SB1. reflexivity. }
      specialize (IH (del_entry q rest) s1 nd1 X1). rewrite EF in IH.
      assert (Y : exists rest', InvX j k (virt k rest' s') /\ fr s1 s' /\ ndok s' nd' /\
        w_ston_cols s' = w_ston_cols s1 /\ (forall p, t_inact (rt s' p) = t_inact (rt s1 p)) /\
        (forall c, t_fixed (ct s' c) = t_fixed (ct s1 c)) /\ (forall c, t_sub (ct s' c) = t_sub (ct s1 c)) /\
        (mAT s1 k = [] -> mAT s' k = []) /\ (forall e, In e rest' -> t_inact (rt s' (fst e)) = true)).
      { apply IH; auto.
        - intros e He. rewrite R1. destruct (H1 e (or_intror He)) as [C|C]; auto. right.
          apply del_entry_In. split; auto. intros E. apply Nq. rewrite <- E. apply in_map; auto.
        - intros e He. rewrite R1. apply del_entry_In in He. destruct He as [He Ne].
          destruct (H2 e He) as [C|[C|C]]; auto. subst e. simpl in Ne. congruence.
        - rewrite (mo_nc _ _ (fr_mono _ _ F1)). auto.
        - rewrite (mo_nc _ _ (fr_mono _ _ F1)). auto.
        - rewrite CI1. auto.
        - rewrite CI1. auto.
        - intros e He. rewrite R1, W1. apply NS. right; auto. }
      destruct Y as (rest'&X2&F2&N2&W2&R2&FX2&SB2&A2&L2). exists rest'.
      split; [auto|]. split; [eapply fr_trans; eauto|]. split; [auto|]. split; [congruence|].
      split; [intros; rewrite R2; auto|]. split; [intros; rewrite FX2; auto|]. split; [intros; rewrite SB2; auto|].
      split; auto.
Qed.

(** ** execute_substitution *)
Lemma can_dton_sizes : forall fits tk c0 c1 v0 v1 z0 z1 j k aij aik tk',
  can_dton_be_eliminated fits tk c0 c1 v0 v1 z0 z1 = (Some (j, k, aij, aik), tk') ->
  (j = c0 /\ k = c1 /\ aij = v0 /\ aik = v1 /\ (z0 = 1%Z -> z1 = 1%Z) \/
   j = c1 /\ k = c0 /\ aij = v1 /\ aik = v0 /\ (z1 = 1%Z -> z0 = 1%Z)).
Proof.
  intros fits tk c0 c1 v0 v1 z0 z1 j k aij aik tk'. unfold can_dton_be_eliminated. cbv zeta.
  set (b := if Z.eqb z0 1 && _ then true else _).
  assert (HB : (b = true -> z1 = 1%Z -> z0 = 1%Z) /\ (b = false -> z0 = 1%Z -> z1 = 1%Z)).
  { unfold b. destruct (Z.eqb_spec z0 1), (Z.eqb_spec z1 1); simpl; split; intros; try discriminate; auto; congruence. }
  clearbody b. destruct b.
  - destruct (_ || _); [discriminate|]. destruct (fits tk); [|discriminate]. intros E; injection E; intros; subst.
    right. repeat (split; auto). tauto.
  - destruct (_ || _); [discriminate|]. destruct (fits tk); [|discriminate]. intros E; injection E; intros; subst.
    left. repeat (split; auto). tauto.
Qed.

Definition kill_row2 (i : nat) (s : state) : state :=
  set_nnz (nnz s - 2)%Z (setA i [] (set_rsz1 i (-1)%Z (set_rt1 i R_INACTIVE s))).

Lemma exec_spec : forall i j k aij aik ck ents s nd, Inv s ->
  (i < nr s)%nat -> t_inact (rt s i) = false -> j <> k ->
  length (mA s i) = 2%nat -> In (j, aij) (mA s i) -> In (k, aik) (mA s i) ->
  t_cinact (ct s j) = false -> t_cinact (ct s k) = false ->
  (csz s j = 1%Z -> csz s k = 1%Z) -> ndok s nd ->
  let '(s', nd') := execute_substitution i j k aij aik ck ents (kill_row2 i s) nd in
  tiny s' = false -> Inv s' /\ fr s s' /\ ndok s' nd' /\ rsz s' i = (-1)%Z.
Proof.
  intros i j k aij aik ck ents s nd H Hi Ti NJ L2 IJ IK Tj Tk CS NO.
  assert (W := inv_0 s H).
  pose proof (act_alive s i W Hi Ti) as RA.
  assert (Hj : (j < nc s)%nat) by (eapply (w_rin s W); eauto).
  assert (Hk : (k < nc s)%nat) by (eapply (w_rin s W); eauto).
  assert (Zj := cact_alive s j W Hj Tj). assert (Zk := cact_alive s k W Hk Tk).
  assert (TJ : In (i, aij) (mAT s j)) by (apply (w_agree s W); auto).
  assert (TK : In (i, aik) (mAT s k)) by (apply (w_agree s W); auto).
  pose proof (tight_csz s j W (inv_C s H) Hj Tj) as Sj. pose proof (tight_csz s k W (inv_C s H) Hk Tk) as Sk.
  pose proof (tight_rsz s i W (inv_R s H) Hi Ti) as Si.
  pose proof (del_entry_len i aij _ (w_csrt s W j Hj) TJ) as Lj.
  pose proof (del_entry_len i aik _ (w_csrt s W k Hk) TK) as Lk.
  assert (EN : forall e, In e (mA s i) <-> e = (j, aij) \/ e = (k, aik)).
  { intros e. destruct (mA s i) as [|e1 [|e2 [|e3 l]]]; simpl in L2; try lia. simpl in *.
    destruct IJ as [IJ|[IJ|[]]]; destruct IK as [IK|[IK|[]]]; subst; try congruence; intuition congruence. }
  unfold execute_substitution. cbv zeta.
  change (mAT (kill_row2 i s) k) with (mAT s k). change (mAT (kill_row2 i s) j) with (mAT s j).
  change (csz (kill_row2 i s) j) with (csz s j).
  set (s1 := setAT k [] (set_csz1 j (csz s j - 1)%Z (setAT j (del_entry i (mAT s j)) (kill_row2 i s)))).
  assert (K : killed i j k s (virt k (del_entry i (mAT s k)) s1)).
  { constructor; unfold virt, s1, kill_row2; sr; auto.
    - intros q. unfold upd. destruct (q =? i)%nat; auto.
    - intros c. unfold upd. destruct (Nat.eqb_spec c k); [subst c; rewrite orb_true_r; reflexivity|].
      destruct (Nat.eqb_spec c j); [subst; reflexivity|reflexivity].
    - intros c. unfold upd. destruct (Nat.eqb_spec c k); [subst c; rewrite orb_true_r; unfold Z_len in *; lia|].
      destruct (Nat.eqb_spec c j); [subst; reflexivity|reflexivity]. }
  pose proof (killed_InvX i j k aij aik s _ H K Hi Ti NJ EN Tj Tk) as X1.
  assert (F1 : fr s s1).
  { constructor; unfold s1, kill_row2; sr; auto.
    - constructor; sr; auto.
      + intros q. updg; auto.
      + intros q Hq. updg; auto.
      + intros c Hc. updg; auto. intros; contradiction.
      + lia.
      + intros q Hq. updg; simpl; lia.
    - intros [N1 N2 N3]. constructor; sr.
      + rewrite N1. rewrite (zsum_ext (fun q => Z_len (upd (mA s) i [] q)) (upd (fun q => Z_len (mA s q)) i 0%Z)).
        { rewrite zsum_upd; [unfold Z_len in *; lia|apply seq_NoDup|apply in_seq; lia]. }
        intros q _. unfold upd. destruct (q =? i)%nat; reflexivity.
      + intros q Hq R. updh R; try congruence. rewrite !upd_other by auto. auto.
      + intros q Hq R. updg; auto. rewrite upd_other in R by auto. auto.
    - intros q Hq. updg; [|lia]. rewrite Si. unfold Z_len. lia. }
  assert (R1 : forall q, t_inact (rt s1 q) = if Nat.eqb q i then true else t_inact (rt s q)).
  { intros q. unfold s1, kill_row2. sr. unfold upd. destruct (q =? i)%nat; reflexivity. }
  assert (NO1 : ndok s1 nd) by (eapply ndok_fr; eauto).
  assert (JS : In j (w_ston_cols s) -> mAT s k = [(i, aik)] /\ csz s1 j = 0%Z).
  { intros E. destruct (l_ston_cols s (inv_L s H) j E) as [_ C].
    assert (C1 : csz s j = 1%Z) by (unfold Z_len in *; lia). pose proof (CS C1) as C2. split.
    - rewrite C2 in Sk. unfold Z_len in Sk. destruct (mAT s k) as [|e [|e2 l]]; simpl in Sk; try lia.
      destruct TK as [TK|[]]. congruence.
    - unfold s1. sr. rewrite upd_same. lia. }
  assert (KN : NoDup (map fst (mAT s k))) by (apply srt_NoDup, (w_csrt s W); auto).
  pose proof (subst_fold i j k aij aik NJ (mAT s k) (del_entry i (mAT s k)) s1 nd X1) as P.
  pose proof (subst_fold_inact i j k aij aik s1 nd (mAT s k)) as PI.
  destruct (fold_left (subst_row i j k aij aik) (mAT s k) (s1, nd)) as [s2 nd'] eqn:EF.
  intros HT.
  assert (T2 : tiny s2 = false).
  { destruct (tiny s2) eqn:E; auto. exfalso. revert HT.
    match goal with |- tiny (record _ (record _ ?x)) = false -> _ =>
      assert (C : T x) by (apply tn_l3; destruct (csz s2 j =? 0)%Z; [exact E|destruct (csz s2 j =? 1)%Z; exact E]);
      change (tiny x = false -> False); unfold T in C; rewrite C; discriminate end. }
  destruct P as (rest'&X2&F2&N2&W2&RT2&FX2&SB2&A2&LA); auto.
  { intros e He. rewrite R1. destruct (Nat.eqb_spec (fst e) i); auto. right. apply del_entry_In. auto. }
  { intros e He. apply del_entry_In in He. tauto. }
  { intros e He. rewrite R1. destruct (Nat.eqb_spec (fst e) i); [discriminate|]. intros _ C.
    destruct (JS C) as [E _]. rewrite E in He. destruct He as [<-|[]]. auto. }
  assert (AK : mAT s2 k = []). { apply A2. unfold s1. sr. apply upd_same. }
  assert (NR2 : nr s2 = nr s) by (rewrite (mo_nr _ _ (fr_mono _ _ F2)); reflexivity).
  assert (NC2 : nc s2 = nc s) by (rewrite (mo_nc _ _ (fr_mono _ _ F2)); reflexivity).
  assert (CI2 : t_cinact (ct s2 j) = false).
  { unfold t_cinact. rewrite FX2, SB2. exact Tj. }
  set (s3 := if (csz s2 j =? 0)%Z then push_empty_cols j s2 else _) in *.
  set (s4 := set_csz1 k (-1)%Z (set_ct1 k (CT false false true true) s3)) in *.
  assert (F3 : nr s3 = nr s2 /\ nc s3 = nc s2 /\ mA s3 = mA s2 /\ mAT s3 = mAT s2 /\ rsz s3 = rsz s2 /\ csz s3 = csz s2 /\
     rt s3 = rt s2 /\ ct s3 = ct s2 /\ nnz s3 = nnz s2 /\ bad s3 = bad s2 /\ tiny s3 = tiny s2 /\ stale s3 = stale s2 /\
     w_rows s3 = w_rows s2 /\ w_fixed s3 = w_fixed s2 /\ w_sub s3 = w_sub s2 /\ w_ston_rows s3 = w_ston_rows s2 /\
     w_empty_rows s3 = w_empty_rows s2 /\ w_dton s3 = w_dton s2 /\ w_acts s3 = w_acts s2 /\
     w_empty_cols s3 = (if Z.eqb (csz s2 j) 0 then w_empty_cols s2 ++ [j] else w_empty_cols s2) /\
     w_ston_cols s3 = (if Z.eqb (csz s2 j) 1 then w_ston_cols s2 ++ [j] else w_ston_cols s2)).
  { unfold s3. destruct (Z.eqb_spec (csz s2 j) 0) as [E|E].
    - rewrite E. sr. auto 30.
    - destruct (Z.eqb_spec (csz s2 j) 1); sr; auto 30. }
  destruct F3 as (G1&G2&G3&G4&G5&G6&G7&G8&G9&G10&G11&G12&G13&G14&G15&G16&G17&G18&G19&G20&G21).
  assert (FD : finished j k (virt k rest' s2) s4).
  { constructor; unfold virt, s4; sr; rewrite ?G1, ?G2, ?G3, ?G4, ?G5, ?G6, ?G7, ?G8, ?G12, ?G13, ?G14, ?G15,
      ?G16, ?G17, ?G18, ?G19, ?G20, ?G21; auto.
    - intros c. unfold upd. destruct (_ =? _)%nat; reflexivity.
    - intros c. unfold upd. destruct (_ =? _)%nat; reflexivity.
    - intros c. unfold upd. destruct (Nat.eqb_spec c k); congruence.
    - intros c. unfold upd. destruct (Nat.eqb_spec c k); congruence.
    - rewrite upd_other by auto. reflexivity.
    - rewrite upd_other by auto. reflexivity. }
  assert (I4 : Inv s4).
  { apply (finished_Inv j k _ _ X2 FD); unfold virt; sr; auto; try congruence.
    - intros p a Hp Hin.
      destruct (t_inact (rt s2 p)) eqn:TP; auto. exfalso.
      assert (RP : rsz s2 p <> (-1)%Z).
      { apply (act_alive _ p (xv_0 _ _ _ X2)); unfold virt; sr; auto. }
      assert (In (p, a) rest').
      { pose proof (w_agree _ (xv_0 _ _ _ X2) p k a) as AG. unfold virt in AG. sr in AG. rewrite !upd_same in AG.
        apply AG; auto; [congruence|]. unfold Z_len. lia. }
      apply LA in H0. simpl in H0. congruence.
    - rewrite W2. unfold s1, kill_row2. sr. intros C. rewrite upd_other by auto.
      destruct (JS C) as [E1 E2].
      assert (E : (s2, nd') = (s1, nd)).
      { apply PI. intros e He. rewrite E1 in He. destruct He as [<-|[]]. rewrite R1. simpl. rewrite Nat.eqb_refl. auto. }
      injection E; intros _ ->. rewrite E2. discriminate. }
  set (s5 := count_locks_one_column (mAT s4 j) j s4) in *.
  pose proof (same_locks _ _ (locks_only_count (mAT s4 j) j s4)) as S5. fold s5 in S5.
  assert (S6 : forall r1 r2, same_struct s4 (record r2 (record r1 s5))).
  { intros. eapply same_trans; [exact S5|]. eapply same_trans; apply same_record. }
  assert (F4 : fr s2 s4).
  { constructor; unfold s4; sr.
    - constructor; sr; rewrite ?G1, ?G2, ?G3, ?G5, ?G6, ?G7, ?G8, ?G9, ?G10, ?G11; auto; try lia.
      + intros c. updg; auto.
      + intros c. updg; auto.
      + intros c Hc. updg; auto.
    - intros [N1' N2' N3']. constructor; sr; rewrite ?G1, ?G3, ?G5, ?G9; auto.
    - intros q Hq. rewrite G5. lia.
    - auto.
    - auto.
    - auto.
    - auto. }
  assert (F : fr s s4) by (eapply fr_trans; [exact F1|]; eapply fr_trans; eauto).
  split; [eapply same_Inv; [apply S6|exact I4]|].
  split; [eapply fr_trans; [exact F|apply fr_same, S6]|].
  split.
  - eapply ndok_fr; [apply fr_same, S6|]. eapply ndok_fr; [exact F4|]. exact N2.
  - rewrite (ss_rsz _ _ (S6 _ _)). unfold s4. sr. rewrite G5.
    apply (mo_rd _ _ (fr_mono _ _ F2)); unfold s1, kill_row2; sr; auto. apply upd_same.
Qed.

(** ** One listed row *)
Definition pend1 (s : state) : Prop := forall i, In i (w_rows s) -> (rsz s i <= 1)%Z.
Lemma pend1_fr : forall s s', Inv s -> fr s s' -> pend1 s -> pend1 s'.
Proof.
  intros s s' I F H i Hi. rewrite (fr_w1 _ _ F) in Hi. pose proof (H i Hi).
  assert (i < nr s)%nat by (apply (l_rows s (inv_L s I)); auto).
  pose proof (fr_rsz _ _ F i H1). lia.
Qed.
Lemma modify_bounds_same : forall i aij aik b l u j t s, col_in s j ->
  same_struct s (modify_bounds i aij aik b l u j t s).
Proof.
  intros i aij aik b l u j t s C. unfold modify_bounds. cbv zeta.
  assert (CS : forall s', same_struct s s' -> col_in s' j) by (intros; eapply col_in_same; eauto).
  destruct (Qgtb _ _).
  - set (s1 := if t_lb_inf t then s else _).
    assert (S1 : same_struct s s1).
    { unfold s1. destruct (t_lb_inf t); [apply same_refl|]. apply update_ub_same; auto. }
    destruct (_ && _); [exact S1|]. destruct (t_ub_inf t); [exact S1|].
    eapply same_trans; [exact S1|]. apply update_lb_same; auto.
  - set (s1 := if t_lb_inf t then s else _).
    assert (S1 : same_struct s s1).
    { unfold s1. destruct (t_lb_inf t); [apply same_refl|]. apply update_lb_same; auto. }
    destruct (_ && _); [exact S1|]. destruct (t_ub_inf t); [exact S1|].
    eapply same_trans; [exact S1|]. apply update_ub_same; auto.
Qed.

Lemma dton_row_spec : forall fits s nd st i, Inv s -> pend1 s -> (i < nr s)%nat -> (rsz s i <= 2)%Z ->
  ndok s nd ->
  let '(s', nd', st') := dton_row fits (s, nd, st) i in
  tiny s' = false ->
  Inv s' /\ fr s s' /\ ndok s' nd' /\ (st' = st \/ st' = REDUCED /\ rsz s i <> (-1)%Z /\ rsz s' i = (-1)%Z).
Proof.
  intros fits s nd st i H PN Hi R2 NO. unfold dton_row.
  destruct (Z.ltb_spec (rsz s i) 2) as [L|L]; [intros _; auto using fr_refl|].
  assert (Ti : t_inact (rt s i) = false).
  { destruct (t_inact (rt s i)) eqn:E; auto.
    assert (C : In i (w_rows s)) by (apply (l_rows s (inv_L s H)); split; [auto|split; [auto|lia]]).
    apply PN in C. lia. }
  rewrite (view_full s i H Hi Ti).
  pose proof (tight_rsz s i (inv_0 s H) (inv_R s H) Hi Ti) as SZ.
  assert (L2 : length (mA s i) = 2%nat) by (unfold Z_len in SZ; lia).
  destruct (mA s i) as [|[c0 v0] [|[c1 v1] [|e l]]] eqn:EM; simpl in L2; try lia.
  destruct (t_cinact (ct s c0)) eqn:T0; simpl; [intros _; auto using fr_refl|].
  destruct (t_cinact (ct s c1)) eqn:T1; simpl; [intros _; auto using fr_refl|].
  assert (NE : c0 <> c1).
  { pose proof (w_rsrt s (inv_0 s H) i Hi) as S. rewrite EM in S. apply srt_inv in S.
    destruct S as [_ S]. specialize (S (c1, v1) (or_introl eq_refl)). simpl in S. lia. }
  destruct (can_dton_be_eliminated _ _ _ _ _ _ _ _) as [[[[[j k] aij] aik]|] tk] eqn:EC.
  2:{ intros _. assert (S : same_struct s (set_tick tk s)) by same_ref.
      split; [eapply same_Inv; eauto|]. split; [apply fr_same; auto|]. split; [|auto].
      apply ndok_one; [eapply ndok_fr; [apply fr_same; exact S|exact NO]| |]; sr; auto. }
  cbv zeta. set (s0 := set_tick tk s). set (b := fin (rhs s0 i)).
  assert (S0 : same_struct s s0) by same_ref.
  apply can_dton_sizes in EC.
  assert (JK : j <> k /\ In (j, aij) (mA s i) /\ In (k, aik) (mA s i) /\ t_cinact (ct s j) = false /\
               t_cinact (ct s k) = false /\ (csz s j = 1%Z -> csz s k = 1%Z)).
  { rewrite EM. simpl. destruct EC as [(->&->&->&->&C)|(->&->&->&->&C)]; repeat (split; [auto; fail|]); auto. }
  destruct JK as (NJ&IJ&IK&Tj&Tk&CS).
  assert (Hj : (j < nc s)%nat) by (eapply (w_rin s (inv_0 s H)); eauto).
  assert (C0 : col_in s0 j) by (eapply col_in_same; [exact S0|apply Inv_col_in; auto]).
  pose proof (modify_bounds_same i aij aik b (lb s0 k) (ub s0 k) j (ct s0 k) s0 C0) as S1.
  set (s1 := modify_bounds _ _ _ _ _ _ _ _ _) in *. clearbody s1.
  assert (S01 : same_struct s s1) by (eapply same_trans; eauto).
  rewrite (ss_ct _ _ j S01), Tj.
  set (s2 := set_off _ _).
  assert (S2 : same_struct s s2). { eapply same_trans; [exact S01|]. unfold s2. same_ref. }
  match goal with |- context [execute_substitution i j k aij aik _ _ ?x nd] => change x with (kill_row2 i s2) end.
  assert (I2 : Inv s2) by (eapply same_Inv; eauto).
  pose proof (exec_spec i j k aij aik (cst s1 k) (row_view s1 i) s2 nd I2) as P.
  rewrite (ss_nr _ _ S2), (ss_rt _ _ S2), (ss_A _ _ S2), (ss_csz _ _ S2), !(ss_ct _ _ _ S2) in P.
  assert (NO2 : ndok s2 nd) by (eapply ndok_fr; [apply fr_same; exact S2|exact NO]).
  clearbody s2.
  destruct (execute_substitution i j k aij aik (cst s1 k) (row_view s1 i) (kill_row2 i s2) nd) as [s4 nd'].
  intros HT. destruct P as (I4&F4&N4&R4); auto; try (rewrite EM; reflexivity).
  split; [auto|]. split; [eapply fr_trans; [apply fr_same; exact S2|exact F4]|]. split; [auto|].
  right. split; [auto|]. split; [lia|auto].
Qed.

Definition alive (s : state) : nat := length (filter (fun i => negb (Z.eqb (rsz s i) (-1))) (seq 0 (nr s))).
Lemma alive_le : forall s s', mono s s' -> (alive s' <= alive s)%nat.
Proof.
  intros s s' M. unfold alive. rewrite (mo_nr _ _ M). apply filter_le. intros i Hi. apply in_seq in Hi.
  rewrite !negb_true_iff, !Z.eqb_neq. intros C E. apply C. apply (mo_rd _ _ M); auto. lia.
Qed.
Lemma alive_lt : forall s s' i, mono s s' -> (i < nr s)%nat -> rsz s i <> (-1)%Z -> rsz s' i = (-1)%Z ->
  (alive s' < alive s)%nat.
Proof.
  intros s s' i M Hi A B. unfold alive. rewrite (mo_nr _ _ M). apply filter_lt with (y := i).
  - intros q Hq. apply in_seq in Hq.
    rewrite !negb_true_iff, !Z.eqb_neq. intros C E. apply C. apply (mo_rd _ _ M); auto. lia.
  - apply in_seq. lia.
  - rewrite B. reflexivity.
  - apply negb_true_iff, Z.eqb_neq. auto.
Qed.

Lemma dton_fold_spec : forall fits l s nd st, Inv s -> pend1 s -> ndok s l -> ndok s nd ->
  let '(s', nd', st') := fold_left (dton_row fits) l (s, nd, st) in
  tiny s' = false ->
  Inv s' /\ fr s s' /\ ndok s' nd' /\ pend1 s' /\ (st' = st \/ st' = REDUCED /\ (alive s' < alive s)%nat).
Proof.
  induction l as [|i l IH]; intros s nd st H PN NL NO.
  - cbn [fold_left]. intros _. auto 10 using fr_refl.
  - cbn [fold_left]. destruct (NL i (or_introl eq_refl)) as [Hi Ri].
    pose proof (dton_row_spec fits s nd st i H PN Hi Ri NO) as P.
    destruct (dton_row fits (s, nd, st) i) as [[s1 nd1] st1].
    destruct (fold_left (dton_row fits) l (s1, nd1, st1)) as [[s' nd'] st'] eqn:EF.
    intros HT.
    assert (T1 : tiny s1 = false).
    { destruct (tiny s1) eqn:E; auto.
      pose proof (tn_dton_fold fits l (s1, nd1, st1) E) as C. rewrite EF in C. unfold T2, T in C. simpl in C. congruence. }
    destruct (P T1) as (I1&F1&N1&D1).
    assert (NL1 : ndok s1 l). { eapply ndok_fr; [exact F1|]. intros p Hp. apply NL. right; auto. }
    assert (PN1 : pend1 s1) by (apply (pend1_fr s s1 H F1 PN)).
    specialize (IH s1 nd1 st1 I1 PN1 NL1 N1). rewrite EF in IH.
    destruct (IH HT) as (I2&F2&N2&PN2&D2).
    split; [auto|]. split; [eapply fr_trans; eauto|]. split; [auto|]. split; [auto|].
    assert (A2 := alive_le _ _ (fr_mono _ _ F2)). assert (A1 := alive_le _ _ (fr_mono _ _ F1)).
    destruct D1 as [->|[-> [C1 C2]]].
    + destruct D2 as [->|[-> D2]]; auto. right. split; auto. lia.
    + right. pose proof (alive_lt _ _ i (fr_mono _ _ F1) Hi C1 C2).
      destruct D2 as [->|[-> D2]]; split; auto; lia.
Qed.

Definition dfr (s s' : state) : Prop :=
  mono s s' /\ (Nx s -> Nx s') /\ w_rows s' = w_rows s /\ w_fixed s' = w_fixed s /\ w_sub s' = w_sub s /\
  (forall i, (i < nr s)%nat -> (rsz s' i <= rsz s i)%Z).
Lemma dfr_trans : forall a b c, dfr a b -> dfr b c -> dfr a c.
Proof.
  intros a b c (M1&N1&R1&F1&S1&Z1) (M2&N2&R2&F2&S2&Z2). 
  split; [eapply mono_trans; eauto|]. do 4 (split; [congruence || auto; fail|]).
  intros i Hi. etransitivity; [apply Z2|apply Z1; auto]. rewrite (mo_nr _ _ M1). auto.
Qed.
Lemma dton_pass_spec : forall fits s, Inv s -> pend1 s ->
  let '(s', st') := remove_dton_eq_rows__ fits s in
  tiny s' = false ->
  Inv s' /\ dfr s s' /\ pend1 s' /\ (st' = UNCHANGED \/ st' = REDUCED /\ (alive s' < alive s)%nat).
Proof.
  intros fits s H PN. unfold remove_dton_eq_rows__.
  pose proof (dton_fold_spec fits (w_dton s) s [] UNCHANGED H PN (l_dton s (inv_L s H))) as P.
  destruct (fold_left (dton_row fits) (w_dton s) (s, [], UNCHANGED)) as [[s1 nd] st].
  sr. intros HT. destruct P as (I1&F1&N1&PN1&D1); auto.
  { intros p []. }
  split; [|split; [|split; [exact PN1|exact D1]]].
  - destruct I1 as [W R C L]. constructor; auto.
    + destruct W; constructor; sr; auto.
    + destruct L; constructor; sr; auto.
  - assert (M : mono s1 (set_w_dton nd s1)).
    { constructor; sr; auto. lia. }
    split; [eapply mono_trans; [apply F1|exact M]|]. sr.
    split; [|split; [apply F1|split; [apply F1|split; [apply F1|apply F1]]]].
    intros X. apply (fr_nx _ _ F1) in X. destruct X; constructor; auto.
Qed.
Lemma dton_loop_spec : forall fits f s, Inv s -> pend1 s -> (alive s < f)%nat ->
  tiny (dton_loop fits f s) = false ->
  Inv (dton_loop fits f s) /\ dfr s (dton_loop fits f s) /\ pend1 (dton_loop fits f s).
Proof.
  assert (R : forall s, dfr s s).
  { intros s. split; [apply mono_refl|]. do 4 (split; [auto; fail|]). intros; lia. }
  induction f as [|f IH]; intros s H PN AL; [lia|]. cbn [dton_loop].
  destruct (w_dton s); [auto|].
  pose proof (dton_pass_spec fits s H PN) as P.
  pose proof (tn_dton_pass fits s) as TP.
  destruct (remove_dton_eq_rows__ fits s) as [s1 st].
  intros HT.
  assert (T1 : tiny s1 = false).
  { destruct (tiny s1) eqn:E; auto. destruct (N.eqb _ _); [|congruence].
    pose proof (tn_dton_loop fits f s1 E) as C. unfold T in C. congruence. }
  destruct (P T1) as (I1&F1&PN1&D1).
  destruct (N.eqb_spec st REDUCED); [|auto].
  destruct D1 as [->|[_ D1]]; [discriminate|].
  destruct (IH s1 I1 PN1 ltac:(lia) HT) as (I2&F2&PN2).
  split; [auto|]. split; [|auto]. eapply dfr_trans; eauto.
Qed.

Lemma alive_bound : forall s, (alive s <= nr s)%nat.
Proof.
  intros s. unfold alive. pose proof (filter_len _ (fun i => negb (rsz s i =? -1)%Z) (seq 0 (nr s))).
  rewrite seq_length in H. exact H.
Qed.

Lemma dton_spec : forall fits s, Inv s -> w_sub s = [] -> pend1 s ->
  let '(s', st) := remove_dton_eq_rows fits s in
  st = UNCHANGED /\
  (tiny s' = false ->
   Inv s' /\ mono s s' /\ w_sub s' = [] /\ w_rows s' = w_rows s /\ w_fixed s' = [] /\
   (w_rows s = [] -> Nx s -> Nx s')).
Proof.
  intros fits s H WS PN. unfold remove_dton_eq_rows. cbv zeta. split; [reflexivity|].
  set (s1 := dton_loop fits (S (nr s)) s). intros HT.
  assert (T1 : tiny s1 = false).
  { destruct (tiny s1) eqn:E; auto. exfalso. destruct (w_fixed s1); [congruence|].
    pose proof (tn_dic _ (tn_dfc _ E)) as C. unfold T in C. congruence. }
  pose proof (alive_bound s) as AB.
  destruct (dton_loop_spec fits (S (nr s)) s H PN ltac:(lia) T1) as (I1&(M1&N1&R1&F1&U1&Z1)&PN1).
  fold s1 in I1, M1, N1, R1, F1, U1, Z1, PN1.
  destruct (w_fixed s1) as [|x l] eqn:EF.
  - split; [auto|]. split; [auto|]. split; [congruence|]. auto.
  - destruct (finish_cols s1 I1 ltac:(left; congruence)) as (I3&M3&N3&R3&F3&U3&_).
    split; [auto|]. split; [eapply mono_trans; eauto|]. split; [auto|]. split; [congruence|]. split; [auto|].
    intros E X. apply N3; [congruence|auto].
Qed.
