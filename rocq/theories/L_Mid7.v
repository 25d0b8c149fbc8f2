(** Doubleton equality rows keep the facts of L_Mid. *)
From Coq Require Import NArith Lqa.
From Verif Require Import M_Num S_LP M_Settings M_Driver S_Driver M_State M_Act M_Core M_Simple
  M_StonCols M_Dton M_Parallel M_Propagate M_Init M_Post M_Run S_Run S_Struct S_Sem
  L_State L_Struct L_Struct2 L_Struct3 L_Struct4 L_Struct5 L_Struct6 L_Struct7 L_Struct8 L_Tiny L_Struct9 L_Struct10 L_Struct11
  L_Sem L_Sem2 L_Sem3 L_Sem4 L_Mid L_Mid2 L_Mid3 L_Mid4.
Import M_Driver.
Notation bad := M_State.bad.
Open Scope Q_scope.

(** What a substitution into row after row leaves alone *)
Record sbx (j : nat) (s s' : state) : Prop := mkSB {
  sb_nr : nr s' = nr s;  sb_nc : nc s' = nc s;  sb_lb : lb s' = lb s;  sb_ub : ub s' = ub s;
  sb_ct : ct s' = ct s;  sb_rt : rt s' = rt s;  sb_ups : ups s' = ups s;  sb_dns : dns s' = dns s;
  sb_fx : w_fixed s' = w_fixed s;
  sb_AT : forall c, c <> j -> mAT s' c = mAT s c;
  sb_er : forall p, In p (w_empty_rows s') -> In p (w_empty_rows s) \/ t_inact (rt s p) = false;
  sb_sd : forall p, tags_lr s p -> exists d, moved (lhs s p) (lhs s' p) d /\ moved (rhs s p) (rhs s' p) d }.
Ltac sb_ref := constructor; sr; auto;
  try (intros ? ?; rewrite ?upd_other by auto; reflexivity);
  try (intros ? _; exists 0; split; apply moved_0; lra).
Lemma sbx_refl : forall j s, sbx j s s.
Proof. intros. constructor; auto. intros p _. exists 0. split; apply moved_0; lra. Qed.
Lemma moved_trans : forall a b c d e, moved a b d -> moved b c e -> moved a c (d + e).
Proof.
  intros [|p|] b c d e; simpl; try (intros -> ; simpl; auto). intros [q [-> E]]. simpl.
  intros [r [-> F]]. exists r. split; auto. lra.
Qed.
Lemma sbx_trans : forall j a b c, sbx j a b -> sbx j b c -> sbx j a c.
Proof.
  intros j a b c [A1 A2 A3 A4 A5 A6 A7 A8 A9 A10 A11 A12] [B1 B2 B3 B4 B5 B6 B7 B8 B9 B10 B11 B12].
  constructor; try congruence.
  - intros x D. rewrite B10, A10 by auto. reflexivity.
  - intros p Hp. apply B11 in Hp. rewrite A6 in Hp. destruct Hp as [Hp|Hp]; auto.
  - intros p TP. destruct (A12 p TP) as [d [M1 M2]].
    assert (TB : tags_lr b p). { eapply tags_lr_moved; eauto. }
    destruct (B12 p TB) as [e [N1 N2]]. exists (d + e). split; eapply moved_trans; eauto.
Qed.
Lemma sbx_acts : forall j s s', acts_only s s' -> sbx j s s'.
Proof. intros j s s' [a [w ->]]. sb_ref. Qed.

Lemma note_added_acts : forall q s, acts_only s (note_added q s).
Proof.
  intros q s. unfold note_added. destruct (a_st (acts s q)); try apply acts_only_refl.
  cbv zeta. exists (upd (acts s) q (Act (a_min (acts s q)) (a_max (acts s q)) (n_inf_min (acts s q)) (n_inf_max (acts s q)) ADDED)), (w_acts s ++ [q]).
  reflexivity.
Qed.
Lemma set_act1_acts : forall q a s, acts_only s (set_act1 q a s).
Proof. intros. exists (upd (acts s) q a), (w_acts s). destruct s; reflexivity. Qed.

Lemma subst_tail_sbx : forall i q j k aik old new aqk s, sbx j s (subst_tail i q j k aik old new aqk s).
Proof.
  intros. unfold subst_tail. cbv zeta.
  set (s4 := if Qeqb _ _ then _ else _).
  assert (S4 : sbx j s s4).
  { unfold s4. destruct (Qeqb _ _); [apply sbx_refl|].
    destruct (t_lhs_inf (rt s q)) eqn:TL; sr; destruct (t_rhs_inf (rt s q)) eqn:TR;
      constructor; sr; auto; intros p [P1 P2].
    - exists 0; split; apply moved_0; lra.
    - destruct (Nat.eq_dec p q) as [->|D]; [|rewrite !upd_other by auto; exists 0; split; apply moved_0; lra].
      rewrite upd_same. exists (aqk / aik * fin (rhs s i)). rewrite TL in P1. rewrite P1. split; [reflexivity|].
      destruct (rhs s q); simpl; auto. eexists; split; [reflexivity|lra].
    - destruct (Nat.eq_dec p q) as [->|D]; [|rewrite !upd_other by auto; exists 0; split; apply moved_0; lra].
      rewrite upd_same. exists (aqk / aik * fin (rhs s i)). rewrite TR in P2. rewrite P2. split; [|reflexivity].
      destruct (lhs s q); simpl; auto. eexists; split; [reflexivity|lra].
    - destruct (Nat.eq_dec p q) as [->|D]; [|rewrite !upd_other by auto; exists 0; split; apply moved_0; lra].
      rewrite !upd_same. exists (aqk / aik * fin (rhs s i)). split.
      + destruct (lhs s q); simpl; auto. eexists; split; [reflexivity|lra].
      + destruct (rhs s q); simpl; auto. eexists; split; [reflexivity|lra]. }
  clearbody s4.
  match goal with |- context [update_activity_coeff_change ?a ?b ?c ?d ?f ?g] =>
    destruct (update_activity_coeff_change a b c d f g) as [a1 alt1] end.
  match goal with |- context [update_activity_coeff_change ?a ?b ?c ?d ?f ?g] =>
    destruct (update_activity_coeff_change a b c d f g) as [a2 alt2] end.
  set (s5 := set_act1 q a2 s4).
  assert (S5 : sbx j s s5) by (eapply sbx_trans; [exact S4|apply sbx_acts, set_act1_acts]).
  clearbody s5.
  match goal with |- context [if ?b then note_added q (set_act1 q (Act ?x (a_max ?y) ?z ?t ?u) s5) else s5] =>
    set (s6 := if b then note_added q (set_act1 q (Act x (a_max y) z t u) s5) else s5);
    assert (S6 : sbx j s s6) by (unfold s6; destruct b; [|exact S5];
      eapply sbx_trans; [exact S5|]; apply sbx_acts; eapply acts_only_trans; [apply set_act1_acts|apply note_added_acts])
  end.
  clearbody s6.
  match goal with |- context [if ?b then _ else _] => destruct b end; [|exact S6].
  eapply sbx_trans; [exact S6|]. apply sbx_acts. eapply acts_only_trans; [apply set_act1_acts|apply note_added_acts].
Qed.
Lemma subst_row_sbx : forall i j k aij aik sn e, sbx j (fst sn) (fst (subst_row i j k aij aik sn e)).
Proof.
  intros i j k aij aik [s nd] e. cbn [fst]. destruct (t_inact (rt s (fst e))) eqn:T.
  - unfold subst_row. rewrite T. apply sbx_refl.
  - rewrite subst_row_eq by auto.
    assert (X : sbx j s (fst (fst (fst (update_row_A_dton i (fst e) j k aij aik s))))).
    { unfold update_row_A_dton. cbv zeta.
      destruct (set_coeff _ _ _); destruct (_ && _); cbn [fst]; sb_ref. }
    destruct (update_row_A_dton _ _ _ _ _ _ _) as [[[s1 old] new] aqk]. cbn [fst] in X.
    assert (Y : sbx j s1 (fst (subst_push (fst e) (rsz s (fst e)) s1 nd))).
    { unfold subst_push. cbv zeta. destruct (Z.eqb _ 0).
      - cbn [fst]. constructor; sr; auto.
        + intros p Hp. apply In_app_one in Hp. destruct Hp as [Hp|Hp]; auto. subst p. right.
          rewrite (sb_rt _ _ _ X). exact T.
        + intros p _; exists 0; split; apply moved_0; lra.
      - destruct (Z.eqb _ 1); [destruct (Z.eqb _ 1); cbn [fst]; [apply sbx_refl|sb_ref]|].
        destruct (Z.eqb _ 2); cbn [fst]; apply sbx_refl. }
    destruct (subst_push _ _ _ _) as [s2 nd']. cbn [fst] in *.
    eapply sbx_trans; [exact X|]. eapply sbx_trans; [exact Y|].
    eapply sbx_trans with (b := update_col_AT j (fst e) new s2); [|apply subst_tail_sbx].
    unfold update_col_AT. destruct (set_coeff _ _ _); sb_ref.
Qed.
Lemma subst_fold_sbx : forall i j k aij aik l sn, sbx j (fst sn) (fst (fold_left (subst_row i j k aij aik) l sn)).
Proof.
  induction l as [|e l IH]; intros sn; cbn [fold_left]; [apply sbx_refl|].
  eapply sbx_trans; [apply subst_row_sbx|apply IH].
Qed.

Lemma count_locks_eff : forall col k s,
  let s' := count_locks_one_column col k s in
  ups s' k = wsum (fun i => upt (rt s i)) col /\ dns s' k = wsum (fun i => dnt (rt s i)) col /\
  (forall c, c <> k -> ups s' c = ups s c /\ dns s' c = dns s c).
Proof.
  intros col k s. cbv zeta. unfold count_locks_one_column.
  set (s0 := set_dns _ _).
  assert (G : forall col t, rt t = rt s ->
    let t' := foldS (fun t e => lock_coeff 1 (t_rhs_inf (rt t (fst e))) (t_lhs_inf (rt t (fst e))) k (snd e) t) col t in
    ups t' k = (ups t k + wsum (fun i => upt (rt s i)) col)%Z /\
    dns t' k = (dns t k + wsum (fun i => dnt (rt s i)) col)%Z /\
    (forall c, c <> k -> ups t' c = ups t c /\ dns t' c = dns t c)).
  { clear. induction col as [|[i a] col IH]; intros t E; cbv zeta; cbn [foldS wsum fst snd].
    - split; [lia|]. split; [lia|auto].
    - set (t1 := lock_coeff _ _ _ _ _ _).
      assert (E1 : rt t1 = rt s).
      { unfold t1. destruct (locks_only_coeff 1 (t_rhs_inf (rt t i)) (t_lhs_inf (rt t i)) k a t) as [u [d ->]]. sr. exact E. }
      destruct (IH t1 E1) as (A&B&C). cbv zeta in *. rewrite A, B.
      assert (EU : forall c, ups t1 c = (ups t c + if Nat.eqb k c then 1 * upw (t_rhs_inf (rt t i)) (t_lhs_inf (rt t i)) a else 0)%Z /\
                             dns t1 c = (dns t c + if Nat.eqb k c then 1 * dnw (t_rhs_inf (rt t i)) (t_lhs_inf (rt t i)) a else 0)%Z).
      { intros c. apply lock_coeff_eff. }
      split; [|split].
      + destruct (EU k) as [-> _]. rewrite Nat.eqb_refl, E. unfold upt. lia.
      + destruct (EU k) as [_ ->]. rewrite Nat.eqb_refl, E. unfold dnt. lia.
      + intros c D. destruct (C c D) as [-> ->]. destruct (EU c) as [-> ->].
        destruct (Nat.eqb_spec k c); [congruence|]. split; lia. }
  destruct (G col s0 eq_refl) as (A&B&C). rewrite A, B. unfold s0 at 1 2. sr. rewrite !upd_same.
  split; [lia|]. split; [lia|]. intros c D. destruct (C c D) as [-> ->]. unfold s0. sr.
  rewrite !upd_other by auto. auto.
Qed.

Lemma exec_Mid : forall i j k aij aik ck ents s nd, Inv s -> Mid s -> w_fixed s = [] ->
  (i < nr s)%nat -> t_inact (rt s i) = false -> j <> k ->
  length (mA s i) = 2%nat -> In (j, aij) (mA s i) -> In (k, aik) (mA s i) ->
  t_cinact (ct s j) = false -> t_cinact (ct s k) = false ->
  Mid (fst (execute_substitution i j k aij aik ck ents (kill_row2 i s) nd)).
Proof.
  intros i j k aij aik ck ents s nd H [[G1 G2 G3 G4 G5] GP GE GL] WF Hi Ti NJ L2 IJ IK Tj Tk.
  assert (W := inv_0 s H).
  pose proof (act_alive s i W Hi Ti) as RA.
  assert (EN : forall e, In e (mA s i) -> e = (j, aij) \/ e = (k, aik)).
  { intros e. destruct (mA s i) as [|e1 [|e2 [|e3 l]]]; simpl in L2; try lia. simpl in *.
    destruct IJ as [IJ|[IJ|[]]]; destruct IK as [IK|[IK|[]]]; subst; try congruence; intuition congruence. }
  assert (NR : forall c a, (c < nc s)%nat -> t_cinact (ct s c) = false -> c <> j -> c <> k -> ~ In (i, a) (mAT s c)).
  { intros c a Hc Tc D1 D2 C.
    apply (w_agree s W) in C; auto using cact_alive.
    apply EN in C. destruct C; congruence. }
  assert (NE : ~ In i (w_empty_rows s)).
  { intros C. destruct (l_empty_rows s (inv_L s H) i C) as [_ [A _]]. rewrite A in L2. discriminate. }
  unfold execute_substitution. cbv zeta.
  change (mAT (kill_row2 i s) k) with (mAT s k). change (mAT (kill_row2 i s) j) with (mAT s j).
  change (csz (kill_row2 i s) j) with (csz s j).
  set (s1 := setAT k [] (set_csz1 j (csz s j - 1)%Z (setAT j (del_entry i (mAT s j)) (kill_row2 i s)))).
  pose proof (subst_fold_sbx i j k aij aik (mAT s k) (s1, nd)) as X. cbn [fst] in X.
  destruct (fold_left _ _ _) as [s2 nd']. cbn [fst] in X.
  set (s3 := if Z.eqb (csz s2 j) 0 then _ else _).
  assert (X3 : sbx j s1 s3).
  { eapply sbx_trans; [exact X|]. unfold s3. destruct (Z.eqb _ 0); [sb_ref|]. destruct (Z.eqb _ 1); [sb_ref|apply sbx_refl]. }
  clearbody s3. clear X s2.
  set (s4 := set_csz1 _ _ _).
  pose proof (count_locks_eff (mAT s4 j) j s4) as (CU&CD&CO). cbv zeta in *.
  destruct (locks_only_count (mAT s4 j) j s4) as [U [D E5]].
  set (s5 := count_locks_one_column (mAT s4 j) j s4) in *. clearbody s5.
  cbn [fst].
  apply (mid_same_Mid s5); [mid_ref|].
  assert (R1 : rt s1 = upd (rt s) i R_INACTIVE) by reflexivity.
  destruct X3 as [B1 B2 B3 B4 B5 B6 B7 B8 B9 B10 B11 B12].
  assert (L5 : lhs s5 = lhs s3 /\ rhs s5 = rhs s3 /\ lb s5 = lb s3 /\ ub s5 = ub s3 /\ nr s5 = nr s3 /\ nc s5 = nc s3 /\
               rt s5 = rt s3 /\ ct s5 = upd (ct s3) k (CT false false true true) /\ w_fixed s5 = w_fixed s3 /\
               w_empty_rows s5 = w_empty_rows s3 /\ mAT s5 = mAT s3).
  { rewrite E5. unfold s4. sr. repeat split; reflexivity. }
  clear E5. destruct L5 as (Q1&Q2&Q3&Q4&Q5&Q6&Q7&Q8&Q9&Q10&Q11).
  assert (SD : forall p, (p < nr s)%nat -> t_inact (rt s5 p) = false ->
            p <> i /\ t_inact (rt s p) = false /\ rt s5 p = rt s p /\
            exists d, moved (lhs s p) (lhs s5 p) d /\ moved (rhs s p) (rhs s5 p) d).
  { intros p Hp Tp. rewrite Q7, B6, R1 in Tp. updh Tp; [discriminate|].
    split; [auto|]. split; [auto|]. split; [rewrite Q7, B6, R1, upd_other; auto|].
    rewrite Q1, Q2. apply (B12 p). unfold tags_lr. rewrite R1, !upd_other by auto.
    split; [apply (G1 p)|apply (G2 p)]; auto. }
  constructor.
  - constructor; rewrite ?Q3, ?Q4, ?Q5, ?Q6, ?Q8, ?B1, ?B2, ?B3, ?B4, ?B5.
    + intros p Hp Tp. destruct (SD p Hp Tp) as (D1&D2&D3&d&M1&M2). rewrite D3.
      specialize (G1 p Hp D2). destruct (t_lhs_inf (rt s p)); [rewrite G1 in M1; exact M1|].
      destruct (lhs s p); simpl in *; try discriminate. destruct M1 as [z [-> _]]. reflexivity.
    + intros p Hp Tp. destruct (SD p Hp Tp) as (D1&D2&D3&d&M1&M2). rewrite D3.
      specialize (G2 p Hp D2). destruct (t_rhs_inf (rt s p)); [rewrite G2 in M2; exact M2|].
      destruct (rhs s p); simpl in *; try discriminate. destruct M2 as [z [-> _]]. reflexivity.
    + intros p Hp Tp. destruct (SD p Hp Tp) as (D1&D2&D3&d&M1&M2). rewrite D3.
      intros TE. destruct (G3 p Hp D2 TE) as (a&b&E1&E2&E3). rewrite E1 in M1. rewrite E2 in M2.
      destruct M1 as [x [-> M1]]. destruct M2 as [y [-> M2]]. exists x, y. repeat split; auto. lra.
    + intros c Hc Tc. updg; [updh Tc; discriminate|]. apply G4; auto. rewrite upd_other in Tc by auto. auto.
    + intros c Hc Tc. updg; [updh Tc; discriminate|]. apply G5; auto. rewrite upd_other in Tc by auto. auto.
  - apply pend_nil. rewrite Q9, B9. exact WF.
  - intros p Hp. rewrite Q10 in Hp. apply B11 in Hp. rewrite Q7, B6. destruct Hp as [Hp|Hp]; auto.
    rewrite R1. change (In p (w_empty_rows s)) in Hp. rewrite upd_other by congruence. auto.
  - intros c Hc Tc. rewrite Q8, B5 in Tc. change (ct s1) with (ct s) in Tc.
    destruct (Nat.eq_dec c k) as [->|n]; [rewrite upd_same in Tc; discriminate|]. rewrite upd_other in Tc by auto.
    rewrite Q6, B2 in Hc. change (nc s1) with (nc s) in Hc.
    destruct (Nat.eq_dec c j) as [->|NC].
    + rewrite CU, CD. replace (rt s5) with (rt s4) by (rewrite Q7; reflexivity).
      replace (mAT s5) with (mAT s4) by (rewrite Q11; reflexivity). auto.
    + destruct (CO c NC) as [-> ->].
      change (ups s4) with (ups s3). change (dns s4) with (dns s3). rewrite B7, B8, Q11, B10 by auto.
      change (ups s1) with (ups s). change (dns s1) with (dns s).
      assert (EA : mAT s1 c = mAT s c). { unfold s1, kill_row2. sr. rewrite !upd_other by auto. reflexivity. }
      rewrite EA. destruct (GL c Hc Tc) as [-> ->].
      split; apply wsum_ext; intros p a Hp; rewrite Q7, B6, R1;
        (rewrite upd_other; [reflexivity|]; intros ->; exact (NR c a Hc Tc NC n Hp)).
Qed.

Lemma modify_bounds_Mid : forall i aij aik b lbk ubk j tk s, Inv s -> Mid s -> (j < nc s)%nat ->
  t_cinact (ct s j) = false ->
  Mid (modify_bounds i aij aik b lbk ubk j tk s).
Proof.
  intros i aij aik b lbk ubk j tk s H M Hj T.
  assert (CI : col_in s j) by (apply Inv_col_in; auto).
  unfold modify_bounds. destruct (Qgtb _ _); cbv zeta.
  - set (s1 := if t_lb_inf tk then s else _).
    assert (S1 : same_struct s s1) by (unfold s1; destruct (t_lb_inf tk); [apply same_refl|apply update_ub_same; auto]).
    assert (M1 : Mid s1) by (unfold s1; destruct (t_lb_inf tk); auto; apply update_ub_Mid; auto).
    clearbody s1. destruct (_ && _); auto. destruct (t_ub_inf tk); auto.
    apply update_lb_Mid; auto; [eapply same_Inv; eauto|rewrite (ss_nc _ _ S1); auto|rewrite (ss_ct _ _ j S1); auto].
  - set (s1 := if t_lb_inf tk then s else _).
    assert (S1 : same_struct s s1) by (unfold s1; destruct (t_lb_inf tk); [apply same_refl|apply update_lb_same; auto]).
    assert (M1 : Mid s1) by (unfold s1; destruct (t_lb_inf tk); auto; apply update_lb_Mid; auto).
    clearbody s1. destruct (_ && _); auto. destruct (t_ub_inf tk); auto.
    apply update_ub_Mid; auto; [eapply same_Inv; eauto|rewrite (ss_nc _ _ S1); auto|rewrite (ss_ct _ _ j S1); auto].
Qed.

Lemma dton_row_Mid : forall fits s nd st i, Inv s -> Mid s -> w_fixed s = [] -> pend1 s -> (i < nr s)%nat -> (rsz s i <= 2)%Z ->
  Mid (fst (fst (dton_row fits (s, nd, st) i))).
Proof.
  intros fits s nd st i H M WF PN Hi R2. unfold dton_row.
  destruct (Z.ltb_spec (rsz s i) 2) as [L|L]; [auto|].
  assert (Ti : t_inact (rt s i) = false).
  { destruct (t_inact (rt s i)) eqn:E; auto.
    assert (C : In i (w_rows s)) by (apply (l_rows s (inv_L s H)); split; [auto|split; [auto|lia]]).
    apply PN in C. lia. }
  rewrite (view_full s i H Hi Ti).
  pose proof (tight_rsz s i (inv_0 s H) (inv_R s H) Hi Ti) as SZ.
  assert (L2 : length (mA s i) = 2%nat) by (unfold Z_len in SZ; lia).
  destruct (mA s i) as [|[c0 v0] [|[c1 v1] [|e l]]] eqn:EM; simpl in L2; try lia.
  destruct (t_cinact (ct s c0)) eqn:T0; simpl; auto.
  destruct (t_cinact (ct s c1)) eqn:T1; simpl; auto.
  assert (NE : c0 <> c1).
  { pose proof (w_rsrt s (inv_0 s H) i Hi) as S. rewrite EM in S. apply srt_inv in S.
    destruct S as [_ S]. specialize (S (c1, v1) (or_introl eq_refl)). simpl in S. lia. }
  destruct (can_dton_be_eliminated _ _ _ _ _ _ _ _) as [[[[[j k] aij] aik]|] tk] eqn:EC.
  2:{ cbn [fst]. apply (mid_same_Mid s); [mid_ref|auto]. }
  cbv zeta. set (s0 := set_tick tk s). set (b := fin (rhs s0 i)).
  assert (S0 : same_struct s s0) by same_ref.
  assert (M0 : Mid s0) by (apply (mid_same_Mid s); [mid_ref|auto]).
  apply can_dton_sizes in EC.
  assert (JK : j <> k /\ In (j, aij) (mA s i) /\ In (k, aik) (mA s i) /\ t_cinact (ct s j) = false /\
               t_cinact (ct s k) = false).
  { rewrite EM. simpl. destruct EC as [(->&->&->&->&C)|(->&->&->&->&C)]; repeat (split; [auto; fail|]); auto. }
  destruct JK as (NJ&IJ&IK&Tj&Tk).
  assert (Hj : (j < nc s)%nat) by (eapply (w_rin s (inv_0 s H)); eauto).
  assert (C0 : col_in s0 j) by (eapply col_in_same; [exact S0|apply Inv_col_in; auto]).
  pose proof (modify_bounds_same i aij aik b (lb s0 k) (ub s0 k) j (ct s0 k) s0 C0) as S1.
  pose proof (modify_bounds_Mid i aij aik b (lb s0 k) (ub s0 k) j (ct s0 k) s0 (same_Inv _ _ S0 H) M0 Hj Tj) as M1.
  set (s1 := modify_bounds _ _ _ _ _ _ _ _ _) in *. clearbody s1.
  assert (S01 : same_struct s s1) by (eapply same_trans; eauto).
  rewrite (ss_ct _ _ j S01), Tj.
  set (s2 := set_off _ _).
  assert (S2 : same_struct s s2). { eapply same_trans; [exact S01|]. unfold s2. same_ref. }
  assert (M2 : Mid s2) by (apply (mid_same_Mid s1); [unfold s2; mid_ref|auto]).
  match goal with |- context [execute_substitution i j k aij aik _ _ ?x nd] => change x with (kill_row2 i s2) end.
  pose proof (exec_Mid i j k aij aik (cst s1 k) (row_view s1 i) s2 nd (same_Inv _ _ S2 H) M2) as P.
  rewrite (ss_nr _ _ S2), (ss_rt _ _ S2), (ss_A _ _ S2), !(ss_ct _ _ _ S2), (ss_w2 _ _ S2) in P.
  clearbody s2.
  destruct (execute_substitution i j k aij aik (cst s1 k) (row_view s1 i) (kill_row2 i s2) nd) as [s4 nd'].
  cbn [fst] in *. apply P; auto; try (rewrite EM; reflexivity).
Qed.

Lemma dton_row_fixed : forall fits s nd st i, Inv s -> pend1 s -> (i < nr s)%nat -> (rsz s i <= 2)%Z -> ndok s nd ->
  tiny (fst (fst (dton_row fits (s, nd, st) i))) = false ->
  w_fixed (fst (fst (dton_row fits (s, nd, st) i))) = w_fixed s.
Proof.
  intros fits s nd st i H PN Hi R2 NO HT. pose proof (dton_row_spec fits s nd st i H PN Hi R2 NO) as P.
  destruct (dton_row fits (s, nd, st) i) as [[s1 nd1] st1]. cbn [fst] in *.
  destruct (P HT) as (_&F&_). destruct F; auto.
Qed.
Lemma dton_fold_Mid : forall fits l s nd st, Inv s -> Mid s -> w_fixed s = [] -> pend1 s -> ndok s l -> ndok s nd ->
  let '(s', nd', st') := fold_left (dton_row fits) l (s, nd, st) in
  tiny s' = false -> Mid s'.
Proof.
  induction l as [|i l IH]; intros s nd st H M WF PN NL NO.
  - cbn [fold_left]. auto.
  - cbn [fold_left]. destruct (NL i (or_introl eq_refl)) as [Hi Ri].
    pose proof (dton_row_spec fits s nd st i H PN Hi Ri NO) as P.
    pose proof (dton_row_Mid fits s nd st i H M WF PN Hi Ri) as PM.
    pose proof (dton_row_fixed fits s nd st i H PN Hi Ri NO) as PF.
    destruct (dton_row fits (s, nd, st) i) as [[s1 nd1] st1]. cbn [fst] in *.
    destruct (fold_left (dton_row fits) l (s1, nd1, st1)) as [[s' nd'] st'] eqn:EF.
    intros HT.
    assert (T1 : tiny s1 = false).
    { destruct (tiny s1) eqn:E; auto.
      pose proof (tn_dton_fold fits l (s1, nd1, st1) E) as C. rewrite EF in C. unfold T2, T in C. simpl in C. congruence. }
    destruct (P T1) as (I1&F1&N1&D1).
    assert (NL1 : ndok s1 l). { eapply ndok_fr; [exact F1|]. intros p Hp. apply NL. right; auto. }
    assert (PN1 : pend1 s1) by (apply (pend1_fr s s1 H F1 PN)).
    specialize (IH s1 nd1 st1 I1 PM ltac:(rewrite PF; auto) PN1 NL1 N1). rewrite EF in IH. auto.
Qed.
Lemma dton_pass_Mid : forall fits s, Inv s -> Mid s -> w_fixed s = [] -> pend1 s ->
  let '(s', st') := remove_dton_eq_rows__ fits s in
  tiny s' = false -> Mid s'.
Proof.
  intros fits s H M WF PN. unfold remove_dton_eq_rows__.
  pose proof (dton_fold_Mid fits (w_dton s) s [] UNCHANGED H M WF PN (l_dton s (inv_L s H))) as P.
  destruct (fold_left (dton_row fits) (w_dton s) (s, [], UNCHANGED)) as [[s1 nd] st].
  sr. intros HT. apply (mid_same_Mid s1); [mid_ref|]. apply P; auto. intros p [].
Qed.
Lemma dton_loop_Mid : forall fits f s, Inv s -> Mid s -> w_fixed s = [] -> pend1 s -> (alive s < f)%nat ->
  tiny (dton_loop fits f s) = false -> Mid (dton_loop fits f s).
Proof.
  induction f as [|f IH]; intros s H M WF PN AL; [lia|]. cbn [dton_loop].
  destruct (w_dton s); [auto|].
  pose proof (dton_pass_spec fits s H PN) as P.
  pose proof (dton_pass_Mid fits s H M WF PN) as PM.
  pose proof (tn_dton_pass fits s) as TP.
  destruct (remove_dton_eq_rows__ fits s) as [s1 st].
  intros HT.
  assert (T1 : tiny s1 = false).
  { destruct (tiny s1) eqn:E; auto. destruct (N.eqb _ _); [|congruence].
    pose proof (tn_dton_loop fits f s1 E) as C. unfold T in C. congruence. }
  destruct (P T1) as (I1&F1&PN1&D1). specialize (PM T1).
  destruct (N.eqb_spec st REDUCED); [|auto].
  destruct D1 as [->|[_ D1]]; [discriminate|].
  apply IH; auto; [|lia]. destruct F1 as (_&_&_&E&_). congruence.
Qed.
Lemma dton_Mid : forall fits s, Inv s -> Mid s -> w_fixed s = [] -> pend1 s ->
  tiny (fst (remove_dton_eq_rows fits s)) = false -> Mid (fst (remove_dton_eq_rows fits s)).
Proof.
  intros fits s H M WF PN. unfold remove_dton_eq_rows. cbv zeta. cbn [fst].
  set (s1 := dton_loop fits (S (nr s)) s). intros HT.
  assert (T1 : tiny s1 = false).
  { destruct (tiny s1) eqn:E; auto. exfalso. destruct (w_fixed s1); [congruence|].
    pose proof (tn_dic _ (tn_dfc _ E)) as C. unfold T in C. congruence. }
  pose proof (alive_bound s) as AB.
  pose proof (dton_loop_Mid fits (S (nr s)) s H M WF PN ltac:(lia) T1) as M1. fold s1 in M1.
  destruct (dton_loop_spec fits (S (nr s)) s H PN ltac:(lia) T1) as (_&(_&_&_&F1&_)&_). fold s1 in F1.
  rewrite WF in F1. rewrite F1. exact M1.
Qed.
