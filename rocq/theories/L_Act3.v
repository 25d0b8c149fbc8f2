(** Activities through the simple explorers, continued. *)
From Coq Require Import NArith Lqa.
From Verif Require Import M_Num S_LP M_Settings M_Driver S_Driver M_State M_Act M_Core M_Simple
  M_StonCols M_Dton M_Parallel M_Propagate M_Init M_Post M_Run S_Run S_Struct S_Sem
  L_State L_Struct L_Struct2 L_Struct3 L_Struct4 L_Struct5 L_Struct6 L_Struct7 L_Struct8 L_Struct9 L_Struct10 L_Struct11
  L_Sem L_Sem2 L_Sem3 L_Sem4 L_Mid L_Mid2 L_Mid3 L_Mid4 L_Mid5 L_Act L_Act2.
Open Scope Q_scope.

(** ** Close bounds *)
Lemma close_bounds_AV : forall R s, good R -> Ok s -> Mid s -> AV R s ->
  let '(s', st) := remove_variables_with_close_bounds s in st <> INFEASIBLE -> AV R s'.
Proof.
  intros R s G OK M A. unfold remove_variables_with_close_bounds.
  assert (ND := seq_NoDup (nc s) 0).
  assert (L : forall l t, NoDup l -> (forall k, In k l -> (k < nc s)%nat /\ ct t k = ct s k) ->
    stp s t -> Mid t -> w_sub t = [] -> csz t = csz s -> AV R t ->
    let '(t', st) := for_until INFEASIBLE close_bounds_col l t in stp s t' /\ Mid t' /\ w_sub t' = [] /\ AV R t').
  { clear ND. induction l as [|k l IH]; intros t ND HL S1 M1 W1 C1 A1; cbn [for_until]; [auto|].
    inversion ND; subst. destruct (HL k (or_introl eq_refl)) as [Hk EC].
    assert (HL' : forall j, In j l -> (j < nc s)%nat /\ ct t j = ct s j) by (intros; apply HL; simpl; auto).
    unfold close_bounds_col at 1. destruct (Z.ltb_spec (csz t k) 0) as [NEG|POS]; cbn [orb].
    { cbn. apply IH; auto. }
    assert (TK : t_cinact (ct s k) = false).
    { apply quiet_col; auto; try apply OK. rewrite <- C1. lia. }
    destruct (t_lb_inf (ct t k) || t_ub_inf (ct t k)); [cbn; apply IH; auto|].
    destruct (IS_EQUAL_FEAS_TOL _ _).
    - cbn [N.eqb UNCHANGED INFEASIBLE].
      assert (Hk' : (k < nc t)%nat) by (rewrite (stp_nc _ _ S1); auto).
      assert (TK' : t_cinact (ct t k) = false) by (rewrite EC; auto).
      destruct (fix_col_frame t k (fin (lb t k)) (cst t k)) as [X [B _]].
      pose proof (stp_fix_col t k (fin (lb t k)) (cst t k) (st_inv _ _ S1) Hk') as S2.
      pose proof (fix_col_Mid t k (fin (lb t k)) (cst t k) (st_inv _ _ S1) M1 Hk') as M2.
      pose proof (fix_col_AV R t k (fin (lb t k)) (cst t k) G (st_inv _ _ S1) (md_tags t M1) A1 Hk' TK') as A2.
      pose proof (fix_col_cases t k (fin (lb t k)) (cst t k)) as FC.
      destruct (fix_col k (fin (lb t k)) (cst t k) t) as [t1 st1]. cbn [fst] in *.
      apply IH; auto.
      + intros j Hj. destruct (HL' j Hj) as [X1 X2]. split; auto.
        destruct FC as [[_ [-> _]]|[_ [_ [_ [A0 [W2 ->]]]]]]; auto. unfold set_col_to_fixed. sr.
        rewrite upd_other; auto. intros ->. contradiction.
      + eapply stp_trans; eauto.
      + congruence.
      + destruct FC as [[_ [-> _]]|[_ [_ [_ [A0 [W2 ->]]]]]]; auto.
    - destruct (Qgtb _ _); [rewrite N.eqb_refl; auto|]. cbn [N.eqb UNCHANGED INFEASIBLE]. apply IH; auto. }
  specialize (L (seq 0 (nc s)) s ND).
  destruct (for_until INFEASIBLE close_bounds_col (seq 0 (nc s)) s) as [s1 st].
  destruct L as [S1 [M1 [W1 A1]]]; auto.
  - intros k Hk. apply in_seq in Hk. split; auto; lia.
  - apply stp_refl. apply OK.
  - apply OK.
  - destruct (N.eqb_spec st INFEASIBLE); [congruence|]. intros _.
    apply (finish_AV R s1); auto; try apply S1; try apply M1.
Qed.

(** ** Empty columns *)
Lemma not_in_row : forall s i k, Inv s -> (k < nc s)%nat -> mAT s k = [] -> (i < nr s)%nat -> t_inact (rt s i) = false ->
  ~ has k (mA s i).
Proof.
  intros s i k H Hk E Hi T [a Ha].
  assert (X : In (i, a) (mAT s k)).
  { apply (w_agree s (inv_0 s H)); auto; [apply act_alive; auto; apply H|eapply (inv_R s H); eauto]. }
  rewrite E in X. contradiction.
Qed.
Lemma empty_cols_AV : forall R s, good R -> Inv s -> AV R s -> w_fixed s = [] ->
  AV R (fst (remove_empty_cols s)).
Proof.
  intros R s G H A WF. unfold remove_empty_cols.
  set (P := fun t => stp s t /\ AV R t /\ w_fixed t = [] /\ w_empty_cols t = w_empty_cols s).
  assert (HP : forall t k, In k (w_empty_cols s) -> P t -> P (fst (remove_empty_col k t))).
  { intros t k Hk [S1 [M1 [W1 E1]]].
    destruct (remove_empty_col_frame t k) as [X [B [C [D _]]]]. unfold P. rewrite B, D.
    assert (S2 : stp t (fst (remove_empty_col k t))) by (apply stp_empty_col; [apply S1|congruence]).
    split; [eapply stp_trans; eauto|]. split; [|auto].
    rewrite <- E1 in Hk. destruct (l_empty_cols t (inv_L t (st_inv _ _ S1)) k Hk) as [Hk' EK].
    assert (Y : forall v t0, (t0 = t \/ (exists l, t0 = set_lb1 k l t) \/ (exists u, t0 = set_ub1 k u t)) ->
              AV R (close_empty_col k v t0)).
    { intros v t0 E0.
      assert (F1 : forall j, j <> k -> lb t0 j = lb t j /\ ub t0 j = ub t j).
      { intros j Hj. destruct E0 as [->|[[l ->]|[u ->]]]; sr; rewrite ?upd_other by auto; auto. }
      assert (F2 : nr t0 = nr t /\ mA t0 = mA t /\ rt t0 = rt t /\ acts t0 = acts t /\ w_fixed t0 = w_fixed t).
      { destruct E0 as [->|[[l ->]|[u ->]]]; sr; auto 15. }
      destruct F2 as (N1 & N2 & N3 & N4 & N5). unfold close_empty_col. apply (AV_frame R t); auto.
      - sr. rewrite N2, N3, N4. intros i Hi T. split; [auto|]. split; [auto|]. split; [apply anum_refl|].
        intros j a Hj. apply F1. intros ->. apply (not_in_row t i k (st_inv _ _ S1) Hk' EK Hi T). exists a; auto.
      - sr. rewrite N5, W1. intros j []. }
    unfold remove_empty_col. destruct (Qeqb _ _); cbn [fst]; [apply Y; auto|].
    destruct (Qltb _ _); [destruct (t_ub_inf _)|destruct (t_lb_inf _)]; cbn [fst]; auto; apply Y; eauto. }
  assert (PS : P s) by (unfold P; auto 10 using stp_refl).
  pose proof (for_until_inv UNBNDORINFEAS remove_empty_col P _ s HP PS) as X.
  destruct (for_until UNBNDORINFEAS remove_empty_col (w_empty_cols s) s) as [s1 st].
  cbn [fst] in *. destruct X as [S1 [M1 _]].
  destruct (N.eqb_spec st UNBNDORINFEAS); cbn [fst]; auto.
  apply (AV_refl_same R s1); auto.
Qed.

(** ** Singleton rows *)
Lemma remove_stonrow_AV : forall R s i, good R -> Inv s -> Mid s -> AV R s -> w_sub s = [] -> In i (w_ston_rows s) ->
  t_inact (rt s i) = false -> AV R (fst (remove_stonrow i s)).
Proof.
  intros R s i G H M A WS Hin T. destruct (l_ston_rows s (inv_L s H) i Hin) as [Hi D]. specialize (D T).
  unfold remove_stonrow. destruct (mA s i) as [|[k a] r] eqn:EA.
  - destruct D as [D|[_ D]]; [discriminate|]. rewrite D. auto.
  - destruct D as [D|[D _]]; [|discriminate]. destruct r; [|discriminate].
    destruct (w_rin s (inv_0 s H) i k a Hi) as [Hk Na]; [rewrite EA; left; reflexivity|].
    destruct (t_fixed (ct s k)) eqn:Fk; [auto|].
    assert (TK : t_cinact (ct s k) = false).
    { apply pend_col_fixed; auto. eapply (inv_R s H); eauto. rewrite EA. left; reflexivity. }
    destruct (t_eq (rt s i)).
    + pose proof (fix_col_AV R s k (fin (rhs s i) / a) (cst s k) G H (md_tags s M) A Hk TK) as A1.
      destruct (fix_col k _ _ s) as [s1 st]. cbn [fst snd] in *.
      destruct (N.eqb st INFEASIBLE); cbn [fst]; [auto|].
      apply (AV_frame R s1); auto; sr; auto.
      intros j Hj. updg; [discriminate|]. intros Tj. rewrite ?upd_other by auto. split; [auto|]. split; [auto|].
      split; [apply anum_refl|auto].
    + assert (A1 : let s1 := fst (if t_rhs_inf (rt s i) then (s, UNCHANGED)
          else if Qgtb a 0 then update_ub k (fin (rhs s i) / a) i s
          else update_lb k (fin (rhs s i) / a) i s) in same_struct s s1 /\ Mid s1 /\ AV R s1).
      { cbv zeta. destruct (t_rhs_inf _); [split; auto; apply same_refl|].
        destruct (Qgtb a 0); auto 10 using update_ub_same, update_lb_same, Inv_col_in, update_ub_Mid, update_lb_Mid,
          update_ub_AV, update_lb_AV, (md_tags s M). }
      destruct (if t_rhs_inf (rt s i) then _ else _) as [s1 st1]. cbn [fst] in A1. destruct A1 as [A1 [M1 B1]].
      destruct (N.eqb st1 INFEASIBLE); [auto|].
      assert (I1 : Inv s1) by (eapply same_Inv; eauto).
      assert (A2 : let s2 := fst (if t_lhs_inf (rt s i) then (s1, UNCHANGED)
          else if Qgtb a 0 then update_lb k (fin (lhs s i) / a) i s1
          else update_ub k (fin (lhs s i) / a) i s1) in AV R s2).
      { assert (HK1 : (k < nc s1)%nat) by (rewrite (ss_nc _ _ A1); auto).
        assert (TK1 : t_cinact (ct s1 k) = false) by (rewrite (ss_ct _ _ k A1); auto).
        cbv zeta. destruct (t_lhs_inf _); [auto|].
        destruct (Qgtb a 0); auto using update_ub_AV, update_lb_AV, (md_tags s1 M1). }
      destruct (if t_lhs_inf (rt s i) then _ else _) as [s2 st2]. cbn [fst] in A2.
      destruct (N.eqb st2 INFEASIBLE); [auto|].
      apply row_inactive_AV; auto.
Qed.
Lemma ston_pass_AV : forall R b l s, good R -> Inv s -> Mid s -> AV R s -> w_sub s = [] -> (forall i, In i l -> In i (w_ston_rows s)) ->
  AV R (fst (ston_pass b l s)).
Proof.
  induction l as [|i l IH]; intros s G H M A WS HL; simpl; auto.
  destruct (if b then _ else _) eqn:SK.
  - apply IH; auto. intros; apply HL; simpl; auto.
  - assert (T : t_inact (rt s i) = false).
    { destruct b; apply orb_false_iff in SK; tauto. }
    pose proof (remove_stonrow_stp s i H (HL i (or_introl eq_refl)) T) as X.
    pose proof (remove_stonrow_Mid s i H M WS (HL i (or_introl eq_refl)) T) as M1.
    pose proof (remove_stonrow_AV R s i G H M A WS (HL i (or_introl eq_refl)) T) as A1.
    destruct (remove_stonrow i s) as [s1 st]. destruct X as [S1 F1]. cbn [fst] in M1, A1.
    destruct (N.eqb st INFEASIBLE); auto. destruct F1 as [F1 F2]. apply IH; auto.
    + apply S1.
    + congruence.
    + intros j Hj. rewrite F2. apply HL; simpl; auto.
Qed.
Lemma ston_rows_AV : forall R s, good R -> Inv s -> Mid s -> AV R s -> w_sub s = [] ->
  let '(s', st) := remove_ston_rows s in st <> INFEASIBLE -> AV R s'.
Proof.
  intros R s G H M A WS. unfold remove_ston_rows.
  destruct (w_ston_rows s) as [|i0 l0] eqn:EL; [auto|]. rewrite <- EL. set (l := w_ston_rows s).
  pose proof (ston_pass_stp true l s H (fun i X => X)) as P1.
  pose proof (ston_pass_Mid true l s H M WS (fun i X => X)) as M1.
  pose proof (ston_pass_AV R true l s G H M A WS (fun i X => X)) as A1.
  destruct (ston_pass true l s) as [s1 st1]. destruct P1 as [S1 [F1 E1]]. cbn [fst] in M1, A1.
  destruct (N.eqb_spec st1 INFEASIBLE); [congruence|].
  assert (HL1 : forall i, In i l -> In i (w_ston_rows s1)) by (destruct F1 as [_ ->]; auto).
  assert (WS1 : w_sub s1 = []) by (destruct F1; congruence).
  pose proof (ston_pass_stp false l s1 (st_inv _ _ S1) HL1) as P2.
  pose proof (ston_pass_Mid false l s1 (st_inv _ _ S1) M1 WS1 HL1) as M2.
  pose proof (ston_pass_AV R false l s1 G (st_inv _ _ S1) M1 A1 WS1 HL1) as A2.
  destruct (ston_pass false l s1) as [s2 st2]. destruct P2 as [S2 [F2 E2]]. cbn [fst] in M2, A2.
  destruct (N.eqb_spec st2 INFEASIBLE); [congruence|]. intros _.
  set (s3 := set_w_ston_rows [] s2).
  assert (I3 : Inv s3) by (apply clear_ston_rows; apply S2).
  assert (M3 : Mid s3) by (eapply mid_same_Mid; [|exact M2]; mid_ref).
  assert (A3 : AV R s3) by (apply (AV_refl_same R s2); auto).
  destruct (stp_dir s3 I3) as [S4 [F4 _]].
  pose proof (dir_Mid s3 I3 M3) as M4.
  apply (finish_AV R (delete_inactive_rows s3)); auto; try apply M4.
  - apply S4.
  - destruct F4 as [_ [-> _]]. unfold s3. sr. destruct F2; congruence.
  - apply dir_AV; auto.
Qed.

(** ** Dual fixing *)
Lemma inf_rows_keepA : forall (l : row) s,
  keepA s (foldS (fun s e => if t_inact (rt s (fst e)) then s else set_row_to_inactive (fst e) 0 s) l s).
Proof. intros. apply keepA_foldS. intros t x. destruct (t_inact _); [apply keepA_refl|apply keepA_row]. Qed.
Lemma fix_col_to_inf_AV : forall R pos k s, good R -> Inv s -> AV R s -> (k < nc s)%nat -> ~ In k (w_fixed s) ->
  AV R (fix_col_to_inf pos k s).
Proof.
  intros R pos k s G H A Hk NF. unfold fix_col_to_inf.
  set (rec := FIXED_COL_INF pos k _ _). set (s1 := record rec s).
  assert (I1 : Inv s1) by (eapply same_Inv; [apply same_record|auto]).
  destruct (inf_rows_fold (mAT s k) s1 I1 (inf_hyp s k H Hk)) as [S2 [F2 [T2 _]]].
  pose proof (inf_rows_keepA (mAT s k) s1) as K.
  set (s2 := foldS _ (mAT s k) s1) in *. clearbody s2. destruct K as [k_nr k_A k_lb k_ub k_acts k_fixed k_rt].
  apply (AV_frame R s); auto; sr; try congruence.
  - intros i Hi T. rewrite k_A, k_acts, k_lb, k_ub. pose proof (k_rt i T) as T'.
    split; [exact T'|]. split; [auto|]. split; [apply anum_refl|].
    intros j a Hj. change (mA s1 i) with (mA s i) in *. change (rt s1 i) with (rt s i) in T'.
    assert (D : j <> k).
    { intros ->. enough (X : t_inact (rt s2 i) = true) by congruence. apply (T2 (i, a)).
      apply (w_agree s (inv_0 s H)); auto; [apply act_alive; auto; apply H|eapply (inv_R s H); eauto]. }
    rewrite !upd_other by auto. auto.
  - intros j Hj. rewrite k_fixed in Hj. rewrite k_lb, k_ub. split; auto.
    assert (j <> k) by (intros ->; auto). rewrite !upd_other by auto. auto.
Qed.
Lemma dual_fix_loop_AV : forall R l s ti st, good R -> Inv s -> Mid s -> AV R s -> NoDup l -> (forall k, In k l -> (k < nc s)%nat) ->
  let '(s', ti', _) := dual_fix_loop l s ti st in AV R s'.
Proof.
  induction l as [|k l IH]; intros s ti st G H M A ND HL; simpl; [auto|].
  inversion ND; subst.
  assert (HL' : forall j, In j l -> (j < nc s)%nat) by (intros; apply HL; simpl; auto).
  assert (Hk : (k < nc s)%nat) by (apply HL; simpl; auto).
  destruct (t_cinact (ct s k)) eqn:TK; cbn [orb]; [apply IH; auto|].
  destruct (_ && _); [apply IH; auto|].
  assert (X : let '(s', ti', _) := simple_dual_fix_col k s ti in stp s s' /\ Mid s' /\ AV R s').
  { assert (F : forall v, stp s (fst (fix_col k v (cst s k) s)) /\ Mid (fst (fix_col k v (cst s k) s)) /\
        AV R (fst (fix_col k v (cst s k) s))).
    { intros v. split; [apply stp_fix_col; auto|]. split; [apply fix_col_Mid; auto|apply fix_col_AV; auto; apply M]. }
    pose proof (conj (stp_refl s H) (conj M A)) as U.
    unfold simple_dual_fix_col.
    repeat match goal with |- context [if ?b then _ else _] => destruct b end; first [exact U|apply F]. }
  destruct (simple_dual_fix_col k s ti) as [[s1 ti1] st1]. destruct X as [S1 [M1 A1]].
  apply IH; auto; [apply S1|]. rewrite (stp_nc _ _ S1). auto.
Qed.
Lemma inf_steps_AV : forall R l s, good R -> Inv s -> AV R s -> NoDup (map snd l) ->
  (forall e, In e l -> (snd e < nc s)%nat /\ t_cinact (ct s (snd e)) = false) ->
  AV R (foldS inf_step l s).
Proof.
  induction l as [|[b k] l IH]; intros s G H A ND HL; cbn [foldS]; auto.
  cbn [map snd] in ND. inversion ND; subst.
  destruct (HL (b, k) (or_introl eq_refl)) as [Hk TK]. cbn [snd] in *.
  assert (NF : ~ In k (w_fixed s)).
  { intros X. destruct (l_fixed s (inv_L s H) k X) as [_ F]. unfold t_cinact in TK. rewrite F in TK. discriminate. }
  destruct (inf_step_stp s b k H Hk) as [S1 _].
  apply IH; auto.
  - apply S1.
  - unfold inf_step. repeat match goal with |- context [if ?b then _ else _] => destruct b end; auto using fix_col_to_inf_AV.
  - intros e He. destruct (HL e (or_intror He)) as [X B]. rewrite (stp_nc _ _ S1). split; auto.
    rewrite inf_step_ct; auto. intros E. apply H2. rewrite <- E. apply in_map; auto.
Qed.
Lemma dual_fix_AV : forall R s, good R -> Inv s -> Mid s -> AV R s -> w_sub s = [] -> AV R (fst (simple_dual_fix s)).
Proof.
  intros R s G H M A WS. unfold simple_dual_fix.
  pose proof (dual_fix_loop_stp (seq 0 (nc s)) s [] UNCHANGED H) as X.
  pose proof (dual_fix_loop_Mid (seq 0 (nc s)) s [] UNCHANGED H M (seq_NoDup _ _)) as Y.
  pose proof (dual_fix_loop_AV R (seq 0 (nc s)) s [] UNCHANGED G H M A (seq_NoDup _ _)) as Z.
  destruct (dual_fix_loop (seq 0 (nc s)) s [] UNCHANGED) as [[s1 ti] st].
  destruct X as [S1 [F1 T1]].
  { intros k Hk. apply in_seq in Hk. lia. }
  { intros e []. }
  destruct Y as [M1 [N1 T1']].
  { intros k Hk. apply in_seq in Hk. lia. }
  { constructor. }
  { intros e []. }
  assert (A1 : AV R s1). { apply Z. intros k Hk. apply in_seq in Hk. lia. }
  destruct (inf_steps_stp ti s1 (st_inv _ _ S1)) as [S2 F2].
  { rewrite (stp_nc _ _ S1). auto. }
  pose proof (inf_steps_Mid ti s1 (st_inv _ _ S1) M1 N1 T1') as M2.
  pose proof (inf_steps_AV R ti s1 G (st_inv _ _ S1) A1 N1 T1') as A2.
  destruct (stp_dir (foldS inf_step ti s1) (st_inv _ _ S2)) as [S3 [F3 _]].
  pose proof (dir_Mid _ (st_inv _ _ S2) M2) as M3.
  cbn [fst]. apply (finish_AV R (delete_inactive_rows (foldS inf_step ti s1))); auto; try apply M3.
  - apply S3.
  - destruct F3 as [_ [-> _]], F2 as [_ [-> _]], F1 as [-> _]. auto.
  - apply dir_AV; auto. apply S2.
Qed.
