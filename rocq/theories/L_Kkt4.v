(** Signs and complementary slackness: dual fixing. *)
From Coq Require Import NArith Lqa.
From Verif Require Import M_Num S_LP M_Settings M_Driver S_Driver M_State M_Act M_Core M_Simple
  M_StonCols M_Dton M_Parallel M_Propagate M_Init M_Post M_Run S_Run S_Struct S_Sem S_Log S_Kkt
  L_State L_Struct L_Struct2 L_Struct3 L_Struct4 L_Struct5 L_Struct6 L_Struct11 L_Sem L_Sem2 L_Sem3 L_Sem4 L_Sem9 L_Mid L_Mid2
  L_Post L_Post2 L_Post3 L_Kkt L_Kkt2.
Import M_Driver.
Notation bad := M_State.bad.
Open Scope Q_scope.
Section Kkt.
Variable rtol : nat -> Q.
Variable ctol : Q.
Hypothesis ctol0 : 0 <= ctol.
Hypothesis rtol0 : forall i, 0 <= rtol i.
Notation St := (L_Post.St True).
Notation Back := (L_Post.Back True).
Notation KB := (L_Kkt.KB rtol ctol).
Notation CS := (L_Kkt.CS rtol ctol).
Notation cover := (L_Kkt.cover rtol ctol).

Lemma free_sum : forall (up : bool) s k t, Inv s -> tags_right s -> free_dir up s k -> (k < nc s)%nat -> t_cinact (ct s k) = false ->
  fresh s k -> signs s t -> if up then 0 <= ysum (sy t) (mAT s k) else ysum (sy t) (mAT s k) <= 0.
Proof.
  intros up s k t H TG FD Hk Tk F SG.
  assert (G : forall i a, In (i, a) (mAT s k) -> if up then 0 <= a * val (sy t i) else a * val (sy t i) <= 0).
  { intros i a Hin. destruct (w_cin s (inv_0 s H) i k a Hk Hin) as [Hi Na]. pose proof (F i a Hin) as Ti.
    assert (HA : In (k, a) (mA s i)).
    { apply (w_agree s (inv_0 s H) i k a Hi Hk); auto; [apply act_alive; auto; apply H|apply cact_alive; auto; apply H]. }
    destruct (FD i a Hi Ti HA) as [D1 D2]. destruct (SG i Hi Ti) as [S1 S2].
    pose proof (tr_lhs s TG i Hi Ti) as TL. pose proof (tr_rhs s TG i Hi Ti) as TR.
    assert (NL : t_lhs_inf (rt s i) = true -> val (sy t i) <= 0).
    { intros X. rewrite X in TL. rewrite TL in S1. destruct (Qlt_le_dec 0 (val (sy t i))) as [L|L]; auto. discriminate (S1 L). }
    assert (NR : t_rhs_inf (rt s i) = true -> 0 <= val (sy t i)).
    { intros X. rewrite X in TR. rewrite TR in S2. destruct (Qlt_le_dec (val (sy t i)) 0) as [L|L]; auto. discriminate (S2 L). }
    set (y := val (sy t i)) in *. clearbody y. clear -D1 D2 NL NR Na.
    destruct (Qlt_le_dec 0 a) as [L|L].
    - specialize (D1 L). destruct up.
      + apply Qmult_le_0_compat; auto. lra.
      + specialize (NL D1). setoid_replace (a * y) with (- (a * (- y))) by ring.
        assert (0 <= a * - y) by (apply Qmult_le_0_compat; lra). lra.
    - assert (L' : a < 0) by lra. specialize (D2 L'). destruct up.
      + specialize (NL D2). setoid_replace (a * y) with ((- a) * (- y)) by ring. apply Qmult_le_0_compat; lra.
      + specialize (NR D2). setoid_replace (a * y) with (- ((- a) * y)) by ring.
        assert (0 <= (- a) * y) by (apply Qmult_le_0_compat; lra). lra. }
  clear -G. induction (mAT s k) as [|[i a] l IH]; cbn [M_Post.wsum]; [destruct up; lra|].
  pose proof (G i a (or_introl eq_refl)) as X. specialize (IH (fun j b Hj => G j b (or_intror Hj))). destruct up; lra.
Qed.
Lemma fix_free_KB : forall (up : bool) s k v, Inv s -> tags_right s -> (k < nc s)%nat -> t_cinact (ct s k) = false -> free_dir up s k ->
  fresh s k -> (if up then cst s k <= 0 /\ ub s k = Fin v else 0 <= cst s k /\ lb s k = Fin v) ->
  KB s (fst (fix_col k v (cst s k) s)).
Proof.
  intros up s k v H TG Hk Tk FD F CB. apply fix_col_KB; auto; [lra|]. intros t SG.
  pose proof (free_sum up s k t H TG FD Hk Tk F SG) as Y. destruct up; destruct CB as [C ->].
  - apply pressed_upp; auto; lra.
  - apply pressed_low; auto; lra.
Qed.

(** ** Columns sent to infinity *)
Lemma inf_KB : forall pos k s, Inv s -> (k < nc s)%nat -> t_cinact (ct s k) = false -> cst s k == 0 -> RV s ->
  KB s (fix_col_to_inf pos k s).
Proof.
  intros pos k s H Hk Tk C0 V. pose proof (inf_Back True pos k s H Hk Tk C0 V) as BK. revert BK.
  unfold fix_col_to_inf. set (rec := FIXED_COL_INF pos k _ _).
  destruct (zero_rows (mAT s k) (record rec s)) as [new X]. cbv zeta in X.
  assert (KE : forall T (f : state -> T), (forall s0 i, f (set_row_to_inactive i 0 s0) = f s0) ->
     f (foldS (fun s e => if t_inact (rt s (fst e)) then s else set_row_to_inactive (fst e) 0 s) (mAT s k) (record rec s)) = f (record rec s)).
  { intros T f Hf. apply foldS_keep. intros s0 e. destruct (t_inact _); auto. }
  pose proof (KE _ mA ltac:(reflexivity)) as KA. pose proof (KE _ lhs ltac:(reflexivity)) as KL.
  pose proof (KE _ rhs ltac:(reflexivity)) as KR. pose proof (KE _ lb ltac:(reflexivity)) as KLB.
  pose proof (KE _ ub ltac:(reflexivity)) as KUB. clear KE.
  set (s2 := foldS _ (mAT s k) (record rec s)) in *. clearbody s2.
  destruct X as (A & F & B & C & D & E & G & R & HR).
  set (s3 := set_ub1 _ _ _). intros BK.
  assert (Y : nr s3 = nr s /\ nc s3 = nc s /\ rt s3 = rt s2 /\ mA s3 = mA s /\ lhs s3 = lhs s /\ rhs s3 = rhs s /\
    (forall j, j <> k -> ct s3 j = ct s j /\ lb s3 j = lb s j /\ ub s3 j = ub s j) /\ log s3 = new ++ rec :: log s).
  { unfold s3. sr. rewrite B, C, G, A, KA, KL, KR, KLB, KUB. sr. repeat split; auto; rewrite !upd_other; auto. }
  clearbody s3. destruct Y as (Y1 & Y2 & Y4 & Y5 & Y6 & Y7 & Y8 & Y9).
  assert (RT3 : forall i, t_inact (rt s3 i) = (hasb i (mAT s k) || t_inact (rt s i))%bool) by (intros i; rewrite Y4, R; sr; auto).
  split; [exact BK|]. split.
  { apply sub_same; auto. intros i T. rewrite RT3, T. apply orb_true_r. }
  intros nw t CV LN ST [CR CC].
  assert (EN : nw = new ++ [rec]).
  { apply (app_inv_tail (log s)). rewrite <- LN, Y9, <- app_assoc. reflexivity. }
  rewrite EN. destruct (HR t) as (t1 & T1 & T2 & T3 & T4 & T5). rewrite T5.
  change (CS s (retrieve_one rec t1)).
  assert (SO : sy (retrieve_one rec t1) = sy t1 /\ (exists v, sx (retrieve_one rec t1) = upd (sx t1) k (Some v)) /\
       sz (retrieve_one rec t1) = upd (sz t1) k (Some 0)).
  { unfold rec. cbn [retrieve_one]. unfold retrieve_fix_col_inf.
    destruct (fold_left (inf_row pos k t1) (inf_rows s k) _) as [[ex c] er].
    cbn. eauto. }
  destruct SO as (S1 & (v & S2) & S3). set (t' := retrieve_one rec t1) in *. clearbody t'.
  constructor.
  - intros i Hi Ti. rewrite S1, T4. sr. rewrite Ti. cbn [negb]. rewrite andb_true_r. destruct (hasb i (mAT s k)) eqn:HB.
    { apply pressed_0. reflexivity. }
    assert (TI : t_inact (rt s3 i) = false) by (rewrite RT3, HB; auto).
    specialize (CR i ltac:(rewrite Y1; auto) TI). rewrite Y5, Y6, Y7 in CR.
    eapply pressed_ext; [exact CR|lra| |auto|auto]. apply dot_ext. intros j a Hj.
    assert (N : j <> k).
    { intros ->. apply (w_agree s (inv_0 s H) i k a Hi Hk) in Hj; [|apply act_alive; auto; apply H|apply cact_alive; auto; apply H].
      assert (HB' : hasb i (mAT s k) = true) by (apply hasb_has; exists a; auto). congruence. }
    unfold xv. destruct (Y8 j N) as (-> & _ & ->). rewrite S2, upd_other, T1 by auto. lra.
  - intros j Hj Tj. rewrite S2, S3. destruct (Nat.eq_dec j k) as [->|N].
    + rewrite !upd_same. apply pressed_0. reflexivity.
    + rewrite !upd_other by auto. rewrite T1, T2. destruct (Y8 j N) as (B1 & B2 & B3).
      specialize (CC j ltac:(rewrite Y2; auto) ltac:(rewrite B1; auto)). rewrite B2, B3 in CC. exact CC.
Qed.
Lemma dual_fix_loop_KB : forall l s ti st, Inv s -> Mid s -> freshA s -> RV s -> NoDup l -> (forall k, In k l -> (k < nc s)%nat) ->
  NoDup (map snd ti) ->
  (forall e, In e ti -> (snd e < nc s)%nat /\ t_cinact (ct s (snd e)) = false /\ cst s (snd e) == 0 /\ ~ In (snd e) l) ->
  let '(s', ti', _) := dual_fix_loop l s ti st in KB s s'.
Proof.
  induction l as [|k l IH]; intros s ti st H M FA V ND HL NT HT; cbn [dual_fix_loop].
  - apply KB_refl.
  - inversion ND; subst.
    assert (HL' : forall j, In j l -> (j < nc s)%nat) by (intros; apply HL; simpl; auto).
    assert (Hk : (k < nc s)%nat) by (apply HL; simpl; auto).
    destruct (t_cinact (ct s k)) eqn:TK; cbn [orb].
    { apply IH; auto. intros e He. destruct (HT e He) as [A [B [C D]]]. simpl in D. tauto. }
    destruct (_ && _).
    { apply IH; auto. intros e He. destruct (HT e He) as [A [B [C D]]]. simpl in D. tauto. }
    assert (X : let '(s', ti', _) := simple_dual_fix_col k s ti in
                stp s s' /\ KB s s' /\ Mid s' /\ freshA s' /\ RV s' /\ NoDup (map snd ti') /\
                (forall e, In e ti' -> (snd e < nc s)%nat /\ t_cinact (ct s' (snd e)) = false /\ cst s' (snd e) == 0 /\ ~ In (snd e) l)).
    { assert (T0 : forall e, In e ti -> (snd e < nc s)%nat /\ t_cinact (ct s (snd e)) = false /\ cst s (snd e) == 0 /\ ~ In (snd e) l).
      { intros e He. destruct (HT e He) as [A [B [C D]]]. simpl in D. tauto. }
      assert (TK' : forall e, In e ti -> snd e <> k).
      { intros e He E. destruct (HT e He) as [_ [_ [_ C]]]. apply C. left; auto. }
      assert (F : forall (up : bool), (if up then ups s k else dns s k) = 0%Z -> (if up then cst s k <= 0 else 0 <= cst s k) ->
        (if up then t_ub_inf (ct s k) else t_lb_inf (ct s k)) = false ->
        let v := if up then fin (ub s k) else fin (lb s k) in
        let s' := fst (fix_col k v (cst s k) s) in stp s s' /\ KB s s' /\ Mid s' /\ freshA s' /\ RV s' /\
        NoDup (map snd ti) /\ (forall e, In e ti -> (snd e < nc s)%nat /\
          t_cinact (ct s' (snd e)) = false /\ cst s' (snd e) == 0 /\ ~ In (snd e) l)).
      { intros up LK0 CK TB. cbv zeta. set (v := if up then _ else _). destruct (fix_col_keep s k v (cst s k)) as (K1 & K2 & K3 & K4 & K5 & K6 & K7).
        split; [apply stp_fix_col; auto|]. split.
        { apply (fix_free_KB up); auto.
          - apply M.
          - apply locks_free; auto. apply M.
          - apply FA; auto. apply cact_alive; auto; apply H.
          - unfold v. pose proof (tr_lb s (md_tags s M) k Hk TK) as TL. pose proof (tr_ub s (md_tags s M) k Hk TK) as TU.
            destruct up; split; auto.
            + rewrite TB in TU. destruct (ub s k); try discriminate. reflexivity.
            + rewrite TB in TL. destruct (lb s k); try discriminate. reflexivity. }
        split; [apply fix_col_Mid; auto|].
        split; [apply fix_col_freshA; auto|].
        split; [apply (keep_RV s); auto; apply stp_nc; apply stp_fix_col; auto|]. split; [auto|].
        intros e He. rewrite K7 by auto. rewrite K6. auto. }
      assert (P : forall b, cst s k == 0 -> stp s s /\ KB s s /\ Mid s /\ freshA s /\ RV s /\ NoDup (map snd (ti ++ [(b, k)])) /\
        (forall e, In e (ti ++ [(b, k)]) -> (snd e < nc s)%nat /\ t_cinact (ct s (snd e)) = false /\ cst s (snd e) == 0 /\ ~ In (snd e) l)).
      { intros b C0. split; [apply stp_refl; auto|]. split; [apply KB_refl|]. split; [auto|]. split; [auto|]. split; [auto|]. split.
        - rewrite map_app. simpl. apply NoDup_app_one; auto. intros X. apply in_map_iff in X.
          destruct X as [e [E He]]. apply (TK' e He E).
        - intros e He. apply in_app_or in He. destruct He as [He|[<-|[]]]; auto. }
      pose proof (conj (stp_refl s H) (conj (KB_refl rtol ctol s) (conj M (conj FA (conj V (conj NT T0)))))) as U.
      unfold simple_dual_fix_col.
      destruct (Qgtb (cst s k) 0 && _) eqn:Q1.
      { apply andb_true_iff in Q1. destruct Q1 as [Q1 Z1]. apply Z.eqb_eq in Z1. qb.
        destruct (t_lb_inf _) eqn:TB; [exact U|apply (F false); auto; lra]. }
      destruct (Qltb (cst s k) 0 && _) eqn:Q2.
      { apply andb_true_iff in Q2. destruct Q2 as [Q2 Z2]. apply Z.eqb_eq in Z2. qb.
        destruct (t_ub_inf _) eqn:TB; [exact U|apply (F true); auto; lra]. }
      destruct (Qeqb (cst s k) 0) eqn:QC; [|exact U]. clear Q1 Q2. qb.
      destruct (Z.eqb_spec (dns s k) 0); [destruct (t_lb_inf _) eqn:TB; [apply P; auto|apply (F false); auto; lra]|].
      destruct (Z.eqb_spec (ups s k) 0); [destruct (t_ub_inf _) eqn:TB; [apply P; auto|apply (F true); auto; lra]|exact U]. }
    destruct (simple_dual_fix_col k s ti) as [[s1 ti1] st1]. destruct X as [S1 [B1 [M1 [FA1 [V1 [N1 T1]]]]]].
    assert (Y := IH s1 ti1 (N.lor st st1) (st_inv _ _ S1) M1 FA1 V1 H3).
    rewrite (stp_nc _ _ S1) in Y. specialize (Y HL' N1 T1).
    destruct (dual_fix_loop l s1 ti1 _) as [[s2 ti2] st2].
    eapply KB_trans; eauto.
Qed.
Lemma inf_steps_KB : forall l s, Inv s -> RV s -> NoDup (map snd l) ->
  (forall e, In e l -> (snd e < nc s)%nat /\ t_cinact (ct s (snd e)) = false /\ cst s (snd e) == 0) ->
  KB s (foldS inf_step l s).
Proof.
  induction l as [|[b k] l IH]; intros s H V ND HL; cbn [foldS]; [apply KB_refl|].
  cbn [map snd] in ND. inversion ND as [|? ? NI ND']; subst.
  destruct (HL (b, k) (or_introl eq_refl)) as (Hk & Tk & Ck). cbn [snd] in *.
  assert (X : stp s (inf_step s (b, k)) /\ KB s (inf_step s (b, k)) /\ RV (inf_step s (b, k)) /\
     cst (inf_step s (b, k)) = cst s /\ (forall j, j <> k -> ct (inf_step s (b, k)) j = ct s j)).
  { assert (F : forall pos, stp s (fix_col_to_inf pos k s) /\ KB s (fix_col_to_inf pos k s) /\ RV (fix_col_to_inf pos k s) /\
       cst (fix_col_to_inf pos k s) = cst s /\ (forall j, j <> k -> ct (fix_col_to_inf pos k s) j = ct s j)).
    { intros pos. split; [apply fix_col_to_inf_stp; auto|]. split; [apply inf_KB; auto|]. apply fix_col_to_inf_keep; auto. }
    unfold inf_step. destruct (Nat.eqb k 0); [destruct (Z.eqb _ _); [apply F|destruct (Z.eqb _ _); [apply F|]]|apply F].
    split; [apply stp_refl; auto|]. split; [apply KB_refl|auto]. }
  destruct X as (S1 & B1 & V1 & C1 & K1). eapply KB_trans; [exact B1|]. apply IH; auto; [apply S1|].
  intros e He. rewrite (stp_nc _ _ S1), C1, K1; [apply HL; right; auto|].
  intros E. apply NI. rewrite <- E. apply in_map; auto.
Qed.
Lemma dual_fix_KB : forall s, Inv s -> Mid s -> quiet s -> KB s (fst (simple_dual_fix s)).
Proof.
  intros s H M Q. unfold simple_dual_fix.
  assert (HL : forall k, In k (seq 0 (nc s)) -> (k < nc s)%nat) by (intros k Hk; apply in_seq in Hk; lia).
  pose proof (dual_fix_loop_stp (seq 0 (nc s)) s [] UNCHANGED H HL) as X.
  pose proof (dual_fix_loop_Back True (seq 0 (nc s)) s [] UNCHANGED H (quiet_freshA s H Q) (quiet_RV s H Q) (seq_NoDup _ _) HL (NoDup_nil _)) as Y.
  pose proof (dual_fix_loop_KB (seq 0 (nc s)) s [] UNCHANGED H M (quiet_freshA s H Q) (quiet_RV s H Q) (seq_NoDup _ _) HL (NoDup_nil _)) as Z.
  pose proof (dual_fix_loop_Mid (seq 0 (nc s)) s [] UNCHANGED H M (seq_NoDup _ _) HL (NoDup_nil _)) as MM.
  destruct (dual_fix_loop (seq 0 (nc s)) s [] UNCHANGED) as [[s1 ti] st].
  destruct X as [S1 [F1 T1]]; [intros e []|]. destruct Y as (_ & V1 & N1 & T2); [intros e []|].
  assert (B1 : KB s s1) by (apply Z; intros e []). clear Z. destruct MM as (M1 & _ & T3); [intros e []|]. cbn [fst].
  pose proof (inf_steps_KB ti s1 (st_inv _ _ S1) V1 N1 T2) as B2.
  pose proof (inf_steps_Mid ti s1 (st_inv _ _ S1) M1 N1 T3) as M2.
  destruct (inf_steps_stp ti s1 (st_inv _ _ S1)) as [S2 F2]; [apply T2|].
  set (s2 := foldS inf_step ti s1) in *.
  destruct (stp_dir s2 (st_inv _ _ S2)) as [S3 [F3 W3]].
  assert (M3 : Mid (delete_inactive_rows s2)) by (apply dir_Mid; auto; apply S2).
  eapply KB_trans; [exact B1|]. eapply KB_trans; [exact B2|].
  eapply KB_trans; [apply dir_KB; apply S2|]. apply finish_KB; [apply S3|apply M3|apply M3|].
  pose proof (q_sub s Q). destruct F1 as [f1 _], F2 as [_ [f2 _]], F3 as [_ [f3 _]]. congruence.
Qed.
End Kkt.
