(** Signs and complementary slackness: the other simple reductions. *)
From Coq Require Import NArith Lqa.
From Verif Require Import M_Num S_LP M_Settings M_Driver S_Driver M_State M_Act M_Core M_Simple
  M_StonCols M_Dton M_Parallel M_Propagate M_Init M_Post M_Run S_Run S_Struct S_Sem S_Log S_Kkt
  L_State L_Struct L_Struct2 L_Struct3 L_Struct4 L_Struct5 L_Struct6 L_Struct11 L_Sem L_Sem2 L_Sem3 L_Sem4 L_Sem9 L_Mid L_Mid2
  L_Post L_Post2 L_Post3 L_Kkt.
Import M_Driver.
Notation bad := M_State.bad.
Open Scope Q_scope.
Section Kkt.
Variable rtol : nat -> Q.
Variable ctol : Q.
Hypothesis ctol0 : 0 <= ctol.
Hypothesis ctol1 : ctol <= FEAS_TOL.
Hypothesis rtol0 : forall i, 0 <= rtol i.
Notation St := (L_Post.St True).
Notation Back := (L_Post.Back True).
Notation KB := (L_Kkt.KB rtol ctol).
Notation CS := (L_Kkt.CS rtol ctol).
Notation cover := (L_Kkt.cover rtol ctol).

(** ** Empty columns *)
Lemma pressed_low : forall m l v u, 0 <= m -> v == l -> pressed ctol m (Fin l) v u.
Proof.
  intros m l v u M E. split; intros H; [|exfalso; lra]. exists l. split; auto. rewrite E. apply Qabs_same; auto.
Qed.
Lemma pressed_upp : forall m l v u, m <= 0 -> v == u -> pressed ctol m l v (Fin u).
Proof.
  intros m l v u M E. split; intros H; [exfalso; lra|]. exists u. split; auto. rewrite E. apply Qabs_same; auto.
Qed.
Lemma empty_col_KB : forall s k, Inv s -> Mid s -> In k (w_empty_cols s) -> KB s (fst (remove_empty_col k s)).
Proof.
  intros s k H M Hin. destruct (l_empty_cols s (inv_L s H) k Hin) as [Hk E].
  pose proof (empty_col_Back True s k H Hin) as B.
  assert (NI : forall i a, (i < nr s)%nat -> t_inact (rt s i) = false -> ~ In (k, a) (mA s i)).
  { intros i a Hi T Hi'. pose proof (inv_R s H i k a Hi T Hi') as C.
    apply (w_agree s (inv_0 s H) i k a Hi Hk) in Hi'; auto; [rewrite E in Hi'; auto|apply act_alive; auto; apply H]. }
  assert (X : forall v s0, nr s0 = nr s -> nc s0 = nc s -> rt s0 = rt s -> mA s0 = mA s -> lhs s0 = lhs s -> rhs s0 = rhs s ->
    (forall j, j <> k -> ct s0 j = ct s j /\ lb s0 j = lb s j /\ ub s0 j = ub s j) -> cst s0 = cst s -> log s0 = log s ->
    (t_cinact (ct s k) = false -> pressed ctol (cst s k) (lb s k) v (ub s k)) ->
    Back s (close_empty_col k v s0) -> KB s (close_empty_col k v s0)).
  { intros v s0 A1 A2 A3 A4 A5 A6 A7 A8 A9 P BK. eapply (fixing_KB rtol ctol s _ k v (cst s0 k) []); auto.
    - unfold close_empty_col. constructor; sr; rewrite ?A3, ?A4, ?A5, ?A6; auto.
      + intros j N. rewrite upd_other by auto. auto.
      + intros i a Hi T Hi'. exfalso. eapply NI; eauto.
    - unfold close_empty_col. sr. rewrite A9. reflexivity.
    - intros t _ _ T. eapply pressed_ext; [apply P; auto| |lra|auto|auto]. rewrite A8. cbn [M_Post.wsum]. lra. }
  unfold remove_empty_col in *. destruct (Qeqb _ _) eqn:QE; cbn [fst] in *.
  { apply X; auto. intros _. qb. apply pressed_0; auto. }
  destruct (Qltb _ _) eqn:QL; [destruct (t_ub_inf _) eqn:TU|destruct (t_lb_inf _) eqn:TL]; cbn [fst] in *; try apply KB_refl;
    apply X; auto; sr; try (intros j N; rewrite upd_other by auto; auto).
  - intros T. pose proof (tr_ub _ (md_tags _ M) k Hk T) as G. rewrite TU in G.
    destruct (ub s k) as [|q|]; try discriminate. cbn [fin]. qb. apply pressed_upp; lra.
  - intros T. pose proof (tr_lb _ (md_tags _ M) k Hk T) as G. rewrite TL in G.
    destruct (lb s k) as [|q|]; try discriminate. cbn [fin]. qb. apply pressed_low; lra.
Qed.
Lemma empty_col_Mid : forall s k, Inv s -> Mid s -> w_fixed s = [] -> In k (w_empty_cols s) ->
  Mid (fst (remove_empty_col k s)) /\ w_fixed (fst (remove_empty_col k s)) = [].
Proof.
  intros t k H M1 W1 Hin. destruct (remove_empty_col_frame t k) as [A [B [C [D _]]]]. split; [|congruence].
    assert (X : forall v t0, (t0 = t \/ (exists l, t0 = set_lb1 k l t) \/ (exists u, t0 = set_ub1 k u t)) ->
              Mid (close_empty_col k v t0)).
    { intros v t0 E0. destruct M1 as [[G1 G2 G3 G4 G5] PO AE L].
      assert (F1 : forall j, j <> k -> lb t0 j = lb t j /\ ub t0 j = ub t j).
      { intros j Hj. destruct E0 as [->|[[l ->]|[u ->]]]; sr; rewrite ?upd_other by auto; auto. }
      assert (F2 : nr t0 = nr t /\ nc t0 = nc t /\ lhs t0 = lhs t /\ rhs t0 = rhs t /\ rt t0 = rt t /\ ct t0 = ct t /\
                   w_fixed t0 = [] /\ w_empty_rows t0 = w_empty_rows t /\ ups t0 = ups t /\ dns t0 = dns t /\ mAT t0 = mAT t).
      { destruct E0 as [->|[[l ->]|[u ->]]]; sr; auto 15. }
      destruct F2 as (N1 & N2 & N3 & N4 & N5 & N6 & N7 & N8 & N9 & N10 & N11).
      unfold close_empty_col. constructor.
      - constructor; sr; rewrite ?N1, ?N2, ?N3, ?N4, ?N5, ?N6; auto; intros j Hj; updg; try discriminate;
          destruct (F1 j) as [F3 F4]; auto; rewrite ?F3, ?F4; first [apply G4|apply G5]; auto.
      - apply pend_nil. sr. auto.
      - intros i. sr. rewrite N8, N5. apply AE.
      - apply (LK_frame t); auto. sr. rewrite N2, N5, N6, N9, N10, N11. intros j Hj TJ.
        updh TJ; [discriminate|]. repeat split; auto. }
    unfold remove_empty_col. destruct (Qeqb _ _); cbn [fst]; [apply X; auto|].
    destruct (Qltb _ _); [destruct (t_ub_inf _)|destruct (t_lb_inf _)]; cbn [fst]; auto; apply X; eauto.
Qed.
Lemma empty_cols_KB : forall s, Inv s -> Mid s -> w_fixed s = [] -> KB s (fst (remove_empty_cols s)).
Proof.
  intros s H M WF. unfold remove_empty_cols.
  pose proof (for_until_inv UNBNDORINFEAS remove_empty_col
    (fun t => stp s t /\ w_empty_cols t = w_empty_cols s /\ Mid t /\ w_fixed t = [] /\ KB s t) (w_empty_cols s) s) as X.
  destruct (for_until UNBNDORINFEAS remove_empty_col (w_empty_cols s) s) as [s1 st]. cbn [fst] in *.
  destruct X as (S1 & W1 & M1 & F1 & B1).
  - intros t k Hk (S1 & W1 & M1 & F1 & B1). destruct (remove_empty_col_frame t k) as [A [B [C [D [E _]]]]].
    destruct (empty_col_Mid t k (st_inv _ _ S1) M1 F1) as [M2 F2]; [congruence|].
    split; [eapply stp_trans; [exact S1|]; apply stp_empty_col; [apply S1|congruence]|].
    split; [congruence|]. split; [auto|]. split; [auto|].
    eapply KB_trans; [exact B1|]. apply empty_col_KB; auto; [apply S1|congruence].
  - auto 8 using stp_refl, KB_refl.
  - destruct (N.eqb st UNBNDORINFEAS); cbn [fst]; auto. eapply KB_trans; [exact B1|].
    apply still_KB; [apply quietly_Back; [apply quietly_same; auto|reflexivity]|apply sub_same; auto|reflexivity|].
    apply still_same; reflexivity.
Qed.

(** ** Empty rows *)
Lemma empty_row_KB : forall s i, Inv s -> In i (w_empty_rows s) -> KB s (fst (remove_empty_row i s)).
Proof.
  intros s i H Hin. pose proof (empty_row_Back True s i H Hin) as B.
  unfold remove_empty_row in *. destruct (_ || _); cbn [fst] in *; [apply KB_refl|].
  apply (row0_KB rtol ctol s _ i); auto.
  - intros j N. sr. rewrite upd_other; auto.
  - sr. rewrite upd_same. reflexivity.
Qed.
Lemma empty_rows_KB : forall s, Inv s -> KB s (fst (remove_empty_rows s)).
Proof.
  intros s H. unfold remove_empty_rows.
  pose proof (for_until_inv INFEASIBLE remove_empty_row
    (fun t => stp s t /\ w_empty_rows t = w_empty_rows s /\ KB s t) (w_empty_rows s) s) as X.
  destruct (for_until INFEASIBLE remove_empty_row (w_empty_rows s) s) as [s1 st]. cbn [fst] in *.
  destruct X as [S1 [W1 B1]].
  - intros t k Hk [S1 [W1 B1]]. destruct (remove_empty_row_frame t k) as [A [B [C [D [E _]]]]].
    split; [eapply stp_trans; [exact S1|]; apply stp_empty_row; [apply S1|congruence]|].
    split; [congruence|]. eapply KB_trans; [exact B1|]. apply empty_row_KB; [apply S1|congruence].
  - auto using stp_refl, KB_refl.
  - destruct (N.eqb st INFEASIBLE); cbn [fst]; auto. eapply KB_trans; [exact B1|].
    apply still_KB; [apply quietly_Back; [apply quietly_same; auto|reflexivity]|apply sub_same; auto|reflexivity|].
    apply still_same; reflexivity.
Qed.

(** ** Redundant rows *)
Lemma check_row_KB : forall s i, Inv s -> (i < nr s)%nat -> KB s (fst (check_row i s)).
Proof.
  intros s i H Hi. pose proof (check_row_Back True s i H Hi) as B. unfold check_row in *.
  destruct (t_inact (rt s i)) eqn:T; cbn [orb] in *; [apply KB_refl|].
  destruct (t_eq _); cbn [orb] in *; [apply KB_refl|].
  destruct (Z.leb_spec (rsz s i) 1); [apply KB_refl|].
  destruct (check_activity _ _ _ _) as [|lr rr]; [apply KB_refl|].
  destruct (_ && _); [cbn [fst]; apply set_row_inactive_KB; auto|].
  assert (Y : forall (f : state -> nat * Q -> state) t, (forall s0 x, locks_only s0 (f s0 x)) -> t_inact t = false ->
    let s1 := foldS f (mA s i) (set_rt1 i t s) in
    nr s1 = nr s /\ nc s1 = nc s /\ mA s1 = mA s /\ ct s1 = ct s /\ lb s1 = lb s /\ ub s1 = ub s /\ lhs s1 = lhs s /\ rhs s1 = rhs s /\
    log s1 = log s /\ rt s1 = upd (rt s) i t).
  { intros f t Hf Et. cbv zeta.
    repeat split; (rewrite foldS_keep; [reflexivity|]; intros s0 x; destruct (Hf s0 x) as [u [d E]]; rewrite E; reflexivity). }
  destruct lr; [|destruct rr]; cbn [fst] in *; [| |apply KB_refl].
  - destruct (Y (fun s e => lock_lhs (-1) (fst e) (snd e) s) R_LHS_INF) as (A1 & A2 & A3 & A4 & A5 & A6 & A7 & A8 & A9 & A10); auto.
    { intros. apply locks_only_lock_lhs. }
    set (s1 := foldS _ _ _) in *. clearbody s1. apply still_KB; auto.
    + apply sub_same; auto. intros j Tj. sr. rewrite A10. updg; auto. congruence.
    + constructor; sr; rewrite ?A1, ?A2, ?A3, ?A4, ?A5, ?A6, ?A7, ?A8, ?A10; auto.
      * intros j Hj Tj. updg; auto.
      * intros j Hj Tj. split; [auto|]. split; [updg; auto|auto].
  - destruct (Y (fun s e => lock_rhs (-1) (fst e) (snd e) s) R_RHS_INF) as (A1 & A2 & A3 & A4 & A5 & A6 & A7 & A8 & A9 & A10); auto.
    { intros. apply locks_only_lock_rhs. }
    set (s1 := foldS _ _ _) in *. clearbody s1. apply still_KB; auto.
    + apply sub_same; auto. intros j Tj. sr. rewrite A10. updg; auto. congruence.
    + constructor; sr; rewrite ?A1, ?A2, ?A3, ?A4, ?A5, ?A6, ?A7, ?A8, ?A10; auto.
      * intros j Hj Tj. updg; auto.
      * intros j Hj Tj. split; [auto|]. split; [auto|updg; auto].
Qed.
Lemma check_activities_KB : forall s, Inv s -> KB s (fst (check_activities s)).
Proof.
  intros s H. pose proof (l_acts s (inv_L s H)) as HW. unfold check_activities.
  pose proof (for_until_inv INFEASIBLE check_row (fun t => stp s t /\ KB s t) (w_acts s) s) as X.
  destruct (for_until INFEASIBLE check_row (w_acts s) s) as [s1 st]. cbn [fst] in X.
  destruct X as [S1 B1].
  - intros t i Hi [St1 Ft]. assert (Hi' : (i < nr t)%nat) by (rewrite (stp_nr _ _ St1); auto).
    destruct (check_row_stp t i) as [A _]; [apply St1|auto|].
    split; [eapply stp_trans; eauto|]. eapply KB_trans; [exact Ft|]. apply check_row_KB; auto. apply St1.
  - auto using stp_refl, KB_refl.
  - destruct (N.eqb st INFEASIBLE); cbn [fst]; auto. eapply KB_trans; [exact B1|]. apply dir_KB. apply S1.
Qed.
End Kkt.
