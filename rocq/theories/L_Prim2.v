(** Replaying the log: the primal values; simple reductions. *)
From Coq Require Import NArith Lqa.
From Verif Require Import M_Num S_LP M_Settings M_Driver S_Driver M_State M_Act M_Core M_Simple
  M_StonCols M_Dton M_Parallel M_Propagate M_Init M_Post M_Run S_Run S_Struct S_Sem S_Log S_Kkt S_Prim
  L_State L_Struct L_Struct2 L_Struct3 L_Struct4 L_Struct5 L_Struct6 L_Struct11 L_Sem L_Sem2 L_Sem3 L_Sem4 L_Mid L_Mid2
  L_Post L_Post2 L_Post3 L_Kkt L_Kkt2 L_Kkt3 L_Act L_Act2 L_Act3 L_Act4 L_ActP L_Ston3 L_Prim.
Import M_Driver.
Notation bad := M_State.bad.
Notation xv := L_Prim.xv.
Notation sub := L_Prim.sub.
Open Scope Q_scope.
Section Prim.
Variable rtol : nat -> Q.
Variable ctol : Q.
Hypothesis ctol1 : FEAS_TOL <= ctol.
Notation PS := (L_Prim.PS rtol ctol).
Notation PB := (L_Prim.PB rtol ctol).
Notation cover := (L_Prim.cover rtol ctol).

(** ** Close bounds *)
Lemma close_bounds_PB : forall s, Ok s -> Mid s ->
  let '(s', st) := remove_variables_with_close_bounds s in st <> INFEASIBLE -> PB s s'.
Proof.
  intros s OK M. unfold remove_variables_with_close_bounds.
  assert (ND := seq_NoDup (nc s) 0).
  assert (L : forall l t, NoDup l -> (forall k, In k l -> (k < nc s)%nat /\ ct t k = ct s k /\ lb t k = lb s k /\ ub t k = ub s k) ->
    stp s t -> Mid t -> w_sub t = [] -> csz t = csz s -> PB s t ->
    let '(t', st) := for_until INFEASIBLE close_bounds_col l t in stp s t' /\ Mid t' /\ w_sub t' = [] /\ PB s t').
  { clear ND. induction l as [|k l IH]; intros t ND HL S1 M1 W1 C1 K1; cbn [for_until]; [auto|].
    inversion ND; subst. destruct (HL k (or_introl eq_refl)) as (Hk & EC & EL & EU).
    assert (HL' : forall j, In j l -> (j < nc s)%nat /\ ct t j = ct s j /\ lb t j = lb s j /\ ub t j = ub s j) by (intros; apply HL; simpl; auto).
    unfold close_bounds_col at 1. destruct (Z.ltb_spec (csz t k) 0) as [NEG|POS]; cbn [orb].
    { cbn. apply IH; auto. }
    assert (TK : t_cinact (ct s k) = false).
    { apply quiet_col; auto; try apply OK. rewrite <- C1. lia. }
    destruct (t_lb_inf (ct t k) || t_ub_inf (ct t k)) eqn:TI; [cbn; apply IH; auto|].
    destruct (IS_EQUAL_FEAS_TOL _ _) eqn:EQ.
    - cbn [N.eqb UNCHANGED INFEASIBLE].
      assert (Hk' : (k < nc t)%nat) by (rewrite (stp_nc _ _ S1); auto).
      destruct (fix_col_frame t k (fin (lb t k)) (cst t k)) as [A [B _]].
      pose proof (stp_fix_col t k (fin (lb t k)) (cst t k) (st_inv _ _ S1) Hk') as S2.
      pose proof (fix_col_Mid t k (fin (lb t k)) (cst t k) (st_inv _ _ S1) M1 Hk') as M2.
      assert (K2 : PB t (fst (fix_col k (fin (lb t k)) (cst t k) t))).
      { apply fix_col_PB; auto; [apply M1|rewrite EC; auto]. }
      pose proof (fix_col_cases t k (fin (lb t k)) (cst t k)) as FC.
      destruct (fix_col k (fin (lb t k)) (cst t k) t) as [t1 st1]. cbn [fst] in *.
      apply IH; auto.
      + intros j Hj. destruct (HL' j Hj) as (X1 & X2 & X3 & X4). split; auto.
        assert (NE : j <> k) by (intros ->; contradiction).
        destruct FC as [[_ [-> _]]|[_ [_ [_ [A1 [W2 ->]]]]]]; auto. unfold set_col_to_fixed. sr.
        rewrite !upd_other; auto.
      + eapply stp_trans; eauto.
      + apply M2. rewrite EC. auto.
      + congruence.
      + destruct FC as [[_ [-> _]]|[_ [_ [_ [A1 [W2 ->]]]]]]; auto.
      + eapply PB_trans; eauto.
    - destruct (Qgtb _ _); [rewrite N.eqb_refl; auto|]. cbn [N.eqb UNCHANGED INFEASIBLE]. apply IH; auto. }
  specialize (L (seq 0 (nc s)) s ND).
  destruct (for_until INFEASIBLE close_bounds_col (seq 0 (nc s)) s) as [s1 st].
  destruct L as [S1 [M1 [W1 K1]]]; auto.
  - intros k Hk. apply in_seq in Hk. repeat split; auto; lia.
  - apply stp_refl. apply OK.
  - apply OK.
  - apply PB_refl.
  - destruct (N.eqb_spec st INFEASIBLE); [congruence|]. intros _.
    eapply PB_trans; [auto|exact K1|]. apply (finish_PB rtol ctol s1); auto; [apply S1|apply M1|apply M1].
Qed.

(** ** Empty columns *)
Lemma within_side : forall l v u, (l = NInf \/ is_fin l = true) -> (u = PInf \/ is_fin u = true) ->
  (is_fin l = true -> fin l - ctol <= v) -> (is_fin u = true -> v <= fin u + ctol) -> within ctol l v u.
Proof.
  intros l v u C D A B. split.
  - destruct C as [->|C]; [exact I|]. apply ext_le_fin; auto. specialize (A C). lra.
  - destruct D as [->|D]; [exact I|]. apply le_ext_fin; auto. specialize (B D). lra.
Qed.
Lemma empty_col_PB : forall s k, Inv s -> Mid s -> In k (w_empty_cols s) -> PB s (fst (remove_empty_col k s)).
Proof.
  intros s k H M Hin. destruct (l_empty_cols s (inv_L s H) k Hin) as [Hk E].
  assert (NI : forall i a, (i < nr s)%nat -> t_inact (rt s i) = false -> ~ In (k, a) (mA s i)).
  { intros i a Hi T Hi'. pose proof (inv_R s H i k a Hi T Hi') as C.
    apply (w_agree s (inv_0 s H) i k a Hi Hk) in Hi'; auto; [rewrite E in Hi'; auto|apply act_alive; auto; apply H]. }
  assert (X : forall v s0, nr s0 = nr s -> nc s0 = nc s -> rt s0 = rt s -> mA s0 = mA s -> lhs s0 = lhs s -> rhs s0 = rhs s ->
    (forall j, j <> k -> ct s0 j = ct s j /\ lb s0 j = lb s j /\ ub s0 j = ub s j) -> log s0 = log s ->
    (NB s -> t_cinact (ct s k) = false -> within ctol (lb s k) v (ub s k)) -> PB s (close_empty_col k v s0)).
  { intros v s0 A1 A2 A3 A4 A5 A6 A7 A9 P. eapply (fixing_PB rtol ctol s _ k v (cst s0 k) []); auto.
    - unfold close_empty_col. constructor; sr; rewrite ?A3, ?A4, ?A5, ?A6; auto.
      + intros j N. rewrite upd_other by auto. auto.
      + intros i a Hi T Hi'. exfalso. eapply NI; eauto.
    - unfold close_empty_col. sr. rewrite A9. reflexivity.
    - unfold close_empty_col. sr. rewrite upd_same. reflexivity. }
  assert (SD : t_cinact (ct s k) = false -> (if t_lb_inf (ct s k) then lb s k = NInf else is_fin (lb s k) = true) /\
    (if t_ub_inf (ct s k) then ub s k = PInf else is_fin (ub s k) = true)).
  { intros T. split; [apply (tr_lb _ (md_tags _ M) k Hk T)|apply (tr_ub _ (md_tags _ M) k Hk T)]. }
  assert (W : forall v, (NB s -> t_cinact (ct s k) = false -> (t_lb_inf (ct s k) = false -> fin (lb s k) - FEAS_TOL <= v) /\
      (t_ub_inf (ct s k) = false -> v <= fin (ub s k) + FEAS_TOL)) ->
    NB s -> t_cinact (ct s k) = false -> within ctol (lb s k) v (ub s k)).
  { intros v V N T. destruct (SD T) as [S1 S2]. destruct (V N T) as [V1 V2].
    apply within_side.
    - destruct (t_lb_inf (ct s k)); auto.
    - destruct (t_ub_inf (ct s k)); auto.
    - intros F. destruct (t_lb_inf (ct s k)); [rewrite S1 in F; discriminate|]. specialize (V1 eq_refl). lra.
    - intros F. destruct (t_ub_inf (ct s k)); [rewrite S2 in F; discriminate|]. specialize (V2 eq_refl). lra. }
  assert (CR : NB s -> t_cinact (ct s k) = false -> t_lb_inf (ct s k) = false -> t_ub_inf (ct s k) = false ->
    fin (lb s k) <= fin (ub s k) + FEAS_TOL).
  { intros N T T1 T2. destruct (SD T) as [S1 S2]. rewrite T1 in S1. rewrite T2 in S2. apply N; auto. }
  pose proof tol_pos as TP.
  unfold remove_empty_col in *. destruct (Qeqb _ _) eqn:QE; cbn [fst] in *.
  { apply X; auto. apply W. intros N T. specialize (CR N T).
    destruct (negb (t_lb_inf (ct s k)) && Qgtb (fin (lb s k)) 0) eqn:B1.
    - apply andb_true_iff in B1. destruct B1 as [B1 B2]. apply negb_true_iff in B1. split; [intros; lra|]. intros T2. specialize (CR B1 T2). lra.
    - destruct (negb (t_ub_inf (ct s k)) && Qltb (fin (ub s k)) 0) eqn:B2.
      + apply andb_true_iff in B2. destruct B2 as [B2 B3]. apply negb_true_iff in B2. split; [|intros; lra]. intros T2. specialize (CR T2 B2). lra.
      + split; intros T2; rewrite T2 in *; cbn [negb andb] in *; qb; lra. }
  destruct (Qltb _ _) eqn:QL; [destruct (t_ub_inf _) eqn:TU|destruct (t_lb_inf _) eqn:TL]; cbn [fst] in *; try apply PB_refl;
    apply X; auto; sr; try (intros j N; rewrite upd_other by auto; auto).
  - apply W. intros N T. specialize (CR N T). split; [intros T2; specialize (CR T2 eq_refl); lra|intros; lra].
  - apply W. intros N T. specialize (CR N T). split; [intros; lra|intros T2; specialize (CR eq_refl T2); lra].
Qed.
Lemma empty_cols_PB : forall s, Inv s -> Mid s -> w_fixed s = [] -> PB s (fst (remove_empty_cols s)).
Proof.
  intros s H M WF. unfold remove_empty_cols.
  pose proof (for_until_inv UNBNDORINFEAS remove_empty_col
    (fun t => stp s t /\ w_empty_cols t = w_empty_cols s /\ Mid t /\ w_fixed t = [] /\ PB s t) (w_empty_cols s) s) as X.
  destruct (for_until UNBNDORINFEAS remove_empty_col (w_empty_cols s) s) as [s1 st]. cbn [fst] in *.
  destruct X as (S1 & W1 & M1 & F1 & B1).
  - intros t k Hk (S1 & W1 & M1 & F1 & B1). destruct (remove_empty_col_frame t k) as [A [B [C [D [E _]]]]].
    destruct (empty_col_Mid t k (st_inv _ _ S1) M1 F1) as [M2 F2]; [congruence|].
    split; [eapply stp_trans; [exact S1|]; apply stp_empty_col; [apply S1|congruence]|].
    split; [congruence|]. split; [auto|]. split; [auto|].
    eapply PB_trans; [auto|exact B1|]. apply empty_col_PB; auto; [apply S1|congruence].
  - auto 8 using stp_refl, PB_refl.
  - destruct (N.eqb st UNBNDORINFEAS); cbn [fst]; auto. eapply PB_trans; [auto|exact B1|]. apply still_same; reflexivity.
Qed.

(** ** Empty rows *)
Lemma cover_tol : forall s i, cover s -> (i < nr s)%nat -> t_inact (rt s i) = false -> FEAS_TOL <= rtol i.
Proof.
  intros s i C Hi T. specialize (C i Hi T). pose proof tol_pos.
  assert (0 <= (ctol + FEAS_TOL) * norm1 (mA s i)) by (apply Qmult_le_0_compat; [lra|apply norm1_pos]). lra.
Qed.
Lemma empty_row_PB : forall s i, Inv s -> tags_right s -> In i (w_empty_rows s) -> PB s (fst (remove_empty_row i s)).
Proof.
  intros s i H M Hin. destruct (l_empty_rows s (inv_L s H) i Hin) as [Hi [E _]]. pose proof tol_pos as TP.
  unfold remove_empty_row. destruct (_ || _) eqn:B; cbn [fst]; [apply PB_refl|].
  apply (row_PB rtol ctol s _ i 0); auto.
  - intros j N. sr. rewrite upd_other; auto.
  - sr. rewrite upd_same. reflexivity.
  - intros x CV _ _ T. pose proof (cover_tol s i CV Hi T) as RT. apply orb_false_iff in B. destruct B as [B1 B2].
    pose proof (tr_lhs s M i Hi T) as TL. pose proof (tr_rhs s M i Hi T) as TR.
    rewrite E. cbn [dot]. split.
    + destruct (t_lhs_inf (rt s i)); [rewrite TL; exact I|]. apply ext_le_fin; auto. cbn [negb andb] in B1. qb. lra.
    + destruct (t_rhs_inf (rt s i)); [rewrite TR; exact I|]. apply le_ext_fin; auto. cbn [negb andb] in B2. qb. lra.
Qed.
Lemma empty_row_tags : forall s i, tags_right s -> tags_right (fst (remove_empty_row i s)).
Proof.
  intros s i [G1 G2 G3 G4 G5]. unfold remove_empty_row. destruct (_ || _); cbn [fst]; [constructor; auto|].
  constructor; sr; auto; intros j Hj; updg; try discriminate; first [apply G1|apply G2|apply G3]; auto.
Qed.
Lemma empty_rows_PB : forall s, Inv s -> tags_right s -> PB s (fst (remove_empty_rows s)).
Proof.
  intros s H M. unfold remove_empty_rows.
  pose proof (for_until_inv INFEASIBLE remove_empty_row
    (fun t => stp s t /\ w_empty_rows t = w_empty_rows s /\ tags_right t /\ PB s t) (w_empty_rows s) s) as X.
  destruct (for_until INFEASIBLE remove_empty_row (w_empty_rows s) s) as [s1 st]. cbn [fst] in *.
  destruct X as [S1 [W1 [M1 B1]]].
  - intros t k Hk [S1 [W1 [M1 B1]]]. destruct (remove_empty_row_frame t k) as [A [B [C [D [E _]]]]].
    split; [eapply stp_trans; [exact S1|]; apply stp_empty_row; [apply S1|congruence]|].
    split; [congruence|]. split; [apply empty_row_tags; auto|]. eapply PB_trans; [auto|exact B1|]. apply empty_row_PB; [apply S1|auto|congruence].
  - auto using stp_refl, PB_refl.
  - destruct (N.eqb st INFEASIBLE); cbn [fst]; auto. eapply PB_trans; [auto|exact B1|]. apply still_same; reflexivity.
Qed.
End Prim.
