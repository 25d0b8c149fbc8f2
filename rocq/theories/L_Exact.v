(** Parallel rows, stored activities and singleton columns when no tolerance comes into play. *)
From Coq Require Import NArith Lqa Lia Qabs.
From Verif Require Import M_Num S_LP M_Settings M_Driver S_Driver M_State M_Act M_Core M_Simple
  M_StonCols M_Dton M_Parallel M_Propagate M_Init M_Post M_Run S_Run S_Struct S_Sem S_Sem2 S_Sem4 S_Merge S_Trace S_Exact
  L_State L_Struct L_Struct2 L_Struct3 L_Struct4 L_Struct5 L_Struct6 L_Struct7 L_Struct8 L_Struct11
  L_Sem L_Sem2 L_Sem3 L_Sem4 L_Mid L_Mid2 L_Mid3 L_Mid4 L_Mid5 L_ParRow L_Reach L_ParRow2.
Import M_Driver.
Open Scope Q_scope.

Lemma side_of : forall s j, tags_right s -> (j < nr s)%nat -> t_inact (rt s j) = false ->
  (t_rhs_inf (rt s j) = false -> rhs s j = Fin (fin (rhs s j))) /\ (t_lhs_inf (rt s j) = false -> lhs s j = Fin (fin (lhs s j))).
Proof.
  intros s j TR A B. split; intros T; [pose proof (tr_rhs s TR j A B) as X|pose proof (tr_lhs s TR j A B) as X]; rewrite T in X;
  [destruct (rhs s j)|destruct (lhs s j)]; try discriminate; auto.
Qed.

Theorem parallel_rows_exact : forall stgs fits P s s' st, wf_input P -> reached stgs fits P s ->
  w_empty_rows s = [] -> clear_cut (reduced_lp s) -> sides_apart (reduced_lp s) -> remove_parallel_rows s = (s', st) ->
  (st = INFEASIBLE -> infeasible (reduced_lp s)) /\
  (st <> INFEASIBLE -> carries_over anything (reduced_lp s) (reduced_lp s')).
Proof.
  intros stgs fits P s s' st WF RC WE CC SA EQ.
  destruct (reached_ok stgs fits P s WF RC) as [OK M]. assert (H := ok_inv s OK).
  assert (TR := md_tags s M).
  assert (SP := par_rows_spec s H (ok_nx s OK) (ok_quiet s OK) WE). rewrite EQ in SP. destruct SP as [ST [QU' _]].
  assert (M' : Mid s') by (pose proof (par_rows_Mid s H M (ok_nx s OK) (ok_quiet s OK) WE) as X; rewrite EQ in X; exact X).
  assert (OK' : Ok s') by (constructor; auto; [apply ST|apply ST; apply OK]).
  unfold remove_parallel_rows, remove_parallel_rows_with in EQ.
  pose proof (par_groups_live s H (ok_nx s OK) (ok_quiet s OK) WE) as HL.
  pose proof (hash_bins_ok (mA s) (fun i => t_inact (rt s i)) (nr s)) as BO.
  set (bins := hash_bins _ _ _) in *.
  assert (ND := groups_nd (mA s) (fun i => t_inact (rt s i)) bins (bo_nd _ _ _ BO)).
  assert (GF : forall g, In g (groups_of (mA s) bins) -> exists f l, g = find_parallel_rows_in_bin (mA s) (f :: l)).
  { intros g Hg. assert (Hg' := Hg). apply groups_in in Hg'. destruct Hg' as [[|f l] [_ ->]]; eauto.
    apply filter_In in Hg. destruct Hg as [_ Hg]. discriminate. }
  assert (NN : forall g, In g (groups_of (mA s) bins) -> g <> []).
  { intros g Hg. apply filter_In in Hg. destruct Hg as [_ Hg]. intros ->. discriminate. }
  assert (GS : forall g, In g (groups_of (mA s) bins) -> forall i j, In i g -> In j g -> scaled (fc s j / fc s i) (mA s j) (mA s i)).
  { intros g Hg. apply (group_scaled s g H CC); auto. intros; eapply HL; eauto. }
  pose proof (row_bins_stp _ s H ND HL) as S1. pose proof (row_bins_Mid _ s H M ND HL) as M1.
  pose proof (row_bins_sem _ s H M ND HL NN) as SM.
  set (gs := groups_of (mA s) bins) in *. clearbody gs.
  destruct (process_row_bins gs s) as [s1 st1]. cbn [fst] in M1.
  injection EQ as <- <-. destruct S1 as [S1 _]. destruct SM as [CF [OUT [INF KEPT]]].
  assert (H1 := st_inv _ _ S1).
  destruct (dir_sem s1 H1) as [DS [DO [_ [_ [DF [DA _]]]]]]. cbv zeta in *.
  set (s' := delete_inactive_rows s1) in *.
  assert (VAL : forall g x, In g gs -> exists t, forall j, In j g -> dot (mA s j) x == fc s j * t).
  { intros g x Hg. destruct g as [|i g]; [elim (NN _ Hg); auto|].
    assert (F := live_fine s i H (HL _ i Hg (or_introl eq_refl))).
    exists (dot (mA s i) x / fc s i). intros j Hj. rewrite (scaled_dot _ _ _ x (GS _ Hg i j (or_introl eq_refl) Hj)). field. apply F. }
  assert (ROWS : forall x, sat exactly exactly s x -> forall g, In g gs -> exists t,
     (forall j, In j g -> dot (mA s j) x == fc s j * t) /\ forall j, In j g -> R0 s j t).
  { intros x [SR _] g Hg. destruct (VAL g x Hg) as [t T]. exists t. split; auto. intros j Hj.
    destruct (HL g j Hg Hj) as [A [B _]]. specialize (SR j A B). apply (within_tags s j _ _ TR A B) in SR. unfold exactly in SR.
    destruct SR as [L U]. split; [revert U; apply SU_ext|revert L; apply SL_ext]; rewrite T by auto; ring. }
  assert (TI : forall g, In g gs -> tight s g).
  { intros g Hg i j k l u Hi Hj Hk HLo HUp LT.
    assert (LV : forall j, In j g -> In j (live_rows s)).
    { intros z Hz. destruct (HL g z Hg Hz) as [A [B C]]. apply live_rows_in. split; auto. apply act_alive; auto. apply H. }
    assert (SD : forall j, In j g -> (t_rhs_inf (rt s j) = false -> rhs s j = Fin (fin (rhs s j))) /\ (t_lhs_inf (rt s j) = false -> lhs s j = Fin (fin (lhs s j)))).
    { intros z Hz. destruct (HL g z Hg Hz) as [A [B C]]. apply side_of; auto. }
    apply (SA i j k l u); auto; try (apply LV; auto).
    - destruct HLo as [[Q [T E]]|[Q [T E]]]; exists (fc s j / fc s i); [exists (fin (lhs s j))|exists (fin (rhs s j))];
      (split; [apply (GS g); auto|split; [auto|]]); [left|right]; split; auto; apply SD; auto.
    - destruct HUp as [[Q [T E]]|[Q [T E]]]; exists (fc s k / fc s i); [exists (fin (rhs s k))|exists (fin (lhs s k))];
      (split; [apply (GS g); auto|split; [auto|]]); [left|right]; split; auto; apply SD; auto. }
  split; [|intros NI].
  - intros EI x FX. apply (sat_feasible s x OK) in FX. destruct (INF EI) as [g [Hg G]].
    destruct (ROWS x FX g Hg) as [t [T1 T2]]. destruct (G t T2) as [_ NT]. apply NT. auto.
  - intros x FX _. split.
    2:{ rewrite <- !obj_reduced. rewrite DO. unfold obj, live_cols. rewrite (cf_off _ _ CF), (cf_nc _ _ CF), (cf_csz _ _ CF), (cf_cst _ _ CF). lra. }
    apply (sat_feasible s x OK) in FX. apply (sat_feasible s' x OK'). apply DS.
    assert (FX0 := FX). destruct FX as [SR [SC SPN]].
    split; [|split].
    + intros i Hi Ti. destruct (in_dec Nat.eq_dec i (concat gs)) as [I|I].
      * apply in_concat in I. destruct I as [g [Hg Hig]]. destruct (KEPT NI g Hg) as [r [K1 K2 K3 K4 KE K5]].
        destruct (Nat.eq_dec i r) as [->|NE]; [|rewrite (K3 i Hig NE) in Ti; discriminate].
        destruct (ROWS x FX0 g Hg) as [t [T1 T2]]. apply (within_tags s1 r _ _ (md_tags _ M1) Hi Ti).
        destruct (KE (TI g Hg) t T2) as [U L]. rewrite (cf_A _ _ CF). unfold exactly.
        split; [revert L; apply SL_ext|revert U; apply SU_ext]; rewrite T1 by auto; ring.
      * destruct (OUT i I) as [A [B C]]. rewrite A, B, (cf_A _ _ CF). rewrite C in Ti. rewrite (cf_nr _ _ CF) in Hi.
        apply SR; auto.
    + intros k. rewrite (cf_nc _ _ CF), (cf_ct _ _ CF), (cf_lb _ _ CF), (cf_ub _ _ CF). apply SC.
    + unfold pinned. rewrite (cf_fx _ _ CF), (cf_sb _ _ CF), (cf_ub _ _ CF). exact SPN.
Qed.
