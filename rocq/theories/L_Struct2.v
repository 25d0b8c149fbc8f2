(** The structural invariant under the column deletion and the single steps of the explorers. *)
From Coq Require Import NArith Sorted.
From Verif Require Import M_Num S_LP M_Driver M_State M_Act M_Core M_Simple M_StonCols M_Dton
  L_State L_Struct.

Record after_dic (s s' : state) : Prop := {
  dic_frame : exists MT r c M st n wd ws we,
    s' = set_w_sub [] (set_w_fixed [] (set_nnz n (set_stale st (set_w_dton wd (set_w_ston_rows ws
           (set_w_empty_rows we (set_mA M (set_mAT MT (set_rsz r (set_csz c s))))))))));
  dic_csz : forall k, (k < nc s)%nat ->
            csz s' k = if t_cinact (ct s k) then (-1)%Z else csz s k;
  dic_AT : forall k, (k < nc s)%nat -> mAT s' k = if t_cinact (ct s k) then [] else mAT s k;
  dic_rsz : forall i, (i < nr s)%nat -> (rsz s' i = (-1)%Z <-> rsz s i = (-1)%Z);
  dic_rle : forall i, (rsz s' i <= rsz s i)%Z;
  dic_A : forall i, (i < nr s)%nat -> t_inact (rt s i) = false ->
          mA s' i = filter (fun e => negb (t_cinact (ct s (fst e)))) (mA s i);
  dic_Apend : forall i, (i < nr s)%nat -> t_inact (rt s i) = true -> mA s' i = mA s i;
  dic_nnz : nnz s' = (nnz s - zsum (fun i => Z_len (mA s i) - Z_len (mA s' i)) (seq 0 (nr s)))%Z;
  dic_ston : forall i, In i (w_ston_rows s') -> In i (w_ston_rows s) \/
             (t_inact (rt s i) = false /\ (i < nr s)%nat /\
              exists k a, In (k, a) (mA s i) /\ t_cinact (ct s k) = true /\ (k < nc s)%nat /\
                          csz s k <> (-1)%Z);
  dic_empty : forall i, In i (w_empty_rows s') -> In i (w_empty_rows s) \/ t_inact (rt s i) = false }.

Lemma NoDup_app_disj : forall A (l1 l2 : list A), NoDup l1 -> NoDup l2 ->
  (forall x, In x l2 -> ~ In x l1) -> NoDup (l1 ++ l2).
Proof.
  induction l1 as [|x l IH]; simpl; intros l2 N1 N2 D; auto.
  inversion N1; subst. constructor.
  - rewrite in_app_iff. intros [C|C]; auto. apply (D x C). auto.
  - apply IH; auto. intros y Hy Hl. apply (D y Hy). auto.
Qed.

Lemma delete_inactive_cols_Inv : forall s, Inv s -> w_sub s = [] \/ w_ston_rows s = [] ->
  Inv (delete_inactive_cols_from_A_and_AT s) /\
  after_dic s (delete_inactive_cols_from_A_and_AT s).
Proof.
  intros s [H TR TC L] PRE.
  assert (AC : forall k, (k < nc s)%nat -> t_cinact (ct s k) = true -> ~ In k (w_fixed s ++ w_sub s) ->
                 csz s k = (-1)%Z).
  { intros i Hi T N. destruct (Z.eq_dec (csz s i) (-1)); auto. exfalso. apply N.
    rewrite in_app_iff. apply (l_pend s L); auto. }
  assert (LI : forall k, In k (w_fixed s ++ w_sub s) -> (k < nc s)%nat /\ t_cinact (ct s k) = true).
  { intros k Hk. apply in_app_or in Hk. unfold t_cinact.
    destruct Hk as [Hk|Hk]; [apply (l_fixed s L) in Hk | apply (l_sub s L) in Hk];
      destruct Hk as [A ->]; split; auto. apply orb_true_r. }
  assert (E0 : delete_inactive_cols_from_A_and_AT s = set_w_sub [] (set_w_fixed []
     (foldS compact_row (seq 0 (nr s)) (foldS delete_col (w_fixed s ++ w_sub s) s)))).
  { unfold delete_inactive_cols_from_A_and_AT. rewrite foldS_app. reflexivity. }
  rewrite E0. clear E0.
  destruct (delete_cols_fold (w_fixed s ++ w_sub s) s H LI) as
    [MT [r [c [E [H1 [CL [RL [CC MM]]]]]]]].
  set (s1 := foldS delete_col (w_fixed s ++ w_sub s) s) in *.
  assert (CI : forall k, (k < nc s)%nat -> c k = if t_cinact (ct s k) then (-1)%Z else csz s k).
  { intros k Hk. rewrite CC. destruct (memb k _) eqn:B.
    - apply memb_In in B. apply LI in B. destruct B as [_ ->]. reflexivity.
    - apply memb_nIn in B. destruct (t_cinact (ct s k)) eqn:T; auto. }
  assert (MI : forall k, (k < nc s)%nat -> MT k = if t_cinact (ct s k) then [] else mAT s k).
  { intros k Hk. rewrite MM. destruct (memb k _) eqn:B.
    - apply memb_In in B. apply LI in B. destruct B as [_ ->]. reflexivity.
    - apply memb_nIn in B. destruct (t_cinact (ct s k)) eqn:T; auto.
      apply (w_cdead s H); auto. }
  destruct (compact_rows_fold (seq 0 (nr s)) s1 (seq_NoDup _ _)) as [M [st [n [E2 [HM [HS HN]]]]]].
  { intros i Hi T. apply (w_ract s1 H1); auto. rewrite E. sr. apply in_seq in Hi. lia. }
  rewrite E2. rewrite E in HM, HS, HN, E2 |- *. sr in HM. sr in HN. sr in HS. sr.
  assert (WX : forall z i, wants_compact_row (set_mAT MT (set_rsz r (set_csz c s))) z i =
     negb (t_inact (rt s i)) && negb (Z.eqb (r i) (Z_len (mA s i))) && Z.eqb (r i) z) by reflexivity.
  assert (HMA : forall i, (i < nr s)%nat -> t_inact (rt s i) = false -> M i = dropr c (mA s i)).
  { intros k Hk T. rewrite HM, T, (proj2 (seq_memb _ _) Hk). reflexivity. }
  assert (HMI : forall i, t_inact (rt s i) = true -> M i = mA s i).
  { intros k T. rewrite HM, T, andb_false_r. reflexivity. }
  assert (RS : forall i, (i < nr s)%nat -> t_inact (rt s i) = false -> r i = Z_len (dropr c (mA s i))).
  { intros k Hk T. pose proof (w_ract s1 H1 k) as W. rewrite E in W. sr in W. auto. }
  assert (HML : forall i e, In e (M i) -> In e (mA s i)).
  { intros k e. rewrite HM. destruct (_ && _); auto. intros He. apply dropr_In in He. tauto. }
  assert (WIN : forall z i, In i (filter (wants_compact_row (set_mAT MT (set_rsz r (set_csz c s))) z) (seq 0 (nr s))) ->
            (i < nr s)%nat /\ t_inact (rt s i) = false /\ r i = z /\ r i <> Z_len (mA s i)).
  { intros z i Hi. apply filter_In in Hi. destruct Hi as [Hi W]. apply in_seq in Hi.
    rewrite WX, !andb_true_iff, !negb_true_iff, Z.eqb_eq, Z.eqb_neq in W. intuition lia. }
  assert (DEAD : forall i k a, (i < nr s)%nat -> t_inact (rt s i) = false -> In (k, a) (mA s i) ->
            c k = (-1)%Z -> t_cinact (ct s k) = true /\ (k < nc s)%nat /\ csz s k <> (-1)%Z /\
                            (w_ston_rows s <> [] -> t_fixed (ct s k) = true)).
  { intros i k a Hi T Hin Ck. destruct (w_rin s H i k a Hi Hin) as [Hk _].
    pose proof (TR i k a Hi T Hin) as NC. rewrite CI in Ck by auto.
    destruct (t_cinact (ct s k)) eqn:TK; [|congruence]. repeat split; auto. intros NS.
    destruct PRE as [P|P]; [|congruence].
    destruct (l_pend s L k Hk TK NC) as [F|F]; [|rewrite P in F; contradiction].
    apply (l_fixed s L k F). }
  split.
  - constructor.
    + rewrite E in H1. destruct H1 as [A1 A2 A3 A4 A5 A6 A7 A8 A9 A10 A11].
      constructor; sr; sr in A1; sr in A2; sr in A3; sr in A4; sr in A5; sr in A6; sr in A7;
        sr in A8; sr in A9; sr in A10; sr in A11; auto.
      * intros i Hi. rewrite HM. destruct (_ && _); [apply dropr_srt|]; auto.
      * intros i k a Hi Hin. apply (A5 i k a Hi). auto.
      * intros i k a Hi Hk Ri Ck. rewrite <- A7 by auto. rewrite HM.
        destruct (_ && _); [|reflexivity]. rewrite dropr_In. simpl. tauto.
      * intros i Hi T. rewrite HMA by auto. rewrite RS by auto. f_equal.
        unfold dropr. symmetry. apply filter_all. intros e He. apply filter_In in He. tauto.
      * intros i Hi Ri. etransitivity; [|apply A9; auto]. unfold Z_len.
        rewrite HM. destruct (_ && _); [|lia]. pose proof (dropr_len c (dropr c (mA s i))). lia.
    + intros i k a. sr. intros Hi T Hin. rewrite HMA in Hin by auto. apply dropr_In in Hin. tauto.
    + intros i k a. sr. intros Hk T Hin. rewrite MI, T in Hin by auto.
      intros Ri. destruct (w_cin s H i k a Hk Hin) as [Hi _].
      apply CL in Ri; auto. revert Ri. eapply TC; eauto.
    + constructor; sr.
      * apply (l_rows_nd s L).
      * intros i. rewrite (l_rows s L). split; intros [A [B C]]; (split; [auto|split; [auto|]]);
          intros C'; apply C; apply CL; auto.
      * simpl. tauto.
      * simpl. tauto.
      * intros k Hk T Ck. rewrite CI, T in Ck by auto. congruence.
      * intros i Hi. apply in_app_or in Hi. destruct Hi as [Hi|Hi].
        -- destruct (l_ston_rows s L i Hi) as [A B]. split; auto. intros T. specialize (B T).
           rewrite HS, WX, T, (proj2 (seq_memb _ _) A). cbn [negb andb].
           rewrite HMA by auto. rewrite RS by auto.
           destruct B as [B|[B F]].
           ++ destruct (mA s i) as [|[k a] [|]] eqn:EA; try discriminate B.
              cbn [head_of fst]. unfold dropr. cbn [filter fst].
              destruct (Z.eqb_spec (c k) (-1)) as [Ck|]; cbn [negb]; [|left; reflexivity].
              right. split; auto.
              destruct (DEAD i k a A T) as [_ [_ [_ F]]]; auto.
              { rewrite EA. left. reflexivity. }
              apply F. intros C. rewrite C in Hi. contradiction.
           ++ right. rewrite B. unfold dropr. cbn [filter]. split; auto.
        -- apply WIN in Hi. destruct Hi as [A [T [R1 _]]]. split; auto. intros _. left.
           rewrite HMA by auto. rewrite RS in R1 by auto. unfold Z_len in R1. lia.
      * intros i Hi T R0. rewrite in_app_iff.
        destruct (Z.eq_dec (rsz s i) 0) as [e|N0]; [left; apply (l_empty_rows_c s L); auto|].
        right. apply filter_In. split; [apply in_seq; lia|].
        rewrite WX, T, R0, Z.eqb_refl, andb_true_r. cbn [negb andb].
        destruct (Z.eqb_spec 0 (Z_len (mA s i))) as [e0|]; auto. exfalso.
        pose proof (tight_rsz s i H TR Hi T). lia.
      * intros i Hi. apply in_app_or in Hi. destruct Hi as [Hi|Hi].
        -- destruct (l_empty_rows s L i Hi) as [A [B C]]. split; auto. split.
           ++ rewrite HM, B. destruct (_ && _); reflexivity.
           ++ intros T. apply CL; auto.
        -- apply WIN in Hi. destruct Hi as [A [T [R1 _]]]. split; auto.
           rewrite RS in R1 by auto. rewrite HMA by auto. split; [|congruence].
           destruct (dropr c (mA s i)); auto. discriminate.
      * intros k Hk T C0. rewrite CI, T in C0 by auto. apply (l_empty_cols_c s L); auto.
      * intros k Hk. destruct (l_empty_cols s L k Hk) as [A B]. split; auto.
        rewrite MI by auto. destruct (t_cinact _); auto.
      * apply (l_ston_cols_nd s L).
      * intros k Hk. destruct (l_ston_cols s L k Hk) as [A B]. split; auto.
        rewrite CI by auto. destruct (t_cinact _); lia.
      * intros i Hi. apply in_app_or in Hi. destruct Hi as [Hi|Hi].
        -- destruct (l_dton s L i Hi) as [A B]. split; auto. specialize (RL i). lia.
        -- apply filter_In in Hi. destruct Hi as [Hi W]. apply andb_true_iff in W. destruct W as [W _].
           destruct (WIN 2%Z i) as [A [T [R1 _]]]; [apply filter_In; auto|]. split; auto. lia.
      * exact (l_acts s L).
  - constructor; sr; auto.
    + do 9 eexists. reflexivity.
    + intros i Hi T. rewrite HMA by auto. unfold dropr. apply filter_ext_in.
      intros [k a] He. simpl. destruct (w_rin s H i k a Hi He) as [Hk _].
      rewrite CI by auto. destruct (t_cinact (ct s k)) eqn:Tk; [reflexivity|]. simpl.
      apply negb_true_iff, Z.eqb_neq. eapply TR; eauto.
    + intros i Hi. apply in_app_or in Hi. destruct Hi as [Hi|Hi]; auto. right.
      apply WIN in Hi. destruct Hi as [A [T [R1 NL]]]. split; auto. split; auto.
      rewrite RS in NL by auto.
      destruct (existsb (fun e => Z.eqb (c (fst e)) (-1)) (mA s i)) eqn:B.
      * apply existsb_exists in B. destruct B as [[k a] [Hin Ck]]. apply Z.eqb_eq in Ck. simpl in Ck.
        destruct (DEAD i k a A T Hin Ck) as [D1 [D2 [D3 _]]]. exists k, a. auto.
      * exfalso. apply NL. f_equal. unfold dropr. apply filter_all. intros e He.
        apply negb_true_iff. destruct (Z.eqb (c (fst e)) (-1)) eqn:X; auto.
        rewrite <- B. symmetry. apply existsb_exists. exists e. auto.
    + intros i Hi. apply in_app_or in Hi. destruct Hi as [Hi|Hi]; auto. right.
      apply WIN in Hi. tauto.
Qed.
