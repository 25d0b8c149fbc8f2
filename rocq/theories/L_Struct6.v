(** Singleton columns preserve the structural invariant, and their loop ends. *)
From Coq Require Import NArith Sorted.
From Verif Require Import M_Num S_LP M_Driver M_State M_Act M_Core M_Simple M_StonCols
  L_State L_Struct L_Struct2 L_Struct3 L_Struct4 L_Struct5.

(** ** One entry is cut out of a row and its column goes *)
Definition cut (i k : nat) (t : coltag) (s : state) : state :=
  setAT k [] (set_csz1 k (-1)%Z (set_ct1 k t (set_nnz (nnz s - 1)%Z
    (set_rsz1 i (rsz s i - 1)%Z (setA i (del_entry k (mA s i)) s))))).

Lemma cut_Inv : forall s i k a t, Inv s -> (i < nr s)%nat -> (k < nc s)%nat ->
  t_inact (rt s i) = false -> t_cinact (ct s k) = false -> mAT s k = [(i, a)] -> (2 <= rsz s i)%Z ->
  (t_fixed (ct s k) = true -> t_fixed t = true) -> (t_sub (ct s k) = true -> t_sub t = true) ->
  t_cinact t = true -> Inv (cut i k t s).
Proof.
  intros s i k a t [H TR TC L] Hi Hk Ti Tk EK R2 M1 M2 M3. unfold cut.
  pose proof (act_alive s i H Hi Ti) as RA. pose proof (cact_alive s k H Hk Tk) as CA.
  pose proof (tight_rsz s i H TR Hi Ti) as RS.
  assert (Hin : In (k, a) (mA s i)).
  { apply (w_agree s H); auto. rewrite EK. left; reflexivity. }
  pose proof (del_entry_len k a (mA s i) (w_rsrt s H i Hi) Hin) as DL.
  assert (OC : forall j b, (j < nr s)%nat -> rsz s j <> (-1)%Z -> In (k, b) (mA s j) -> j = i).
  { intros j b Hj Rj X. apply (w_agree s H j k b Hj Hk Rj CA) in X. rewrite EK in X.
    destruct X as [X|[]]. congruence. }
  assert (TT : forall j, t_cinact (upd (ct s) k t j) = false -> j <> k /\ t_cinact (ct s j) = false).
  { intros j. updg; [congruence|auto]. }
  assert (F : forall j, t_fixed (ct s j) = true -> t_fixed (upd (ct s) k t j) = true).
  { intros j. updg; auto. }
  assert (S : forall j, t_sub (ct s j) = true -> t_sub (upd (ct s) k t j) = true).
  { intros j. updg; auto. }
  assert (RI : forall j, upd (rsz s) i (rsz s i - 1)%Z j = (-1)%Z <-> rsz s j = (-1)%Z).
  { intros j. updg; [|tauto]. lia. }
  assert (DI : dropr (upd (csz s) k (-1)%Z) (del_entry k (mA s i)) = del_entry k (mA s i)).
  { apply filter_all. intros [j b] Hj. apply del_entry_In in Hj. cbn [fst] in *. destruct Hj as [Hj N].
    rewrite upd_other by auto. apply negb_true_iff, Z.eqb_neq. eapply TR; eauto. }
  assert (DX : forall j, (j < nr s)%nat -> rsz s j <> (-1)%Z -> j <> i ->
             dropr (upd (csz s) k (-1)%Z) (mA s j) = dropr (csz s) (mA s j)).
  { intros j Hj Rj N. rewrite dropr_kill. apply del_entry_absent. intros [b Hb].
    apply dropr_In in Hb. apply N. eapply OC; eauto. apply Hb. }
  constructor.
  - destruct H as [A1 A2 A3 A4 A5 A6 A7 A8 A9 A10 A11]. constructor; sr; auto.
    + intros j Hj R. apply RI in R. auto.
    + intros j Hj R. updg; auto. rewrite upd_other in R by auto. auto.
    + intros j Hj. updg; auto. apply del_entry_srt; auto.
    + intros j Hj. updg; auto. apply srt_nil.
    + intros j c b Hj X. updh X; [|eapply A5; eauto]. apply del_entry_In in X. eapply A5; [exact Hi|apply X].
    + intros j c b Hj X. updh X; [contradiction|]. eapply A6; eauto.
    + intros j c b Hj Hc Rj Cc. updh Cc. rewrite (upd_other _ (mAT s)) by auto.
      assert (R : rsz s j <> (-1)%Z) by (intros X; apply Rj, RI; auto).
      updg; [|auto]. rewrite del_entry_In. cbn [fst]. rewrite <- A7 by auto. tauto.
    + intros j Hj T. updg.
      * rewrite DI. unfold Z_len in *. lia.
      * rewrite DX; auto. intros X. rewrite (A1 j Hj X) in T. discriminate.
    + intros j Hj Rj. assert (R : rsz s j <> (-1)%Z) by (intros X; apply Rj, RI; auto). updg.
      * rewrite DI. unfold Z_len in *. lia.
      * rewrite DX; auto.
    + intros j Hj T. apply TT in T. destruct T as [N T]. rewrite !upd_other by auto.
      rewrite A10 by auto. f_equal. apply dropr_ext. intros e _. symmetry. apply RI.
    + intros j Hj Cj. updh Cj. rewrite !(upd_other _ _ k) by auto.
      rewrite (dropr_ext (rsz s)); auto.
  - intros j c b. sr. intros Hj T X. updg.
    + intros _. updh X; [apply del_entry_In in X; tauto|].
      apply OC in X; auto. intros Y. rewrite (w_rdead s H j Hj Y) in T. discriminate.
    + updh X; [apply del_entry_In in X; eapply TR; [exact Hi|auto|apply X]|eapply TR; eauto].
  - intros j c b. sr. intros Hc T X. apply TT in T. rewrite upd_other in X by tauto.
    rewrite RI. eapply TC; [exact Hc|tauto|exact X].
  - assert (NE : mA s i <> []) by (intros E; rewrite E in Hin; contradiction).
    destruct L as [B1 B2 B3 B4 B5 B6 B7 B8 B9 B10 B11 B12 B13 B14]. constructor; sr; auto.
    + intros j. rewrite B2, RI. reflexivity.
    + intros j Hj. destruct (B3 j Hj). auto.
    + intros j Hj. destruct (B4 j Hj). auto.
    + intros j Hj T Cj. updh Cj. rewrite upd_other in T by auto. auto.
    + intros j Hj. destruct (B6 j Hj) as [C D]. split; auto. intros T. specialize (D T).
      destruct (Nat.eq_dec j i) as [->|N];
        [|rewrite upd_other by auto; destruct D as [Z1|[Z1 Z2]]; auto].
      exfalso. destruct D as [Z1|[Z1 _]]; [|auto]. unfold Z_len in RS. rewrite Z1 in RS. lia.
    + intros j Hj T R. updh R; [lia|auto].
    + intros j Hj. destruct (B8 j Hj) as [C [D E]]. split; auto. split.
      * updg; auto. contradiction.
      * intros T. apply RI. auto.
    + intros j Hj T C. apply TT in T. rewrite upd_other in C by tauto. apply B9; tauto.
    + intros j Hj. destruct (B10 j Hj) as [C D]. split; auto. updg; auto.
    + intros j Hj. destruct (B12 j Hj) as [C D]. split; auto. updg; lia.
    + intros j Hj. destruct (B13 j Hj) as [C D]. split; auto. updg; lia.
Qed.

Lemma cut_stp : forall s i k a t, Inv s -> (i < nr s)%nat -> (k < nc s)%nat ->
  t_inact (rt s i) = false -> t_cinact (ct s k) = false -> mAT s k = [(i, a)] -> (2 <= rsz s i)%Z ->
  (t_fixed (ct s k) = true -> t_fixed t = true) -> (t_sub (ct s k) = true -> t_sub t = true) ->
  t_cinact t = true -> stp s (cut i k t s).
Proof.
  intros s i k a t H Hi Hk Ti Tk EK R2 M1 M2 M3.
  assert (Hin : In (k, a) (mA s i)).
  { apply (w_agree s (inv_0 s H)); auto.
    - apply (act_alive s i (inv_0 s H)); auto.
    - apply (cact_alive s k (inv_0 s H)); auto.
    - rewrite EK. left; reflexivity. }
  pose proof (del_entry_len k a (mA s i) (w_rsrt s (inv_0 s H) i Hi) Hin) as DL.
  constructor; [eapply cut_Inv; eauto| |].
  - unfold cut. constructor; sr; auto; intros; try lia; updg; auto; try lia.
  - intros [A B C]. unfold cut. constructor; sr.
    + rewrite A.
      rewrite (zsum_ext (fun i0 => Z_len (upd (mA s) i (del_entry k (mA s i)) i0))
                        (upd (fun i0 => Z_len (mA s i0)) i (Z_len (mA s i) - 1)%Z)).
      * rewrite zsum_upd; [|apply seq_NoDup|apply in_seq; lia]. lia.
      * intros j _. updg; auto. unfold Z_len. lia.
    + intros j Hj R. updh R.
      * updg. rewrite B; auto; [unfold Z_len; lia|]. lia.
      * rewrite !upd_other by auto. auto.
    + intros j Hj R. updh R; [lia|]. rewrite upd_other by auto. auto.
Qed.

Lemma view_full : forall s i, Inv s -> (i < nr s)%nat -> t_inact (rt s i) = false ->
  row_view s i = mA s i.
Proof.
  intros s i H Hi T. unfold row_view. rewrite (tight_rsz s i (inv_0 s H) (inv_R s H) Hi T).
  unfold Z_len. rewrite Nat2Z.id. apply firstn_all.
Qed.

Lemma push_ston_stp : forall s i, Inv s -> (i < nr s)%nat -> t_inact (rt s i) = false ->
  rsz s i = 1%Z -> stp s (push_ston_rows i s).
Proof.
  intros s i H Hi T R. pose proof (tight_rsz s i (inv_0 s H) (inv_R s H) Hi T) as E.
  constructor.
  - destruct H as [H TR TC L]. constructor; auto.
    + destruct H; constructor; sr; auto.
    + destruct L as [B1 B2 B3 B4 B5 B6 B7 B8 B9 B10 B11 B12 B13 B14]. constructor; sr; auto.
      intros j Hj. apply in_app_or in Hj. destruct Hj as [Hj|[<-|[]]]; auto. split; auto.
      intros _. left. unfold Z_len in E. lia.
  - constructor; sr; auto; intros; lia.
  - intros [A B C]. constructor; sr; auto.
Qed.
Lemma push_dton_stp : forall s i, Inv s -> (i < nr s)%nat -> (rsz s i <= 2)%Z -> stp s (push_dton i s).
Proof.
  intros s i H Hi R.
  constructor.
  - destruct H as [H TR TC L]. constructor; auto.
    + destruct H; constructor; sr; auto.
    + destruct L as [B1 B2 B3 B4 B5 B6 B7 B8 B9 B10 B11 B12 B13 B14]. constructor; sr; auto.
      intros j Hj. apply in_app_or in Hj. destruct Hj as [Hj|[<-|[]]]; auto.
  - constructor; sr; auto; intros; lia.
  - intros [A B C]. constructor; sr; auto.
Qed.

(** ** The measure *)
Definition nneq (s : state) : nat :=
  length (filter (fun i => negb (t_inact (rt s i)) && negb (t_eq (rt s i))) (seq 0 (nr s))).
Definition mu (s : state) : nat := (2 * ncact s + nneq s)%nat.

Lemma filter_one_le : forall (p q : nat -> bool) i n, (forall j, j <> i -> p j = q j) ->
  (length (filter p (seq 0 n)) <= S (length (filter q (seq 0 n))))%nat.
Proof.
  intros p q i n PQ.
  assert (X : forall l, NoDup l -> (length (filter p l) <=
     length (filter q l) + (if existsb (Nat.eqb i) l then 1 else 0))%nat).
  { induction l as [|x l IH]; simpl; intros ND; auto. inversion ND; subst.
    specialize (IH H2). destruct (Nat.eqb_spec i x) as [->|N].
    - replace (existsb (Nat.eqb x) l) with false in IH.
      + simpl. destruct (p x), (q x); simpl; lia.
      + symmetry. destruct (existsb (Nat.eqb x) l) eqn:E; auto. exfalso. apply H1.
        apply existsb_exists in E. destruct E as [y [Hy E]]. apply Nat.eqb_eq in E. subst; auto.
    - rewrite PQ by auto. simpl. destruct (q x); simpl; lia. }
  specialize (X (seq 0 n) (seq_NoDup n 0)). destruct (existsb _ _); lia.
Qed.

Record colstep (s s' : state) (i k : nat) : Prop := mkColstep {
  cs_nr : nr s' = nr s;  cs_nc : nc s' = nc s;
  cs_rt : forall j, j <> i -> rt s' j = rt s j;
  cs_ct : forall j, j <> k -> ct s' j = ct s j;
  cs_k : t_cinact (ct s' k) = true }.
Lemma colstep_mu : forall s s' i k, colstep s s' i k -> (k < nc s)%nat -> t_cinact (ct s k) = false ->
  (mu s' < mu s)%nat.
Proof.
  intros s s' i k [E1 E2 EX ET IT] Hk Tk. unfold mu.
  assert (A : (nneq s' <= S (nneq s))%nat).
  { unfold nneq. rewrite E1. apply filter_one_le with (i := i). intros j N. rewrite EX by auto. auto. }
  assert (B : (ncact s' < ncact s)%nat).
  { unfold ncact. rewrite E2. apply filter_lt with (y := k).
    - intros j _. destruct (Nat.eq_dec j k) as [->|N]; [rewrite IT; discriminate|].
      rewrite ET by auto. auto.
    - apply in_seq; lia.
    - rewrite IT. reflexivity.
    - rewrite Tk. reflexivity. }
  lia.
Qed.

(** ** One column *)
Record colfr (s s' : state) (k : nat) : Prop := mkColfr {
  cf_w2 : w_fixed s' = w_fixed s;  cf_w3 : w_sub s' = w_sub s;
  cf_col : forall j, j <> k -> csz s' j = csz s j /\ ct s' j = ct s j /\ mAT s' j = mAT s j }.
Lemma colfr_refl : forall s k, colfr s s k. Proof. constructor; auto. Qed.

Definition col_ok (s s' : state) (k : nat) (st : status) : Prop :=
  stp s s' /\ colfr s s' k /\
  (st = UNCHANGED /\ s' = s \/ st = REDUCED /\ (mu s' < mu s)%nat \/ st = UNBNDORINFEAS /\ s' = s).

Lemma sub_var_frame : forall r k a b s, exists c o, sub_var_in_obj r k a b s = set_off o (set_cst c s).
Proof.
  intros. unfold sub_var_in_obj. destruct (Qeqb _ _).
  { exists (cst s), (off s). destruct s; reflexivity. }
  assert (X : exists c, foldS (fun s e => set_cst1 (fst e) (cst s (fst e) - cst s k / a * snd e) s) r s = set_cst c s \/ True) by (exists (cst s); auto).
  clear X. cbv zeta. set (ratio := cst s k / a). clearbody ratio.
  assert (X : forall s0, exists c, foldS (fun s e => set_cst1 (fst e) (cst s (fst e) - ratio * snd e) s) r s0 = set_cst c s0).
  { induction r as [|e r IH]; intros s0; simpl.
    - exists (cst s0). destruct s0; reflexivity.
    - destruct (IH (set_cst1 (fst e) (cst s0 (fst e) - ratio * snd e) s0)) as [c E].
      rewrite E. exists c. reflexivity. }
  destruct (X s) as [c E]. rewrite E. eexists c, _. sr. reflexivity.
Qed.

Lemma sub_and_row : forall s i k a v side ck, Inv s -> (i < nr s)%nat -> (k < nc s)%nat ->
  t_inact (rt s i) = false -> t_cinact (ct s k) = false -> mAT s k = [(i, a)] ->
  forall r b, let s1 := sub_col_now k (sub_var_in_obj r k a b s) in
  let s' := set_row_to_inactive i v (record (SUB_COL k (row_view s1 i) side i ck) s1) in
  col_ok s s' k REDUCED.
Proof.
  intros s i k a v side ck H Hi Hk Ti Tk EK r b s1 s'.
  assert (Hin : In (k, a) (mA s i)).
  { apply (w_agree s (inv_0 s H)); auto.
    - apply (act_alive s i (inv_0 s H)); auto.
    - apply (cact_alive s k (inv_0 s H)); auto.
    - rewrite EK. left; reflexivity. }
  destruct (sub_var_frame r k a b s) as [c [o E]].
  assert (S1 : stp s (set_row_to_inactive i v s)).
  { apply stp_row_inactive; auto. apply nempty; auto. intros X. rewrite X in Hin. contradiction. }
  set (sa := set_row_to_inactive i v s) in *.
  set (sb := setAT k [] (set_csz1 k (-1)%Z (set_ct1 k (tag_sub (ct s k)) sa))).
  assert (S2 : stp s sb).
  { eapply stp_trans; [exact S1|]. constructor.
    - apply drop_col_Inv; [apply S1|exact Hk|auto|auto|unfold t_cinact, tag_sub; apply orb_true_r|reflexivity|].
      + intros j b0 Hj Hin' Ck. unfold sa, set_row_to_inactive in *. sr in Hj. sr in Hin'. sr in Ck. sr. updg; auto.
        destruct (Z.eq_dec (rsz s j) (-1)) as [R|R]; [apply (w_rdead s (inv_0 s H)); auto|].
        apply (w_agree s (inv_0 s H)) in Hin'; auto. rewrite EK in Hin'. destruct Hin' as [X|[]].
        congruence.
    - unfold sb, sa, set_row_to_inactive. constructor; sr; auto; intros; try lia; updg; auto.
    - unfold sb, sa, set_row_to_inactive. intros [A B C]. constructor; sr; auto. }
  assert (SS : same_struct sb s').
  { unfold s', s1. rewrite E. unfold sb, sa, set_row_to_inactive, sub_col_now. same_ref. }
  split; [|split].
  - eapply stp_trans; [exact S2|]. apply stp_same; [apply S2|auto].
  - unfold s', s1. rewrite E. constructor; unfold set_row_to_inactive, sub_col_now; sr; auto.
    intros j Nj. rewrite !upd_other by auto. auto.
  - right; left. split; auto. apply (colstep_mu s s' i k); auto.
    unfold s', s1. rewrite E. constructor; unfold set_row_to_inactive, sub_col_now; sr; auto.
    + intros j N. updg; auto.
    + intros j N. updg; auto.
    + rewrite upd_same. unfold t_cinact, tag_sub; apply orb_true_r.
Qed.

(** what is left after a cut, up to parts the invariant does not look at *)
Lemma cut_ok : forall s s2 i k a t, Inv s -> (i < nr s)%nat -> (k < nc s)%nat ->
  t_inact (rt s i) = false -> t_cinact (ct s k) = false -> mAT s k = [(i, a)] -> (2 <= rsz s i)%Z ->
  (t_fixed (ct s k) = true -> t_fixed t = true) -> (t_sub (ct s k) = true -> t_sub t = true) ->
  t_cinact t = true -> same_struct (cut i k t s) s2 ->
  (forall j, j <> i -> rt s2 j = rt s j) -> (forall j, j <> k -> ct s2 j = ct s j) ->
  forall (b : bool),
  col_ok s (if Z.eqb (rsz s2 i) 1 then push_ston_rows i s2
            else if b && (Z.eqb (rsz s2 i) 2 && t_eq (rt s2 i)) then push_dton i s2 else s2) k REDUCED.
Proof.
  intros s s2 i k a t H Hi Hk Ti Tk EK R2 M1 M2 M3 SS RX CX b.
  assert (S1 : stp s (cut i k t s)) by (eapply cut_stp; eauto).
  assert (S2 : stp s s2). { eapply stp_trans; [exact S1|]. apply stp_same; [apply S1|auto]. }
  assert (Hi2 : (i < nr s2)%nat) by (rewrite (stp_nr _ _ S2); auto).
  assert (Ti2 : t_inact (rt s2 i) = false).
  { rewrite (ss_rt _ _ SS). unfold cut. sr. auto. }
  assert (MU : (mu s2 < mu s)%nat).
  { apply (colstep_mu s s2 i k); auto. constructor; eauto using stp_nr, stp_nc.
    rewrite (ss_ct _ _ _ SS). unfold cut. sr. rewrite upd_same. auto. }
  assert (FR : colfr s s2 k).
  { constructor.
    - rewrite (ss_w2 _ _ SS). reflexivity.
    - rewrite (ss_w3 _ _ SS). reflexivity.
    - intros j Nj. rewrite (ss_csz _ _ SS), CX, (ss_AT _ _ SS) by auto. unfold cut. sr.
      rewrite !upd_other by auto. auto. }
  assert (G : forall s', stp s2 s' -> w_fixed s' = w_fixed s2 -> w_sub s' = w_sub s2 ->
     csz s' = csz s2 -> ct s' = ct s2 -> mAT s' = mAT s2 -> rt s' = rt s2 -> col_ok s s' k REDUCED).
  { intros s' St E1 E2 E3 E4 E5 E6. split; [eapply stp_trans; eauto|]. split.
    - destruct FR as [f1 f2 f3]. constructor; [congruence|congruence|].
      intros j Nj. rewrite E3, E4, E5. auto.
    - right; left. split; auto. eapply Nat.le_lt_trans; [|exact MU].
      unfold mu, ncact, nneq. rewrite (stp_nc _ _ St), (stp_nr _ _ St), E4, E6. lia. }
  destruct (Z.eqb_spec (rsz s2 i) 1).
  - apply G; try reflexivity. apply push_ston_stp; auto. apply S2.
  - destruct b; cbn [andb]; [destruct (Z.eqb_spec (rsz s2 i) 2); cbn [andb]; [destruct (t_eq _)|]|];
      (apply G; [|reflexivity|reflexivity|reflexivity|reflexivity|reflexivity|reflexivity]).
    2-4: (apply stp_refl; apply S2).
    apply push_dton_stp; [apply S2|auto|lia].
Qed.

Lemma process_eq_ok : forall s i k a ab be, Inv s -> (i < nr s)%nat -> (k < nc s)%nat ->
  t_inact (rt s i) = false -> t_cinact (ct s k) = false -> mAT s k = [(i, a)] -> (2 <= rsz s i)%Z ->
  let '(s', st) := process_colston_eq i k a ab be s in col_ok s s' k st.
Proof.
  intros s i k a ab be H Hi Hk Ti Tk EK R2. unfold process_colston_eq.
  destruct (negb ab && negb be).
  { split; [apply stp_refl; auto|]. split; [apply colfr_refl|auto]. }
  cbv zeta. destruct (ab && be); [apply sub_and_row; auto|].
  destruct (sub_var_frame (row_view s i) k a (fin (rhs s i)) s) as [c [o E]]. rewrite E.
  set (s1 := sub_col_now k (set_off o (set_cst c s))).
  set (s2 := handle_impl_free_eq ab i k a (cst s k) s1).
  pose proof (view_full s i H Hi Ti) as VF.
  assert (X : same_struct (cut i k (tag_sub (ct s k)) s) s2 /\
              (forall j, j <> i -> rt s2 j = rt s j) /\ (forall j, j <> k -> ct s2 j = ct s j)).
  { unfold s2, handle_impl_free_eq. cbv zeta.
    assert (V1 : row_view s1 i = mA s i) by exact VF.
    set (sr0 := record (SUB_COL k _ _ i 0) _).
    assert (SR : remove_from_row i k sr0 =
       set_nnz (nnz s - 1)%Z (set_rsz1 i (rsz s i - 1)%Z (setA i (del_entry k (mA s i)) sr0))).
    { unfold remove_from_row. change (row_view sr0 i) with (row_view s1 i). rewrite V1. reflexivity. }
    rewrite SR.
    destruct (Bool.eqb ab (Qgtb a 0)).
    - match goal with |- context [update_locks_eq_to_ineq ?r ?b ?x] =>
        destruct (locks_only_eq_to_ineq r b x) as [u [d EL]]; rewrite EL end.
      split; [constructor|split]; unfold cut, s1, sub_col_now, sr0; sr; try reflexivity; eauto; intros j; try intros Nj;
        unfold s1, sub_col_now; sr; updg; auto; congruence.
    - match goal with |- context [update_locks_eq_to_ineq ?r ?b ?x] =>
        destruct (locks_only_eq_to_ineq r b x) as [u [d EL]]; rewrite EL end.
      split; [constructor|split]; unfold cut, s1, sub_col_now, sr0; sr; try reflexivity; eauto; intros j; try intros Nj;
        unfold s1, sub_col_now; sr; updg; auto; congruence. }
  destruct X as [SS [RX CX]].
  pose proof (cut_ok s s2 i k a (tag_sub (ct s k)) H Hi Hk Ti Tk EK R2) as Y.
  specialize (Y (fun h => h) (fun _ => eq_refl) (orb_true_r _) SS RX CX true). exact Y.
Qed.

Lemma fix_col_ston_ok : forall s i k a v, Inv s -> (i < nr s)%nat -> (k < nc s)%nat ->
  t_inact (rt s i) = false -> t_cinact (ct s k) = false -> mAT s k = [(i, a)] -> (2 <= rsz s i)%Z ->
  col_ok s (push_if_ston i (fix_col_ston i k v a s)) k REDUCED.
Proof.
  intros s i k a v H Hi Hk Ti Tk EK R2.
  set (s2 := fix_col_ston i k v a s).
  pose proof (view_full s i H Hi Ti) as VF.
  assert (X : same_struct (cut i k (tag_fixed (ct s k)) s) s2 /\
              (forall j, j <> i -> rt s2 j = rt s j) /\ (forall j, j <> k -> ct s2 j = ct s j)).
  { unfold s2, fix_col_ston. cbv zeta. unfold remove_from_row. rewrite VF. sr.
    destruct (t_lhs_inf (rt s i)); sr; destruct (t_rhs_inf (rt s i)); sr;
      (split; [constructor|split]; unfold cut, fix_var_in_obj; sr; try reflexivity; eauto; intros j N; updg; auto). }
  destruct X as [SS [RX CX]].
  pose proof (cut_ok s s2 i k a (tag_fixed (ct s k)) H Hi Hk Ti Tk EK R2) as Y.
  specialize (Y (fun _ => eq_refl) (fun h => h) eq_refl SS RX CX false). exact Y.
Qed.

Lemma close_row_ok : forall u s i k, Inv s -> (i < nr s)%nat -> t_inact (rt s i) = false ->
  t_eq (rt s i) = false -> col_ok s (close_row u i s) k REDUCED.
Proof.
  intros u s i k H Hi Ti Te. unfold close_row. cbv zeta.
  set (s1 := if (if u then t_lhs_inf (rt s i) else t_rhs_inf (rt s i))
             then update_locks_ineq_to_eq (row_view s i) u s else s).
  assert (L1 : locks_only s s1).
  { unfold s1. destruct (if u then _ else _); [apply locks_only_ineq_to_eq|apply locks_only_refl]. }
  destruct L1 as [x [y E1]]. rewrite E1. clearbody s1. clear E1 s1.
  set (s3 := set_rt1 i R_EQ (if u then set_lhs1 i (rhs (set_dns y (set_ups x s)) i) (set_dns y (set_ups x s))
                             else set_rhs1 i (lhs (set_dns y (set_ups x s)) i) (set_dns y (set_ups x s)))).
  assert (SS : same_struct s s3).
  { unfold s3. destruct u; constructor; sr; auto; intros j; updg; auto. }
  assert (RT : forall j, rt s3 j = upd (rt s) i R_EQ j) by (unfold s3; destruct u; reflexivity).
  assert (CT : ct s3 = ct s) by (unfold s3; destruct u; reflexivity).
  assert (S3 : stp s s3) by (apply stp_same; auto).
  assert (MU : (mu s3 < mu s)%nat).
  { unfold mu. assert (A : ncact s3 = ncact s). { unfold ncact. rewrite (stp_nc _ _ S3), CT. auto. }
    assert (B : (nneq s3 < nneq s)%nat); [|lia].
    unfold nneq. rewrite (stp_nr _ _ S3). apply filter_lt with (y := i).
    - intros j _. rewrite RT. updg; auto. discriminate.
    - apply in_seq; lia.
    - rewrite RT, upd_same. reflexivity.
    - rewrite Ti, Te. reflexivity. }
  assert (G : forall s', stp s3 s' -> w_fixed s' = w_fixed s3 -> w_sub s' = w_sub s3 ->
     csz s' = csz s3 -> ct s' = ct s3 -> mAT s' = mAT s3 -> rt s' = rt s3 -> col_ok s s' k REDUCED).
  { intros s' St E1 E2 E3 E4 E5 E6. split; [eapply stp_trans; eauto|]. split.
    - constructor.
      + rewrite E1. apply (ss_w2 _ _ SS).
      + rewrite E2. apply (ss_w3 _ _ SS).
      + intros j Nj. rewrite E3, E4, E5, CT, (ss_csz _ _ SS), (ss_AT _ _ SS). auto.
    - right; left. split; auto. eapply Nat.le_lt_trans; [|exact MU].
      unfold mu, ncact, nneq. rewrite (stp_nc _ _ St), (stp_nr _ _ St), E4, E6. lia. }
  destruct (Z.eqb_spec (rsz s3 i) 2).
  - apply G; try reflexivity. apply push_dton_stp; [apply S3|rewrite (stp_nr _ _ S3); auto|lia].
  - apply G; try reflexivity. apply stp_refl, S3.
Qed.

Lemma process_ineq_ok : forall s i k a ab be, Inv s -> (i < nr s)%nat -> (k < nc s)%nat ->
  t_inact (rt s i) = false -> t_eq (rt s i) = false -> t_cinact (ct s k) = false ->
  mAT s k = [(i, a)] -> (2 <= rsz s i)%Z ->
  let '(s', st) := process_colston_ineq i k a ab be s in col_ok s s' k st.
Proof.
  intros s i k a ab be H Hi Hk Ti Te Tk EK R2.
  assert (ST : forall st, st = UNCHANGED \/ st = UNBNDORINFEAS -> col_ok s s k st).
  { intros st E. split; [apply stp_refl; auto|]. split; [apply colfr_refl|]. destruct E; auto. }
  unfold process_colston_ineq. cbv zeta.
  destruct (_ || _).
  { destruct (t_lb_inf _); [auto|]. apply fix_col_ston_ok; auto. }
  destruct (_ || _).
  { destruct (t_ub_inf _); [auto|]. apply fix_col_ston_ok; auto. }
  destruct (ab && be).
  { destruct (_ || _); [destruct (t_lhs_inf _); [auto|apply sub_and_row; auto]|].
    destruct (_ || _); [destruct (t_rhs_inf _); [auto|apply sub_and_row; auto]|].
    apply sub_and_row; auto. }
  destruct (_ || _); [apply close_row_ok; auto|].
  destruct (_ || _); [apply close_row_ok; auto|]. auto.
Qed.

Lemma ston_col_ok : forall s k, Inv s -> (k < nc s)%nat -> csz s k = 1%Z -> t_cinact (ct s k) = false ->
  let '(s', st) := ston_col s k in col_ok s s' k st.
Proof.
  intros s k H Hk C1 Tk.
  pose proof (tight_csz s k (inv_0 s H) (inv_C s H) Hk Tk) as SZ. rewrite C1 in SZ.
  unfold ston_col. destruct (mAT s k) as [|[i a] r] eqn:EK; [discriminate|].
  assert (r = []) by (unfold Z_len in SZ; destruct r; simpl in SZ; [reflexivity|lia]). subst r.
  destruct (w_cin s (inv_0 s H) i k a Hk) as [Hi _]; [rewrite EK; left; reflexivity|].
  assert (ST : col_ok s s k UNCHANGED).
  { split; [apply stp_refl; auto|]. split; [apply colfr_refl|]. auto. }
  destruct (t_inact (rt s i)) eqn:Ti; cbn [orb]; auto.
  destruct (Z.leb_spec (rsz s i) 1); auto.
  cbv zeta. destruct (t_eq (rt s i)) eqn:Te.
  - apply process_eq_ok; auto. lia.
  - apply process_ineq_ok; auto. lia.
Qed.

(** ** One pass *)
Lemma has_or : forall a b c, HAS_STATUS (N.lor a b) c = HAS_STATUS a c || HAS_STATUS b c.
Proof.
  intros. unfold HAS_STATUS. rewrite N.land_lor_distr_l.
  destruct (N.eqb_spec (N.land a c) 0) as [->|Na].
  - rewrite N.lor_0_l. reflexivity.
  - cbn [negb orb]. destruct (N.eqb_spec (N.lor (N.land a c) (N.land b c)) 0) as [E|]; auto.
    apply N.lor_eq_0_iff in E. tauto.
Qed.

Definition ready (s : state) (k : nat) : Prop :=
  (k < nc s)%nat /\ csz s k = 1%Z /\ t_cinact (ct s k) = false.

Lemma ston_pass_ok : forall l s st, Inv s -> NoDup l -> (forall k, In k l -> ready s k) ->
  let '(s', st') := fold_or ston_col l s st in
  stp s s' /\ w_fixed s' = w_fixed s /\ w_sub s' = w_sub s /\ (mu s' <= mu s)%nat /\
  (HAS_STATUS st' REDUCED = true -> HAS_STATUS st REDUCED = true \/ (mu s' < mu s)%nat).
Proof.
  induction l as [|k l IH]; intros s st H ND HR; simpl.
  - split; [apply stp_refl; auto|]. auto.
  - destruct (HR k (or_introl eq_refl)) as [Hk [C1 Tk]].
    pose proof (ston_col_ok s k H Hk C1 Tk) as X.
    destruct (ston_col s k) as [s1 st1]. destruct X as [S1 [[F1 F2 F3] ST]].
    inversion ND; subst.
    specialize (IH s1 (N.lor st st1) (st_inv _ _ S1) H3).
    destruct (fold_or ston_col l s1 (N.lor st st1)) as [s2 st2].
    destruct IH as [S2 [G1 [G2 [G3 G4]]]].
    { intros j Hj. destruct (HR j (or_intror Hj)) as [A [B C]].
      destruct (F3 j) as [E1 [E2 E3]]; [intros ->; contradiction|].
      unfold ready. rewrite (stp_nc _ _ S1), E1, E2. auto. }
    assert (LE : (mu s1 <= mu s)%nat) by (destruct ST as [[_ ->]|[[_ ?]|[_ ->]]]; lia).
    split; [eapply stp_trans; eauto|]. split; [congruence|]. split; [congruence|]. split; [lia|].
    intros HS. destruct (G4 HS) as [X|X]; [|right; lia].
    rewrite has_or in X. apply orb_true_iff in X. destruct X as [X|X]; auto.
    destruct ST as [[-> _]|[[_ ?]|[-> _]]]; [discriminate|right; lia|discriminate].
Qed.

Lemma mu_dir : forall s s', after_dir s s' -> mu s' = mu s.
Proof.
  intros s s' AD. destruct (dir_frame _ _ AD) as (? & ? & ? & ? & ? & ? & ? & ? & ? & E). rewrite E.
  reflexivity.
Qed.

Lemma refresh_Inv : forall s, Inv s -> Inv (refresh_ston_cols s).
Proof.
  intros s [H TR TC L]. unfold refresh_ston_cols. constructor; auto.
  - destruct H; constructor; sr; auto.
  - destruct L as [B1 B2 B3 B4 B5 B6 B7 B8 B9 B10 B11 B12 B13 B14]. constructor; sr; auto.
    + apply NoDup_filter; auto.
    + intros k Hk. apply filter_In in Hk. apply B12, Hk.
Qed.

Lemma ston_cols_pass_spec : forall s, Inv s -> quiet s ->
  let '(s', st) := remove_ston_cols__ s in
  stp s s' /\ quiet s' /\ (st = UNCHANGED \/ st = UNBNDORINFEAS \/ st = REDUCED /\ (mu s' < mu s)%nat).
Proof.
  intros s H [Q1 Q2 Q3]. unfold remove_ston_cols__. cbv zeta.
  set (s0 := refresh_ston_cols s).
  assert (I0 : Inv s0) by (apply refresh_Inv; auto).
  assert (S0 : stp s s0).
  { constructor; auto.
    - unfold s0, refresh_ston_cols. constructor; sr; auto; intros; lia.
    - intros [A B C]. constructor; auto. }
  pose proof (ston_pass_ok (w_ston_cols s0) s0 UNCHANGED I0 (l_ston_cols_nd _ (inv_L _ I0))) as X.
  destruct (fold_or ston_col (w_ston_cols s0) s0 UNCHANGED) as [s1 st].
  destruct X as [S1 [F1 [F2 [M1 M2]]]].
  { intros k Hk. unfold s0, refresh_ston_cols in Hk. sr in Hk. apply filter_In in Hk.
    destruct Hk as [Hk C]. apply Z.eqb_eq in C. destruct (l_ston_cols s (inv_L s H) k Hk) as [A _].
    split; auto. split; auto. destruct (t_cinact (ct s0 k)) eqn:T; auto. exfalso.
    destruct (l_pend s (inv_L s H) k A T) as [X|X].
    - rewrite C. discriminate.
    - rewrite Q2 in X. contradiction.
    - rewrite Q3 in X. contradiction. }
  destruct (stp_dir s1 (st_inv _ _ S1)) as [S2 [[G1 [G2 _]] G3]].
  destruct (delete_inactive_rows_Inv s1 (st_inv _ _ S1)) as [_ AD].
  split; [eapply stp_trans; [exact S0|eapply stp_trans; eauto]|].
  split.
  { constructor; auto.
    - rewrite G1, F1. exact Q2.
    - rewrite G2, F2. exact Q3. }
  destruct (HAS_STATUS st UNBNDORINFEAS); auto. destruct (HAS_STATUS st REDUCED) eqn:HR; auto.
  right; right. split; auto. rewrite (mu_dir _ _ AD). destruct (M2 eq_refl) as [X|X]; [discriminate|].
  exact X.
Qed.

Lemma ston_cols_loop_spec : forall f s, Inv s -> quiet s -> (mu s < f)%nat ->
  let '(s', st) := ston_cols_loop f s in
  stp s s' /\ quiet s' /\ (st = UNCHANGED \/ st = UNBNDORINFEAS).
Proof.
  induction f as [|f IH]; intros s H QS LT; [lia|]. simpl.
  pose proof (ston_cols_pass_spec s H QS) as X.
  destruct (remove_ston_cols__ s) as [s1 st]. destruct X as [S1 [Q1 ST]].
  destruct ST as [->|[->|[-> MU]]].
  - simpl. auto.
  - simpl. auto.
  - rewrite N.eqb_refl. specialize (IH s1 (st_inv _ _ S1) Q1). destruct (ston_cols_loop f s1) as [s2 st2].
    destruct IH as [S2 [Q2 E]]; [lia|]. split; [eapply stp_trans; eauto|auto].
Qed.

Lemma mu_le : forall s, (mu s <= 2 * nc s + nr s)%nat.
Proof.
  intros. unfold mu, ncact, nneq.
  pose proof (filter_len _ (fun k => negb (t_cinact (ct s k))) (seq 0 (nc s))).
  pose proof (filter_len _ (fun i => negb (t_inact (rt s i)) && negb (t_eq (rt s i))) (seq 0 (nr s))).
  rewrite seq_length in *. lia.
Qed.

Lemma ston_cols_spec : forall s, Inv s -> quiet s ->
  let '(s', st) := remove_ston_cols s in
  stp s s' /\ quiet s' /\ (st = UNCHANGED \/ st = UNBNDORINFEAS).
Proof.
  intros s H QS. apply ston_cols_loop_spec; auto. pose proof (mu_le s). lia.
Qed.
