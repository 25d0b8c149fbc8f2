(** The structural invariant: A and AT are two copies of the same matrix, sizes are exact,
    worklists are sound; the core operations preserve it. *)
From Coq Require Import NArith Sorted.
From Verif Require Import M_Num S_LP M_Driver M_State M_Act M_Core M_Simple M_StonCols M_Dton L_State.

(** Entries whose other index is not dead according to [z]. *)
Definition dropr (z : nat -> Z) (r : row) : row := filter (fun e => negb (Z.eqb (z (fst e)) (-1))) r.
Lemma drop_rows_eq : forall s r, drop_rows s r = dropr (rsz s) r. Proof. reflexivity. Qed.
Lemma drop_cols_eq : forall s r, drop_cols s r = dropr (csz s) r. Proof. reflexivity. Qed.
Lemma dropr_In : forall z r e, In e (dropr z r) <-> In e r /\ z (fst e) <> (-1)%Z.
Proof. intros. unfold dropr. rewrite filter_In, negb_true_iff, Z.eqb_neq. tauto. Qed.
Lemma dropr_kill : forall z i r, dropr (upd z i (-1)%Z) r = del_entry i (dropr z r).
Proof.
  intros. unfold dropr, del_entry. induction r as [|[c v] r IH]; simpl; auto.
  unfold upd at 1. destruct (Nat.eqb_spec c i).
  - simpl. destruct (negb (z c =? -1)%Z); simpl; auto.
    rewrite (proj2 (Nat.eqb_eq c i)); auto.
  - destruct (negb (z c =? -1)%Z); simpl; auto.
    destruct (Nat.eqb_spec c i); [congruence|]. simpl. f_equal. assumption.
Qed.
Lemma dropr_ext : forall z z' r,
  (forall e, In e r -> (z' (fst e) = (-1)%Z <-> z (fst e) = (-1)%Z)) -> dropr z' r = dropr z r.
Proof.
  intros. unfold dropr. apply filter_ext_in. intros e He. specialize (H e He).
  destruct (Z.eqb_spec (z (fst e)) (-1)), (Z.eqb_spec (z' (fst e)) (-1)); tauto.
Qed.
Lemma dropr_len : forall z r, (length (dropr z r) <= length r)%nat.
Proof. intros. apply filter_len. Qed.
Lemma dropr_full : forall z r, length (dropr z r) = length r -> dropr z r = r.
Proof. intros z r H. unfold dropr. apply filter_all. apply filter_full. assumption. Qed.
Lemma dropr_srt : forall z r, srt r -> srt (dropr z r). Proof. intros. apply srt_filter; auto. Qed.

Record W0 (s : state) : Prop := mkW0 {
  w_rdead : forall i, (i < nr s)%nat -> rsz s i = (-1)%Z -> t_inact (rt s i) = true;
  w_cdead : forall k, (k < nc s)%nat -> csz s k = (-1)%Z ->
            t_cinact (ct s k) = true /\ mAT s k = [];
  w_rsrt : forall i, (i < nr s)%nat -> srt (mA s i);
  w_csrt : forall k, (k < nc s)%nat -> srt (mAT s k);
  w_rin : forall i k a, (i < nr s)%nat -> In (k, a) (mA s i) -> (k < nc s)%nat /\ ~ a == 0;
  w_cin : forall i k a, (k < nc s)%nat -> In (i, a) (mAT s k) -> (i < nr s)%nat /\ ~ a == 0;
  w_agree : forall i k a, (i < nr s)%nat -> (k < nc s)%nat ->
            rsz s i <> (-1)%Z -> csz s k <> (-1)%Z ->
            (In (k, a) (mA s i) <-> In (i, a) (mAT s k));
  w_ract : forall i, (i < nr s)%nat -> t_inact (rt s i) = false ->
           rsz s i = Z_len (dropr (csz s) (mA s i));
  w_rpen : forall i, (i < nr s)%nat -> rsz s i <> (-1)%Z ->
           (Z_len (dropr (csz s) (mA s i)) <= rsz s i)%Z;
  w_cact : forall k, (k < nc s)%nat -> t_cinact (ct s k) = false ->
           csz s k = Z_len (dropr (rsz s) (mAT s k));
  w_cpen : forall k, (k < nc s)%nat -> csz s k <> (-1)%Z ->
           (Z_len (dropr (rsz s) (mAT s k)) <= csz s k)%Z }.

Definition tightR (s : state) : Prop := forall i k a, (i < nr s)%nat ->
  t_inact (rt s i) = false -> In (k, a) (mA s i) -> csz s k <> (-1)%Z.
Definition tightC (s : state) : Prop := forall i k a, (k < nc s)%nat ->
  t_cinact (ct s k) = false -> In (i, a) (mAT s k) -> rsz s i <> (-1)%Z.

Lemma act_alive : forall s i, W0 s -> (i < nr s)%nat -> t_inact (rt s i) = false ->
  rsz s i <> (-1)%Z.
Proof. intros s i H Hi Ht E. rewrite (w_rdead s H) in Ht; congruence. Qed.
Lemma cact_alive : forall s k, W0 s -> (k < nc s)%nat -> t_cinact (ct s k) = false ->
  csz s k <> (-1)%Z.
Proof. intros s i H Hi Ht E. destruct (w_cdead s H i Hi E). congruence. Qed.

(** With tight rows the size of an active row is its length. *)
Lemma tight_rsz : forall s i, W0 s -> tightR s -> (i < nr s)%nat -> t_inact (rt s i) = false ->
  rsz s i = Z_len (mA s i).
Proof.
  intros s i H T Hi Ht. rewrite (w_ract s H) by assumption. f_equal.
  unfold dropr. apply filter_all. intros [k a] He. simpl.
  apply negb_true_iff. apply Z.eqb_neq. eapply T; eauto.
Qed.
Lemma tight_csz : forall s k, W0 s -> tightC s -> (k < nc s)%nat -> t_cinact (ct s k) = false ->
  csz s k = Z_len (mAT s k).
Proof.
  intros s k H T Hk Ht. rewrite (w_cact s H) by assumption. f_equal.
  unfold dropr. apply filter_all. intros [i a] He. simpl.
  apply negb_true_iff. apply Z.eqb_neq. eapply T; eauto.
Qed.

(** ** Deleting one row *)
Definition dec_step (ri li : bool) (s : state) (e : nat * Q) : state :=
  let k := fst e in
  if Z.eqb (csz s k) (-1) then s
  else lock_coeff (-1) ri li k (snd e) (set_csz1 k (csz s k - 1)%Z s).

Lemma dec_fold : forall ri li r s, srt r ->
  exists u d c, foldS (dec_step ri li) r s = set_csz c (set_dns d (set_ups u s)) /\
    forall k, c k = (if hasb k r && negb (Z.eqb (csz s k) (-1)) then csz s k - 1 else csz s k)%Z.
Proof.
  induction r as [|[k a] r IH]; simpl; intros s H.
  - exists (ups s), (dns s), (csz s). split; [destruct s; reflexivity|]. reflexivity.
  - apply srt_inv in H. destruct H as [H L].
    assert (N : hasb k r = false).
    { apply not_true_iff_false. intros C. apply hasb_has in C. destruct C as [b Hb].
      apply L in Hb. simpl in Hb. lia. }
    set (s1 := dec_step ri li s (k, a)).
    assert (F : exists u d, s1 = set_csz (if Z.eqb (csz s k) (-1) then csz s
                  else upd (csz s) k (csz s k - 1)%Z) (set_dns d (set_ups u s))).
    { unfold s1, dec_step. cbn [fst snd]. destruct (Z.eqb_spec (csz s k) (-1)).
      - exists (ups s), (dns s). destruct s; reflexivity.
      - destruct (locks_only_coeff (-1) ri li k a (set_csz1 k (csz s k - 1)%Z s)) as [u [d E]].
        exists u, d. rewrite E. reflexivity. }
    destruct F as [u [d F]].
    destruct (IH s1 H) as [u2 [d2 [c [E C]]]].
    exists u2, d2, c. split; [rewrite E, F; reflexivity|].
    intros k0. rewrite C, F. sr.
    destruct (Nat.eqb_spec k k0).
    + subst k0. rewrite N. simpl. destruct (Z.eqb_spec (csz s k) (-1)); simpl; [auto|].
      rewrite upd_same. reflexivity.
    + simpl. destruct (Z.eqb_spec (csz s k) (-1)); [reflexivity|]. rewrite upd_other by auto.
      reflexivity.
Qed.

(** What delete_row does, in one equation (nnz, locks aside). *)
Lemma delete_row_eq : forall s i, srt (mA s i) ->
  (forall k a, rsz s i = 0%Z -> In (k, a) (mA s i) -> csz s k = (-1)%Z) ->
  exists u d c M, delete_row s i =
    set_mA M (set_csz c (set_dns d (set_ups u
      (set_rsz1 i (-1)%Z (set_nnz (nnz s - (rsz s i))%Z s))))) /\
    (forall k, c k = if hasb k (mA s i) && negb (Z.eqb (csz s k) (-1))
                     then (csz s k - 1)%Z else csz s k) /\
    (M = mA s /\ rsz s i = 0%Z \/ M = upd (mA s) i []).
Proof.
  intros s i H Z0. unfold delete_row. destruct (Z.eqb_spec (rsz s i) 0).
  - exists (ups s), (dns s), (csz s), (mA s). split; [|split; auto].
    + rewrite e, Z.sub_0_r. destruct s; reflexivity.
    + intros k. destruct (hasb k (mA s i)) eqn:E; auto. simpl.
      apply hasb_has in E. destruct E as [a Ha]. rewrite (Z0 k a e Ha). reflexivity.
  - cbv zeta. sr.
    change (fun (s0 : state) (e : nat * Q) => if (csz s0 (fst e) =? -1)%Z then s0
      else lock_coeff (-1) (t_rhs_inf (rt s i)) (t_lhs_inf (rt s i)) (fst e) (snd e)
             (set_csz1 (fst e) (csz s0 (fst e) - 1)%Z s0))
      with (dec_step (t_rhs_inf (rt s i)) (t_lhs_inf (rt s i))).
    destruct (dec_fold (t_rhs_inf (rt s i)) (t_lhs_inf (rt s i)) (mA s i)
                (set_rsz1 i (-1)%Z (set_nnz (nnz s - rsz s i)%Z s)) H) as [u [d [c [E C]]]].
    sr in E. rewrite E. exists u, d, c, (upd (mA s) i []). split; [reflexivity|]. split; auto.
Qed.

Definition csz_live (s s' : state) : Prop :=
  forall k, (k < nc s)%nat -> (csz s' k = (-1)%Z <-> csz s k = (-1)%Z).

Lemma zero_rsz_dead : forall s i, W0 s -> (i < nr s)%nat ->
  forall k a, rsz s i = 0%Z -> In (k, a) (mA s i) -> csz s k = (-1)%Z.
Proof.
  intros s i H Hi k a Z0 Hin. destruct (Z.eq_dec (csz s k) (-1)); auto. exfalso.
  pose proof (w_rpen s H i Hi ltac:(lia)) as P. rewrite Z0 in P.
  assert (In (k, a) (dropr (csz s) (mA s i))) by (apply dropr_In; simpl; auto).
  destruct (dropr (csz s) (mA s i)); [contradiction|]. unfold Z_len in P. simpl in P. lia.
Qed.

Lemma delete_row_W0 : forall s i, W0 s -> (i < nr s)%nat -> t_inact (rt s i) = true ->
  rsz s i <> (-1)%Z ->
  let s' := delete_row s i in
  W0 s' /\ csz_live s s'.
Proof.
  intros s i H Hi Ti Ri s'.
  destruct (delete_row_eq s i (w_rsrt s H i Hi) (zero_rsz_dead s i H Hi))
    as [u [d [c [M [E [C HM]]]]]].
  assert (CL : forall k, (k < nc s)%nat -> csz s k <> (-1)%Z ->
     (Z_len (dropr (upd (rsz s) i (-1)%Z) (mAT s k)) <= c k)%Z /\
     (t_cinact (ct s k) = false -> c k = Z_len (dropr (upd (rsz s) i (-1)%Z) (mAT s k)))).
  { intros k Hk Ck. rewrite C, dropr_kill.
    destruct (Z.eqb_spec (csz s k) (-1)) as [e|_]; [congruence|]. simpl. rewrite andb_true_r.
    pose proof (w_cpen s H k Hk Ck) as P. pose proof (w_cact s H k Hk) as Q0.
    destruct (hasb k (mA s i)) eqn:B.
    - apply hasb_has in B. destruct B as [a Ha].
      apply (w_agree s H i k a Hi Hk Ri Ck) in Ha.
      assert (Hd : In (i, a) (dropr (rsz s) (mAT s k))) by (apply dropr_In; simpl; auto).
      pose proof (del_entry_len i a _ (dropr_srt (rsz s) _ (w_csrt s H k Hk)) Hd) as L.
      unfold Z_len in *. split; [lia|]. intros T. specialize (Q0 T). lia.
    - rewrite del_entry_absent; [auto|].
      intros [a Ha]. apply dropr_In in Ha. destruct Ha as [Ha _]. simpl in Ha.
      apply (w_agree s H i k a Hi Hk Ri Ck) in Ha.
      assert (hasb k (mA s i) = true) by (apply hasb_has; eexists; eauto). congruence. }
  assert (LV : forall k, (k < nc s)%nat -> (c k = (-1)%Z <-> csz s k = (-1)%Z)).
  { intros k Hk. split.
    - intros E0. destruct (Z.eq_dec (csz s k) (-1)); auto. exfalso.
      destruct (CL k Hk n) as [P _]. unfold Z_len in P. lia.
    - intros E0. rewrite C, E0. simpl. rewrite andb_false_r. reflexivity. }
  split; [|unfold s'; rewrite E; exact LV].
  unfold s'. rewrite E. clear s'.
  assert (MA : forall j k a, In (k, a) (M j) -> In (k, a) (mA s j) /\ (j = i -> M = mA s /\ rsz s i = 0%Z)).
  { intros j k a Hj. destruct HM as [[-> R0]| ->]; auto. updh Hj; [contradiction|].
    split; auto. intros; subst; congruence. }
  assert (MD : forall j, (j < nr s)%nat -> dropr c (M j) = dropr (csz s) (M j)).
  { intros j Hj. apply dropr_ext. intros [k a] Hk. simpl. apply LV. apply MA in Hk.
    apply (w_rin s H j k a Hj). tauto. }
  constructor; sr.
  - intros j Hj. updg; [auto|]. apply (w_rdead s H); auto.
  - intros k Hk E0. apply LV in E0; auto. apply (w_cdead s H k Hk E0).
  - intros j Hj. destruct HM as [[-> _]| ->]; [apply (w_rsrt s H); auto|]. updg; [apply srt_nil|].
    apply (w_rsrt s H); auto.
  - intros k Hk. apply (w_csrt s H); auto.
  - intros j k a Hj Hin. apply MA in Hin. apply (w_rin s H j); tauto.
  - intros j k a Hk Hin. apply (w_cin s H j k); auto.
  - intros j k a Hj Hk Rj Ck. updh Rj.
    assert (Ck' : csz s k <> (-1)%Z) by (intros E1; apply Ck, LV; auto).
    rewrite <- (w_agree s H j k a Hj Hk Rj Ck').
    destruct HM as [[-> _]| ->]; [reflexivity|]. rewrite upd_other by auto. reflexivity.
  - intros j Hj Tj. rewrite MD by auto. rewrite upd_other by congruence.
    rewrite (w_ract s H j Hj Tj).
    destruct HM as [[-> _]| ->]; [reflexivity|]. rewrite upd_other by congruence. reflexivity.
  - intros j Hj Rj. updh Rj. rewrite upd_other by auto. rewrite MD by auto.
    pose proof (w_rpen s H j Hj Rj).
    destruct HM as [[-> _]| ->]; [assumption|]. rewrite upd_other by congruence. assumption.
  - intros k Hk Tk. apply CL; auto. apply cact_alive; auto.
  - intros k Hk Ck. apply CL; auto. intros E1. apply Ck. apply LV; auto.
Qed.

Definition memb (i : nat) (l : list nat) : bool := existsb (Nat.eqb i) l.
Lemma memb_In : forall i l, memb i l = true <-> In i l.
Proof.
  intros. unfold memb. rewrite existsb_exists. split.
  - intros [x [H E]]. apply Nat.eqb_eq in E. subst. assumption.
  - intros H. exists i. split; auto. apply Nat.eqb_refl.
Qed.
Lemma memb_nIn : forall i l, memb i l = false <-> ~ In i l.
Proof. intros. rewrite <- memb_In. destruct (memb i l); intuition congruence. Qed.

(** Total of a size over a list of rows *)
Fixpoint zsum (f : nat -> Z) (l : list nat) : Z :=
  match l with [] => 0%Z | i :: l' => (f i + zsum f l')%Z end.
Lemma zsum_ext : forall f g l, (forall i, In i l -> f i = g i) -> zsum f l = zsum g l.
Proof. induction l; simpl; intros; auto. rewrite H, IHl; auto. Qed.

Lemma delete_rows_fold : forall l s, W0 s -> NoDup l ->
  (forall i, In i l -> (i < nr s)%nat /\ t_inact (rt s i) = true /\ rsz s i <> (-1)%Z) ->
  exists u d c M r n,
    foldS delete_row l s = set_mA M (set_csz c (set_rsz r (set_nnz n (set_dns d (set_ups u s))))) /\
    W0 (foldS delete_row l s) /\
    (forall k, (k < nc s)%nat -> (c k = (-1)%Z <-> csz s k = (-1)%Z)) /\
    (forall j, r j = if memb j l then (-1)%Z else rsz s j) /\
    (forall j, M j = mA s j \/ (In j l /\ M j = [])) /\
    (forall j, In j l -> M j = [] \/ (M j = mA s j /\ rsz s j = 0%Z)) /\
    n = (nnz s - zsum (rsz s) l)%Z.
Proof.
  induction l as [|i l IH]; simpl; intros s H ND HL.
  - exists (ups s), (dns s), (csz s), (mA s), (rsz s), (nnz s).
    split; [destruct s; reflexivity|]. split; [assumption|]. repeat split; auto; try tauto. lia.
  - inversion ND as [|x l' Nin ND']; subst.
    destruct (HL i (or_introl eq_refl)) as [Hi [Ti Ri]].
    destruct (delete_row_W0 s i H Hi Ti Ri) as [H1 CL1].
    destruct (delete_row_eq s i (w_rsrt s H i Hi) (zero_rsz_dead s i H Hi))
      as [u1 [d1 [c1 [M1 [E1 [C1 HM1]]]]]].
    set (s1 := delete_row s i) in *.
    assert (HL1 : forall j, In j l -> (j < nr s1)%nat /\ t_inact (rt s1 j) = true /\
                    rsz s1 j <> (-1)%Z).
    { intros j Hj. destruct (HL j (or_intror Hj)) as [A [B C]]. rewrite E1. sr.
      rewrite upd_other by congruence. auto. }
    destruct (IH s1 H1 ND' HL1) as [u [d [c [M [r [n [E [W [CL [RR [MM [ML NN]]]]]]]]]]]].
    exists u, d, c, M, r, n. split; [rewrite E, E1; reflexivity|]. split; [exact W|].
    rewrite E1 in CL, CL1, RR, MM, ML, NN. unfold csz_live in CL1. sr in CL. sr in CL1. sr in RR. sr in MM. sr in ML. sr in NN.
    split; [intros k Hk; rewrite CL, CL1 by auto; reflexivity|].
    split.
    { intros j. rewrite RR. unfold memb; simpl. destruct (Nat.eqb_spec j i); simpl.
      - subst. rewrite upd_same. destruct (existsb _ l); reflexivity.
      - rewrite upd_other by auto. reflexivity. }
    split.
    { intros j. destruct (MM j) as [-> | [Hj ->]]; auto.
      destruct HM1 as [[-> _]| ->]; auto. updg; auto. }
    split.
    { intros j [Hj|Hj].
      - subst j. destruct (MM i) as [-> | [Hj _]]; [|tauto].
        destruct HM1 as [[-> R0]| ->]; [auto|]. rewrite upd_same. auto.
      - destruct (ML j Hj) as [E0 | [E0 R0]]; auto. right.
        rewrite upd_other in R0 by congruence. rewrite E0. split; auto.
        destruct HM1 as [[-> _]| ->]; auto. rewrite upd_other by congruence. reflexivity. }
    rewrite NN. rewrite (zsum_ext (upd (rsz s) i (-1)%Z) (rsz s)); [lia|].
    intros j Hj. rewrite upd_other by congruence. reflexivity.
Qed.

(** ** Compacting columns *)
Definition wants_compact (s : state) (k : nat) (z : Z) : bool :=
  negb (t_cinact (ct s k)) && negb (Z.eqb (csz s k) (Z_len (mAT s k))) && Z.eqb (csz s k) z.

Lemma compact_cols_fold : forall l s, NoDup l ->
  (forall k, In k l -> t_cinact (ct s k) = false -> csz s k = Z_len (dropr (rsz s) (mAT s k))) ->
  exists M, foldS compact_col l s =
    set_w_ston_cols (w_ston_cols s ++ filter (fun k => wants_compact s k 1) l)
      (set_w_empty_cols (w_empty_cols s ++ filter (fun k => wants_compact s k 0) l)
         (set_mAT M s)) /\
    forall k, M k = if memb k l && negb (t_cinact (ct s k)) then dropr (rsz s) (mAT s k)
                    else mAT s k.
Proof.
  induction l as [|k l IH]; simpl; intros s ND H.
  - exists (mAT s). rewrite !app_nil_r. split; [destruct s; reflexivity|]. reflexivity.
  - inversion ND as [|x l' Nin ND']; subst.
    pose (M1 := if t_cinact (ct s k) then mAT s else upd (mAT s) k (dropr (rsz s) (mAT s k))).
    assert (PE : forall k0, M1 k0 = (if t_cinact (ct s k) then mAT s
                  else upd (mAT s) k (dropr (rsz s) (mAT s k))) k0) by reflexivity.
    assert (E1 : exists M', (forall k0, M' k0 = M1 k0) /\ compact_col s k =
      set_w_ston_cols (w_ston_cols s ++ (if wants_compact s k 1 then [k] else []))
      (set_w_empty_cols (w_empty_cols s ++ (if wants_compact s k 0 then [k] else []))
         (set_mAT M' s))).
    { unfold compact_col, wants_compact, M1. specialize (H k (or_introl eq_refl)).
      destruct (t_cinact (ct s k)) eqn:T; simpl.
      - exists (mAT s). split; auto. rewrite !app_nil_r. destruct s; reflexivity.
      - specialize (H eq_refl).
        destruct (Z.eqb_spec (csz s k) (Z_len (mAT s k))) as [EL|NL]; simpl.
        + exists (mAT s). split.
          * intros k0. updg; auto. symmetry. apply dropr_full. unfold Z_len in *. lia.
          * rewrite !app_nil_r. destruct s; reflexivity.
        + destruct (Z.eqb_spec (csz s k) 0) as [E0|N0].
          * exists (upd (mAT s) k []). split.
            -- intros k0. updg; auto. destruct (dropr (rsz s) (mAT s k)) as [|p0 r0] eqn:D; auto.
               exfalso. unfold Z_len in H. simpl length in H. lia.
            -- rewrite E0. simpl. rewrite app_nil_r. destruct s; reflexivity.
          * exists (upd (mAT s) k (dropr (rsz s) (mAT s k))). split; auto.
            rewrite drop_rows_eq. destruct (Z.eqb_spec (csz s k) 1).
            -- rewrite app_nil_r. destruct s; reflexivity.
            -- rewrite !app_nil_r. destruct s; reflexivity. }
    destruct E1 as [M' [EM E1]]. rewrite E1.
    match goal with |- context [foldS compact_col l ?x] => set (s1 := x) end.
    assert (WC : forall z, filter (fun j => wants_compact s1 j z) l =
                           filter (fun j => wants_compact s j z) l).
    { intros z. apply filter_ext_in. intros j Hj. unfold wants_compact, s1. sr.
      rewrite EM. unfold M1. destruct (t_cinact (ct s k)); [reflexivity|].
      rewrite upd_other by congruence. reflexivity. }
    destruct (IH s1 ND') as [M [E HM]].
    { intros j Hj Tj. unfold s1 in *. sra. rewrite EM. unfold M1.
      destruct (t_cinact (ct s k)); [apply H; auto|]. rewrite upd_other by congruence. apply H; auto. }
    exists M. rewrite E, !WC. unfold s1. sr. split.
    + rewrite <- !app_assoc. destruct (wants_compact s k 1), (wants_compact s k 0);
        destruct s; reflexivity.
    + intros j. rewrite HM. unfold s1. sr. rewrite EM. unfold M1.
      destruct (Nat.eqb_spec j k); simpl.
      * subst j. replace (memb k l) with false by (symmetry; apply memb_nIn; auto). simpl.
        destruct (t_cinact (ct s k)); auto. rewrite upd_same. reflexivity.
      * unfold memb. destruct (t_cinact (ct s k)); [reflexivity|]. rewrite upd_other by auto. reflexivity.
Qed.

(** ** The worklists *)
Record WL (s : state) : Prop := mkWL {
  l_rows_nd : NoDup (w_rows s);
  l_rows : forall i, In i (w_rows s) <->
           (i < nr s)%nat /\ t_inact (rt s i) = true /\ rsz s i <> (-1)%Z;
  l_fixed : forall k, In k (w_fixed s) -> (k < nc s)%nat /\ t_fixed (ct s k) = true;
  l_sub : forall k, In k (w_sub s) -> (k < nc s)%nat /\ t_sub (ct s k) = true;
  l_pend : forall k, (k < nc s)%nat -> t_cinact (ct s k) = true -> csz s k <> (-1)%Z ->
           In k (w_fixed s) \/ In k (w_sub s);
  l_ston_rows : forall i, In i (w_ston_rows s) -> (i < nr s)%nat /\
           (t_inact (rt s i) = false ->
            length (mA s i) = 1%nat \/ (mA s i = [] /\ t_fixed (ct s (stale s i)) = true));
  l_empty_rows_c : forall i, (i < nr s)%nat -> t_inact (rt s i) = false -> rsz s i = 0%Z ->
           In i (w_empty_rows s);
  l_empty_rows : forall i, In i (w_empty_rows s) -> (i < nr s)%nat /\ mA s i = [] /\
           (t_inact (rt s i) = true -> rsz s i = (-1)%Z);
  l_empty_cols_c : forall k, (k < nc s)%nat -> t_cinact (ct s k) = false -> csz s k = 0%Z ->
           In k (w_empty_cols s);
  l_empty_cols : forall k, In k (w_empty_cols s) -> (k < nc s)%nat /\ mAT s k = [];
  l_ston_cols_nd : NoDup (w_ston_cols s);
  l_ston_cols : forall k, In k (w_ston_cols s) -> (k < nc s)%nat /\ (csz s k <= 1)%Z;
  l_dton : forall i, In i (w_dton s) -> (i < nr s)%nat /\ (rsz s i <= 2)%Z;
  l_acts : forall i, In i (w_acts s) -> (i < nr s)%nat }.

Record Inv (s : state) : Prop := mkInv {
  inv_0 : W0 s;  inv_R : tightR s;  inv_C : tightC s;  inv_L : WL s }.

(** ** Changes that do not touch the structure *)
Record same_struct (s s' : state) : Prop := mkSame {
  ss_nr : nr s' = nr s;  ss_nc : nc s' = nc s;
  ss_A : mA s' = mA s;  ss_AT : mAT s' = mAT s;
  ss_rsz : rsz s' = rsz s;  ss_csz : csz s' = csz s;
  ss_rt : forall i, t_inact (rt s' i) = t_inact (rt s i);
  ss_fx : forall k, t_fixed (ct s' k) = t_fixed (ct s k);
  ss_sb : forall k, t_sub (ct s' k) = t_sub (ct s k);
  ss_w1 : w_rows s' = w_rows s;  ss_w2 : w_fixed s' = w_fixed s;  ss_w3 : w_sub s' = w_sub s;
  ss_w4 : w_ston_rows s' = w_ston_rows s;  ss_w5 : w_empty_rows s' = w_empty_rows s;
  ss_w6 : w_empty_cols s' = w_empty_cols s;  ss_w7 : w_ston_cols s' = w_ston_cols s;
  ss_w8 : w_dton s' = w_dton s;  ss_stale : stale s' = stale s;
  ss_nnz : nnz s' = nnz s;  ss_bad : bad s' = bad s;  ss_tiny : tiny s' = tiny s;
  ss_acts : forall i, In i (w_acts s') -> In i (w_acts s) \/ (i < nr s)%nat }.
Ltac same_ref := constructor; sr; solve [reflexivity | intros; left; assumption].

Lemma same_refl : forall s, same_struct s s.
Proof. intros; constructor; auto. Qed.
Lemma same_trans : forall a b c, same_struct a b -> same_struct b c -> same_struct a c.
Proof.
  intros a b c [] []. constructor; try congruence.
  intros i Hi. destruct (ss_acts1 i Hi) as [X|X]; [auto|right; congruence].
Qed.
Lemma ss_ct : forall s s' k, same_struct s s' -> t_cinact (ct s' k) = t_cinact (ct s k).
Proof. intros s s' k H. unfold t_cinact. rewrite (ss_fx _ _ H), (ss_sb _ _ H). reflexivity. Qed.

Lemma same_W0 : forall s s', same_struct s s' -> W0 s -> W0 s'.
Proof.
  intros s s' E [A1 A2 A3 A4 A5 A6 A7 A8 A9 A10 A11].
  constructor; rewrite ?(ss_nr _ _ E), ?(ss_nc _ _ E), ?(ss_A _ _ E), ?(ss_AT _ _ E),
    ?(ss_rsz _ _ E), ?(ss_csz _ _ E); intros *; rewrite ?(ss_rt _ _ E), ?(ss_ct _ _ _ E);
    intros; eauto.
Qed.
Lemma same_tightR : forall s s', same_struct s s' -> tightR s -> tightR s'.
Proof.
  intros s s' E T i k a. rewrite (ss_nr _ _ E), (ss_A _ _ E), (ss_csz _ _ E), (ss_rt _ _ E). apply T.
Qed.
Lemma same_tightC : forall s s', same_struct s s' -> tightC s -> tightC s'.
Proof.
  intros s s' E T i k a. rewrite (ss_nc _ _ E), (ss_AT _ _ E), (ss_rsz _ _ E), (ss_ct _ _ _ E). apply T.
Qed.
Lemma same_WL : forall s s', same_struct s s' -> WL s -> WL s'.
Proof.
  intros s s' E [A1 A2 A3 A4 A5 A6 A7 A8 A9 A10 A11 A12 A13 A14].
  constructor; rewrite ?(ss_nr _ _ E), ?(ss_nc _ _ E), ?(ss_A _ _ E), ?(ss_AT _ _ E),
    ?(ss_rsz _ _ E), ?(ss_csz _ _ E), ?(ss_w1 _ _ E), ?(ss_w2 _ _ E), ?(ss_w3 _ _ E),
    ?(ss_w4 _ _ E), ?(ss_w5 _ _ E), ?(ss_w6 _ _ E), ?(ss_w7 _ _ E), ?(ss_w8 _ _ E),
    ?(ss_stale _ _ E); intros *;
    rewrite ?(ss_rt _ _ E), ?(ss_ct _ _ _ E), ?(ss_fx _ _ E), ?(ss_sb _ _ E); eauto.
  intros Hi. destruct (ss_acts _ _ E _ Hi); auto.
Qed.
Lemma same_Inv : forall s s', same_struct s s' -> Inv s -> Inv s'.
Proof.
  intros s s' E [A B C D]. constructor; eauto using same_W0, same_tightR, same_tightC, same_WL.
Qed.

Lemma same_acts : forall s s', acts_only s s' ->
  (forall i, In i (w_acts s') -> In i (w_acts s) \/ (i < nr s)%nat) -> same_struct s s'.
Proof. intros s s' [a [w ->]] E. constructor; try reflexivity. exact E. Qed.
Lemma same_locks : forall s s', locks_only s s' -> same_struct s s'.
Proof. intros s s' [a [w ->]]. same_ref. Qed.
Lemma same_record : forall r s, same_struct s (record r s).
Proof. intros; same_ref. Qed.

(** ** delete_inactive_rows *)
Lemma seq_memb : forall n k, memb k (seq 0 n) = true <-> (k < n)%nat.
Proof. intros. rewrite memb_In, in_seq. lia. Qed.

Record after_dir (s s' : state) : Prop := {
  dir_frame : exists u d c M r n MT we ws,
    s' = set_w_rows [] (set_w_ston_cols ws (set_w_empty_cols we (set_mAT MT (set_mA M (set_csz c
           (set_rsz r (set_nnz n (set_dns d (set_ups u s)))))))));
  dir_rows : w_rows s' = [];
  dir_rsz : forall i, (i < nr s)%nat ->
            rsz s' i = if t_inact (rt s i) then (-1)%Z else rsz s i;
  dir_A : forall i, (i < nr s)%nat -> t_inact (rt s i) = false -> mA s' i = mA s i;
  dir_Ale : forall i, mA s' i = mA s i \/ mA s' i = [];
  dir_csz : forall k, (k < nc s)%nat -> (csz s' k = (-1)%Z <-> csz s k = (-1)%Z);
  dir_AT : forall k, (k < nc s)%nat -> t_cinact (ct s k) = false ->
           mAT s' k = filter (fun e => negb (t_inact (rt s (fst e)))) (mAT s k);
  dir_nnz : nnz s' = (nnz s - zsum (rsz s) (w_rows s))%Z;
  dir_ATle : forall k, (length (mAT s' k) <= length (mAT s k))%nat;
  dir_Adel : forall i, In i (w_rows s) -> mA s' i = [] \/ (mA s' i = mA s i /\ rsz s i = 0%Z) }.

Lemma delete_inactive_rows_Inv : forall s, Inv s ->
  Inv (delete_inactive_rows s) /\ after_dir s (delete_inactive_rows s).
Proof.
  intros s [H TR TC L].
  assert (AR : forall i, (i < nr s)%nat -> t_inact (rt s i) = true -> ~ In i (w_rows s) ->
                 rsz s i = (-1)%Z).
  { intros i Hi T N. destruct (Z.eq_dec (rsz s i) (-1)); auto. exfalso. apply N.
    apply (l_rows s L). auto. }
  unfold delete_inactive_rows. destruct (w_rows s) as [|i0 l0] eqn:EW.
  { split; [constructor; assumption|]. constructor; auto; try tauto.
    - exists (ups s), (dns s), (csz s), (mA s), (rsz s), (nnz s), (mAT s), (w_empty_cols s),
        (w_ston_cols s). rewrite <- EW. destruct s; reflexivity.
    - intros i Hi. destruct (t_inact (rt s i)) eqn:T; auto.
    - intros k Hk T. symmetry. apply filter_all. intros [i a] He. simpl.
      destruct (w_cin s H i k a Hk He) as [Hi _].
      destruct (t_inact (rt s i)) eqn:Ti; auto. exfalso. apply (TC i k a Hk T He). auto.
    - rewrite EW. simpl. lia.
    - rewrite EW. simpl. tauto. }
  rewrite <- EW in *. clear EW i0 l0.
  destruct (delete_rows_fold (w_rows s) s H (l_rows_nd s L)) as
    [u [d [c [M [r [n [E [H1 [CL [RR [MM [ML NN]]]]]]]]]]]].
  { intros i Hi. apply (l_rows s L). assumption. }
  set (s1 := foldS delete_row (w_rows s) s) in *.
  assert (RI : forall i, (i < nr s)%nat -> r i = if t_inact (rt s i) then (-1)%Z else rsz s i).
  { intros i Hi. rewrite RR. destruct (memb i (w_rows s)) eqn:B.
    - apply memb_In in B. apply (l_rows s L) in B. destruct B as [_ [-> _]]. reflexivity.
    - apply memb_nIn in B. destruct (t_inact (rt s i)) eqn:T; auto. }
  assert (MA : forall i, (i < nr s)%nat -> t_inact (rt s i) = false -> M i = mA s i).
  { intros i Hi T. destruct (MM i) as [|[Hl _]]; auto. apply (l_rows s L) in Hl.
    destruct Hl as [_ [T' _]]. congruence. }
  destruct (compact_cols_fold (seq 0 (nc s)) s1 (seq_NoDup _ _)) as [MT [E2 HM]].
  { intros k Hk T. apply (w_cact s1 H1); auto. rewrite E. sr. apply in_seq in Hk. lia. }
  rewrite E2. rewrite E in HM, E2 |- *. sr in HM. sr.
  assert (HMT : forall k, (k < nc s)%nat -> t_cinact (ct s k) = false ->
                MT k = dropr r (mAT s k)).
  { intros k Hk T. rewrite HM, T, (proj2 (seq_memb _ _) Hk). reflexivity. }
  assert (HMI : forall k, t_cinact (ct s k) = true -> MT k = mAT s k).
  { intros k T. rewrite HM, T, andb_false_r. reflexivity. }
  assert (HML : forall k e, In e (MT k) -> In e (mAT s k)).
  { intros k e. rewrite HM. destruct (_ && _); auto. intros He. apply dropr_In in He. tauto. }
  assert (CS : forall k, (k < nc s)%nat -> t_cinact (ct s k) = false ->
                c k = Z_len (dropr r (mAT s k))).
  { intros k Hk T. pose proof (w_cact s1 H1 k) as W. rewrite E in W. sr in W. auto. }
  assert (CLE : forall k, (k < nc s)%nat -> (c k <= csz s k)%Z \/ csz s k = (-1)%Z /\ c k = (-1)%Z).
  { (* sizes do not grow *)
    clear - E H L. subst s1.
    enough (G : forall l s0, W0 s0 -> NoDup l ->
      (forall i, In i l -> (i < nr s0)%nat /\ t_inact (rt s0 i) = true /\ rsz s0 i <> (-1)%Z) ->
      forall k, (csz (foldS delete_row l s0) k <= csz s0 k)%Z).
    { intros k Hk. left. specialize (G (w_rows s) s H (l_rows_nd s L)).
      rewrite E in G. sr in G. apply G. intros i Hi. apply (l_rows s L). assumption. }
    clear. induction l as [|i l IH]; simpl; intros s H ND HL k; [lia|].
    inversion ND as [|x l' Nin ND']; subst.
    destruct (HL i (or_introl eq_refl)) as [Hi [Ti Ri]].
    destruct (delete_row_W0 s i H Hi Ti Ri) as [H1 _].
    destruct (delete_row_eq s i (w_rsrt s H i Hi) (zero_rsz_dead s i H Hi))
      as [u1 [d1 [c1 [M1 [E1 [C1 HM1]]]]]].
    assert (LE : (csz (delete_row s i) k <= csz s k)%Z).
    { rewrite E1. sr. rewrite C1. destruct (_ && _); lia. }
    etransitivity; [apply IH; auto | exact LE].
    intros j Hj. destruct (HL j (or_intror Hj)) as [A [B C]]. rewrite E1. sr.
    rewrite upd_other by congruence. auto. }
  split.
  - constructor.
    + (* W0 *)
      rewrite E in H1. destruct H1 as [A1 A2 A3 A4 A5 A6 A7 A8 A9 A10 A11].
      constructor; sr; sr in A1; sr in A2; sr in A3; sr in A4; sr in A5; sr in A6; sr in A7;
        sr in A8; sr in A9; sr in A10; sr in A11; auto.
      * intros k Hk Ek. destruct (A2 k Hk Ek) as [T N]. split; auto. rewrite HMI; auto.
      * intros k Hk. rewrite HM. destruct (_ && _); [apply dropr_srt|]; auto.
      * intros i k a Hk Hin. apply (A6 i k a Hk). auto.
      * intros i k a Hi Hk Ri Ck. rewrite A7 by auto. rewrite HM.
        destruct (_ && _); [|reflexivity]. rewrite dropr_In. simpl. tauto.
      * intros k Hk T. rewrite HMT by auto. rewrite CS by auto. f_equal.
        unfold dropr. symmetry. apply filter_all. intros e He. apply filter_In in He. tauto.
      * intros k Hk Ck. etransitivity; [|apply A11; auto]. unfold Z_len.
        rewrite HM. destruct (_ && _); [|lia]. pose proof (dropr_len r (dropr r (mAT s k))). lia.
    + intros i k a. sr. intros Hi T Hin. rewrite MA in Hin by auto.
      intros Ck. destruct (w_rin s H i k a Hi Hin) as [Hk _].
      apply CL in Ck; auto. revert Ck. eapply TR; eauto.
    + intros i k a. sr. intros Hk T Hin. rewrite HMT in Hin by auto. apply dropr_In in Hin. tauto.
    + constructor; sr.
      * constructor.
      * intros i. simpl. split; [tauto|]. intros [Hi [T R]]. apply R. rewrite RI by auto.
        rewrite T. reflexivity.
      * apply (l_fixed s L).
      * apply (l_sub s L).
      * intros k Hk T Ck. apply (l_pend s L k Hk T). intros C. apply Ck. apply CL; auto.
      * intros i Hi. destruct (l_ston_rows s L i Hi) as [A B]. split; auto. intros T.
        rewrite MA by auto. auto.
      * intros i Hi T R. rewrite RI, T in R by auto. apply (l_empty_rows_c s L); auto.
      * intros i Hi. destruct (l_empty_rows s L i Hi) as [A [B C]]. split; auto. split.
        -- destruct (MM i) as [-> | [_ ->]]; auto.
        -- intros T. rewrite RI, T; auto.
      * intros k Hk T C0. rewrite in_app_iff.
        destruct (Z.eq_dec (csz s k) 0) as [e|N0]; [left; apply (l_empty_cols_c s L); auto|].
        right. apply filter_In. split; [apply in_seq; lia|].
        unfold wants_compact. sr. rewrite T, C0, Z.eqb_refl, andb_true_r. cbn [negb andb].
        destruct (Z.eqb_spec 0 (Z_len (mAT s k))) as [e0|]; auto. exfalso.
        pose proof (tight_csz s k H TC Hk T). lia.
      * intros k Hk. apply in_app_or in Hk. destruct Hk as [Hk|Hk].
        -- destruct (l_empty_cols s L k Hk) as [A B]. split; auto.
           rewrite HM, B. destruct (_ && _); reflexivity.
        -- apply filter_In in Hk. destruct Hk as [Hk W]. apply in_seq in Hk. split; [lia|].
           unfold wants_compact in W. sr in W. rewrite !andb_true_iff, !negb_true_iff in W.
           destruct W as [[T _] Z0]. apply Z.eqb_eq in Z0.
           rewrite HMT by (auto; lia). rewrite CS in Z0 by (auto; lia).
           destruct (dropr r (mAT s k)); auto. discriminate.
      * (* the pushed columns were longer before *)
        pose proof (l_ston_cols_nd s L) as ND.
        assert (DJ : forall k, In k (filter (fun k => wants_compact (set_mA M (set_csz c (set_rsz r
          (set_nnz n (set_dns d (set_ups u s)))))) k 1) (seq 0 (nc s))) -> ~ In k (w_ston_cols s)).
        { intros k Hk Hl. apply filter_In in Hk. destruct Hk as [Hk W]. apply in_seq in Hk.
          unfold wants_compact in W. sr in W. rewrite !andb_true_iff, !negb_true_iff in W.
          destruct W as [[T NL] Z1]. apply Z.eqb_eq in Z1. apply Z.eqb_neq in NL.
          pose proof (tight_csz s k H TC ltac:(lia) T) as SZ.
          apply (l_ston_cols s L) in Hl. destruct Hl as [_ Hl].
          rewrite CS in Z1 by (auto; lia). pose proof (dropr_len r (mAT s k)).
          rewrite CS in NL by (auto; lia). unfold Z_len in *. lia. }
        revert DJ. generalize (filter (fun k => wants_compact (set_mA M (set_csz c (set_rsz r
          (set_nnz n (set_dns d (set_ups u s)))))) k 1) (seq 0 (nc s))),
          (NoDup_filter (fun k => wants_compact (set_mA M (set_csz c (set_rsz r
          (set_nnz n (set_dns d (set_ups u s)))))) k 1) (seq_NoDup (nc s) 0)).
        clear - ND. intros l2 ND2 DJ. induction (w_ston_cols s) as [|x l IH]; simpl; auto.
        inversion ND; subst. constructor.
        -- rewrite in_app_iff. intros [C|C]; auto. apply (DJ x C). left; reflexivity.
        -- apply IH; auto. intros k Hk Hl. apply (DJ k Hk). right; assumption.
      * intros k Hk. apply in_app_or in Hk. destruct Hk as [Hk|Hk].
        -- destruct (l_ston_cols s L k Hk) as [A B]. split; auto.
           destruct (CLE k A); lia.
        -- apply filter_In in Hk. destruct Hk as [Hk W]. apply in_seq in Hk. split; [lia|].
           unfold wants_compact in W. sr in W. rewrite !andb_true_iff in W.
           destruct W as [_ Z1]. apply Z.eqb_eq in Z1. lia.
      * intros i Hi. destruct (l_dton s L i Hi) as [A B]. split; auto. rewrite RI by auto.
        destruct (t_inact _); lia.
      * exact (l_acts s L).
  - constructor; sr; auto.
    + do 9 eexists. reflexivity.
    + intros i. destruct (MM i) as [|[_ ?]]; auto.
    + intros k Hk T. rewrite HMT by auto. unfold dropr. apply filter_ext_in.
      intros [i a] He. simpl. destruct (w_cin s H i k a Hk He) as [Hi _].
      rewrite RI by auto. destruct (t_inact (rt s i)) eqn:Ti; [reflexivity|]. simpl.
      apply negb_true_iff, Z.eqb_neq. eapply TC; eauto.
    + intros k. rewrite HM. destruct (_ && _); [apply dropr_len|lia].
Qed.

(** ** Deleting columns *)
Definition decr_step (s : state) (e : nat * Q) : state :=
  if Z.eqb (rsz s (fst e)) (-1) then s else set_rsz1 (fst e) (rsz s (fst e) - 1)%Z s.
Lemma decr_fold : forall c s, srt c ->
  exists r, foldS decr_step c s = set_rsz r s /\
    forall i, r i = (if hasb i c && negb (Z.eqb (rsz s i) (-1)) then rsz s i - 1 else rsz s i)%Z.
Proof.
  induction c as [|[i a] c IH]; simpl; intros s H.
  - exists (rsz s). split; [destruct s; reflexivity|]. reflexivity.
  - apply srt_inv in H. destruct H as [H L].
    assert (N : hasb i c = false).
    { apply not_true_iff_false. intros C. apply hasb_has in C. destruct C as [b Hb].
      apply L in Hb. simpl in Hb. lia. }
    set (s1 := decr_step s (i, a)).
    assert (F : s1 = set_rsz (if Z.eqb (rsz s i) (-1) then rsz s
                  else upd (rsz s) i (rsz s i - 1)%Z) s).
    { unfold s1, decr_step. cbn [fst snd]. destruct (Z.eqb_spec (rsz s i) (-1)).
      - destruct s; reflexivity.
      - reflexivity. }
    destruct (IH s1 H) as [r [E C]].
    exists r. split; [rewrite E, F; reflexivity|].
    intros k0. rewrite C, F. sr.
    destruct (Nat.eqb_spec i k0).
    + subst k0. rewrite N. simpl. destruct (Z.eqb_spec (rsz s i) (-1)); simpl; [auto|].
      rewrite upd_same. reflexivity.
    + simpl. destruct (Z.eqb_spec (rsz s i) (-1)); [reflexivity|]. rewrite upd_other by auto.
      reflexivity.
Qed.

Lemma delete_col_eq : forall s k, srt (mAT s k) ->
  exists r, delete_col s k =
    set_mAT (upd (mAT s) k []) (set_rsz r (set_csz (upd (csz s) k (-1)%Z) s)) /\
    forall i, r i = if hasb i (mAT s k) && negb (Z.eqb (rsz s i) (-1))
                    then (rsz s i - 1)%Z else rsz s i.
Proof.
  intros s k H.
  assert (E0 : delete_col s k =
    setAT k [] (foldS decr_step (mAT s k) (set_csz (upd (csz s) k (-1)%Z) s))) by reflexivity.
  rewrite E0.
  destruct (decr_fold (mAT s k) (set_csz (upd (csz s) k (-1)%Z) s) H) as [r [E C]].
  exists r. rewrite E. split; [reflexivity|exact C].
Qed.

Lemma delete_col_W0 : forall s k, W0 s -> (k < nc s)%nat -> t_cinact (ct s k) = true ->
  exists r, delete_col s k =
    set_mAT (upd (mAT s) k []) (set_rsz r (set_csz (upd (csz s) k (-1)%Z) s)) /\
  W0 (delete_col s k) /\
  (forall i, (i < nr s)%nat -> (r i = (-1)%Z <-> rsz s i = (-1)%Z)) /\
  (forall i, (r i <= rsz s i)%Z).
Proof.
  intros s k H Hk Tk.
  destruct (delete_col_eq s k (w_csrt s H k Hk)) as [r [E R]].
  exists r. split; [exact E|].
  assert (CL : forall i, (i < nr s)%nat -> rsz s i <> (-1)%Z ->
     (Z_len (dropr (upd (csz s) k (-1)%Z) (mA s i)) <= r i)%Z /\
     (t_inact (rt s i) = false -> r i = Z_len (dropr (upd (csz s) k (-1)%Z) (mA s i)))).
  { intros i Hi Ri. rewrite R, dropr_kill.
    destruct (Z.eqb_spec (rsz s i) (-1)) as [e|_]; [congruence|]. simpl. rewrite andb_true_r.
    pose proof (w_rpen s H i Hi Ri) as P. pose proof (w_ract s H i Hi) as Q0.
    destruct (Z.eq_dec (csz s k) (-1)) as [Ck|Ck].
    { destruct (w_cdead s H k Hk Ck) as [_ ->]. simpl. rewrite del_entry_absent; auto.
      intros [a Ha]. apply dropr_In in Ha. tauto. }
    destruct (hasb i (mAT s k)) eqn:B.
    - apply hasb_has in B. destruct B as [a Ha].
      apply (w_agree s H i k a Hi Hk Ri Ck) in Ha.
      assert (Hd : In (k, a) (dropr (csz s) (mA s i))) by (apply dropr_In; simpl; auto).
      pose proof (del_entry_len k a _ (dropr_srt (csz s) _ (w_rsrt s H i Hi)) Hd) as L.
      unfold Z_len in *. split; [lia|]. intros T. specialize (Q0 T). lia.
    - rewrite del_entry_absent; [auto|].
      intros [a Ha]. apply dropr_In in Ha. destruct Ha as [Ha _]. simpl in Ha.
      apply (w_agree s H i k a Hi Hk Ri Ck) in Ha.
      assert (hasb i (mAT s k) = true) by (apply hasb_has; eexists; eauto). congruence. }
  assert (LV : forall i, (i < nr s)%nat -> (r i = (-1)%Z <-> rsz s i = (-1)%Z)).
  { intros i Hi. split.
    - intros E0. destruct (Z.eq_dec (rsz s i) (-1)); auto. exfalso.
      destruct (CL i Hi n) as [P _]. unfold Z_len in P. lia.
    - intros E0. rewrite R, E0. simpl. rewrite andb_false_r. reflexivity. }
  split; [|split; [exact LV|]]; [|intros i; rewrite R; destruct (_ && _); lia].
  rewrite E.
  assert (MD : forall j, (j < nc s)%nat -> dropr r (mAT s j) = dropr (rsz s) (mAT s j)).
  { intros j Hj. apply dropr_ext. intros [i a] Hi. simpl. apply LV. apply (w_cin s H i j a Hj Hi). }
  constructor; sr.
  - intros i Hi E0. apply LV in E0; auto. apply (w_rdead s H); auto.
  - intros j Hj. updg; [auto|]. apply (w_cdead s H); auto.
  - apply (w_rsrt s H).
  - intros j Hj. updg; [apply srt_nil|]. apply (w_csrt s H); auto.
  - apply (w_rin s H).
  - intros i j a Hj Hin. updh Hin; [contradiction|]. apply (w_cin s H i j a); auto.
  - intros i j a Hi Hj Ri Cj. updh Cj. rewrite upd_other by auto.
    apply (w_agree s H); auto. intros E1. apply Ri, LV; auto.
  - intros i Hi Ti. apply CL; auto. apply act_alive; auto.
  - intros i Hi Ri. apply CL; auto. intros E1. apply Ri. apply LV; auto.
  - intros j Hj Tj. rewrite !upd_other by congruence. rewrite MD by auto. apply (w_cact s H); auto.
  - intros j Hj Cj. updh Cj. rewrite !upd_other by auto. rewrite MD by auto. apply (w_cpen s H); auto.
Qed.

Lemma delete_cols_fold : forall l s, W0 s ->
  (forall k, In k l -> (k < nc s)%nat /\ t_cinact (ct s k) = true) ->
  exists M r c,
    foldS delete_col l s = set_mAT M (set_rsz r (set_csz c s)) /\
    W0 (foldS delete_col l s) /\
    (forall i, (i < nr s)%nat -> (r i = (-1)%Z <-> rsz s i = (-1)%Z)) /\
    (forall i, (r i <= rsz s i)%Z) /\
    (forall k, c k = if memb k l then (-1)%Z else csz s k) /\
    (forall k, M k = if memb k l then [] else mAT s k).
Proof.
  induction l as [|k l IH]; simpl; intros s H HL.
  - exists (mAT s), (rsz s), (csz s). split; [destruct s; reflexivity|]. split; [assumption|].
    repeat split; auto; try tauto. intros; lia.
  - destruct (HL k (or_introl eq_refl)) as [Hk Tk].
    destruct (delete_col_W0 s k H Hk Tk) as [r1 [E1 [H1 [L1 D1]]]].
    set (s1 := delete_col s k) in *.
    destruct (IH s1 H1) as [M [r [c [E [W [CL [RR [CC MM]]]]]]]].
    { intros j Hj. destruct (HL j (or_intror Hj)) as [A B]. rewrite E1. sr. auto. }
    exists M, r, c. split; [rewrite E, E1; reflexivity|]. split; [exact W|].
    rewrite E1 in CL, RR, MM, CC. sr in CL. sr in CC. sr in RR. sr in MM.
    split; [intros i Hi; rewrite CL, L1 by auto; reflexivity|].
    split; [intros i; etransitivity; [apply RR|apply D1]|].
    split; intros j; [rewrite CC | rewrite MM]; unfold memb; simpl; fold (memb j l);
      destruct (Nat.eqb_spec j k); simpl; subst; rewrite ?upd_same, ?upd_other by auto;
      destruct (memb _ l); reflexivity.
Qed.

(** ** Compacting rows *)
Definition wants_compact_row (s : state) (z : Z) (i : nat) : bool :=
  negb (t_inact (rt s i)) && negb (Z.eqb (rsz s i) (Z_len (mA s i))) && Z.eqb (rsz s i) z.
Definition head_of (r : row) : nat := match r with e :: _ => fst e | [] => O end.

Lemma compact_rows_fold : forall l s, NoDup l ->
  (forall i, In i l -> t_inact (rt s i) = false -> rsz s i = Z_len (dropr (csz s) (mA s i))) ->
  exists M st n, foldS compact_row l s =
    set_nnz n (set_stale st (set_w_dton (w_dton s ++ filter (fun i => wants_compact_row s 2 i && t_eq (rt s i)) l)
     (set_w_ston_rows (w_ston_rows s ++ filter (wants_compact_row s 1) l)
      (set_w_empty_rows (w_empty_rows s ++ filter (wants_compact_row s 0) l)
         (set_mA M s))))) /\
    (forall i, M i = if memb i l && negb (t_inact (rt s i)) then dropr (csz s) (mA s i)
                    else mA s i) /\
    (forall i, st i = if memb i l && wants_compact_row s 0 i then head_of (mA s i) else stale s i) /\
    n = (nnz s - zsum (fun i => Z_len (mA s i) - Z_len (M i)) l)%Z.
Proof.
  induction l as [|i l IH]; simpl; intros s ND H.
  - exists (mA s), (stale s), (nnz s). rewrite !app_nil_r. split; [destruct s; reflexivity|].
    repeat split; auto. lia.
  - inversion ND as [|x l' Nin ND']; subst.
    set (s1 := compact_row s i).
    assert (E1 : exists M' st' , s1 =
      set_nnz (nnz s - (Z_len (mA s i) - Z_len (M' i)))%Z
      (set_stale st' (set_w_dton (w_dton s ++ (if wants_compact_row s 2 i && t_eq (rt s i) then [i] else []))
      (set_w_ston_rows (w_ston_rows s ++ (if wants_compact_row s 1 i then [i] else []))
      (set_w_empty_rows (w_empty_rows s ++ (if wants_compact_row s 0 i then [i] else []))
         (set_mA M' s))))) /\
      (forall j, M' j = (if t_inact (rt s i) then mA s j
                         else upd (mA s) i (dropr (csz s) (mA s i)) j)) /\
      (forall j, st' j = if Nat.eqb j i && wants_compact_row s 0 i then head_of (mA s i) else stale s j)).
    { unfold s1, compact_row, wants_compact_row. specialize (H i (or_introl eq_refl)).
      destruct (t_inact (rt s i)) eqn:T; simpl.
      - exists (mA s), (stale s). rewrite !app_nil_r, Z.sub_diag, Z.sub_0_r.
        split; [destruct s; reflexivity|]. split; auto. intros j. rewrite andb_false_r. reflexivity.
      - specialize (H eq_refl).
        destruct (Z.eqb_spec (rsz s i) (Z_len (mA s i))) as [EL|NL]; cbn [negb andb].
        + exists (mA s), (stale s). rewrite !app_nil_r, Z.sub_diag, Z.sub_0_r.
          split; [destruct s; reflexivity|]. split.
          * intros j. updg; auto. symmetry. apply dropr_full. unfold Z_len in *. lia.
          * intros j. rewrite andb_false_r. reflexivity.
        + destruct (Z.eqb_spec (rsz s i) 0) as [E0|N0].
          * exists (upd (mA s) i []),
              (upd (stale s) i (match mA s i with e :: _ => fst e | [] => stale s i end)).
            rewrite E0. cbn [Z.eqb andb negb]. rewrite !app_nil_r, upd_same. sr. split.
            { change (Z_len []) with 0%Z. rewrite Z.sub_0_r. reflexivity. }
            split.
            { intros j. updg; auto. destruct (dropr (csz s) (mA s i)) as [|p0 r0] eqn:D; auto.
              exfalso. unfold Z_len in H. simpl length in H. lia. }
            intros j. rewrite andb_true_r. destruct (Nat.eqb_spec j i).
            { subst. rewrite upd_same. destruct (mA s i); [exfalso; apply NL; rewrite E0; reflexivity|].
              reflexivity. }
            rewrite upd_other by auto. reflexivity.
          * exists (upd (mA s) i (dropr (csz s) (mA s i))), (stale s).
            rewrite drop_cols_eq, upd_same, app_nil_r. split.
            { destruct (Z.eqb_spec (rsz s i) 1) as [e1|].
              - rewrite e1. cbn [Z.eqb andb Pos.eqb]. rewrite app_nil_r. destruct s; reflexivity.
              - rewrite app_nil_r. destruct (Z.eqb_spec (rsz s i) 2), (t_eq (rt s i)); cbn [andb];
                  rewrite ?app_nil_r; destruct s; reflexivity. }
            split; auto. intros j. rewrite andb_false_r. reflexivity. }
    destruct E1 as [M' [st' [E1 [EM ES]]]].
    assert (WC : forall z, filter (wants_compact_row s1 z) l = filter (wants_compact_row s z) l).
    { intros z. apply filter_ext_in. intros j Hj. unfold wants_compact_row. rewrite E1. sr.
      rewrite EM. destruct (t_inact (rt s i)); [reflexivity|].
      rewrite upd_other by congruence. reflexivity. }
    assert (WC2 : filter (fun j => wants_compact_row s1 2 j && t_eq (rt s1 j)) l =
                  filter (fun j => wants_compact_row s 2 j && t_eq (rt s j)) l).
    { apply filter_ext_in. intros j Hj. unfold wants_compact_row. rewrite E1. sr.
      rewrite EM. destruct (t_inact (rt s i)); [reflexivity|].
      rewrite upd_other by congruence. reflexivity. }
    assert (MI : forall j, j <> i -> M' j = mA s j).
    { intros j Hj. rewrite EM. destruct (t_inact _); auto. apply upd_other; auto. }
    destruct (IH s1 ND') as [M [st [n [E [HM [HS HN]]]]]].
    { intros j Hj Tj. rewrite E1 in *. sra. rewrite MI by congruence. apply H; auto. }
    assert (HM' : forall j, M j = if ((j =? i)%nat || memb j l) && negb (t_inact (rt s j))
                    then dropr (csz s) (mA s j) else mA s j).
    { intros j. rewrite HM, E1. sr. destruct (Nat.eqb_spec j i); simpl.
      + subst j. replace (memb i l) with false by (symmetry; apply memb_nIn; auto). simpl.
        rewrite EM. destruct (t_inact (rt s i)); auto. rewrite upd_same. reflexivity.
      + rewrite MI by auto. reflexivity. }
    exists M, st, n. rewrite E, !WC, WC2, E1. sr. split; [|split; [exact HM'|split]].
    + rewrite <- !app_assoc.
      destruct (wants_compact_row s 1 i), (wants_compact_row s 0 i), (wants_compact_row s 2 i && t_eq (rt s i));
        reflexivity.
    + intros j. rewrite HS, E1. sr. unfold wants_compact_row. sr.
      destruct (Nat.eqb_spec j i); simpl.
      * subst j. replace (memb i l) with false by (symmetry; apply memb_nIn; auto). simpl.
        rewrite ES, Nat.eqb_refl. reflexivity.
      * rewrite ES. destruct (Nat.eqb_spec j i); [congruence|]. simpl. rewrite MI by auto. reflexivity.
    + rewrite HN, E1. sr.
      assert (MMi : M i = M' i).
      { rewrite HM', Nat.eqb_refl, EM. simpl. destruct (t_inact (rt s i)); auto.
        rewrite upd_same. reflexivity. }
      rewrite MMi. rewrite (zsum_ext (fun j => Z_len (M' j) - Z_len (M j))%Z
                                     (fun j => Z_len (mA s j) - Z_len (M j))%Z).
      * lia.
      * intros j Hj. rewrite MI by congruence. reflexivity.
Qed.
