(** Monotonicity, the exact count of nonzeros, and the simple explorers. *)
From Coq Require Import NArith Sorted.
From Verif Require Import M_Num S_LP M_Driver M_State M_Act M_Core M_Simple M_StonCols M_Dton
  L_State L_Struct L_Struct2 L_Struct3.

(** What no step ever undoes *)
Record mono (s s' : state) : Prop := mkMono {
  mo_nr : nr s' = nr s;  mo_nc : nc s' = nc s;
  mo_bad : bad s' = true -> bad s = true \/ tiny s' = true;
  mo_tiny : tiny s = true -> tiny s' = true;
  mo_rt : forall i, t_inact (rt s i) = true -> t_inact (rt s' i) = true;
  mo_fx : forall k, t_fixed (ct s k) = true -> t_fixed (ct s' k) = true;
  mo_sb : forall k, t_sub (ct s k) = true -> t_sub (ct s' k) = true;
  mo_rd : forall i, (i < nr s)%nat -> rsz s i = (-1)%Z -> rsz s' i = (-1)%Z;
  mo_cd : forall k, (k < nc s)%nat -> csz s k = (-1)%Z -> csz s' k = (-1)%Z;
  mo_nnz : (nnz s' <= nnz s)%Z;
  mo_len : forall i, (i < nr s)%nat -> (length (mA s' i) <= length (mA s i))%nat }.

Lemma mono_refl : forall s, mono s s.
Proof. intros; constructor; auto; intros; lia. Qed.
Lemma mono_trans : forall a b c, mono a b -> mono b c -> mono a c.
Proof.
  intros a b c [] []; constructor; auto; try congruence; try (intros; etransitivity; eauto; fail).
  - intros X. destruct (mo_bad1 X) as [Y|Y]; auto. destruct (mo_bad0 Y); auto.
  - intros i Hi R. apply mo_rd1; [congruence|]; auto.
  - intros i Hi R. apply mo_cd1; [congruence|]; auto.
  - intros i Hi. etransitivity; [apply mo_len1|apply mo_len0]; congruence.
Qed.
Lemma mo_ci : forall s s' k, mono s s' -> t_cinact (ct s k) = true -> t_cinact (ct s' k) = true.
Proof.
  intros s s' k M H. unfold t_cinact in *. apply orb_true_iff in H. apply orb_true_iff.
  destruct H; [left; apply (mo_fx _ _ M) | right; apply (mo_sb _ _ M)]; auto.
Qed.
Lemma mono_same : forall s s', same_struct s s' -> mono s s'.
Proof.
  intros s s' E. constructor; try apply E; intros.
  - left. rewrite <- (ss_bad _ _ E). assumption.
  - rewrite (ss_tiny _ _ E). assumption.
  - rewrite (ss_rt _ _ E). assumption.
  - rewrite (ss_fx _ _ E). assumption.
  - rewrite (ss_sb _ _ E). assumption.
  - rewrite (ss_rsz _ _ E). assumption.
  - rewrite (ss_csz _ _ E). assumption.
  - rewrite (ss_nnz _ _ E). lia.
  - rewrite (ss_A _ _ E). lia.
Qed.

(** Exact counts *)
Record Nx (s : state) : Prop := mkNx {
  nx_sum : nnz s = zsum (fun i => Z_len (mA s i)) (seq 0 (nr s));
  nx_row : forall i, (i < nr s)%nat -> rsz s i <> (-1)%Z -> rsz s i = Z_len (mA s i);
  nx_dead : forall i, (i < nr s)%nat -> rsz s i = (-1)%Z -> mA s i = [] }.
Lemma Nx_same : forall s s', same_struct s s' -> Nx s -> Nx s'.
Proof.
  intros s s' [] [A B C]. constructor; rewrite ?ss_nr, ?ss_A, ?ss_rsz, ?ss_nnz; auto.
Qed.

Record quiet (s : state) : Prop := mkQuiet {
  q_rows : w_rows s = [];  q_fixed : w_fixed s = [];  q_sub : w_sub s = [] }.
Lemma quiet_same : forall s s', same_struct s s' -> quiet s -> quiet s'.
Proof. intros s s' [] [A B C]. constructor; congruence. Qed.

(** ** Sums *)
Lemma zsum_app : forall f l1 l2, zsum f (l1 ++ l2) = (zsum f l1 + zsum f l2)%Z.
Proof. induction l1; simpl; intros; auto. rewrite IHl1. lia. Qed.
Lemma zsum_sub : forall f g l, zsum (fun i => f i - g i)%Z l = (zsum f l - zsum g l)%Z.
Proof. induction l; simpl; auto. rewrite IHl. lia. Qed.
Lemma zsum_nonneg : forall f l, (forall i, In i l -> (0 <= f i)%Z) -> (0 <= zsum f l)%Z.
Proof. induction l; simpl; intros; [lia|]. specialize (IHl ltac:(auto)). specialize (H a ltac:(auto)). lia. Qed.
Lemma zsum_le : forall f g l, (forall i, In i l -> (f i <= g i)%Z) -> (zsum f l <= zsum g l)%Z.
Proof. induction l; simpl; intros; [lia|]. specialize (IHl ltac:(auto)). specialize (H a ltac:(auto)). lia. Qed.
Lemma zsum_zero : forall f l, (forall i, In i l -> f i = 0%Z) -> zsum f l = 0%Z.
Proof. induction l; simpl; intros; auto. rewrite H, IHl; auto. Qed.
Lemma zsum_upd : forall f i v l, NoDup l -> In i l ->
  zsum (upd f i v) l = (zsum f l - f i + v)%Z.
Proof.
  induction l as [|x l IH]; simpl; intros ND Hin; [contradiction|]. inversion ND; subst.
  destruct Hin as [->|Hin].
  - rewrite upd_same. rewrite (zsum_ext (upd f i v) f); [lia|].
    intros j Hj. apply upd_other. congruence.
  - rewrite IH by auto. rewrite upd_other by congruence. lia.
Qed.
Lemma zsum_memb : forall f l L, NoDup l -> NoDup L -> (forall i, In i l -> In i L) ->
  zsum (fun i => if memb i l then 0%Z else f i) L = (zsum f L - zsum f l)%Z.
Proof.
  induction l as [|x l IH]; intros L N1 N2 I.
  - rewrite (zsum_ext _ f); [simpl; lia|reflexivity].
  - inversion N1; subst. change (zsum f (x :: l)) with (f x + zsum f l)%Z.
    assert (E : zsum (fun i => if memb i (x :: l) then 0%Z else f i) L =
                zsum (upd (fun i => if memb i l then 0%Z else f i) x 0%Z) L).
    { apply zsum_ext. intros i _. unfold memb. simpl. unfold upd.
      destruct (Nat.eqb_spec i x); reflexivity. }
    rewrite E, zsum_upd, IH; auto.
    + replace (memb x l) with false by (symmetry; apply memb_nIn; auto). lia.
    + intros; apply I; simpl; auto.
    + apply I. simpl; auto.
Qed.

Lemma rsz_nonneg : forall s i, W0 s -> (i < nr s)%nat -> rsz s i <> (-1)%Z -> (0 <= rsz s i)%Z.
Proof. intros s i H Hi R. pose proof (w_rpen s H i Hi R). unfold Z_len in *. lia. Qed.

(** ** The two deletions *)
Lemma after_dir_mono : forall s s', Inv s -> after_dir s s' -> mono s s'.
Proof.
  intros s s' [H _ _ L] [[u [d [c [M [r [n [MT [we [ws E]]]]]]]]] A1 A2 A3 A4 A5 A6 A7 A8 A9].
  constructor; try (rewrite E; sr; auto; fail).
  - intros i Hi R. rewrite A2 by auto. rewrite (w_rdead s H); auto.
  - intros k Hk C. apply A5; auto.
  - rewrite A7. assert (0 <= zsum (rsz s) (w_rows s))%Z; [|lia].
    apply zsum_nonneg. intros i Hi. apply (l_rows s L) in Hi. apply rsz_nonneg; tauto.
  - intros i Hi. destruct (A4 i) as [-> | ->]; simpl; lia.
Qed.
Lemma after_dir_Nx : forall s s', Inv s -> Inv s' -> after_dir s s' -> Nx s -> Nx s'.
Proof.
  intros s s' [H TR TC L] [H' TR' TC' L'] AD NX.
  destruct AD as [[u [d [c [M [r [n [MT [we [ws E]]]]]]]]] A1 A2 A3 A4 A5 A6 A7 A8 A9].
  assert (ENR : nr s' = nr s) by (rewrite E; reflexivity).
  assert (ERT : rt s' = rt s) by (rewrite E; reflexivity).
  assert (ML : forall i, (i < nr s)%nat -> mA s' i = if t_inact (rt s i) then [] else mA s i).
  { intros i Hi. destruct (t_inact (rt s i)) eqn:T; [|auto].
    destruct (Z.eq_dec (rsz s i) (-1)) as [e|ne].
    - pose proof (nx_dead s NX i Hi e). destruct (A4 i) as [-> | ->]; auto.
    - destruct (A9 i) as [X|[X R0]]; auto; [apply (l_rows s L); auto|].
      rewrite X. pose proof (nx_row s NX i Hi ne) as R1. rewrite R0 in R1.
      destruct (mA s i); auto. discriminate. }
  constructor; rewrite ?ENR.
  - rewrite A7, (nx_sum s NX).
    rewrite (zsum_ext (fun i => Z_len (mA s' i))
               (fun i => if memb i (w_rows s) then 0%Z else Z_len (mA s i))).
    + rewrite zsum_memb; [|apply (l_rows_nd s L)|apply seq_NoDup|].
      * f_equal. apply zsum_ext. intros i Hi. apply (l_rows s L) in Hi. apply (nx_row s NX); tauto.
      * intros i Hi. apply (l_rows s L) in Hi. apply in_seq. lia.
    + intros i Hi. apply in_seq in Hi. rewrite ML by lia.
      destruct (memb i (w_rows s)) eqn:B.
      * apply memb_In in B. apply (l_rows s L) in B. destruct B as [_ [-> _]]. reflexivity.
      * apply memb_nIn in B. destruct (t_inact (rt s i)) eqn:T; auto.
        rewrite (nx_dead s NX i); [reflexivity|lia|].
        destruct (Z.eq_dec (rsz s i) (-1)); auto. exfalso. apply B. apply (l_rows s L).
        repeat split; auto; lia.
  - intros i Hi R. rewrite ML, A2 in * by auto. destruct (t_inact (rt s i)); [congruence|].
    apply (nx_row s NX); auto.
  - intros i Hi R. rewrite ML, A2 in * by auto. destruct (t_inact (rt s i)); auto.
    apply (nx_dead s NX); auto.
Qed.

Lemma after_dic_mono : forall s s', Inv s -> after_dic s s' -> mono s s'.
Proof.
  intros s s' [H _ _ L] [[MT [r [c [M [st [n [wd [ws [we E]]]]]]]]] A1 A2 A3 A4 A5 A6 A7 A8].
  assert (LE : forall i, (i < nr s)%nat -> (length (mA s' i) <= length (mA s i))%nat).
  { intros i Hi. destruct (t_inact (rt s i)) eqn:T; [rewrite A6 by auto; lia|].
    rewrite A5 by auto. apply filter_len. }
  constructor; try (rewrite E; sr; auto; fail); auto.
  - intros i Hi R. apply A3; auto.
  - intros k Hk C. rewrite A1 by auto. rewrite C. destruct (t_cinact _); reflexivity.
  - rewrite A7.
    assert (0 <= zsum (fun i => Z_len (mA s i) - Z_len (mA s' i)) (seq 0 (nr s)))%Z; [|lia].
    apply zsum_nonneg. intros i Hi. apply in_seq in Hi. specialize (LE i ltac:(lia)).
    unfold Z_len. lia.
Qed.
Lemma after_dic_Nx : forall s s', Inv s -> Inv s' -> after_dic s s' -> w_rows s = [] -> Nx s -> Nx s'.
Proof.
  intros s s' [H TR TC L] [H' TR' TC' L'] AD WR NX.
  destruct AD as [[MT [r [c [M [st [n [wd [ws [we E]]]]]]]]] A1 A2 A3 A4 A5 A6 A7 A8].
  assert (ENR : nr s' = nr s) by (rewrite E; reflexivity).
  assert (ERT : rt s' = rt s) by (rewrite E; reflexivity).
  constructor; rewrite ?ENR.
  - rewrite A7, zsum_sub, (nx_sum s NX). lia.
  - intros i Hi R. apply tight_rsz; auto; [rewrite ENR; auto|]. rewrite ERT.
    destruct (t_inact (rt s i)) eqn:T; auto. exfalso. apply R. apply A3; auto.
    apply pend_or_dead; auto.
  - intros i Hi R. apply A3 in R; auto. rewrite A6 by (auto; apply (w_rdead s H); auto).
    apply (nx_dead s NX); auto.
Qed.
