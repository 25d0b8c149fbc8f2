(** Meaning of the steps on singleton columns. *)
From Coq Require Import NArith Lqa.
From Verif Require Import M_Num S_LP M_Settings M_Driver S_Driver M_State M_Act M_Core M_Simple
  M_StonCols M_Dton M_Parallel M_Propagate M_Init M_Post M_Run S_Run S_Struct S_Sem
  L_State L_Struct L_Struct2 L_Struct3 L_Struct4 L_Struct5 L_Struct6 L_Struct7 L_Struct8 L_Struct9 L_Struct10 L_Struct11
  L_Sem L_Sem2 L_Sem3 L_Sem4 L_Mid L_Mid2 L_Mid3 L_Mid4 L_Mid5 L_Act L_Act2 L_Act4 L_Act6 L_Act8 L_Free.
Open Scope Q_scope.

(** ** Points of a state without pending columns *)
Definition rsat (s : state) (x : nat -> Q) (i : nat) : Prop :=
  ext_le (lhs s i) (dot (mA s i) x) /\ le_ext (dot (mA s i) x) (rhs s i).
Definition csat (s : state) (x : nat -> Q) (k : nat) : Prop := ext_le (lb s k) (x k) /\ le_ext (x k) (ub s k).
Definition orow (s : state) (i : nat) (x : nat -> Q) : Prop :=
  forall j, (j < nr s)%nat -> j <> i -> t_inact (rt s j) = false -> rsat s x j.
Definition ocol (s : state) (k : nat) (x : nat -> Q) : Prop :=
  forall j, (j < nc s)%nat -> j <> k -> t_cinact (ct s j) = false -> csat s x j.
Definition sat1 (s : state) (x : nat -> Q) : Prop :=
  (forall j, (j < nr s)%nat -> t_inact (rt s j) = false -> rsat s x j) /\
  (forall j, (j < nc s)%nat -> t_cinact (ct s j) = false -> csat s x j).
Lemma sat1_sat : forall s x, w_fixed s = [] -> w_sub s = [] -> (sat zero zero s x <-> sat1 s x).
Proof.
  intros s x W1 W2. unfold sat, sat1, pinned. rewrite W1, W2. split.
  - intros [A [B _]]. split; intros j Hj T; [apply (within0 (lhs s j))|apply (within0 (lb s j))]; [exact (A j Hj T)|exact (B j Hj T)].
  - intros [A B]. split; [|split; [|split; intros k []]]; intros j Hj T; apply within0; [exact (A j Hj T)|exact (B j Hj T)].
Qed.
Lemma sat1_parts : forall s i k x, (i < nr s)%nat -> (k < nc s)%nat -> (sat1 s x <->
  orow s i x /\ ocol s k x /\ (t_inact (rt s i) = false -> rsat s x i) /\ (t_cinact (ct s k) = false -> csat s x k)).
Proof.
  intros s i k x Hi Hk. unfold sat1, orow, ocol. split.
  - intros [A B]. repeat split; auto; try (apply A; auto); try (apply B; auto).
  - intros [A [B [C D]]]. split; intros j Hj T.
    + destruct (Nat.eq_dec j i) as [->|]; auto.
    + destruct (Nat.eq_dec j k) as [->|]; auto.
Qed.
Record stepf (s t : state) (i k : nat) : Prop := {
  sf_nr : nr t = nr s; sf_nc : nc t = nc s; sf_lb : lb t = lb s; sf_ub : ub t = ub s;
  sf_wf : w_fixed t = w_fixed s; sf_ws : w_sub t = w_sub s;
  sf_ct : forall j, j <> k -> ct t j = ct s j;
  sf_row : forall j, j <> i -> rt t j = rt s j /\ mA t j = mA s j /\ lhs t j = lhs s j /\ rhs t j = rhs s j }.
Lemma stepf_o : forall s t i k x, stepf s t i k -> (orow t i x <-> orow s i x) /\ (ocol t k x <-> ocol s k x).
Proof.
  intros s t i k x F. unfold orow, ocol, rsat, csat.
  rewrite (sf_nr _ _ _ _ F), (sf_nc _ _ _ _ F), (sf_lb _ _ _ _ F), (sf_ub _ _ _ _ F).
  split; split; intros X j Hj D; specialize (X j Hj D).
  - destruct (sf_row _ _ _ _ F j D) as (RT & E & L & R). rewrite RT, E, L, R in X. auto.
  - destruct (sf_row _ _ _ _ F j D) as (RT & E & L & R). rewrite RT, E, L, R. auto.
  - rewrite (sf_ct _ _ _ _ F j D) in X. auto.
  - rewrite (sf_ct _ _ _ _ F j D). auto.
Qed.
Lemma rsat_q : forall l u v w, v == w -> (ext_le l v /\ le_ext v u) -> ext_le l w /\ le_ext w u.
Proof. intros [|l|] [|u|] v w E; simpl; intros [X Y]; split; auto; lra. Qed.

(** ** The column and its row *)
Lemma obj_upd : forall s k x v, (k < nc s)%nat -> csz s k <> (-1)%Z -> obj s (upd x k v) == obj s x + cst s k * (v - x k).
Proof.
  intros s k x v Hk C. unfold obj.
  assert (IN : In k (live_cols s)) by (apply live_cols_in; auto).
  rewrite (sumQ_perm1 k (live_cols s) _ (live_cols_nd s) IN).
  rewrite (sumQ_perm1 k (live_cols s) (fun k0 => cst s k0 * x k0) (live_cols_nd s) IN).
  rewrite upd_same. rewrite (sumQ_ext _ (fun j => cst s j * upd x k v j) (fun j => cst s j * x j)); [lra|].
  intros j Hj. apply filter_In in Hj. destruct Hj as [_ D]. apply negb_true_iff, Nat.eqb_neq in D.
  rewrite upd_other by auto. lra.
Qed.
Lemma live_less : forall s t k, nc t = nc s -> csz t = upd (csz s) k (-1)%Z ->
  live_cols t = filter (fun j => negb (Nat.eqb j k)) (live_cols s).
Proof.
  intros s t k E C. unfold live_cols. rewrite E, C, filter_filter. apply filter_ext. intros j.
  destruct (Nat.eqb_spec j k) as [->|D]; [rewrite upd_same|rewrite upd_other by auto]; cbn; auto.
Qed.
Lemma gone_obj : forall s t k x, nc t = nc s -> csz t = upd (csz s) k (-1)%Z -> (k < nc s)%nat -> csz s k <> (-1)%Z ->
  obj t x == off t + sumQ (filter (fun j => negb (Nat.eqb j k)) (live_cols s)) (fun j => cst t j * x j) /\
  obj s x == off s + cst s k * x k + sumQ (filter (fun j => negb (Nat.eqb j k)) (live_cols s)) (fun j => cst s j * x j).
Proof.
  intros s t k x E C Hk CK. unfold obj. rewrite (live_less s t k E C). split; [lra|].
  rewrite (sumQ_perm1 k (live_cols s) _ (live_cols_nd s)); [lra|]. apply live_cols_in; auto.
Qed.
Lemma sum_coeff : forall r L x, NoDup L -> (forall j c, In (j, c) r -> In j L) ->
  sumQ L (fun j => coeff r j * x j) == dot r x.
Proof.
  induction r as [|[j c] r IH]; intros L x ND HL; simpl.
  - apply sumQ_0. intros; lra.
  - rewrite (sumQ_ext L _ (fun i => coeff r i * x i + 1 * ((if Nat.eqb i j then c else 0) * x i))).
    + rewrite sumQ_lin, IH by (auto; intros; eapply HL; right; eauto).
      rewrite (sumQ_perm1 j L) by (auto; eapply HL; left; eauto). rewrite Nat.eqb_refl.
      rewrite (sumQ_0 (filter _ L)); [lra|]. intros i Hi. apply filter_In in Hi. destruct Hi as [_ D].
      apply negb_true_iff in D. rewrite D. lra.
    + intros i _. rewrite (Nat.eqb_sym j i). destruct (Nat.eqb i j); lra.
Qed.
Lemma coeff_del : forall r k j, coeff (del_entry k r) j == if Nat.eqb j k then 0 else coeff r j.
Proof.
  intros r k j. induction r as [|[c b] r IH]; cbn [del_entry filter coeff]; [destruct (Nat.eqb j k); lra|].
  unfold del_entry in IH |- *. cbn [filter fst]. destruct (Nat.eqb_spec c k) as [->|D]; cbn [negb].
  - rewrite IH. destruct (Nat.eqb_spec j k) as [E|E]; [lra|]. destruct (Nat.eqb_spec k j); [congruence|lra].
  - cbn [coeff]. rewrite IH. destruct (Nat.eqb_spec j k) as [E|E]; [|lra]. destruct (Nat.eqb_spec c j); [congruence|lra].
Qed.
(** The costs after a substitution *)
Lemma sub_var_spec : forall r k a b s, srt r -> ~ a == 0 -> exists c o,
  sub_var_in_obj r k a b s = set_off o (set_cst c s) /\
  (forall j, c j == cst s j - cst s k / a * coeff r j) /\ o == off s + b * (cst s k / a).
Proof.
  intros r k a b s SR Na. unfold sub_var_in_obj. destruct (Qeqb (cst s k) 0) eqn:E; qb.
  - exists (cst s), (off s). split; [destruct s; reflexivity|].
    assert (Z : cst s k / a == 0) by (rewrite E; field; auto). split; [intros j; rewrite Z; lra|rewrite Z; lra].
  - cbv zeta. set (ratio := cst s k / a). clearbody ratio. clear E.
    assert (X : forall s0, exists c, foldS (fun s e => set_cst1 (fst e) (cst s (fst e) - ratio * snd e) s) r s0 = set_cst c s0 /\
              forall j, c j == cst s0 j - ratio * coeff r j).
    { induction r as [|[i v] r IH]; intros s0; cbn [foldS].
      - exists (cst s0). split; [destruct s0; reflexivity|]. intros j. cbn. lra.
      - pose proof (srt_nhas _ _ _ SR) as NH. apply srt_tl in SR.
        destruct (IH SR (set_cst1 i (cst s0 i - ratio * v) s0)) as [c [E1 E2]].
        exists c. cbn [fst snd]. rewrite E1. split; [destruct s0; reflexivity|]. intros j. rewrite E2. sr. cbn [coeff].
        destruct (Nat.eqb_spec i j) as [->|D].
        + rewrite upd_same. rewrite (coeff_out r j NH). lra.
        + rewrite upd_other by auto. lra. }
    destruct (X s) as [c [E1 E2]]. rewrite E1. exists c, (off s + b * ratio). split; [reflexivity|]. split; auto. sr. lra.
Qed.

Section One.
Variables (s : state) (i k : nat) (a : Q).
Hypotheses (H : Inv s) (M : Mid s) (A : AV Qle s) (WF : w_fixed s = []) (WS : w_sub s = [])
  (Hi : (i < nr s)%nat) (Hk : (k < nc s)%nat) (Ti : t_inact (rt s i) = false) (Tk : t_cinact (ct s k) = false)
  (EK : mAT s k = [(i, a)]) (IN : In (k, a) (mA s i)).
Notation rest x := (dot (del_entry k (mA s i)) x).
Lemma CK : csz s k <> (-1)%Z. Proof. apply cact_alive; auto. apply H. Qed.
Lemma Na : ~ a == 0. Proof. apply (w_rin s (inv_0 s H) i k a Hi IN). Qed.
Lemma SRi : srt (mA s i). Proof. apply (w_rsrt s (inv_0 s H)); auto. Qed.
Lemma VFi : row_view s i = mA s i. Proof. apply view_full; auto. Qed.
Lemma not_elsewhere : forall j, (j < nr s)%nat -> j <> i -> t_inact (rt s j) = false -> ~ has k (mA s j).
Proof.
  intros j Hj D T [c Hc]. assert (X : In (j, c) (mAT s k)).
  { apply (w_agree s (inv_0 s H)); auto; [apply act_alive; auto; apply H|apply CK]. }
  rewrite EK in X. destruct X as [X|[]]. congruence.
Qed.
Lemma orow_upd : forall x v, orow s i (upd x k v) <-> orow s i x.
Proof.
  intros x v. unfold orow, rsat.
  assert (E : forall j, (j < nr s)%nat -> j <> i -> t_inact (rt s j) = false -> dot (mA s j) (upd x k v) == dot (mA s j) x).
  { intros j Hj D T. apply dot_ext. intros c b Hb. rewrite upd_other; [lra|]. intros ->. apply (not_elsewhere j Hj D T). exists b; auto. }
  split; intros X j Hj D T; eapply rsat_q; [|apply X; auto| |apply X; auto]; [apply E; auto|symmetry; apply E; auto].
Qed.
Lemma ocol_upd : forall x v, ocol s k (upd x k v) <-> ocol s k x.
Proof.
  intros x v. unfold ocol, csat. split; intros X j Hj D T; specialize (X j Hj D T); rewrite upd_other in * by auto; auto.
Qed.
Lemma row_rest : forall x, dot (mA s i) x == a * x k + rest x.
Proof. intros. apply dot_del; [apply SRi|auto]. Qed.
Lemma row_upd : forall x v, dot (mA s i) (upd x k v) == a * v + rest x.
Proof.
  intros x v. rewrite row_rest, upd_same. rewrite (dot_ext (del_entry k (mA s i)) (upd x k v) x); [lra|].
  intros j c Hj. apply del_entry_In in Hj. destruct Hj as [_ D]. rewrite upd_other; [lra|auto].
Qed.
Lemma ocol_others : forall x, ocol s k x -> others s i k x.
Proof.
  intros x O j c Hj D. destruct (pend_entry s i j c H WS Hi Ti Hj) as [Hj' [_ [TJ|W]]]; [|rewrite WF in W; contradiction].
  destruct (O j Hj' D TJ) as [L U]. split; intros F; [apply ext_le_fin in L; auto|apply le_ext_fin in U; auto].
Qed.
Lemma rest_cols : forall j c, In (j, c) (del_entry k (mA s i)) -> In j (filter (fun j => negb (Nat.eqb j k)) (live_cols s)).
Proof.
  intros j c Hj. apply del_entry_In in Hj. destruct Hj as [Hj D]. cbn in D. apply filter_In. split.
  - apply live_cols_in. destruct (w_rin s (inv_0 s H) i j c Hi Hj). split; auto. eapply (inv_R s H); eauto.
  - apply negb_true_iff, Nat.eqb_neq; auto.
Qed.
(** Substituting the column in the objective *)
Lemma sub_obj : forall t side x v, nc t = nc s -> csz t = upd (csz s) k (-1)%Z ->
  (forall j, cst t j == cst s j - cst s k / a * coeff (mA s i) j) -> off t == off s + side * (cst s k / a) ->
  a * v + rest x == side -> obj t x == obj s (upd x k v).
Proof.
  intros t side x v E1 E2 E3 E4 EV. pose proof Na as Na.
  rewrite obj_upd by (auto using CK). destruct (gone_obj s t k x E1 E2 Hk CK) as [O1 O2]. rewrite O1, O2, E4.
  set (L := filter (fun j => negb (Nat.eqb j k)) (live_cols s)) in *.
  rewrite (sumQ_ext L (fun j => cst t j * x j) (fun j => cst s j * x j + (- (cst s k / a)) * (coeff (del_entry k (mA s i)) j * x j))).
  - rewrite sumQ_lin. rewrite sum_coeff.
    + rewrite <- EV. set (q := cst s k / a) in *.
      assert (Q1 : cst s k == q * a) by (unfold q; field; auto). rewrite Q1. ring.
    + apply NoDup_filter, live_cols_nd.
    + apply rest_cols.
  - intros j Hj. unfold L in Hj. apply filter_In in Hj. destruct Hj as [_ D]. apply negb_true_iff in D.
    rewrite coeff_del, D, E3. ring.
Qed.
Lemma fix_obj : forall t x v, nc t = nc s -> csz t = upd (csz s) k (-1)%Z ->
  cst t = cst s -> off t == off s + cst s k * v -> obj t x == obj s (upd x k v).
Proof.
  intros t x v E1 E2 E3 E4. rewrite obj_upd by (auto using CK).
  destruct (gone_obj s t k x E1 E2 Hk CK) as [O1 O2]. rewrite O1, O2, E4, E3. ring.
Qed.
End One.
