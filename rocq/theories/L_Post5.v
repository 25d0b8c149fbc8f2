(** Replaying the records of singleton columns. *)
From Coq Require Import NArith Lqa.
From Verif Require Import M_Num S_LP M_Settings M_Driver S_Driver M_State M_Act M_Core M_Simple
  M_StonCols M_Dton M_Parallel M_Propagate M_Init M_Post M_Run S_Run S_Struct S_Sem S_Log
  L_State L_Struct L_Struct2 L_Struct3 L_Struct4 L_Struct5 L_Struct6 L_Struct7 L_Struct8 L_Struct9 L_Struct10 L_Struct11
  L_Sem L_Sem2 L_Sem3 L_Sem4 L_Mid L_Mid2 L_Mid3 L_Mid4 L_Mid5 L_Act L_Act2 L_Act4 L_Act8 L_Ston L_Ston2
  L_Post L_Post2 L_Post3 L_Post4.
Import M_Driver.
Notation bad := M_State.bad.
Open Scope Q_scope.

(** ** Activities without any relation between the values: only the counts matter here *)
Lemma fix_col_ston_RT : forall s i k v a, Inv s -> Mid s -> AV RT s -> w_fixed s = [] -> (i < nr s)%nat -> (k < nc s)%nat ->
  t_inact (rt s i) = false -> t_cinact (ct s k) = false -> In (k, a) (mA s i) ->
  AV RT (fix_col_ston i k v a s).
Proof.
  intros s i k v a H M A WF Hi Hk Ti Tk IN.
  pose proof (view_full s i H Hi Ti) as VF. pose proof (w_rsrt s (inv_0 s H) i Hi) as SR.
  destruct (w_rin s (inv_0 s H) i k a Hi IN) as [_ NZ].
  cbv beta delta [fix_col_ston].
  let_one s1 E1. rewrite (remove_row_eq i k s VF) in E1. let_one r Er. let_one s2 E2. let_one s3 E3. let_one s4 E4. let_one a0 Ea. let_one t0 Et.
  let_one a1 E5. let_one a2 E6. let_one s5 E7.
  assert (RV : r = del_entry k (mA s i)).
  { subst r s1. unfold row_view. sr. rewrite !upd_same. apply firstn_all2.
    unfold row_view in VF. apply (f_equal (@length _)) in VF. rewrite firstn_length in VF.
    pose proof (del_entry_len k a _ SR IN). lia. }
  assert (F4 : nr s4 = nr s /\ lb s4 = lb s /\ ub s4 = ub s /\ w_fixed s4 = [] /\ acts s4 = acts s /\
    mA s4 = upd (mA s) i (del_entry k (mA s i)) /\ rt s4 = rt s /\ ct s4 = upd (ct s) k (tag_fixed (ct s k))).
  { pose proof (sides_frame s2 i (a * v)) as X. cbv zeta in X. rewrite <- E3 in X. rewrite <- E4 in X.
    destruct X as (X1&X2&X3&X4&X5&X6&X7&X8). rewrite X1, X2, X3, X4, X5, X6, X7, X8. subst s2 s1. sr. repeat split; auto. }
  clear Er E1 E2 E3 E4 s1 s2 s3. destruct F4 as (N4&L4&U4&W4&A4&M4&R4&C4).
  pose proof (tr_lb s (md_tags s M) k Hk Tk) as TL. pose proof (tr_ub s (md_tags s M) k Hk Tk) as TU.
  assert (X : SV2 RT (lb s) (ub s) (del_entry k (mA s i)) a2).
  { pose proof (fix_act_SV2 RT k a v (lb s) (ub s) (ct s k) (mA s i) (acts s i) good_RT SR IN NZ) as X.
    assert (Y : a2 = fix_act v a (lb s) (ub s) (ct s k) (del_entry k (mA s i)) (acts s i)).
    { subst a2 a1 a0 t0. rewrite A4, C4, L4, U4, upd_same. subst r. reflexivity. }
    rewrite Y. apply X; auto.
    - destruct (t_lb_inf (ct s k)); [rewrite TL|]; auto.
    - destruct (t_ub_inf (ct s k)); [rewrite TU|]; auto.
    - apply A; auto. }
  subst s5. clear E5 E6. unfold fix_var_in_obj. apply (cut_AV RT s _ i k a); auto using good_RT; sr; rewrite ?M4; auto.
  - intros j. rewrite R4. auto.
  - intros j D. rewrite !upd_other by auto. rewrite A4. split; auto. apply anum_refl.
  - rewrite upd_same. auto.
  - rewrite upd_same. auto.
Qed.
Lemma process_ineq_RT : forall s i k a ab be, Inv s -> Mid s -> AV RT s -> w_fixed s = [] -> (i < nr s)%nat -> (k < nc s)%nat ->
  t_inact (rt s i) = false -> t_cinact (ct s k) = false -> In (k, a) (mA s i) ->
  AV RT (fst (process_colston_ineq i k a ab be s)).
Proof.
  intros s i k a ab be H M A WF Hi Hk Ti Tk IN.
  assert (FM : forall v, AV RT (push_if_ston i (fix_col_ston i k v a s))).
  { intros v. pose proof (fix_col_ston_RT s i k v a H M A WF Hi Hk Ti Tk IN) as X. unfold push_if_ston.
    set (s' := fix_col_ston i k v a s) in *. clearbody s'. destruct (Z.eqb _ 1); auto.
    eapply keepA_AV; [apply good_RT|apply keepA_ston|auto]. }
  unfold process_colston_ineq. cbv zeta.
  match goal with |- AV _ (fst (if ?b then _ else _)) => destruct b eqn:C1 end.
  { destruct (t_lb_inf _); cbn [fst]; auto. }
  match goal with |- AV _ (fst (if ?b then _ else _)) => destruct b eqn:C2 end.
  { destruct (t_ub_inf _); cbn [fst]; auto. }
  destruct (ab && be).
  { match goal with |- AV _ (fst (if ?b then _ else _)) => destruct b end; [destruct (t_lhs_inf _); cbn [fst]; [auto|apply sub_and_row_AV; auto using good_RT]|].
    match goal with |- AV _ (fst (if ?b then _ else _)) => destruct b end; [destruct (t_rhs_inf _); cbn [fst]; [auto|apply sub_and_row_AV; auto using good_RT]|].
    cbn [fst]; apply sub_and_row_AV; auto using good_RT. }
  match goal with |- AV _ (fst (if ?b then _ else _)) => destruct b eqn:C3 end;
    [cbn [fst]; eapply keepA_AV; [apply good_RT|apply keepA_close; auto|auto]|].
  match goal with |- AV _ (fst (if ?b then _ else _)) => destruct b eqn:C4 end;
    [cbn [fst]; eapply keepA_AV; [apply good_RT|apply keepA_close; auto|auto]|auto].
Qed.
Lemma ston_col_RT : forall s k, Inv s -> Mid s -> AV RT s -> w_fixed s = [] -> (k < nc s)%nat -> csz s k = 1%Z ->
  t_cinact (ct s k) = false -> AV RT (fst (ston_col s k)).
Proof.
  intros s k H M A WF Hk C1 Tk.
  pose proof (tight_csz s k (inv_0 s H) (inv_C s H) Hk Tk) as SZ. rewrite C1 in SZ.
  unfold ston_col. destruct (mAT s k) as [|[i a] r] eqn:EK.
  { apply (keepA_AV RT s); auto using good_RT. constructor; sr; auto. }
  assert (r = []) by (unfold Z_len in SZ; destruct r; simpl in SZ; [reflexivity|lia]). subst r.
  destruct (w_cin s (inv_0 s H) i k a Hk) as [Hi _]; [rewrite EK; left; reflexivity|].
  destruct (t_inact (rt s i)) eqn:Ti; cbn [orb]; auto.
  destruct (Z.leb_spec (rsz s i) 1); auto.
  assert (INk : In (k, a) (mA s i)).
  { apply (w_agree s (inv_0 s H)); auto; [apply act_alive; auto; apply H|apply cact_alive; auto; apply H|].
    rewrite EK. left; auto. }
  cbv zeta. destruct (t_eq (rt s i)) eqn:Te.
  - apply process_eq_AV; auto using good_RT; [lia|apply not_above_fin|apply not_below_fin].
  - apply process_ineq_RT; auto.
Qed.

Section Backs.
Variable E0 : Prop.
Notation Back := (L_Post.Back E0).

(** ** The steps of one column *)
Lemma acol_coeff : forall s i j, Inv s -> (i < nr s)%nat -> t_inact (rt s i) = false ->
  (j < nc s)%nat -> t_cinact (ct s j) = false -> coeff (acol s j) i == coeff (mA s i) j.
Proof.
  intros s i k HI Hi Ti Hk Tk. pose proof (inv_0 s HI) as W.
  pose proof (cact_alive s k W Hk Tk) as CK. pose proof (act_alive s i W Hi Ti) as RI.
  assert (SC : srt (acol s k)) by (apply srt_filter, (w_csrt s W); auto).
  pose proof (w_rsrt s W i Hi) as SR.
  destruct (hasb k (mA s i)) eqn:HB.
  - apply hasb_has in HB. destruct HB as [c Hc]. rewrite (proj2 (first_coeff k _ c 1 SR Hc)).
    rewrite (proj2 (first_coeff i (acol s k) c 1 SC ltac:(apply filter_In; split;
      [apply (w_agree s W i k c); auto|cbn; rewrite Ti; auto]))). lra.
  - assert (Z1 : forall l m, (forall c, ~ In (m, c) l) -> coeff l m == 0).
    { clear. induction l as [|[q p] l IHl]; intros m N; cbn [coeff]; [lra|]. rewrite IHl; [|intros c Hc; apply (N c); right; auto].
      destruct (Nat.eqb_spec q m) as [->|]; [exfalso; apply (N p); left; auto|lra]. }
    rewrite (Z1 (mA s i) k); [rewrite (Z1 (acol s k) i); [lra|]|]; intros c Hc.
    + apply filter_In in Hc. destruct Hc as [Hc _]. apply (w_agree s W i k c) in Hc; auto.
      assert (hasb k (mA s i) = true) by (apply hasb_has; exists c; auto). congruence.
    + assert (hasb k (mA s i) = true) by (apply hasb_has; exists c; auto). congruence.
Qed.
Lemma last_coeff_is : forall k r a d, srt r -> In (k, a) r -> last_coeff k d r = a.
Proof.
  assert (X : forall k r d, (forall e, In e r -> fst e <> k) -> last_coeff k d r = d).
  { induction r as [|[c b] r IH]; intros d N; cbn [last_coeff]; auto.
    pose proof (N (c, b) (or_introl eq_refl)) as Y. cbn in Y. destruct (Nat.eqb_spec c k); [congruence|].
    apply IH. intros; apply N; right; auto. }
  induction r as [|[c b] r IH]; intros a d S Hin; [contradiction|]. apply srt_inv in S. destruct S as [S L].
  cbn [last_coeff]. destruct Hin as [E|Hin].
  - injection E as -> ->. rewrite Nat.eqb_refl. apply X. intros e He. apply L in He. lia.
  - apply IH; auto.
Qed.

Section One.
Variables (s : state) (i k : nat) (a : Q).
Hypotheses (H : Inv s) (WF : w_fixed s = []) (WS : w_sub s = [])
  (Hi : (i < nr s)%nat) (Hk : (k < nc s)%nat) (Ti : t_inact (rt s i) = false) (Tk : t_cinact (ct s k) = false)
  (EK : mAT s k = [(i, a)]).

Lemma o_in : In (k, a) (mA s i).
Proof.
  apply (w_agree s (inv_0 s H)); auto; [apply act_alive; auto; apply H|apply cact_alive; auto; apply H|].
  rewrite EK. left; auto.
Qed.
Lemma o_acol : acol s k = [(i, a)].
Proof. unfold acol. rewrite EK. cbn. rewrite Ti. reflexivity. Qed.
Lemma o_nz : ~ a == 0. Proof. apply (w_rin s (inv_0 s H) i k a Hi o_in). Qed.
Lemma o_others : forall j c, In (j, c) (mA s i) -> (j < nc s)%nat /\ t_cinact (ct s j) = false.
Proof.
  intros j c Hj. destruct (pend_entry s i j c H WS Hi Ti Hj) as [A [_ [B|B]]]; auto. rewrite WF in B. contradiction.
Qed.
(** The row gives the column's value *)
Lemma sub_known : forall s' t b ck, nc s' = nc s ->
  (forall j, (j < nc s)%nat -> j <> k -> t_cinact (ct s j) = false -> t_cinact (ct s' j) = false) ->
  St E0 s' t -> known (sy t i) = true -> is_fin b = true ->
  s_err (retrieve_sub_col k (mA s i) b i ck t) = s_err t.
Proof.
  intros s' t b ck NC CT [X Z Y K] KY FB. unfold retrieve_sub_col. cbn [put_x put_z err_if s_err].
  rewrite FB, KY. rewrite (last_coeff_is k (mA s i) a 0 (w_rsrt s (inv_0 s H) i Hi) o_in).
  assert (AK : all_known (sx t) (M_Post.others k (mA s i)) = true).
  { apply all_known_true. intros j c Hj. apply filter_In in Hj. destruct Hj as [Hj N]. cbn in N.
    apply negb_true_iff, Nat.eqb_neq in N. destruct (o_others j c Hj). apply X; [rewrite NC; auto|apply CT; auto]. }
  rewrite AK. cbn [negb orb]. destruct (Qeqb a 0) eqn:E; [|apply orb_false_r]. qb. destruct (o_nz E).
Qed.

(** *** Column and row go *)
Lemma sub_row_Back_t : forall s' side,
  nr s' = nr s -> nc s' = nc s -> (forall j, j <> k -> ct s' j = ct s j) ->
  (forall j, t_inact (rt s' j) = (Nat.eqb j i || t_inact (rt s j))%bool) ->
  (forall j, j <> k -> mAT s' j = mAT s j) ->
  (forall j, cst s' j == cst s j - cst s k / a * coeff (mA s i) j) ->
  log s' = DELETED_ROW i (cst s k / a) :: SUB_COL k (mA s i) side i (cst s k) :: log s -> Back s s'.
Proof.
  intros s' side NR NC CT RT0 AT CO L. exists [DELETED_ROW i (cst s k / a); SUB_COL k (mA s i) side i (cst s k)].
  split; [exact L|].
  split. { split; [split; [auto|split; [auto|constructor; [exact Hi|constructor; [|constructor]]]]|auto].
    split; [exact Hk|split; [|exact Hi]]. intros q d Hq. apply (w_rin s (inv_0 s H) i q d Hi Hq). }
  intros t ST. pose proof o_nz as NZ. pose proof o_acol as OA. pose proof ST as [X Z Y K].
  set (t1 := put_y i (cst s k / a) t).
  exists (retrieve_sub_col k (mA s i) side i (cst s k) t1). split; [|split; [|intros rest; reflexivity]].
  - unfold retrieve_sub_col. rewrite (last_coeff_is k (mA s i) a 0 (w_rsrt s (inv_0 s H) i Hi) o_in).
    constructor; cbn [put_x put_y put_z err_if sx sy sz t1].
    + intros j Hj T. destruct (Nat.eq_dec j k) as [->|N]; [rewrite upd_same; auto|rewrite upd_other by auto].
      apply X; [rewrite NC; auto|rewrite CT; auto].
    + intros j Hj T. destruct (Nat.eq_dec j k) as [->|N]; [rewrite upd_same; auto|rewrite upd_other by auto].
      apply Z; [rewrite NC; auto|rewrite CT; auto].
    + intros j Hj T. destruct (Nat.eq_dec j i) as [->|N]; [rewrite upd_same; auto|rewrite upd_other by auto].
      apply Y; [rewrite NR; auto|]. rewrite RT0, T. destruct (Nat.eqb_spec j i); auto; contradiction.
    + intros e0 j Hj T. specialize (K e0). destruct (Nat.eq_dec j k) as [->|N].
      * rewrite upd_same, OA. cbn [M_Post.wsum]. rewrite upd_same. cbn [val]. lra.
      * rewrite upd_other by auto. rewrite K; [|rewrite NC; auto|rewrite CT; auto]. rewrite CO.
        assert (SC : srt (acol s j)) by (apply srt_filter, (w_csrt s (inv_0 s H)); auto).
        rewrite (ysum_coeff_upd _ i _ _ SC), (acol_coeff s i j H Hi Ti Hj T).
        rewrite (acol_kill s s' i j) by auto.
        assert (E : ysum (sy t) (filter (fun e => negb (Nat.eqb (fst e) i)) (acol s j)) == ysum (sy t) (acol s j) - coeff (acol s j) i * val (sy t i)).
        { clear. induction (acol s j) as [|[q c] l IH]; cbn [filter M_Post.wsum coeff fst]; [lra|].
          destruct (Nat.eqb_spec q i) as [->|]; cbn [negb M_Post.wsum]; rewrite IH; lra. }
        rewrite E, (acol_coeff s i j H Hi Ti Hj T). lra.
  - intros F. inversion F as [|r0 l0 _ F']. inversion F' as [|r1 l1 F1 _]. subst.
    assert (ST1 : forall j, (j < nc s')%nat -> t_cinact (ct s' j) = false -> known (sx t1 j) = true) by exact X.
    unfold retrieve_sub_col. cbn [put_x put_z err_if s_err t1 put_y sx sy].
    rewrite (last_coeff_is k (mA s i) a 0 (w_rsrt s (inv_0 s H) i Hi) o_in). cbn [soft] in F1. rewrite F1, upd_same.
    assert (AK : all_known (sx t) (M_Post.others k (mA s i)) = true).
    { apply all_known_true. intros j c Hj. apply filter_In in Hj. destruct Hj as [Hj N]. cbn in N.
      apply negb_true_iff, Nat.eqb_neq in N. destruct (o_others j c Hj). apply X; [rewrite NC; auto|rewrite CT; auto]. }
    rewrite AK. cbn [negb orb known]. destruct (Qeqb a 0) eqn:E; [|apply orb_false_r]. qb. destruct (NZ E).
Qed.
Lemma sub_row_Back : forall b side, let s1 := sub_col_now k (sub_var_in_obj (row_view s i) k a b s) in
  Back s (set_row_to_inactive i (cst s k / a) (record (SUB_COL k (row_view s1 i) side i (cst s k)) s1)).
Proof.
  intros b side s1. pose proof (view_full s i H Hi Ti) as VF.
  destruct (sub_var_spec (row_view s i) k a b s) as [c [o [E [E1 E2]]]].
  { rewrite VF. apply (w_rsrt s (inv_0 s H)); auto. } { apply o_nz. }
  assert (V1 : row_view s1 i = mA s i). { unfold s1. rewrite E. exact VF. }
  rewrite V1. unfold s1. rewrite E. clear V1 s1. rewrite VF in E1.
  apply (sub_row_Back_t _ side); unfold set_row_to_inactive, sub_col_now; sr; auto.
  - intros j N. apply upd_other; auto.
  - intros j. destruct (Nat.eqb_spec j i) as [->|N]; [rewrite upd_same; auto|rewrite upd_other by auto; auto].
  - intros j N. apply upd_other; auto.
Qed.

(** *** The row stays, as an inequality *)
Lemma eq_ineq_Back_t : forall s' side,
  nr s' = nr s -> nc s' = nc s -> (forall j, j <> k -> ct s' j = ct s j) ->
  (forall j, t_inact (rt s' j) = t_inact (rt s j)) ->
  (forall j, j <> k -> mAT s' j = mAT s j) ->
  (forall j, cst s' j == cst s j - cst s k / a * coeff (mA s i) j) ->
  log s' = SUB_COL k (mA s i) side i 0 :: EQ_TO_INEQ i (cst s k / a) :: log s -> Back s s'.
Proof.
  intros s' side NR NC CT RT0 AT CO L. exists [SUB_COL k (mA s i) side i 0; EQ_TO_INEQ i (cst s k / a)].
  split; [exact L|].
  split. { split; [split; [auto|split; [auto|constructor; [|constructor; [exact Hi|constructor]]]]|auto].
    split; [exact Hk|split; [|exact Hi]]. intros q d Hq. apply (w_rin s (inv_0 s H) i q d Hi Hq). }
  intros t ST. pose proof o_nz as NZ. pose proof o_acol as OA. pose proof ST as [X Z Y K].
  assert (KY : known (sy t i) = true) by (apply Y; [rewrite NR; auto|rewrite RT0; auto]).
  set (t1 := retrieve_sub_col k (mA s i) side i 0 t).
  exists (retrieve_eq_to_ineq i (cst s k / a) t1). split; [|split; [|intros rest; reflexivity]].
  - unfold t1, retrieve_eq_to_ineq, retrieve_sub_col.
    rewrite (last_coeff_is k (mA s i) a 0 (w_rsrt s (inv_0 s H) i Hi) o_in).
    constructor; cbn [put_x put_y put_z err_if sx sy sz].
    + intros j Hj T. destruct (Nat.eq_dec j k) as [->|N]; [rewrite upd_same; auto|rewrite upd_other by auto].
      apply X; [rewrite NC; auto|rewrite CT; auto].
    + intros j Hj T. destruct (Nat.eq_dec j k) as [->|N]; [rewrite upd_same; auto|rewrite upd_other by auto].
      apply Z; [rewrite NC; auto|rewrite CT; auto].
    + intros j Hj T. destruct (Nat.eq_dec j i) as [->|N]; [rewrite upd_same; auto|rewrite upd_other by auto].
      apply Y; [rewrite NR; auto|rewrite RT0; auto].
    + intros e0 j Hj T. specialize (K e0). destruct (Nat.eq_dec j k) as [->|N].
      * rewrite upd_same, OA. cbn [M_Post.wsum]. rewrite upd_same. cbn [val].
        assert (E : a * (val (sy t i) + cst s k / a) == a * val (sy t i) + cst s k) by (field; auto). rewrite E. lra.
      * rewrite upd_other by auto. rewrite K; [|rewrite NC; auto|rewrite CT; auto]. rewrite CO.
        assert (SC : srt (acol s j)) by (apply srt_filter, (w_csrt s (inv_0 s H)); auto).
        rewrite (ysum_coeff_upd _ i _ _ SC), (acol_coeff s i j H Hi Ti Hj T).
        assert (E : acol s' j = acol s j).
        { unfold acol. rewrite AT by auto. apply filter_ext. intros e. rewrite RT0. auto. }
        rewrite E. lra.
  - intros F. inversion F as [|r0 l0 F1 _]. subst. cbn [soft] in F1.
    unfold retrieve_eq_to_ineq. cbn [put_y s_err err_if].
    assert (E : s_err t1 = s_err t).
    { apply (sub_known s'); auto. intros j _ N T. rewrite CT; auto. }
    rewrite E. unfold t1, retrieve_sub_col. cbn [put_x put_z err_if sy]. rewrite KY. apply orb_false_r.
Qed.
Lemma process_eq_Back : forall ab be, Back s (fst (process_colston_eq i k a ab be s)).
Proof.
  intros ab be. unfold process_colston_eq. destruct (negb ab && negb be); [apply Back_refl|].
  cbv zeta. destruct (ab && be); cbn [fst]; [apply sub_row_Back|].
  pose proof (view_full s i H Hi Ti) as VF.
  destruct (sub_var_spec (row_view s i) k a (fin (rhs s i)) s) as [c [o [E [E1 E2]]]].
  { rewrite VF. apply (w_rsrt s (inv_0 s H)); auto. } { apply o_nz. }
  rewrite E. set (s1 := sub_col_now k (set_off o (set_cst c s))).
  set (s2 := handle_impl_free_eq ab i k a (cst s k) s1).
  assert (B : Back s s2).
  { assert (V1 : row_view s1 i = mA s i) by exact VF.
    unfold s2, handle_impl_free_eq. cbv zeta. rewrite V1.
    set (sr0 := record (SUB_COL k _ _ i 0) _).
    assert (SR : remove_from_row i k sr0 =
       set_nnz (nnz s - 1)%Z (set_rsz1 i (rsz s i - 1)%Z (setA i (del_entry k (mA s i)) sr0))).
    { unfold remove_from_row. change (row_view sr0 i) with (row_view s1 i). rewrite V1. reflexivity. }
    rewrite SR. clear SR. set (sx0 := set_nnz (nnz s - 1)%Z _).
    set (s3 := if Bool.eqb ab (Qgtb a 0) then set_rt1 i _ _ else _).
    assert (F3 : nr s3 = nr s /\ nc s3 = nc s /\ ct s3 = upd (ct s) k (tag_sub (ct s k)) /\
      (forall j, t_inact (rt s3 j) = t_inact (rt s j)) /\ mAT s3 = upd (mAT s) k [] /\ cst s3 = c /\
      log s3 = SUB_COL k (mA s i) (rhs s i) i 0 :: EQ_TO_INEQ i (cst s k / a) :: log s).
    { unfold s3, sx0, sr0, s1, sub_col_now. destruct (Bool.eqb _ _); sr; repeat split; auto; intros j; updg; auto. }
    set (rv := row_view sx0 i). clearbody s3 rv. clear sx0 sr0.
    destruct (locks_only_eq_to_ineq rv (Bool.eqb ab (Qgtb a 0)) s3) as [x [y E4]]. rewrite E4. clear E4.
    match goal with |- context [set_act1 i ?A _] => set (A4 := A) end. clearbody A4.
    destruct F3 as (F1&F2&F3&F4&F5&F6&F7).
    apply (eq_ineq_Back_t _ (rhs s i)); sr; auto.
    - intros j N. rewrite F3. apply upd_other; auto.
    - intros j N. rewrite F5. apply upd_other; auto.
    - intros j. rewrite F6, E1, VF. lra. }
  clearbody s2. destruct (Z.eqb (rsz s2 i) 1); [|match goal with |- context [if ?b then push_dton _ _ else _] => destruct b end]; auto;
    (eapply Back_trans; [exact B|]; apply quietly_Back; [apply quietly_same; reflexivity|reflexivity]).
Qed.
Definition fixed_log (v : Q) (t : state) : Prop :=
  mAT t = upd (mAT s) k [] /\ log t = FIXED_COL k v (cst s k) [(i, a)] :: log s.
Lemma fix_logged : forall v, fixed_log v (fix_col_ston i k v a s).
Proof.
  intros v. pose proof (view_full s i H Hi Ti) as VF.
 cbv beta delta [fix_col_ston].
    let_one s1 E1. rewrite (remove_row_eq i k s VF) in E1. let_one r Er. let_one s2 E2. let_one s3 E3. let_one s4 E4. let_one a0 Ea. let_one t0 Et.
    let_one a1 E5. let_one a2 E6. clear E5 E6 Ea Et a0 t0 a1. let_one s5 E7.
    assert (F4 : mAT s4 = upd (mAT s) k [] /\ log s4 = log s /\ cst s4 = cst s).
    { assert (F2 : mAT s2 = upd (mAT s) k [] /\ log s2 = log s /\ cst s2 = cst s) by (subst s2 s1; sr; auto).
      clear E2 E1. subst s4 s3. clear -F2. destruct (t_lhs_inf (rt s2 i)); sr; destruct (t_rhs_inf (rt s2 i)); sr; auto. }
    clear -F4 E7. subst s5. unfold fixed_log, fix_var_in_obj. sr. destruct F4 as (-> & -> & ->). auto. 
Qed.
Lemma fix_col_ston_Back_t : forall v s2, stepf s s2 i k -> rt s2 i = rt s i -> cst s2 = cst s -> fixed_log v s2 ->
  Back s (push_if_ston i s2).
Proof.
  intros v s2 F RI CO [AT LG].
  assert (B : Back s s2).
  { apply (fixed_Back E0 s s2 k v (cst s k) [(i, a)]); [|exact Hk|intros; lra|auto].
    pose proof o_acol as OA.
    assert (RX : forall j, rt s2 j = rt s j).
    { intros j. destruct (Nat.eq_dec j i) as [->|N]; [auto|]. apply (sf_row _ _ _ _ F j N). }
    constructor; try apply F.
    - intros j Hj N T. rewrite (sf_ct _ _ _ _ F) by auto. auto.
    - intros j Hj T. rewrite RX. auto.
    - intros j Hj T. rewrite CO. auto.
    - intros j Hj N T. unfold acol. rewrite AT, upd_other by auto. apply filter_ext. intros e. rewrite RX. auto.
    - intros j c [X|[]]. injection X as <- <-. auto.
    - auto. }
  unfold push_if_ston. destruct (Z.eqb _ 1); auto.
  eapply Back_trans; [exact B|]; apply quietly_Back; [apply quietly_same; reflexivity|reflexivity].
Qed.
Lemma fix_col_ston_Back : forall v, Back s (push_if_ston i (fix_col_ston i k v a s)).
Proof.
  intros v. pose proof (fix_frame s i k v a (view_full s i H Hi Ti)) as X. cbv zeta in X.
  pose proof (fix_logged v) as Y. revert X Y. generalize (fix_col_ston i k v a s). intros s2 X Y.
  apply (fix_col_ston_Back_t v); [apply X|apply X|apply X|exact Y].
Qed.
Lemma close_row_Back : forall u, Back s (close_row u i s).
Proof.
  intros u. destruct (close_frame u i k s) as (F & CZ & CT & RT0 & CO & OF & EM & _).
  assert (AT : mAT (close_row u i s) = mAT s /\ log (close_row u i s) = log s).
  { unfold close_row. cbv zeta.
    set (s1 := if (if u then t_lhs_inf (rt s i) else _) then _ else s).
    assert (L1 : locks_only s s1).
    { unfold s1. destruct (if u then t_lhs_inf (rt s i) else _); [apply locks_only_ineq_to_eq|apply locks_only_refl]. }
    destruct L1 as [x [y E]]. clearbody s1. subst s1. destruct u; destruct (Z.eqb _ 2); split; reflexivity. }
  set (t := close_row u i s) in *. clearbody t. destruct AT as [AT LG].
  apply quietly_Back; [|auto]. apply quietly_same; auto; try apply F.
  - intros j. rewrite CT. auto.
  - intros j. destruct (Nat.eq_dec j i) as [->|N]; [congruence|]. destruct (sf_row _ _ _ _ F j N) as [-> _]. auto.
Qed.
Lemma process_ineq_Back : forall ab be, Back s (fst (process_colston_ineq i k a ab be s)).
Proof.
  intros ab be. unfold process_colston_ineq. cbv zeta.
  match goal with |- L_Post.Back _ _ (fst (if ?b then _ else _)) => destruct b end; [destruct (t_lb_inf _); cbn [fst]; [apply Back_refl|apply fix_col_ston_Back]|].
  match goal with |- L_Post.Back _ _ (fst (if ?b then _ else _)) => destruct b end; [destruct (t_ub_inf _); cbn [fst]; [apply Back_refl|apply fix_col_ston_Back]|].
  destruct (ab && be).
  { match goal with |- L_Post.Back _ _ (fst (if ?b then _ else _)) => destruct b end; [destruct (t_lhs_inf _); cbn [fst]; [apply Back_refl|apply sub_row_Back]|].
    match goal with |- L_Post.Back _ _ (fst (if ?b then _ else _)) => destruct b end; [destruct (t_rhs_inf _); cbn [fst]; [apply Back_refl|apply sub_row_Back]|].
    cbn [fst]; apply sub_row_Back. }
  match goal with |- L_Post.Back _ _ (fst (if ?b then _ else _)) => destruct b end; [apply close_row_Back|].
  match goal with |- L_Post.Back _ _ (fst (if ?b then _ else _)) => destruct b end; [apply close_row_Back|apply Back_refl].
Qed.
End One.

Lemma ston_col_Back : forall s k, Inv s -> w_fixed s = [] -> w_sub s = [] -> ready s k -> Back s (fst (ston_col s k)).
Proof.
  intros s k H WF WS [Hk [C1 Tk]].
  pose proof (tight_csz s k (inv_0 s H) (inv_C s H) Hk Tk) as SZ. rewrite C1 in SZ.
  unfold ston_col. destruct (mAT s k) as [|[i a] r] eqn:EK; [discriminate|].
  assert (r = []) by (unfold Z_len in SZ; destruct r; simpl in SZ; [reflexivity|lia]). subst r.
  destruct (w_cin s (inv_0 s H) i k a Hk) as [Hi _]; [rewrite EK; left; reflexivity|].
  destruct (t_inact (rt s i)) eqn:Ti; cbn [orb fst]; [apply Back_refl|].
  destruct (Z.leb_spec (rsz s i) 1); [apply Back_refl|].
  cbv zeta. destruct (t_eq (rt s i)) eqn:Te; [apply process_eq_Back; auto|apply process_ineq_Back; auto].
Qed.

(** ** Passes *)
Lemma ston_cols_fold_Back : forall l s st, Inv s -> Mid s -> AV RT s -> w_fixed s = [] -> w_sub s = [] ->
  NoDup l -> (forall k, In k l -> ready s k) ->
  let '(s', st') := fold_or ston_col l s st in Back s s' /\ AV RT s' /\ Mid s' /\ Inv s'.
Proof.
  induction l as [|k l IH]; intros s st H M A WF WS ND HR; simpl.
  - split; [apply Back_refl|auto].
  - pose proof (HR k (or_introl eq_refl)) as RK. destruct RK as [Hk [C1 Tk]].
    pose proof (ston_col_ok s k H Hk C1 Tk) as X.
    pose proof (ston_col_Mid s k H M WF Hk C1 Tk) as MD.
    pose proof (ston_col_RT s k H M A WF Hk C1 Tk) as AD.
    pose proof (ston_col_Back s k H WF WS (HR k (or_introl eq_refl))) as BD.
    destruct (ston_col s k) as [s1 st1]. cbn [fst] in *. destruct X as [S1 [[F1 F2 F3] ST]].
    inversion ND; subst.
    assert (RD : forall j, In j l -> ready s1 j).
    { intros j Hj. destruct (HR j (or_intror Hj)) as [X1 [X2 X3]].
      destruct (F3 j) as [Y1 [Y2 Y3]]; [intros ->; contradiction|].
      unfold ready. rewrite (stp_nc _ _ S1), Y1, Y2. auto. }
    specialize (IH s1 (N.lor st st1) (st_inv _ _ S1) MD AD ltac:(congruence) ltac:(congruence) H3 RD).
    destruct (fold_or ston_col l s1 (N.lor st st1)) as [s2 st2]. destruct IH as (B2 & A2 & M2 & I2).
    split; [eapply Back_trans; eauto|auto].
Qed.
Lemma ston_cols___Back : forall s, Inv s -> Mid s -> AV RT s -> quiet s ->
  let '(s', st) := remove_ston_cols__ s in Back s s' /\ AV RT s'.
Proof.
  intros s H M A QS. unfold remove_ston_cols__. cbv zeta.
  pose proof (refresh_Inv s H) as I0. pose proof (refresh_Mid s M) as M0. pose proof (refresh_ready s H QS) as RR.
  pose proof (l_ston_cols_nd _ (inv_L _ I0)) as ND.
  assert (A0 : AV RT (refresh_ston_cols s)).
  { eapply keepA_AV; [apply good_RT| |exact A]. unfold refresh_ston_cols. constructor; sr; auto. }
  assert (B0 : Back s (refresh_ston_cols s)).
  { apply quietly_Back; [apply quietly_same; reflexivity|reflexivity]. }
  assert (W0 : w_fixed (refresh_ston_cols s) = [] /\ w_sub (refresh_ston_cols s) = []) by (split; apply QS).
  set (s0 := refresh_ston_cols s) in *. clearbody s0. destruct W0 as [W1 W2].
  pose proof (ston_cols_fold_Back (w_ston_cols s0) s0 UNCHANGED I0 M0 A0 W1 W2 ND RR) as Y.
  destruct (fold_or ston_col (w_ston_cols s0) s0 UNCHANGED) as [s1 st]. destruct Y as (B1 & A1 & M1 & I1).
  split; [|apply dir_AV; auto using good_RT].
  eapply Back_trans; [exact B0|]. eapply Back_trans; [exact B1|]. apply dir_Back; auto.
Qed.
Lemma ston_cols_loop_Back : forall f s, Inv s -> Mid s -> AV RT s -> quiet s -> (mu s < f)%nat ->
  let '(s', st) := ston_cols_loop f s in Back s s' /\ AV RT s'.
Proof.
  induction f as [|f IH]; intros s H M A QS LT; [lia|]. simpl.
  pose proof (ston_cols_pass_spec s H QS) as X. pose proof (ston_cols___Back s H M A QS) as Y.
  pose proof (ston_cols___Mid s H M QS) as Z.
  destruct (remove_ston_cols__ s) as [s1 st]. cbn [fst] in Z. destruct X as [S1 [Q1 ST]]. destruct Y as [B1 A1].
  destruct ST as [->|[->|[-> MU]]]; [simpl; auto|simpl; auto|].
  rewrite N.eqb_refl. assert (LT1 : (mu s1 < f)%nat) by lia. specialize (IH s1 (st_inv _ _ S1) Z A1 Q1 LT1).
  destruct (ston_cols_loop f s1) as [s2 st2]. destruct IH. split; [eapply Back_trans; eauto|auto].
Qed.
Lemma ston_cols_Back : forall s, Inv s -> Mid s -> AV RT s -> quiet s ->
  let '(s', st) := remove_ston_cols s in Back s s' /\ AV RT s'.
Proof. intros s H M A QS. apply ston_cols_loop_Back; auto. pose proof (mu_le s). lia. Qed.
End Backs.
