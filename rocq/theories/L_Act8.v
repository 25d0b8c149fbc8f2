(** Activities through singleton columns. *)
From Coq Require Import NArith Lqa.
From Verif Require Import M_Num S_LP M_Settings M_Driver S_Driver M_State M_Act M_Core M_Simple
  M_StonCols M_Dton M_Parallel M_Propagate M_Init M_Post M_Run S_Run S_Struct S_Sem
  L_State L_Struct L_Struct2 L_Struct3 L_Struct4 L_Struct5 L_Struct6 L_Struct7 L_Struct8 L_Struct9 L_Struct10 L_Struct11
  L_Sem L_Sem2 L_Sem3 L_Sem4 L_Mid L_Mid2 L_Mid3 L_Mid4 L_Mid5 L_Act L_Act2.
Open Scope Q_scope.

(** ** One entry leaves a row *)
Lemma del_split : forall b r k a, srt r -> In (k, a) r ->
  cnt b r = (inf1 (b (k, a)) + cnt b (del_entry k r))%Z /\
  ssum b r == a * fin (b (k, a)) + ssum b (del_entry k r).
Proof.
  induction r as [|[j c] r IH]; intros k a S Hin; [contradiction|].
  apply srt_inv in S. destruct S as [S L]. unfold del_entry in *. cbn [filter fst]. destruct Hin as [E|Hin].
  - injection E as -> ->. rewrite Nat.eqb_refl. cbn [negb]. change (filter _ r) with (del_entry k r).
    rewrite del_entry_absent.
    + simpl. split; [lia|lra].
    + intros [c Hc]. pose proof (L _ Hc). simpl in *. lia.
  - assert (D : j <> k). { pose proof (L _ Hin). simpl in *. lia. }
    apply Nat.eqb_neq in D. rewrite D. cbn [negb cnt ssum]. destruct (IH k a S Hin) as [E1 E2].
    rewrite E1, E2. split; [lia|lra].
Qed.
Definition dropc (n : Z) (v d : Q) (old : ext) (S : Q) : Z * Q :=
  if is_fin old then (n, if Z.eqb n 0 then v - d else v)
  else ((n - 1)%Z, if Z.eqb (n - 1) 0 then S else v).
Lemma dropc_SV : forall R b r k a n v d S, good R -> srt r -> In (k, a) r ->
  (is_fin (b (k, a)) = true -> forall v w, R v (a * fin (b (k, a)) + w) -> R (v - d) w) ->
  S == ssum b (del_entry k r) -> SV R b r n v ->
  SV R b (del_entry k r) (fst (dropc n v d (b (k, a)) S)) (snd (dropc n v d (b (k, a)) S)).
Proof.
  intros R b r k a n v d S G SR Hin HD ES [N V]. destruct (del_split b r k a SR Hin) as [E1 E2].
  unfold dropc. unfold inf1 in E1. destruct (is_fin (b (k, a))) eqn:F; cbn [fst snd]; split; try lia.
  - intros Z. apply Z.eqb_eq in Z. rewrite Z. apply Z.eqb_eq in Z. apply HD; auto.
    eapply (gd_ext R G); [reflexivity|exact E2|auto].
  - intros Z. rewrite Z. simpl. eapply (gd_ext R G); [reflexivity|exact ES|apply (gd_refl R G)].
Qed.
(** The exact contribution taken off *)
Lemma exact_off : forall R w0, good R -> forall v w, R v (w0 + w) -> R (v - w0) w.
Proof.
  intros R w0 G v w H. eapply (gd_ext R G); [| |apply (gd_add R G _ _ (- w0) H)]; lra.
Qed.

(** The row after the cut, with another activity *)
Lemma cut_AV : forall R s t i k a, good R -> AV R s -> w_fixed s = [] -> (i < nr s)%nat ->
  nr t = nr s -> lb t = lb s -> ub t = ub s -> w_fixed t = [] ->
  (forall j, t_inact (rt t j) = false -> t_inact (rt s j) = false) ->
  (forall j, j <> i -> mA t j = mA s j /\ anum (acts t j) (acts s j)) ->
  mA t i = del_entry k (mA s i) -> In (k, a) (mA s i) ->
  SV2 R (lb s) (ub s) (del_entry k (mA s i)) (acts t i) -> AV R t.
Proof.
  intros R s t i k a G [A P] WF Hi N L U WT RT OT EI IN SV. constructor.
  - intros j Hj Tj. rewrite N in Hj. rewrite L, U. destruct (Nat.eq_dec j i) as [->|D].
    + rewrite EI. exact SV.
    + destruct (OT j D) as [-> X]. eapply SV2_num; [exact X|]. apply A; auto.
  - intros j. rewrite WT. intros [].
Qed.

(** *** Equality rows with one implied bound *)
Lemma lowb_pos : forall l u k a, 0 < a -> lowb l u (k, a) = l k.
Proof. intros. unfold lowb. cbn. destruct (Qgtb a 0) eqn:E; qb; [auto|lra]. Qed.
Lemma lowb_neg : forall l u k a, a < 0 -> lowb l u (k, a) = u k.
Proof. intros. unfold lowb. cbn. destruct (Qgtb a 0) eqn:E; qb; [lra|auto]. Qed.

Definition impl_act (above : bool) (k : nat) (aik : Q) (l u : nat -> ext) (o_inf : bool) (r : row) (a : activity) : activity :=
  let v := fin (if above then l k else u k) in
  let o := if above then u k else l k in
  let keep_rhs := Bool.eqb above (Qgtb aik 0) in
    if keep_rhs then
      let mn := if Z.eqb (n_inf_min a) 0 then a_min a - v * aik else a_min a in
      if o_inf then
        let n := (n_inf_max a - 1)%Z in
        Act mn (if Z.eqb n 0 then compute_max_act_no_tags l u r else a_max a)
            (n_inf_min a) n (a_st a)
      else Act mn (if Z.eqb (n_inf_max a) 0 then a_max a - fin o * aik else a_max a)
               (n_inf_min a) (n_inf_max a) (a_st a)
    else
      let mx := if Z.eqb (n_inf_max a) 0 then a_max a - v * aik else a_max a in
      if o_inf then
        let n := (n_inf_min a - 1)%Z in
        Act (if Z.eqb n 0 then compute_min_act_no_tags l u r else a_min a) mx
            n (n_inf_max a) (a_st a)
      else Act (if Z.eqb (n_inf_min a) 0 then a_min a - fin o * aik else a_min a) mx
               (n_inf_min a) (n_inf_max a) (a_st a).
Lemma SV_drop_exact : forall R b r k a n v, good R -> srt r -> In (k, a) r -> SV R b r n v ->
  (is_fin (b (k, a)) = true -> forall d, d == a * fin (b (k, a)) -> SV R b (del_entry k r) n (if Z.eqb n 0 then v - d else v)) /\
  (is_fin (b (k, a)) = false -> forall S, S == ssum b (del_entry k r) ->
     SV R b (del_entry k r) (n - 1)%Z (if Z.eqb (n - 1) 0 then S else v)).
Proof.
  intros R b r k a n v G SR IN SV. split.
  - intros F d Ed. pose proof (dropc_SV R b r k a n v d 0 G SR IN) as X. unfold dropc in X. rewrite F in X.
    destruct SV as [N V]. destruct (del_split b r k a SR IN) as [E1 E2]. unfold inf1 in E1. rewrite F in E1.
    split; [lia|]. intros Z. apply Z.eqb_eq in Z. rewrite Z. apply Z.eqb_eq in Z.
    apply (gd_ext R G (v - a * fin (b (k, a))) _ (ssum b (del_entry k r)) _); [lra|lra|]. apply exact_off; auto.
    eapply (gd_ext R G); [reflexivity|exact E2|auto].
  - intros F S ES. destruct SV as [N V]. destruct (del_split b r k a SR IN) as [E1 E2]. unfold inf1 in E1. rewrite F in E1.
    split; [lia|]. intros Z. rewrite Z. simpl. eapply (gd_ext R G); [reflexivity|exact ES|apply (gd_refl R G)].
Qed.
Lemma impl_act_SV2 : forall R (above : bool) k aik l u oi r A, good R -> srt r -> In (k, aik) r -> ~ aik == 0 ->
  is_fin (if above then l k else u k) = true -> is_fin (if above then u k else l k) = negb oi ->
  SV2 R l u r A -> SV2 R l u (del_entry k r) (impl_act above k aik l u oi (del_entry k r) A).
Proof.
  intros R above k aik l u oi r A G SR IN NZ FV FO [S1 S2].
  destruct (SV_drop_exact R _ r k aik _ _ G SR IN S1) as [A1 A2].
  destruct (SV_drop_exact (flip R) _ r k aik _ _ (good_flip R G) SR IN S2) as [B1 B2].
  unfold impl_act. cbv zeta.
  destruct (Qgtb aik 0) eqn:GT; qb.
  - unfold upb in B1, B2. rewrite (lowb_pos l u k aik GT) in A1, A2. rewrite (lowb_pos u l k aik GT) in B1, B2.
    destruct above; cbn [Bool.eqb].
    + destruct oi; cbn [negb] in FO; (split; cbn [n_inf_min a_min n_inf_max a_max];
        [apply (A1 FV); lra|]); [apply (B2 FO); rewrite <- ssum_max; reflexivity|apply (B1 FO); lra].
    + destruct oi; cbn [negb] in FO; (split; cbn [n_inf_min a_min n_inf_max a_max];
        [|apply (B1 FV); lra]); [apply (A2 FO); rewrite <- ssum_min; reflexivity|apply (A1 FO); lra].
  - assert (LT : aik < 0) by (destruct (Q_dec aik 0) as [[X|X]|X]; [auto|lra|contradiction]).
    unfold upb in B1, B2. rewrite (lowb_neg l u k aik LT) in A1, A2. rewrite (lowb_neg u l k aik LT) in B1, B2.
    destruct above; cbn [Bool.eqb].
    + destruct oi; cbn [negb] in FO; (split; cbn [n_inf_min a_min n_inf_max a_max];
        [|apply (B1 FV); lra]); [apply (A2 FO); rewrite <- ssum_min; reflexivity|apply (A1 FO); lra].
    + destruct oi; cbn [negb] in FO; (split; cbn [n_inf_min a_min n_inf_max a_max];
        [apply (A1 FV); lra|]); [apply (B2 FO); rewrite <- ssum_max; reflexivity|apply (B1 FO); lra].
Qed.
Lemma handle_AV : forall R s (above : bool) i k a ck, good R -> AV R s -> w_fixed s = [] -> (i < nr s)%nat ->
  In (k, a) (mA s i) -> ~ a == 0 -> row_view s i = mA s i -> srt (mA s i) ->
  is_fin (if above then lb s k else ub s k) = true ->
  is_fin (if above then ub s k else lb s k) = negb (if above then t_ub_inf (ct s k) else t_lb_inf (ct s k)) ->
  t_inact (rt s i) = false ->
  AV R (handle_impl_free_eq above i k a ck s).
Proof.
  intros R s above i k a ck G A WF Hi IN NZ VF SR FV FO Ti. unfold handle_impl_free_eq. cbv zeta.
  set (sr0 := record (SUB_COL k _ _ i 0) _).
  assert (V0 : row_view sr0 i = mA sr0 i) by exact VF.
  rewrite (remove_row_eq i k sr0 V0). set (sx := set_nnz (nnz sr0 - 1)%Z _).
  set (s3 := if Bool.eqb above (Qgtb a 0) then set_rt1 i _ _ else _).
  set (rv := row_view sx i).
  assert (E3 : nr s3 = nr s /\ lb s3 = lb s /\ ub s3 = ub s /\ w_fixed s3 = [] /\ acts s3 = acts s /\
    mA s3 = upd (mA s) i (del_entry k (mA s i)) /\
    (forall j, t_inact (rt s3 j) = false -> t_inact (rt s j) = false)).
  { unfold s3, sx, sr0. destruct (Bool.eqb _ _); sr; repeat split; auto; intros j; updg; auto. }
  assert (RV : rv = del_entry k (mA s i)).
  { unfold rv, row_view, sx, sr0. sr. rewrite !upd_same. apply firstn_all2.
    unfold row_view in VF. apply (f_equal (@length _)) in VF. rewrite firstn_length in VF.
    pose proof (del_entry_len k a _ SR IN). lia. }
  destruct (locks_only_eq_to_ineq rv (Bool.eqb above (Qgtb a 0)) s3) as [x [y E4]]. rewrite E4. clear E4.
  set (s4 := set_dns _ _). assert (E4 : nr s4 = nr s /\ lb s4 = lb s /\ ub s4 = ub s /\ w_fixed s4 = [] /\ acts s4 = acts s /\
    mA s4 = upd (mA s) i (del_entry k (mA s i)) /\
    (forall j, t_inact (rt s4 j) = false -> t_inact (rt s j) = false)) by exact E3.
  clearbody s4. clear s3 E3. clearbody rv. subst rv. clearbody sx.
  assert (L0 : lb sr0 = lb s) by reflexivity. assert (U0 : ub sr0 = ub s) by reflexivity.
  assert (T0 : ct sr0 = ct s) by reflexivity. clearbody sr0.
  destruct E4 as (N4&L4&U4&W4&A4&M4&R4).
  apply (cut_AV R s _ i k a); auto; sr; auto; rewrite ?M4.
  - intros j D. rewrite !upd_other by auto. rewrite A4. split; auto. apply anum_refl.
  - rewrite upd_same. reflexivity.
  - rewrite upd_same, A4, L4, U4.
    pose proof (impl_act_SV2 R above k a (lb s) (ub s) (if above then t_ub_inf (ct s k) else t_lb_inf (ct s k)) (mA s i) (acts s i) G SR IN NZ FV FO (av_rows R s A i Hi Ti)) as X.
    unfold impl_act in X. cbv zeta in X. exact X.
Qed.
Lemma sub_keepA : forall r k a b s, keepA s (sub_col_now k (sub_var_in_obj r k a b s)).
Proof.
  intros r k a b s. destruct (sub_var_frame r k a b s) as [c [o E]]. rewrite E. unfold sub_col_now.
  constructor; sr; auto.
Qed.
Lemma keepA_record : forall r s, keepA s (record r s).
Proof. intros. constructor; sr; auto. Qed.
Lemma sub_and_row_AV : forall R s i k a v side ck r b, good R -> AV R s ->
  let s1 := sub_col_now k (sub_var_in_obj r k a b s) in
  AV R (set_row_to_inactive i v (record (SUB_COL k (row_view s1 i) side i ck) s1)).
Proof.
  intros R s i k a v side ck r b G A s1. apply (keepA_AV R s); auto.
  eapply keepA_trans; [apply (sub_keepA r k a b s)|]. fold s1. clearbody s1.
  eapply keepA_trans; [apply keepA_record|apply keepA_row].
Qed.
Lemma keepA_ston : forall i s, keepA s (push_ston_rows i s).
Proof. intros. constructor; sr; auto. Qed.
Lemma keepA_dton : forall i s, keepA s (push_dton i s).
Proof. intros. constructor; sr; auto. Qed.
(** A bound that the row does not imply is finite. *)
Lemma not_above_fin : forall s a i r l u t A, implied_free_from_above_by_row s a i r l u t A = false -> t_ub_inf t = false.
Proof. intros s a i r l u t A. unfold implied_free_from_above_by_row. destruct (t_ub_inf t); [discriminate|auto]. Qed.
Lemma not_below_fin : forall s a i r l u t A, implied_free_from_below_by_row s a i r l u t A = false -> t_lb_inf t = false.
Proof. intros s a i r l u t A. unfold implied_free_from_below_by_row. destruct (t_lb_inf t); [discriminate|auto]. Qed.
Lemma process_eq_AV : forall R s i k a (ab be : bool), good R -> Inv s -> Mid s -> AV R s -> w_fixed s = [] -> (i < nr s)%nat -> (k < nc s)%nat ->
  t_inact (rt s i) = false -> t_cinact (ct s k) = false -> mAT s k = [(i, a)] -> (2 <= rsz s i)%Z ->
  (ab = false -> t_ub_inf (ct s k) = false) -> (be = false -> t_lb_inf (ct s k) = false) ->
  AV R (fst (process_colston_eq i k a ab be s)).
Proof.
  intros R s i k a ab be G H M A WF Hi Hk Ti Tk EK R2 UA LB. unfold process_colston_eq.
  destruct (negb ab && negb be) eqn:NN; [auto|].
  cbv zeta. destruct (ab && be) eqn:BB; cbn [fst]; [apply sub_and_row_AV; auto|].
  pose proof (sub_keepA (row_view s i) k a (fin (rhs s i)) s) as K1.
  set (s1 := sub_col_now k _) in *.
  set (s2 := handle_impl_free_eq ab i k a (cst s k) s1).
  assert (A2 : AV R s2).
  2: { clearbody s2. destruct (Z.eqb _ 1); [eapply keepA_AV; [auto|apply keepA_ston|auto]|].
       match goal with |- context [if ?b then push_dton _ _ else _] => destruct b end; [eapply keepA_AV; [auto|apply keepA_dton|auto]|auto]. }
  assert (INk : In (k, a) (mA s i)).
  { apply (w_agree s (inv_0 s H)); auto; [apply act_alive; auto; apply H|apply cact_alive; auto; apply H|].
    rewrite EK. left; auto. }
  destruct (w_rin s (inv_0 s H) i k a Hi INk) as [_ NZ].
  pose proof (w_rsrt s (inv_0 s H) i Hi) as SR. pose proof (view_full s i H Hi Ti) as VF.
  assert (A1 : AV R s1) by (eapply keepA_AV; eauto).
  pose proof (tr_lb s (md_tags s M) k Hk Tk) as TL. pose proof (tr_ub s (md_tags s M) k Hk Tk) as TU.
  assert (EX : rsz s1 = rsz s /\ mA s1 = mA s /\ lb s1 = lb s /\ ub s1 = ub s /\ nr s1 = nr s /\ w_fixed s1 = [] /\ rt s1 = rt s /\
     t_lb_inf (ct s1 k) = t_lb_inf (ct s k) /\ t_ub_inf (ct s1 k) = t_ub_inf (ct s k)).
  { unfold s1. destruct (sub_var_frame (row_view s i) k a (fin (rhs s i)) s) as [c [o E]]. rewrite E.
    unfold sub_col_now. sr. rewrite upd_same. repeat split; auto. }
  clearbody s1. destruct EX as (E1&E2&E3&E4&E5&E6&E7&E8&E9).
  unfold s2. apply handle_AV; rewrite ?E2, ?E3, ?E4, ?E5, ?E7, ?E8, ?E9; auto.
  - rewrite (view_frame s s1); [auto|rewrite E1; auto|rewrite E2; auto].
  - destruct ab.
    + cbn in BB. rewrite (LB BB) in TL. auto.
    + rewrite (UA eq_refl) in TU. auto.
  - destruct ab; [destruct (t_ub_inf (ct s k)); [rewrite TU|]|destruct (t_lb_inf (ct s k)); [rewrite TL|]]; auto.
Qed.

(** *** Fixing a singleton column at one of its bounds *)
Definition fix_act (val aik : Q) (l u : nat -> ext) (t : coltag) (r : row) (a : activity) : activity :=
  let a1 :=
    if Z.eqb (n_inf_min a) 0
    then Act (a_min a - aik * val) (a_max a) (n_inf_min a) (n_inf_max a) (a_st a)
    else if (Qgtb aik 0 && t_lb_inf t) || (Qltb aik 0 && t_ub_inf t) then
      let n := (n_inf_min a - 1)%Z in
      Act (if Z.eqb n 0 then compute_min_act_no_tags l u r else a_min a) (a_max a)
          n (n_inf_max a) (a_st a)
    else a in
    if Z.eqb (n_inf_max a1) 0
    then Act (a_min a1) (a_max a1 - aik * val) (n_inf_min a1) (n_inf_max a1) (a_st a1)
    else if (Qgtb aik 0 && t_ub_inf t) || (Qltb aik 0 && t_lb_inf t) then
      let n := (n_inf_max a1 - 1)%Z in
      Act (a_min a1) (if Z.eqb n 0 then compute_max_act_no_tags l u r else a_max a1)
          (n_inf_min a1) n (a_st a1)
    else a1.
Lemma fix_act_SV2 : forall R k aik val l u t r A, good R -> srt r -> In (k, aik) r -> ~ aik == 0 ->
  is_fin (l k) = negb (t_lb_inf t) -> is_fin (u k) = negb (t_ub_inf t) ->
  (is_fin (lowb l u (k, aik)) = true -> forall v w, R v (aik * fin (lowb l u (k, aik)) + w) -> R (v - aik * val) w) ->
  (is_fin (upb l u (k, aik)) = true -> forall v w, flip R v (aik * fin (upb l u (k, aik)) + w) -> flip R (v - aik * val) w) ->
  SV2 R l u r A -> SV2 R l u (del_entry k r) (fix_act val aik l u t (del_entry k r) A).
Proof.
  intros R k aik val l u t r A G SR IN NZ FL FU H1 H2 [S1 S2].
  pose proof (dropc_SV R _ r k aik _ _ (aik * val) (compute_min_act_no_tags l u (del_entry k r)) G SR IN H1
     (Qeq_sym _ _ (ssum_min l u (del_entry k r))) S1) as A1.
  pose proof (dropc_SV (flip R) _ r k aik _ _ (aik * val) (compute_max_act_no_tags l u (del_entry k r)) (good_flip R G) SR IN H2
     (Qeq_sym _ _ (ssum_max l u (del_entry k r))) S2) as A2.
  assert (LI : is_fin (lowb l u (k, aik)) = negb ((Qgtb aik 0 && t_lb_inf t) || (Qltb aik 0 && t_ub_inf t))).
  { unfold lowb. cbn. destruct (Qgtb aik 0) eqn:X, (Qltb aik 0) eqn:Y; qb; cbn; rewrite ?orb_false_r; auto; try lra. }
  assert (UI : is_fin (upb l u (k, aik)) = negb ((Qgtb aik 0 && t_ub_inf t) || (Qltb aik 0 && t_lb_inf t))).
  { unfold upb, lowb. cbn. destruct (Qgtb aik 0) eqn:X, (Qltb aik 0) eqn:Y; qb; cbn; rewrite ?orb_false_r; auto; try lra. }
  assert (C1 : is_fin (lowb l u (k, aik)) = false -> n_inf_min A <> 0%Z).
  { intros F Z. destruct S1 as [N _]. rewrite Z in N. symmetry in N. rewrite (proj1 (cnt_0 _ _) N _ IN) in F. discriminate. }
  assert (C2 : is_fin (upb l u (k, aik)) = false -> n_inf_max A <> 0%Z).
  { intros F Z. destruct S2 as [N _]. rewrite Z in N. symmetry in N. rewrite (proj1 (cnt_0 _ _) N _ IN) in F. discriminate. }
  clear S1 S2 H1 H2. unfold dropc in *. unfold fix_act. rewrite LI in *. rewrite UI in *. clear LI UI.
  destruct (_ || _) eqn:B1 in A1, C1 |- *; cbn [negb] in *;
  [destruct (Z.eqb_spec (n_inf_min A) 0) as [Z1|Z1]; [destruct (C1 eq_refl Z1)|]|
   destruct (Z.eqb_spec (n_inf_min A) 0) as [Z1|Z1]]; cbv zeta; cbn [fst snd n_inf_min n_inf_max a_min a_max] in *;
  (destruct ((Qgtb aik 0 && t_ub_inf t) || (Qltb aik 0 && t_lb_inf t)) eqn:B2; cbn [negb] in *;
  [destruct (Z.eqb_spec (n_inf_max A) 0) as [Z2|Z2]; [destruct (C2 eq_refl Z2)|]|
   destruct (Z.eqb_spec (n_inf_max A) 0) as [Z2|Z2]]; cbn [fst snd n_inf_min n_inf_max a_min a_max] in *; split; assumption).
Qed.
Definition between (s : state) (k : nat) (v : Q) : Prop :=
  (is_fin (lb s k) = true -> fin (lb s k) <= v) /\ (is_fin (ub s k) = true -> v <= fin (ub s k)).
Lemma sides_frame : forall s i v, let s3 := if t_lhs_inf (rt s i) then s else set_lhs1 i (ext_sub (lhs s i) v) s in
  let s4 := if t_rhs_inf (rt s3 i) then s3 else set_rhs1 i (ext_sub (rhs s3 i) v) s3 in
  nr s4 = nr s /\ lb s4 = lb s /\ ub s4 = ub s /\ w_fixed s4 = w_fixed s /\ acts s4 = acts s /\ mA s4 = mA s /\ rt s4 = rt s /\ ct s4 = ct s.
Proof.
  intros. subst s3 s4. destruct (t_lhs_inf (rt s i)); sr; destruct (t_rhs_inf (rt s i)); sr; repeat split; auto.
Qed.
Lemma fix_col_ston_AV : forall s i k v a, Inv s -> Mid s -> AV Qle s -> w_fixed s = [] -> (i < nr s)%nat -> (k < nc s)%nat ->
  t_inact (rt s i) = false -> t_cinact (ct s k) = false -> In (k, a) (mA s i) -> between s k v ->
  AV Qle (fix_col_ston i k v a s).
Proof.
  intros s i k v a H M A WF Hi Hk Ti Tk IN [BL BU].
  pose proof (view_full s i H Hi Ti) as VF. pose proof (w_rsrt s (inv_0 s H) i Hi) as SR.
  destruct (w_rin s (inv_0 s H) i k a Hi IN) as [_ NZ].
  cbv beta delta [fix_col_ston].
  let_one s1 E1. rewrite (remove_row_eq i k s VF) in E1. let_one r Er. let_one s2 E2. let_one s3 E3. let_one s4 E4. let_one a0 Ea. let_one t0 Et.
  let_one a1 E5. let_one a2 E6. let_one s5 E7.
  assert (RV : r = del_entry k (mA s i)).
  { subst r s1. unfold row_view. sr. rewrite !upd_same. apply firstn_all2.
    unfold row_view in VF. apply (f_equal (@length _)) in VF. rewrite firstn_length in VF.
    pose proof (del_entry_len k a _ SR IN). lia. }
  assert (F4 : nr s4 = nr s /\ lb s4 = lb s /\ ub s4 = ub s /\ w_fixed s4 = [] /\ acts s4 = acts s /\
    mA s4 = upd (mA s) i (del_entry k (mA s i)) /\ rt s4 = rt s /\ ct s4 = upd (ct s) k (tag_fixed (ct s k))).
  { pose proof (sides_frame s2 i (a * v)) as X. cbv zeta in X. rewrite <- E3 in X. rewrite <- E4 in X.
    destruct X as (X1&X2&X3&X4&X5&X6&X7&X8). rewrite X1, X2, X3, X4, X5, X6, X7, X8. subst s2 s1. sr. repeat split; auto. }
  clear Er E1 E2 E3 E4 s1 s2 s3. destruct F4 as (N4&L4&U4&W4&A4&M4&R4&C4).
  pose proof (tr_lb s (md_tags s M) k Hk Tk) as TL. pose proof (tr_ub s (md_tags s M) k Hk Tk) as TU.
  assert (X : SV2 Qle (lb s) (ub s) (del_entry k (mA s i)) a2).
  { pose proof (fix_act_SV2 Qle k a v (lb s) (ub s) (ct s k) (mA s i) (acts s i) good_le SR IN NZ) as X.
    assert (Y : a2 = fix_act v a (lb s) (ub s) (ct s k) (del_entry k (mA s i)) (acts s i)).
    { subst a2 a1 a0 t0. rewrite A4, C4, L4, U4, upd_same. subst r. reflexivity. }
    rewrite Y. apply X; auto.
    - destruct (t_lb_inf (ct s k)); [rewrite TL|]; auto.
    - destruct (t_ub_inf (ct s k)); [rewrite TU|]; auto.
    - destruct (Q_dec a 0) as [[LT|GT]|EZ]; [rewrite lowb_neg by auto|rewrite lowb_pos by auto|contradiction].
      + intros F w z. specialize (BU F). assert (0 <= (- a) * (fin (ub s k) - v)) by (apply Qmult_le_0_compat; lra). lra.
      + intros F w z. specialize (BL F). assert (0 <= a * (v - fin (lb s k))) by (apply Qmult_le_0_compat; lra). lra.
    - unfold flip, upb. destruct (Q_dec a 0) as [[LT|GT]|EZ]; [rewrite lowb_neg by auto|rewrite lowb_pos by auto|contradiction].
      + intros F w z. specialize (BL F). assert (0 <= (- a) * (v - fin (lb s k))) by (apply Qmult_le_0_compat; lra). lra.
      + intros F w z. specialize (BU F). assert (0 <= a * (fin (ub s k) - v)) by (apply Qmult_le_0_compat; lra). lra.
    - apply A; auto. }
  subst s5. clear E5 E6. unfold fix_var_in_obj. apply (cut_AV Qle s _ i k a); auto using good_le; sr; rewrite ?M4; auto.
  - intros j. rewrite R4. auto.
  - intros j D. rewrite !upd_other by auto. rewrite A4. split; auto. apply anum_refl.
  - rewrite upd_same. auto.
  - rewrite upd_same. auto.
Qed.

Lemma keepA_close : forall u i s, t_inact (rt s i) = false -> keepA s (close_row u i s).
Proof.
  intros u i s TI. unfold close_row. cbv zeta.
  set (s1 := if (if u then t_lhs_inf (rt s i) else _) then _ else s).
  assert (K1 : keepA s s1).
  { unfold s1. destruct (if u then t_lhs_inf (rt s i) else _); [apply keepA_to_eq|apply keepA_refl]. }
  eapply keepA_trans; [exact K1|].
  assert (T1 : t_inact (rt s1 i) = false).
  { unfold s1. destruct (if u then t_lhs_inf (rt s i) else _); [|auto].
    destruct (locks_only_ineq_to_eq (row_view s i) u s) as [x [y E]]. rewrite E. exact TI. }
  clearbody s1. set (s3 := set_rt1 i R_EQ _).
  assert (K3 : keepA s1 s3).
  { unfold s3. destruct u; constructor; sr; auto; intros j; updg; auto. }
  eapply keepA_trans; [exact K3|]. clearbody s3. destruct (Z.eqb _ _); [apply keepA_dton|apply keepA_refl].
Qed.

Definition ordered (s : state) : Prop := forall k, (k < nc s)%nat -> t_cinact (ct s k) = false ->
  is_fin (lb s k) = true -> is_fin (ub s k) = true -> fin (lb s k) <= fin (ub s k).

Lemma process_ineq_AV : forall s i k a ab be, Inv s -> Mid s -> AV Qle s -> ordered s -> w_fixed s = [] -> (i < nr s)%nat -> (k < nc s)%nat ->
  t_inact (rt s i) = false -> t_cinact (ct s k) = false -> In (k, a) (mA s i) ->
  AV Qle (fst (process_colston_ineq i k a ab be s)).
Proof.
  intros s i k a ab be H M A OD WF Hi Hk Ti Tk IN.
  assert (FM : forall v, between s k v -> AV Qle (push_if_ston i (fix_col_ston i k v a s))).
  { intros v B. pose proof (fix_col_ston_AV s i k v a H M A WF Hi Hk Ti Tk IN B) as X. unfold push_if_ston.
    set (s' := fix_col_ston i k v a s) in *. clearbody s'. destruct (Z.eqb _ 1); auto.
    eapply keepA_AV; [apply good_le|apply keepA_ston|auto]. }
  pose proof (tr_lb s (md_tags s M) k Hk Tk) as TL. pose proof (tr_ub s (md_tags s M) k Hk Tk) as TU.
  unfold process_colston_ineq. cbv zeta.
  match goal with |- AV _ (fst (if ?b then _ else _)) => destruct b eqn:C1 end.
  { destruct (t_lb_inf _); cbn [fst]; auto. apply FM. split; [intros; lra|]. intros. apply OD; auto. }
  match goal with |- AV _ (fst (if ?b then _ else _)) => destruct b eqn:C2 end.
  { destruct (t_ub_inf _); cbn [fst]; auto. apply FM. split; [|intros; lra]. intros. apply OD; auto. }
  destruct (ab && be).
  { match goal with |- AV _ (fst (if ?b then _ else _)) => destruct b end; [destruct (t_lhs_inf _); cbn [fst]; [auto|apply sub_and_row_AV; auto using good_le]|].
    match goal with |- AV _ (fst (if ?b then _ else _)) => destruct b end; [destruct (t_rhs_inf _); cbn [fst]; [auto|apply sub_and_row_AV; auto using good_le]|].
    cbn [fst]; apply sub_and_row_AV; auto using good_le. }
  match goal with |- AV _ (fst (if ?b then _ else _)) => destruct b eqn:C3 end;
    [cbn [fst]; eapply keepA_AV; [apply good_le|apply keepA_close; auto|auto]|].
  match goal with |- AV _ (fst (if ?b then _ else _)) => destruct b eqn:C4 end;
    [cbn [fst]; eapply keepA_AV; [apply good_le|apply keepA_close; auto|auto]|auto].
Qed.

Lemma ston_col_AV : forall s k, Inv s -> Mid s -> AV Qle s -> ordered s -> w_fixed s = [] -> (k < nc s)%nat -> csz s k = 1%Z ->
  t_cinact (ct s k) = false -> AV Qle (fst (ston_col s k)).
Proof.
  intros s k H M A OD WF Hk C1 Tk.
  pose proof (tight_csz s k (inv_0 s H) (inv_C s H) Hk Tk) as SZ. rewrite C1 in SZ.
  unfold ston_col. destruct (mAT s k) as [|[i a] r] eqn:EK.
  { apply (keepA_AV Qle s); auto using good_le. constructor; sr; auto. }
  assert (r = []) by (unfold Z_len in SZ; destruct r; simpl in SZ; [reflexivity|lia]). subst r.
  destruct (w_cin s (inv_0 s H) i k a Hk) as [Hi _]; [rewrite EK; left; reflexivity|].
  destruct (t_inact (rt s i)) eqn:Ti; cbn [orb]; auto.
  destruct (Z.leb_spec (rsz s i) 1); auto.
  assert (INk : In (k, a) (mA s i)).
  { apply (w_agree s (inv_0 s H)); auto; [apply act_alive; auto; apply H|apply cact_alive; auto; apply H|].
    rewrite EK. left; auto. }
  cbv zeta. destruct (t_eq (rt s i)) eqn:Te.
  - apply process_eq_AV; auto using good_le; [lia|apply not_above_fin|apply not_below_fin].
  - apply process_ineq_AV; auto.
Qed.
