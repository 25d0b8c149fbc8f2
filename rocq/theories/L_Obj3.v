(** The objective value along bound propagation and singleton columns. *)
From Coq Require Import NArith Lqa.
From Verif Require Import M_Num S_LP M_Settings M_Driver S_Driver M_State M_Act M_Core M_Simple
  M_StonCols M_Dton M_Parallel M_Propagate M_Init M_Post M_Run S_Run S_Struct S_Sem S_Sem2 S_Sem3 S_Sem4 S_Post
  L_State L_Struct L_Struct2 L_Struct3 L_Struct4 L_Struct5 L_Struct6 L_Struct7 L_Struct8 L_Struct9 L_Struct10 L_Struct11
  L_Sem L_Sem2 L_Sem3 L_Sem4 L_Mid L_Mid2 L_Mid3 L_Mid4 L_Mid5 L_Act L_Act2 L_Act3 L_Act4 L_Act5 L_Act6 L_Act7 L_Act8
  L_Ston L_Ston2 L_Post L_Post2 L_Post3 L_Post4 L_Post5 L_Obj L_Obj2.
Import M_Driver.
Notation bad := M_State.bad.
Open Scope Q_scope.

Section Walk.
Variable ob : (nat -> Q) -> Q.
Notation J := (L_Obj.J ob).

(** ** Bound propagation *)
Lemma active_not_fixed : forall t, t_cinact t = false -> t_fixed t = false.
Proof. intros t H. unfold t_cinact in H. apply orb_false_iff in H. apply H. Qed.
Lemma J_ubp : forall b k v t, t_cinact (ct t k) = false -> J t -> J (fst (update_ub_prop b k v t)).
Proof.
  intros b k v t TK H. unfold update_ub_prop. cbv zeta. destruct (_ && _); [exact H|].
  destruct (_ && _); [cbn [fst]; apply J_fix_col, J_rec; [reflexivity|exact H]|].
  destruct (_ || _); [|exact H]. cbn [fst].
  set (w := if IS_INTEGRAL v then v else _).
  match goal with |- context [update_activities_bound_change ?a ?b ?c ?d ?e ?f] =>
    destruct (acts_only_bound_change a b c d e f) as [x [y E]] end. rewrite E. clear E.
  apply J_rec; [reflexivity|].
  revert H. apply J_guard; [|reflexivity|reflexivity]. intros JS. apply jsame_J. constructor; sr; auto.
  - intros j. updg; auto.
  - intros j. updg; auto.
  - intros j Hj. unfold upd. destruct (Nat.eqb_spec j k) as [->|]; auto.
    destruct (J_not_listed ob t k JS (active_not_fixed _ TK) Hj).
  - exists []. split; reflexivity.
Qed.
Lemma J_lbp : forall b k v t, J t -> J (fst (update_lb_prop b k v t)).
Proof.
  intros b k v t H. unfold update_lb_prop. cbv zeta. destruct (_ && _); [exact H|].
  destruct (_ && _); [cbn [fst]; apply J_fix_col, J_rec; [reflexivity|exact H]|].
  destruct (_ || _); [|exact H]. cbn [fst].
  set (w := if IS_INTEGRAL v then v else _).
  match goal with |- context [update_activities_bound_change ?a ?b ?c ?d ?e ?f] =>
    destruct (acts_only_bound_change a b c d e f) as [x [y E]] end. rewrite E. clear E.
  apply J_rec; [reflexivity|].
  revert H. apply jsame_J. constructor; sr; auto.
  - intros j. updg; auto.
  - intros j. updg; auto.
  - exists []. split; reflexivity.
Qed.
Section Prop_.
Variables (b : bool) (s : state).
Hypotheses (HI : Inv s) (WR : w_rows s = []) (WS : w_sub s = []).
Section OneRow.
Variable i : nat.
Hypotheses (Hi : (i < nr s)%nat) (T : t_inact (rt s i) = false).
Definition OJ (p : tight) : Prop := PB s (st_of p) /\ J (st_of p).
Lemma ub_OJ : forall p k a v, OJ p -> (k < nc s)%nat -> t_cinact (ct (st_of p) k) = false -> In (k, a) (mA s i) ->
  OJ (try_ub b k v p).
Proof.
  intros [[t st] n] k a v [P K] Hk TK Hin. unfold try_ub. destruct (_ && _); [|split; auto].
  unfold OJ, tally, st_of in *. cbn [fst snd] in *. split; [|apply J_ubp; auto].
  apply (ub_outB True b s HI WR i Hi T t k a v P Hk TK Hin).
Qed.
Lemma lb_OJ : forall p k a v, OJ p -> (k < nc s)%nat -> t_cinact (ct (st_of p) k) = false -> In (k, a) (mA s i) ->
  OJ (try_lb b k v p).
Proof.
  intros [[t st] n] k a v [P K] Hk TK Hin. unfold try_lb. destruct (_ && _); [|split; auto].
  unfold OJ, tally, st_of in *. cbn [fst snd] in *. split; [|apply J_lbp; auto].
  apply (lb_outB True b s HI WR i Hi T t k a v P Hk TK Hin).
Qed.
Lemma fold_OJ : forall (f : tight -> nat * Q -> tight) r p,
  (forall p e, In e r -> OJ p -> OJ (f p e)) -> OJ p -> OJ (fold_left f r p).
Proof.
  intros f r. induction r as [|e r IH]; intros p F TP; cbn [fold_left]; auto. apply IH.
  - intros; apply F; auto. right; auto.
  - apply F; auto. left; auto.
Qed.
Lemma row_entry : forall k a, In (k, a) (mA s i) -> (k < nc s)%nat.
Proof. intros k a Hin. apply (w_rin s (inv_0 s HI) i k a Hi Hin). Qed.
Lemma tighten_rhs_OJ : forall p, OJ p -> OJ (tighten_rhs b i (mA s i) p).
Proof.
  intros [[t st] n] TP. pose proof (proj1 TP) as P. unfold st_of in P. cbn [fst] in P.
  destruct (pb_T s i Hi T _ P) as [Hi' T']. unfold tighten_rhs. cbv zeta.
  destruct (_ && _).
  { apply fold_OJ; auto. clear t st n TP P Hi' T'. intros [[t st] n] [k a] Hin TP. unfold rhs_entry.
    destruct (t_cinact (ct t k)) eqn:TK; auto. pose proof (row_entry k a Hin).
    destruct (Qgtb a 0); [apply ub_OJ with (a := a)|apply lb_OJ with (a := a)]; auto. }
  destruct (_ && _) eqn:C2; auto. apply andb_true_iff in C2. destruct C2 as [_ C2]. apply Z.eqb_eq in C2.
  destruct (find_inf_ok RT t true i (pb_inv _ _ P) (pb_tags _ _ P) (pb_av _ _ P) (pb_sub _ WS _ P) Hi' T' C2)
    as [k [a [E [Hin [TK F]]]]].
  rewrite (pb_A _ _ P) in E, Hin. rewrite E. pose proof (row_entry k a Hin).
  destruct (Qgtb a 0); [apply ub_OJ with (a := a)|apply lb_OJ with (a := a)]; auto.
Qed.
Lemma tighten_lhs_OJ : forall p, OJ p -> OJ (tighten_lhs b i (mA s i) p).
Proof.
  intros [[t st] n] TP. pose proof (proj1 TP) as P. unfold st_of in P. cbn [fst] in P.
  destruct (pb_T s i Hi T _ P) as [Hi' T']. unfold tighten_lhs. cbv zeta.
  destruct (_ && _).
  { apply fold_OJ; auto. clear t st n TP P Hi' T'. intros [[t st] n] [k a] Hin TP. unfold lhs_entry.
    destruct (t_cinact (ct t k)) eqn:TK; auto. pose proof (row_entry k a Hin).
    destruct (Qgtb a 0); [apply lb_OJ with (a := a)|apply ub_OJ with (a := a)]; auto. }
  destruct (_ && _) eqn:C2; auto. apply andb_true_iff in C2. destruct C2 as [_ C2]. apply Z.eqb_eq in C2.
  destruct (find_inf_ok RT t false i (pb_inv _ _ P) (pb_tags _ _ P) (pb_av _ _ P) (pb_sub _ WS _ P) Hi' T' C2)
    as [k [a [E [Hin [TK F]]]]].
  rewrite (pb_A _ _ P) in E, Hin. rewrite E. pose proof (row_entry k a Hin).
  destruct (Qgtb a 0); [apply lb_OJ with (a := a)|apply ub_OJ with (a := a)]; auto.
Qed.
Lemma single_row_J : forall t, PB s t -> J t -> J (fst (bound_tightening_single_row b i t)).
Proof.
  intros t P K. unfold bound_tightening_single_row.
  destruct (pb_T s i Hi T t P) as [Hi' T'].
  rewrite (view_full t i (pb_inv _ _ P) Hi' T'), (pb_A _ _ P).
  assert (TP : OJ (t, UNCHANGED, O)) by (split; auto).
  apply tighten_rhs_OJ in TP. apply tighten_lhs_OJ in TP.
  set (p := tighten_lhs _ _ _ _) in *. clearbody p. destruct p as [[t2 st2] n2]. destruct TP as [P2 J2].
  unfold st_of in *. cbn [fst snd] in *. destruct n2 as [|n2]; [exact J2|]. apply J_rec; [reflexivity|exact J2].
Qed.
End OneRow.
Lemma loop_J : forall fuel ii t, PB s t -> J t -> (L_Struct8.lp t <= ii + fuel)%nat -> J (fst (prop_loop b fuel ii t)).
Proof.
  induction fuel as [|f IH]; intros ii t P K L; cbn [prop_loop].
  - destruct (nth_error (w_acts t) ii) eqn:E; [|exact K].
    exfalso. assert (X : (ii < length (w_acts t))%nat) by (apply nth_error_Some; congruence).
    unfold L_Struct8.lp in L. lia.
  - destruct (nth_error (w_acts t) ii) as [i|] eqn:E; [|exact K].
    assert (Hi : (i < nr t)%nat) by (apply (l_acts t (inv_L t (pb_inv _ _ P))); eapply nth_error_In; eauto).
    destruct (skip_row t i) eqn:SK; [apply IH; auto; lia|].
    unfold skip_row in SK. apply orb_false_iff in SK. destruct SK as [SK _].
    apply orb_false_iff in SK. destruct SK as [SZ SK]. apply negb_false_iff in SK.
    assert (AP : (apot PROPAGATED_THIS_ROUND <= apot (a_st (acts t i)))%nat).
    { unfold ast_is in SK. destruct (a_st (acts t i)); try discriminate. simpl. lia. }
    pose proof (pb_ast s t i PROPAGATED_THIS_ROUND P AP) as P0.
    pose proof (prs_set_ast i PROPAGATED_THIS_ROUND t (pb_inv _ _ P) AP) as PP.
    assert (T : t_inact (rt t i) = false).
    { apply (quiet_row t i (pb_inv _ _ P)); auto. { apply (pb_rows _ WR _ P); auto. } apply Z.leb_gt in SZ. lia. }
    assert (Hi' : (i < nr s)%nat) by (rewrite <- (pb_nr _ _ P); auto).
    assert (T' : t_inact (rt s i) = false) by (rewrite <- (kp_rt _ _ (pb_kept _ _ P)); auto).
    pose proof (single_row_PB True b s HI WR WS i _ Hi' T' P0) as X.
    assert (K0 : J (set_ast i PROPAGATED_THIS_ROUND t)) by exact K.
    pose proof (single_row_J i Hi' T' _ P0 K0) as K1.
    pose proof (prs_single_row b i _ (pb_inv _ _ P0) Hi) as PS.
    destruct (bound_tightening_single_row b i _) as [t1 st]. cbn [fst] in PS, X, K1. cbv zeta in X. destruct X as [P1 _].
    destruct (HAS_STATUS st INFEASIBLE); [exact K1|].
    apply (IH (S ii) t1 P1 K1).
    destruct (pr_lp _ _ PP) as [_ Y1]. destruct (pr_lp _ _ PS) as [_ Y2]. lia.
Qed.
End Prop_.
Lemma J_propagate : forall b s, Inv s -> Mid s -> AV RT s -> w_rows s = [] -> w_sub s = [] -> J s ->
  J (fst (propagate_primal b s)).
Proof.
  intros b s H M A WR WS K. unfold propagate_primal.
  assert (P0 : PB s s) by (constructor; auto using prs_refl, kept_refl).
  pose proof (loop_J b s H WR WS (length (w_acts s) + 2 * nr s) 0 s P0 K) as X.
  destruct (prop_loop b _ 0 s) as [s1 st]. cbn [fst] in X.
  assert (K1 : J s1) by (apply X; pose proof (lp_bound s); lia). clear X.
  destruct (N.eqb _ _); [exact K1|]. destruct (next_round_frame s1) as [A2 [W2 E2]].
  assert (K2 : J (next_round s1)) by (rewrite E2; exact K1). apply J_finish in K2.
  set (s3 := delete_inactive_cols_from_A_and_AT _) in *. clearbody s3. apply J_empty_rows in K2.
  destruct (remove_empty_rows s3) as [s4 st4]. destruct (N.eqb _ _); exact K2.
Qed.

(** ** Singleton columns *)
Definition fixed_here (i k : nat) (v a : Q) (s t : state) : Prop :=
  nc t = nc s /\ ct t = upd (ct s) k (tag_fixed (ct s k)) /\ cst t = cst s /\ off t = off s + cst s k * v /\
  w_fixed t = w_fixed s /\ ub t = ub s /\ log t = FIXED_COL k v (cst s k) [(i, a)] :: log s.
Lemma fix_ston_fields : forall s i k v a, row_view s i = mA s i -> fixed_here i k v a s (fix_col_ston i k v a s).
Proof.
  intros s i k v a VF. cbv beta delta [fix_col_ston].
  let_one s1 E1. rewrite (remove_row_eq i k s VF) in E1. let_one r Er. let_one s2 E2. let_one s3 E3. let_one s4 E4. let_one a0 Ea. let_one t0 Et.
  let_one a1 E5. let_one a2 E6. clear E5 E6 Ea Et a0 t0 a1. let_one s5 E7.
  assert (F4 : nc s4 = nc s /\ ct s4 = upd (ct s) k (tag_fixed (ct s k)) /\ cst s4 = cst s /\ off s4 = off s /\
     w_fixed s4 = w_fixed s /\ ub s4 = ub s /\ log s4 = log s).
  { assert (F2 : nc s2 = nc s /\ ct s2 = upd (ct s) k (tag_fixed (ct s k)) /\ cst s2 = cst s /\ off s2 = off s /\
     w_fixed s2 = w_fixed s /\ ub s2 = ub s /\ log s2 = log s) by (subst s2 s1; sr; repeat split).
    clear E2 E1. subst s4 s3. clear -F2. destruct (t_lhs_inf (rt s2 i)); sr; destruct (t_rhs_inf (rt s2 i)); sr; auto. }
  clear -F4 E7. subst s5. unfold fixed_here, fix_var_in_obj. sr. destruct F4 as (F1 & F2 & F3 & F4 & F5 & F6 & F7).
  rewrite F1, F2, F3, F4, F5, F6, F7. repeat split.
Qed.
Lemma J_fixed_here : forall s i k v a t, fixed_here i k v a s t -> J s -> J t.
Proof.
  intros s i k v a t (A & B & C & D & E & F & G). apply (J_fix ob s t k v (cst s k) [(i, a)] false); auto.
  - intros j N. rewrite B, upd_other by auto. auto.
  - rewrite B, upd_same. reflexivity.
  - intros j N. rewrite F. auto.
  - split; [rewrite D; lra|auto].
Qed.
Lemma J_push_ston : forall i t, J t -> J (push_if_ston i t).
Proof. intros i t H. unfold push_if_ston. destruct (Z.eqb _ _); exact H. Qed.
Lemma J_fix_ston : forall s i k v a, row_view s i = mA s i -> J s -> J (push_if_ston i (fix_col_ston i k v a s)).
Proof. intros s i k v a VF H. apply J_push_ston. eapply J_fixed_here; [apply fix_ston_fields; exact VF|exact H]. Qed.
Lemma J_close_row : forall u i s, J s -> J (close_row u i s).
Proof.
  intros u i s H. unfold close_row. cbv zeta.
  set (s1 := if (if u then t_lhs_inf (rt s i) else _) then _ else s).
  assert (L1 : J s1).
  { unfold s1. destruct (if u then t_lhs_inf (rt s i) else _); [|exact H]. eapply J_ofr; [|exact H]. apply ofr_locks, locks_only_ineq_to_eq. }
  clearbody s1. destruct u; destruct (Z.eqb _ 2); exact L1.
Qed.
Section One.
Variables (s : state) (i k : nat) (a : Q).
Hypotheses (H : Inv s) (WF : w_fixed s = []) (WS : w_sub s = [])
  (Hi : (i < nr s)%nat) (Hk : (k < nc s)%nat) (Ti : t_inact (rt s i) = false) (Tk : t_cinact (ct s k) = false)
  (EK : mAT s k = [(i, a)]).
Lemma J_sub_t : forall s' b c pre post, nc s' = nc s -> w_fixed s' = [] -> (forall j, j <> k -> ct s' j = ct s j) ->
  t_cinact (ct s' k) = true -> (forall j, cst s' j == cst s j - cst s k / a * coeff (mA s i) j) ->
  off s' == off s + fin b * (cst s k / a) -> forallb keepx pre = true -> forallb keepx post = true ->
  log s' = pre ++ SUB_COL k (mA s i) b i c :: post ++ log s -> J s -> J s'.
Proof.
  intros s' b c pre post A B C D E F G K L. apply (J_sub ob s s' k a (mA s i) b i c pre post); auto.
  - intros j N. rewrite C; auto.
  - apply (w_rsrt s (inv_0 s H) i Hi).
  - apply (o_in s i k a H Hi Hk Ti Tk EK).
  - apply (o_nz s i k a H Hi Hk Ti Tk EK).
  - apply (o_others s i H WF WS Hi Ti).
Qed.
Lemma tag_sub_inact : forall t, t_cinact (tag_sub t) = true.
Proof. intros t. unfold t_cinact, tag_sub. cbn. apply orb_true_r. Qed.
Lemma J_sub_row : forall side, let s1 := sub_col_now k (sub_var_in_obj (row_view s i) k a (fin side) s) in J s ->
  J (set_row_to_inactive i (cst s k / a) (record (SUB_COL k (row_view s1 i) side i (cst s k)) s1)).
Proof.
  intros side s1 K. pose proof (view_full s i H Hi Ti) as VF.
  destruct (sub_var_spec (row_view s i) k a (fin side) s) as [c [o [E [E1 E2]]]].
  { rewrite VF. apply (w_rsrt s (inv_0 s H)); auto. } { apply (o_nz s i k a H Hi Hk Ti Tk EK). }
  assert (V1 : row_view s1 i = mA s i). { unfold s1. rewrite E. exact VF. }
  rewrite V1. unfold s1. rewrite E. clear V1 s1. rewrite VF in E1.
  apply (J_sub_t _ side (cst s k) [DELETED_ROW i (cst s k / a)] []); unfold set_row_to_inactive, sub_col_now; sr; auto.
  - intros j N. apply upd_other; auto.
  - rewrite upd_same. apply tag_sub_inact.
Qed.
Lemma J_process_eq : forall ab be, J s -> J (fst (process_colston_eq i k a ab be s)).
Proof.
  intros ab be K. unfold process_colston_eq. destruct (negb ab && negb be); [exact K|].
  cbv zeta. pose proof (view_full s i H Hi Ti) as VF. destruct (ab && be); cbn [fst].
  { assert (ER : rhs (sub_col_now k (sub_var_in_obj (row_view s i) k a (fin (rhs s i)) s)) i = rhs s i).
    { destruct (sub_var_spec (row_view s i) k a (fin (rhs s i)) s) as [c [o [E _]]].
      { rewrite VF. apply (w_rsrt s (inv_0 s H)); auto. } { apply (o_nz s i k a H Hi Hk Ti Tk EK). }
      rewrite E. reflexivity. }
    rewrite ER. apply (J_sub_row (rhs s i)); exact K. }
  destruct (sub_var_spec (row_view s i) k a (fin (rhs s i)) s) as [c [o [E [E1 E2]]]].
  { rewrite VF. apply (w_rsrt s (inv_0 s H)); auto. } { apply (o_nz s i k a H Hi Hk Ti Tk EK). }
  rewrite E. set (s1 := sub_col_now k (set_off o (set_cst c s))).
  set (s2 := handle_impl_free_eq ab i k a (cst s k) s1).
  assert (B : J s2).
  { assert (V1 : row_view s1 i = mA s i) by exact VF.
    unfold s2, handle_impl_free_eq. cbv zeta. rewrite V1.
    set (sr0 := record (SUB_COL k _ _ i 0) _).
    assert (SR : remove_from_row i k sr0 =
       set_nnz (nnz s - 1)%Z (set_rsz1 i (rsz s i - 1)%Z (setA i (del_entry k (mA s i)) sr0))).
    { unfold remove_from_row. change (row_view sr0 i) with (row_view s1 i). rewrite V1. reflexivity. }
    rewrite SR. clear SR. set (sx0 := set_nnz (nnz s - 1)%Z _).
    set (s3 := if Bool.eqb ab (Qgtb a 0) then set_rt1 i _ _ else _).
    assert (F3 : nc s3 = nc s /\ ct s3 = upd (ct s) k (tag_sub (ct s k)) /\ w_fixed s3 = [] /\ cst s3 = c /\ off s3 = o /\
      log s3 = SUB_COL k (mA s i) (rhs s i) i 0 :: EQ_TO_INEQ i (cst s k / a) :: log s).
    { unfold s3, sx0, sr0, s1, sub_col_now. destruct (Bool.eqb _ _); sr; repeat split; auto. }
    set (rv := row_view sx0 i). clearbody s3 rv. clear sx0 sr0.
    destruct (locks_only_eq_to_ineq rv (Bool.eqb ab (Qgtb a 0)) s3) as [x [y E4]]. rewrite E4. clear E4.
    match goal with |- context [set_act1 i ?A _] => set (A4 := A) end. clearbody A4.
    destruct F3 as (F1&F2&F3&F4&F5&F6).
    apply (J_sub_t _ (rhs s i) 0 [] [EQ_TO_INEQ i (cst s k / a)]); sr; auto.
    - intros j N. rewrite F2. apply upd_other; auto.
    - rewrite F2, upd_same. apply tag_sub_inact.
    - intros j. rewrite F4, E1, VF. lra.
    - rewrite F5, E2. lra. }
  clearbody s2. destruct (Z.eqb (rsz s2 i) 1); [|match goal with |- context [if ?b then push_dton _ _ else _] => destruct b end]; exact B.
Qed.
Lemma J_process_ineq : forall ab be, J s -> J (fst (process_colston_ineq i k a ab be s)).
Proof.
  intros ab be K. pose proof (view_full s i H Hi Ti) as VF. unfold process_colston_ineq. cbv zeta.
  match goal with |- J (fst (if ?b then _ else _)) => destruct b end; [destruct (t_lb_inf _); cbn [fst]; [exact K|apply J_fix_ston; auto]|].
  match goal with |- J (fst (if ?b then _ else _)) => destruct b end; [destruct (t_ub_inf _); cbn [fst]; [exact K|apply J_fix_ston; auto]|].
  destruct (ab && be).
  { match goal with |- J (fst (if ?b then _ else _)) => destruct b end; [destruct (t_lhs_inf _); cbn [fst]; [exact K|apply J_sub_row; auto]|].
    match goal with |- J (fst (if ?b then _ else _)) => destruct b end; [destruct (t_rhs_inf _); cbn [fst]; [exact K|apply J_sub_row; auto]|].
    cbn [fst]; apply J_sub_row; auto. }
  match goal with |- J (fst (if ?b then _ else _)) => destruct b end; [apply J_close_row; auto|].
  match goal with |- J (fst (if ?b then _ else _)) => destruct b end; [apply J_close_row; auto|exact K].
Qed.
End One.
Lemma J_ston_col : forall s k, Inv s -> w_fixed s = [] -> w_sub s = [] -> ready s k -> J s -> J (fst (ston_col s k)).
Proof.
  intros s k H WF WS [Hk [C1 Tk]] K.
  pose proof (tight_csz s k (inv_0 s H) (inv_C s H) Hk Tk) as SZ. rewrite C1 in SZ.
  unfold ston_col. destruct (mAT s k) as [|[i a] r] eqn:EK; [discriminate|].
  assert (r = []) by (unfold Z_len in SZ; destruct r; simpl in SZ; [reflexivity|lia]). subst r.
  destruct (w_cin s (inv_0 s H) i k a Hk) as [Hi _]; [rewrite EK; left; reflexivity|].
  destruct (t_inact (rt s i)) eqn:Ti; cbn [orb fst]; [exact K|].
  destruct (Z.leb_spec (rsz s i) 1); [exact K|].
  cbv zeta. destruct (t_eq (rt s i)) eqn:Te; [apply J_process_eq; auto|apply J_process_ineq; auto].
Qed.
Lemma J_ston_fold : forall l s st, Inv s -> w_fixed s = [] -> w_sub s = [] ->
  NoDup l -> (forall k, In k l -> ready s k) -> J s -> J (fst (fold_or ston_col l s st)).
Proof.
  induction l as [|k l IH]; intros s st H WF WS ND HR K; simpl; [exact K|].
  pose proof (HR k (or_introl eq_refl)) as RK. destruct RK as [Hk [C1 Tk]].
  pose proof (ston_col_ok s k H Hk C1 Tk) as X.
  pose proof (J_ston_col s k H WF WS (HR k (or_introl eq_refl)) K) as K1.
  destruct (ston_col s k) as [s1 st1]. cbn [fst] in *. destruct X as [S1 [[F1 F2 F3] ST]].
  inversion ND; subst. apply IH; auto; try congruence; [apply S1|].
  intros j Hj. destruct (HR j (or_intror Hj)) as [X1 [X2 X3]].
  destruct (F3 j) as [Y1 [Y2 Y3]]; [intros ->; contradiction|].
  unfold ready. rewrite (stp_nc _ _ S1), Y1, Y2. auto.
Qed.
Lemma J_ston_pass_cols : forall s, Inv s -> quiet s -> J s -> J (fst (remove_ston_cols__ s)).
Proof.
  intros s H QS K. unfold remove_ston_cols__. cbv zeta.
  pose proof (refresh_Inv s H) as I0. pose proof (refresh_ready s H QS) as RR.
  pose proof (l_ston_cols_nd _ (inv_L _ I0)) as ND.
  assert (K0 : J (refresh_ston_cols s)) by exact K.
  assert (W0 : w_fixed (refresh_ston_cols s) = [] /\ w_sub (refresh_ston_cols s) = []) by (split; apply QS).
  set (s0 := refresh_ston_cols s) in *. clearbody s0. destruct W0 as [W1 W2].
  pose proof (J_ston_fold (w_ston_cols s0) s0 UNCHANGED I0 W1 W2 ND RR K0) as Y.
  destruct (fold_or ston_col (w_ston_cols s0) s0 UNCHANGED) as [s1 st]. cbn [fst] in *. apply J_dir; auto.
Qed.
Lemma J_ston_loop : forall f s, Inv s -> quiet s -> (mu s < f)%nat -> J s -> J (fst (ston_cols_loop f s)).
Proof.
  induction f as [|f IH]; intros s H QS LT K; [lia|]. simpl.
  pose proof (ston_cols_pass_spec s H QS) as X. pose proof (J_ston_pass_cols s H QS K) as Y.
  destruct (remove_ston_cols__ s) as [s1 st]. cbn [fst] in Y. destruct X as [S1 [Q1 ST]].
  destruct ST as [->|[->|[-> MU]]]; [simpl; auto|simpl; auto|].
  rewrite N.eqb_refl. assert (LT1 : (mu s1 < f)%nat) by lia. specialize (IH s1 (st_inv _ _ S1) Q1 LT1 Y).
  destruct (ston_cols_loop f s1) as [s2 st2]. exact IH.
Qed.
Lemma J_ston_cols : forall s, Inv s -> quiet s -> J s -> J (fst (remove_ston_cols s)).
Proof. intros s H QS K. apply J_ston_loop; auto. pose proof (mu_le s). lia. Qed.
End Walk.
