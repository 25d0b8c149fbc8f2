(** Locks and tags through bound propagation (src/explorers/Primal_propagation.c). *)
From Coq Require Import NArith Lqa.
From Verif Require Import M_Num S_LP M_Settings M_Driver S_Driver M_State M_Act M_Core M_Simple
  M_StonCols M_Dton M_Parallel M_Propagate M_Init M_Post M_Run S_Run S_Struct S_Sem
  L_State L_Struct L_Struct2 L_Struct3 L_Struct4 L_Struct5 L_Struct6 L_Struct7 L_Struct8 L_Struct11
  L_Sem L_Sem2 L_Sem3 L_Sem4 L_Mid L_Mid2 L_Mid3.
Open Scope Q_scope.


(** ** Changes of bounds only *)
Definition lbok (s : state) (k : nat) : Prop :=
  if t_lb_inf (ct s k) then lb s k = NInf else is_fin (lb s k) = true.
Definition ubok (s : state) (k : nat) : Prop :=
  if t_ub_inf (ct s k) then ub s k = PInf else is_fin (ub s k) = true.
Record kept (s s' : state) : Prop := mkKept {
  kp_nr : nr s' = nr s; kp_nc : nc s' = nc s; kp_lhs : lhs s' = lhs s; kp_rhs : rhs s' = rhs s;
  kp_rt : rt s' = rt s; kp_AT : mAT s' = mAT s; kp_ups : ups s' = ups s; kp_dns : dns s' = dns s;
  kp_er : w_empty_rows s' = w_empty_rows s;
  kp_ct : forall k, t_cinact (ct s' k) = false -> t_cinact (ct s k) = false;
  kp_lb : forall k, t_cinact (ct s' k) = false -> lbok s k -> lbok s' k;
  kp_ub : forall k, t_cinact (ct s' k) = false -> ubok s k -> ubok s' k }.
Lemma kept_refl : forall s, kept s s.
Proof. intros; constructor; auto. Qed.
Lemma kept_trans : forall a b c, kept a b -> kept b c -> kept a c.
Proof. intros a b c [] []. constructor; try congruence; auto. Qed.
(** Everything of [Mid] but the columns waiting to be deleted. *)
Record Md (s : state) : Prop := { d_tags : tags_right s; d_empty : empty_act s; d_lk : LK s }.
Lemma Md_Mid : forall s, Md s -> w_fixed s = [] -> Mid s.
Proof. intros s [A B C] W. constructor; auto. apply pend_nil; auto. Qed.
Lemma Mid_Md : forall s, Mid s -> Md s.
Proof. intros s []. constructor; auto. Qed.
Lemma kept_Md : forall s s', kept s s' -> Md s -> Md s'.
Proof.
  intros s s' K [[G1 G2 G3 G4 G5] E L]. destruct K. constructor.
  - constructor; rewrite ?kp_nr0, ?kp_nc0, ?kp_lhs0, ?kp_rhs0, ?kp_rt0; auto.
    + intros k Hk T. apply kp_lb0; auto. apply G4; auto.
    + intros k Hk T. apply kp_ub0; auto. apply G5; auto.
  - unfold empty_act in *. rewrite kp_er0, kp_rt0. auto.
  - apply (LK_frame s); auto. intros k Hk T. rewrite kp_nc0 in Hk. rewrite kp_ups0, kp_dns0, kp_AT0, kp_rt0.
    repeat split; auto.
Qed.
Lemma kept_acts : forall A W s, kept s (set_w_acts W (set_acts A s)).
Proof. intros. constructor; auto. Qed.
Lemma kept_record : forall r s, kept s (record r s).
Proof. intros. constructor; auto. Qed.
Lemma kept_ast : forall i t s, kept s (set_ast i t s).
Proof. intros. constructor; auto. Qed.
Lemma kept_foldS : forall X (f : state -> X -> state) l s, (forall s x, kept s (f s x)) -> kept s (foldS f l s).
Proof.
  intros X f l s F. revert s. induction l as [|x l IH]; intros s; cbn [foldS]; [apply kept_refl|].
  eapply kept_trans; [apply F|apply IH].
Qed.
Lemma kept_fix : forall k v c s, kept s (fst (fix_col k v c s)).
Proof.
  intros k v c s. pose proof (fix_col_cases s k v c) as X. destruct (fix_col k v c s) as [s1 st]. cbn [fst].
  destruct X as [[_ [-> _]]|[_ [_ [_ [A [W ->]]]]]]; [apply kept_refl|].
  constructor; auto; unfold lbok, ubok, set_col_to_fixed; sr; intros j; updg; auto; unfold t_cinact; cbn [tag_fixed t_fixed orb]; try discriminate.
Qed.

Lemma kept_lb_prop : forall b k v s, kept s (fst (update_lb_prop b k v s)).
Proof.
  intros b k v s. unfold update_lb_prop. cbv zeta.
  destruct (_ && _); [apply kept_refl|].
  destruct (_ && _).
  { cbn [fst]. eapply kept_trans; [apply kept_record|]. apply kept_fix. }
  destruct (_ || _); [|apply kept_refl]. cbn [fst].
  eapply kept_trans; [|apply kept_record].
  match goal with |- context [update_activities_bound_change ?a ?b0 ?c ?d ?e ?f] =>
    destruct (acts_only_bound_change a b0 c d e f) as [A [W ->]] end.
  eapply kept_trans; [|apply kept_acts].
  constructor; auto; unfold lbok, ubok; sr; intros j; updg;
    first [exact (fun x => x)|exact (fun _ x => x)|exact (fun _ _ => eq_refl)].
Qed.
Lemma kept_ub_prop : forall b k v s, kept s (fst (update_ub_prop b k v s)).
Proof.
  intros b k v s. unfold update_ub_prop. cbv zeta.
  destruct (_ && _); [apply kept_refl|].
  destruct (_ && _).
  { cbn [fst]. eapply kept_trans; [apply kept_record|]. apply kept_fix. }
  destruct (_ || _); [|apply kept_refl]. cbn [fst].
  eapply kept_trans; [|apply kept_record].
  match goal with |- context [update_activities_bound_change ?a ?b0 ?c ?d ?e ?f] =>
    destruct (acts_only_bound_change a b0 c d e f) as [A [W ->]] end.
  eapply kept_trans; [|apply kept_acts].
  constructor; auto; unfold lbok, ubok; sr; intros j; updg;
    first [exact (fun x => x)|exact (fun _ x => x)|exact (fun _ _ => eq_refl)].
Qed.
Lemma kept_try_lb : forall b k v p, kept (st_of p) (st_of (try_lb b k v p)).
Proof.
  intros b k v [[s st] n]. unfold try_lb, st_of. cbn [fst].
  destruct (_ && _); [apply kept_lb_prop|apply kept_refl].
Qed.
Lemma kept_try_ub : forall b k v p, kept (st_of p) (st_of (try_ub b k v p)).
Proof.
  intros b k v [[s st] n]. unfold try_ub, st_of. cbn [fst].
  destruct (_ && _); [apply kept_ub_prop|apply kept_refl].
Qed.
Lemma kept_fold : forall (f : tight -> nat * Q -> tight) r p,
  (forall p e, kept (st_of p) (st_of (f p e))) -> kept (st_of p) (st_of (fold_left f r p)).
Proof.
  intros f r p F. revert p. induction r as [|e r IH]; simpl; intros p; [apply kept_refl|].
  eapply kept_trans; [apply F|apply IH].
Qed.
Lemma kept_tighten_rhs : forall b i r p, kept (st_of p) (st_of (tighten_rhs b i r p)).
Proof.
  intros b i r [[s st] n]. unfold tighten_rhs. cbv zeta.
  destruct (_ && _).
  { apply kept_fold. intros [[t st'] n'] [k a]. unfold rhs_entry. cbv zeta.
    destruct (t_cinact _); [apply kept_refl|].
    destruct (Qgtb a 0); [apply kept_try_ub|apply kept_try_lb]. }
  destruct (_ && _); [|apply kept_refl].
  destruct (find_inf s true r None) as [[k a]|] eqn:E; [|apply kept_refl].
  destruct (Qgtb a 0); [apply kept_try_ub|apply kept_try_lb].
Qed.
Lemma kept_tighten_lhs : forall b i r p, kept (st_of p) (st_of (tighten_lhs b i r p)).
Proof.
  intros b i r [[s st] n]. unfold tighten_lhs. cbv zeta.
  destruct (_ && _).
  { apply kept_fold. intros [[t st'] n'] [k a]. unfold lhs_entry. cbv zeta.
    destruct (t_cinact _); [apply kept_refl|].
    destruct (Qgtb a 0); [apply kept_try_lb|apply kept_try_ub]. }
  destruct (_ && _); [|apply kept_refl].
  destruct (find_inf s false r None) as [[k a]|] eqn:E; [|apply kept_refl].
  destruct (Qgtb a 0); [apply kept_try_lb|apply kept_try_ub].
Qed.
Lemma kept_single_row : forall b i s, kept s (fst (bound_tightening_single_row b i s)).
Proof.
  intros b i s. unfold bound_tightening_single_row. cbv zeta.
  pose proof (kept_tighten_rhs b i (row_view s i) (s, UNCHANGED, O)) as P1.
  set (p1 := tighten_rhs _ _ _ _) in *.
  pose proof (kept_tighten_lhs b i (row_view s i) p1) as P2.
  set (p2 := tighten_lhs _ _ _ p1) in *. clearbody p1 p2. destruct p2 as [[s2 st2] n].
  unfold st_of in *. cbn [fst] in *.
  assert (P : kept s s2) by (eapply kept_trans; eauto).
  destruct n; cbn [fst]; auto. eapply kept_trans; [exact P|apply kept_record].
Qed.
Lemma kept_loop : forall b fuel ii s, kept s (fst (prop_loop b fuel ii s)).
Proof.
  intros b. induction fuel as [|f IH]; intros ii s; cbn [prop_loop].
  - destruct (nth_error (w_acts s) ii); [constructor; auto|apply kept_refl].
  - destruct (nth_error (w_acts s) ii) as [i|]; [|apply kept_refl].
    destruct (skip_row s i) eqn:SK; [apply IH|].
    pose proof (kept_single_row b i (set_ast i PROPAGATED_THIS_ROUND s)) as P1.
    destruct (bound_tightening_single_row b i _) as [s1 st]. cbn [fst] in P1.
    assert (P : kept s s1) by (eapply kept_trans; [apply kept_ast|eauto]).
    destruct (HAS_STATUS st INFEASIBLE); [exact P|]. eapply kept_trans; [exact P|apply IH].
Qed.
Lemma kept_next_round : forall s, kept s (next_round s).
Proof.
  intros s. unfold next_round. cbv zeta.
  set (keep := nodup Nat.eq_dec _). clearbody keep.
  set (s1 := foldS (fun s i => set_ast i NOT_ADDED s) (seq 0 (nr s)) s).
  assert (E1 : kept s s1) by (apply kept_foldS; intros; apply kept_ast). clearbody s1.
  set (s2 := foldS (fun s i => set_ast i ADDED s) keep s1).
  assert (E2 : kept s s2).
  { eapply kept_trans; [exact E1|]. apply kept_foldS. intros; apply kept_ast. }
  clearbody s2. eapply kept_trans; [exact E2|]. constructor; auto.
Qed.

(** ** Deleting the fixed columns, whatever they are *)
Definition shifted (s s' : state) : Prop := forall i, (i < nr s)%nat -> t_inact (rt s i) = false -> tags_lr s i ->
  exists d, moved (lhs s i) (lhs s' i) d /\ moved (rhs s i) (rhs s' i) d.
Lemma dfc_tags : forall l s, (forall k, In k l -> srt (mAT s k)) ->
  let s' := foldS delete_fixed_col_from_problem l s in
  (exists L R A o, s' = set_off o (set_lhs L (set_rhs R (set_acts A s)))) /\ shifted s s'.
Proof.
  induction l as [|k l IH]; intros s S; cbv zeta; cbn [foldS].
  - split. { exists (lhs s), (rhs s), (acts s), (off s). destruct s; reflexivity. }
    intros i _ _ _. exists 0. split; apply moved_0; lra.
  - destruct (dfc_one s k (S k (or_introl eq_refl))) as [[L [R [A [o [E _]]]]] [_ Y]].
    change (foldS _ (k :: l) s) with (foldS delete_fixed_col_from_problem l (delete_fixed_col_from_problem s k)).
    set (s1 := delete_fixed_col_from_problem s k) in *.
    destruct (IH s1) as [[L' [R' [A' [o' E']]]] Y']; clear IH.
    { intros; rewrite E; sr; apply S; simpl; auto. }
    set (s2 := foldS delete_fixed_col_from_problem l s1) in *.
    assert (ER : rt s1 = rt s) by (rewrite E; reflexivity).
    assert (EN : nr s1 = nr s) by (rewrite E; reflexivity).
    split. { exists L', R', A', o'. rewrite E', E. reflexivity. }
    intros i Hi T TG. destruct (Y i T TG) as [B1 [B2 _]].
    destruct (Y' i) as [d [C1 C2]]; rewrite ?EN, ?ER; auto.
    { eapply tags_lr_moved; eauto. }
    eexists. split; eapply moved_trans; eauto.
Qed.

Lemma finish_Md : forall s, Inv s -> Md s -> w_sub s = [] \/ w_ston_rows s = [] -> Mid (finish s).
Proof.
  intros s H [G AE L] PRE.
  pose proof (finish_cols s H PRE) as FC. cbv zeta in FC. fold (finish s) in FC.
  destruct FC as [I' [M' [_ [_ [WF [WS AD]]]]]].
  destruct (dfc_tags (w_fixed s) s) as [[L0 [R [A [o E]]]] Y].
  { intros k Hk. apply (w_csrt s (inv_0 s H)). apply (l_fixed s (inv_L s H) k Hk). }
  fold (delete_fixed_cols_from_problem s) in E, Y.
  pose proof (delete_fixed_cols_same s) as SS.
  set (s1 := delete_fixed_cols_from_problem s) in *. unfold finish. fold s1.
  fold s1 in AD. unfold finish in AD, I', M', WF, WS. fold s1 in AD, I', M', WF, WS.
  set (s' := delete_inactive_cols_from_A_and_AT s1) in *.
  destruct (dic_frame _ _ AD) as [MT [r0 [c0 [M0 [st0 [n0 [wd [ws [we F]]]]]]]]].
  assert (ENR : nr s' = nr s) by (rewrite F, E; reflexivity).
  assert (ENC : nc s' = nc s) by (rewrite F, E; reflexivity).
  assert (ERT : rt s' = rt s) by (rewrite F, E; reflexivity).
  assert (ECT : ct s' = ct s) by (rewrite F, E; reflexivity).
  assert (ELB : lb s' = lb s) by (rewrite F, E; reflexivity).
  assert (EUB : ub s' = ub s) by (rewrite F, E; reflexivity).
  assert (EUP : ups s' = ups s) by (rewrite F, E; reflexivity).
  assert (EDN : dns s' = dns s) by (rewrite F, E; reflexivity).
  assert (EL : lhs s' = lhs s1) by (rewrite F; reflexivity).
  assert (ER : rhs s' = rhs s1) by (rewrite F; reflexivity).
  assert (SH : shifted s s').
  { intros i Hi T TG. rewrite EL, ER. apply Y; auto. }
  apply Md_Mid; [|exact WF].
  destruct G as [G1 G2 G3 G4 G5]. constructor.
  - assert (TT : forall i, (i < nr s)%nat -> t_inact (rt s i) = false -> tags_lr s i).
    { intros i Hi T. split; [apply G1|apply G2]; auto. }
    assert (TT' : forall i, (i < nr s)%nat -> t_inact (rt s i) = false -> tags_lr s' i).
    { intros i Hi T. destruct (SH i Hi T (TT i Hi T)) as [d [B1 B2]]. eapply tags_lr_moved; eauto. }
    constructor; rewrite ?ENR, ?ENC, ?ERT, ?ECT, ?ELB, ?EUB; auto.
    + intros i Hi T. destruct (TT' i Hi T) as [X _]. rewrite ERT in X. exact X.
    + intros i Hi T. destruct (TT' i Hi T) as [_ X]. rewrite ERT in X. exact X.
    + intros i Hi T TE. destruct (G3 i Hi T TE) as [p [q [EP [EQ PQ]]]].
      destruct (SH i Hi T (TT i Hi T)) as [d [B1 B2]]. rewrite EP in B1. rewrite EQ in B2. cbn [moved] in B1, B2.
      destruct B1 as [p' [-> B1]]. destruct B2 as [q' [-> B2]]. exists p', q'. repeat split; lra.
  - intros i Hi. rewrite ERT. destruct (dic_empty _ _ AD i Hi) as [X|X].
    + assert (WE : w_empty_rows s1 = w_empty_rows s) by (rewrite E; reflexivity). rewrite WE in X. auto.
    + rewrite E in X. exact X.
  - apply (LK_frame s); auto. intros k Hk T. rewrite ENC in Hk. rewrite ECT in T. rewrite EUP, EDN, ERT.
    split; [auto|]. split; [auto|]. split; [auto|]. split; [auto|]. split; [|auto].
    rewrite (dic_AT _ _ AD) by (rewrite (ss_nc _ _ SS); auto).
    rewrite (ss_ct _ _ k SS), T. rewrite (ss_AT _ _ SS). reflexivity.
Qed.

(** src/explorers/Primal_propagation.c:627-783 *)
Lemma propagate_Mid : forall b s, Inv s -> Mid s -> w_sub s = [] ->
  let '(s', st) := propagate_primal b s in st <> INFEASIBLE -> Mid s'.
Proof.
  intros b s H M WS. unfold propagate_primal.
  pose proof (prop_loop_spec b (length (w_acts s) + 2 * nr s) 0 s H) as X.
  pose proof (kept_loop b (length (w_acts s) + 2 * nr s) 0 s) as K.
  destruct (prop_loop b _ 0 s) as [s1 st]. cbn [fst] in K.
  destruct X as [P E]. { pose proof (lp_bound s). lia. }
  pose proof (kept_Md _ _ K (Mid_Md _ M)) as D1.
  destruct P as [S1 R1 U1 T1 _].
  destruct (N.eqb_spec st INFEASIBLE). { congruence. }
  pose proof (next_round_same s1) as SN. pose proof (kept_next_round s1) as KN. set (s2 := next_round s1) in *.
  pose proof (kept_Md _ _ KN D1) as D2.
  assert (I2 : Inv s2) by (eapply same_Inv; [exact SN|apply S1]).
  assert (M3 : Mid (finish s2)). { apply finish_Md; auto. left. rewrite (ss_w3 _ _ SN). congruence. }
  unfold finish in M3. set (s3 := delete_inactive_cols_from_A_and_AT _) in *.
  assert (I3 : Inv s3).
  { apply (finish_cols s2 I2). left. rewrite (ss_w3 _ _ SN). congruence. }
  pose proof (empty_rows_Mid s3 M3) as M4. pose proof (empty_rows_spec s3 I3) as X4.
  destruct (remove_empty_rows s3) as [s4 st4]. 
  destruct (N.eqb_spec st4 INFEASIBLE); [congruence|]. intros _. apply M4.
  destruct X4 as [_ [_ [_ [_ [_ [X4|[X4 _]]]]]]]; [contradiction|exact X4].
Qed.
