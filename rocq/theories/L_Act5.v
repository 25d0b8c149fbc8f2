(** Bound propagation: what it does to the problem and to the activities. *)
From Coq Require Import NArith Lqa.
From Verif Require Import M_Num S_LP M_Settings M_Driver S_Driver M_State M_Act M_Core M_Simple
  M_StonCols M_Dton M_Parallel M_Propagate M_Init M_Post M_Run S_Run S_Struct S_Sem S_Sem2 S_Sem3
  L_State L_Struct L_Struct2 L_Struct3 L_Struct4 L_Struct5 L_Struct6 L_Struct7 L_Struct8 L_Struct9 L_Struct10 L_Struct11
  L_Sem L_Sem2 L_Sem3 L_Sem4 L_Mid L_Mid2 L_Mid3 L_Mid4 L_Mid5 L_Act L_Act2 L_Act3 L_Act4.
Open Scope Q_scope.

Definition near (s : state) (l : list (nat * Q)) : Prop :=
  forall l1 k v l2, l = l1 ++ (k, v) :: l2 -> forall x, sat zero zero s x -> fixed_at l1 x ->
  forall i a, In (i, a) (mAT s k) -> ABSq (x k - v) * ABSq a <= FEAS_TOL.
Record fmono (s t : state) : Prop := {
  fm_lb : forall k, is_fin (lb s k) = true -> is_fin (lb t k) = true;
  fm_ub : forall k, is_fin (ub s k) = true -> is_fin (ub t k) = true }.
Lemma fmono_refl : forall s, fmono s s. Proof. constructor; auto. Qed.
Lemma fmono_trans : forall a b c, fmono a b -> fmono b c -> fmono a c.
Proof. intros a b c [] []. constructor; auto. Qed.

Section Prop_.
Variables (R : Q -> Q -> Prop) (b : bool) (c : nat -> Q) (s : state).
Hypotheses (G : good R) (RL : forall v w, R v w -> v <= w) (HI : Inv s) (WR : w_rows s = []) (WS : w_sub s = []).

(** Between the start [s] of the propagation and [t], the columns in [l] have been fixed. *)
Record PI (l : list (nat * Q)) (t : state) : Prop := {
  pi_prs : prs s t;  pi_kept : kept s t;  pi_mid : Mid t;  pi_av : AV R t;  pi_A : mA t = mA s;
  pi_fwd : forall x, sat zero zero s x -> fixed_at l x -> sat zero zero t x;
  pi_bwd : forall r x, sat r c t x -> sat r c s x;
  pi_obj : forall x, obj t x == obj s x;
  pi_near : near s l;
  pi_in : forall k v, In (k, v) l -> (k < nc s)%nat /\ t_cinact (ct s k) = false /\ t_fixed (ct t k) = true /\ ub t k = Fin v;
  pi_ord : forall k, (k < nc s)%nat -> t_cinact (ct t k) = false -> 0 <= c k /\ (FEAS_TOL <= c k \/
     (is_fin (lb t k) = true -> is_fin (ub t k) = true -> fin (lb t k) <= fin (ub t k))) }.
Lemma pi_inv : forall l t, PI l t -> Inv t.
Proof. intros l t P. apply (prs_inv s t). apply P. Qed.
Lemma pi_sub : forall l t, PI l t -> w_sub t = [].
Proof. intros l t P. rewrite (pr_sub _ _ (pi_prs _ _ P)). auto. Qed.
Lemma pi_rows : forall l t, PI l t -> w_rows t = [].
Proof. intros l t P. rewrite (pr_rows _ _ (pi_prs _ _ P)). auto. Qed.
Lemma pi_nc : forall l t, PI l t -> nc t = nc s.
Proof. intros l t P. apply (kp_nc _ _ (pi_kept _ _ P)). Qed.
Lemma pi_nr : forall l t, PI l t -> nr t = nr s.
Proof. intros l t P. apply (kp_nr _ _ (pi_kept _ _ P)). Qed.

(** No feasible point has these values. *)
Definition empty (l : list (nat * Q)) : Prop := forall x, sat zero zero s x -> fixed_at l x -> False.
Lemma empty_more : forall l l', empty l -> empty (l ++ l').
Proof. intros l l' E x S F. apply (E x S). intros k v Hin. apply F. apply in_or_app; auto. Qed.

Definition outcome (l : list (nat * Q)) (t : state) (r : state * status) : Prop :=
  let '(t', st) := r in
  (st = INFEASIBLE \/ st = REDUCED \/ st = UNCHANGED) /\
  exists l', PI (l ++ l') t' /\ fmono t t' /\ (st = INFEASIBLE -> empty (l ++ l')).
Lemma PI_same : forall l t t', PI l t -> prs t t' -> kept t t' -> mid_same t t' -> AV R t' ->
  mA t' = mA t -> cst t' = cst t -> off t' = off t -> csz t' = csz t -> lb t' = lb t -> ub t' = ub t ->
  ct t' = ct t -> w_fixed t' = w_fixed t -> PI l t'.
Proof.
  intros l t t' P S K M A EA EC EO EZ EL EU ET EF. destruct P.
  assert (EW := pr_sub _ _ S).
  assert (SAT : forall r c x, sat r c t' x <-> sat r c t x).
  { intros. unfold sat, pinned. rewrite EA, EL, EU, ET, EF, EW, (kp_nr _ _ K), (kp_nc _ _ K), (kp_rt _ _ K), (kp_lhs _ _ K), (kp_rhs _ _ K). tauto. }
  constructor; auto.
  - eapply prs_trans; eauto.
  - eapply kept_trans; eauto.
  - eapply mid_same_Mid; eauto.
  - congruence.
  - intros x Sx F. apply SAT. auto.
  - intros r x Sx. apply SAT in Sx. auto.
  - intros x. rewrite <- pi_obj0. unfold obj, live_cols. rewrite EO, EC, EZ, (kp_nc _ _ K). lra.
  - rewrite ET, EU. auto.
  - rewrite ET, EL, EU. auto.
Qed.
Lemma PI_record : forall l t r, PI l t -> PI l (record r t).
Proof.
  intros l t r P. apply (PI_same l t); auto.
  - apply prs_record. eapply pi_inv; eauto.
  - apply kept_record.
  - mid_ref.
  - eapply AV_refl_same; [exact G|apply (pi_av _ _ P)|..]; reflexivity.
Qed.
Lemma PI_ast : forall l t i a, PI l t -> (apot a <= apot (a_st (acts t i)))%nat -> PI l (set_ast i a t).
Proof.
  intros l t i a P L. apply (PI_same l t); auto.
  - apply prs_set_ast; auto. eapply pi_inv; eauto.
  - apply kept_ast.
  - unfold set_ast. mid_ref.
  - eapply AV_same; [exact G|apply (pi_av _ _ P)|..]; try reflexivity; auto.
    intros j. unfold set_ast. sr. updg; [|apply anum_refl]. repeat split.
Qed.

Lemma max_abs_fold : forall (r : row) m, m <= fold_left (fun m e => MAXq m (ABSq (snd e))) r m /\
  forall k a, In (k, a) r -> ABSq a <= fold_left (fun m e => MAXq m (ABSq (snd e))) r m.
Proof.
  induction r as [|[j a] r IH]; simpl; intros m; [split; [lra|tauto]|].
  destruct (IH (MAXq m (ABSq a))) as [A B].
  assert (M1 : m <= MAXq m (ABSq a)). { unfold MAXq. destruct (Qgtb m (ABSq a)) eqn:E; qb; lra. }
  assert (M2 : ABSq a <= MAXq m (ABSq a)). { unfold MAXq. destruct (Qgtb m (ABSq a)) eqn:E; qb; lra. }
  split; [lra|]. intros k c0 [E|Hin]; [injection E as -> ->; lra|eauto].
Qed.
Lemma abs_le_max : forall r k a, In (k, a) r -> ABSq a <= get_max_abs r.
Proof. intros. apply (max_abs_fold r 0) with (k := k). auto. Qed.
Lemma abs_nonneg : forall a, 0 <= ABSq a.
Proof. intros. unfold ABSq. destruct (Qltb a 0) eqn:E; qb; lra. Qed.
Lemma near_bound : forall r k a d m, In (k, a) r -> 0 <= d -> d <= m -> m * get_max_abs r <= FEAS_TOL ->
  d * ABSq a <= FEAS_TOL.
Proof.
  intros r k a d m Hin D L M. pose proof (abs_le_max r k a Hin) as X. pose proof (abs_nonneg a) as Y.
  set (g := get_max_abs r) in *. clearbody g. set (z := ABSq a) in *. clearbody z.
  assert (0 <= (m - d) * g) by (apply Qmult_le_0_compat; lra).
  assert (0 <= d * (g - z)) by (apply Qmult_le_0_compat; lra). lra.
Qed.
Lemma abs_pos : forall v w, w <= v -> ABSq (v - w) == v - w.
Proof. intros. unfold ABSq. destruct (Qltb (v - w) 0) eqn:E; qb; lra. Qed.
Lemma abs_neg : forall v w, v <= w -> ABSq (v - w) == w - v.
Proof. intros. unfold ABSq. destruct (Qltb (v - w) 0) eqn:E; qb; lra. Qed.

(** Fixing an active column at a value all remaining points are close to *)
Lemma PI_fix : forall l t k v rc, PI l t -> (k < nc s)%nat -> t_cinact (ct t k) = false ->
  (t_ub_inf (ct t k) = false -> v < fin (ub t k) + FEAS_TOL) ->
  (t_lb_inf (ct t k) = false -> fin (lb t k) - FEAS_TOL < v) ->
  (t_lb_inf (ct t k) = false /\ v == fin (lb t k) \/ t_ub_inf (ct t k) = false /\ v == fin (ub t k)) ->
  (forall x, sat zero zero t x -> forall i a, In (i, a) (mAT t k) -> ABSq (x k - v) * ABSq a <= FEAS_TOL) ->
  outcome l t (fst (fix_col k v (cst t k) (record rc t)), REDUCED).
Proof.
  intros l t k v rc P Hk TK UB LB AT NF.
  pose proof (PI_record l t rc P) as P1. set (t1 := record rc t) in *.
  assert (Hk1 : (k < nc t1)%nat) by (rewrite (pi_nc _ _ P1); auto).
  pose proof (pi_inv _ _ P1) as I1. pose proof (pi_mid _ _ P1) as M1. destruct (M1) as [TG PO AE LKt].
  assert (TK1 : t_cinact (ct t1 k) = false) by exact TK.
  split; auto. exists [(k, v)].
  pose proof (fix_col_cases t1 k v (cst t k)) as FC.
  pose proof (prs_fix_col t1 k v (cst t k) I1 Hk1) as PF. pose proof (kept_fix k v (cst t k) t1) as KF.
  pose proof (fix_col_Mid t1 k v (cst t k) I1 M1 Hk1 TK1) as MF.
  pose proof (fix_col_AV R t1 k v (cst t k) G I1 TG (pi_av _ _ P1) Hk1 TK1) as AF.
  destruct (fix_col k v (cst t k) t1) as [t2 st] eqn:EF. cbn [fst] in *.
  destruct FC as [[_ [_ [[X1 X2]|[X1 X2]]]]|[ES [UB1 [LB1 [A [W E2]]]]]].
  { exfalso. change (ct t1 k) with (ct t k) in X1. change (ub t1 k) with (ub t k) in X2. specialize (UB X1). lra. }
  { exfalso. change (ct t1 k) with (ct t k) in X1. change (lb t1 k) with (lb t k) in X2. specialize (LB X1). lra. }
  subst st.
  assert (TL := lb_is t k (md_tags _ (pi_mid _ _ P)) Hk1 TK). assert (TU := ub_is t k (md_tags _ (pi_mid _ _ P)) Hk1 TK).
  assert (SS : forall r, semstep (fun x => x k == v) r c t1 t2).
  { intros r. eapply fix_col_sem; eauto. destruct (pi_ord _ _ P k Hk TK) as [C0 [C1|C1]]; auto.
    right. split; auto. change (lb t1 k) with (lb t k). change (ub t1 k) with (ub t k).
    destruct AT as [[X E]|[X E]]; rewrite X in *; cbn [negb] in *; symmetry in TL, TU.
    - split; [apply ext_le_fin; auto; lra|]. destruct (t_ub_inf (ct t k)) eqn:XU.
      + pose proof (tr_ub _ (md_tags _ (pi_mid _ _ P)) k Hk1 TK) as Y. rewrite XU in Y. rewrite Y. exact I.
      + cbn [negb] in TU. apply le_ext_fin; auto. specialize (C1 TL TU). lra.
    - split; [|apply le_ext_fin; auto; lra]. destruct (t_lb_inf (ct t k)) eqn:XL.
      + pose proof (tr_lb _ (md_tags _ (pi_mid _ _ P)) k Hk1 TK) as Y. rewrite XL in Y. rewrite Y. exact I.
      + cbn [negb] in TL. apply ext_le_fin; auto. specialize (C1 TL TU). lra. }
  assert (ECT : ct t2 = upd (ct t) k (tag_fixed (ct t k))) by (rewrite E2; reflexivity).
  assert (ELB : lb t2 = upd (lb t) k (Fin v)) by (rewrite E2; reflexivity).
  assert (EUB : ub t2 = upd (ub t) k (Fin v)) by (rewrite E2; reflexivity).
  split; [|split].
  - constructor; auto.
    + eapply prs_trans; [apply P1|exact PF].
    + eapply kept_trans; [apply P1|exact KF].
    + rewrite E2. apply (pi_A _ _ P).
    + intros x Sx F. apply (se_fwd _ _ _ _ _ (SS zero)).
      * apply F. apply in_or_app. right. left. reflexivity.
      * apply (pi_fwd _ _ P1); auto. intros j w Hj. apply F. apply in_or_app; auto.
    + intros r x Sx. apply (pi_bwd _ _ P1). apply (se_bwd _ _ _ _ _ (SS r)). auto.
    + intros x. rewrite <- (pi_obj _ _ P1). apply (se_obj _ _ _ _ _ (SS zero)).
    + intros l1 j w l2 E x Sx F. destruct (list_eq_dec (fun p q => Nat.eq_dec p q) (map fst l2) []) as [D|D].
      * assert (D' : l2 = []) by (destruct l2; auto; discriminate). subst l2.
        apply app_inj_tail in E. destruct E as [<- E]. injection E as <- <-.
        intros i a Hin. apply (NF x) with (i := i).
        -- apply (pi_fwd _ _ P); auto.
        -- rewrite (kp_AT _ _ (pi_kept _ _ P)). exact Hin.
      * destruct (exists_last (l := l2)) as [l3 [e E3]]; [intros ->; apply D; reflexivity|]. subst l2.
        assert (E' : l ++ [(k, v)] = (l1 ++ (j, w) :: l3) ++ [e]) by (rewrite E, <- app_assoc; reflexivity).
        apply app_inj_tail in E'. destruct E' as [E' _]. eapply (pi_near _ _ P); eauto.
    + intros j w Hj. rewrite ECT, EUB. apply in_app_or in Hj. destruct Hj as [Hj|[Hj|[]]].
      * destruct (pi_in _ _ P j w Hj) as (B1 & B2 & B3 & B4). assert (N : j <> k).
        { intros ->. unfold t_cinact in TK. rewrite B3 in TK. discriminate. }
        rewrite !upd_other by auto. auto.
      * injection Hj as <- <-. rewrite !upd_same. split; [auto|]. split; [apply (kp_ct _ _ (pi_kept _ _ P)); auto|]. auto.
    + intros j Hj. rewrite ECT, ELB, EUB. updg; [discriminate|]. intros TJ. apply (pi_ord _ _ P); auto.
  - constructor; intros j; rewrite ?ELB, ?EUB; updg; auto.
  - discriminate.
Qed.

(** A new upper bound *)
Lemma margin_up : forall v, v <= (if IS_INTEGRAL v then v else v + BOUND_MARGINAL * ABSq v).
Proof.
  intros v. destruct (IS_INTEGRAL v); [lra|]. pose proof (abs_nonneg v). unfold BOUND_MARGINAL.
  assert (0 <= (1 # 2000000) * ABSq v) by (apply Qmult_le_0_compat; lra). lra.
Qed.
Lemma margin_dn : forall v, (if IS_INTEGRAL v then v else v - BOUND_MARGINAL * ABSq v) <= v.
Proof.
  intros v. destruct (IS_INTEGRAL v); [lra|]. pose proof (abs_nonneg v). unfold BOUND_MARGINAL.
  assert (0 <= (1 # 2000000) * ABSq v) by (apply Qmult_le_0_compat; lra). lra.
Qed.
(** The margin does not undo a tightening that was worth it. *)
Lemma margin_ok : forall v o, (1 # 100) * ABSq o < o - v ->
  (if IS_INTEGRAL v then v else v + BOUND_MARGINAL * ABSq v) <= o.
Proof.
  intros v o L. unfold BOUND_MARGINAL, ABSq in *. destruct (IS_INTEGRAL v).
  - destruct (Qltb o 0) eqn:E; qb; lra.
  - destruct (Qltb o 0) eqn:E; destruct (Qltb v 0) eqn:E'; qb; lra.
Qed.
Lemma margin_ok' : forall v o, (1 # 100) * ABSq o < v - o ->
  o <= (if IS_INTEGRAL v then v else v - BOUND_MARGINAL * ABSq v).
Proof.
  intros v o L. unfold BOUND_MARGINAL, ABSq in *. destruct (IS_INTEGRAL v).
  - destruct (Qltb o 0) eqn:E; qb; lra.
  - destruct (Qltb o 0) eqn:E; destruct (Qltb v 0) eqn:E'; qb; lra.
Qed.

Definition ubn (k : nat) (v : Q) (t t' : state) : Prop := exists A W rc,
  t' = record rc (set_w_acts W (set_acts A (set_ub1 k (Fin v) (set_ct1 k (untag_ub_inf (ct t k)) t)))).
Definition lbn (k : nat) (v : Q) (t t' : state) : Prop := exists A W rc,
  t' = record rc (set_w_acts W (set_acts A (set_lb1 k (Fin v) (set_ct1 k (untag_lb_inf (ct t k)) t)))).

Lemma PI_ub : forall l t k v t', PI l t -> (k < nc s)%nat -> t_cinact (ct t k) = false ->
  ubn k v t t' -> prs t t' -> kept t t' -> AV R t' ->
  (t_ub_inf (ct t k) = false -> v <= fin (ub t k)) ->
  (t_lb_inf (ct t k) = false -> fin (lb t k) <= v) ->
  (forall x, sat zero zero t x -> x k <= v) -> outcome l t (t', REDUCED).
Proof.
  intros l t k v t' P Hk TK [A [W [rc E]]] PR KP AVt UB LB NF.
  split; auto. exists []. rewrite app_nil_r.
  assert (Hk1 : (k < nc t)%nat) by (rewrite (pi_nc _ _ P); auto).
  assert (CE : forall j, t_cinact (ct t' j) = t_cinact (ct t j)). { intros j. rewrite E. sr. updg; auto. }
  pose proof (pi_mid _ _ P) as [TG PO AE LKt].
  assert (M1 : Mid t').
  { destruct (kept_Md _ _ KP (Mid_Md _ (pi_mid _ _ P))) as [Y1 Y2 Y3]. constructor; auto.
    destruct PO as [P1 P2]. subst t'. constructor; sr; auto. intros j Hj. updg; apply P2; auto. }
  assert (NW : ~ In k (w_fixed t)).
  { intros X. destruct (l_fixed t (inv_L t (pi_inv _ _ P)) k X) as [_ F]. unfold t_cinact in TK. rewrite F in TK. discriminate. }
  split; [|split; [|discriminate]].
  - constructor; auto.
    + eapply prs_trans; [apply P|auto].
    + eapply kept_trans; [apply P|auto].
    + rewrite E. apply (pi_A _ _ P).
    + intros x Sx F. pose proof (pi_fwd _ _ P x Sx F) as Sy. pose proof (NF x Sy) as XK.
      destruct Sy as [S1 [S2 [S3 S4]]].
      split; [|split; [|split]]; try (subst t'; sr; auto; fail).
      * intros j Hj. rewrite CE. intros T. assert (Hj' : (j < nc t)%nat) by (rewrite E in Hj; exact Hj).
        specialize (S2 j Hj' T). rewrite E. sr. updg; [|exact S2]. destruct S2 as [S2 _]. split; auto.
        simpl. unfold exactly. lra.
      * intros j Hj. rewrite E in *. sra. rewrite upd_other by congruence. auto.
    + intros r x Sx. apply (pi_bwd _ _ P). destruct Sx as [S1 [S2 [S3 S4]]].
      split; [|split; [|split]]; try (rewrite E in *; sra; auto; fail).
      * intros j Hj T. assert (Hj' : (j < nc t')%nat) by (rewrite E; exact Hj).
        specialize (S2 j Hj'). rewrite CE in S2. specialize (S2 T). rewrite E in S2. sr in S2. updh S2; [|exact S2].
        destruct S2 as [L U]. split; [exact L|]. simpl in U.
        pose proof (tr_ub t TG k Hk1 TK) as U0. destruct (t_ub_inf (ct t k)); [rewrite U0; exact I|].
        apply le_ext_fin; auto. specialize (UB eq_refl). lra.
      * intros j Hj. specialize (S3 j). rewrite E in S3. sr in S3. rewrite upd_other in S3 by congruence. auto.
    + intros x. rewrite <- (pi_obj _ _ P). subst t'. unfold obj, live_cols. sr. lra.
    + apply (pi_near _ _ P).
    + intros j w Hj. destruct (pi_in _ _ P j w Hj) as (B1 & B2 & B3 & B4). assert (N : j <> k).
      { intros ->. unfold t_cinact in TK. rewrite B3 in TK. discriminate. }
      rewrite E. sr. rewrite !upd_other by auto. auto.
    + intros j Hj. rewrite CE. intros T. destruct (pi_ord _ _ P j Hj T) as [C0 [C1|C1]]; [auto|].
      split; auto. right. rewrite E. sr. updg; [|exact C1]. intros F _. simpl.
      apply LB. pose proof (lb_is t k TG Hk1 TK) as X. rewrite F in X. apply negb_true_iff in X. exact X.
  - subst t'. constructor; intros j; sr; auto. updg; auto.
Qed.
Lemma PI_lb : forall l t k v t', PI l t -> (k < nc s)%nat -> t_cinact (ct t k) = false ->
  lbn k v t t' -> prs t t' -> kept t t' -> AV R t' ->
  (t_lb_inf (ct t k) = false -> fin (lb t k) <= v) ->
  (t_ub_inf (ct t k) = false -> v <= fin (ub t k)) ->
  (forall x, sat zero zero t x -> v <= x k) -> outcome l t (t', REDUCED).
Proof.
  intros l t k v t' P Hk TK [A [W [rc E]]] PR KP AVt LB UB NF.
  split; auto. exists []. rewrite app_nil_r.
  assert (Hk1 : (k < nc t)%nat) by (rewrite (pi_nc _ _ P); auto).
  assert (CE : forall j, t_cinact (ct t' j) = t_cinact (ct t j)). { intros j. rewrite E. sr. updg; auto. }
  pose proof (pi_mid _ _ P) as [TG PO AE LKt].
  assert (M1 : Mid t').
  { destruct (kept_Md _ _ KP (Mid_Md _ (pi_mid _ _ P))) as [Y1 Y2 Y3]. constructor; auto.
    destruct PO as [P1 P2]. subst t'. constructor; sr; auto. intros j Hj. updg; apply P2; auto. }
  split; [|split; [|discriminate]].
  - constructor; auto.
    + eapply prs_trans; [apply P|auto].
    + eapply kept_trans; [apply P|auto].
    + rewrite E. apply (pi_A _ _ P).
    + intros x Sx F. pose proof (pi_fwd _ _ P x Sx F) as Sy. pose proof (NF x Sy) as XK.
      destruct Sy as [S1 [S2 [S3 S4]]].
      split; [|split; [|split]]; try (subst t'; sr; auto; fail).
      * intros j Hj. rewrite CE. intros T. assert (Hj' : (j < nc t)%nat) by (rewrite E in Hj; exact Hj).
        specialize (S2 j Hj' T). rewrite E. sr. updg; [|exact S2]. destruct S2 as [_ S2]. split; auto.
        simpl. unfold exactly. lra.
    + intros r x Sx. apply (pi_bwd _ _ P). destruct Sx as [S1 [S2 [S3 S4]]].
      split; [|split; [|split]]; try (rewrite E in *; sra; auto; fail).
      * intros j Hj T. assert (Hj' : (j < nc t')%nat) by (rewrite E; exact Hj).
        specialize (S2 j Hj'). rewrite CE in S2. specialize (S2 T). rewrite E in S2. sr in S2. updh S2; [|exact S2].
        destruct S2 as [L U]. split; [|exact U]. simpl in L.
        pose proof (tr_lb t TG k Hk1 TK) as U0. destruct (t_lb_inf (ct t k)); [rewrite U0; exact I|].
        apply ext_le_fin; auto. specialize (LB eq_refl). lra.
    + intros x. rewrite <- (pi_obj _ _ P). subst t'. unfold obj, live_cols. sr. lra.
    + apply (pi_near _ _ P).
    + intros j w Hj. destruct (pi_in _ _ P j w Hj) as (B1 & B2 & B3 & B4). assert (N : j <> k).
      { intros ->. unfold t_cinact in TK. rewrite B3 in TK. discriminate. }
      rewrite E. sr. rewrite !upd_other by auto. auto.
    + intros j Hj. rewrite CE. intros T. destruct (pi_ord _ _ P j Hj T) as [C0 [C1|C1]]; [auto|].
      split; auto. right. rewrite E. sr. updg; [|exact C1]. intros _ F. simpl.
      apply UB. pose proof (ub_is t k TG Hk1 TK) as X. rewrite F in X. apply negb_true_iff in X. exact X.
  - subst t'. constructor; intros j; sr; auto. updg; auto.
Qed.

(** One implied bound *)
Lemma PI_refl_out : forall l t, PI l t -> outcome l t (t, UNCHANGED).
Proof.
  intros l t P. split; auto. exists []. rewrite app_nil_r. split; auto. split; [apply fmono_refl|discriminate].
Qed.
Lemma ub_prop_PI : forall l t k v, PI l t -> (k < nc s)%nat -> t_cinact (ct t k) = false ->
  (t_ub_inf (ct t k) = false -> v < fin (ub t k)) ->
  (forall x, sat zero zero t x -> x k <= v) -> outcome l t (update_ub_prop b k v t).
Proof.
  intros l t k v P Hk TK UB NF.
  assert (Hk1 : (k < nc t)%nat) by (rewrite (pi_nc _ _ P); auto).
  pose proof (pi_mid _ _ P) as [TG PO AE LKt].
  pose proof (prs_ub_prop b k v t (pi_inv _ _ P) Hk1) as PR. pose proof (kept_ub_prop b k v t) as KP.
  pose proof (lb_is t k TG Hk1 TK) as FL. pose proof (ub_is t k TG Hk1 TK) as FU.
  assert (LBX : t_lb_inf (ct t k) = false -> forall x, sat zero zero t x -> fin (lb t k) <= x k).
  { intros X x Sx. destruct Sx as [_ [S2 _]]. destruct (S2 k Hk1 TK) as [L _]. rewrite X in FL. cbn [negb] in FL.
    apply ext_le_fin in L; auto. unfold exactly in L. lra. }
  unfold update_ub_prop in *. cbv zeta in *.
  destruct (negb (t_lb_inf (ct t k)) && Qleb v (fin (lb t k) - FEAS_TOL)) eqn:C1.
  { apply andb_true_iff in C1. destruct C1 as [C1 C2]. apply negb_true_iff in C1. qb.
    split; auto. exists []. rewrite app_nil_r. split; auto. split; [apply fmono_refl|].
    intros _ x Sx F. pose proof (pi_fwd _ _ P x Sx F) as Sy.
    pose proof (NF x Sy). pose proof (LBX C1 x Sy). pose proof tol_pos. lra. }
  assert (C1' : t_lb_inf (ct t k) = false -> fin (lb t k) - FEAS_TOL < v).
  { intros X. rewrite X in C1. cbn [negb andb] in C1. qb. auto. }
  clear C1.
  destruct (negb (t_lb_inf (ct t k)) && (Qleb v (fin (lb t k)) || Qleb ((v - fin (lb t k)) * get_max_abs (mAT t k)) FEAS_TOL)) eqn:C2.
  { apply andb_true_iff in C2. destruct C2 as [C2 C3]. apply negb_true_iff in C2. specialize (C1' C2).
    apply PI_fix; auto.
    - intros X. specialize (UB X). lra.
    - intros _. pose proof tol_pos. lra.
    - left. split; auto. lra.
    - intros x Sx i a Hin. pose proof (NF x Sx) as X1. pose proof (LBX C2 x Sx) as X2.
      rewrite (abs_pos _ _ X2). apply orb_true_iff in C3. destruct C3 as [C3|C3]; qb.
      + assert (X3 : x k - fin (lb t k) == 0) by lra. rewrite X3. pose proof tol_pos. lra.
      + eapply near_bound; [exact Hin| | |exact C3]; lra. }
  assert (C2' : t_lb_inf (ct t k) = false -> fin (lb t k) < v).
  { intros X. rewrite X in C2. cbn [negb andb] in C2. apply orb_false_iff in C2. destruct C2 as [C2 _]. qb. auto. }
  clear C2.
  match type of PR with context [if ?c then _ else _] => destruct c eqn:C3 end; [|apply PI_refl_out; auto].
  cbn [fst] in PR, KP.
  set (w := if IS_INTEGRAL v then v else v + BOUND_MARGINAL * ABSq v) in *.
  apply (PI_ub l t k w); auto.
  - destruct (acts_only_bound_change (mAT (set_ub1 k (Fin w) (set_ct1 k (untag_ub_inf (ct t k)) t)) k) (ub t k) w (negb (t_ub_inf (ct t k))) false
       (set_ub1 k (Fin w) (set_ct1 k (untag_ub_inf (ct t k)) t))) as [A [W EQ]].
    rewrite EQ. exists A, W, (BOUND_CHANGE_NO_ROW k w (lb t k) true). reflexivity.
  - rewrite FU.
    set (t0 := set_ct1 k (untag_ub_inf (ct t k)) t).
    assert (I0 : Inv t0).
    { eapply same_Inv; [|apply (pi_inv _ _ P)]. constructor; unfold t0; sr; auto; intros j; updg; auto. }
    assert (A0 : AV R t0).
    { eapply AV_refl_same; [exact G|apply (pi_av _ _ P)|..]; reflexivity. }
    assert (T0 : t_cinact (ct t0 k) = false) by (unfold t0; sr; rewrite upd_same; exact TK).
    pose proof (bound_change_AV R true t0 k w (ub t0 k) G I0 A0 Hk1 T0 eq_refl) as X. cbn [negb with_bound] in X.
    eapply AV_refl_same; [exact G|exact X|..]; reflexivity.
  - intros X. rewrite X in C3. cbn [orb] in C3. apply andb_true_iff in C3. destruct C3 as [_ C3].
    apply andb_true_iff in C3. destruct C3 as [_ C3]. qb. apply margin_ok. auto.
  - intros X. specialize (C2' X). pose proof (margin_up v). unfold w. lra.
  - intros x Sx. pose proof (NF x Sx). pose proof (margin_up v). unfold w. lra.
Qed.
Lemma lb_prop_PI : forall l t k v, PI l t -> (k < nc s)%nat -> t_cinact (ct t k) = false ->
  (t_lb_inf (ct t k) = false -> fin (lb t k) < v) ->
  (forall x, sat zero zero t x -> v <= x k) -> outcome l t (update_lb_prop b k v t).
Proof.
  intros l t k v P Hk TK LB NF.
  assert (Hk1 : (k < nc t)%nat) by (rewrite (pi_nc _ _ P); auto).
  pose proof (pi_mid _ _ P) as [TG PO AE LKt].
  pose proof (prs_lb_prop b k v t (pi_inv _ _ P) Hk1) as PR. pose proof (kept_lb_prop b k v t) as KP.
  pose proof (lb_is t k TG Hk1 TK) as FL. pose proof (ub_is t k TG Hk1 TK) as FU.
  assert (UBX : t_ub_inf (ct t k) = false -> forall x, sat zero zero t x -> x k <= fin (ub t k)).
  { intros X x Sx. destruct Sx as [_ [S2 _]]. destruct (S2 k Hk1 TK) as [_ L]. rewrite X in FU. cbn [negb] in FU.
    apply le_ext_fin in L; auto. unfold exactly in L. lra. }
  unfold update_lb_prop in *. cbv zeta in *.
  destruct (negb (t_ub_inf (ct t k)) && Qgeb v (fin (ub t k) + FEAS_TOL)) eqn:C1.
  { apply andb_true_iff in C1. destruct C1 as [C1 C2]. apply negb_true_iff in C1. qb.
    split; auto. exists []. rewrite app_nil_r. split; auto. split; [apply fmono_refl|].
    intros _ x Sx F. pose proof (pi_fwd _ _ P x Sx F) as Sy.
    pose proof (NF x Sy). pose proof (UBX C1 x Sy). pose proof tol_pos. lra. }
  assert (C1' : t_ub_inf (ct t k) = false -> v < fin (ub t k) + FEAS_TOL).
  { intros X. rewrite X in C1. cbn [negb andb] in C1. qb. auto. }
  clear C1.
  destruct (negb (t_ub_inf (ct t k)) && (Qgeb v (fin (ub t k)) || Qleb ((fin (ub t k) - v) * get_max_abs (mAT t k)) FEAS_TOL)) eqn:C2.
  { apply andb_true_iff in C2. destruct C2 as [C2 C3]. apply negb_true_iff in C2. specialize (C1' C2).
    apply PI_fix; auto.
    - intros _. pose proof tol_pos. lra.
    - intros X. specialize (LB X). lra.
    - right. split; auto. lra.
    - intros x Sx i a Hin. pose proof (NF x Sx) as X1. pose proof (UBX C2 x Sx) as X2.
      rewrite (abs_neg _ _ X2). apply orb_true_iff in C3. destruct C3 as [C3|C3]; qb.
      + assert (X3 : fin (ub t k) - x k == 0) by lra. rewrite X3. pose proof tol_pos. lra.
      + eapply near_bound; [exact Hin| | |exact C3]; lra. }
  assert (C2' : t_ub_inf (ct t k) = false -> v < fin (ub t k)).
  { intros X. rewrite X in C2. cbn [negb andb] in C2. apply orb_false_iff in C2. destruct C2 as [C2 _]. qb. auto. }
  clear C2.
  match type of PR with context [if ?c then _ else _] => destruct c eqn:C3 end; [|apply PI_refl_out; auto].
  cbn [fst] in PR, KP.
  set (w := if IS_INTEGRAL v then v else v - BOUND_MARGINAL * ABSq v) in *.
  apply (PI_lb l t k w); auto.
  - destruct (acts_only_bound_change (mAT (set_lb1 k (Fin w) (set_ct1 k (untag_lb_inf (ct t k)) t)) k) (lb t k) w (negb (t_lb_inf (ct t k))) true
       (set_lb1 k (Fin w) (set_ct1 k (untag_lb_inf (ct t k)) t))) as [A [W EQ]].
    rewrite EQ. exists A, W, (BOUND_CHANGE_NO_ROW k w (ub t k) false). reflexivity.
  - rewrite FL.
    set (t0 := set_ct1 k (untag_lb_inf (ct t k)) t).
    assert (I0 : Inv t0).
    { eapply same_Inv; [|apply (pi_inv _ _ P)]. constructor; unfold t0; sr; auto; intros j; updg; auto. }
    assert (A0 : AV R t0).
    { eapply AV_refl_same; [exact G|apply (pi_av _ _ P)|..]; reflexivity. }
    assert (T0 : t_cinact (ct t0 k) = false) by (unfold t0; sr; rewrite upd_same; exact TK).
    pose proof (bound_change_AV R false t0 k w (lb t0 k) G I0 A0 Hk1 T0 eq_refl) as X. cbn [negb with_bound] in X.
    eapply AV_refl_same; [exact G|exact X|..]; reflexivity.
  - intros X. rewrite X in C3. cbn [orb] in C3. apply andb_true_iff in C3. destruct C3 as [_ C3].
    apply andb_true_iff in C3. destruct C3 as [_ C3]. qb. apply margin_ok'. auto.
  - intros X. specialize (C2' X). pose proof (margin_dn v). unfold w. lra.
  - intros x Sx. pose proof (NF x Sx). pose proof (margin_dn v). unfold w. lra.
Qed.
End Prop_.
