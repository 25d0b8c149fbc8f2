(** Replaying the log: the primal values. *)
From Coq Require Import NArith Lqa.
From Verif Require Import M_Num S_LP M_Settings M_Driver S_Driver M_State M_Act M_Core M_Simple
  M_StonCols M_Dton M_Parallel M_Propagate M_Init M_Post M_Run S_Run S_Struct S_Sem S_Log S_Kkt S_Prim
  L_State L_Struct L_Struct2 L_Struct3 L_Struct4 L_Struct5 L_Struct6 L_Struct11 L_Sem L_Sem2 L_Sem3 L_Sem4 L_Mid L_Mid2
  L_Post L_Post2 L_Post3 L_Kkt L_Kkt3.
Import M_Driver.
Notation bad := M_State.bad.
Open Scope Q_scope.

(** ** The primal values alone *)
Definition sol_of (x : nat -> Q) : solution := mkSol (fun k => Some (x k)) (fun _ => Some 0) (fun _ => Some 0) false.
Definition plain (r : reduction) : Prop :=
  match r with SUB_COL _ _ _ _ _ | PARALLEL_COL _ _ _ _ _ _ _ _ _ => False | _ => True end.
Definition xone (r : reduction) (x : nat -> Q) : nat -> Q :=
  match r with
  | FIXED_COL k v _ _ => upd x k v
  | FIXED_COL_INF pos k b rows => upd x k (fin (fst (fst (fold_left (inf_row pos k (sol_of x)) rows (b, 0, false)))))
  | _ => x
  end.
Fixpoint xrep (l : list reduction) (x : nat -> Q) : nat -> Q := match l with [] => x | r :: l' => xrep l' (xone r x) end.
Lemma xrep_app : forall l l' x, xrep (l ++ l') x = xrep l' (xrep l x).
Proof. induction l; intros; cbn; auto. Qed.
(** the recovered values are finite *)
Definition fine1 (r : reduction) (x : nat -> Q) : Prop :=
  match r with
  | FIXED_COL_INF pos k b rows => is_fin (fst (fst (fold_left (inf_row pos k (sol_of x)) rows (b, 0, false)))) = true
  | _ => True
  end.
Fixpoint xfine (l : list reduction) (x : nat -> Q) : Prop := match l with [] => True | r :: l' => fine1 r x /\ xfine l' (xone r x) end.
Lemma xfine_app : forall l l' x, xfine (l ++ l') x <-> xfine l x /\ xfine l' (xrep l x).
Proof. induction l; intros; cbn; [tauto|]. rewrite IHl. tauto. Qed.
Definition same_x (t : solution) (x : nat -> Q) : Prop := forall k, val (sx t k) = x k.
Lemma wsum_same : forall t x l, same_x t x -> M_Post.wsum (sx t) l = M_Post.wsum (sx (sol_of x)) l.
Proof. intros t x l H. induction l as [|[k a] l IH]; cbn [M_Post.wsum]; auto. rewrite IH, H. reflexivity. Qed.
Lemma upd_val : forall t x k v, same_x t x -> forall j, val (upd (sx t) k (Some v) j) = upd x k v j.
Proof. intros t x k v H j. unfold upd. destruct (Nat.eqb j k); auto. Qed.
Lemma inf_fold_same : forall pos k t x rows st, same_x t x ->
  fold_left (inf_row pos k t) rows st = fold_left (inf_row pos k (sol_of x)) rows st.
Proof.
  intros pos k t x rows. induction rows as [|[side r] rows IH]; intros [[e c] er] H; cbn [fold_left]; auto.
  rewrite IH by auto. f_equal. unfold inf_row. rewrite (wsum_same t x) by auto. reflexivity.
Qed.
Lemma added_rows_x : forall i col a t, sx (retrieve_added_rows i col a t) = sx t.
Proof.
  intros i col a t. unfold retrieve_added_rows.
  assert (X : forall l t0, sx (fold_left (fun s e => if Nat.eqb (fst e) i then s
      else put_y i (val (sy s i) - (snd e / a) * val (sy s (fst e))) (err_if (negb (known (sy s (fst e)))) s)) l t0) = sx t0).
  { induction l as [|e l IH]; intros t0; cbn [fold_left]; auto. rewrite IH. destruct (Nat.eqb _ _); reflexivity. }
  rewrite X. reflexivity.
Qed.
Lemma bound_change_x : forall i j r v o b t, sx (retrieve_bound_change i j r v o b t) = sx t.
Proof.
  intros i j r v o b t. unfold retrieve_bound_change. cbv zeta.
  destruct (_ && _); [reflexivity|]. destruct (negb _); [reflexivity|]. cbn [put_z sx].
  set (g := fun s e => _).
  assert (X : forall l t0, sx (fold_left g l t0) = sx t0).
  { induction l as [|e l IH]; intros t0; cbn [fold_left]; auto. rewrite IH. unfold g.
    destruct (Nat.eqb _ _); auto. destruct (negb _); reflexivity. }
  rewrite X. reflexivity.
Qed.
Lemma side_change_x : forall b i r v j q t, sx (retrieve_side_change b i r v j q t) = sx t.
Proof.
  intros b i r v j q t. unfold retrieve_side_change. cbv zeta. destruct (negb _); [reflexivity|].
  match goal with |- context [if ?c then _ else _] => destruct c end; reflexivity.
Qed.
Lemma one_same : forall r t x, plain r -> same_x t x -> same_x (retrieve_one r t) (xone r x).
Proof.
  intros r t x P H k. destruct r; cbn [retrieve_one xone]; try contradiction; try (rewrite side_change_x); try (apply H).
  - unfold retrieve_fix_col. cbn [put_z put_x err_if sx]. apply upd_val; auto.
  - unfold retrieve_fix_col_inf. rewrite (inf_fold_same _ _ t x) by auto.
    destruct (fold_left _ _ _) as [[e c] er]. cbn [put_z put_x err_if sx fst]. apply upd_val; auto.
  - rewrite added_rows_x. apply H.
Qed.
(** in a group only columns are fixed and bounds recovered *)
Lemma replay_same : forall l m t x, Forall plain l -> grouped m l -> forall i r, same_x t x -> same_x (replay (gr i r m) l t) (xrep l x).
Proof.
  induction l as [|e l IH]; intros m t x P G i r H; inversion P as [|? ? P1 P2]; subst.
  - cbn [xrep replay]. destruct m; cbn [gr]; exact H.
  - cbn [xrep]. destruct m as [|m].
    + cbn [gr replay].
      destruct e; cbn [grouped] in G; try (apply (IH O _ _ P2 G i r); apply (one_same _ t x P1 H)); try contradiction.
      destruct n as [|n].
      * apply (IH O t x P2 G i r H).
      * apply (IH (S n) t x P2 G i0 ents H).
    + cbn [gr replay]. destruct e; cbn [grouped] in G; try contradiction.
      * apply (IH (S m) _ _ P2 G i r). apply (one_same (FIXED_COL col val ck colview) t x I H).
      * assert (H' : same_x (retrieve_bound_change i j r implied other other_is_lower t) x) by (intros q; rewrite bound_change_x; apply H).
        destruct m as [|m]; [apply (IH O _ _ P2 G i r H')|apply (IH (S m) _ _ P2 G i r H')].
Qed.

(** ** Errors are not forgotten *)
Lemma keep_err : forall X (f : solution -> X -> solution) l t, (forall s e, s_err s = true -> s_err (f s e) = true) ->
  s_err t = true -> s_err (fold_left f l t) = true.
Proof. intros X f l. induction l; intros; cbn [fold_left]; auto. Qed.
Lemma err_or : forall b t, s_err t = true -> s_err (err_if b t) = true.
Proof. intros b t H. cbn [err_if s_err]. rewrite H. reflexivity. Qed.
Lemma bound_change_err : forall i j r v o b t, s_err t = true -> s_err (retrieve_bound_change i j r v o b t) = true.
Proof.
  intros i j r v o b t H. unfold retrieve_bound_change. cbv zeta.
  destruct (_ && _); [apply err_or; auto|]. destruct (negb _); [apply err_or; auto|]. cbn [put_z s_err].
  apply keep_err; [|apply err_or; auto]. intros s e E. destruct (Nat.eqb _ _); auto. destruct (negb _); auto.
Qed.
Lemma one_err : forall r t, s_err t = true -> s_err (retrieve_one r t) = true.
Proof.
  intros r t H.
  assert (SC : forall b i e v j q, s_err (retrieve_side_change b i e v j q t) = true).
  { intros b i e v j q. unfold retrieve_side_change. cbv zeta. destruct (negb _); [apply err_or; auto|].
    match goal with |- context [if ?c then _ else _] => destruct c end; apply err_or; auto. }
  destruct r; cbn [retrieve_one]; try apply SC; auto; try solve [apply err_or; auto].
  - unfold retrieve_fix_col_inf. destruct (fold_left _ _ _) as [[e c] er]. apply err_or; auto.
  - unfold retrieve_parallel_col. cbv zeta. match goal with |- context [let '(_, _) := ?c in _] => destruct c as [xj xk] end. cbn [put_z put_x err_if s_err]. rewrite H. reflexivity.
  - unfold retrieve_added_rows. apply keep_err; [|apply err_or; auto]. intros s e E. destruct (Nat.eqb _ _); auto. apply err_or; auto.
Qed.
Lemma replay_err : forall l g t, s_err t = true -> s_err (replay g l t) = true.
Proof.
  induction l as [|e l IH]; intros g t H; cbn [replay].
  - destruct g; auto using err_or.
  - destruct g as [[[i r] n]|].
    + destruct e; apply IH; auto using err_or, bound_change_err; apply err_or; auto.
    + destruct e; apply IH; auto; match goal with |- s_err (retrieve_one ?r _) = true => apply (one_err r); auto end.
Qed.
Lemma fine_same : forall l m t x, Forall plain l -> grouped m l -> forall i r, same_x t x -> s_err (replay (gr i r m) l t) = false -> xfine l x.
Proof.
  induction l as [|e l IH]; intros m t x P G i r H E; inversion P as [|? ? P1 P2]; subst; cbn [xfine]; auto.
  destruct m as [|m].
  - cbn [gr replay] in E.
    assert (Y : forall pos k b rows, e = FIXED_COL_INF pos k b rows -> fine1 e x).
    { intros pos k b rows ->. cbn [retrieve_one fine1] in *. unfold retrieve_fix_col_inf in E. rewrite (inf_fold_same _ _ t x) in E by auto.
      destruct (fold_left _ _ _) as [[q c] er] eqn:F. cbn [fst]. destruct (is_fin q) eqn:Q; auto. cbn [negb] in E.
      rewrite replay_err in E; [discriminate|]. cbn [put_z put_x err_if s_err]. rewrite !orb_true_r. reflexivity. }
    split; [destruct e; try exact I; eauto|]. clear Y.
    destruct e; cbn [grouped] in G; try contradiction; try (apply (IH O _ _ P2 G i r (one_same _ t x P1 H) E)).
    destruct n as [|n].
    + apply (IH O t x P2 G i r H E).
    + apply (IH (S n) t x P2 G i0 ents H E).
  - cbn [gr replay] in E. destruct e; cbn [grouped] in G; try contradiction.
    + split; [exact I|]. apply (IH (S m) _ _ P2 G i r (one_same (FIXED_COL col val ck colview) t x I H) E).
    + split; [exact I|]. assert (H' : same_x (retrieve_bound_change i j r implied other other_is_lower t) x) by (intros q; rewrite bound_change_x; apply H).
      destruct m as [|m]; [apply (IH O _ _ P2 G i r H' E)|apply (IH (S m) _ _ P2 G i r H' E)].
Qed.

Section Prim.
Variable rtol : nat -> Q.
Variable ctol : Q.
Hypothesis ctol1 : FEAS_TOL <= ctol.

Definition xv (s : state) (x : nat -> Q) (k : nat) : Q := if t_fixed (ct s k) then fin (ub s k) else x k.
Record PS (s : state) (x : nat -> Q) : Prop := {
  ps_row : forall i, (i < nr s)%nat -> t_inact (rt s i) = false ->
    within (rtol i) (lhs s i) (dot (mA s i) (xv s x)) (rhs s i);
  ps_col : forall k, (k < nc s)%nat -> t_cinact (ct s k) = false -> within ctol (lb s k) (x k) (ub s k) }.
(** rows only lose entries *)
Definition sub (s s' : state) : Prop := nr s' = nr s /\ forall i, (i < nr s)%nat -> t_inact (rt s' i) = false ->
  t_inact (rt s i) = false /\ norm1 (mA s' i) <= norm1 (mA s i).
Definition cover (s : state) : Prop := forall i, (i < nr s)%nat -> t_inact (rt s i) = false ->
  FEAS_TOL + (ctol + FEAS_TOL) * norm1 (mA s i) <= rtol i.
Lemma norm1_pos : forall r, 0 <= norm1 r.
Proof. induction r as [|[k a] r IH]; cbn [norm1]; [lra|]. pose proof (Qabs_nonneg a). lra. Qed.
Lemma norm1_filter : forall p r, norm1 (filter p r) <= norm1 r.
Proof.
  intros p. induction r as [|[k a] r IH]; cbn [filter norm1]; [lra|]. pose proof (Qabs_nonneg a).
  destruct (p (k, a)); cbn [norm1]; lra.
Qed.
Lemma sub_refl : forall s, sub s s.
Proof. split; auto. intros i _ T. split; auto. lra. Qed.
Lemma sub_trans : forall a b c, sub a b -> sub b c -> sub a c.
Proof.
  intros a b c [N1 H1] [N2 H2]. split; [congruence|]. intros i Hi T.
  destruct (H2 i ltac:(rewrite N1; auto) T) as [T1 I1]. destruct (H1 i Hi T1). split; auto. lra.
Qed.
Lemma tol_pos' : 0 <= ctol + FEAS_TOL.
Proof. unfold FEAS_TOL in *. lra. Qed.
Lemma sub_cover : forall s s', sub s s' -> cover s -> cover s'.
Proof.
  intros s s' [N H] C i Hi T. rewrite N in Hi. destruct (H i Hi T) as [T1 L]. specialize (C i Hi T1).
  assert (X : (ctol + FEAS_TOL) * norm1 (mA s' i) <= (ctol + FEAS_TOL) * norm1 (mA s i)).
  { rewrite !(Qmult_comm (ctol + FEAS_TOL)). apply Qmult_le_compat_r; auto. apply tol_pos'. }
  lra.
Qed.
Lemma sub_same : forall s s', nr s' = nr s -> (forall i, t_inact (rt s' i) = false -> mA s' i = mA s i) ->
  (forall i, t_inact (rt s i) = true -> t_inact (rt s' i) = true) -> sub s s'.
Proof.
  intros s s' A B C. split; auto. intros i Hi T. rewrite B by auto. split; [|lra].
  destruct (t_inact (rt s i)) eqn:E; auto. rewrite C in T; auto.
Qed.
(** bounds cross by less than the tolerance *)
Definition NB (s : state) : Prop := forall k, (k < nc s)%nat -> t_cinact (ct s k) = false ->
  is_fin (lb s k) = true -> is_fin (ub s k) = true -> fin (lb s k) <= fin (ub s k) + FEAS_TOL.
Definition PB (s s' : state) : Prop := sub s s' /\ (NB s -> NB s') /\
  exists new, log s' = new ++ log s /\ Forall plain new /\
  forall x, cover s -> NB s -> neighbours_known (log s') -> xfine new x -> PS s' x -> PS s (xrep new x).

Lemma known_app : forall l l', neighbours_known (l ++ l') -> neighbours_known l'.
Proof.
  intros l l' K later pos k b rows earlier E. apply (K (l ++ later) pos k b rows earlier). rewrite E, app_assoc. reflexivity.
Qed.
Lemma PB_refl : forall s, PB s s.
Proof. intros s. split; [apply sub_refl|]. split; [auto|]. exists []. split; [reflexivity|]. split; [constructor|]. auto. Qed.
Lemma PB_trans : forall a b c, PB a b -> PB b c -> PB a c.
Proof.
  intros a b c [B1 [N1 [n1 [L1 [F1 K1]]]]] [B2 [N2 [n2 [L2 [F2 K2]]]]]. split; [eapply sub_trans; eauto|]. split; [auto|].
  exists (n2 ++ n1). split; [rewrite L2, L1, app_assoc; reflexivity|]. split; [apply Forall_app; auto|].
  intros x CV NA KN XF P. apply xfine_app in XF. destruct XF. rewrite xrep_app. apply K1; auto; [|apply K2; auto; eapply sub_cover; eauto].
  rewrite L2 in KN. eapply known_app; eauto.
Qed.
Lemma PB_silent : forall s s', sub s s' -> (NB s -> NB s') -> log s' = log s -> (forall x, cover s -> NB s -> PS s' x -> PS s x) -> PB s s'.
Proof. intros s s' B N L C. split; auto. split; auto. exists []. split; [auto|]. split; [constructor|]. intros; cbn; auto. Qed.
Lemma PB_one : forall s s' r, sub s s' -> (NB s -> NB s') -> log s' = r :: log s -> plain r ->
  (forall x, cover s -> NB s -> neighbours_known (log s') -> fine1 r x -> PS s' x -> PS s (xone r x)) -> PB s s'.
Proof. intros s s' r B N L P C. split; auto. split; auto. exists [r]. split; [auto|]. split; [constructor; auto|]. intros x ? ? ? XF ?. cbn in *. apply C; tauto. Qed.

(** ** Silent steps *)
Record still (s s' : state) : Prop := {
  sl_nr : nr s' = nr s;  sl_nc : nc s' = nc s;
  sl_rt : forall i, (i < nr s)%nat -> t_inact (rt s i) = false -> t_inact (rt s' i) = false;
  sl_ct : forall k, (k < nc s)%nat -> t_cinact (ct s k) = false -> t_cinact (ct s' k) = false;
  sl_bnd : forall k, (k < nc s)%nat -> t_cinact (ct s k) = false -> lb s' k = lb s k /\ ub s' k = ub s k;
  sl_fx : forall i k a, (i < nr s)%nat -> t_inact (rt s i) = false -> In (k, a) (mA s i) ->
    t_fixed (ct s' k) = t_fixed (ct s k) /\ (t_fixed (ct s k) = true -> ub s' k = ub s k);
  sl_row : forall i, (i < nr s)%nat -> t_inact (rt s i) = false -> mA s' i = mA s i /\ lhs s' i = lhs s i /\ rhs s' i = rhs s i }.
Lemma still_PS : forall s s' x, still s s' -> PS s' x -> PS s x.
Proof.
  intros s s' x [A B C D E F G] [R K]. constructor.
  - intros i Hi Ti. specialize (R i ltac:(rewrite A; auto) (C i Hi Ti)). destruct (G i Hi Ti) as (G1 & G2 & G3).
    rewrite G1, G2, G3 in R. eapply within_ext; [|exact R].
    apply dot_ext. intros k a Hk. unfold xv. destruct (F i k a Hi Ti Hk) as [F1 F2]. rewrite F1.
    destruct (t_fixed (ct s k)); [rewrite F2 by auto|]; lra.
  - intros k Hk Tk. specialize (K k ltac:(rewrite B; auto) (D k Hk Tk)). destruct (E k Hk Tk) as [-> ->] in K. auto.
Qed.
Lemma NB_same : forall s s', nc s' = nc s -> (forall k, t_cinact (ct s' k) = false -> t_cinact (ct s k) = false /\ lb s' k = lb s k /\ ub s' k = ub s k) ->
  NB s -> NB s'.
Proof. intros s s' E H N k Hk T. destruct (H k T) as (A & -> & ->). apply N; auto. congruence. Qed.
Lemma still_PB : forall s s', sub s s' -> (NB s -> NB s') -> log s' = log s -> still s s' -> PB s s'.
Proof. intros s s' B N L S. apply PB_silent; auto. intros x _ _. apply still_PS; auto. Qed.
Lemma still_same : forall s s', nr s' = nr s -> nc s' = nc s -> rt s' = rt s -> ct s' = ct s -> lb s' = lb s -> ub s' = ub s ->
  mA s' = mA s -> lhs s' = lhs s -> rhs s' = rhs s -> log s' = log s -> PB s s'.
Proof.
  intros s s' A B C D E F G H I J. apply still_PB; auto.
  - apply sub_same; auto; intros; congruence.
  - apply NB_same; auto. intros k. rewrite D, E, F. auto.
  - constructor; auto; rewrite ?C, ?D, ?E, ?F, ?G, ?H, ?I; auto.
Qed.
Lemma dir_PB : forall s, Inv s -> PB s (delete_inactive_rows s).
Proof.
  intros s H. destruct (delete_inactive_rows_Inv s H) as [_ AD].
  destruct (dir_sem s H) as (_ & _ & _ & _ & (E1 & E2 & _ & E3 & E4 & _ & E5 & E6 & E7 & E8 & _) & M & _).
  pose proof (dir_frame _ _ AD) as (? & ? & ? & ? & ? & ? & ? & ? & ? & F).
  assert (EL : log (delete_inactive_rows s) = log s) by (rewrite F; reflexivity). clear F.
  apply still_PB; auto.
  - split; auto. intros i Hi T. rewrite E4 in T. rewrite M by auto. split; auto. lra.
  - apply NB_same; auto. intros k. rewrite E1, E2, E3. auto.
  - constructor; auto; rewrite ?E3, ?E4, ?E1, ?E2, ?E5, ?E6; auto.
Qed.
Lemma finish_PB : forall s, Inv s -> tags_right s -> pend_ok s -> w_sub s = [] -> PB s (finish s).
Proof.
  intros s H TG PO WS. pose proof (or_introl WS : w_sub s = [] \/ w_ston_rows s = []) as PRE.
  destruct (finish_sem s H TG PO PRE) as (_ & _ & _ & (E1 & E2 & _ & E3 & E4 & _ & _ & E5 & E6) & M & _).
  apply PB_silent; [| |apply finish_log; auto|].
  { split; auto. intros i Hi T. rewrite E4 in T. rewrite (proj1 (M i Hi T)). split; auto. apply norm1_filter. }
  { apply NB_same; auto. intros k. rewrite E1, E2, E3. auto. }
  set (s' := finish s) in *. clearbody s'. intros t _ _ [R K]. constructor.
  - intros i Hi Ti. specialize (R i ltac:(rewrite E5; auto) ltac:(rewrite E4; auto)).
    destruct (M i Hi Ti) as [M1 [M2 [M3 _]]]. rewrite M1 in R.
    assert (PN : pinned s (xv s t)).
    { split; [|rewrite WS; intros k []]. intros k Hk. unfold xv.
      destruct (l_fixed s (inv_L s H) k Hk) as [_ ->]. lra. }
    pose proof (filter_cinact_part s i (xv s t) H Hi Ti PN) as X.
    assert (Y : dot (filter (fun e => negb (t_cinact (ct s (fst e)))) (mA s i)) (xv s' t) ==
                dot (filter (fun e => negb (t_cinact (ct s (fst e)))) (mA s i)) (xv s t)).
    { apply dot_ext. intros k a _. unfold xv. rewrite E3, E2. lra. }
    rewrite <- Y in X. set (d := part _ _ _) in *. clearbody d.
    eapply within_ext; [symmetry; exact X|]. eapply within_moved; [exact M2|exact M3|exact R].
  - intros k Hk Tk. specialize (K k ltac:(rewrite E6; auto) ltac:(rewrite E3; auto)). rewrite E1, E2 in K. auto.
Qed.

(** ** A row removed *)
Lemma row_PB : forall s s' i v, nr s' = nr s -> nc s' = nc s -> mA s' = mA s -> ct s' = ct s -> lb s' = lb s ->
  ub s' = ub s -> lhs s' = lhs s -> rhs s' = rhs s -> (forall j, j <> i -> rt s' j = rt s j) -> t_inact (rt s' i) = true ->
  log s' = DELETED_ROW i v :: log s ->
  (forall x, cover s -> NB s -> (forall k, (k < nc s)%nat -> t_cinact (ct s k) = false -> within ctol (lb s k) (x k) (ub s k)) ->
    t_inact (rt s i) = false -> within (rtol i) (lhs s i) (dot (mA s i) (xv s x)) (rhs s i)) -> PB s s'.
Proof.
  intros s s' i v A1 A2 A3 A4 A5 A6 A7 A8 R RI L J. eapply PB_one; [| |exact L|exact I|].
  - apply sub_same; auto; [intros; congruence|]. intros j T. destruct (Nat.eq_dec j i) as [->|N]; auto. rewrite R; auto.
  - apply NB_same; auto. intros k. rewrite A4, A5, A6. auto.
  - intros x CV N _ _ [CR CC]. cbn [xone]. rewrite A2, A4, A5, A6 in CC. constructor; [|exact CC].
    intros j Hj T. destruct (Nat.eq_dec j i) as [->|NE]; [apply J; auto|].
    specialize (CR j ltac:(rewrite A1; auto) ltac:(rewrite R; auto)). rewrite A3, A7, A8 in CR.
    eapply within_ext; [|exact CR]. apply dot_ext. intros k a _. unfold xv. rewrite A4, A6. lra.
Qed.

(** ** A column fixed *)
Lemma fixing_PB : forall s s' k v ck col, fixing s s' k v -> rt s' = rt s -> log s' = FIXED_COL k v ck col :: log s ->
  t_cinact (ct s' k) = true ->
  (NB s -> t_cinact (ct s k) = false -> within ctol (lb s k) v (ub s k)) -> PB s s'.
Proof.
  intros s s' k v ck col F R L TK W. pose proof F as [A1 A2 A3 A4 A5 A7]. eapply PB_one; [| |exact L|exact I|].
  - split; auto. intros i Hi T. rewrite R in T. destruct (A4 i Hi T) as (-> & _). split; auto. lra.
  - apply NB_same; auto. intros j T. destruct (Nat.eq_dec j k) as [->|N]; [congruence|]. destruct (A5 j N) as (E1 & E2 & E3). rewrite <- E1. auto.
  - intros x CV N _ _ [CR CC]. cbn [xone]. constructor.
    + intros i Hi T. specialize (CR i ltac:(rewrite A1; auto) (A3 i Hi T)). destruct (A4 i Hi T) as (B1 & B2 & B3).
      rewrite B1, B2, B3 in CR. eapply within_ext; [|exact CR]. apply dot_ext. intros j a Hj. unfold xv.
      destruct (Nat.eq_dec j k) as [->|NE].
      * rewrite upd_same. destruct (A7 i a Hi T Hj) as (-> & -> & E). exact E.
      * rewrite upd_other by auto. destruct (A5 j NE) as (-> & _ & ->). lra.
    + intros j Hj T. destruct (Nat.eq_dec j k) as [->|NE]; [rewrite upd_same; auto|].
      rewrite upd_other by auto. destruct (A5 j NE) as (B1 & B2 & B3).
      specialize (CC j ltac:(rewrite A2; auto) ltac:(rewrite B1; auto)). rewrite B2, B3 in CC. exact CC.
Qed.
Lemma within_tol : forall l v u, (is_fin l = true -> fin l - FEAS_TOL <= v) -> (is_fin u = true -> v <= fin u + FEAS_TOL) ->
  (l = NInf \/ is_fin l = true) -> (u = PInf \/ is_fin u = true) -> within ctol l v u.
Proof.
  intros l v u A B C D. split.
  - destruct C as [->|C]; [exact I|]. apply ext_le_fin; auto. specialize (A C). lra.
  - destruct D as [->|D]; [exact I|]. apply le_ext_fin; auto. specialize (B D). lra.
Qed.
Lemma lb_side : forall s k, tags_right s -> (k < nc s)%nat -> t_cinact (ct s k) = false ->
  if t_lb_inf (ct s k) then lb s k = NInf else is_fin (lb s k) = true.
Proof. intros s k T Hk TK. apply (tr_lb s T k Hk TK). Qed.
Lemma ub_side : forall s k, tags_right s -> (k < nc s)%nat -> t_cinact (ct s k) = false ->
  if t_ub_inf (ct s k) then ub s k = PInf else is_fin (ub s k) = true.
Proof. intros s k T Hk TK. apply (tr_ub s T k Hk TK). Qed.
Lemma fix_col_PB : forall s k v ck, tags_right s -> (k < nc s)%nat -> t_cinact (ct s k) = false -> PB s (fst (fix_col k v ck s)).
Proof.
  intros s k v ck TG Hk T.
  assert (TF : t_fixed (ct s k) = false) by (apply orb_false_iff in T; tauto).
  pose proof (lb_side s k TG Hk T) as SL. pose proof (ub_side s k TG Hk T) as SU.
  pose proof (fix_col_fixing s k v ck TF) as X. cbv zeta in X.
  pose proof (fix_col_cases s k v ck) as C. destruct (fix_col k v ck s) as [s1 st]. cbn [fst] in *.
  destruct C as [[_ [-> _]]|[_ [C1 [C2 [A [W E]]]]]]; [apply PB_refl|].
  destruct X as [->|[F [R L]]]; [apply PB_refl|]. eapply fixing_PB; eauto.
  - rewrite E. unfold set_col_to_fixed. sr. rewrite upd_same. reflexivity.
  - intros _ _. destruct (t_lb_inf (ct s k)), (t_ub_inf (ct s k)); apply within_tol; auto; intros HF;
      try (rewrite SL in HF; discriminate); try (rewrite SU in HF; discriminate);
      try (specialize (C1 eq_refl); lra); specialize (C2 eq_refl); lra.
Qed.
End Prim.
