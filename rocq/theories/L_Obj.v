(** The objective value along the reductions and back through the log (C21). *)
From Coq Require Import NArith Lqa.
From Verif Require Import M_Num S_LP M_Settings M_Driver S_Driver M_State M_Act M_Core M_Simple
  M_StonCols M_Dton M_Parallel M_Propagate M_Init M_Post M_Run S_Run S_Struct S_Sem S_Sem4 S_Post
  L_State L_Struct L_Sem L_Ston L_Post2 L_Post5.
Import M_Driver.
Notation bad := M_State.bad.
Open Scope Q_scope.

(** ** What the log says about x *)
(** [x] before the record is undone, [x'] after *)
Definition same_but (k : nat) (x x' : nat -> Q) : Prop := forall j, j <> k -> x' j == x j.
Definition rep1 (r : reduction) (x x' : nat -> Q) : Prop :=
  match r with
  | FIXED_COL k v _ _ => x' k == v /\ same_but k x x'
  | SUB_COL k e b _ _ => x' k == (fin b - dot (others k e) x) / last_coeff k 0 e /\ same_but k x x'
  | FIXED_COL_INF _ k _ _ => same_but k x x'
  | PARALLEL_COL _ _ _ _ _ _ _ _ _ => True
  | _ => forall j, x' j == x j
  end.
Fixpoint rep (l : list reduction) (x x' : nat -> Q) : Prop :=
  match l with
  | [] => forall j, x' j == x j
  | r :: l' => exists x1, rep1 r x x1 /\ rep l' x1 x'
  end.
Lemma removed_app : forall a b, removed_cols (a ++ b) = removed_cols a ++ removed_cols b.
Proof. intros a b. unfold removed_cols. apply flat_map_app. Qed.

Section Obj.
Variable ob : (nat -> Q) -> Q.
(** Objective of a state in the middle of an explorer: the columns on the list of fixed columns
    are not in the offset yet *)
Definition aterm (s : state) (x : nat -> Q) (k : nat) : Q := if t_cinact (ct s k) then 0 else cst s k * x k.
Definition pobj (s : state) (x : nat -> Q) : Q :=
  off s + sumQ (seq 0 (nc s)) (aterm s x) + sumQ (w_fixed s) (fun k => cst s k * fin (ub s k)).
Definition Fresh (n : nat) (l : list nat) : Prop := NoDup l /\ forall k, In k l -> (k < n)%nat.
Definition JC (s : state) : Prop :=
  (forall k, (k < nc s)%nat -> t_cinact (ct s k) = true -> In k (removed_cols (log s))) /\
  (forall k, In k (w_fixed s) -> t_fixed (ct s k) = true) /\
  (forall k, In k (w_fixed s) -> (k < nc s)%nat) /\
  (forall x x', rep (log s) x x' -> ob x' == pobj s x).
Definition J (s : state) : Prop := Fresh (nc s) (removed_cols (log s)) -> JC s.

Lemma pobj_ext : forall s x y, (forall k, (k < nc s)%nat -> t_cinact (ct s k) = false -> x k == y k) -> pobj s x == pobj s y.
Proof.
  intros s x y H. unfold pobj. rewrite (sumQ_ext (seq 0 (nc s)) (aterm s x) (aterm s y)); [lra|].
  intros k Hk. apply in_seq in Hk. unfold aterm. destruct (t_cinact (ct s k)) eqn:E; [lra|]. rewrite (H k); auto; [lra|lia].
Qed.
(** Column [k] is taken out of the sum *)
Lemma asum_out : forall s s' x x' k, nc s' = nc s -> (k < nc s)%nat -> t_cinact (ct s k) = false -> t_cinact (ct s' k) = true ->
  (forall j, j <> k -> t_cinact (ct s' j) = t_cinact (ct s j)) ->
  (forall j, (j < nc s)%nat -> j <> k -> t_cinact (ct s j) = false -> cst s' j * x j == cst s j * x' j) ->
  sumQ (seq 0 (nc s)) (aterm s x') == cst s k * x' k + sumQ (seq 0 (nc s')) (aterm s' x).
Proof.
  intros s s' x x' k NC Hk Tk Tk' CT CO. rewrite NC.
  assert (G : forall L, NoDup L -> (forall j, In j L -> (j < nc s)%nat) ->
     sumQ L (aterm s x') == (if in_dec Nat.eq_dec k L then cst s k * x' k else 0) + sumQ L (aterm s' x)).
  { induction L as [|j L IH]; intros ND LT; cbn [sumQ].
    - destruct (in_dec Nat.eq_dec k []) as [[]|]; lra.
    - inversion ND; subst. rewrite (IH H2) by (intros; apply LT; right; auto).
      destruct (Nat.eq_dec j k) as [->|N].
      + destruct (in_dec Nat.eq_dec k (k :: L)) as [_|C]; [|exfalso; apply C; left; auto].
        destruct (in_dec Nat.eq_dec k L); [contradiction|]. unfold aterm at 1 3. rewrite Tk, Tk'. lra.
      + assert (E : aterm s x' j == aterm s' x j).
        { unfold aterm. rewrite CT by auto. destruct (t_cinact (ct s j)) eqn:TJ; [lra|].
          rewrite CO; auto; [lra|]. apply LT; left; auto. }
        rewrite E. destruct (in_dec Nat.eq_dec k (j :: L)) as [[C|C]|C]; [congruence| |];
        destruct (in_dec Nat.eq_dec k L); try contradiction; try lra. exfalso; apply C; right; auto. }
  rewrite G; [|apply seq_NoDup|intros j Hj; apply in_seq in Hj; lia].
  destruct (in_dec Nat.eq_dec k (seq 0 (nc s))) as [_|C]; [lra|]. exfalso. apply C. apply in_seq. lia.
Qed.

(** ** Records that do not touch x *)
Definition keepx (r : reduction) : bool :=
  match r with FIXED_COL _ _ _ _ | SUB_COL _ _ _ _ _ | FIXED_COL_INF _ _ _ _ | PARALLEL_COL _ _ _ _ _ _ _ _ _ => false | _ => true end.
Lemma keepx_removed : forall r l, keepx r = true -> removed_cols (r :: l) = removed_cols l.
Proof. intros [] l H; try discriminate; reflexivity. Qed.
Lemma keepx_rep1 : forall r x x', keepx r = true -> rep1 r x x' -> forall j, x' j == x j.
Proof. intros [] x x' H; try discriminate; exact (fun R => R). Qed.

(** Same objective side, the log longer by such records *)
Record jsame (s s' : state) : Prop := {
  js_nc : nc s' = nc s;  js_ct : forall k, t_cinact (ct s' k) = t_cinact (ct s k);
  js_fix : forall k, t_fixed (ct s k) = true -> t_fixed (ct s' k) = true;
  js_cst : cst s' = cst s;  js_off : off s' = off s;  js_wf : w_fixed s' = w_fixed s;
  js_ub : forall k, In k (w_fixed s) -> ub s' k = ub s k;
  js_log : exists new, log s' = new ++ log s /\ forallb keepx new = true }.
Lemma jsame_removed : forall new l, forallb keepx new = true -> removed_cols (new ++ l) = removed_cols l.
Proof.
  induction new as [|r new IH]; intros l H; auto. cbn [forallb] in H. apply andb_true_iff in H. destruct H as [H1 H2].
  cbn [app]. rewrite keepx_removed by auto. auto.
Qed.
Lemma rep_keep : forall new l x x', forallb keepx new = true -> rep (new ++ l) x x' ->
  exists x1, (forall j, x1 j == x j) /\ rep l x1 x'.
Proof.
  induction new as [|r new IH]; intros l x x' H R; cbn [app] in R; [exists x; split; [intros; lra|auto]|].
  cbn [forallb] in H. apply andb_true_iff in H. destruct H as [H1 H2]. destruct R as [x1 [R1 R]].
  destruct (IH l x1 x' H2 R) as [x2 [E R2]]. exists x2. split; auto. intros j. rewrite E. apply (keepx_rep1 r); auto.
Qed.
Lemma pobj_same : forall s s' x, nc s' = nc s -> (forall k, t_cinact (ct s' k) = t_cinact (ct s k)) -> cst s' = cst s ->
  off s' = off s -> w_fixed s' = w_fixed s -> (forall k, In k (w_fixed s) -> ub s' k = ub s k) -> pobj s' x == pobj s x.
Proof.
  intros s s' x A B C D E F. unfold pobj. rewrite A, C, D, E.
  rewrite (sumQ_ext (seq 0 (nc s)) (aterm s' x) (aterm s x)); [|intros k _; unfold aterm; rewrite B, C; lra].
  rewrite (sumQ_ext (w_fixed s) (fun k => cst s k * fin (ub s' k)) (fun k => cst s k * fin (ub s k))); [lra|].
  intros k Hk. rewrite (F k Hk). lra.
Qed.
Lemma jsame_J : forall s s', jsame s s' -> J s -> J s'.
Proof.
  intros s s' [A B C D E F G [new [L K]]] H FR. rewrite L, A, jsame_removed in FR by auto.
  destruct (H FR) as (I1 & I2 & I3 & I4). split; [|split; [|split]].
  - intros k Hk T. rewrite L, jsame_removed by auto. apply I1; [congruence|]. rewrite <- B. auto.
  - intros k Hk. rewrite F in Hk. auto.
  - intros k Hk. rewrite F in Hk. rewrite A. auto.
  - intros x x' R. rewrite L in R. destruct (rep_keep new (log s) x x' K R) as [x1 [EX R1]].
    rewrite (I4 x1 x' R1). rewrite (pobj_same s s') by auto. apply pobj_ext. intros; auto.
Qed.
Lemma jsame_eq : forall s s', nc s' = nc s -> ct s' = ct s -> cst s' = cst s -> off s' = off s -> w_fixed s' = w_fixed s ->
  ub s' = ub s -> log s' = log s -> J s -> J s'.
Proof.
  intros s s' A B C D E F G. apply jsame_J. constructor; auto; try (intros; congruence).
  exists []. rewrite G. auto.
Qed.
Lemma J_rec : forall r s, keepx r = true -> J s -> J (record r s).
Proof.
  intros r s K. apply jsame_J. constructor; auto. exists [r]. cbn [forallb]. rewrite K. split; reflexivity.
Qed.

(** ** A column leaves *)
Lemma fresh_active : forall s k, J s -> Fresh (nc s) (k :: removed_cols (log s)) ->
  JC s /\ (k < nc s)%nat /\ t_cinact (ct s k) = false /\ ~ In k (w_fixed s).
Proof.
  intros s k H [ND LT]. inversion ND as [|? ? NI ND']; subst.
  assert (JS : JC s) by (apply H; split; auto; intros; apply LT; right; auto).
  assert (Hk : (k < nc s)%nat) by (apply LT; left; auto).
  assert (T : t_cinact (ct s k) = false).
  { destruct (t_cinact (ct s k)) eqn:E; auto. exfalso. apply NI. apply (proj1 JS); auto. }
  split; [exact JS|]. split; [exact Hk|]. split; [exact T|]. intros C. apply (proj1 (proj2 JS)) in C. unfold t_cinact in T. rewrite C in T. discriminate.
Qed.
(** [k] is fixed at [v] and its cost goes to the list ([listed]) or to the offset *)
Lemma J_fix : forall s s' k v c col (listed : bool), nc s' = nc s ->
  (forall j, j <> k -> t_cinact (ct s' j) = t_cinact (ct s j) /\ t_fixed (ct s' j) = t_fixed (ct s j)) ->
  t_fixed (ct s' k) = true -> cst s' = cst s ->
  (forall j, j <> k -> ub s' j = ub s j) ->
  (if listed then off s' = off s /\ w_fixed s' = w_fixed s ++ [k] /\ ub s' k = Fin v
   else off s' == off s + cst s k * v /\ w_fixed s' = w_fixed s) ->
  log s' = FIXED_COL k v c col :: log s -> J s -> J s'.
Proof.
  intros s s' k v c col listed NC CT TK CO UB LI L H FR.
  rewrite NC, L in FR. change (removed_cols (_ :: log s)) with (k :: removed_cols (log s)) in FR.
  destruct (fresh_active s k H FR) as (JS & Hk & T & NW). pose proof JS as (I1 & I2 & I3 & I4).
  assert (TI : t_cinact (ct s' k) = true) by (unfold t_cinact; rewrite TK; auto).
  assert (IN : forall j, In j (w_fixed s') -> j = k \/ In j (w_fixed s)).
  { intros j Hj. destruct listed; destruct LI as [_ LI]; [destruct LI as [LI _]|]; rewrite LI in Hj; auto.
    apply in_app_iff in Hj. destruct Hj as [Hj|[Hj|[]]]; auto. }
  split; [|split; [|split]].
  - intros j Hj T'. rewrite L. change (removed_cols (_ :: log s)) with (k :: removed_cols (log s)).
    destruct (Nat.eq_dec j k) as [->|N]; [left; auto|right]. apply I1; [congruence|]. rewrite <- (proj1 (CT j N)). auto.
  - intros j Hj. destruct (Nat.eq_dec j k) as [->|N]; auto. rewrite (proj2 (CT j N)). apply I2. destruct (IN j Hj); congruence.
  - intros j Hj. rewrite NC. destruct (IN j Hj); [congruence|auto].
  - intros x x' R. rewrite L in R. destruct R as [x1 [[V S] R]]. rewrite (I4 x1 x' R). unfold pobj.
    rewrite (asum_out s s' x x1 k NC Hk T TI); [|intros j N; apply CT; auto|intros j Hj N Tj; rewrite CO, (S j N); lra].
    rewrite V.
    assert (WS : sumQ (w_fixed s) (fun j => cst s' j * fin (ub s' j)) == sumQ (w_fixed s) (fun j => cst s j * fin (ub s j))).
    { apply sumQ_ext. intros j Hj. rewrite CO, (UB j); [lra|]. intros ->. contradiction. }
    destruct listed.
    + destruct LI as (O & W & U). rewrite O, W. rewrite sumQ_app, WS. cbn [sumQ]. rewrite U, CO. cbn [fin]. lra.
    + destruct LI as (O & W). rewrite O, W, WS. lra.
Qed.
(** [k] leaves without a cost *)
Lemma J_free : forall s s' k p b rows pre, nc s' = nc s ->
  (forall j, j <> k -> t_cinact (ct s' j) = t_cinact (ct s j) /\ t_fixed (ct s' j) = t_fixed (ct s j)) ->
  t_cinact (ct s' k) = true -> cst s' = cst s -> cst s k == 0 ->
  (forall j, j <> k -> ub s' j = ub s j) -> off s' = off s -> w_fixed s' = w_fixed s ->
  forallb keepx pre = true -> log s' = pre ++ FIXED_COL_INF p k b rows :: log s -> J s -> J s'.
Proof.
  intros s s' k p b rows pre NC CT TI CO C0 UB O W KP L H FR.
  rewrite NC, L, jsame_removed in FR by auto. change (removed_cols (_ :: log s)) with (k :: removed_cols (log s)) in FR.
  destruct (fresh_active s k H FR) as (JS & Hk & T & NW). pose proof JS as (I1 & I2 & I3 & I4).
  split; [|split; [|split]].
  - intros j Hj T'. rewrite L, jsame_removed by auto. change (removed_cols (_ :: log s)) with (k :: removed_cols (log s)).
    destruct (Nat.eq_dec j k) as [->|N]; [left; auto|right]. apply I1; [congruence|]. rewrite <- (proj1 (CT j N)). auto.
  - intros j Hj. rewrite W in Hj. assert (N : j <> k) by (intros ->; contradiction). rewrite (proj2 (CT j N)). auto.
  - intros j Hj. rewrite W in Hj. rewrite NC. auto.
  - intros x x' R. rewrite L in R. destruct (rep_keep pre _ x x' KP R) as [x0 [E0 [x1 [S R1]]]].
    rewrite (I4 x1 x' R1). unfold pobj.
    rewrite (asum_out s s' x x1 k NC Hk T TI);
      [|intros j N; apply CT; auto|intros j Hj N Tj; rewrite CO, (S j N), (E0 j); lra].
    rewrite C0, O, W.
    assert (WS : sumQ (w_fixed s) (fun j => cst s' j * fin (ub s' j)) == sumQ (w_fixed s) (fun j => cst s j * fin (ub s j))).
    { apply sumQ_ext. intros j Hj. rewrite CO, (UB j); [lra|]. intros ->. contradiction. }
    rewrite WS. lra.
Qed.
(** [k] is replaced through a row *)
Lemma J_sub : forall s s' k a r b q c pre post, nc s' = nc s -> w_fixed s = [] -> w_fixed s' = [] ->
  (forall j, j <> k -> t_cinact (ct s' j) = t_cinact (ct s j)) -> t_cinact (ct s' k) = true ->
  srt r -> In (k, a) r -> ~ a == 0 ->
  (forall j e, In (j, e) r -> (j < nc s)%nat /\ t_cinact (ct s j) = false) ->
  (forall j, cst s' j == cst s j - cst s k / a * coeff r j) -> off s' == off s + fin b * (cst s k / a) ->
  forallb keepx pre = true -> forallb keepx post = true ->
  log s' = pre ++ SUB_COL k r b q c :: post ++ log s -> J s -> J s'.
Proof.
  intros s s' k a r b q c pre post NC W0 W1 CT TI SR Hin NZ OT CO O KP KQ L H FR.
  assert (RM : removed_cols (log s') = k :: removed_cols (log s)).
  { rewrite L, jsame_removed by auto. change (removed_cols (_ :: post ++ log s)) with (k :: removed_cols (post ++ log s)).
    rewrite jsame_removed; auto. }
  rewrite NC, RM in FR.
  destruct (fresh_active s k H FR) as (JS & Hk & T & NW). pose proof JS as (I1 & I2 & I3 & I4).
  split; [|split; [|split]].
  - intros j Hj T'. rewrite RM.
    destruct (Nat.eq_dec j k) as [->|N]; [left; auto|right]. apply I1; [congruence|]. rewrite <- (CT j N). auto.
  - intros j Hj. rewrite W1 in Hj. contradiction.
  - intros j Hj. rewrite W1 in Hj. contradiction.
  - intros x x' R. rewrite L in R. destruct (rep_keep pre _ x x' KP R) as [x0 [E0 [x1 [[V S] R1]]]].
    destruct (rep_keep post _ x1 x' KQ R1) as [x2 [E2 R2]].
    rewrite (I4 x2 x' R2). rewrite (pobj_ext s x2 x1) by auto. unfold pobj. rewrite W0, W1. cbn [sumQ].
    set (ra := cst s k / a) in *.
    set (s0 := set_cst (cst s) s').
    rewrite (asum_out s s0 x x1 k NC Hk T TI); [|auto|intros j Hj N Tj; cbn [cst s0]; rewrite (S j N), (E0 j); unfold s0; sr; lra].
    assert (SUM : sumQ (seq 0 (nc s')) (aterm s' x) == sumQ (seq 0 (nc s')) (aterm s0 x) - ra * dot (others k r) x).
    { assert (OC : forall j, coeff (others k r) j == if Nat.eqb j k then 0 else coeff r j).
      { intros j. clear. unfold others. induction r as [|[q c] r IH]; cbn [filter coeff fst].
        - destruct (Nat.eqb j k); lra.
        - destruct (Nat.eqb_spec q k); cbn [negb coeff]; rewrite IH; destruct (Nat.eqb_spec j k); destruct (Nat.eqb_spec q j);
          try (exfalso; congruence); lra. }
      rewrite <- (sum_coeff (others k r) (seq 0 (nc s')) x (seq_NoDup _ _)).
      - assert (G : forall M, (forall j, In j M -> (j < nc s')%nat) ->
          sumQ M (aterm s' x) == sumQ M (aterm s0 x) - ra * sumQ M (fun j => coeff (others k r) j * x j)).
        { induction M as [|j M IH]; intros LT; cbn [sumQ]; [lra|]. rewrite IH by (intros; apply LT; right; auto).
          assert (E : aterm s' x j == aterm s0 x j - ra * (coeff (others k r) j * x j)); [|lra].
          unfold aterm. change (ct s0) with (ct s'). change (cst s0) with (cst s). rewrite OC.
          destruct (Nat.eqb_spec j k) as [->|N]; [rewrite TI; lra|].
          destruct (t_cinact (ct s' j)) eqn:TJ; [|rewrite CO; lra].
          assert (Z : coeff r j == 0); [|rewrite Z; lra].
          rewrite CT in TJ by auto. clear - OT TJ. induction r as [|[p e] r IH]; cbn [coeff]; [lra|].
          rewrite IH by (intros; eapply OT; right; eauto).
          destruct (Nat.eqb_spec p j) as [->|]; [|lra]. exfalso. destruct (OT j e (or_introl eq_refl)). congruence. }
        apply G. intros j Hj. apply in_seq in Hj. lia.
      - intros j e Hj. apply filter_In in Hj. destruct Hj as [Hj _]. apply in_seq. rewrite NC. destruct (OT j e Hj). lia. }
    rewrite SUM, O. change (nc s0) with (nc s').
    assert (VK : x1 k == (fin b - dot (others k r) x) / a).
    { rewrite V. rewrite (last_coeff_is k r a 0 SR Hin).
      assert (D : dot (others k r) x0 == dot (others k r) x); [|rewrite D; lra].
      clear - E0. induction (others k r) as [|[p e] l IH]; cbn [dot]; [lra|]. rewrite IH, E0. lra. }
    assert (CK : cst s k * x1 k == ra * (fin b - dot (others k r) x)).
    { rewrite VK. unfold ra. field. auto. }
    rewrite CK. lra.
Qed.
End Obj.
