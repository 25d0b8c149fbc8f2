(** Replaying the log: what one record does to the dual equations. *)
From Coq Require Import NArith Lqa.
From Verif Require Import M_Num S_LP M_Settings M_Driver S_Driver M_State M_Act M_Core M_Simple
  M_StonCols M_Dton M_Parallel M_Propagate M_Init M_Post M_Log M_Run S_Run S_Struct S_Sem S_Log
  L_State L_Struct L_Struct2 L_Struct3 L_Struct4 L_Struct5 L_Struct6 L_Sem.
Import M_Driver.
Notation bad := M_State.bad.
Notation ysum := M_Post.wsum.
Open Scope Q_scope.

(** ** Sums *)
Lemma ysum_ext : forall f g l, (forall i a, In (i, a) l -> val (f i) == val (g i)) -> ysum f l == ysum g l.
Proof.
  induction l as [|[i a] l IH]; intros H; cbn [M_Post.wsum]; [lra|].
  rewrite IH by (intros; eapply H; right; eauto). rewrite (H i a) by (left; auto). lra.
Qed.
Lemma ysum_filter0 : forall f (p : nat -> bool) l, (forall i a, In (i, a) l -> p i = false -> val (f i) == 0) ->
  ysum f (filter (fun e => p (fst e)) l) == ysum f l.
Proof.
  induction l as [|[i a] l IH]; intros H; cbn [filter M_Post.wsum fst]; [lra|].
  assert (X := IH ltac:(intros; eapply H; [right|]; eauto)).
  destruct (p i) eqn:E; cbn [M_Post.wsum]; rewrite X; [lra|]. rewrite (H i a) by (auto; left; auto). lra.
Qed.
Lemma ysum_upd_out : forall f i v l, ~ has i l -> ysum (upd f i v) l == ysum f l.
Proof. intros f i v l N. apply ysum_ext. intros j a Hj. rewrite upd_other; [lra|]. intros ->. apply N. exists a; auto. Qed.
Lemma ysum_upd_in : forall f i v a l, srt l -> In (i, a) l ->
  ysum (upd f i (Some v)) l == ysum f l + a * (v - val (f i)).
Proof.
  induction l as [|[j c] l IH]; intros S Hin; [contradiction|].
  apply srt_inv in S. destruct S as [S L]. cbn [M_Post.wsum]. destruct Hin as [E|Hin].
  - injection E as -> ->. rewrite upd_same. cbn [val]. rewrite ysum_upd_out; [lra|].
    intros [b Hb]. apply L in Hb. simpl in Hb. lia.
  - rewrite IH by auto. rewrite upd_other; [lra|]. intros ->. apply L in Hin. simpl in Hin. lia.
Qed.

(** ** The dual equations of the active columns over the active rows *)
Definition acol (s : state) (k : nat) : row := filter (fun e => negb (t_inact (rt s (fst e)))) (mAT s k).
Section Backs.
(** [E0]: what the equations depend on; that all entries are assigned does not depend on it *)
Variable E0 : Prop.
Record St (s : state) (t : solution) : Prop := {
  st_x : forall k, (k < nc s)%nat -> t_cinact (ct s k) = false -> known (sx t k) = true;
  st_z : forall k, (k < nc s)%nat -> t_cinact (ct s k) = false -> known (sz t k) = true;
  st_y : forall i, (i < nr s)%nat -> t_inact (rt s i) = false -> known (sy t i) = true;
  st_eq : E0 -> forall k, (k < nc s)%nat -> t_cinact (ct s k) = false ->
          val (sz t k) == cst s k - ysum (sy t) (acol s k) }.

(** Records whose sides and bounds are finite. *)
Definition soft (r : reduction) : Prop :=
  match r with
  | SUB_COL _ _ b _ _ => is_fin b = true
  | FIXED_COL_INF pos _ b rows =>
      (is_fin b = true \/ rows <> [] /\ b = (if pos then NInf else PInf)) /\
      forall e, In e rows -> is_fin (fst e) = true
  | _ => True
  end.

(** Replaying what has been logged between [s] and [s']: the equations for [s'] give those for
    [s]; nothing is computed from an entry not yet assigned.  [g]: changes left in the group. *)
Definition gr (i : nat) (r : row) (n : nat) : option (nat * row * nat) :=
  match n with O => None | S _ => Some (i, r, n) end.
(** What is logged mentions rows and columns of the problem *)
Definition shp (s s' : state) (new : list reduction) : Prop :=
  nr s' = nr s /\ nc s' = nc s /\ Forall (in_range (nc s) (nr s)) new.
Definition Back (s s' : state) : Prop := exists new, log s' = new ++ log s /\
  (shp s s' new /\ forall l, grouped 0 l -> grouped 0 (new ++ l)) /\
  forall t, St s' t -> exists t', St s t' /\ (Forall soft new -> s_err t' = s_err t) /\
    forall rest, replay None (new ++ rest) t = replay None rest t'.
Definition BackG (i : nat) (r : row) (n : nat) (s s' : state) : Prop := exists new, log s' = new ++ log s /\
  (shp s s' new /\ forall m l, grouped m l -> grouped (n + m) (new ++ l)) /\
  forall t, St s' t -> exists t', St s t' /\ (Forall soft new -> s_err t' = s_err t) /\
    forall m rest, replay (gr i r (n + m)) (new ++ rest) t = replay (gr i r m) rest t'.

Lemma shp_refl : forall s, shp s s [].
Proof. intros s. repeat split; auto. Qed.
Lemma shp_trans : forall a b c n1 n2, shp a b n1 -> shp b c n2 -> shp a c (n2 ++ n1).
Proof.
  intros a b c n1 n2 (A1 & A2 & A3) (B1 & B2 & B3). split; [congruence|]. split; [congruence|].
  rewrite A1, A2 in B3. apply Forall_app. auto.
Qed.
Lemma Back_refl : forall s, Back s s.
Proof. intros s. exists []. split; [reflexivity|]. split; [split; [apply shp_refl|auto]|]. intros t H. exists t. auto. Qed.
Lemma Back_trans : forall a b c, Back a b -> Back b c -> Back a c.
Proof.
  intros a b c [n1 [L1 [[P1 G1] B1]]] [n2 [L2 [[P2 G2] B2]]]. exists (n2 ++ n1). split; [rewrite L2, L1, app_assoc; reflexivity|].
  split; [split; [eapply shp_trans; eauto|intros l Gl; rewrite <- app_assoc; auto]|].
  intros t H. destruct (B2 t H) as [t1 [H1 [E1 R1]]]. destruct (B1 t1 H1) as [t2 [H2 [E2 R2]]].
  exists t2. split; auto. split.
  - intros F. apply Forall_app in F. destruct F as [F2 F1]. rewrite E2, E1; auto.
  - intros rest. rewrite <- app_assoc, R1, R2. reflexivity.
Qed.
Lemma BackG_refl : forall i r s, BackG i r 0 s s.
Proof. intros i r s. exists []. split; [reflexivity|]. split; [split; [apply shp_refl|auto]|]. intros t H. exists t. auto. Qed.
Lemma BackG_trans : forall i r n m a b c, BackG i r n a b -> BackG i r m b c -> BackG i r (m + n) a c.
Proof.
  intros i r n m a b c [n1 [L1 [[P1 G1] B1]]] [n2 [L2 [[P2 G2] B2]]]. exists (n2 ++ n1). split; [rewrite L2, L1, app_assoc; reflexivity|].
  split; [split; [eapply shp_trans; eauto|intros p l Gl; rewrite <- app_assoc, <- Nat.add_assoc; auto]|].
  intros t H. destruct (B2 t H) as [t1 [H1 [E1 R1]]]. destruct (B1 t1 H1) as [t2 [H2 [E2 R2]]].
  exists t2. split; auto. split.
  - intros F. apply Forall_app in F. destruct F as [F2 F1]. rewrite E2, E1; auto.
  - intros p rest. rewrite <- Nat.add_assoc, <- app_assoc, R1, R2. reflexivity.
Qed.
(** The group closed by its record *)
Lemma BackG_close : forall i r n s s' s'', BackG i r (S n) s s' -> log s'' = BOUND_CHANGE_THE_ROW i r (S n) :: log s' ->
  nr s'' = nr s' -> nc s'' = nc s' -> (i < nr s)%nat -> below (nc s) r ->
  (forall t, St s'' t -> St s' t) -> Back s s''.
Proof.
  intros i r n s s' s'' [new [L [[P G] B]]] L2 W1 W2 W3 W4 W. exists (BOUND_CHANGE_THE_ROW i r (S n) :: new).
  split; [rewrite L2, L; reflexivity|].
  split. { destruct P as (P1 & P2 & P3). split; [split; [congruence|split; [congruence|constructor; auto; split; auto]]|].
    intros l Gl. specialize (G O l Gl). rewrite Nat.add_0_r in G. exact G. }
  intros t H. destruct (B t (W t H)) as [t' [H' [E R]]].
  exists t'. split; auto. split; [intros F; apply E; inversion F; auto|].
  intros rest. specialize (R O rest). rewrite Nat.add_0_r in R. cbn [gr] in R. rewrite <- R. reflexivity.
Qed.
Lemma BackG_0 : forall i r s s', BackG i r 0 s s' -> Back s s'.
Proof.
  intros i r s s' [new [L [[P G] B]]]. exists new. split; auto. split; [split; [auto|apply (G O)]|]. intros t H. destruct (B t H) as [t' [H' [E R]]].
  exists t'. split; auto. split; auto. intros rest. apply (R O rest).
Qed.

(** ** Steps that log nothing *)
Record quietly (s s' : state) : Prop := {
  ql_nr : nr s' = nr s;  ql_nc : nc s' = nc s;
  ql_ct : forall k, (k < nc s)%nat -> t_cinact (ct s k) = false -> t_cinact (ct s' k) = false;
  ql_rt : forall i, (i < nr s)%nat -> t_inact (rt s i) = false -> t_inact (rt s' i) = false;
  ql_cst : forall k, (k < nc s)%nat -> t_cinact (ct s k) = false -> cst s' k = cst s k;
  ql_col : forall k, (k < nc s)%nat -> t_cinact (ct s k) = false -> acol s' k = acol s k }.
Lemma quietly_St : forall s s' t, quietly s s' -> St s' t -> St s t.
Proof.
  intros s s' t Q [A B C D]. constructor.
  - intros k Hk T. apply A; [rewrite (ql_nc _ _ Q); auto|apply (ql_ct _ _ Q); auto].
  - intros k Hk T. apply B; [rewrite (ql_nc _ _ Q); auto|apply (ql_ct _ _ Q); auto].
  - intros i Hi T. apply C; [rewrite (ql_nr _ _ Q); auto|apply (ql_rt _ _ Q); auto].
  - intros e0 k Hk T. specialize (D e0). rewrite D; [|rewrite (ql_nc _ _ Q); auto|apply (ql_ct _ _ Q); auto].
    rewrite (ql_cst _ _ Q), (ql_col _ _ Q) by auto. lra.
Qed.
Lemma quietly_Back : forall s s', quietly s s' -> log s' = log s -> Back s s'.
Proof.
  intros s s' Q L. exists []. split; auto. split; [split; [split; [apply Q|split; [apply Q|constructor]]|auto]|]. intros t H. exists t. split; [eapply quietly_St; eauto|auto].
Qed.
Lemma quietly_BackG : forall i r s s', quietly s s' -> log s' = log s -> BackG i r 0 s s'.
Proof.
  intros i r s s' Q L. exists []. split; auto. split; [split; [split; [apply Q|split; [apply Q|constructor]]|auto]|]. intros t H. exists t. split; [eapply quietly_St; eauto|auto].
Qed.
Lemma quietly_same : forall s s', nr s' = nr s -> nc s' = nc s -> (forall k, t_cinact (ct s' k) = t_cinact (ct s k)) ->
  (forall i, t_inact (rt s' i) = t_inact (rt s i)) -> cst s' = cst s -> mAT s' = mAT s -> quietly s s'.
Proof.
  intros s s' A B C D E F. constructor; auto; intros.
  - rewrite C; auto.
  - rewrite D; auto.
  - rewrite E; auto.
  - unfold acol. rewrite F. apply filter_ext. intros e. rewrite D. reflexivity.
Qed.
Lemma quietly_ss : forall s s', same_struct s s' -> cst s' = cst s -> quietly s s'.
Proof.
  intros s s' S C. apply quietly_same; auto; try apply S. intros k. apply ss_ct; auto.
Qed.
Lemma quietly_refl : forall s, quietly s s.
Proof. intros; constructor; auto. Qed.
Lemma quietly_trans : forall a b c, quietly a b -> quietly b c -> quietly a c.
Proof.
  intros a b c [A1 A2 A3 A4 A5 A6] [B1 B2 B3 B4 B5 B6].
  constructor; try congruence; intros.
  - apply B3; [rewrite A2|apply A3]; auto.
  - apply B4; [rewrite A1|apply A4]; auto.
  - rewrite B5; [apply A5|rewrite A2|apply A3]; auto.
  - rewrite B6; [apply A6|rewrite A2|apply A3]; auto.
Qed.

(** ** A row removed with multiplier 0 *)
Lemma acol_kill : forall s s' i k, mAT s' k = mAT s k ->
  (forall j, t_inact (rt s' j) = (Nat.eqb j i || t_inact (rt s j))%bool) ->
  acol s' k = filter (fun e => negb (Nat.eqb (fst e) i)) (acol s k).
Proof.
  intros s s' i k E R. unfold acol. rewrite E, filter_filter. apply filter_ext. intros e. rewrite R, negb_orb.
  reflexivity.
Qed.
Lemma replay_one : forall r rest t, (forall i e n, r <> BOUND_CHANGE_THE_ROW i e n) ->
  replay None (r :: rest) t = replay None rest (retrieve_one r t).
Proof. intros r rest t N. destruct r; try reflexivity. exfalso. eapply N; reflexivity. Qed.
Lemma Back_row0 : forall s s' i, nr s' = nr s -> nc s' = nc s -> (i < nr s)%nat ->
  (forall k, t_cinact (ct s' k) = t_cinact (ct s k)) ->
  (forall j, t_inact (rt s' j) = (Nat.eqb j i || t_inact (rt s j))%bool) -> cst s' = cst s -> mAT s' = mAT s ->
  log s' = DELETED_ROW i 0 :: log s -> Back s s'.
Proof.
  intros s s' i A B Hi C D E F L. exists [DELETED_ROW i 0]. split; [auto|].
  split; [split; [split; [auto|split; [auto|constructor; auto]]|auto]|]. intros t [X Z Y K].
  exists (put_y i 0 t). split; [|split; [auto|intros rest; reflexivity]].
  constructor; cbn [put_y sx sy sz].
  - intros k Hk T. apply X; [rewrite B; auto|rewrite C; auto].
  - intros k Hk T. apply Z; [rewrite B; auto|rewrite C; auto].
  - intros j Hj T. destruct (Nat.eq_dec j i) as [->|N]; [rewrite upd_same; auto|rewrite upd_other by auto].
    apply Y; [rewrite A; auto|]. rewrite D, T. destruct (Nat.eqb_spec j i); auto; contradiction.
  - intros e0 k Hk T. specialize (K e0). rewrite K; [|rewrite B; auto|rewrite C; auto]. rewrite E.
    rewrite (acol_kill s s' i k) by (auto; rewrite F; auto).
    rewrite <- (ysum_filter0 (upd (sy t) i (Some 0)) (fun j => negb (Nat.eqb j i)) (acol s k)).
    + rewrite (ysum_ext (sy t) (upd (sy t) i (Some 0))); [lra|]. intros j a Hj. apply filter_In in Hj.
      destruct Hj as [_ N]. cbn in N. apply negb_true_iff, Nat.eqb_neq in N. rewrite upd_other by auto. lra.
    + intros j a _ N. apply negb_false_iff, Nat.eqb_eq in N. subst j. rewrite upd_same. cbn. lra.
Qed.
Lemma set_row_inactive_Back : forall s i, (i < nr s)%nat -> Back s (set_row_to_inactive i 0 s).
Proof.
  intros s i Hi. apply (Back_row0 s _ i); auto; unfold set_row_to_inactive; sr; auto.
  intros j. destruct (Nat.eqb_spec j i) as [->|N]; [rewrite upd_same|rewrite upd_other by auto]; reflexivity.
Qed.

(** ** A column fixed *)
Lemma all_known_true : forall f l, (forall i a, In (i, a) l -> known (f i) = true) -> all_known f l = true.
Proof. intros f l H. apply forallb_forall. intros [i a] Hi. apply (H i a Hi). Qed.
Lemma acol_full : forall s k, (forall i a, In (i, a) (mAT s k) -> t_inact (rt s i) = false) -> acol s k = mAT s k.
Proof. intros s k H. unfold acol. apply filter_all. intros [i a] Hi. cbn. rewrite (H i a Hi). reflexivity. Qed.
Record fixedk (s s' : state) (k : nat) (col : row) : Prop := {
  fk_nr : nr s' = nr s;  fk_nc : nc s' = nc s;
  fk_ct : forall j, (j < nc s)%nat -> j <> k -> t_cinact (ct s j) = false -> t_cinact (ct s' j) = false;
  fk_rt : forall i, (i < nr s)%nat -> t_inact (rt s i) = false -> t_inact (rt s' i) = false;
  fk_cst : forall j, (j < nc s)%nat -> t_cinact (ct s j) = false -> cst s' j = cst s j;
  fk_acol : forall j, (j < nc s)%nat -> j <> k -> t_cinact (ct s j) = false -> acol s' j = acol s j;
  fk_rows : forall i a, In (i, a) col -> (i < nr s)%nat /\ t_inact (rt s i) = false;
  fk_col : t_cinact (ct s k) = false -> col = acol s k }.
Lemma fixed_St : forall s s' k v ck col t, fixedk s s' k col -> (t_cinact (ct s k) = false -> ck == cst s k) ->
  St s' t -> St s (retrieve_fix_col k v ck col t) /\ s_err (retrieve_fix_col k v ck col t) = s_err t.
Proof.
  intros s s' k v ck col t [A B C D E F G H] K [X Z Y Q].
  assert (AK : all_known (sy t) col = true).
  { apply all_known_true. intros i a Hi. destruct (G i a Hi) as [G1 G2]. apply Y; [rewrite A; auto|apply D; auto]. }
  unfold retrieve_fix_col. rewrite AK. cbn [negb]. split; [|cbn; apply orb_false_r].
  constructor; cbn [put_z put_x err_if sx sy sz].
  - intros j Hj T. destruct (Nat.eq_dec j k) as [->|N]; [rewrite upd_same; auto|rewrite upd_other by auto].
    apply X; [rewrite B; auto|apply C; auto].
  - intros j Hj T. destruct (Nat.eq_dec j k) as [->|N]; [rewrite upd_same; auto|rewrite upd_other by auto].
    apply Z; [rewrite B; auto|apply C; auto].
  - intros i Hi T. apply Y; [rewrite A; auto|apply D; auto].
  - intros e0 j Hj T. specialize (Q e0). destruct (Nat.eq_dec j k) as [->|N].
    + rewrite upd_same. cbn [val]. rewrite (H T), K by auto. lra.
    + rewrite upd_other by auto. rewrite Q; [|rewrite B; auto|apply C; auto]. rewrite E, F by auto. lra.
Qed.
Lemma fixed_Back : forall s s' k v ck col, fixedk s s' k col -> (k < nc s)%nat -> (t_cinact (ct s k) = false -> ck == cst s k) ->
  log s' = FIXED_COL k v ck col :: log s -> Back s s'.
Proof.
  intros s s' k v ck col F Hk K L. exists [FIXED_COL k v ck col]. split; [auto|].
  split; [split; [split; [apply F|split; [apply F|constructor; auto; split; [auto|intros q c Hq; apply (fk_rows _ _ _ _ F q c Hq)]]]|]|].
  { auto. } intros t H.
  destruct (fixed_St s s' k v ck col t F K H) as [H1 H2].
  exists (retrieve_fix_col k v ck col t). split; auto.
Qed.
Lemma fixed_BackG : forall i r s s' k v ck col, fixedk s s' k col -> (k < nc s)%nat -> (t_cinact (ct s k) = false -> ck == cst s k) ->
  log s' = FIXED_COL k v ck col :: log s -> BackG i r 0 s s'.
Proof.
  intros i r s s' k v ck col F Hk K L. exists [FIXED_COL k v ck col]. split; [auto|].
  split; [split; [split; [apply F|split; [apply F|constructor; auto; split; [auto|intros q c Hq; apply (fk_rows _ _ _ _ F q c Hq)]]]|]|].
  { intros m l Gl. destruct m; exact Gl. } intros t H.
  destruct (fixed_St s s' k v ck col t F K H) as [H1 H2].
  exists (retrieve_fix_col k v ck col t). split; auto. split; auto.
  intros m rest. destruct m; reflexivity.
Qed.

(** ** The bound of a column changed on account of a row *)
(** the loop over the row *)
Definition zloop (j : nat) (aij zj : Q) (r : row) (t : solution) : solution :=
  fold_left (fun s e => let k := fst e in
                if Nat.eqb k j then s
                else if negb (known (sz s k)) then s
                else put_z k (val (sz s k) - (snd e / aij) * zj) s) r t.
Lemma zloop_spec : forall j aij zj r t, srt r ->
  sx (zloop j aij zj r t) = sx t /\ sy (zloop j aij zj r t) = sy t /\ s_err (zloop j aij zj r t) = s_err t /\
  (forall k, known (sz (zloop j aij zj r t) k) = known (sz t k)) /\
  (forall k, known (sz t k) = true -> k <> j -> val (sz (zloop j aij zj r t) k) == val (sz t k) - coeff r k / aij * zj).
Proof.
  induction r as [|[c a] r IH]; intros t S; cbn [zloop fold_left].
  - repeat split; auto. intros k _ _. cbn [coeff]. unfold Qdiv. lra.
  - apply srt_inv in S. destruct S as [S L]. cbn [fst snd].
    assert (NR : coeff r c == 0).
    { assert (X : forall l, (forall e, In e l -> (c < fst e)%nat) -> coeff l c == 0).
      { induction l as [|[d b] l IHl]; intros HL; cbn [coeff]; [lra|].
        rewrite IHl by (intros; apply HL; right; auto). specialize (HL (d, b) (or_introl eq_refl)). cbn in HL.
        destruct (Nat.eqb_spec d c); [lia|lra]. }
      apply X. intros e He. apply L in He. auto. }
    match goal with |- context [fold_left _ r ?t1] => set (t1' := t1) end.
    destruct (IH t1' S) as (A & B & C & D & E). fold (zloop j aij zj r t1') in *.
    set (w := zloop j aij zj r t1') in *. clearbody w.
    assert (F : sx t1' = sx t /\ sy t1' = sy t /\ s_err t1' = s_err t /\ (forall k, known (sz t1' k) = known (sz t k)) /\
      (forall k, known (sz t k) = true -> k <> j -> val (sz t1' k) == val (sz t k) - (if Nat.eqb c k then a else 0) / aij * zj)).
    { unfold t1'. destruct (Nat.eqb_spec c j) as [->|N].
      - repeat split; auto. intros k _ Nk. destruct (Nat.eqb_spec j k); [congruence|]. unfold Qdiv. lra.
      - destruct (known (sz t c)) eqn:KN; cbn [negb].
        + cbn [put_z sx sy sz s_err]. repeat split; auto; intros k.
          * destruct (Nat.eq_dec k c) as [->|]; [rewrite upd_same; auto|rewrite upd_other; auto].
          * intros Kk Nk. destruct (Nat.eqb_spec c k) as [->|]; [rewrite upd_same; cbn; lra|].
            rewrite upd_other by auto. unfold Qdiv. lra.
        + repeat split; auto. intros k Kk Nk. destruct (Nat.eqb_spec c k) as [->|]; [congruence|]. unfold Qdiv. lra. }
    destruct F as (F1 & F2 & F3 & F4 & F5).
    split; [congruence|]. split; [congruence|]. split; [congruence|]. split; [intros k; rewrite D; auto|].
    intros k Kk Nk. rewrite E by (auto; rewrite F4; auto). rewrite F5 by auto. cbn [coeff].
    unfold Qdiv. lra.
Qed.
Lemma first_coeff : forall j r a d, srt r -> In (j, a) r -> first_of j d r = a /\ coeff r j == a.
Proof.
  induction r as [|[c b] r IH]; intros a d S Hin; [contradiction|]. apply srt_inv in S. destruct S as [S L].
  cbn [first_of coeff]. destruct Hin as [E|Hin].
  - injection E as -> ->. rewrite Nat.eqb_refl. split; auto.
    assert (X : forall l, (forall e, In e l -> (j < fst e)%nat) -> coeff l j == 0).
    { induction l as [|[q p] l IHl]; intros HL; cbn [coeff]; [lra|].
      rewrite IHl by (intros; apply HL; right; auto). specialize (HL (q, p) (or_introl eq_refl)). cbn in HL.
      destruct (Nat.eqb_spec q j); [lia|lra]. }
    rewrite X; [lra|]. intros e He. apply L in He. auto.
  - destruct (Nat.eqb_spec c j) as [->|N].
    + apply L in Hin. simpl in Hin. lia.
    + destruct (IH a d S Hin). split; auto. lra.
Qed.
(** Sum over the rows of a column = sum of coefficients *)
Lemma ysum_coeff_upd : forall f i v l, srt l -> ysum (upd f i (Some v)) l == ysum f l + coeff l i * (v - val (f i)).
Proof.
  induction l as [|[j c] l IH]; intros S; cbn [M_Post.wsum coeff]; [lra|]. apply srt_inv in S. destruct S as [S L].
  rewrite IH by auto. destruct (Nat.eqb_spec j i) as [->|N]; [rewrite upd_same|rewrite upd_other by auto]; cbn [val]; lra.
Qed.
Lemma bound_St : forall s i j a r implied other low t, Inv s -> (i < nr s)%nat -> t_inact (rt s i) = false ->
  (j < nc s)%nat -> t_cinact (ct s j) = false -> mA s i = r -> In (j, a) r ->
  St s t -> St s (retrieve_bound_change i j r implied other low t) /\
            s_err (retrieve_bound_change i j r implied other low t) = s_err t.
Proof.
  intros s i j a r implied other low t HI Hi Ti Hj Tj ER Hin ST. pose proof ST as [X Z Y K]. pose proof (inv_0 s HI) as W.
  unfold retrieve_bound_change. rewrite (X j Hj Tj), (Z j Hj Tj), (Y i Hi Ti). cbn [negb orb].
  assert (EZ : St s (err_if false t) /\ s_err (err_if false t) = s_err t).
  { split; [|cbn; apply orb_false_r]. constructor; auto. }
  destruct (_ && _); [auto|]. destruct (negb _); [auto|].
  clear EZ. assert (SR : srt r) by (rewrite <- ER; apply (w_rsrt s W); auto).
  destruct (first_coeff j r a 1 SR Hin) as [-> CJ].
  assert (Na : ~ a == 0) by (rewrite <- ER in Hin; apply (w_rin s W i j a Hi Hin)).
  set (zj := val (sz t j)). set (s1 := put_y i _ _).
  change (fold_left _ r s1) with (zloop j a zj r s1).
  destruct (zloop_spec j a zj r s1 SR) as (A & B & C & D & E).
  set (w := zloop j a zj r s1) in *. clearbody w.
  assert (CE : forall k, (k < nc s)%nat -> t_cinact (ct s k) = false -> coeff (acol s k) i == coeff r k).
  { intros k Hk Tk. pose proof (cact_alive s k W Hk Tk) as CK. pose proof (act_alive s i W Hi Ti) as RI.
    assert (SC : srt (acol s k)) by (apply srt_filter, (w_csrt s W); auto).
    destruct (hasb k r) eqn:HB.
    - apply hasb_has in HB. destruct HB as [c Hc]. rewrite (proj2 (first_coeff k r c 1 SR Hc)).
      rewrite (proj2 (first_coeff i (acol s k) c 1 SC ltac:(apply filter_In; split;
        [apply (w_agree s W i k c); auto; rewrite ER; auto|cbn; rewrite Ti; auto]))). lra.
    - assert (Z1 : forall l m, (forall c, ~ In (m, c) l) -> coeff l m == 0).
      { clear. induction l as [|[q p] l IHl]; intros m N; cbn [coeff]; [lra|]. rewrite IHl; [|intros c Hc; apply (N c); right; auto].
        destruct (Nat.eqb_spec q m) as [->|]; [exfalso; apply (N p); left; auto|lra]. }
      rewrite (Z1 r k); [rewrite (Z1 (acol s k) i); [lra|]|]; intros c Hc.
      + apply filter_In in Hc. destruct Hc as [Hc _]. apply (w_agree s W i k c) in Hc; auto. rewrite ER in Hc.
        assert (hasb k r = true) by (apply hasb_has; exists c; auto). congruence.
      + assert (hasb k r = true) by (apply hasb_has; exists c; auto). congruence. }
  unfold s1 in *. cbn [put_y err_if sx sy sz s_err] in *.
  split; [|cbn [put_z s_err]; rewrite C; apply orb_false_r].
  constructor; cbn [put_z sx sy sz].
  - intros k Hk Tk. rewrite A. apply X; auto.
  - intros k Hk Tk. destruct (Nat.eq_dec k j) as [->|N]; [rewrite upd_same; auto|rewrite upd_other by auto].
    rewrite D. apply Z; auto.
  - intros q Hq Tq. rewrite B. destruct (Nat.eq_dec q i) as [->|N]; [rewrite upd_same; auto|rewrite upd_other by auto].
    apply Y; auto.
  - intros e0 k Hk Tk. specialize (K e0). rewrite B.
    assert (SC : srt (acol s k)) by (apply srt_filter, (w_csrt s W); auto).
    rewrite (ysum_coeff_upd _ i _ _ SC), CE by auto.
    destruct (Nat.eq_dec k j) as [->|N].
    + rewrite upd_same. cbn [val]. rewrite CJ. unfold zj. pose proof (K j Hj Tj) as KJ.
      assert (EQ : a * (val (sy t i) + val (sz t j) / a - val (sy t i)) == val (sz t j)) by (field; auto).
      rewrite EQ, KJ. lra.
    + rewrite upd_other by auto. rewrite E by (auto; apply Z; auto). rewrite (K k Hk Tk). unfold Qdiv. lra.
Qed.

End Backs.
