(** Signs and complementary slackness: singleton rows. *)
From Coq Require Import NArith Lqa.
From Verif Require Import M_Num S_LP M_Settings M_Driver S_Driver M_State M_Act M_Core M_Simple
  M_StonCols M_Dton M_Parallel M_Propagate M_Init M_Post M_Run S_Run S_Struct S_Sem S_Log S_Kkt
  L_State L_Struct L_Struct2 L_Struct3 L_Struct4 L_Struct5 L_Struct6 L_Struct11 L_Sem L_Sem2 L_Sem3 L_Sem4 L_Sem9 L_Mid L_Mid2
  L_Post L_Post2 L_Post3 L_Kkt.
Import M_Driver.
Notation bad := M_State.bad.
Open Scope Q_scope.
Section Kkt.
Variable rtol : nat -> Q.
Variable ctol : Q.
Hypothesis ctol0 : 0 <= ctol.
Hypothesis ctol1 : ctol <= FEAS_TOL.
Hypothesis rtol0 : forall i, 0 <= rtol i.
Notation St := (L_Post.St True).
Notation Back := (L_Post.Back True).
Notation KB := (L_Kkt.KB rtol ctol).
Notation CS := (L_Kkt.CS rtol ctol).
Notation cover := (L_Kkt.cover rtol ctol).

(** ** A bound taken from a row with one entry *)
Lemma Qabs_scale : forall a x v q c r, q == a * v -> Qabs (x - v) <= c -> Qabs a * c <= r -> Qabs (a * x - q) <= r.
Proof.
  intros a x v q c r E L R. setoid_replace (a * x - q) with (a * (x - v)) by (rewrite E; ring). rewrite Qabs_Qmult.
  eapply Qle_trans; [|exact R]. rewrite (Qmult_comm (Qabs a) (Qabs (x - v))), (Qmult_comm (Qabs a) c).
  apply Qmult_le_compat_r; auto. apply Qabs_nonneg.
Qed.
Lemma eq_tol_no : forall x y, IS_EQUAL_FEAS_TOL x y = false -> Qabs (x - y) <= ctol -> False.
Proof.
  intros x y E L. assert (T : IS_EQUAL_FEAS_TOL x y = true) by (apply eq_tol; eapply Qle_trans; eauto). congruence.
Qed.
(** [up]: the changed bound is the upper one *)
Record bnd1 (s s' : state) (i k : nat) (a v : Q) (up : bool) : Prop := {
  bn_i : (i < nr s)%nat;  bn_k : (k < nc s)%nat;  bn_ti : t_inact (rt s i) = false;  bn_tk : t_cinact (ct s k) = false;
  bn_row : mA s i = [(k, a)];  bn_a : ~ a == 0;
  bn_nr : nr s' = nr s;  bn_nc : nc s' = nc s;  bn_A : mA s' = mA s;  bn_lhs : lhs s' = lhs s;  bn_rhs : rhs s' = rhs s;
  bn_rt : rt s' = rt s;
  bn_ct : forall j, t_fixed (ct s' j) = t_fixed (ct s j) /\ t_cinact (ct s' j) = t_cinact (ct s j);
  bn_o : forall j, j <> k -> lb s' j = lb s j /\ ub s' j = ub s j;
  bn_b : if up then ub s' k = Fin v /\ lb s' k = lb s k else lb s' k = Fin v /\ ub s' k = ub s k;
  bn_s : exists q, (if Bool.eqb up (Qgtb a 0) then rhs s i else lhs s i) = Fin q /\ q == a * v }.
Lemma fixed_cinact : forall c, t_cinact c = false -> t_fixed c = false.
Proof. intros c H. unfold t_cinact in H. apply orb_false_iff in H. tauto. Qed.
Lemma pressed_add : forall t m d l v u (b : bool), pressed t m l v u ->
  (if b then d <= 0 /\ (d < 0 -> exists q, u = Fin q /\ Qabs (v - q) <= t)
   else 0 <= d /\ (0 < d -> exists q, l = Fin q /\ Qabs (v - q) <= t)) -> pressed t (m + d) l v u.
Proof.
  intros t m d l v u b [A B] D. destruct b; destruct D as [D1 D2]; split; intros H.
  - apply A. lra.
  - destruct (Qlt_le_dec d 0); auto. apply B. lra.
  - destruct (Qlt_le_dec 0 d); auto. apply A. lra.
  - apply B. lra.
Qed.
Lemma bound_CS : forall s s' i k a v up t, bnd1 s s' i k a v up -> Qabs a * ctol <= rtol i -> CS s' t ->
  CS s (retrieve_bound_change i k [(k, a)] v (if up then lb s k else ub s k) up t).
Proof.
  intros s s' i k a v up t [Hi Hk Ti Tk ER Na E1 E2 E3 E4 E5 E6 E7 E8 EB [q [SQ QV]]] CV [CR CC].
  assert (R0 : forall t', sx t' = sx t -> (forall j, (j < nr s)%nat -> t_inact (rt s j) = false -> j <> i -> sy t' j = sy t j) ->
    forall j, (j < nr s)%nat -> t_inact (rt s j) = false -> j <> i ->
    pressed (rtol j) (val (sy t' j)) (lhs s j) (dot (mA s j) (xv s t')) (rhs s j)).
  { intros t' X Y j Hj Tj N. specialize (CR j ltac:(rewrite E1; auto) ltac:(rewrite E6; auto)). rewrite E3, E4, E5 in CR.
    rewrite Y by auto. eapply pressed_ext; [exact CR|lra| |auto|auto]. apply dot_ext. intros p b Hp. unfold xv.
    destruct (E7 p) as [-> _]. rewrite X. destruct (t_fixed (ct s p)) eqn:TP; [|lra].
    assert (NP : p <> k) by (intros ->; rewrite (fixed_cinact _ Tk) in TP; discriminate).
    destruct (E8 p NP) as [_ ->]. lra. }
  assert (DI : forall t', sx t' = sx t -> dot (mA s i) (xv s t') == a * val (sx t k)).
  { intros t' X. rewrite ER. unfold xv. cbn [dot]. rewrite (fixed_cinact _ Tk), X. lra. }
  pose proof (CR i ltac:(rewrite E1; auto) ltac:(rewrite E6; auto)) as RI. rewrite E3, E4, E5 in RI.
  assert (DI' : dot (mA s i) (xv s' t) == a * val (sx t k)).
  { rewrite ER. unfold xv. cbn [dot]. destruct (E7 k) as [-> _]. rewrite (fixed_cinact _ Tk). lra. }
  pose proof (CC k ltac:(rewrite E2; auto) ltac:(destruct (E7 k) as [_ ->]; auto)) as CK.
  assert (KO : forall t', sx t' = sx t -> (forall j, j <> k -> sz t' j = sz t j) -> forall j, (j < nc s)%nat -> t_cinact (ct s j) = false ->
    j <> k -> pressed ctol (val (sz t' j)) (lb s j) (val (sx t' j)) (ub s j)).
  { intros t' X Z j Hj Tj N. destruct (E8 j N) as [B1 B2]. destruct (E7 j) as [_ B3].
    specialize (CC j ltac:(rewrite E2; auto) ltac:(rewrite B3; auto)). rewrite B1, B2 in CC. rewrite X, Z by auto. auto. }
  (* nothing moved *)
  assert (SK : forall t', sx t' = sx t -> sy t' = sy t -> sz t' = sz t ->
    (if up then 0 <= val (sz t k) else val (sz t k) <= 0) -> CS s t').
  { intros t' X Y Z SG. constructor.
    - intros j Hj Tj. destruct (Nat.eq_dec j i) as [->|N].
      + rewrite Y. eapply pressed_ext; [exact RI|lra| |auto|auto]. rewrite DI', DI by auto. lra.
      + apply R0; auto. intros; rewrite Y; auto.
    - intros j Hj Tj. destruct (Nat.eq_dec j k) as [->|N]; [|apply KO; auto; intros; rewrite Z; auto].
      rewrite X, Z. destruct CK as [C1 C2]. destruct up; destruct EB as [B1 B2]; rewrite B2 in *; split; intros H; auto; exfalso; lra. }
  unfold retrieve_bound_change. set (t0 := err_if _ t).
  destruct (_ && _) eqn:B1.
  { apply SK; auto. apply andb_true_iff in B1. destruct B1 as [_ B1]. destruct up; cbn [negb andb orb] in B1; rewrite ?orb_false_r in B1; qb; auto. }
  destruct (IS_EQUAL_FEAS_TOL (val (sx t k)) v) eqn:NR; cbn [negb].
  2:{ apply SK; auto. destruct up; destruct EB as [B2 B3].
      - destruct (Qlt_le_dec (val (sz t k)) 0) as [L|L]; auto. exfalso. destruct CK as [_ C2]. destruct (C2 L) as [p [P1 P2]].
        rewrite B2 in P1. injection P1 as <-. eapply eq_tol_no; eauto.
      - destruct (Qlt_le_dec 0 (val (sz t k))) as [L|L]; auto. exfalso. destruct CK as [C1 _]. destruct (C1 L) as [p [P1 P2]].
        rewrite B2 in P1. injection P1 as <-. eapply eq_tol_no; eauto. }
  cbn [fold_left fst snd first_of]. rewrite Nat.eqb_refl.
  (* the multiplier of the bound moves to the row *)
  assert (SG : if up then val (sz t k) <= 0 else 0 <= val (sz t k)).
  { destruct up; destruct EB as [B2 B3]; cbn [negb andb orb] in B1; rewrite ?orb_false_r in B1.
    - destruct (Qlt_le_dec 0 (val (sz t k))) as [L|L]; auto. exfalso. destruct CK as [C1 _]. destruct (C1 L) as [p [P1 P2]].
      rewrite <- B3, P1 in B1. cbn [eq_tol_ext] in B1.
      assert (T : IS_EQUAL_FEAS_TOL (val (sx t k)) p = true) by (apply eq_tol; eapply Qle_trans; eauto).
      rewrite T in B1. cbn [andb] in B1. qb. lra.
    - destruct (Qlt_le_dec (val (sz t k)) 0) as [L|L]; auto. exfalso. destruct CK as [_ C2]. destruct (C2 L) as [p [P1 P2]].
      rewrite <- B3, P1 in B1. cbn [eq_tol_ext] in B1.
      assert (T : IS_EQUAL_FEAS_TOL (val (sx t k)) p = true) by (apply eq_tol; eapply Qle_trans; eauto).
      rewrite T in B1. cbn [andb] in B1. qb. lra. }
  assert (NE : ~ val (sz t k) == 0 -> Qabs (val (sx t k) - v) <= ctol).
  { intros N. destruct CK as [C1 C2]. destruct up; destruct EB as [B2 B3].
    - destruct C2 as [p [P1 P2]]; [lra|]. rewrite B2 in P1. injection P1 as <-. auto.
    - destruct C1 as [p [P1 P2]]; [lra|]. rewrite B2 in P1. injection P1 as <-. auto. }
  constructor; cbn [put_z put_y sx sy sz].
  - intros j Hj Tj. destruct (Nat.eq_dec j i) as [->|N].
    + rewrite upd_same. change (sy t0) with (sy t). cbn [val].
      apply (pressed_add _ _ _ _ _ _ (Bool.eqb up (Qgtb a 0))).
      { eapply pressed_ext; [exact RI|lra| |auto|auto]. rewrite DI'. rewrite DI by reflexivity. lra. }
      set (z := val (sz t k)) in *. set (x := val (sx t k)) in *.
      assert (D : dot (mA s i) (xv s (put_z k 0 (put_y i (val (sy t i) + z / a) t0))) == a * x) by (apply DI; reflexivity).
      assert (SL : ~ z / a == 0 -> Qabs (a * x - q) <= rtol i).
      { intros N0. eapply Qabs_scale; eauto. apply NE. intros Z0. apply N0. rewrite Z0. unfold Qdiv. ring. }
      assert (SGN : if Qgtb a 0 then 0 < a else a < 0).
      { destruct (Qgtb a 0) eqn:QA; qb; auto. destruct (Qlt_le_dec a 0); auto. exfalso. apply Na. lra. }
      clear CR CC RI CK R0 KO SK.
      destruct up; destruct (Qgtb a 0); cbn [Bool.eqb] in SQ |- *; (split; [|intros HL; exists q; split; [exact SQ|rewrite D; apply SL; lra]]).
      * apply Qle_shift_div_r; auto. lra.
      * setoid_replace (z / a) with ((- z) / (- a)) by (field; lra). apply Qle_shift_div_l; lra.
      * apply Qle_shift_div_l; lra.
      * setoid_replace (z / a) with ((- z) / (- a)) by (field; lra). apply Qle_shift_div_r; lra.
    + refine (R0 (put_z k 0 (put_y i (val (sy t i) + val (sz t k) / a) t0)) eq_refl _ j Hj Tj N).
      intros p _ _ NP. cbn [put_z put_y sy]. rewrite upd_other; auto.
  - intros j Hj Tj. destruct (Nat.eq_dec j k) as [->|N].
    + rewrite upd_same. apply pressed_0. reflexivity.
    + rewrite upd_other by auto. apply (KO t0); auto.
Qed.
Lemma bound_KB : forall s s1 s' i k a v up, Inv s -> bnd1 s s1 i k a v up -> quietly s s1 -> log s1 = log s ->
  s' = record (BOUND_CHANGE_THE_ROW i (mA s i) 1) (record (BOUND_CHANGE_NO_ROW k v (if up then lb s k else ub s k) up) s1) -> KB s s'.
Proof.
  intros s s1 s' i k a v up H B Q L E.
  assert (HK : In (k, a) (mA s i)) by (rewrite (bn_row _ _ _ _ _ _ _ B); left; reflexivity).
  split; [eapply (bound_new_Back True s s1 s' i k a); eauto; apply B|].
  assert (SB : sub s s').
  { rewrite E. apply sub_same; sr; [apply B|apply B|]. intros j. rewrite (bn_rt _ _ _ _ _ _ _ B). auto. }
  split; [exact SB|]. intros new t CV LN ST C.
  assert (EN : new = [BOUND_CHANGE_THE_ROW i (mA s i) 1; BOUND_CHANGE_NO_ROW k v (if up then lb s k else ub s k) up]).
  { apply (app_inv_tail (log s)). rewrite <- LN, E. sr. rewrite L. reflexivity. }
  rewrite EN.
  change (CS s (retrieve_bound_change i k (mA s i) v (if up then lb s k else ub s k) up t)). rewrite (bn_row _ _ _ _ _ _ _ B).
  eapply (bound_CS s s1); [exact B|eapply CV; [apply B|apply B|exact HK]|]. rewrite E in C. destruct C as [C1 C2]. constructor; [exact C1|exact C2].
Qed.
Lemma update_ub_KB : forall s i k a v, Inv s -> (i < nr s)%nat -> t_inact (rt s i) = false ->
  (k < nc s)%nat -> t_cinact (ct s k) = false -> mA s i = [(k, a)] -> ~ a == 0 ->
  (exists q, (if Qgtb a 0 then rhs s i else lhs s i) = Fin q /\ q == a * v) -> KB s (fst (update_ub k v i s)).
Proof.
  intros s i k a v H Hi Ti Hk Tk ER Na SD. pose proof (update_ub_cases k v i s) as X. destruct (update_ub k v i s) as [s1 st]. cbn [fst].
  destruct X as [(_ & -> & _)|(_ & _ & [(-> & _)|(_ & [A [W E]])])]; [apply KB_refl|apply KB_refl|].
  eapply (bound_KB s _ s1 i k a v true H); [| | |exact E].
  - constructor; auto; sr; auto.
    + intros j. updg; auto.
    + intros j N. rewrite upd_other; auto.
    + rewrite upd_same. auto.
    + destruct SD as [q [SD1 SD2]]. exists q. split; auto. destruct (Qgtb a 0); auto.
  - apply quietly_same; try reflexivity. intros j. sr. updg; auto.
  - reflexivity.
Qed.
Lemma update_lb_KB : forall s i k a v, Inv s -> (i < nr s)%nat -> t_inact (rt s i) = false ->
  (k < nc s)%nat -> t_cinact (ct s k) = false -> mA s i = [(k, a)] -> ~ a == 0 ->
  (exists q, (if Qgtb a 0 then lhs s i else rhs s i) = Fin q /\ q == a * v) -> KB s (fst (update_lb k v i s)).
Proof.
  intros s i k a v H Hi Ti Hk Tk ER Na SD. pose proof (update_lb_cases k v i s) as X. destruct (update_lb k v i s) as [s1 st]. cbn [fst].
  destruct X as [(_ & -> & _)|(_ & _ & [(-> & _)|(_ & [A [W E]])])]; [apply KB_refl|apply KB_refl|].
  eapply (bound_KB s _ s1 i k a v false H); [| | |exact E].
  - constructor; auto; sr; auto.
    + intros j. updg; auto.
    + intros j N. rewrite upd_other; auto.
    + rewrite upd_same. auto.
    + destruct SD as [q [SD1 SD2]]. exists q. split; auto. destruct (Qgtb a 0); auto.
  - apply quietly_same; try reflexivity. intros j. sr. updg; auto.
  - reflexivity.
Qed.

(** ** Equations with one entry *)
Lemma added_val : forall i (a : Q) l t,
  let t' := fold_left (fun s e => if Nat.eqb (fst e) i then s
                        else put_y i (val (sy s i) - (snd e / a) * val (sy s (fst e)))
                               (err_if (negb (known (sy s (fst e)))) s)) l t in
  val (sy t' i) == val (sy t i) - ysum (sy t) (filter (fun e => negb (Nat.eqb (fst e) i)) l) / a.
Proof.
  intros i a. induction l as [|[j c] l IH]; intros t; cbn [fold_left fst snd filter].
  - cbn [M_Post.wsum]. unfold Qdiv. lra.
  - destruct (Nat.eqb_spec j i) as [->|N]; cbn [negb].
    + apply IH.
    + rewrite IH. cbn [put_y err_if sy]. rewrite upd_same. cbn [M_Post.wsum val].
      rewrite (ysum_ext (upd (sy t) i _) (sy t)); [unfold Qdiv; ring|].
      intros q d Hq. apply filter_In in Hq. destruct Hq as [_ Hq]. cbn [fst] in Hq.
      destruct (Nat.eqb_spec q i); [discriminate|]. rewrite upd_other by auto. lra.
Qed.
Lemma ysum_split : forall f i a l, srt l -> In (i, a) l ->
  ysum f l == a * val (f i) + ysum f (filter (fun e => negb (Nat.eqb (fst e) i)) l).
Proof.
  intros f i a. induction l as [|[j c] l IH]; intros S Hin; [destruct Hin|]. apply srt_inv in S. destruct S as [S L].
  cbn [filter fst M_Post.wsum]. destruct Hin as [E|Hin].
  - injection E as -> ->. rewrite Nat.eqb_refl. cbn [negb].
    assert (F : filter (fun e : nat * Q => negb (Nat.eqb (fst e) i)) l = l).
    { clear -L. induction l as [|e l IHl]; [reflexivity|]. cbn [filter].
      pose proof (L e (or_introl eq_refl)) as X. cbn [fst] in X. destruct (Nat.eqb_spec (fst e) i); [lia|]. cbn [negb].
      f_equal. apply IHl. intros; apply L; right; auto. }
    rewrite F. lra.
  - rewrite (IH S Hin). pose proof (L _ Hin) as X. cbn [fst] in X. destruct (Nat.eqb_spec j i); [lia|]. cbn [negb M_Post.wsum]. lra.
Qed.
Lemma ston_eq_KB : forall s s' i k a v, Inv s -> (i < nr s)%nat -> (k < nc s)%nat -> mA s i = [(k, a)] -> ~ a == 0 ->
  t_inact (rt s i) = false -> t_cinact (ct s k) = false -> fresh s k ->
  (exists p q, lhs s i = Fin p /\ rhs s i = Fin q /\ p == q /\ q == a * v) ->
  nr s' = nr s -> nc s' = nc s -> (forall j, j <> k -> ct s' j = ct s j /\ lb s' j = lb s j /\ ub s' j = ub s j) ->
  t_fixed (ct s' k) = true -> fin (ub s' k) = v ->
  (forall j, j <> i -> rt s' j = rt s j /\ mA s' j = mA s j) -> lhs s' = lhs s -> rhs s' = rhs s ->
  t_inact (rt s' i) = true -> cst s' = cst s -> mAT s' = mAT s ->
  log s' = DELETED_ROW i (cst s k / a) :: ADDED_ROWS i (mAT s k) a :: FIXED_COL k v (cst s k) (mAT s k) :: log s -> KB s s'.
Proof.
  intros s s' i k a v H Hi Hk EA Na Ti Tk F (p & q & EP & EQ & PQ & QV) E1 E2 E3 FK UB E4 EL ER E5 E6 E7 L.
  assert (B : Back s s').
  { eapply (ston_eq_Back True s s' i k a); eauto; intros j N; [apply (E3 j N)|apply (E4 j N)]. }
  split; [exact B|]. split.
  { split; auto. intros j m c Hj T Hm. destruct (Nat.eq_dec j i) as [->|N]; [congruence|].
    destruct (E4 j N) as [R1 R2]. rewrite R1 in T. rewrite R2 in Hm. auto. }
  intros new t CV LN ST [CR CC].
  assert (EN : new = [DELETED_ROW i (cst s k / a); ADDED_ROWS i (mAT s k) a; FIXED_COL k v (cst s k) (mAT s k)]).
  { apply (app_inv_tail (log s)). rewrite <- LN, L. reflexivity. }
  rewrite EN. clear EN LN.
  set (t1 := put_y i (cst s k / a) t).
  assert (K1 : known (sy t1 i) = true) by (unfold t1; cbn; rewrite upd_same; auto).
  assert (KO : forall j, (j < nr s)%nat -> t_inact (rt s j) = false -> j <> i -> known (sy t1 j) = true).
  { intros j Hj Tj N. unfold t1. cbn [put_y sy]. rewrite upd_other by auto. apply (st_y True s' t ST); [rewrite E1; auto|].
    rewrite (proj1 (E4 j N)); auto. }
  destruct (added_rows_spec i a (mAT s k) t1 K1) as (A & BZ & C & D & E).
  { intros j c Hj N. apply KO; auto; [apply (w_cin s (inv_0 s H) j k c Hk Hj)|eapply F; eauto]. }
  cbv zeta in *.
  assert (HIN : In (i, a) (mAT s k)).
  { apply (w_agree s (inv_0 s H) i k a Hi Hk); [apply act_alive; auto; apply H|apply cact_alive; auto; apply H|]. rewrite EA. left; auto. }
  assert (Z0 : cst s k - ysum (sy (retrieve_added_rows i (mAT s k) a t1)) (mAT s k) == 0).
  { rewrite (ysum_split _ i a) by (auto; apply (w_csrt s (inv_0 s H) k Hk)).
    pose proof (added_val i a (mAT s k) (err_if (negb (known (sy t1 i))) t1)) as V. cbv zeta in V.
    fold (retrieve_added_rows i (mAT s k) a t1) in V. rewrite V. clear V. cbn [err_if sy].
    assert (W : val (sy t1 i) = cst s k / a) by (unfold t1; cbn [put_y sy]; rewrite upd_same; reflexivity). rewrite W.
    rewrite (ysum_ext (sy (retrieve_added_rows i (mAT s k) a t1)) (sy t1)); [field; auto|].
    intros j c Hj. apply filter_In in Hj. destruct Hj as [_ Hj]. cbn [fst] in Hj.
    destruct (Nat.eqb_spec j i); [discriminate|]. rewrite C by auto. lra. }
  set (t2 := retrieve_added_rows i (mAT s k) a t1) in *.
  change (CS s (retrieve_fix_col k v (cst s k) (mAT s k) t2)). clearbody t2.
  unfold retrieve_fix_col. constructor; cbn [put_z put_x err_if sx sy sz].
  - intros j Hj Tj. destruct (Nat.eq_dec j i) as [->|N].
    + assert (DE : dot (mA s i) (xv s (put_z k (cst s k - ysum (sy t2) (mAT s k)) (put_x k v (err_if (negb (all_known (sy t2) (mAT s k))) t2)))) == q).
      { rewrite EA. unfold xv. cbn [dot put_z put_x err_if sx]. rewrite (fixed_cinact _ Tk), upd_same. cbn [val]. rewrite QV. lra. }
      split; intros _; [exists p|exists q]; (split; [auto|rewrite DE]).
      * rewrite PQ. setoid_replace (q - q) with 0 by lra. cbn. auto.
      * setoid_replace (q - q) with 0 by lra. cbn. auto.
    + destruct (E4 j N) as [R1 R2]. specialize (CR j ltac:(rewrite E1; auto) ltac:(rewrite R1; auto)). rewrite R2, EL, ER in CR.
      rewrite C by auto. unfold t1. cbn [put_y sy]. rewrite upd_other by auto.
      eapply pressed_ext; [exact CR|lra| |auto|auto]. apply dot_ext. intros m c Hm. unfold xv. cbn [put_z put_x err_if sx].
      destruct (Nat.eq_dec m k) as [->|NM].
      * rewrite FK, (fixed_cinact _ Tk), upd_same. cbn [val]. rewrite UB. lra.
      * rewrite upd_other by auto. destruct (E3 m NM) as (-> & _ & ->). rewrite A. unfold t1. cbn [put_y sx]. lra.
  - intros j Hj Tj. destruct (Nat.eq_dec j k) as [->|N].
    + rewrite !upd_same. cbn [val]. apply pressed_0. auto.
    + rewrite !upd_other by auto. destruct (E3 j N) as (B1 & B2 & B3). rewrite A, BZ. unfold t1. cbn [put_y sx sz].
      specialize (CC j ltac:(rewrite E2; auto) ltac:(rewrite B1; auto)). rewrite B2, B3 in CC. exact CC.
Qed.

(** ** Singleton rows *)
Lemma remove_stonrow_KB : forall s i, Inv s -> Mid s -> w_sub s = [] -> In i (w_ston_rows s) -> t_inact (rt s i) = false ->
  (t_eq (rt s i) = true -> freshC s) -> KB s (fst (remove_stonrow i s)).
Proof.
  intros s i H M WS Hin T FC. destruct (l_ston_rows s (inv_L s H) i Hin) as [Hi D]. specialize (D T).
  unfold remove_stonrow. destruct (mA s i) as [|[k a] r] eqn:EA.
  - destruct D as [D|[_ D]]; [discriminate|]. rewrite D. apply KB_refl.
  - destruct D as [D|[D _]]; [|discriminate]. destruct r; [|discriminate].
    destruct (w_rin s (inv_0 s H) i k a Hi) as [Hk Na]; [rewrite EA; left; reflexivity|].
    destruct (t_fixed (ct s k)) eqn:Fk; [apply KB_refl|].
    assert (TK : t_cinact (ct s k) = false).
    { apply pend_col_fixed; auto. eapply (inv_R s H); eauto. rewrite EA. left; reflexivity. }
    destruct (t_eq (rt s i)) eqn:TE.
    + specialize (FC eq_refl). pose proof (fix_col_cases s k (fin (rhs s i) / a) (cst s k)) as FX.
      destruct (fix_col k _ _ s) as [s1 st].
      destruct FX as [[-> [-> _]]|[-> [_ [_ [A [W E]]]]]]; [rewrite N.eqb_refl; cbn [fst]; apply KB_refl|].
      change (N.eqb REDUCED INFEASIBLE) with false. cbn [fst].
      assert (E1 : nr s1 = nr s /\ nc s1 = nc s /\ rt s1 = rt s /\ cst s1 = cst s /\ mAT s1 = mAT s /\ mA s1 = mA s /\
        lhs s1 = lhs s /\ rhs s1 = rhs s /\
        lb s1 = upd (lb s) k (Fin (fin (rhs s i) / a)) /\ ub s1 = upd (ub s) k (Fin (fin (rhs s i) / a)) /\
        ct s1 = upd (ct s) k (tag_fixed (ct s k)) /\ log s1 = FIXED_COL k (fin (rhs s i) / a) (cst s k) (mAT s k) :: log s).
      { rewrite E. unfold set_col_to_fixed. sr. repeat split; reflexivity. }
      clear E. destruct E1 as (E1 & E2 & E3 & E4 & E5 & E5' & E8 & E9 & E10 & E11 & E6 & E7).
      cbv zeta. set (s' := record _ _).
      assert (F : nr s' = nr s /\ nc s' = nc s /\ rt s' = upd (rt s) i R_INACTIVE /\ cst s' = cst s /\ mAT s' = mAT s /\
        ct s' = upd (ct s) k (tag_fixed (ct s k)) /\ mA s' = upd (mA s) i [] /\ lhs s' = lhs s /\ rhs s' = rhs s /\
        lb s' = upd (lb s) k (Fin (fin (rhs s i) / a)) /\ ub s' = upd (ub s) k (Fin (fin (rhs s i) / a)) /\
        log s' = DELETED_ROW i (cst s k / a) :: ADDED_ROWS i (mAT s k) a :: FIXED_COL k (fin (rhs s i) / a) (cst s k) (mAT s k) :: log s).
      { unfold s'. sr. rewrite E1, E2, E3, E4, E5, E5', E6, E7, E8, E9, E10, E11. repeat split; reflexivity. }
      clearbody s'. destruct F as (F1 & F2 & F3 & F4 & F5 & F6 & F8 & F9 & F10 & F11 & F12 & F7).
      eapply (ston_eq_KB s s' i k a (fin (rhs s i) / a)); eauto.
      * destruct (tr_eq s (md_tags s M) i Hi T TE) as (p & q & P1 & P2 & P3). exists p, q. rewrite P2. cbn [fin].
        repeat split; auto. field. auto.
      * intros j N. rewrite F6, F11, F12, !upd_other; auto.
      * rewrite F6, upd_same. reflexivity.
      * rewrite F12, upd_same. reflexivity.
      * intros j N. rewrite F3, F8, !upd_other; auto.
      * rewrite F3, upd_same. reflexivity.
    + assert (SR : t_rhs_inf (rt s i) = false -> exists q, rhs s i = Fin q /\ q == a * (fin (rhs s i) / a)).
      { intros X. pose proof (tr_rhs s (md_tags s M) i Hi T) as Y. rewrite X in Y. destruct (rhs s i) as [|q|]; try discriminate.
        exists q. split; auto. cbn [fin]. field. auto. }
      assert (SL : t_lhs_inf (rt s i) = false -> exists q, lhs s i = Fin q /\ q == a * (fin (lhs s i) / a)).
      { intros X. pose proof (tr_lhs s (md_tags s M) i Hi T) as Y. rewrite X in Y. destruct (lhs s i) as [|q|]; try discriminate.
        exists q. split; auto. cbn [fin]. field. auto. }
      assert (A1 : let s1 := fst (if t_rhs_inf (rt s i) then (s, UNCHANGED)
          else if Qgtb a 0 then update_ub k (fin (rhs s i) / a) i s
          else update_lb k (fin (rhs s i) / a) i s) in same_struct s s1 /\ KB s s1 /\ lhs s1 = lhs s /\ rhs s1 = rhs s).
      { cbv zeta. destruct (t_rhs_inf _) eqn:TR; [split; [apply same_refl|split; [apply KB_refl|auto]]|]. specialize (SR eq_refl).
        destruct (Qgtb a 0) eqn:QA.
        - split; [eauto using update_ub_same, Inv_col_in|]. split; [eapply update_ub_KB; eauto; rewrite QA; auto|].
          pose proof (update_ub_cases k (fin (rhs s i) / a) i s) as X. destruct (update_ub k _ i s) as [s1 st]. cbn [fst].
          destruct X as [(_ & -> & _)|(_ & _ & [(-> & _)|(_ & [A [W ->]])])]; auto.
        - split; [eauto using update_lb_same, Inv_col_in|]. split; [eapply update_lb_KB; eauto; rewrite QA; auto|].
          pose proof (update_lb_cases k (fin (rhs s i) / a) i s) as X. destruct (update_lb k _ i s) as [s1 st]. cbn [fst].
          destruct X as [(_ & -> & _)|(_ & _ & [(-> & _)|(_ & [A [W ->]])])]; auto. }
      destruct (if t_rhs_inf (rt s i) then _ else _) as [s1 st1]. cbn [fst] in A1. destruct A1 as (A1 & B1 & L1 & R1).
      destruct (N.eqb st1 INFEASIBLE); [auto|].
      assert (I1 : Inv s1) by (eapply same_Inv; eauto).
      assert (A2 : let s2 := fst (if t_lhs_inf (rt s i) then (s1, UNCHANGED)
          else if Qgtb a 0 then update_lb k (fin (lhs s i) / a) i s1
          else update_ub k (fin (lhs s i) / a) i s1) in KB s1 s2 /\ nr s2 = nr s).
      { assert (HK1 : (k < nc s1)%nat) by (rewrite (ss_nc _ _ A1); auto).
        assert (TK1 : t_cinact (ct s1 k) = false) by (rewrite (ss_ct _ _ k A1); auto).
        assert (HI1 : (i < nr s1)%nat) by (rewrite (ss_nr _ _ A1); auto).
        assert (TI1 : t_inact (rt s1 i) = false) by (rewrite (ss_rt _ _ A1); auto).
        assert (HA1 : mA s1 i = [(k, a)]) by (rewrite (ss_A _ _ A1); auto).
        assert (CI : col_in s1 k) by (eapply col_in_same; [exact A1|apply Inv_col_in; auto]).
        cbv zeta. rewrite <- (ss_nr _ _ A1).
        destruct (t_lhs_inf _); [split; [apply KB_refl|auto]|]. specialize (SL eq_refl). rewrite <- L1 in SL.
        destruct (Qgtb a 0) eqn:QA; rewrite <- L1; split; try (apply ss_nr; auto using update_ub_same, update_lb_same).
        - eapply update_lb_KB; eauto. rewrite QA; auto.
        - eapply update_ub_KB; eauto. rewrite QA; auto. }
      destruct (if t_lhs_inf (rt s i) then _ else _) as [s2 st2]. cbn [fst] in A2. destruct A2 as [B2 N2].
      destruct (N.eqb st2 INFEASIBLE); cbn [fst]; [eapply KB_trans; eauto|].
      eapply KB_trans; [exact B1|]. eapply KB_trans; [exact B2|]. apply set_row_inactive_KB. rewrite N2. auto.
Qed.
Lemma ston_pass_KB : forall b l s, Inv s -> Mid s -> w_sub s = [] -> (forall i, In i l -> In i (w_ston_rows s)) ->
  (b = true -> freshC s) -> KB s (fst (ston_pass b l s)).
Proof.
  intros b. induction l as [|i l IH]; intros s H M WS HL FC; cbn [ston_pass].
  - apply KB_refl.
  - destruct (if b then _ else _) eqn:SK.
    + apply IH; auto. intros; apply HL; simpl; auto.
    + assert (T : t_inact (rt s i) = false /\ t_eq (rt s i) = b).
      { destruct b; apply orb_false_iff in SK; destruct SK as [S1 S2]; split; auto. apply negb_false_iff; auto. }
      destruct T as [T TE].
      pose proof (remove_stonrow_stp s i H (HL i (or_introl eq_refl)) T) as X.
      pose proof (remove_stonrow_Back True s i H WS (HL i (or_introl eq_refl)) T ltac:(rewrite TE; auto)) as Y.
      pose proof (remove_stonrow_KB s i H M WS (HL i (or_introl eq_refl)) T ltac:(rewrite TE; auto)) as Z.
      pose proof (remove_stonrow_Mid s i H M WS (HL i (or_introl eq_refl)) T) as MM.
      destruct (remove_stonrow i s) as [s1 st]. destruct X as [S1 F1]. cbn [fst] in Y, Z, MM. cbv zeta in Y. destruct Y as [_ FC1].
      destruct (N.eqb st INFEASIBLE); auto. destruct F1 as [F1 F2].
      eapply KB_trans; [exact Z|]. apply IH; [apply S1|auto|congruence| |rewrite <- TE; auto].
      intros j Hj. rewrite F2. apply HL; simpl; auto.
Qed.
Lemma ston_rows_KB : forall s, Inv s -> Mid s -> quiet s -> KB s (fst (remove_ston_rows s)).
Proof.
  intros s H M HQ. pose proof (q_sub s HQ) as WS. unfold remove_ston_rows.
  destruct (w_ston_rows s) as [|i0 l0] eqn:EL; [apply KB_refl|]. rewrite <- EL. set (l := w_ston_rows s).
  pose proof (ston_pass_stp true l s H (fun i X => X)) as P1.
  pose proof (ston_pass_KB true l s H M WS (fun i X => X) (fun _ => quiet_freshC s H (q_rows s HQ))) as B1.
  pose proof (ston_pass_Mid true l s H M WS (fun i X => X)) as M1.
  destruct (ston_pass true l s) as [s1 st1]. destruct P1 as [S1 [F1 E1]]. cbn [fst] in B1, M1.
  destruct (N.eqb_spec st1 INFEASIBLE); [auto|].
  assert (HL1 : forall i, In i l -> In i (w_ston_rows s1)) by (destruct F1 as [_ ->]; auto).
  assert (WS1 : w_sub s1 = []) by (destruct F1; congruence).
  pose proof (ston_pass_stp false l s1 (st_inv _ _ S1) HL1) as P2.
  pose proof (ston_pass_KB false l s1 (st_inv _ _ S1) M1 WS1 HL1 ltac:(discriminate)) as B2.
  pose proof (ston_pass_Mid false l s1 (st_inv _ _ S1) M1 WS1 HL1) as M2.
  destruct (ston_pass false l s1) as [s2 st2]. destruct P2 as [S2 [F2 E2]]. cbn [fst] in B2, M2.
  assert (B : KB s s2) by (eapply KB_trans; eauto).
  destruct (N.eqb_spec st2 INFEASIBLE); [auto|]. cbn [fst].
  set (s3 := set_w_ston_rows [] s2).
  assert (I3 : Inv s3) by (apply clear_ston_rows; apply S2).
  assert (M3 : Mid s3) by (eapply mid_same_Mid; [|exact M2]; mid_ref).
  destruct (stp_dir s3 I3) as [S4 [F4 _]].
  assert (M4 : Mid (delete_inactive_rows s3)) by (apply dir_Mid; auto).
  eapply KB_trans; [exact B|].
  eapply KB_trans; [apply (still_KB rtol ctol s2 s3); [apply quietly_Back; [apply quietly_same; auto|reflexivity]|apply sub_same; auto|reflexivity|apply still_same; reflexivity]|].
  eapply KB_trans; [apply dir_KB; auto|]. apply finish_KB; [apply S4|apply M4|apply M4|].
  destruct F4 as [_ [-> _]]. unfold s3. sr. destruct F2; congruence.
Qed.
End Kkt.
