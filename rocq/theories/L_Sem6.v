(** Meaning of the removal of empty columns. *)
From Coq Require Import NArith Lqa.
From Verif Require Import M_Num S_LP M_Settings M_Driver S_Driver M_State M_Act M_Core M_Simple
  M_StonCols M_Dton M_Parallel M_Propagate M_Init M_Post M_Run S_Run S_Struct S_Sem
  L_State L_Struct L_Struct2 L_Struct3 L_Struct4 L_Struct5 L_Struct6 L_Struct11 L_Sem L_Sem2 L_Sem3 L_Sem4 L_Sem5.
Open Scope Q_scope.

(** A step between two quiet states, exact in both directions up to improvement *)
Record estep (s t : state) : Prop := {
  es_fwd : forall x, sat zero zero s x -> sat zero zero t x /\ obj t x <= obj s x;
  es_live : forall k, In k (live_cols t) -> In k (live_cols s);
  es_bwd : forall x, sat zero zero t x -> exists y, (forall k, In k (live_cols t) -> y k == x k) /\
             sat zero zero s y /\ obj s y == obj t x }.
Lemma estep_refl : forall s, estep s s.
Proof.
  intros s. constructor; auto.
  - intros; split; auto. lra.
  - intros x S. exists x. split; [intros; lra|]. split; auto. lra.
Qed.
Lemma estep_trans : forall s t u, estep s t -> estep t u -> estep s u.
Proof.
  intros s t u [F1 L1 B1] [F2 L2 B2]. constructor; auto.
  - intros x S. destruct (F1 x S) as [S1 O1]. destruct (F2 x S1). split; auto. lra.
  - intros x S. destruct (B2 x S) as [y [A [Sy O]]]. destruct (B1 y Sy) as [z [A' [Sz O']]].
    exists z. split; [|split; auto].
    + intros k Hk. rewrite (A' k (L2 k Hk)). auto.
    + rewrite O'. auto.
Qed.
Lemma estep_lp : forall s t, Ok s -> Ok t -> estep s t ->
  no_worse (reduced_lp s) (reduced_lp t) /\ lifts_back zero zero (reduced_lp s) (reduced_lp t).
Proof.
  intros s t OK OK' [F L B]. split.
  - intros x Fx. apply sat_feasible in Fx; auto. destruct (F x Fx) as [S O]. split; auto. apply sat_feasible; auto.
  - intros x Fx. apply sat_feasible in Fx; auto. destruct (B x Fx) as [y [A [S O]]].
    exists y. split; [exact A|]. split; [|exact O]. apply sat_reduced; auto.
Qed.

(** A column without entries is in no active row. *)
Lemma empty_col_rows : forall s k i, Inv s -> (k < nc s)%nat -> csz s k <> (-1)%Z -> mAT s k = [] ->
  (i < nr s)%nat -> t_inact (rt s i) = false -> ~ has k (mA s i).
Proof.
  intros s k i H Hk C E Hi T [a Hin].
  apply (proj1 (w_agree s (inv_0 s H) i k a Hi Hk (act_alive s i (inv_0 s H) Hi T) C)) in Hin. rewrite E in Hin. contradiction.
Qed.
Lemma dot_off : forall r k x v, ~ has k r -> dot r (upd x k v) == dot r x.
Proof.
  intros r k x v N. apply dot_ext. intros j a Hin. unfold upd. destruct (Nat.eqb_spec j k) as [->|]; [|lra].
  exfalso. apply N. exists a; auto.
Qed.
(** Moving one column of a quiet state that is in no row *)
Lemma sat_move : forall s k x v, Ok s -> (k < nc s)%nat -> csz s k <> (-1)%Z -> mAT s k = [] ->
  sat zero zero s x -> ext_le (lb s k) v -> le_ext v (ub s k) -> sat zero zero s (upd x k v).
Proof.
  intros s k x v [H [Q1 Q2 Q3] _] Hk C E [S1 [S2 S3]] L U. split; [|split].
  - intros i Hi T. eapply within_ext; [|apply S1; auto]. symmetry. apply dot_off.
    apply empty_col_rows; auto.
  - intros j Hj T. destruct (Nat.eq_dec j k) as [->|D].
    + rewrite upd_same. apply within0. auto.
    + rewrite upd_other by auto. auto.
  - split; rewrite ?Q2, ?Q3; simpl; tauto.
Qed.
Lemma obj_move : forall s k x v, (k < nc s)%nat -> csz s k <> (-1)%Z ->
  obj s (upd x k v) == obj s x + cst s k * (v - x k).
Proof.
  intros s k x v Hk C. unfold obj.
  assert (I : In k (live_cols s)) by (apply live_cols_in; auto).
  rewrite (sumQ_perm1 k (live_cols s) (fun j => cst s j * upd x k v j)); auto using live_cols_nd.
  rewrite (sumQ_perm1 k (live_cols s) (fun j => cst s j * x j)); auto using live_cols_nd.
  rewrite upd_same.
  assert (X : sumQ (filter (fun j => negb (Nat.eqb j k)) (live_cols s)) (fun j => cst s j * upd x k v j) ==
              sumQ (filter (fun j => negb (Nat.eqb j k)) (live_cols s)) (fun j => cst s j * x j)).
  { apply sumQ_ext. intros j Hj. apply filter_In in Hj. destruct Hj as [_ Hj].
    apply negb_true_iff, Nat.eqb_neq in Hj. rewrite upd_other by auto. lra. }
  rewrite X. lra.
Qed.

Definition near_empty (k : nat) (s s0 : state) : Prop :=
  s0 = s \/ (exists l, s0 = set_lb1 k l s) \/ (exists u, s0 = set_ub1 k u s).
Lemma close_empty_estep : forall s s1 k v, Ok s -> (k < nc s)%nat -> t_cinact (ct s k) = false -> mAT s k = [] ->
  (exists s0, s1 = close_empty_col k v s0 /\ near_empty k s s0) ->
  ext_le (lb s k) v -> le_ext v (ub s k) ->
  (forall w, ext_le (lb s k) w -> le_ext w (ub s k) -> cst s k * v <= cst s k * w) ->
  estep s s1.
Proof.
  intros s s1 k v OK Hk TK E [s0 [-> NE]] L U BEST.
  pose proof OK as [H [Q1 Q2 Q3] _].
  assert (C : csz s k <> (-1)%Z) by (apply cact_alive; auto; apply H).
  assert (FR : nr s0 = nr s /\ nc s0 = nc s /\ mA s0 = mA s /\ lhs s0 = lhs s /\ rhs s0 = rhs s /\ rt s0 = rt s /\
    csz s0 = csz s /\ ct s0 = ct s /\ cst s0 = cst s /\ off s0 = off s /\ w_fixed s0 = w_fixed s /\ w_sub s0 = w_sub s /\
    (forall j, j <> k -> lb s0 j = lb s j /\ ub s0 j = ub s j)).
  { destruct NE as [->|[[l ->]|[u ->]]]; sr; do 12 (split; [reflexivity|]); intros jj D; rewrite ?upd_other by auto; auto. }
  destruct FR as [F1 [F2 [F3 [F4 [F5 [F6 [F7 [F8 [F9 [F10 [F11 [F12 F13]]]]]]]]]]]]. clear NE.
  set (s1 := close_empty_col k v s0).
  assert (LV : forall j, In j (live_cols s1) <-> In j (live_cols s) /\ j <> k).
  { intros j. rewrite !live_cols_in. unfold s1, close_empty_col. sr. rewrite ?F1, ?F2, ?F3, ?F4, ?F5, ?F6, ?F7, ?F8, ?F9, ?F10. split.
    - intros [A B]. destruct (Nat.eq_dec j k) as [->|D]; [rewrite upd_same in B; congruence|].
      rewrite upd_other in B by auto. auto.
    - intros [[A B] D]. rewrite upd_other by auto. auto. }
  assert (OB : forall x, obj s1 x == obj s (upd x k v)).
  { intros x. unfold obj.
    assert (I : In k (live_cols s)) by (apply live_cols_in; auto).
    rewrite (sumQ_perm1 k (live_cols s)); auto using live_cols_nd. rewrite upd_same.
    assert (X : sumQ (live_cols s1) (fun j => cst s1 j * x j) ==
       sumQ (filter (fun j => negb (Nat.eqb j k)) (live_cols s)) (fun j => cst s j * upd x k v j)).
    { rewrite (sumQ_same (live_cols s1) (filter (fun j => negb (Nat.eqb j k)) (live_cols s))).
      - apply sumQ_ext. intros j Hj. apply filter_In in Hj. destruct Hj as [_ Hj].
        apply negb_true_iff, Nat.eqb_neq in Hj. rewrite upd_other by auto. unfold s1, close_empty_col. sr. rewrite ?F1, ?F2, ?F3, ?F4, ?F5, ?F6, ?F7, ?F8, ?F9, ?F10. lra.
      - apply live_cols_nd.
      - apply NoDup_filter, live_cols_nd.
      - intros j. rewrite LV, filter_In, negb_true_iff, Nat.eqb_neq. tauto. }
    rewrite X. unfold s1, close_empty_col. sr. rewrite ?F1, ?F2, ?F3, ?F4, ?F5, ?F6, ?F7, ?F8, ?F9, ?F10. lra. }
  assert (SA : forall x, sat zero zero s1 x -> sat zero zero s (upd x k v)).
  { intros x [S1 [S2 S3]]. unfold s1, close_empty_col, sat in *. sra. rewrite ?F1, ?F2, ?F3, ?F4, ?F5, ?F6, ?F7, ?F8 in *. split; [|split].
    - intros i Hi T. eapply within_ext; [|apply S1; auto]. symmetry. apply dot_off. apply empty_col_rows; auto.
    - intros j Hj T. destruct (Nat.eq_dec j k) as [->|D].
      + rewrite upd_same. apply within0. auto.
      + specialize (S2 j Hj). destruct (F13 j D) as [X1 X2]. rewrite ?upd_other, X1, X2 in S2 by auto. rewrite upd_other by auto. auto.
    - split; rewrite ?Q2, ?Q3; simpl; tauto. }
  constructor.
  - intros x S. split.
    + destruct S as [S1 [S2 S3]]. unfold s1, close_empty_col, sat, pinned. sr.
      rewrite ?F1, ?F2, ?F3, ?F4, ?F5, ?F6, ?F8, ?F11, ?F12. split; [|split]; auto.
      * intros j Hj. unfold upd. destruct (Nat.eqb_spec j k) as [|D]; [discriminate|]. destruct (F13 j D) as [X1 X2].
        rewrite X1, X2. auto.
      * rewrite Q2, Q3. simpl. tauto.
    + rewrite OB, obj_move by auto. destruct S as [_ [S2 _]]. specialize (S2 k Hk TK).
      unfold exactly in S2. apply (proj1 (within0 (lb s k) (x k) (ub s k))) in S2. destruct S2 as [A B].
      specialize (BEST (x k) A B). lra.
  - intros j Hj. apply LV in Hj. tauto.
  - intros x S. exists (upd x k v). split; [|split; [auto|]].
    + intros j Hj. apply LV in Hj. rewrite upd_other by tauto. lra.
    + rewrite OB. lra.
Qed.

Lemma empty_cols_loop : forall s l t, Ok s -> tags_right s -> NoDup l -> Ok t -> tags_right t ->
  (forall k, In k l -> In k (w_empty_cols t) /\ t_cinact (ct t k) = false /\
     (is_fin (lb t k) = true -> is_fin (ub t k) = true -> fin (lb t k) <= fin (ub t k)) /\
     ct t k = ct s k /\ lb t k = lb s k /\ ub t k = ub s k /\ cst t k = cst s k /\ mAT s k = []) ->
  nc t = nc s -> empty_act t -> estep s t ->
  let '(t', st) := for_until UNBNDORINFEAS remove_empty_col l t in
  (st = UNBNDORINFEAS -> forall x, sat zero zero s x -> forall M, exists y, sat zero zero s y /\ obj s y < M) /\
  (st = UNCHANGED -> tags_right t' /\ empty_act t' /\ estep s t').
Proof.
  intros s l. induction l as [|k l IH]; intros t OK TG ND OKt TGt HL EN AE ES; cbn [for_until].
  - split; [discriminate|auto].
  - inversion ND as [|? ? NI ND']; subst.
    destruct (HL k (or_introl eq_refl)) as [Hin [TK [LU [EC [EL [EU [ECS EAT]]]]]]].
    destruct (l_empty_cols t (inv_L t (ok_inv t OKt)) k Hin) as [Hk ET].
    assert (Hks : (k < nc s)%nat) by congruence.
    assert (TKs : t_cinact (ct s k) = false) by congruence.
    assert (CS : csz s k <> (-1)%Z) by (apply cact_alive; auto; apply OK).
    pose proof (tr_lb t TGt k Hk TK) as L0. pose proof (tr_ub t TGt k Hk TK) as U0.
    (* the step *)
    assert (GO : forall t1 v, remove_empty_col k t = (t1, UNCHANGED) ->
       (exists s0, t1 = close_empty_col k v s0 /\ near_empty k t s0) ->
       ext_le (lb t k) v -> le_ext v (ub t k) ->
       (forall w, ext_le (lb t k) w -> le_ext w (ub t k) -> cst t k * v <= cst t k * w) ->
       let '(t', st) := for_until UNBNDORINFEAS remove_empty_col l t1 in
       (st = UNBNDORINFEAS -> forall x, sat zero zero s x -> forall M, exists y, sat zero zero s y /\ obj s y < M) /\
       (st = UNCHANGED -> tags_right t' /\ empty_act t' /\ estep s t')).
    { intros t1 v ER EX L U BEST.
      pose proof (close_empty_estep t t1 k v OKt Hk TK ET EX L U BEST) as E1.
      pose proof (stp_empty_col t k (ok_inv t OKt) Hin) as SP.
      destruct (remove_empty_col_frame t k) as [A [B [C [D [F _]]]]]. rewrite ER in *. cbn [fst] in *.
            apply IH; auto.
      - destruct OKt as [X1 [Y1 Y2 Y3] X3]. constructor; [apply SP| |apply SP; auto].
        constructor; congruence.
      - destruct TGt as [G1 G2 G3 G4 G5].
        destruct EX as [s0 [-> [->|[[l0 ->]|[u0 ->]]]]]; unfold close_empty_col;
        constructor; sr; intros j Hj; updg; try discriminate; first [apply G1|apply G2|apply G3|apply G4|apply G5]; auto.
      - intros j Hj. assert (N : j <> k) by (intros ->; contradiction).
        destruct (HL j (or_intror Hj)) as [Y1 [Y2 [Y3 [Y4 [Y5 [Y6 [Y7 Y8]]]]]]].
        rewrite D. split; auto.
        destruct EX as [s0 [-> [->|[[l0 ->]|[u0 ->]]]]]; unfold close_empty_col; sr; rewrite ?upd_other by auto; auto 10.
      - destruct EX as [s0 [-> [->|[[l0 ->]|[u0 ->]]]]]; unfold close_empty_col; sr; auto.
      - destruct EX as [s0 [-> [->|[[l0 ->]|[u0 ->]]]]]; unfold close_empty_col; intros j; sr; apply AE.
      - eapply estep_trans; eauto. }
    assert (UNB : (cst s k < 0 /\ ub s k = PInf \/ 0 < cst s k /\ lb s k = NInf) ->
      forall x, sat zero zero s x -> forall M, exists y, sat zero zero s y /\ obj s y < M).
    { intros CASE x S M. pose proof S as [_ [S2 _]]. specialize (S2 k Hks TKs).
      unfold exactly in S2. apply (proj1 (within0 (lb s k) (x k) (ub s k))) in S2. destruct S2 as [A B].
      set (d := (M - 1 - obj s x) / cst s k).
      set (e := if Qltb (M - 1 - obj s x) 0 then d else 0).
      assert (NZ : ~ cst s k == 0) by (destruct CASE as [[? _]|[? _]]; lra).
      assert (CE : cst s k * d == M - 1 - obj s x) by (unfold d; field; auto).
      assert (CD : cst s k * e <= 0 /\ obj s x + cst s k * e < M).
      { unfold e. destruct (Qltb (M - 1 - obj s x) 0) eqn:Q; qb; [rewrite CE; split; lra|]. split; lra. }
      assert (SGN : (cst s k < 0 -> 0 <= e) /\ (0 < cst s k -> e <= 0)) by (split; intros; nra).
      exists (upd x k (x k + e)). split.
      - apply sat_move; auto.
        + destruct CASE as [[C1 C2]|[C1 C2]]; [|rewrite C2; exact I].
          destruct SGN as [SG _]. specialize (SG C1). destruct (lb s k); simpl in *; auto. lra.
        + destruct CASE as [[C1 C2]|[C1 C2]]; [rewrite C2; exact I|].
          destruct SGN as [_ SG]. specialize (SG C1). destruct (ub s k); simpl in *; auto. lra.
      - rewrite obj_move by auto. setoid_replace (x k + e - x k) with e by lra. lra. }
    destruct (remove_empty_col k t) as [t1 st1] eqn:ER.
    pose proof ER as ER0. unfold remove_empty_col in ER0.
    destruct (Qeqb (cst t k) 0) eqn:C0.
    + injection ER0 as E1 <-. cbn [N.eqb UNCHANGED UNBNDORINFEAS]. qb.
      set (v := if negb (t_lb_inf (ct t k)) && Qgtb (fin (lb t k)) 0 then fin (lb t k)
               else if negb (t_ub_inf (ct t k)) && Qltb (fin (ub t k)) 0 then fin (ub t k) else 0) in *.
      assert (LV : ext_le (lb t k) v /\ le_ext v (ub t k)).
      { assert (EUB : is_fin (lb t k) = false -> lb t k = NInf).
        { destruct (t_lb_inf (ct t k)); auto. congruence. }
        assert (ELB : is_fin (ub t k) = false -> ub t k = PInf).
        { destruct (t_ub_inf (ct t k)); auto. congruence. }
        assert (TL : t_lb_inf (ct t k) = negb (is_fin (lb t k))).
        { destruct (t_lb_inf (ct t k)); rewrite L0; reflexivity. }
        assert (TU : t_ub_inf (ct t k) = negb (is_fin (ub t k))).
        { destruct (t_ub_inf (ct t k)); rewrite U0; reflexivity. }
        unfold v. rewrite TL, TU.
        destruct (is_fin (lb t k)) eqn:FL, (is_fin (ub t k)) eqn:FU; cbn [negb andb].
        - specialize (LU eq_refl eq_refl). destruct (lb t k), (ub t k); try discriminate. simpl in *.
          destruct (Qgtb q 0) eqn:X1; [qb; split; lra|]. destruct (Qltb q0 0) eqn:X2; qb; split; lra.
        - rewrite (ELB eq_refl). destruct (lb t k); try discriminate. simpl in *.
          destruct (Qgtb q 0) eqn:X1; qb; split; auto; lra.
        - rewrite (EUB eq_refl). destruct (ub t k); try discriminate. simpl in *.
          destruct (Qltb q 0) eqn:X1; qb; split; auto; lra.
        - rewrite (EUB eq_refl), (ELB eq_refl). simpl. auto. }
      destruct LV as [LV UV].
      apply (GO t1 v); auto.
      * exists t. rewrite <- E1. split; auto. left; auto.
      * intros w _ _. rewrite C0. lra.
    + destruct (Qltb (cst t k) 0) eqn:C1.
      * destruct (t_ub_inf (ct t k)) eqn:TU.
        { injection ER0 as <- <-. cbn [N.eqb UNBNDORINFEAS Pos.eqb]. split; [|discriminate].
          intros _. apply UNB. left. qb. rewrite <- ECS, <- EU. auto. }
        injection ER0 as E1 <-. cbn [N.eqb UNCHANGED UNBNDORINFEAS]. qb.
        destruct (ub t k) as [|u|] eqn:EUt; try discriminate.
        apply (GO t1 u); auto.
        { eexists. split; [rewrite <- E1; reflexivity|]. right. left. eauto. }
        { destruct (lb t k) as [|l0|] eqn:EL0; simpl in *; auto.
          destruct (t_lb_inf (ct t k)); congruence. }
        { rewrite ?EUt; cbn [ext_le le_ext]; lra. }
        { intros w _ B. rewrite ?EUt in B; simpl in B; nra. }
      * destruct (t_lb_inf (ct t k)) eqn:TL.
        { injection ER0 as <- <-. cbn [N.eqb UNBNDORINFEAS Pos.eqb]. split; [|discriminate].
          intros _. apply UNB. right. qb. rewrite <- ECS, <- EL. split; auto.
          destruct (Qlt_le_dec 0 (cst t k)); auto. exfalso. apply C0. lra. }
        injection ER0 as E1 <-. cbn [N.eqb UNCHANGED UNBNDORINFEAS]. qb.
        destruct (lb t k) as [|u|] eqn:EUt; try discriminate.
        apply (GO t1 u); auto.
        { eexists. split; [rewrite <- E1; reflexivity|]. right. right. eauto. }
        { rewrite ?EUt; cbn [ext_le le_ext]; lra. }
        { destruct (ub t k) as [|l0|] eqn:EL0; simpl in *; auto.
          destruct (t_ub_inf (ct t k)); congruence. }
        { intros w A _. rewrite ?EUt in A; simpl in A; nra. }
Qed.

Lemma empty_cols_sem : forall s s' st, Ok s -> tags_right s -> empty_act s -> empty_cols_fresh s ->
  remove_empty_cols s = (s', st) ->
  (st = UNBNDORINFEAS -> forall x, feasible (reduced_lp s) x -> unbounded (reduced_lp s)) /\
  (st = UNCHANGED -> Ok s' /\ tags_right s' /\ empty_act s' /\
     no_worse (reduced_lp s) (reduced_lp s') /\ lifts_back exactly exactly (reduced_lp s) (reduced_lp s')).
Proof.
  intros s s' st OK TG AE [ND FR] E.
  pose proof (empty_cols_spec s (ok_inv s OK)) as SP. rewrite E in SP.
  destruct SP as [S1 [R1 [R2 [R3 [R4 R5]]]]].
  assert (L : forall k, In k (w_empty_cols s) -> In k (w_empty_cols s) /\ t_cinact (ct s k) = false /\
     (is_fin (lb s k) = true -> is_fin (ub s k) = true -> fin (lb s k) <= fin (ub s k)) /\
     ct s k = ct s k /\ lb s k = lb s k /\ ub s k = ub s k /\ cst s k = cst s k /\ mAT s k = []).
  { intros k Hk. destruct (FR k Hk). split; auto. split; auto. split; auto. repeat (split; [reflexivity|]).
    apply (l_empty_cols s (inv_L s (ok_inv s OK)) k Hk). }
  pose proof (empty_cols_loop s (w_empty_cols s) s OK TG ND OK TG L eq_refl AE (estep_refl s)) as LP.
  unfold remove_empty_cols in E.
  destruct (for_until UNBNDORINFEAS remove_empty_col (w_empty_cols s) s) as [t st0] eqn:EF.
  destruct LP as [LP1 LP2]. 
  pose proof (for_until_st UNBNDORINFEAS remove_empty_col (w_empty_cols s) s) as Y. rewrite EF in Y. cbn [snd] in Y.
  destruct (N.eqb_spec st0 UNBNDORINFEAS) as [->|NE]; injection E as <- <-; (split; [intros ST|intros ST]); try discriminate.
  - intros x F M. apply sat_feasible in F; auto. destruct (LP1 eq_refl x F M) as [y [A B]].
    exists y. split; auto. apply sat_feasible; auto.
  - assert (Y0 : st0 = UNCHANGED) by (destruct Y; tauto). specialize (LP2 Y0). destruct LP2 as [T [A ES]].
    assert (OK' : Ok (set_w_empty_cols [] t)).
    { destruct OK as [X1 [Y1 Y2 Y3] X3]. constructor; [apply S1| |apply S1; auto]. constructor; congruence. }
    split; auto. split; [|split].
    + destruct T. constructor; sr; auto.
    + intros k. sr. apply A.
    + apply estep_lp; auto.
      destruct ES as [F1 L1 B1]. constructor; auto.
Qed.
