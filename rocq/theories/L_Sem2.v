(** Feasibility and objective of a state; deletion of fixed and substituted columns (C20). *)
From Coq Require Import NArith Lqa.
From Verif Require Import M_Num S_LP M_Settings M_Driver S_Driver M_State M_Act M_Core M_Simple
  M_StonCols M_Dton M_Parallel M_Propagate M_Init M_Post M_Run S_Run S_Struct S_Sem
  L_State L_Struct L_Struct2 L_Struct3 L_Struct4 L_Struct5 L_Struct6 L_Struct11 L_Sem.
Open Scope Q_scope.

(** ** Coefficients *)
Lemma coeff_out : forall r k, ~ has k r -> coeff r k == 0.
Proof.
  induction r as [|[j a] r IH]; simpl; intros k N; [lra|].
  destruct (Nat.eqb_spec j k) as [->|].
  - exfalso. apply N. exists a. left; reflexivity.
  - rewrite IH; [lra|]. intros [b Hb]. apply N. exists b. right; auto.
Qed.
Lemma coeff_in : forall r k a, srt r -> In (k, a) r -> coeff r k == a.
Proof.
  induction r as [|[j b] r IH]; simpl; intros k a S Hin; [tauto|].
  apply srt_inv in S. destruct S as [S L]. destruct Hin as [E|Hin].
  - injection E as -> ->. rewrite Nat.eqb_refl, coeff_out; [lra|].
    intros [c Hc]. apply L in Hc. simpl in Hc. lia.
  - destruct (Nat.eqb_spec j k) as [->|]; [apply L in Hin; simpl in Hin; lia|].
    rewrite (IH k a S Hin). lra.
Qed.

(** ** The meaning of a state *)
Definition pinned (s : state) (x : nat -> Q) : Prop :=
  (forall k, In k (w_fixed s) -> x k == fin (ub s k)) /\ (forall k, In k (w_sub s) -> x k == 0).
Definition sat (rtol ctol : nat -> Q) (s : state) (x : nat -> Q) : Prop :=
  (forall i, (i < nr s)%nat -> t_inact (rt s i) = false ->
     within (rtol i) (lhs s i) (dot (mA s i) x) (rhs s i)) /\
  (forall k, (k < nc s)%nat -> t_cinact (ct s k) = false ->
     within (ctol k) (lb s k) (x k) (ub s k)) /\
  pinned s x.
Definition obj (s : state) (x : nat -> Q) : Q :=
  off s + sumQ (live_cols s) (fun k => cst s k * x k).
Notation zero := exactly.

(** Columns waiting to be deleted are listed once and hold their value in the upper bound. *)
Record pend_ok (s : state) : Prop := {
  po_nd : NoDup (w_fixed s);
  po_fx : forall k, In k (w_fixed s) -> csz s k <> (-1)%Z /\ t_sub (ct s k) = false }.
Lemma pend_nil : forall s, w_fixed s = [] -> pend_ok s.
Proof. intros s E. constructor; rewrite E; [constructor|simpl; tauto]. Qed.

Lemma live_cols_in : forall s k, In k (live_cols s) <-> (k < nc s)%nat /\ csz s k <> (-1)%Z.
Proof.
  intros. unfold live_cols. rewrite filter_In, in_seq, negb_true_iff, Z.eqb_neq.
  split; intros [A B]; split; auto; lia.
Qed.
Lemma live_rows_in : forall s i, In i (live_rows s) <-> (i < nr s)%nat /\ rsz s i <> (-1)%Z.
Proof.
  intros. unfold live_rows. rewrite filter_In, in_seq, negb_true_iff, Z.eqb_neq.
  split; intros [A B]; split; auto; lia.
Qed.
Lemma live_cols_nd : forall s, NoDup (live_cols s).
Proof. intros. apply NoDup_filter, seq_NoDup. Qed.

(** Between explorers this is the reduced problem. *)
Lemma quiet_row : forall s i, Inv s -> w_rows s = [] -> (i < nr s)%nat ->
  (rsz s i <> (-1)%Z <-> t_inact (rt s i) = false).
Proof.
  intros s i H W Hi. split; intros A.
  - destruct (t_inact (rt s i)) eqn:T; auto. exfalso. apply A.
    eapply pend_or_dead; eauto; apply H.
  - apply act_alive; auto. apply H.
Qed.
Lemma quiet_col : forall s k, Inv s -> w_fixed s = [] -> w_sub s = [] -> (k < nc s)%nat ->
  (csz s k <> (-1)%Z <-> t_cinact (ct s k) = false).
Proof.
  intros s k H W1 W2 Hk. split; intros A.
  - destruct (t_cinact (ct s k)) eqn:T; auto. exfalso.
    destruct (l_pend s (inv_L s H) k Hk T A) as [B|B]; rewrite ?W1, ?W2 in B; contradiction.
  - intros E. destruct (w_cdead s (inv_0 s H) k Hk E). congruence.
Qed.
Lemma sat_reduced : forall rtol ctol s x, Ok s ->
  (sat rtol ctol s x <-> feasible_up_to rtol ctol (reduced_lp s) x).
Proof.
  intros rtol ctol s x [H [Q1 Q2 Q3] _]. unfold sat, feasible_up_to, pinned. simpl. rewrite Q2, Q3. split.
  - intros [A [B _]]. split.
    + intros i Hi. apply live_rows_in in Hi. destruct Hi as [Hi R]. apply A; auto.
      apply quiet_row; auto.
    + intros k Hk. apply live_cols_in in Hk. destruct Hk as [Hk R]. apply B; auto.
      apply quiet_col; auto.
  - intros [A B]. split; [|split; [|simpl; tauto]].
    + intros i Hi T. apply A. apply live_rows_in. split; auto. apply quiet_row; auto.
    + intros k Hk T. apply B. apply live_cols_in. split; auto. apply quiet_col; auto.
Qed.
Lemma feasible_up_to_0 : forall P x, feasible_up_to zero zero P x <-> feasible P x.
Proof.
  intros. unfold feasible_up_to, feasible, row_sat, col_sat, exactly. split; intros [A B]; (split; intros; apply within0; auto).
Qed.
Lemma sat_feasible : forall s x, Ok s -> (sat zero zero s x <-> feasible (reduced_lp s) x).
Proof. intros. rewrite sat_reduced by auto. apply feasible_up_to_0. Qed.
Lemma obj_reduced : forall s x, obj s x = objective (reduced_lp s) x.
Proof. reflexivity. Qed.

(** ** Shifting the sides by a fixed column *)
Definition act_moved (a a' : activity) (d : Q) : Prop :=
  n_inf_min a' = n_inf_min a /\ n_inf_max a' = n_inf_max a /\ a_st a' = a_st a /\
  (n_inf_min a = 0%Z -> a_min a' == a_min a - d) /\ (n_inf_max a = 0%Z -> a_max a' == a_max a - d).
Lemma act_moved_0 : forall a d, d == 0 -> act_moved a a d.
Proof. intros a d D. repeat (split; auto). all: intros; lra. Qed.
Lemma act_moved_ext : forall a a' d d', d == d' -> act_moved a a' d -> act_moved a a' d'.
Proof.
  intros a a' d d' D [A [B [C [E F]]]]. do 3 (split; [auto|]). split; intros Z; [rewrite (E Z)|rewrite (F Z)]; lra.
Qed.
Lemma act_moved_trans : forall a b c d e, act_moved a b d -> act_moved b c e -> act_moved a c (d + e).
Proof.
  intros a b c d e [A [B [C [E F]]]] [A' [B' [C' [E' F']]]].
  do 3 (split; [congruence|]). split; intros Z; [rewrite E', (E Z) by congruence|rewrite F', (F Z) by congruence]; lra.
Qed.

Definition tags_lr (s : state) (i : nat) : Prop :=
  (if t_lhs_inf (rt s i) then lhs s i = NInf else is_fin (lhs s i) = true) /\
  (if t_rhs_inf (rt s i) then rhs s i = PInf else is_fin (rhs s i) = true).
Lemma tags_lr_of : forall s i, tags_right s -> (i < nr s)%nat -> t_inact (rt s i) = false -> tags_lr s i.
Proof. intros s i T Hi A. split; [apply (tr_lhs s T)|apply (tr_rhs s T)]; auto. Qed.

Lemma shift_sides_spec : forall v s e, let s' := shift_sides v s e in
  (exists L R A, s' = set_lhs L (set_rhs R (set_acts A s))) /\
  (forall i, t_inact (rt s i) = true \/ i <> fst e ->
     lhs s' i = lhs s i /\ rhs s' i = rhs s i /\ acts s' i = acts s i) /\
  (t_inact (rt s (fst e)) = false -> tags_lr s (fst e) ->
     moved (lhs s (fst e)) (lhs s' (fst e)) (snd e * v) /\
     moved (rhs s (fst e)) (rhs s' (fst e)) (snd e * v) /\
     act_moved (acts s (fst e)) (acts s' (fst e)) (snd e * v)).
Proof.
  intros v s [i a]. cbv zeta. unfold shift_sides. cbn [fst snd].
  destruct (t_inact (rt s i)) eqn:T.
  - split; [exists (lhs s), (rhs s), (acts s); destruct s; reflexivity|].
    split; [auto|discriminate].
  - set (L := if t_lhs_inf (rt s i) then lhs s else upd (lhs s) i (ext_sub (lhs s i) (a * v))).
    set (R := if t_rhs_inf (rt s i) then rhs s else upd (rhs s) i (ext_sub (rhs s i) (a * v))).
    set (b := acts s i).
    set (A := upd (acts s) i (Act (if Z.eqb (n_inf_min b) 0 then a_min b - a * v else a_min b)
                  (if Z.eqb (n_inf_max b) 0 then a_max b - a * v else a_max b)
                  (n_inf_min b) (n_inf_max b) (a_st b))).
    match goal with |- context [set_act1 i ?x ?y] => assert (E : set_act1 i x y = set_lhs L (set_rhs R (set_acts A s))) end.
    { subst L R A b. destruct (t_lhs_inf (rt s i)) eqn:T1; sr; destruct (t_rhs_inf (rt s i)) eqn:T2; sr;
        destruct s; reflexivity. }
    rewrite E. split; [eauto|]. sr. split.
    + intros j Hj'. assert (Hj : j <> i) by (destruct Hj' as [Hj|Hj]; congruence). clear Hj'. subst L R A.
      destruct (t_lhs_inf (rt s i)), (t_rhs_inf (rt s i)); rewrite ?upd_other by auto; auto.
    + intros _ [TL TR]. split; [|split].
      * subst L. destruct (t_lhs_inf (rt s i)).
        -- rewrite TL. reflexivity.
        -- rewrite upd_same. destruct (lhs s i); try discriminate. simpl. eexists. split; [reflexivity|]. lra.
      * subst R. destruct (t_rhs_inf (rt s i)).
        -- rewrite TR. reflexivity.
        -- rewrite upd_same. destruct (rhs s i); try discriminate. simpl. eexists. split; [reflexivity|]. lra.
      * subst A. rewrite upd_same. fold b. unfold act_moved. cbn [n_inf_min n_inf_max a_st a_min a_max].
        do 3 (split; [reflexivity|]). split; intros ->; simpl; lra.
Qed.

Lemma tags_lr_moved : forall s s' i d, rt s' = rt s -> moved (lhs s i) (lhs s' i) d ->
  moved (rhs s i) (rhs s' i) d -> tags_lr s i -> tags_lr s' i.
Proof.
  intros s s' i d E M1 M2 [A B]. unfold tags_lr. rewrite E. split.
  - destruct (t_lhs_inf _); [rewrite A in M1; exact M1|]. rewrite (moved_is_fin _ _ _ M1). exact A.
  - destruct (t_rhs_inf _); [rewrite B in M2; exact M2|]. rewrite (moved_is_fin _ _ _ M2). exact B.
Qed.

Lemma shift_fold : forall v l s, srt l -> let s' := foldS (shift_sides v) l s in
  (exists L R A, s' = set_lhs L (set_rhs R (set_acts A s))) /\
  (forall i, t_inact (rt s i) = true \/ ~ has i l ->
     lhs s' i = lhs s i /\ rhs s' i = rhs s i /\ acts s' i = acts s i) /\
  (forall i, t_inact (rt s i) = false -> tags_lr s i ->
     moved (lhs s i) (lhs s' i) (coeff l i * v) /\ moved (rhs s i) (rhs s' i) (coeff l i * v) /\
     act_moved (acts s i) (acts s' i) (coeff l i * v)).
Proof.
  induction l as [|[j a] l IH]; intros s S; cbv zeta; cbn [foldS].
  - split; [exists (lhs s), (rhs s), (acts s); destruct s; reflexivity|]. split; [auto|].
    intros i T _. cbn [coeff]. split; [apply moved_0; lra|split; [apply moved_0; lra|apply act_moved_0; lra]].
  - pose proof (shift_sides_spec v s (j, a)) as X. cbv zeta in X.
    set (s1 := shift_sides v s (j, a)) in *. destruct X as [[L [R [A E]]] [X1 X2]]. cbn [fst snd] in *.
    apply srt_inv in S. destruct S as [S LT].
    assert (ER : rt s1 = rt s) by (rewrite E; reflexivity).
    specialize (IH s1 S). cbv zeta in IH.
    change (foldS (shift_sides v) ((j, a) :: l) s) with (foldS (shift_sides v) l s1).
    set (s2 := foldS (shift_sides v) l s1) in *. destruct IH as [[L' [R' [A' E']]] [Y1 Y2]].
    rewrite ER in Y1, Y2.
    assert (NJ : ~ has j l). { intros [b Hb]. apply LT in Hb. simpl in Hb. lia. }
    split; [exists L', R', A'; rewrite E', E; reflexivity|]. split.
    + intros i Hi. destruct (Y1 i) as [B1 [B2 B3]].
      { destruct Hi as [Hi|Hi]; auto. right. intros [b Hb]. apply Hi. exists b. right; auto. }
      destruct (X1 i) as [C1 [C2 C3]].
      { destruct Hi as [Hi|Hi]; auto. right. intros ->. apply Hi. exists a. left; auto. }
      rewrite B1, B2, B3. auto.
    + intros i T TG. cbn [coeff]. destruct (Nat.eqb_spec j i) as [<-|D].
      * destruct (Y1 j (or_intror NJ)) as [B1 [B2 B3]]. rewrite B1, B2, B3.
        destruct (X2 T TG) as [C1 [C2 C3]].
        assert (Z : a * v == (a + coeff l j) * v) by (rewrite (coeff_out l j NJ); lra).
        split; [eapply moved_ext; eauto|split; [eapply moved_ext; eauto|eapply act_moved_ext; eauto]].
      * destruct (X1 i) as [C1 [C2 C3]]; [right; auto|].
        assert (TG1 : tags_lr s1 i) by (unfold tags_lr; rewrite ER, C1, C2; exact TG).
        destruct (Y2 i T TG1) as [B1 [B2 B3]]. rewrite C1 in B1. rewrite C2 in B2. rewrite C3 in B3.
        assert (Z : coeff l i * v == (0 + coeff l i) * v) by lra.
        split; [eapply moved_ext; eauto|split; [eapply moved_ext; eauto|eapply act_moved_ext; eauto]].
Qed.

(** ** Fixed columns leave the problem *)
Definition shift_rel (s s' : state) (i : nat) (d : Q) : Prop :=
  moved (lhs s i) (lhs s' i) d /\ moved (rhs s i) (rhs s' i) d /\ act_moved (acts s i) (acts s' i) d.

Lemma dfc_one : forall s k, srt (mAT s k) -> let s' := delete_fixed_col_from_problem s k in
  (exists L R A o, s' = set_off o (set_lhs L (set_rhs R (set_acts A s))) /\
                   o == off s + cst s k * fin (ub s k)) /\
  (forall i, t_inact (rt s i) = true \/ ~ has i (mAT s k) ->
     lhs s' i = lhs s i /\ rhs s' i = rhs s i /\ acts s' i = acts s i) /\
  (forall i, t_inact (rt s i) = false -> tags_lr s i ->
     shift_rel s s' i (coeff (mAT s k) i * fin (ub s k))).
Proof.
  intros s k S. cbv zeta. unfold delete_fixed_col_from_problem, shift_rel.
  destruct (Qeqb (fin (ub s k)) 0) eqn:E0.
  - qb. split.
    { exists (lhs s), (rhs s), (acts s), (off s). split; [destruct s; reflexivity|]. rewrite E0. lra. }
    split; [auto|]. intros i T _.
    assert (Z : coeff (mAT s k) i * fin (ub s k) == 0) by (rewrite E0; lra).
    split; [apply moved_0; lra|split; [apply moved_0; lra|apply act_moved_0; lra]].
  - destruct (shift_fold (fin (ub s k)) (mAT s k) s S) as [[L [R [A E]]] [X Y]].
    unfold fix_var_in_obj. rewrite E in *. sr. sr in X. sr in Y. split; [|auto].
    eexists L, R, A, _. split; [reflexivity|]. lra.
Qed.

Lemma dfc_fold : forall l s, (forall k, In k l -> srt (mAT s k)) -> NoDup l ->
  (forall i k a, In k l -> (i < nr s)%nat -> t_inact (rt s i) = false ->
     In (i, a) (mAT s k) <-> In (k, a) (mA s i)) ->
  (forall i, (i < nr s)%nat -> t_inact (rt s i) = false -> srt (mA s i)) ->
  let s' := foldS delete_fixed_col_from_problem l s in
  (exists L R A o, s' = set_off o (set_lhs L (set_rhs R (set_acts A s))) /\
                   o == off s + sumQ l (fun k => cst s k * fin (ub s k))) /\
  (forall i, t_inact (rt s i) = true -> lhs s' i = lhs s i /\ rhs s' i = rhs s i /\ acts s' i = acts s i) /\
  (forall i, (i < nr s)%nat -> t_inact (rt s i) = false -> tags_lr s i ->
     shift_rel s s' i (part (mA s i) l (fun k => fin (ub s k)))).
Proof.
  induction l as [|k l IH]; intros s S ND AG SR; cbv zeta; cbn [foldS].
  - split. { exists (lhs s), (rhs s), (acts s), (off s). split; [destruct s; reflexivity|]. simpl. lra. }
    split; [auto|]. intros i Hi T _. pose proof (part_nil (mA s i) (fun k => fin (ub s k))) as Z.
    split; [apply moved_0; auto|split; [apply moved_0; auto|apply act_moved_0; auto]].
  - destruct (dfc_one s k (S k (or_introl eq_refl))) as [[L [R [A [o [E EO]]]]] [X Y]].
    change (foldS _ (k :: l) s) with (foldS delete_fixed_col_from_problem l (delete_fixed_col_from_problem s k)).
    set (s1 := delete_fixed_col_from_problem s k) in *.
    inversion ND; subst.
    destruct (IH s1) as [[L' [R' [A' [o' [E' EO']]]]] [X' Y']]; clear IH; auto.
    { intros; rewrite E; sr; apply S; simpl; auto. }
    { intros i j a Hj. rewrite E. sr. apply AG; simpl; auto. }
    { intros i. rewrite E. sr. apply SR. }
    set (s2 := foldS delete_fixed_col_from_problem l s1) in *.
    assert (ER : rt s1 = rt s) by (rewrite E; reflexivity).
    assert (EN : nr s1 = nr s) by (rewrite E; reflexivity).
    rewrite ER in X', Y'. rewrite EN in Y'.
    split.
    { exists L', R', A', o'. split; [rewrite E', E; reflexivity|].
      rewrite EO'. rewrite E. sr. rewrite EO. simpl. lra. }
    split.
    { intros i T. destruct (X' i T) as [-> [-> ->]]. apply X. auto. }
    intros i Hi T TG. destruct (Y i T TG) as [M1 [M2 M3]].
    assert (TG1 : tags_lr s1 i) by (eapply tags_lr_moved; eauto).
    destruct (Y' i Hi T TG1) as [M1' [M2' M3']].
    assert (Z : coeff (mAT s k) i * fin (ub s k) + part (mA s1 i) l (fun k => fin (ub s1 k)) ==
                part (mA s i) (k :: l) (fun k => fin (ub s k))).
    { rewrite E. sr. destruct (hasb k (mA s i)) eqn:HB.
      - apply hasb_has in HB. destruct HB as [a Ha].
        rewrite (part_add_in (mA s i) k a l _ (SR i Hi T) Ha) by auto.
        rewrite (coeff_in _ i a); [lra|apply S; simpl; auto|]. apply AG; simpl; auto.
      - assert (NH : ~ has k (mA s i)) by (intros C; apply hasb_has in C; congruence).
        rewrite (part_add_out _ _ _ _ NH). rewrite coeff_out; [lra|].
        intros [a Ha]. apply NH. exists a. apply AG; simpl; auto. }
    split; [|split].
    + eapply moved_ext; [exact Z|]. eapply moved_trans; eauto.
    + eapply moved_ext; [exact Z|]. eapply moved_trans; eauto.
    + eapply act_moved_ext; [exact Z|]. eapply act_moved_trans; eauto.
Qed.

Lemma filter_cinact_part : forall s i x, Inv s -> (i < nr s)%nat -> t_inact (rt s i) = false ->
  pinned s x ->
  dot (mA s i) x == dot (filter (fun e => negb (t_cinact (ct s (fst e)))) (mA s i)) x +
                    part (mA s i) (w_fixed s) (fun k => fin (ub s k)).
Proof.
  intros s i x H Hi T [P1 P2].
  rewrite (dot_split (fun e => negb (t_cinact (ct s (fst e)))) (mA s i) x).
  apply Qplus_inj_l. unfold part.
  rewrite (dot_split (fun e => memb (fst e) (w_fixed s))). rewrite !filter_filter.
  rewrite (dot_0 (filter (fun e => negb (memb (fst e) (w_fixed s)) && negb (negb (t_cinact (ct s (fst e))))) (mA s i))).
  - rewrite (filter_ext_in (fun e => memb (fst e) (w_fixed s) && negb (negb (t_cinact (ct s (fst e)))))
               (fun e => memb (fst e) (w_fixed s))).
    + rewrite (dot_ext _ x (fun k => fin (ub s k))); [lra|]. intros k a Hk. apply filter_In in Hk.
      destruct Hk as [_ Hk]. apply memb_In in Hk. auto.
    + intros [k a] Hk. simpl. destruct (memb k (w_fixed s)) eqn:M; auto. apply memb_In in M.
      destruct (l_fixed s (inv_L s H) k M) as [_ F]. unfold t_cinact. rewrite F. reflexivity.
  - intros k a Hk. apply filter_In in Hk. destruct Hk as [Hk C]. cbn [fst] in C.
    rewrite negb_involutive, andb_true_iff, negb_true_iff, memb_nIn in C. destruct C as [C1 C2].
    apply P2. destruct (w_rin s (inv_0 s H) i k a Hi Hk) as [Hk' _].
    destruct (l_pend s (inv_L s H) k Hk' C2) as [X|X]; auto; [|contradiction].
    eapply (inv_R s H); eauto.
Qed.

Lemma sat_pinned : forall r c s x, sat r c s x -> pinned s x.
Proof. intros r c s x [_ [_ P]]. exact P. Qed.

Definition finish (s : state) : state :=
  delete_inactive_cols_from_A_and_AT (delete_fixed_cols_from_problem s).

Lemma sumQ_filter0 : forall p l f, (forall k, In k l -> p k = false -> f k == 0) ->
  sumQ l f == sumQ (filter p l) f.
Proof.
  intros p l f H. rewrite (sumQ_split p). rewrite (sumQ_0 (filter (fun k => negb (p k)) l)); [lra|].
  intros k Hk. apply filter_In in Hk. destruct Hk as [Hk N]. apply negb_true_iff in N. auto.
Qed.

(** Rows listed as empty are active. *)
Definition empty_act (s : state) : Prop := forall i, In i (w_empty_rows s) -> t_inact (rt s i) = false.

Lemma finish_sem : forall s, Inv s -> tags_right s -> pend_ok s ->
  w_sub s = [] \/ w_ston_rows s = [] ->
  let s' := finish s in
  (forall r c x, sat r c s x <-> sat r c s' x /\ pinned s x) /\
  (forall x, pinned s x -> obj s' x == obj s x) /\
  tags_right s' /\
  (lb s' = lb s /\ ub s' = ub s /\ cst s' = cst s /\ ct s' = ct s /\ rt s' = rt s /\
   ups s' = ups s /\ dns s' = dns s /\ nr s' = nr s /\ nc s' = nc s) /\
  (forall i, (i < nr s)%nat -> t_inact (rt s i) = false ->
     mA s' i = filter (fun e => negb (t_cinact (ct s (fst e)))) (mA s i) /\
     shift_rel s s' i (part (mA s i) (w_fixed s) (fun k => fin (ub s k)))) /\
  (forall k, In k (live_cols s') <-> (k < nc s)%nat /\ t_cinact (ct s k) = false) /\
  (empty_act s -> empty_act s').
Proof.
  intros s H TG PO PRE. cbv zeta.
  pose proof (finish_cols s H PRE) as FC. cbv zeta in FC. fold (finish s) in FC.
  destruct FC as [I' [M' [_ [_ [WF [WS AD]]]]]].
  destruct (dfc_fold (w_fixed s) s) as [[L [R [A [o [E EO]]]]] [_ Y]].
  { intros k Hk. apply (w_csrt s (inv_0 s H)). apply (l_fixed s (inv_L s H) k Hk). }
  { apply (po_nd s PO). }
  { intros i k a Hk Hi T. symmetry. apply (w_agree s (inv_0 s H)); auto.
    - apply (l_fixed s (inv_L s H) k Hk).
    - apply act_alive; auto. apply H.
    - apply (po_fx s PO k Hk). }
  { intros. apply (w_rsrt s (inv_0 s H)). auto. }
  fold (delete_fixed_cols_from_problem s) in E, Y.
  set (s1 := delete_fixed_cols_from_problem s) in *. unfold finish. fold s1.
  fold s1 in AD. unfold finish in AD, I', M', WF, WS. fold s1 in AD, I', M', WF, WS.
  set (s' := delete_inactive_cols_from_A_and_AT s1) in *.
  destruct (dic_frame _ _ AD) as [MT [r0 [c0 [M0 [st0 [n0 [wd [ws [we F]]]]]]]]].
  assert (ENR : nr s' = nr s) by (rewrite F, E; reflexivity).
  assert (ENC : nc s' = nc s) by (rewrite F, E; reflexivity).
  assert (ERT : rt s' = rt s) by (rewrite F, E; reflexivity).
  assert (ECT : ct s' = ct s) by (rewrite F, E; reflexivity).
  assert (ELB : lb s' = lb s) by (rewrite F, E; reflexivity).
  assert (EUB : ub s' = ub s) by (rewrite F, E; reflexivity).
  assert (ECS : cst s' = cst s) by (rewrite F, E; reflexivity).
  assert (EU : ups s' = ups s) by (rewrite F, E; reflexivity).
  assert (ED : dns s' = dns s) by (rewrite F, E; reflexivity).
  assert (EL1 : lhs s' = lhs s1) by (rewrite F; reflexivity).
  assert (ER1 : rhs s' = rhs s1) by (rewrite F; reflexivity).
  assert (EA1 : acts s' = acts s1) by (rewrite F; reflexivity).
  assert (EOF : off s' = off s1) by (rewrite F; reflexivity).
  assert (N1 : nr s1 = nr s) by (rewrite E; reflexivity).
  assert (C1 : nc s1 = nc s) by (rewrite E; reflexivity).
  assert (R1 : rt s1 = rt s) by (rewrite E; reflexivity).
  assert (T1 : ct s1 = ct s) by (rewrite E; reflexivity).
  assert (A1 : mA s1 = mA s) by (rewrite E; reflexivity).
  assert (Z1 : csz s1 = csz s) by (rewrite E; reflexivity).
  assert (EMA : forall i, (i < nr s)%nat -> t_inact (rt s i) = false ->
     mA s' i = filter (fun e => negb (t_cinact (ct s (fst e)))) (mA s i)).
  { intros i Hi T. rewrite <- T1, <- A1. apply (dic_A _ _ AD); [rewrite N1|rewrite R1]; auto. }
  assert (SH : forall i, (i < nr s)%nat -> t_inact (rt s i) = false ->
     shift_rel s s' i (part (mA s i) (w_fixed s) (fun k => fin (ub s k)))).
  { intros i Hi T. unfold shift_rel. rewrite EL1, ER1, EA1.
    apply Y; auto. apply tags_lr_of; auto. }
  assert (LC : forall k, In k (live_cols s') <-> (k < nc s)%nat /\ t_cinact (ct s k) = false).
  { intros k. rewrite live_cols_in, ENC. split; intros [A0 B0]; split; auto.
    - rewrite (dic_csz _ _ AD) in B0 by (rewrite C1; auto). rewrite T1 in B0.
      destruct (t_cinact (ct s k)); congruence.
    - rewrite (dic_csz _ _ AD) by (rewrite C1; auto). rewrite T1, B0, Z1.
      intros X. apply (w_cdead s (inv_0 s H) k A0) in X. destruct X; congruence. }
  split; [|split; [|split; [|split; [|split; [|split]]]]]; auto 12.
  - intros r c x. unfold sat. split.
    + intros [X1 [X2 X3]]. split; [|exact X3]. split; [|split].
      * rewrite ENR, ERT. intros i Hi T. destruct (SH i Hi T) as [B1 [B2 _]].
        rewrite EMA by auto. eapply within_moved; [exact B1|exact B2|].
        eapply within_ext; [|apply X1; auto]. apply filter_cinact_part; auto.
      * rewrite ENC, ECT, ELB, EUB. auto.
      * unfold pinned. rewrite WF, WS. simpl. tauto.
    + intros [[X1 [X2 _]] X3]. split; [|split]; auto.
      * intros i Hi T. destruct (SH i Hi T) as [B1 [B2 _]].
        eapply within_ext; [symmetry; apply filter_cinact_part; auto|].
        eapply within_moved; [exact B1|exact B2|]. rewrite <- EMA by auto.
        apply X1; [rewrite ENR|rewrite ERT]; auto.
      * intros k Hk T. rewrite <- ELB, <- EUB. apply X2; [rewrite ENC|rewrite ECT]; auto.
  - intros x [P1 P2]. unfold obj. rewrite EOF, ECS.
    assert (EO1 : off s1 == off s + sumQ (w_fixed s) (fun k => cst s k * fin (ub s k))).
    { rewrite E. sr. exact EO. }
    rewrite EO1. clear EO EO1.
    rewrite (sumQ_split (fun k => negb (t_cinact (ct s k))) (live_cols s)).
    rewrite (sumQ_same (filter (fun k => negb (t_cinact (ct s k))) (live_cols s)) (live_cols s')).
    2:{ apply NoDup_filter, live_cols_nd. } 2:{ apply live_cols_nd. }
    2:{ intros k. rewrite LC, filter_In, live_cols_in, negb_true_iff. split; [tauto|].
        intros [A0 B0]. repeat split; auto. intros X. apply (w_cdead s (inv_0 s H) k A0) in X. destruct X; congruence. }
    rewrite (sumQ_filter0 (fun k => memb k (w_fixed s)) (filter (fun k => negb (negb (t_cinact (ct s k)))) (live_cols s))).
    2:{ intros k Hk N. apply memb_nIn in N. apply filter_In in Hk. destruct Hk as [Hk C].
        apply live_cols_in in Hk. destruct Hk as [Hk Ck]. rewrite negb_involutive in C.
        destruct (l_pend s (inv_L s H) k Hk C Ck) as [X|X]; [contradiction|]. rewrite (P2 k X). lra. }
    rewrite (sumQ_same (filter (fun k => memb k (w_fixed s)) (filter (fun k => negb (negb (t_cinact (ct s k)))) (live_cols s))) (w_fixed s)).
    2:{ apply NoDup_filter, NoDup_filter, live_cols_nd. } 2:{ apply (po_nd s PO). }
    2:{ intros k. rewrite !filter_In, live_cols_in, negb_involutive, memb_In. split; [tauto|].
        intros Hk. destruct (l_fixed s (inv_L s H) k Hk) as [A0 B0].
        destruct (po_fx s PO k Hk) as [C0 _]. unfold t_cinact. rewrite B0. auto. }
    rewrite (sumQ_ext (w_fixed s) (fun k => cst s k * x k) (fun k => cst s k * fin (ub s k))); [lra|].
    intros k Hk. rewrite (P1 k Hk). lra.
  - destruct TG as [G1 G2 G3 G4 G5].
    assert (TT : forall i, (i < nr s)%nat -> t_inact (rt s i) = false -> tags_lr s' i).
    { intros i Hi T. destruct (SH i Hi T) as [B1 [B2 _]]. eapply tags_lr_moved; [exact ERT|exact B1|exact B2|].
      split; [apply G1|apply G2]; auto. }
    constructor; rewrite ?ENR, ?ENC, ?ERT, ?ECT, ?ELB, ?EUB; auto.
    + intros i Hi T. destruct (TT i Hi T) as [X _]. rewrite ERT in X. exact X.
    + intros i Hi T. destruct (TT i Hi T) as [_ X]. rewrite ERT in X. exact X.
    + intros i Hi T TE. destruct (G3 i Hi T TE) as [p [q [EP [EQ PQ]]]].
      destruct (SH i Hi T) as [B1 [B2 _]]. rewrite EP in B1. rewrite EQ in B2. cbn [moved] in B1, B2.
      destruct B1 as [p' [-> B1]]. destruct B2 as [q' [-> B2]]. exists p', q'. repeat split; lra.
  - intros AE i Hi. rewrite ERT. destruct (dic_empty _ _ AD i Hi) as [X|X].
    + assert (WE : w_empty_rows s1 = w_empty_rows s) by (rewrite E; reflexivity). rewrite WE in X. auto.
    + rewrite R1 in X. exact X.
Qed.
