(** What a row and the bounds imply, and the activities, through bound propagation. *)
From Coq Require Import NArith Lqa.
From Verif Require Import M_Num S_LP M_Settings M_Driver S_Driver M_State M_Act M_Core M_Simple
  M_StonCols M_Dton M_Parallel M_Propagate M_Init M_Post M_Run S_Run S_Struct S_Sem
  L_State L_Struct L_Struct2 L_Struct3 L_Struct4 L_Struct5 L_Struct6 L_Struct7 L_Struct8 L_Struct9 L_Struct10 L_Struct11
  L_Sem L_Sem2 L_Sem3 L_Sem4 L_Mid L_Mid2 L_Mid3 L_Mid4 L_Mid5 L_Act L_Act2 L_Act3.
Open Scope Q_scope.

(** ** Sums over a row *)
Fixpoint ssum1 (b : nat * Q -> ext) (k : nat) (r : row) : Q :=
  match r with [] => 0 | e :: r' => (if Nat.eqb (fst e) k then 0 else snd e * fin (b e)) + ssum1 b k r' end.
Lemma ssum1_min : forall l u k r, ssum1 (lowb l u) k r == compute_min_act_one_tag l u k r.
Proof.
  induction r as [|[j a] r IH]; simpl; [lra|]. rewrite IH. unfold lowb. simpl.
  destruct (Nat.eqb j k); [lra|]. destruct (Qgtb a 0); lra.
Qed.
Lemma ssum1_max : forall l u k r, ssum1 (upb l u) k r == compute_max_act_one_tag l u k r.
Proof.
  induction r as [|[j a] r IH]; simpl; [lra|]. rewrite IH. unfold upb, lowb. simpl.
  destruct (Nat.eqb j k); [lra|]. destruct (Qgtb a 0); lra.
Qed.
Lemma ssum1_out : forall b k r, ~ has k r -> ssum1 b k r == ssum b r.
Proof.
  induction r as [|[j a] r IH]; simpl; intros N; [lra|].
  destruct (Nat.eqb_spec j k) as [->|].
  - exfalso. apply N. exists a. left; auto.
  - rewrite IH; [lra|]. intros [c Hc]. apply N. exists c. right; auto.
Qed.
Lemma srt_nhas : forall j a r, srt ((j, a) :: r) -> ~ has j r.
Proof. intros j a r S [c Hc]. apply srt_inv in S. destruct S as [_ L]. apply L in Hc. simpl in Hc. lia. Qed.
Lemma srt_tl : forall e r, srt (e :: r) -> srt r.
Proof. intros [j a] r S. apply srt_inv in S. destruct S; auto. Qed.
Lemma ssum_one : forall b k a r, srt r -> In (k, a) r -> ssum b r == ssum1 b k r + a * fin (b (k, a)).
Proof.
  induction r as [|[j c] r IH]; simpl; intros S Hin; [contradiction|].
  pose proof (srt_nhas _ _ _ S) as N. apply srt_tl in S. destruct Hin as [E|Hin].
  - injection E as -> ->. rewrite Nat.eqb_refl, ssum1_out by auto. lra.
  - destruct (Nat.eqb_spec j k) as [->|]; [exfalso; apply N; exists a; auto|]. rewrite IH by auto. lra.
Qed.
Lemma cnt_one : forall b k a r, srt r -> In (k, a) r -> cnt b r = inf1 (b (k, a)) ->
  forall e, In e r -> fst e <> k -> is_fin (b e) = true.
Proof.
  induction r as [|[j c] r IH]; simpl; intros S Hin E e He D; [contradiction|].
  pose proof (srt_nhas _ _ _ S) as N. apply srt_tl in S. pose proof (cnt_nonneg b r) as P.
  destruct Hin as [X|Hin].
  - injection X as -> ->. destruct He as [<-|He]; [simpl in D; congruence|].
    apply (proj1 (cnt_0 b r)); auto. lia.
  - assert (Dj : j <> k) by (intros ->; apply N; exists a; auto).
    assert (Z1 : (inf1 (b (k, a)) <= cnt b r)%Z).
    { clear - Hin. induction r as [|e r IH]; [contradiction|]. simpl. pose proof (cnt_nonneg b r).
      destruct Hin as [->|Hin]; [unfold inf1; destruct (is_fin _); lia|]. specialize (IH Hin).
      unfold inf1 at 2. destruct (is_fin _); lia. }
    assert (Z2 : (0 <= inf1 (b (j, c)))%Z) by (unfold inf1; destruct (is_fin _); lia).
    destruct He as [<-|He].
    + unfold inf1 at 1 in E. destruct (is_fin (b (j, c))) eqn:F; auto. lia.
    + apply IH; auto. lia.
Qed.
(** The entries are bounded: so is the sum of all but one. *)
Lemma rest_low : forall b k r x, (forall e, In e r -> fst e <> k -> snd e * fin (b e) <= snd e * x (fst e)) ->
  ssum1 b k r + coeff r k * x k <= dot r x.
Proof.
  induction r as [|[j a] r IH]; intros x H; simpl; [lra|].
  assert (IH' := IH x (fun e He => H e (or_intror He))).
  specialize (H (j, a) (or_introl eq_refl)). simpl in H.
  destruct (Nat.eqb_spec j k) as [->|D]; [lra|]. specialize (H D). lra.
Qed.
Lemma rest_up : forall b k r x, (forall e, In e r -> fst e <> k -> snd e * x (fst e) <= snd e * fin (b e)) ->
  dot r x <= ssum1 b k r + coeff r k * x k.
Proof.
  induction r as [|[j a] r IH]; intros x H; simpl; [lra|].
  assert (IH' := IH x (fun e He => H e (or_intror He))).
  specialize (H (j, a) (or_introl eq_refl)). simpl in H.
  destruct (Nat.eqb_spec j k) as [->|D]; [lra|]. specialize (H D). lra.
Qed.
Lemma all_low : forall b r x, (forall e, In e r -> snd e * fin (b e) <= snd e * x (fst e)) -> ssum b r <= dot r x.
Proof.
  induction r as [|e r IH]; intros x H; simpl; [lra|]. destruct e as [j a].
  pose proof (IH x (fun e He => H e (or_intror He))). specialize (H (j, a) (or_introl eq_refl)). simpl in *. lra.
Qed.
Lemma all_up : forall b r x, (forall e, In e r -> snd e * x (fst e) <= snd e * fin (b e)) -> dot r x <= ssum b r.
Proof.
  induction r as [|e r IH]; intros x H; simpl; [lra|]. destruct e as [j a].
  pose proof (IH x (fun e He => H e (or_intror He))). specialize (H (j, a) (or_introl eq_refl)). simpl in *. lra.
Qed.

(** ** The entries of an active row at a feasible point *)
Lemma pend_entry : forall s i k a, Inv s -> w_sub s = [] -> (i < nr s)%nat -> t_inact (rt s i) = false ->
  In (k, a) (mA s i) -> (k < nc s)%nat /\ ~ a == 0 /\ (t_cinact (ct s k) = false \/ In k (w_fixed s)).
Proof.
  intros s i k a H WS Hi T Hin. destruct (w_rin s (inv_0 s H) i k a Hi Hin) as [Hk Na].
  split; auto. split; auto. destruct (t_cinact (ct s k)) eqn:TK; auto. right.
  assert (CK : csz s k <> (-1)%Z) by (eapply (inv_R s H); eauto).
  destruct (l_pend s (inv_L s H) k Hk TK CK) as [X|X]; auto. rewrite WS in X. contradiction.
Qed.
Lemma mul_le : forall a v w, 0 < a -> v <= w -> a * v <= a * w.
Proof. intros a v w A L. assert (0 <= a * (w - v)) by (apply Qmult_le_0_compat; lra). lra. Qed.
Lemma mul_le_neg : forall a v w, a < 0 -> v <= w -> a * w <= a * v.
Proof. intros a v w A L. assert (0 <= (-a) * (w - v)) by (apply Qmult_le_0_compat; lra). lra. Qed.
Section Row.
Variables (R : Q -> Q -> Prop) (s : state) (x : nat -> Q) (i : nat).
Hypotheses (H : Inv s) (WS : w_sub s = []) (A : AV R s) (S : sat zero zero s x)
  (Hi : (i < nr s)%nat) (T : t_inact (rt s i) = false).
Lemma entry_b : forall k a, In (k, a) (mA s i) ->
  ~ a == 0 /\ (is_fin (lb s k) = true -> fin (lb s k) <= x k) /\ (is_fin (ub s k) = true -> x k <= fin (ub s k)).
Proof.
  intros k a Hin. destruct (pend_entry s i k a H WS Hi T Hin) as [Hk [Na D]]. split; auto.
  destruct S as [_ [S2 [S3 _]]]. destruct D as [TK|W].
  - destruct (S2 k Hk TK) as [L U]. unfold exactly in *. split; intros F.
    + apply ext_le_fin in L; auto. lra.
    + apply le_ext_fin in U; auto. lra.
  - pose proof (S3 k W) as E. destruct (av_pend R s A k W) as [F [_ B]]. specialize (B F).
    split; intros _; lra.
Qed.
Lemma entry_low : forall e, In e (mA s i) -> is_fin (lowb (lb s) (ub s) e) = true ->
  snd e * fin (lowb (lb s) (ub s) e) <= snd e * x (fst e).
Proof.
  intros [k a] Hin. destruct (entry_b k a Hin) as [Na [L U]]. unfold lowb. cbn [fst snd].
  destruct (Qgtb a 0) eqn:G; qb; intros F.
  - apply mul_le; auto.
  - apply mul_le_neg; auto. lra.
Qed.
Lemma entry_up : forall e, In e (mA s i) -> is_fin (upb (lb s) (ub s) e) = true ->
  snd e * x (fst e) <= snd e * fin (upb (lb s) (ub s) e).
Proof.
  intros [k a] Hin. destruct (entry_b k a Hin) as [Na [L U]]. unfold upb, lowb. cbn [fst snd].
  destruct (Qgtb a 0) eqn:G; qb; intros F.
  - apply mul_le; auto.
  - apply mul_le_neg; auto. lra.
Qed.
Hypothesis (RL : forall v w, R v w -> v <= w).
Lemma act_low : n_inf_min (acts s i) = 0%Z -> a_min (acts s i) <= dot (mA s i) x.
Proof.
  intros Z0. destruct (av_rows R s A i Hi T) as [[N V] _]. specialize (V Z0). apply RL in V.
  eapply Qle_trans; [exact V|]. apply all_low. intros e He. apply entry_low; auto.
  apply (proj1 (cnt_0 _ (mA s i))); auto. congruence.
Qed.
Lemma act_up : n_inf_max (acts s i) = 0%Z -> dot (mA s i) x <= a_max (acts s i).
Proof.
  intros Z0. destruct (av_rows R s A i Hi T) as [_ [N V]]. specialize (V Z0). unfold flip in V. apply RL in V.
  eapply Qle_trans; [|exact V]. apply all_up. intros e He. apply entry_up; auto.
  apply (proj1 (cnt_0 _ (mA s i))); auto. congruence.
Qed.
Lemma low_one : forall k a, In (k, a) (mA s i) -> n_inf_min (acts s i) = 0%Z ->
  a_min (acts s i) - a * fin (lowb (lb s) (ub s) (k, a)) + a * x k <= dot (mA s i) x.
Proof.
  intros k a Hin Z0. destruct (av_rows R s A i Hi T) as [[N V] _]. specialize (V Z0). apply RL in V.
  pose proof (w_rsrt s (inv_0 s H) i Hi) as SR.
  pose proof (rest_low (lowb (lb s) (ub s)) k (mA s i) x) as X. rewrite (coeff_in _ k a SR Hin) in X.
  rewrite (ssum_one _ k a _ SR Hin) in V.
  assert (Y := X (fun e He _ => entry_low e He (proj1 (cnt_0 _ (mA s i)) (eq_trans (eq_sym N) Z0) e He))). lra.
Qed.
Lemma up_one : forall k a, In (k, a) (mA s i) -> n_inf_max (acts s i) = 0%Z ->
  dot (mA s i) x <= a_max (acts s i) - a * fin (upb (lb s) (ub s) (k, a)) + a * x k.
Proof.
  intros k a Hin Z0. destruct (av_rows R s A i Hi T) as [_ [N V]]. specialize (V Z0). unfold flip in V. apply RL in V.
  pose proof (w_rsrt s (inv_0 s H) i Hi) as SR.
  pose proof (rest_up (upb (lb s) (ub s)) k (mA s i) x) as X. rewrite (coeff_in _ k a SR Hin) in X.
  rewrite (ssum_one _ k a _ SR Hin) in V.
  assert (Y := X (fun e He _ => entry_up e He (proj1 (cnt_0 _ (mA s i)) (eq_trans (eq_sym N) Z0) e He))). lra.
Qed.
(** Only one contribution is infinite: that of [k]. *)
Lemma low_but : forall k a, In (k, a) (mA s i) -> n_inf_min (acts s i) = 1%Z ->
  is_fin (lowb (lb s) (ub s) (k, a)) = false ->
  compute_min_act_one_tag (lb s) (ub s) k (mA s i) + a * x k <= dot (mA s i) x.
Proof.
  intros k a Hin Z0 F. destruct (av_rows R s A i Hi T) as [[N V] _].
  pose proof (w_rsrt s (inv_0 s H) i Hi) as SR.
  rewrite <- ssum1_min. rewrite <- (coeff_in _ k a SR Hin). apply rest_low. intros e He D. apply entry_low; auto.
  eapply cnt_one; eauto. unfold inf1. rewrite F. congruence.
Qed.
Lemma up_but : forall k a, In (k, a) (mA s i) -> n_inf_max (acts s i) = 1%Z ->
  is_fin (upb (lb s) (ub s) (k, a)) = false ->
  dot (mA s i) x <= compute_max_act_one_tag (lb s) (ub s) k (mA s i) + a * x k.
Proof.
  intros k a Hin Z0 F. destruct (av_rows R s A i Hi T) as [_ [N V]].
  pose proof (w_rsrt s (inv_0 s H) i Hi) as SR.
  rewrite <- ssum1_max. rewrite <- (coeff_in _ k a SR Hin). apply rest_up. intros e He D. apply entry_up; auto.
  eapply cnt_one; eauto. unfold inf1. rewrite F. congruence.
Qed.
End Row.

(** The infinite contribution is found, and it is that of an active column. *)
Lemma cnt_pos : forall b r, (0 < cnt b r)%Z -> exists e, In e r /\ is_fin (b e) = false.
Proof.
  induction r as [|e r IH]; simpl; intros P; [lia|]. unfold inf1 in P. destruct (is_fin (b e)) eqn:F.
  - destruct IH as [e' [A B]]; [lia|]. exists e'. auto.
  - exists e. auto.
Qed.
Lemma find_inf_first : forall s mn r last,
  (exists k a, In (k, a) r /\ t_cinact (ct s k) = false /\
     ((0 < a /\ (if (mn : bool) then t_lb_inf (ct s k) else t_ub_inf (ct s k)) = true) \/
      (a < 0 /\ (if (mn : bool) then t_ub_inf (ct s k) else t_lb_inf (ct s k)) = true))) ->
  exists k a, find_inf s mn r last = Some (k, a) /\ In (k, a) r /\ t_cinact (ct s k) = false /\
    ((0 < a /\ (if (mn : bool) then t_lb_inf (ct s k) else t_ub_inf (ct s k)) = true) \/
     (a < 0 /\ (if (mn : bool) then t_ub_inf (ct s k) else t_lb_inf (ct s k)) = true)).
Proof.
  induction r as [|[j b] r IH]; intros last [k [a [Hin [T X]]]]; [contradiction|]. simpl.
  match goal with |- context [if ?c then _ else _] => destruct c eqn:C end.
  - exists j, b. split; auto. split; auto. apply andb_true_iff in C. destruct C as [C1 C2].
    apply negb_true_iff in C2. split; auto. apply orb_true_iff in C1.
    destruct C1 as [C1|C1]; apply andb_true_iff in C1; destruct C1 as [C1 C3]; qb; auto.
  - destruct Hin as [E|Hin].
    + exfalso. injection E as -> ->. rewrite T in C. cbn [negb] in C. rewrite andb_true_r in C.
      apply orb_false_iff in C. destruct C as [C1 C2].
      destruct X as [[P X]|[P X]]; rewrite X, andb_true_r in *; qb; lra.
    + destruct (IH (Some (j, b))) as [k' [a' [E [I1 X']]]]. { exists k, a. auto. }
      exists k', a'. split; auto.
Qed.
Lemma find_inf_ok : forall R s mn i, Inv s -> tags_right s -> AV R s -> w_sub s = [] -> (i < nr s)%nat ->
  t_inact (rt s i) = false -> (if (mn : bool) then n_inf_min (acts s i) else n_inf_max (acts s i)) = 1%Z ->
  exists k a, find_inf s mn (mA s i) None = Some (k, a) /\ In (k, a) (mA s i) /\ t_cinact (ct s k) = false /\
    is_fin ((if (mn : bool) then lowb (lb s) (ub s) else upb (lb s) (ub s)) (k, a)) = false.
Proof.
  intros R s mn i H TG A WS Hi T N1.
  set (b := if (mn : bool) then lowb (lb s) (ub s) else upb (lb s) (ub s)).
  assert (C : cnt b (mA s i) = 1%Z).
  { destruct (av_rows R s A i Hi T) as [[N _] [N' _]]. unfold b. destruct mn; congruence. }
  destruct (cnt_pos b (mA s i)) as [[k a] [Hin F]]; [lia|].
  assert (Q1 : forall k a, In (k, a) (mA s i) -> is_fin (b (k, a)) = false -> (k < nc s)%nat /\ t_cinact (ct s k) = false).
  { intros k' a' Hin' F'. destruct (pend_entry s i k' a' H WS Hi T Hin') as [Hk [Na [D|W]]]; auto. exfalso.
    destruct (av_pend R s A k' W) as [F1 [F2 _]]. unfold b, upb, lowb in F'.
    destruct mn; cbn [fst snd] in F'; destruct (Qgtb a' 0); congruence. }
  destruct (find_inf_first s mn (mA s i) None) as [k' [a' [E [Hin' [T' X]]]]].
  - exists k, a. destruct (Q1 k a Hin F) as [Hk TK]. split; auto. split; auto.
    destruct (pend_entry s i k a H WS Hi T Hin) as [_ [Na _]].
    pose proof (lb_is s k TG Hk TK) as L. pose proof (ub_is s k TG Hk TK) as U.
    unfold b, upb, lowb in F.
    destruct (Q_dec a 0) as [[Y|Y]|Y]; [right|left|contradiction]; (split; [exact Y|]);
      destruct mn; cbn [fst snd] in F; destruct (Qgtb a 0) eqn:G; qb; try lra; rewrite F in *; apply negb_false_iff; auto.
  - exists k', a'. split; auto. split; auto. split; auto.
    destruct (pend_entry s i k' a' H WS Hi T Hin') as [Hk [Na _]].
    pose proof (lb_is s k' TG Hk T') as L. pose proof (ub_is s k' TG Hk T') as U.
    unfold b, upb, lowb.
    destruct X as [[P X]|[P X]]; destruct mn; cbn [fst snd]; destruct (Qgtb a' 0) eqn:G; qb; try lra; rewrite X in *; auto.
Qed.
