(** The implied-free tests are sound when the activities are valid. *)
From Coq Require Import NArith Lqa.
From Verif Require Import M_Num S_LP M_Settings M_Driver S_Driver M_State M_Act M_Core M_Simple
  M_StonCols M_Dton M_Parallel M_Propagate M_Init M_Post M_Run S_Run S_Struct S_Sem
  L_State L_Struct L_Struct2 L_Struct3 L_Struct4 L_Struct5 L_Struct6 L_Struct7 L_Struct8 L_Struct9 L_Struct10 L_Struct11
  L_Sem L_Sem2 L_Sem3 L_Sem4 L_Mid L_Mid2 L_Mid3 L_Mid4 L_Mid5 L_Act L_Act2 L_Act4 L_Act6 L_Act8.
Open Scope Q_scope.

(** The other variables of row [i] are within their bounds. *)
Definition others (s : state) (i k : nat) (x : nat -> Q) : Prop :=
  forall j c, In (j, c) (mA s i) -> j <> k ->
    (is_fin (lb s j) = true -> fin (lb s j) <= x j) /\ (is_fin (ub s j) = true -> x j <= fin (ub s j)).

Lemma others_low : forall s i k x, others s i k x -> forall e, In e (mA s i) -> fst e <> k -> ~ snd e == 0 ->
  is_fin (lowb (lb s) (ub s) e) = true -> snd e * fin (lowb (lb s) (ub s) e) <= snd e * x (fst e).
Proof.
  intros s i k x O [j c] Hin D Nc. cbn [fst snd] in *. destruct (O j c Hin D) as [L U]. unfold lowb. cbn [fst snd].
  destruct (Qgtb c 0) eqn:G; qb; intros F; [apply mul_le; auto|apply mul_le_neg; auto; lra].
Qed.
Lemma others_up : forall s i k x, others s i k x -> forall e, In e (mA s i) -> fst e <> k -> ~ snd e == 0 ->
  is_fin (upb (lb s) (ub s) e) = true -> snd e * x (fst e) <= snd e * fin (upb (lb s) (ub s) e).
Proof.
  intros s i k x O [j c] Hin D Nc. cbn [fst snd] in *. destruct (O j c Hin D) as [L U]. unfold upb, lowb. cbn [fst snd].
  destruct (Qgtb c 0) eqn:G; qb; intros F; [apply mul_le; auto|apply mul_le_neg; auto; lra].
Qed.

(** Sums that leave out infinite contributions *)
Lemma tags_sum : forall b r (p : nat * Q -> bool), (forall e, In e r -> p e = negb (is_fin (b e))) ->
  forall f, (forall e, In e r -> is_fin (b e) = true -> f e == snd e * fin (b e)) -> (forall e, In e r -> is_fin (b e) = false -> f e == 0) ->
  forall k a, srt r -> In (k, a) r -> is_fin (b (k, a)) = false -> (forall e, In e r -> fst e <> k -> is_fin (b e) = true) ->
  fold_right (fun e v => f e + v) 0 r == ssum b (del_entry k r).
Proof.
  intros b r p HP f F1 F2 k a SR IN FK OT. clear HP p.
  assert (X : forall q, (forall e, In e q -> is_fin (b e) = true -> f e == snd e * fin (b e)) ->
     (forall e, In e q -> is_fin (b e) = true) -> fold_right (fun e v => f e + v) 0 q == ssum b q).
  { induction q as [|e q IH]; intros G1 G2; simpl; [lra|]. rewrite IH by (intros; first [apply G1|apply G2]; simpl; auto).
    rewrite G1 by (simpl; auto; apply G2; simpl; auto). lra. }
  revert SR IN F1 F2 OT. induction r as [|[j c] r IH]; intros SR IN F1 F2 OT; [contradiction|].
  pose proof (srt_nhas _ _ _ SR) as NH. apply srt_tl in SR. unfold del_entry in *. cbn [filter fst fold_right].
  destruct IN as [E|IN].
  - injection E as -> ->. rewrite Nat.eqb_refl. cbn [negb]. change (filter _ r) with (del_entry k r).
    rewrite del_entry_absent by auto. rewrite (F2 (k, a)) by (simpl; auto). rewrite X; [lra| |].
    + intros e He. apply F1. right; auto.
    + intros e He. apply OT; [right; auto|]. intros Ek. apply NH. exists (snd e). rewrite <- Ek. destruct e; auto.
  - assert (D : j <> k) by (intros ->; apply NH; exists a; auto). pose proof D as D'. apply Nat.eqb_neq in D'. rewrite D'.
    cbn [negb ssum]. rewrite IH; auto; try (intros; first [apply F1|apply F2|apply OT]; auto; right; auto).
    rewrite F1; [lra|left; auto|]. apply OT; [left; auto|auto].
Qed.
Lemma min_tags_fold : forall l u t r, compute_min_act_tags l u t r ==
  fold_right (fun e v => (if Qgtb (snd e) 0 then (if t_lb_inf (t (fst e)) then 0 else snd e * fin (l (fst e)))
       else (if t_ub_inf (t (fst e)) then 0 else snd e * fin (u (fst e)))) + v) 0 r.
Proof. induction r as [|[j a] r IH]; simpl; [lra|]. rewrite IH. lra. Qed.
Lemma max_tags_fold : forall l u t r, compute_max_act_tags l u t r ==
  fold_right (fun e v => (if Qgtb (snd e) 0 then (if t_ub_inf (t (fst e)) then 0 else snd e * fin (u (fst e)))
       else (if t_lb_inf (t (fst e)) then 0 else snd e * fin (l (fst e)))) + v) 0 r.
Proof. induction r as [|[j a] r IH]; simpl; [lra|]. rewrite IH. lra. Qed.

Section Free.
Variables (R : Q -> Q -> Prop) (s : state) (i k : nat) (a : Q) (x : nat -> Q).
Hypotheses (H : Inv s) (TG : tags_right s) (WS : w_sub s = []) (WF : w_fixed s = []) (A : AV R s)
  (RL : forall v w, R v w -> v <= w)
  (Hi : (i < nr s)%nat) (T : t_inact (rt s i) = false) (IN : In (k, a) (mA s i)) (O : others s i k x).
Notation rest := (dot (del_entry k (mA s i)) x).
Lemma entry_live : forall j c, In (j, c) (mA s i) -> (j < nc s)%nat /\ ~ c == 0 /\
  is_fin (lb s j) = negb (t_lb_inf (ct s j)) /\ is_fin (ub s j) = negb (t_ub_inf (ct s j)).
Proof.
  intros j c Hin. destruct (pend_entry s i j c H WS Hi T Hin) as [Hj [Nc [D|W]]]; [|rewrite WF in W; contradiction].
  split; auto. split; auto. split; symmetry; [apply lb_is|apply ub_is]; auto.
Qed.
Lemma SRT : srt (mA s i). Proof. apply (w_rsrt s (inv_0 s H)); auto. Qed.
Lemma free_low0 : n_inf_min (acts s i) = 0%Z -> a_min (acts s i) <= a * fin (lowb (lb s) (ub s) (k, a)) + rest.
Proof.
  intros Z0. destruct (av_rows R s A i Hi T) as [[N V] _]. specialize (V Z0). apply RL in V.
  destruct (del_split (lowb (lb s) (ub s)) (mA s i) k a SRT IN) as [_ E]. rewrite E in V.
  assert (ssum (lowb (lb s) (ub s)) (del_entry k (mA s i)) <= rest); [|lra].
  apply all_low. intros e He. apply del_entry_In in He. destruct He as [He D].
  apply (others_low s i k x O); auto. { destruct e as [j c]. apply (entry_live j c He). }
  apply (proj1 (cnt_0 _ (mA s i))); auto. congruence.
Qed.
Lemma free_up0 : n_inf_max (acts s i) = 0%Z -> a * fin (upb (lb s) (ub s) (k, a)) + rest <= a_max (acts s i).
Proof.
  intros Z0. destruct (av_rows R s A i Hi T) as [_ [N V]]. specialize (V Z0). unfold flip in V. apply RL in V.
  destruct (del_split (upb (lb s) (ub s)) (mA s i) k a SRT IN) as [_ E]. rewrite E in V.
  assert (rest <= ssum (upb (lb s) (ub s)) (del_entry k (mA s i))); [|lra].
  apply all_up. intros e He. apply del_entry_In in He. destruct He as [He D].
  apply (others_up s i k x O); auto. { destruct e as [j c]. apply (entry_live j c He). }
  apply (proj1 (cnt_0 _ (mA s i))); auto. congruence.
Qed.
Lemma free_low1 : n_inf_min (acts s i) = 1%Z -> is_fin (lowb (lb s) (ub s) (k, a)) = false ->
  compute_min_act_tags (lb s) (ub s) (ct s) (mA s i) <= rest.
Proof.
  intros Z0 F. destruct (av_rows R s A i Hi T) as [[N V] _].
  assert (OT : forall e, In e (mA s i) -> fst e <> k -> is_fin (lowb (lb s) (ub s) e) = true).
  { apply (cnt_one _ k a _ SRT IN). unfold inf1. rewrite F. congruence. }
  rewrite min_tags_fold. rewrite (tags_sum (lowb (lb s) (ub s)) (mA s i) (fun e => negb (is_fin (lowb (lb s) (ub s) e)))) with (k := k) (a := a); auto using SRT.
  - apply all_low. intros e He. apply del_entry_In in He. destruct He as [He D].
    apply (others_low s i k x O); auto. destruct e as [j c]. apply (entry_live j c He).
  - intros [j c] He. destruct (entry_live j c He) as [_ [_ [L U]]]. unfold lowb. cbn [fst snd].
    destruct (Qgtb c 0); intros F'; [rewrite L in F'; destruct (t_lb_inf _)|rewrite U in F'; destruct (t_ub_inf _)]; try discriminate; lra.
  - intros [j c] He. destruct (entry_live j c He) as [_ [_ [L U]]]. unfold lowb. cbn [fst snd].
    destruct (Qgtb c 0); intros F'; [rewrite L in F'; destruct (t_lb_inf _)|rewrite U in F'; destruct (t_ub_inf _)]; try discriminate; lra.
Qed.
Lemma free_up1 : n_inf_max (acts s i) = 1%Z -> is_fin (upb (lb s) (ub s) (k, a)) = false ->
  rest <= compute_max_act_tags (lb s) (ub s) (ct s) (mA s i).
Proof.
  intros Z0 F. destruct (av_rows R s A i Hi T) as [_ [N V]].
  assert (OT : forall e, In e (mA s i) -> fst e <> k -> is_fin (upb (lb s) (ub s) e) = true).
  { apply (cnt_one _ k a _ SRT IN). unfold inf1. rewrite F. congruence. }
  rewrite max_tags_fold. rewrite (tags_sum (upb (lb s) (ub s)) (mA s i) (fun e => negb (is_fin (upb (lb s) (ub s) e)))) with (k := k) (a := a); auto using SRT.
  - apply all_up. intros e He. apply del_entry_In in He. destruct He as [He D].
    apply (others_up s i k x O); auto. destruct e as [j c]. apply (entry_live j c He).
  - intros [j c] He. destruct (entry_live j c He) as [_ [_ [L U]]]. unfold upb, lowb. cbn [fst snd].
    destruct (Qgtb c 0); intros F'; [rewrite U in F'; destruct (t_ub_inf _)|rewrite L in F'; destruct (t_lb_inf _)]; try discriminate; lra.
  - intros [j c] He. destruct (entry_live j c He) as [_ [_ [L U]]]. unfold upb, lowb. cbn [fst snd].
    destruct (Qgtb c 0); intros F'; [rewrite U in F'; destruct (t_ub_inf _)|rewrite L in F'; destruct (t_lb_inf _)]; try discriminate; lra.
Qed.

Lemma rhs_fin : t_rhs_inf (rt s i) = false -> is_fin (rhs s i) = true.
Proof. intros E. pose proof (tr_rhs s TG i Hi T) as X. rewrite E in X. auto. Qed.
Lemma lhs_fin : t_lhs_inf (rt s i) = false -> is_fin (lhs s i) = true.
Proof. intros E. pose proof (tr_lhs s TG i Hi T) as X. rewrite E in X. auto. Qed.

Lemma above_ok : forall v, implied_free_from_above_by_row s a i (mA s i) (lb s k) (ub s k) (ct s k) (acts s i) = true ->
  le_ext (a * v + rest) (rhs s i) -> ext_le (lhs s i) (a * v + rest) -> le_ext v (ub s k).
Proof.
  intros v E UP LO. destruct (entry_live k a IN) as [Hk [Na [FL FU]]]. unfold implied_free_from_above_by_row in E.
  destruct (t_ub_inf (ct s k)) eqn:TU.
  { pose proof (tr_ub s TG k Hk) as X. rewrite TU in X.
    destruct (pend_entry s i k a H WS Hi T IN) as [_ [_ [D|W]]]; [|rewrite WF in W; contradiction].
    rewrite (X D). exact I. }
  cbn [negb] in FU. apply le_ext_fin; auto.
  destruct (Qgtb a 0 && negb (t_rhs_inf (rt s i))) eqn:C1.
  - apply andb_true_iff in C1. destruct C1 as [G C1]. qb. apply negb_true_iff in C1.
    pose proof (rhs_fin C1) as FR. apply le_ext_fin in UP; auto.
    destruct (Z.eqb_spec (n_inf_min (acts s i)) 0) as [Z0|Z0].
    + qb. pose proof (free_low0 Z0) as X. rewrite (lowb_pos _ _ _ _ G) in X.
      assert (Y : v - fin (lb s k) <= (fin (rhs s i) - a_min (acts s i)) / a) by (apply div_le; auto; lra). lra.
    + destruct (Z.eqb_spec (n_inf_min (acts s i)) 1) as [Z1|Z1]; cbn [andb] in E; [|discriminate].
      destruct (t_lb_inf (ct s k)) eqn:TL; [|discriminate]. cbn [negb] in FL. qb.
      assert (X : compute_min_act_tags (lb s) (ub s) (ct s) (mA s i) <= rest).
      { apply free_low1; auto. rewrite (lowb_pos _ _ _ _ G). auto. }
      assert (Y : v <= (fin (rhs s i) - compute_min_act_tags (lb s) (ub s) (ct s) (mA s i)) / a) by (apply div_le; auto; lra). lra.
  - destruct (Qltb a 0 && negb (t_lhs_inf (rt s i))) eqn:C2; [|discriminate].
    apply andb_true_iff in C2. destruct C2 as [G C2]. qb. apply negb_true_iff in C2.
    pose proof (lhs_fin C2) as FR. apply ext_le_fin in LO; auto.
    destruct (Z.eqb_spec (n_inf_max (acts s i)) 0) as [Z0|Z0].
    + qb. pose proof (free_up0 Z0) as X. unfold upb in X. rewrite (lowb_neg _ _ _ _ G) in X.
      assert (Y : v - fin (lb s k) <= (fin (lhs s i) - a_max (acts s i)) / a) by (apply div_ge_neg; auto; lra). lra.
    + destruct (Z.eqb_spec (n_inf_max (acts s i)) 1) as [Z1|Z1]; cbn [andb] in E; [|discriminate].
      destruct (t_lb_inf (ct s k)) eqn:TL; [|discriminate]. cbn [negb] in FL. qb.
      assert (X : rest <= compute_max_act_tags (lb s) (ub s) (ct s) (mA s i)).
      { apply free_up1; auto. unfold upb. rewrite (lowb_neg _ _ _ _ G). auto. }
      assert (Y : v <= (fin (lhs s i) - compute_max_act_tags (lb s) (ub s) (ct s) (mA s i)) / a) by (apply div_ge_neg; auto; lra). lra.
Qed.
Lemma below_ok : forall v, implied_free_from_below_by_row s a i (mA s i) (lb s k) (ub s k) (ct s k) (acts s i) = true ->
  le_ext (a * v + rest) (rhs s i) -> ext_le (lhs s i) (a * v + rest) -> ext_le (lb s k) v.
Proof.
  intros v E UP LO. destruct (entry_live k a IN) as [Hk [Na [FL FU]]]. unfold implied_free_from_below_by_row in E.
  destruct (t_lb_inf (ct s k)) eqn:TL.
  { pose proof (tr_lb s TG k Hk) as X. rewrite TL in X.
    destruct (pend_entry s i k a H WS Hi T IN) as [_ [_ [D|W]]]; [|rewrite WF in W; contradiction].
    rewrite (X D). exact I. }
  cbn [negb] in FL. apply ext_le_fin; auto.
  destruct (Qgtb a 0 && negb (t_lhs_inf (rt s i))) eqn:C1.
  - apply andb_true_iff in C1. destruct C1 as [G C1]. qb. apply negb_true_iff in C1.
    pose proof (lhs_fin C1) as FR. apply ext_le_fin in LO; auto.
    destruct (Z.eqb_spec (n_inf_max (acts s i)) 0) as [Z0|Z0].
    + qb. pose proof (free_up0 Z0) as X. unfold upb in X. rewrite (lowb_pos _ _ _ _ G) in X.
      assert (Y : (fin (lhs s i) - a_max (acts s i)) / a <= v - fin (ub s k)) by (apply div_ge; auto; lra). lra.
    + destruct (Z.eqb_spec (n_inf_max (acts s i)) 1) as [Z1|Z1]; cbn [andb] in E; [|discriminate].
      destruct (t_ub_inf (ct s k)) eqn:TU; [|discriminate]. cbn [negb] in FU. qb.
      assert (X : rest <= compute_max_act_tags (lb s) (ub s) (ct s) (mA s i)).
      { apply free_up1; auto. unfold upb. rewrite (lowb_pos _ _ _ _ G). auto. }
      assert (Y : (fin (lhs s i) - compute_max_act_tags (lb s) (ub s) (ct s) (mA s i)) / a <= v) by (apply div_ge; auto; lra). lra.
  - destruct (Qltb a 0 && negb (t_rhs_inf (rt s i))) eqn:C2; [|discriminate].
    apply andb_true_iff in C2. destruct C2 as [G C2]. qb. apply negb_true_iff in C2.
    pose proof (rhs_fin C2) as FR. apply le_ext_fin in UP; auto.
    destruct (Z.eqb_spec (n_inf_min (acts s i)) 0) as [Z0|Z0].
    + qb. pose proof (free_low0 Z0) as X. rewrite (lowb_neg _ _ _ _ G) in X.
      assert (Y : (fin (rhs s i) - a_min (acts s i)) / a <= v - fin (ub s k)) by (apply div_le_neg; auto; lra). lra.
    + destruct (Z.eqb_spec (n_inf_min (acts s i)) 1) as [Z1|Z1]; cbn [andb] in E; [|discriminate].
      destruct (t_ub_inf (ct s k)) eqn:TU; [|discriminate]. cbn [negb] in FU. qb.
      assert (X : compute_min_act_tags (lb s) (ub s) (ct s) (mA s i) <= rest).
      { apply free_low1; auto. rewrite (lowb_neg _ _ _ _ G). auto. }
      assert (Y : (fin (rhs s i) - compute_min_act_tags (lb s) (ub s) (ct s) (mA s i)) / a <= v) by (apply div_le_neg; auto; lra). lra.
Qed.
End Free.
