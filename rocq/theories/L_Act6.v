(** Bound propagation: the loops. *)
From Coq Require Import NArith Lqa.
From Verif Require Import M_Num S_LP M_Settings M_Driver S_Driver M_State M_Act M_Core M_Simple
  M_StonCols M_Dton M_Parallel M_Propagate M_Init M_Post M_Run S_Run S_Struct S_Sem S_Sem2 S_Sem3
  L_State L_Struct L_Struct2 L_Struct3 L_Struct4 L_Struct5 L_Struct6 L_Struct7 L_Struct8 L_Struct9 L_Struct10 L_Struct11
  L_Sem L_Sem2 L_Sem3 L_Sem4 L_Mid L_Mid2 L_Mid3 L_Mid4 L_Mid5 L_Act L_Act2 L_Act3 L_Act4 L_Act5.
Open Scope Q_scope.

Lemma has_lor : forall a b, HAS_STATUS (N.lor a b) INFEASIBLE = HAS_STATUS a INFEASIBLE || HAS_STATUS b INFEASIBLE.
Proof.
  intros. unfold HAS_STATUS. rewrite N.land_lor_distr_l.
  destruct (N.eqb_spec (N.land a INFEASIBLE) 0) as [A|A]; destruct (N.eqb_spec (N.land b INFEASIBLE) 0) as [B|B];
  destruct (N.eqb_spec (N.lor (N.land a INFEASIBLE) (N.land b INFEASIBLE)) 0) as [C|C]; auto; exfalso.
  - apply C. rewrite A, B. reflexivity.
  - apply N.lor_eq_0_iff in C. destruct C; contradiction.
  - apply N.lor_eq_0_iff in C. destruct C; contradiction.
  - apply N.lor_eq_0_iff in C. destruct C; contradiction.
Qed.
Lemma div_le : forall a v w, 0 < a -> a * v <= w -> v <= w / a.
Proof. intros a v w A L. apply Qle_shift_div_l; auto. lra. Qed.
Lemma div_ge : forall a v w, 0 < a -> w <= a * v -> w / a <= v.
Proof. intros a v w A L. apply Qle_shift_div_r; auto. lra. Qed.
Lemma div_neg : forall a w, a < 0 -> w / a == (- w) / (- a).
Proof. intros a w A. field. lra. Qed.
Lemma div_le_neg : forall a v w, a < 0 -> a * v <= w -> w / a <= v.
Proof. intros a v w A L. rewrite div_neg by auto. apply div_ge; lra. Qed.
Lemma div_ge_neg : forall a v w, a < 0 -> w <= a * v -> v <= w / a.
Proof. intros a v w A L. rewrite div_neg by auto. apply div_le; lra. Qed.

Section Prop_.
Variables (R : Q -> Q -> Prop) (b : bool) (c : nat -> Q) (s : state).
Hypotheses (G : good R) (RL : forall v w, R v w -> v <= w) (HI : Inv s) (WR : w_rows s = []) (WS : w_sub s = []).
Notation PI := (PI R c s).
Notation empty := (empty s).

Definition TT (l : list (nat * Q)) (p : tight) : Prop :=
  PI l (st_of p) /\ (HAS_STATUS (snd (fst p)) INFEASIBLE = true -> empty l).
Definition tstep (l : list (nat * Q)) (t : state) (p : tight) : Prop :=
  exists l', TT (l ++ l') p /\ fmono t (st_of p).
Lemma tstep_refl : forall l p, TT l p -> tstep l (st_of p) p.
Proof. intros l p T. exists []. rewrite app_nil_r. split; auto. apply fmono_refl. Qed.
Lemma tally_step : forall l p r, TT l p -> outcome R c s l (st_of p) r -> tstep l (st_of p) (tally p r).
Proof.
  intros l [[t st] n] [t' st'] [P E] [C [l' [P' [F E']]]]. exists l'. unfold tally, TT, st_of in *. cbn [fst snd] in *.
  split; auto. split; auto. rewrite has_lor. intros X. apply orb_true_iff in X. destruct X as [X|X].
  - apply empty_more. auto.
  - apply E'. destruct C as [-> | [-> | ->]]; auto; discriminate.
Qed.
Lemma try_ub_step : forall l p k v, TT l p -> (k < nc s)%nat -> t_cinact (ct (st_of p) k) = false ->
  (forall x, sat zero zero (st_of p) x -> x k <= v) -> tstep l (st_of p) (try_ub b k v p).
Proof.
  intros l [[t st] n] k v T Hk TK NF. unfold try_ub. cbv zeta.
  destruct (_ && _) eqn:C; [|apply (tstep_refl l (t, st, n)); auto].
  apply (tally_step l (t, st, n)); auto. unfold st_of in *. cbn [fst] in *. destruct T as [P E].
  unfold st_of in P. cbn [fst] in P.
  apply ub_prop_PI; auto. intros X. rewrite X in C. cbn [orb] in C. apply andb_true_iff in C. destruct C as [C _]. qb. auto.
Qed.
Lemma try_lb_step : forall l p k v, TT l p -> (k < nc s)%nat -> t_cinact (ct (st_of p) k) = false ->
  (forall x, sat zero zero (st_of p) x -> v <= x k) -> tstep l (st_of p) (try_lb b k v p).
Proof.
  intros l [[t st] n] k v T Hk TK NF. unfold try_lb. cbv zeta.
  destruct (_ && _) eqn:C; [|apply (tstep_refl l (t, st, n)); auto].
  apply (tally_step l (t, st, n)); auto. unfold st_of in *. cbn [fst] in *. destruct T as [P E].
  unfold st_of in P. cbn [fst] in P.
  apply lb_prop_PI; auto. intros X. rewrite X in C. cbn [orb] in C. apply andb_true_iff in C. destruct C as [C _]. qb. auto.
Qed.


Section OneRow.
Variables (i : nat).
Hypotheses (Hi : (i < nr s)%nat) (T : t_inact (rt s i) = false).
Lemma pi_T : forall l t, PI l t -> (i < nr t)%nat /\ t_inact (rt t i) = false.
Proof. intros l t P. rewrite (kp_nr _ _ (pi_kept _ _ _ _ _ P)), (kp_rt _ _ (pi_kept _ _ _ _ _ P)). auto. Qed.
Lemma pi_sat_row : forall l t x, PI l t -> sat zero zero t x ->
  (t_rhs_inf (rt t i) = false -> dot (mA t i) x <= fin (rhs t i)) /\ (t_lhs_inf (rt t i) = false -> fin (lhs t i) <= dot (mA t i) x).
Proof.
  intros l t x P S. destruct (pi_T l t P) as [Hi' T']. destruct S as [S1 _]. destruct (S1 i Hi' T') as [L U].
  unfold exactly in *. pose proof (md_tags _ (pi_mid _ _ _ _ _ P)) as TG. split; intros X.
  - pose proof (tr_rhs _ TG i Hi' T') as Y. rewrite X in Y. apply le_ext_fin in U; auto. lra.
  - pose proof (tr_lhs _ TG i Hi' T') as Y. rewrite X in Y. apply ext_le_fin in L; auto. lra.
Qed.
Lemma fold_step : forall (f : tight -> nat * Q -> tight) (K : state -> Prop) r l p,
  (forall t t', K t -> fmono t t' -> (exists l, PI l t') -> K t') ->
  (forall l p e, In e r -> TT l p -> K (st_of p) -> tstep l (st_of p) (f p e)) ->
  TT l p -> K (st_of p) -> tstep l (st_of p) (fold_left f r p).
Proof.
  intros f K r l p KM. revert l p. induction r as [|e r IH]; intros l p F TP KP; cbn [fold_left].
  - apply tstep_refl; auto.
  - destruct (F l p e (or_introl eq_refl) TP KP) as [l1 [T1 M1]].
    destruct (IH (l ++ l1) (f p e)) as [l2 [T2 M2]]; auto.
    + intros l0 p0 e0 He. apply F. right; auto.
    + eapply KM; eauto. exists (l ++ l1). apply T1.
    + exists (l1 ++ l2). rewrite app_assoc. split; auto. eapply fmono_trans; eauto.
Qed.
Lemma cnt_mono : forall bb bb' r, (forall e, In e r -> is_fin (bb e) = true -> is_fin (bb' e) = true) ->
  cnt bb r = 0%Z -> cnt bb' r = 0%Z.
Proof. intros bb bb' r M C. apply cnt_0. intros e He. apply M; auto. apply (proj1 (cnt_0 bb r)); auto. Qed.
Lemma min0_mono : forall t t', (n_inf_min (acts t i) = 0%Z /\ exists l, PI l t) -> fmono t t' -> (exists l, PI l t') ->
  n_inf_min (acts t' i) = 0%Z /\ exists l, PI l t'.
Proof.
  intros t t' [Z0 [l P]] M [l' P']. split; [|eauto].
  destruct (pi_T _ _ P) as [H1 H2]. destruct (pi_T _ _ P') as [H3 H4].
  destruct (av_rows R t (pi_av _ _ _ _ _ P) i H1 H2) as [[N _] _]. destruct (av_rows R t' (pi_av _ _ _ _ _ P') i H3 H4) as [[N' _] _].
  rewrite N'. rewrite N in Z0. rewrite (pi_A _ _ _ _ _ P'). rewrite (pi_A _ _ _ _ _ P) in Z0.
  eapply cnt_mono; [|exact Z0]. destruct M as [ML MU]. intros [k a] _. unfold lowb. cbn [fst snd]. destruct (Qgtb a 0); auto.
Qed.
Lemma max0_mono : forall t t', (n_inf_max (acts t i) = 0%Z /\ exists l, PI l t) -> fmono t t' -> (exists l, PI l t') ->
  n_inf_max (acts t' i) = 0%Z /\ exists l, PI l t'.
Proof.
  intros t t' [Z0 [l P]] M [l' P']. split; [|eauto].
  destruct (pi_T _ _ P) as [H1 H2]. destruct (pi_T _ _ P') as [H3 H4].
  destruct (av_rows R t (pi_av _ _ _ _ _ P) i H1 H2) as [_ [N _]]. destruct (av_rows R t' (pi_av _ _ _ _ _ P') i H3 H4) as [_ [N' _]].
  rewrite N'. rewrite N in Z0. rewrite (pi_A _ _ _ _ _ P'). rewrite (pi_A _ _ _ _ _ P) in Z0.
  eapply cnt_mono; [|exact Z0]. destruct M as [ML MU]. intros [k a] _. unfold upb, lowb. cbn [fst snd]. destruct (Qgtb a 0); auto.
Qed.
Lemma entry_col : forall l t k a, PI l t -> In (k, a) (mA s i) -> (k < nc s)%nat /\ ~ a == 0.
Proof. intros l t k a P Hin. apply (w_rin s (inv_0 s HI) i k a Hi Hin). Qed.
Lemma not_pos : forall a, ~ a == 0 -> ~ 0 < a -> a < 0.
Proof. intros a N P. destruct (Q_dec a 0) as [[X|X]|X]; auto; contradiction. Qed.

Lemma rhs_step : forall l p, TT l p -> t_rhs_inf (rt (st_of p) i) = false -> n_inf_min (acts (st_of p) i) = 0%Z ->
  tstep l (st_of p) (fold_left (rhs_entry b i) (mA s i) p).
Proof.
  intros l p TP RI Z0.
  apply (fold_step (rhs_entry b i) (fun t => n_inf_min (acts t i) = 0%Z /\ exists l, PI l t)); [exact min0_mono| |exact TP|split; [exact Z0|exists l; apply TP]].
  - assert (RS : t_rhs_inf (rt s i) = false).
    { rewrite <- (kp_rt _ _ (pi_kept _ _ _ _ _ (proj1 TP))). exact RI. }
    clear l p TP RI Z0. intros l p [k a] Hin TP [Z0 _].
    destruct p as [[t st] n]. unfold rhs_entry. cbv zeta. unfold st_of in Z0. cbn [fst] in Z0.
    destruct (t_cinact (ct t k)) eqn:TK; [apply (tstep_refl l (t, st, n)); auto|].
    pose proof (proj1 TP) as P. unfold st_of in P. cbn [fst] in P.
    destruct (entry_col l t k a P Hin) as [Hk Na]. destruct (pi_T _ _ P) as [Hi' T'].
    assert (Hin' : In (k, a) (mA t i)) by (rewrite (pi_A _ _ _ _ _ P); auto).
    assert (RI : t_rhs_inf (rt t i) = false) by (rewrite (kp_rt _ _ (pi_kept _ _ _ _ _ P)); auto).
    assert (IMP : forall x, sat zero zero t x ->
       a * x k <= a * fin (lowb (lb t) (ub t) (k, a)) + (fin (rhs t i) - a_min (acts t i))).
    { intros x Sx. pose proof (low_one R t x i (pi_inv _ _ _ _ _ P) (pi_sub _ _ _ WS _ _ P) (pi_av _ _ _ _ _ P) Sx Hi' T' RL k a Hin' Z0) as L.
      destruct (pi_sat_row l t x P Sx) as [U _]. specialize (U RI). lra. }
    destruct (Qgtb a 0) eqn:PA; qb.
    + apply (try_ub_step l (t, st, n)); auto. intros x Sx. specialize (IMP x Sx). unfold lowb in IMP. cbn [fst snd] in IMP.
      destruct (Qgtb a 0) eqn:PA'; qb; [|lra].
      assert (X : x k - fin (lb t k) <= (fin (rhs t i) - a_min (acts t i)) / a) by (apply div_le; auto; lra). lra.
    + assert (NA : a < 0) by (apply not_pos; auto; lra).
      apply (try_lb_step l (t, st, n)); auto. intros x Sx. specialize (IMP x Sx). unfold lowb in IMP. cbn [fst snd] in IMP.
      destruct (Qgtb a 0) eqn:PA'; qb; [lra|].
      assert (X : (fin (rhs t i) - a_min (acts t i)) / a <= x k - fin (ub t k)) by (apply div_le_neg; auto; lra). lra.
Qed.
Lemma lhs_step : forall l p, TT l p -> t_lhs_inf (rt (st_of p) i) = false -> n_inf_max (acts (st_of p) i) = 0%Z ->
  tstep l (st_of p) (fold_left (lhs_entry b i) (mA s i) p).
Proof.
  intros l p TP RI Z0.
  apply (fold_step (lhs_entry b i) (fun t => n_inf_max (acts t i) = 0%Z /\ exists l, PI l t)); [exact max0_mono| |exact TP|split; [exact Z0|exists l; apply TP]].
  - assert (RS : t_lhs_inf (rt s i) = false).
    { rewrite <- (kp_rt _ _ (pi_kept _ _ _ _ _ (proj1 TP))). exact RI. }
    clear l p TP RI Z0. intros l p [k a] Hin TP [Z0 _].
    destruct p as [[t st] n]. unfold lhs_entry. cbv zeta. unfold st_of in Z0. cbn [fst] in Z0.
    destruct (t_cinact (ct t k)) eqn:TK; [apply (tstep_refl l (t, st, n)); auto|].
    pose proof (proj1 TP) as P. unfold st_of in P. cbn [fst] in P.
    destruct (entry_col l t k a P Hin) as [Hk Na]. destruct (pi_T _ _ P) as [Hi' T'].
    assert (Hin' : In (k, a) (mA t i)) by (rewrite (pi_A _ _ _ _ _ P); auto).
    assert (RI : t_lhs_inf (rt t i) = false) by (rewrite (kp_rt _ _ (pi_kept _ _ _ _ _ P)); auto).
    assert (IMP : forall x, sat zero zero t x ->
       a * fin (upb (lb t) (ub t) (k, a)) + (fin (lhs t i) - a_max (acts t i)) <= a * x k).
    { intros x Sx. pose proof (up_one R t x i (pi_inv _ _ _ _ _ P) (pi_sub _ _ _ WS _ _ P) (pi_av _ _ _ _ _ P) Sx Hi' T' RL k a Hin' Z0) as L.
      destruct (pi_sat_row l t x P Sx) as [_ U]. specialize (U RI). lra. }
    destruct (Qgtb a 0) eqn:PA; qb.
    + apply (try_lb_step l (t, st, n)); auto. intros x Sx. specialize (IMP x Sx). unfold upb, lowb in IMP. cbn [fst snd] in IMP.
      destruct (Qgtb a 0) eqn:PA'; qb; [|lra].
      assert (X : (fin (lhs t i) - a_max (acts t i)) / a <= x k - fin (ub t k)) by (apply div_ge; auto; lra). lra.
    + assert (NA : a < 0) by (apply not_pos; auto; lra).
      apply (try_ub_step l (t, st, n)); auto. intros x Sx. specialize (IMP x Sx). unfold upb, lowb in IMP. cbn [fst snd] in IMP.
      destruct (Qgtb a 0) eqn:PA'; qb; [lra|].
      assert (X : x k - fin (lb t k) <= (fin (lhs t i) - a_max (acts t i)) / a) by (apply div_ge_neg; auto; lra). lra.
Qed.

Lemma tighten_rhs_step : forall l p, TT l p -> tstep l (st_of p) (tighten_rhs b i (mA s i) p).
Proof.
  intros l [[t st] n] TP. pose proof (proj1 TP) as P. unfold st_of in P. cbn [fst] in P.
  destruct (pi_T _ _ P) as [Hi' T']. unfold tighten_rhs. cbv zeta.
  destruct (negb (t_rhs_inf (rt t i)) && Z.eqb (n_inf_min (acts t i)) 0) eqn:C1.
  { apply andb_true_iff in C1. destruct C1 as [C1 C2]. apply negb_true_iff in C1. apply Z.eqb_eq in C2.
    apply (rhs_step l (t, st, n)); auto. }
  clear C1.
  destruct ((negb (t_rhs_inf (rt t i)) || Z.eqb (n_inf_max (acts t i)) 0) && Z.eqb (n_inf_min (acts t i)) 1) eqn:C2;
    [|apply (tstep_refl l (t, st, n)); auto].
  apply andb_true_iff in C2. destruct C2 as [C1 C2]. apply Z.eqb_eq in C2.
  pose proof (md_tags _ (pi_mid _ _ _ _ _ P)) as TG.
  destruct (find_inf_ok R t true i (pi_inv _ _ _ _ _ P) TG (pi_av _ _ _ _ _ P) (pi_sub _ _ _ WS _ _ P) Hi' T' C2)
    as [k [a [E [Hin [TK F]]]]].
  rewrite (pi_A _ _ _ _ _ P) in E. rewrite E.
  assert (Hin' : In (k, a) (mA s i)) by (rewrite <- (pi_A _ _ _ _ _ P); auto).
  destruct (entry_col l t k a P Hin') as [Hk Na].
  set (v := if t_rhs_inf (rt t i) then a_max (acts t i) else fin (rhs t i)).
  set (m := compute_min_act_one_tag (lb t) (ub t) k (mA s i)).
  assert (EV : (if t_rhs_inf (rt t i) then (a_max (acts t i) - m) / a else (fin (rhs t i) - m) / a) == (v - m) / a).
  { unfold v. destruct (t_rhs_inf (rt t i)); lra. }
  set (q := if t_rhs_inf (rt t i) then (a_max (acts t i) - m) / a else (fin (rhs t i) - m) / a) in *.
  assert (IMP : forall x, sat zero zero t x -> a * x k <= v - m).
  { intros x Sx. pose proof (low_but R t x i (pi_inv _ _ _ _ _ P) (pi_sub _ _ _ WS _ _ P) (pi_av _ _ _ _ _ P) Sx Hi' T' k a Hin C2 F) as L.
    rewrite (pi_A _ _ _ _ _ P) in L. fold m in L.
    assert (U : dot (mA s i) x <= v).
    { rewrite <- (pi_A _ _ _ _ _ P). unfold v. destruct (t_rhs_inf (rt t i)) eqn:RI.
      - cbn [negb orb] in C1. apply Z.eqb_eq in C1.
        exact (act_up R t x i (pi_inv _ _ _ _ _ P) (pi_sub _ _ _ WS _ _ P) (pi_av _ _ _ _ _ P) Sx Hi' T' RL C1).
      - apply (pi_sat_row l t x P Sx). auto. }
    lra. }
  destruct (Qgtb a 0) eqn:PA; qb.
  - apply (try_ub_step l (t, st, n)); auto. intros x Sx. rewrite EV. apply div_le; auto.
  - assert (NA : a < 0) by (apply not_pos; auto; lra).
    apply (try_lb_step l (t, st, n)); auto. intros x Sx. rewrite EV. apply div_le_neg; auto.
Qed.
Lemma tighten_lhs_step : forall l p, TT l p -> tstep l (st_of p) (tighten_lhs b i (mA s i) p).
Proof.
  intros l [[t st] n] TP. pose proof (proj1 TP) as P. unfold st_of in P. cbn [fst] in P.
  destruct (pi_T _ _ P) as [Hi' T']. unfold tighten_lhs. cbv zeta.
  destruct (negb (t_lhs_inf (rt t i)) && Z.eqb (n_inf_max (acts t i)) 0) eqn:C1.
  { apply andb_true_iff in C1. destruct C1 as [C1 C2]. apply negb_true_iff in C1. apply Z.eqb_eq in C2.
    apply (lhs_step l (t, st, n)); auto. }
  clear C1.
  destruct ((negb (t_lhs_inf (rt t i)) || Z.eqb (n_inf_min (acts t i)) 0) && Z.eqb (n_inf_max (acts t i)) 1) eqn:C2;
    [|apply (tstep_refl l (t, st, n)); auto].
  apply andb_true_iff in C2. destruct C2 as [C1 C2]. apply Z.eqb_eq in C2.
  pose proof (md_tags _ (pi_mid _ _ _ _ _ P)) as TG.
  destruct (find_inf_ok R t false i (pi_inv _ _ _ _ _ P) TG (pi_av _ _ _ _ _ P) (pi_sub _ _ _ WS _ _ P) Hi' T' C2)
    as [k [a [E [Hin [TK F]]]]].
  rewrite (pi_A _ _ _ _ _ P) in E. rewrite E.
  assert (Hin' : In (k, a) (mA s i)) by (rewrite <- (pi_A _ _ _ _ _ P); auto).
  destruct (entry_col l t k a P Hin') as [Hk Na].
  set (v := if t_lhs_inf (rt t i) then a_min (acts t i) else fin (lhs t i)).
  set (m := compute_max_act_one_tag (lb t) (ub t) k (mA s i)).
  assert (EV : (if t_lhs_inf (rt t i) then (a_min (acts t i) - m) / a else (fin (lhs t i) - m) / a) == (v - m) / a).
  { unfold v. destruct (t_lhs_inf (rt t i)); lra. }
  set (q := if t_lhs_inf (rt t i) then (a_min (acts t i) - m) / a else (fin (lhs t i) - m) / a) in *.
  assert (IMP : forall x, sat zero zero t x -> v - m <= a * x k).
  { intros x Sx. pose proof (up_but R t x i (pi_inv _ _ _ _ _ P) (pi_sub _ _ _ WS _ _ P) (pi_av _ _ _ _ _ P) Sx Hi' T' k a Hin C2 F) as L.
    rewrite (pi_A _ _ _ _ _ P) in L. fold m in L.
    assert (U : v <= dot (mA s i) x).
    { rewrite <- (pi_A _ _ _ _ _ P). unfold v. destruct (t_lhs_inf (rt t i)) eqn:RI.
      - cbn [negb orb] in C1. apply Z.eqb_eq in C1.
        exact (act_low R t x i (pi_inv _ _ _ _ _ P) (pi_sub _ _ _ WS _ _ P) (pi_av _ _ _ _ _ P) Sx Hi' T' RL C1).
      - apply (pi_sat_row l t x P Sx). auto. }
    lra. }
  destruct (Qgtb a 0) eqn:PA; qb.
  - apply (try_lb_step l (t, st, n)); auto. intros x Sx. rewrite EV. apply div_ge; auto.
  - assert (NA : a < 0) by (apply not_pos; auto; lra).
    apply (try_ub_step l (t, st, n)); auto. intros x Sx. rewrite EV. apply div_ge_neg; auto.
Qed.
Lemma single_row_step : forall l t, PI l t ->
  let '(t', st) := bound_tightening_single_row b i t in
  exists l', PI (l ++ l') t' /\ (HAS_STATUS st INFEASIBLE = true -> empty (l ++ l')).
Proof.
  intros l t P. unfold bound_tightening_single_row. cbv zeta. destruct (pi_T _ _ P) as [Hi' T'].
  rewrite (view_full t i (pi_inv _ _ _ _ _ P) Hi' T'), (pi_A _ _ _ _ _ P).
  destruct (tighten_rhs_step l (t, UNCHANGED, O)) as [l1 [T1 _]]. { split; [exact P|discriminate]. }
  destruct (tighten_lhs_step (l ++ l1) _ T1) as [l2 [T2 _]].
  set (p := tighten_lhs _ _ _ _) in *. clearbody p. destruct p as [[t2 st2] n2].
  exists (l1 ++ l2). rewrite app_assoc. destruct T2 as [T2 E2]. unfold st_of in *. cbn [fst snd] in *.
  split; auto. destruct n2; auto. apply PI_record; auto.
Qed.
End OneRow.

Lemma loop_step : forall fuel ii l t, PI l t -> (L_Struct8.lp t <= ii + fuel)%nat ->
  let '(t', st) := prop_loop b fuel ii t in
  exists l', PI (l ++ l') t' /\ (st = UNCHANGED \/ st = INFEASIBLE /\ empty (l ++ l')).
Proof.
  induction fuel as [|f IH]; intros ii l t P L; cbn [prop_loop].
  - destruct (nth_error (w_acts t) ii) eqn:E; [|exists []; rewrite app_nil_r; auto].
    exfalso. assert (X : (ii < length (w_acts t))%nat) by (apply nth_error_Some; congruence).
    unfold L_Struct8.lp in L. lia.
  - destruct (nth_error (w_acts t) ii) as [i|] eqn:E; [|exists []; rewrite app_nil_r; auto].
    assert (Hi : (i < nr t)%nat) by (apply (l_acts t (inv_L t (pi_inv _ _ _ _ _ P))); eapply nth_error_In; eauto).
    destruct (skip_row t i) eqn:SK; [apply IH; auto; lia|].
    unfold skip_row in SK. apply orb_false_iff in SK. destruct SK as [SK _].
    apply orb_false_iff in SK. destruct SK as [SZ SK]. apply negb_false_iff in SK.
    assert (P0 : PI l (set_ast i PROPAGATED_THIS_ROUND t)).
    { apply PI_ast; auto. unfold ast_is in SK. destruct (a_st (acts t i)); try discriminate. simpl. lia. }
    assert (PP : prs t (set_ast i PROPAGATED_THIS_ROUND t)).
    { apply prs_set_ast; [eapply pi_inv; eauto|]. unfold ast_is in SK. destruct (a_st (acts t i)); try discriminate. simpl. lia. }
    assert (T : t_inact (rt t i) = false).
    { apply (quiet_row t i (pi_inv _ _ _ _ _ P)); auto. { eapply pi_rows; eauto. } apply Z.leb_gt in SZ. lia. }
    assert (Hi' : (i < nr s)%nat) by (rewrite <- (pi_nr _ _ _ _ _ P); auto).
    assert (T' : t_inact (rt s i) = false) by (rewrite <- (kp_rt _ _ (pi_kept _ _ _ _ _ P)); auto).
    pose proof (single_row_step i Hi' T' l _ P0) as X.
    pose proof (prs_single_row b i _ (pi_inv _ _ _ _ _ P0) Hi) as PS.
    destruct (bound_tightening_single_row b i _) as [t1 st]. cbn [fst] in PS. destruct X as [l1 [P1 E1]].
    destruct (HAS_STATUS st INFEASIBLE) eqn:HS; [exists l1; auto|].
    specialize (IH (S ii) (l ++ l1) t1 P1). destruct (prop_loop b f (S ii) t1) as [t2 st2].
    destruct IH as [l2 [P2 E2]].
    { destruct (pr_lp _ _ PP) as [_ Y1]. destruct (pr_lp _ _ PS) as [_ Y2]. lia. }
    exists (l1 ++ l2). rewrite app_assoc. auto.
Qed.
Lemma next_round_num : forall t i, anum (acts (next_round t) i) (acts t i).
Proof.
  intros t i. unfold next_round. cbv zeta. sr.
  set (keep := nodup Nat.eq_dec _). clearbody keep.
  assert (X : forall a l z, anum (acts (foldS (fun s i => set_ast i a s) l z) i) (acts z i)).
  { intros a. induction l as [|j l IHl]; intros z; cbn [foldS]; [apply anum_refl|].
    eapply anum_trans; [apply IHl|]. unfold set_ast. sr. updg; [repeat split|apply anum_refl]. }
  eapply anum_trans; apply X.
Qed.
Lemma next_round_frame : forall t, exists A W, next_round t = set_w_acts W (set_acts A t).
Proof.
  intros t. unfold next_round. cbv zeta.
  set (keep := nodup Nat.eq_dec _). clearbody keep.
  assert (X : forall a l z, exists A, foldS (fun s i => set_ast i a s) l z = set_acts A z).
  { intros a. induction l as [|j l IHl]; intros z; cbn [foldS].
    - exists (acts z). destruct z; reflexivity.
    - destruct (IHl (set_ast j a z)) as [A E]. rewrite E. exists A. unfold set_ast. reflexivity. }
  destruct (X NOT_ADDED (seq 0 (nr t)) t) as [A1 E1]. rewrite E1.
  destruct (X ADDED keep (set_acts A1 t)) as [A2 E2]. rewrite E2.
  exists A2, keep. reflexivity.
Qed.
(** Like [PI], after the activities have been marked for the next round. *)
Lemma next_PI : forall l t, PI l t -> let t' := next_round t in
  Inv t' /\ Mid t' /\ AV R t' /\ w_sub t' = [] /\ w_rows t' = [] /\
  (forall r c x, sat r c t' x <-> sat r c t x) /\ (forall x, obj t' x == obj t x) /\ ct t' = ct t /\ ub t' = ub t.
Proof.
  intros l t P. cbv zeta. pose proof (next_round_same t) as SN. pose proof (next_round_num t) as NN.
  destruct (next_round_frame t) as [A [W E]]. set (t' := next_round t) in *. clearbody t'.
  split. { eapply same_Inv; [exact SN|eapply pi_inv; eauto]. }
  split. { eapply mid_same_Mid; [|apply (pi_mid _ _ _ _ _ P)]. subst t'. mid_ref. }
  split. { eapply AV_same; [exact G|apply (pi_av _ _ _ _ _ P)|..]; try (rewrite E; reflexivity); auto;
    rewrite E; sr; auto. }
  split. { rewrite E. apply (pi_sub _ _ _ WS _ _ P). }
  split. { rewrite E. apply (pi_rows _ _ _ WR _ _ P). }
  subst t'. split; [intros; reflexivity|]. split; [intros; reflexivity|]. split; reflexivity.
Qed.
End Prop_.
