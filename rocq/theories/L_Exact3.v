(** Checking that the calls of a run are exact, all explorers. *)
From Coq Require Import NArith Lqa Lia Qabs.
From Verif Require Import M_Num S_LP M_Settings M_Driver S_Driver M_State M_Act M_Core M_Simple
  M_StonCols M_Dton M_Parallel M_Propagate M_Init M_Post M_Run S_Run S_Struct S_Sem S_Sem2 S_Sem4 S_Trace S_Dton S_Merge S_MergeCol S_Exact
  L_Sem L_Sem2 L_Act L_ActP L_Fwd2 L_ParCol4 L_Dton3 L_ParRow3.
Import M_Driver.
Open Scope Q_scope.

Definition storedb (s : state) : bool := forallb (fun i =>
  forallb (fun e => negb (Qeqb (snd e) 0) && existsb (Nat.eqb (fst e)) (live_cols s)) (mA s i) &&
  Z.eqb (n_inf_min (acts s i)) (Z.of_nat (infinite_ones (low_end (reduced_lp s)) (mA s i))) &&
  Z.eqb (n_inf_max (acts s i)) (Z.of_nat (infinite_ones (high_end (reduced_lp s)) (mA s i))) &&
  (negb (Z.eqb (n_inf_min (acts s i)) 0) || Qleb (a_min (acts s i)) (ssum (lowb (lb s) (ub s)) (mA s i))) &&
  (negb (Z.eqb (n_inf_max (acts s i)) 0) || Qleb (ssum (upb (lb s) (ub s)) (mA s i)) (a_max (acts s i)))) (live_rows s).
Lemma storedb_ok : forall s, storedb s = true -> stored_right s.
Proof.
  intros s H i Hi. unfold storedb in H. rewrite forallb_forall in H. specialize (H i Hi).
  repeat (apply andb_true_iff in H; let B := fresh "B" in destruct H as [H B]). apply Z.eqb_eq in B2, B1.
  assert (E : forall x, within_bounds (reduced_lp s) x -> forall e, In e (mA s i) ->
    (is_fin (lowb (lb s) (ub s) e) = true -> snd e * fin (lowb (lb s) (ub s) e) <= snd e * x (fst e)) /\
    (is_fin (upb (lb s) (ub s) e) = true -> snd e * x (fst e) <= snd e * fin (upb (lb s) (ub s) e))).
  { intros x W [k a] He. rewrite forallb_forall in H. specialize (H _ He). apply andb_true_iff in H. destruct H as [H1 H2].
    cbn [fst snd] in *. apply existsb_exists in H2. destruct H2 as [k' [K1 K2]]. apply Nat.eqb_eq in K2. subst k'.
    apply ends; [apply (W k K1)|]. apply negb_true_iff in H1. qb. auto. }
  constructor; auto.
  - intros Z0 x W. rewrite Z0 in B0. cbn [Z.eqb negb orb] in B0. qb. eapply Qle_trans; [exact B0|]. apply sum_low.
    + intros e He. apply (E x W e He).
    + rewrite low_is, <- Z0. symmetry. exact B2.
  - intros Z0 x W. rewrite Z0 in B. cbn [Z.eqb negb orb] in B. qb. eapply Qle_trans; [|exact B]. apply sum_up.
    + intros e He. apply (E x W e He).
    + rewrite high_is, <- Z0. symmetry. exact B1.
Qed.

Definition ends_of (q : Q) (pos neg : ext) : list Q :=
  if Qgtb q 0 then match pos with Fin w => [w / q] | _ => [] end else match neg with Fin w => [w / q] | _ => [] end.
Definition sidesb (P : LP) : bool :=
  forallb (fun i => negb (Qeqb (first_entry (lp_A P i)) 0) &&
    forallb (fun j => negb (parb (lp_A P j) (lp_A P i)) || forallb (fun k => negb (parb (lp_A P k) (lp_A P i)) ||
      let qj := first_entry (lp_A P j) / first_entry (lp_A P i) in let qk := first_entry (lp_A P k) / first_entry (lp_A P i) in
      forallb (fun l => forallb (fun u => Qleb u l || Qgtb (u - l) FEAS_TOL) (ends_of qk (lp_rhs P k) (lp_lhs P k)))
        (ends_of qj (lp_lhs P j) (lp_rhs P j))) (lp_rows P)) (lp_rows P)) (lp_rows P).
Lemma ends_in : forall q q' a b w v, q' == q -> w == q * v -> (0 < q /\ a = Fin w \/ q < 0 /\ b = Fin w) ->
  exists v', In v' (ends_of q' a b) /\ v' == v.
Proof.
  intros q q' a b w v EQ EW [[Q E]|[Q E]]; unfold ends_of; destruct (Qgtb q' 0) eqn:G; qb; try (exfalso; lra); rewrite E;
  exists (w / q'); (split; [left; reflexivity|]); rewrite EW, EQ; field; lra.
Qed.
Lemma sidesb_ok : forall P, sidesb P = true -> sides_apart P.
Proof.
  intros P H i j k l u Hi Hj Hk (q & w & A1 & A2 & A3) (p & v & B1 & B2 & B3) LT.
  unfold sidesb in H. rewrite forallb_forall in H. specialize (H i Hi). cbv beta in H. apply andb_true_iff in H. destruct H as [N H].
  apply negb_true_iff in N. rewrite forallb_forall in H. specialize (H j Hj). cbv beta in H. rewrite (parb_ok _ _ _ A1) in H. cbn [negb orb] in H.
  rewrite forallb_forall in H. specialize (H k Hk). cbv beta in H. rewrite (parb_ok _ _ _ B1) in H. cbn [negb orb] in H. cbv zeta in H.
  assert (NZ : ~ first_entry (lp_A P i) == 0) by (qb; auto).
  destruct (ends_in q _ _ _ w l (scaled_ratio _ _ _ A1 NZ) A2 A3) as [l' [L1 L2]].
  destruct (ends_in p _ _ _ v u (scaled_ratio _ _ _ B1 NZ) B2 B3) as [u' [U1 U2]].
  rewrite forallb_forall in H. specialize (H l' L1). cbv beta in H. rewrite forallb_forall in H. specialize (H u' U1).
  apply orb_true_iff in H. destruct H as [H|H]; qb; lra.
Qed.

Definition nilb (l : list nat) : bool := match l with [] => true | _ => false end.
Definition hereb (fits : nat -> bool) (c : call) : bool :=
  exactb c &&
  match c_kind c with
  | StonCols | CheckActs | Propagate => storedb (c_before c)
  | DtonEq => passesb fits (S (nr (c_before c))) (c_before c) && negb (tiny (c_after c))
  | ParRows => nilb (w_empty_rows (c_before c)) && clearb (reduced_lp (c_before c)) && sidesb (reduced_lp (c_before c))
  | ParCols => nilb (w_ston_rows (c_before c)) && usedb (reduced_lp (c_before c)) && clearcb (reduced_lp (c_before c))
  | _ => true
  end.
Lemma nilb_ok : forall l, nilb l = true -> l = [].
Proof. intros [|]; auto; discriminate. Qed.
Lemma hereb_ok : forall fits c, hereb fits c = true -> exact_here fits c.
Proof.
  intros fits c H. apply andb_true_iff in H. destruct H as [A B]. split; [apply exactb_ok; auto|].
  destruct (c_kind c); auto; try (apply storedb_ok; auto).
  - apply andb_true_iff in B. destruct B as [B1 B2]. split; [apply L_Dton3.clearb_ok; auto|apply negb_true_iff; auto].
  - apply andb_true_iff in B. destruct B as [B B3]. apply andb_true_iff in B. destruct B as [B1 B2].
    split; [apply nilb_ok; auto|split; [apply L_ParRow3.clearb_ok; auto|apply sidesb_ok; auto]].
  - apply andb_true_iff in B. destruct B as [B B3]. apply andb_true_iff in B. destruct B as [B1 B2].
    split; [apply nilb_ok; auto|split; [apply usedb_ok; auto|apply clearcb_ok; auto]].
Qed.
Lemma exact_run_all : forall fits l, forallb (hereb fits) l = true -> exact_run fits l.
Proof.
  induction l as [|c l IH]; intros H; cbn; auto. cbn in H. apply andb_true_iff in H. destruct H as [A B].
  split; [apply hereb_ok; auto|auto].
Qed.
