(** Doubleton equality rows: from row to row and from pass to pass. *)
From Coq Require Import NArith Lqa Lia Qabs.
From Verif Require Import M_Num S_LP M_Settings M_Driver S_Driver M_State M_Act M_Core M_Simple
  M_StonCols M_Dton M_Parallel M_Propagate M_Init M_Post M_Run S_Run S_Struct S_Sem S_Dton
  L_State L_Struct L_Struct2 L_Struct3 L_Struct4 L_Struct5 L_Struct6 L_Struct7 L_Struct8 L_Tiny L_Struct9 L_Struct10 L_Struct11
  L_Sem L_Sem2 L_Sem3 L_Sem4 L_Sem5 L_Mid L_Mid2 L_Mid3 L_Mid4 L_Mid5 L_Mid7 L_Ston L_ParCol L_ParCol2 L_ParCol3 L_Dton.
Import M_Driver.
Notation bad := M_State.bad.
Open Scope Q_scope.

Definition grow (b : Q) : Q := MAX_RATIO_PIVOT * (b + FEAS_TOL).
Definition upto (b : Q) : nat -> Q := fun _ => b.

(** The bounds of k carried over to j *)
Definition implied (aij aik b : Q) (l u : ext) (s : state) (j : nat) : Prop :=
  forall B q, within B (lb s j) q (ub s j) -> 0 <= B ->
  within (ABSq (aij / aik) * (B + FEAS_TOL)) l ((b - aij * q) / aik) u.

Lemma abs_div_same : forall a b, 0 < b * a -> ABSq (a / b) == a / b.
Proof.
  intros a b H. unfold ABSq. assert (N : ~ b == 0) by (intros E; rewrite E in H; lra).
  assert (P : 0 < a / b). { assert (X : a / b == (b * a) / (b * b)) by (field; auto). rewrite X. apply Qlt_shift_div_l; [|lra].
    destruct (Qlt_le_dec 0 b) as [L|L]; [nra|]. assert (b < 0) by (destruct (Qle_lt_or_eq _ _ L); auto; contradiction). nra. }
  destruct (Qltb (a / b) 0) eqn:T; qb; lra.
Qed.
Lemma abs_div_opp : forall a b, b * a < 0 -> ABSq (a / b) == - (a / b).
Proof.
  intros a b H. unfold ABSq. assert (N : ~ b == 0) by (intros E; rewrite E in H; lra).
  assert (P : 0 < - (a / b)). { assert (X : - (a / b) == (- (b * a)) / (b * b)) by (field; auto). rewrite X. apply Qlt_shift_div_l; [|lra].
    destruct (Qlt_le_dec 0 b) as [L|L]; [nra|]. assert (b < 0) by (destruct (Qle_lt_or_eq _ _ L); auto; contradiction). nra. }
  destruct (Qltb (a / b) 0) eqn:T; qb; lra.
Qed.

(** One bound of k, as a bound of j *)
Lemma carry_lo : forall aij aik b v q t, 0 < aik * aij -> (* x_k >= v *)
  q <= (b - aik * v) / aij + t -> v <= (b - aij * q) / aik + ABSq (aij / aik) * t.
Proof.
  intros aij aik b v q t H X. rewrite (abs_div_same aij aik H).
  assert (N1 : ~ aik == 0) by (intros E; rewrite E in H; lra). assert (N2 : ~ aij == 0) by (intros E; rewrite E in H; lra).
  assert (P : 0 <= aij / aik). { rewrite <- (abs_div_same aij aik H). unfold ABSq. destruct (Qltb (aij / aik) 0) eqn:T; qb; lra. }
  assert (Y : (b - aij * q) / aik + aij / aik * t - v == aij / aik * ((b - aik * v) / aij + t - q)) by (field; auto).
  assert (Z : 0 <= aij / aik * ((b - aik * v) / aij + t - q)) by (apply Qmult_le_0_compat; lra). lra.
Qed.
Lemma carry_hi : forall aij aik b v q t, 0 < aik * aij -> (* x_k <= v *)
  (b - aik * v) / aij - t <= q -> (b - aij * q) / aik - ABSq (aij / aik) * t <= v.
Proof.
  intros aij aik b v q t H X. rewrite (abs_div_same aij aik H).
  assert (N1 : ~ aik == 0) by (intros E; rewrite E in H; lra). assert (N2 : ~ aij == 0) by (intros E; rewrite E in H; lra).
  assert (P : 0 <= aij / aik). { rewrite <- (abs_div_same aij aik H). unfold ABSq. destruct (Qltb (aij / aik) 0) eqn:T; qb; lra. }
  assert (Y : v - ((b - aij * q) / aik - aij / aik * t) == aij / aik * (q - ((b - aik * v) / aij - t))) by (field; auto).
  assert (Z : 0 <= aij / aik * (q - ((b - aik * v) / aij - t))) by (apply Qmult_le_0_compat; lra). lra.
Qed.
Lemma carry_lo' : forall aij aik b v q t, aik * aij < 0 ->
  (b - aik * v) / aij - t <= q -> v <= (b - aij * q) / aik + ABSq (aij / aik) * t.
Proof.
  intros aij aik b v q t H X. rewrite (abs_div_opp aij aik H).
  assert (N1 : ~ aik == 0) by (intros E; rewrite E in H; lra). assert (N2 : ~ aij == 0) by (intros E; rewrite E in H; lra).
  assert (P : 0 <= - (aij / aik)). { rewrite <- (abs_div_opp aij aik H). unfold ABSq. destruct (Qltb (aij / aik) 0) eqn:T; qb; lra. }
  assert (Y : (b - aij * q) / aik + - (aij / aik) * t - v == - (aij / aik) * (q - ((b - aik * v) / aij - t))) by (field; auto).
  assert (Z : 0 <= - (aij / aik) * (q - ((b - aik * v) / aij - t))) by (apply Qmult_le_0_compat; lra). lra.
Qed.
Lemma carry_hi' : forall aij aik b v q t, aik * aij < 0 ->
  q <= (b - aik * v) / aij + t -> (b - aij * q) / aik - ABSq (aij / aik) * t <= v.
Proof.
  intros aij aik b v q t H X. rewrite (abs_div_opp aij aik H).
  assert (N1 : ~ aik == 0) by (intros E; rewrite E in H; lra). assert (N2 : ~ aij == 0) by (intros E; rewrite E in H; lra).
  assert (P : 0 <= - (aij / aik)). { rewrite <- (abs_div_opp aij aik H). unfold ABSq. destruct (Qltb (aij / aik) 0) eqn:T; qb; lra. }
  assert (Y : v - ((b - aij * q) / aik - - (aij / aik) * t) == - (aij / aik) * ((b - aik * v) / aij + t - q)) by (field; auto).
  assert (Z : 0 <= - (aij / aik) * ((b - aik * v) / aij + t - q)) by (apply Qmult_le_0_compat; lra). lra.
Qed.
(** ... and the exact direction *)
Lemma bring_ub : forall aij aik b v xj xk, 0 < aik * aij -> aij * xj + aik * xk == b -> v <= xk -> xj <= (b - aik * v) / aij.
Proof.
  intros aij aik b v xj xk H E L.
  assert (N1 : ~ aik == 0) by (intros C; rewrite C in H; lra). assert (N2 : ~ aij == 0) by (intros C; rewrite C in H; lra).
  assert (P : 0 <= aik / aij). { rewrite Qmult_comm in H. rewrite <- (abs_div_same aik aij H). unfold ABSq. destruct (Qltb (aik / aij) 0) eqn:T; qb; lra. }
  assert (Y : (b - aik * v) / aij - xj == aik / aij * (xk - v)) by (rewrite <- E; field; auto).
  assert (Z : 0 <= aik / aij * (xk - v)) by (apply Qmult_le_0_compat; lra). lra.
Qed.
Lemma bring_lb : forall aij aik b v xj xk, 0 < aik * aij -> aij * xj + aik * xk == b -> xk <= v -> (b - aik * v) / aij <= xj.
Proof.
  intros aij aik b v xj xk H E L.
  assert (N1 : ~ aik == 0) by (intros C; rewrite C in H; lra). assert (N2 : ~ aij == 0) by (intros C; rewrite C in H; lra).
  assert (P : 0 <= aik / aij). { rewrite Qmult_comm in H. rewrite <- (abs_div_same aik aij H). unfold ABSq. destruct (Qltb (aik / aij) 0) eqn:T; qb; lra. }
  assert (Y : xj - (b - aik * v) / aij == aik / aij * (v - xk)) by (rewrite <- E; field; auto).
  assert (Z : 0 <= aik / aij * (v - xk)) by (apply Qmult_le_0_compat; lra). lra.
Qed.
Lemma bring_lb' : forall aij aik b v xj xk, aik * aij < 0 -> aij * xj + aik * xk == b -> v <= xk -> (b - aik * v) / aij <= xj.
Proof.
  intros aij aik b v xj xk H E L.
  assert (N1 : ~ aik == 0) by (intros C; rewrite C in H; lra). assert (N2 : ~ aij == 0) by (intros C; rewrite C in H; lra).
  assert (P : 0 <= - (aik / aij)). { rewrite Qmult_comm in H. rewrite <- (abs_div_opp aik aij H). unfold ABSq. destruct (Qltb (aik / aij) 0) eqn:T; qb; lra. }
  assert (Y : xj - (b - aik * v) / aij == - (aik / aij) * (xk - v)) by (rewrite <- E; field; auto).
  assert (Z : 0 <= - (aik / aij) * (xk - v)) by (apply Qmult_le_0_compat; lra). lra.
Qed.
Lemma bring_ub' : forall aij aik b v xj xk, aik * aij < 0 -> aij * xj + aik * xk == b -> xk <= v -> xj <= (b - aik * v) / aij.
Proof.
  intros aij aik b v xj xk H E L.
  assert (N1 : ~ aik == 0) by (intros C; rewrite C in H; lra). assert (N2 : ~ aij == 0) by (intros C; rewrite C in H; lra).
  assert (P : 0 <= - (aik / aij)). { rewrite Qmult_comm in H. rewrite <- (abs_div_opp aik aij H). unfold ABSq. destruct (Qltb (aik / aij) 0) eqn:T; qb; lra. }
  assert (Y : (b - aik * v) / aij - xj == - (aik / aij) * (v - xk)) by (rewrite <- E; field; auto).
  assert (Z : 0 <= - (aik / aij) * (v - xk)) by (apply Qmult_le_0_compat; lra). lra.
Qed.


(** ** Tightening bounds of j *)
Record bstep (C : (nat -> Q) -> Prop) (j : nat) (s t : state) : Prop := {
  bs_sem : forall c, semstep C zero c s t;
  bs_same : same_struct s t;
  bs_rest : rest_same s t;
  bs_lhs : lhs t = lhs s;  bs_rhs : rhs t = rhs s;
  bs_oth : forall c, c <> j -> lb t c = lb s c /\ ub t c = ub s c }.
Lemma bstep_refl : forall C j s, Mid s -> bstep C j s s.
Proof.
  intros C j s [T P E L]. constructor; auto using same_refl, rest_refl. intros c. apply semstep_refl; auto.
Qed.
Lemma bstep_trans : forall C j a b c, bstep C j a b -> bstep C j b c -> bstep C j a c.
Proof.
  intros C j a b c [A1 A2 A3 A4 A5 A6] [B1 B2 B3 B4 B5 B6].
  constructor; try congruence; eauto using same_trans, rest_trans.
  - intros d. eapply semstep_trans; eauto.
  - intros d D. destruct (A6 d D), (B6 d D). split; congruence.
Qed.
Definition some_feasible (C : (nat -> Q) -> Prop) (s : state) : Prop := exists x, C x /\ sat zero zero s x.
Lemma bstep_feasible : forall C j s t, bstep C j s t -> some_feasible C s -> some_feasible C t.
Proof. intros C j s t B [x [X1 X2]]. exists x. split; auto. apply (se_fwd _ _ _ _ _ (bs_sem _ _ _ _ B zero)); auto. Qed.

Lemma update_lb_bstep : forall C j v i s, (j < nc s)%nat -> t_cinact (ct s j) = false -> Mid s -> Inv s ->
  some_feasible C s -> (forall x, C x -> sat zero zero s x -> v <= x j) ->
  let t := fst (update_lb j v i s) in
  bstep C j s t /\ ub t = ub s /\ (forall q, ext_le (lb t j) q -> v - FEAS_TOL <= q).
Proof.
  intros C j v i s Hj Tj M H [x0 [X1 X2]] HV. cbv zeta.
  pose proof (fun c => update_lb_sem C zero c j v i s (fst (update_lb j v i s)) (snd (update_lb j v i s)) Hj Tj
    (md_tags s M) (md_pend s M) (md_empty s M) H HV (surjective_pairing _)) as P.
  pose proof (update_lb_same j v i s (Inv_col_in s j H Hj)) as SM.
  pose proof (update_lb_cases j v i s) as X.
  destruct (update_lb j v i s) as [t st]. cbn [fst snd] in *.
  assert (Q : forall c, st = UNCHANGED /\ semstep C zero c s t /\ L_Sem5.keeps s t /\ Inv t /\ ub t = ub s /\
     (forall q, ext_le (lb t j) q -> v - FEAS_TOL <= q)).
  { intros c. destruct (P c) as [[_ N]|Q]; [|exact Q]. exfalso. eapply N; eauto. }
  destruct (Q zero) as (_&_&_&_&U&LQ). split; [|auto].
  assert (R : rest_same s t /\ lhs t = lhs s /\ rhs t = rhs s /\ (forall c, c <> j -> lb t c = lb s c /\ ub t c = ub s c)).
  { destruct X as [[_ [-> _]]|[_ [_ [[-> _]|[_ [A [W ->]]]]]]]; (split; [constructor; reflexivity|]); sr;
      (split; [reflexivity|]; split; [reflexivity|]); intros c D; rewrite ?upd_other by auto; auto. }
  destruct R as (R1&R2&R3&R4). constructor; auto. intros c. apply (Q c).
Qed.
Lemma update_ub_bstep : forall C j v i s, (j < nc s)%nat -> t_cinact (ct s j) = false -> Mid s -> Inv s ->
  some_feasible C s -> (forall x, C x -> sat zero zero s x -> x j <= v) ->
  let t := fst (update_ub j v i s) in
  bstep C j s t /\ lb t = lb s /\ (forall q, le_ext q (ub t j) -> q <= v + FEAS_TOL).
Proof.
  intros C j v i s Hj Tj M H [x0 [X1 X2]] HV. cbv zeta.
  pose proof (fun c => update_ub_sem C zero c j v i s (fst (update_ub j v i s)) (snd (update_ub j v i s)) Hj Tj
    (md_tags s M) (md_pend s M) (md_empty s M) H HV (surjective_pairing _)) as P.
  pose proof (update_ub_same j v i s (Inv_col_in s j H Hj)) as SM.
  pose proof (update_ub_cases j v i s) as X.
  destruct (update_ub j v i s) as [t st]. cbn [fst snd] in *.
  assert (Q : forall c, st = UNCHANGED /\ semstep C zero c s t /\ L_Sem5.keeps s t /\ Inv t /\ lb t = lb s /\
     (forall q, le_ext q (ub t j) -> q <= v + FEAS_TOL)).
  { intros c. destruct (P c) as [[_ N]|Q]; [|exact Q]. exfalso. eapply N; eauto. }
  destruct (Q zero) as (_&_&_&_&U&LQ). split; [|auto].
  assert (R : rest_same s t /\ lhs t = lhs s /\ rhs t = rhs s /\ (forall c, c <> j -> lb t c = lb s c /\ ub t c = ub s c)).
  { destruct X as [[_ [-> _]]|[_ [_ [[-> _]|[_ [A [W ->]]]]]]]; (split; [constructor; reflexivity|]); sr;
      (split; [reflexivity|]; split; [reflexivity|]); intros c D; rewrite ?upd_other by auto; auto. }
  destruct R as (R1&R2&R3&R4). constructor; auto. intros c. apply (Q c).
Qed.

Lemma active_unfixed : forall s k, t_cinact (ct s k) = false -> t_fixed (ct s k) = false.
Proof. intros s k. unfold t_cinact. destruct (t_fixed (ct s k)); auto. Qed.

Lemma modify_bounds_bstep : forall i j k aij aik b s, (j < nc s)%nat -> (k < nc s)%nat -> j <> k ->
  t_cinact (ct s j) = false -> t_cinact (ct s k) = false -> Mid s -> Inv s -> ~ aij == 0 -> ~ aik == 0 ->
  let C := at_eq aij aik b j k in some_feasible C s ->
  let t := modify_bounds i aij aik b (lb s k) (ub s k) j (ct s k) s in
  bstep C j s t /\ implied aij aik b (lb s k) (ub s k) t j.
Proof.
  intros i j k aij aik b s Hj Hk NJ Tj Tk M H NIJ NIK. cbv zeta. intros FE.
  assert (TL := tr_lb s (md_tags s M) k Hk Tk). assert (TU := tr_ub s (md_tags s M) k Hk Tk).
  assert (LK : forall x, sat zero zero s x -> t_lb_inf (ct s k) = false -> fin (lb s k) <= x k).
  { intros x [_ [S _]] E. destruct (S k Hk Tk) as [A _]. rewrite E in TL. apply ext_le_fin in A; auto. unfold exactly in A. lra. }
  assert (UK : forall x, sat zero zero s x -> t_ub_inf (ct s k) = false -> x k <= fin (ub s k)).
  { intros x [_ [S _]] E. destruct (S k Hk Tk) as [_ A]. rewrite E in TU. apply le_ext_fin in A; auto. unfold exactly in A. lra. }
  unfold modify_bounds. destruct (Qgtb (aik * aij) 0) eqn:SG.
  - assert (PG : 0 < aik * aij) by (qb; lra).
    set (s1 := if t_lb_inf (ct s k) then s else _).
    assert (B1 : bstep (at_eq aij aik b j k) j s s1 /\ Mid s1 /\ lb s1 = lb s /\
      (t_lb_inf (ct s k) = false -> forall q, le_ext q (ub s1 j) -> q <= (b - aik * fin (lb s k)) / aij + FEAS_TOL)).
    { unfold s1. destruct (t_lb_inf (ct s k)) eqn:E; [split; [apply bstep_refl; auto|]; split; [auto|]; split; [auto|discriminate]|].
      destruct (update_ub_bstep (at_eq aij aik b j k) j ((b - aik * fin (lb s k)) / aij) i s Hj Tj M H FE) as (Y1&Y2&Y3).
      { intros x Cx Sx. eapply bring_ub; eauto. }
      split; [auto|]. split; [apply update_ub_Mid; auto|]. split; auto. }
    clearbody s1. destruct B1 as (B1&M1&L1&Q1). cbv zeta.
    assert (T1 : t_cinact (ct s1 j) = false) by (rewrite (ss_ct _ _ j (bs_same _ _ _ _ B1)); auto).
    rewrite (active_unfixed _ _ T1), andb_false_r.
    assert (I1 : Inv s1) by (eapply same_Inv; [apply (bs_same _ _ _ _ B1)|auto]).
    assert (Hj1 : (j < nc s1)%nat) by (rewrite (ss_nc _ _ (bs_same _ _ _ _ B1)); auto).
    set (s2 := if t_ub_inf (ct s k) then s1 else _).
    assert (B2 : bstep (at_eq aij aik b j k) j s1 s2 /\ ub s2 = ub s1 /\
      (t_ub_inf (ct s k) = false -> forall q, ext_le (lb s2 j) q -> (b - aik * fin (ub s k)) / aij - FEAS_TOL <= q)).
    { unfold s2. destruct (t_ub_inf (ct s k)) eqn:E; [split; [apply bstep_refl; auto|]; split; [auto|discriminate]|].
      destruct (update_lb_bstep (at_eq aij aik b j k) j ((b - aik * fin (ub s k)) / aij) i s1 Hj1 T1 M1 I1) as (Y1&Y2&Y3).
      { eapply bstep_feasible; eauto. }
      { intros x Cx Sx. apply (se_bwd _ _ _ _ _ (bs_sem _ _ _ _ B1 zero)) in Sx. eapply bring_lb; eauto. }
      auto. }
    clearbody s2. destruct B2 as (B2&U2&Q2). split; [eapply bstep_trans; eauto|].
    intros B q [W1 W2] HB. rewrite U2 in W2. split.
    + destruct (t_lb_inf (ct s k)); [rewrite TL; exact I|]. apply ext_le_fin; auto.
      specialize (Q1 eq_refl _ W2). apply carry_lo; auto. lra.
    + destruct (t_ub_inf (ct s k)); [rewrite TU; exact I|]. apply le_ext_fin; auto.
      specialize (Q2 eq_refl _ W1). apply carry_hi; auto. lra.
  - assert (PG : aik * aij < 0).
    { qb. destruct (Qlt_le_dec (aik * aij) 0) as [L|L]; auto. exfalso.
      assert (Z : aik * aij == 0) by lra. apply Qmult_integral in Z. tauto. }
    set (s1 := if t_lb_inf (ct s k) then s else _).
    assert (B1 : bstep (at_eq aij aik b j k) j s s1 /\ Mid s1 /\ ub s1 = ub s /\
      (t_lb_inf (ct s k) = false -> forall q, ext_le (lb s1 j) q -> (b - aik * fin (lb s k)) / aij - FEAS_TOL <= q)).
    { unfold s1. destruct (t_lb_inf (ct s k)) eqn:E; [split; [apply bstep_refl; auto|]; split; [auto|]; split; [auto|discriminate]|].
      destruct (update_lb_bstep (at_eq aij aik b j k) j ((b - aik * fin (lb s k)) / aij) i s Hj Tj M H FE) as (Y1&Y2&Y3).
      { intros x Cx Sx. eapply bring_lb'; eauto. }
      split; [auto|]. split; [apply update_lb_Mid; auto|]. split; auto. }
    clearbody s1. destruct B1 as (B1&M1&L1&Q1). cbv zeta.
    assert (T1 : t_cinact (ct s1 j) = false) by (rewrite (ss_ct _ _ j (bs_same _ _ _ _ B1)); auto).
    rewrite (active_unfixed _ _ T1), andb_false_r.
    assert (I1 : Inv s1) by (eapply same_Inv; [apply (bs_same _ _ _ _ B1)|auto]).
    assert (Hj1 : (j < nc s1)%nat) by (rewrite (ss_nc _ _ (bs_same _ _ _ _ B1)); auto).
    set (s2 := if t_ub_inf (ct s k) then s1 else _).
    assert (B2 : bstep (at_eq aij aik b j k) j s1 s2 /\ lb s2 = lb s1 /\
      (t_ub_inf (ct s k) = false -> forall q, le_ext q (ub s2 j) -> q <= (b - aik * fin (ub s k)) / aij + FEAS_TOL)).
    { unfold s2. destruct (t_ub_inf (ct s k)) eqn:E; [split; [apply bstep_refl; auto|]; split; [auto|discriminate]|].
      destruct (update_ub_bstep (at_eq aij aik b j k) j ((b - aik * fin (ub s k)) / aij) i s1 Hj1 T1 M1 I1) as (Y1&Y2&Y3).
      { eapply bstep_feasible; eauto. }
      { intros x Cx Sx. apply (se_bwd _ _ _ _ _ (bs_sem _ _ _ _ B1 zero)) in Sx. eapply bring_ub'; eauto. }
      auto. }
    clearbody s2. destruct B2 as (B2&U2&Q2). split; [eapply bstep_trans; eauto|].
    intros B q [W1 W2] HB. rewrite U2 in W1. split.
    + destruct (t_lb_inf (ct s k)); [rewrite TL; exact I|]. apply ext_le_fin; auto.
      specialize (Q1 eq_refl _ W1). apply carry_lo'; auto. lra.
    + destruct (t_ub_inf (ct s k)); [rewrite TU; exact I|]. apply le_ext_fin; auto.
      specialize (Q2 eq_refl _ W2). apply carry_hi'; auto. lra.
Qed.

(** ** One listed row *)
Record sub_step (s t : state) : Prop := {
  sp_nc : nc t = nc s;
  sp_fwd : forall x, sat zero zero s x -> sat zero zero t x /\ obj t x == obj s x;
  sp_bwd : some_feasible (fun _ => True) s -> forall B y, 0 <= B -> sat zero (upto B) t y ->
    exists x, (forall c, (c < nc t)%nat -> t_cinact (ct t c) = false -> x c == y c) /\
      sat zero (upto (grow B)) s x /\ obj s x == obj t y;
  sp_ct : forall c, t_cinact (ct s c) = true -> t_cinact (ct t c) = true;
  sp_one : exists k, In k (live_cols s) /\ live_cols t = filter (fun j => negb (Nat.eqb j k)) (live_cols s) }.

Lemma dot_two : forall s i j k aij aik x, srt (mA s i) -> length (mA s i) = 2%nat -> j <> k -> In (j, aij) (mA s i) -> In (k, aik) (mA s i) ->
  dot (mA s i) x == aij * x j + aik * x k.
Proof.
  intros s i j k aij aik x SR L2 NJ IJ IK.
  destruct (mA s i) as [|e1 [|e2 [|e3 l]]]; simpl in L2; try lia. simpl in IJ, IK.
  destruct IJ as [IJ|[IJ|[]]]; destruct IK as [IK|[IK|[]]]; subst; try congruence; simpl; lra.
Qed.
Lemma live_cols_active : forall s, Ok s -> live_cols s = filter (fun k => negb (t_cinact (ct s k))) (seq 0 (nc s)).
Proof.
  intros s [H [Q1 Q2 Q3] _]. unfold live_cols. apply filter_ext_in. intros k Hk. apply in_seq in Hk.
  pose proof (quiet_col s k H Q2 Q3 ltac:(lia)) as P.
  destruct (t_cinact (ct s k)), (Z.eqb_spec (csz s k) (-1)); cbn; auto; exfalso; [|apply P in e; auto].
  destruct P as [P _]. specialize (P n). discriminate.
Qed.
Lemma within_zero_eq : forall p b v, p == b -> within 0 (Fin p) v (Fin b) -> v == b.
Proof. intros p b v E [A B]. cbn in A, B. lra. Qed.

Definition good (s : state) (i : nat) : Prop :=
  In i (lp_rows (reduced_lp s)) -> equation (reduced_lp s) i /\ clear_fill (reduced_lp s) i.

Lemma max_ratio_pos : 0 < MAX_RATIO_PIVOT /\ 1 <= MAX_RATIO_PIVOT. Proof. split; [reflexivity|discriminate]. Qed.
Lemma grow_le : forall B, 0 <= B -> B <= grow B.
Proof. intros B H. unfold grow, MAX_RATIO_PIVOT. pose proof tol_pos. lra. Qed.

Lemma can_dton_ratio : forall fits tk c0 c1 v0 v1 z0 z1 j k aij aik tk',
  can_dton_be_eliminated fits tk c0 c1 v0 v1 z0 z1 = (Some (j, k, aij, aik), tk') -> ABSq (aij / aik) <= MAX_RATIO_PIVOT.
Proof.
  intros fits tk c0 c1 v0 v1 z0 z1 j k aij aik tk'. unfold can_dton_be_eliminated. cbv zeta.
  destruct (if Z.eqb z0 1 && _ then true else _).
  - destruct (_ || _) eqn:E; [discriminate|]. destruct (fits tk); [|discriminate]. intros X; injection X as <- <- <- <- <-.
    apply orb_false_iff in E. destruct E as [E _]. qb. lra.
  - destruct (_ || _) eqn:E; [discriminate|]. destruct (fits tk); [|discriminate]. intros X; injection X as <- <- <- <- <-.
    apply orb_false_iff in E. destruct E as [E _]. qb. lra.
Qed.

Lemma sat_same_rows : forall r c s t x, nr t = nr s -> nc t = nc s -> mA t = mA s -> lhs t = lhs s -> rhs t = rhs s -> rt t = rt s ->
  ct t = ct s -> lb t = lb s -> ub t = ub s -> w_fixed t = w_fixed s -> w_sub t = w_sub s -> (sat r c t x <-> sat r c s x).
Proof.
  intros r c s t x E1 E2 E3 E4 E5 E6 E7 E8 E9 E10 E11. unfold sat, pinned. rewrite E1, E2, E3, E4, E5, E6, E7, E8, E9, E10, E11. tauto.
Qed.

(** from the state with the bounds carried over to the one without row and column *)
Lemma exec_sat : forall i j k aij aik b ck ents s nd, Inv s -> tags_right s -> w_fixed s = [] -> w_sub s = [] ->
  (i < nr s)%nat -> t_inact (rt s i) = false -> j <> k ->
  length (mA s i) = 2%nat -> In (j, aij) (mA s i) -> In (k, aik) (mA s i) -> ~ aij == 0 -> ~ aik == 0 ->
  t_cinact (ct s j) = false -> t_cinact (ct s k) = false ->
  (forall q, (q < nr s)%nat -> t_inact (rt s q) = false -> ~ coeff (mA s q) k == 0 ->
     clear_new (coeff (mA s q) j - aij / aik * coeff (mA s q) k)) ->
  (exists p, lhs s i = Fin p /\ p == b) -> rhs s i = Fin b ->
  let s' := fst (execute_substitution i j k aij aik ck ents (kill_row2 i s) nd) in w_sub s' = [] ->
  rest_same s s' /\ nc s' = nc s /\ ct s' = upd (ct s) k (CT false false true true) /\ (lb s' = lb s /\ ub s' = ub s) /\
  (forall c x, sat zero c s x -> at_eq aij aik b j k x /\ sat zero c s' x) /\
  (forall c x, sat zero c s' x -> at_eq aij aik b j k x -> within (c k) (lb s k) (x k) (ub s k) -> sat zero c s x).
Proof.
  intros i j k aij aik b ck ents s nd H TG WF WS Hi Ti NJ L2 IJ IK NIJ NIK Tj Tk CN [p [Lp Ep]] Rb. cbv zeta. intros WS'.
  assert (W := inv_0 s H).
  destruct (exec_eff i j k aij aik ck ents s nd H TG Hi Ti NJ L2 IJ IK NIJ NIK Tj Tk CN) as (RS&E1&E2&E3&E4&E5&E6&E7&AF).
  { intros q c a Hq Ha. eapply (w_rin s W); eauto. }
  set (s' := fst (execute_substitution i j k aij aik ck ents (kill_row2 i s) nd)) in *. clearbody s'.
  assert (FB : fin (rhs s i) = b) by (rewrite Rb; reflexivity).
  assert (MV : forall q x, (q < nr s)%nat -> q <> i -> t_inact (rt s q) = false -> at_eq aij aik b j k x ->
    (within 0 (lhs s q) (dot (mA s q) x) (rhs s q) <-> within 0 (lhs s' q) (dot (mA s' q) x) (rhs s' q))).
  { intros q x Hq Dq Tq AE. destruct (AF q Hq Dq Tq) as (D&M1&M2). rewrite FB in M1, M2.
    eapply within_moved; eauto. rewrite D. apply eq2 in AE; auto. rewrite AE. field. auto. }
  split; [exact RS|]. split; [exact E2|]. split; [exact E5|]. split; [auto|]. split.
  - intros c x [S1 [S2 S3]].
    assert (AE : at_eq aij aik b j k x).
    { specialize (S1 i Hi Ti). unfold exactly in S1. rewrite Lp, Rb in S1. apply within_zero_eq in S1; auto.
      rewrite (dot_two s i j k aij aik x) in S1; auto. apply (w_rsrt s W); auto. }
    split; [exact AE|]. split; [|split].
    + intros q Hq Tq. rewrite E1 in Hq. rewrite E6 in Tq. updh Tq; [discriminate|].
      unfold exactly. apply MV; auto. apply S1; auto.
    + intros c0 Hc Tc. rewrite E2 in Hc. rewrite E5 in Tc. updh Tc; [discriminate|]. rewrite E3, E4. auto.
    + unfold pinned. rewrite E7, WF, WS'. split; intros ? [].
  - intros c x [S1 [S2 S3]] AE WK. split; [|split].
    + intros q Hq Tq. unfold exactly in *. destruct (Nat.eq_dec q i) as [->|Dq].
      * rewrite Lp, Rb. assert (D : dot (mA s i) x == b).
        { rewrite (dot_two s i j k aij aik x); auto. apply (w_rsrt s W); auto. }
        split; cbn; rewrite D; lra.
      * apply MV; auto. apply S1; [rewrite E1; auto|]. rewrite E6, upd_other; auto.
    + intros c0 Hc Tc. destruct (Nat.eq_dec c0 k) as [->|Dc]; [exact WK|].
      rewrite <- E3, <- E4. apply S2; [rewrite E2; auto|]. rewrite E5, upd_other; auto.
    + unfold pinned. rewrite WF, WS. split; intros ? [].
Qed.

Definition same_problem (s t : state) : Prop := t = s \/ exists tk, t = set_tick tk s.

(** What a change of a bound of j leaves alone *)
Record bframe (j : nat) (s t : state) : Prop := {
  bf_rest : rest_same s t;  bf_lhs : lhs t = lhs s;  bf_rhs : rhs t = rhs s;  bf_rt : rt t = rt s;
  bf_oth : forall c, c <> j -> lb t c = lb s c /\ ub t c = ub s c }.
Lemma bframe_refl : forall j s, bframe j s s.
Proof. constructor; auto using rest_refl. Qed.
Lemma bframe_trans : forall j a b c, bframe j a b -> bframe j b c -> bframe j a c.
Proof.
  intros j a b c [A1 A2 A3 A4 A5] [B1 B2 B3 B4 B5]. constructor; try congruence; eauto using rest_trans.
  intros d D. destruct (A5 d D), (B5 d D). split; congruence.
Qed.
Lemma update_lb_frame : forall j v i s, bframe j s (fst (update_lb j v i s)).
Proof.
  intros j v i s. pose proof (update_lb_cases j v i s) as X. destruct (update_lb j v i s) as [t st]. cbn [fst].
  destruct X as [[_ [-> _]]|[_ [_ [[-> _]|[_ [A [W ->]]]]]]]; try apply bframe_refl.
  constructor; sr; auto; [constructor; reflexivity|]. intros c D; rewrite ?upd_other by auto; auto.
Qed.
Lemma update_ub_frame : forall j v i s, bframe j s (fst (update_ub j v i s)).
Proof.
  intros j v i s. pose proof (update_ub_cases j v i s) as X. destruct (update_ub j v i s) as [t st]. cbn [fst].
  destruct X as [[_ [-> _]]|[_ [_ [[-> _]|[_ [A [W ->]]]]]]]; try apply bframe_refl.
  constructor; sr; auto; [constructor; reflexivity|]. intros c D; rewrite ?upd_other by auto; auto.
Qed.
Lemma modify_bounds_frame : forall i aij aik b l u j t s, bframe j s (modify_bounds i aij aik b l u j t s).
Proof.
  intros i aij aik b l u j t s. unfold modify_bounds. destruct (Qgtb _ _); cbv zeta.
  - set (s1 := if t_lb_inf t then s else _).
    assert (S1 : bframe j s s1) by (unfold s1; destruct (t_lb_inf t); [apply bframe_refl|apply update_ub_frame]).
    clearbody s1. destruct (_ && _); auto. destruct (t_ub_inf t); auto. eapply bframe_trans; [exact S1|apply update_lb_frame].
  - set (s1 := if t_lb_inf t then s else _).
    assert (S1 : bframe j s s1) by (unfold s1; destruct (t_lb_inf t); [apply bframe_refl|apply update_lb_frame]).
    clearbody s1. destruct (_ && _); auto. destruct (t_ub_inf t); auto. eapply bframe_trans; [exact S1|apply update_ub_frame].
Qed.

Lemma dton_row_step : forall fits s nd st i, Ok s -> Mid s -> tiny s = false -> (i < nr s)%nat -> (rsz s i <= 2)%Z -> ndok s nd ->
  good s i -> let '(s', nd', st') := dton_row fits (s, nd, st) i in
  Ok s' /\ Mid s' /\ tiny s' = false /\ (same_problem s s' \/ sub_step s s').
Proof.
  intros fits s nd st i OK M HT Hi R2 NO GD.
  assert (H := ok_inv s OK). destruct (ok_quiet s OK) as [WR WF WS].
  assert (PN : pend1 s) by (intros p Hp; rewrite WR in Hp; destruct Hp).
  pose proof (dton_row_spec fits s nd st i H PN Hi R2 NO) as P.
  pose proof (dton_row_Mid fits s nd st i H M WF PN Hi R2) as PM.
  destruct (dton_row fits (s, nd, st) i) as [[s' nd'] st'] eqn:ED. cbn [fst] in PM.
  assert (K : tiny s' = false -> Ok s').
  { intros T'. destruct (P T') as (I'&F'&_). constructor; auto.
    - constructor; [rewrite (fr_w1 _ _ F')|rewrite (fr_w2 _ _ F')|rewrite (fr_w3 _ _ F')]; auto.
    - apply (fr_nx _ _ F'), OK. }
  cut (tiny s' = false /\ (Ok s' -> same_problem s s' \/ sub_step s s')). { intros [T' X]. auto 10. }
  revert ED. unfold dton_row.
  destruct (Z.ltb_spec (rsz s i) 2) as [L|L].
  { intros X; injection X as <- <- <-. split; auto. intros; left; left; auto. }
  assert (Ti : t_inact (rt s i) = false).
  { destruct (t_inact (rt s i)) eqn:E; auto.
    assert (C : In i (w_rows s)) by (apply (l_rows s (inv_L s H)); split; [auto|split; [auto|lia]]).
    apply PN in C. lia. }
  rewrite (view_full s i H Hi Ti).
  pose proof (tight_rsz s i (inv_0 s H) (inv_R s H) Hi Ti) as SZ.
  assert (L2 : length (mA s i) = 2%nat) by (unfold Z_len in SZ; lia).
  destruct (mA s i) as [|[c0 v0] [|[c1 v1] [|e l]]] eqn:EM; simpl in L2; try lia.
  destruct (t_cinact (ct s c0)) eqn:T0; cbn [orb]; [intros X; injection X as <- <- <-; split; auto; intros; left; left; auto|].
  destruct (t_cinact (ct s c1)) eqn:T1; cbn [orb]; [intros X; injection X as <- <- <-; split; auto; intros; left; left; auto|].
  assert (NE : c0 <> c1).
  { pose proof (w_rsrt s (inv_0 s H) i Hi) as S. rewrite EM in S. apply srt_inv in S.
    destruct S as [_ S]. specialize (S (c1, v1) (or_introl eq_refl)). simpl in S. lia. }
  destruct (can_dton_be_eliminated _ _ _ _ _ _ _ _) as [[[[[j k] aij] aik]|] tk] eqn:EC.
  2:{ intros X; injection X as <- <- <-. split; [exact HT|]. intros _. left. right. exists tk. reflexivity. }
  cbv zeta. set (s0 := set_tick tk s). set (b := fin (rhs s0 i)).
  assert (S0 : same_struct s s0) by same_ref.
  assert (M0 : Mid s0) by (apply (mid_same_Mid s); [mid_ref|auto]).
  pose proof (can_dton_ratio _ _ _ _ _ _ _ _ _ _ _ _ _ EC) as RA.
  apply can_dton_sizes in EC.
  assert (JK : j <> k /\ In (j, aij) (mA s i) /\ In (k, aik) (mA s i) /\ t_cinact (ct s j) = false /\
               t_cinact (ct s k) = false).
  { rewrite EM. simpl. destruct EC as [(->&->&->&->&C)|(->&->&->&->&C)]; repeat (split; [auto; fail|]); auto. }
  destruct JK as (NJ&IJ&IK&Tj&Tk). clear EC.
  destruct (w_rin s (inv_0 s H) _ _ _ Hi IJ) as [Hj NIJ]. destruct (w_rin s (inv_0 s H) _ _ _ Hi IK) as [Hk NIK].
  assert (SRi := w_rsrt s (inv_0 s H) i Hi).
  assert (LIVE : In i (lp_rows (reduced_lp s))) by (apply row_live; auto).
  destruct (GD LIVE) as [[p [q [EL [ER EPQ]]]] CF]. cbn in EL, ER.
  assert (EB : b = q) by (unfold b, s0; sr; rewrite ER; reflexivity).
  assert (CN : forall q, (q < nr s)%nat -> t_inact (rt s q) = false -> ~ coeff (mA s q) k == 0 ->
     clear_new (coeff (mA s q) j - aij / aik * coeff (mA s q) k)).
  { intros q0 Hq Tq NQ. pose proof (coeff_in _ _ _ SRi IJ) as CJ. pose proof (coeff_in _ _ _ SRi IK) as CK.
    assert (X : In q0 (lp_rows (reduced_lp s))) by (apply row_live; auto).
    assert (N1 : ~ coeff (mA s i) j == 0) by (rewrite CJ; auto). assert (N2 : ~ coeff (mA s i) k == 0) by (rewrite CK; auto).
    specialize (CF j k q0 X NJ N1 N2 NQ). cbv zeta in CF. cbn [lp_A reduced_lp] in CF. unfold clear_new.
    rewrite CJ, CK in CF. exact CF. }
  assert (C0 : col_in s0 j) by (eapply col_in_same; [exact S0|apply Inv_col_in; auto]).
  pose proof (modify_bounds_same i aij aik b (lb s0 k) (ub s0 k) j (ct s0 k) s0 C0) as S1.
  pose proof (modify_bounds_Mid i aij aik b (lb s0 k) (ub s0 k) j (ct s0 k) s0 (same_Inv _ _ S0 H) M0 Hj Tj) as M1.
  pose proof (modify_bounds_bstep i j k aij aik b s0 Hj Hk NJ Tj Tk M0 (same_Inv _ _ S0 H) NIJ NIK) as MB. cbv zeta in MB.
  pose proof (modify_bounds_frame i aij aik b (lb s0 k) (ub s0 k) j (ct s0 k) s0) as BF.
  set (s1 := modify_bounds _ _ _ _ _ _ _ _ _) in *. clearbody s1.
  assert (S01 : same_struct s s1) by (eapply same_trans; eauto).
  rewrite (ss_ct _ _ j S01), Tj.
  set (s2 := set_off _ _).
  assert (S12 : same_struct s1 s2) by (unfold s2; same_ref).
  assert (S2 : same_struct s s2) by (eapply same_trans; [exact S01|exact S12]).
  assert (M2 : Mid s2) by (apply (mid_same_Mid s1); [unfold s2; mid_ref|auto]).
  assert (H2 : Inv s2) by (eapply same_Inv; eauto).
  match goal with |- context [execute_substitution i j k aij aik _ _ ?x nd] => change x with (kill_row2 i s2) end.
  destruct BF as [BR BL BH BT BO].
  assert (L2s : lhs s2 i = Fin p) by (unfold s2; sr; rewrite BL; exact EL).
  assert (R2s : rhs s2 i = Fin q) by (unfold s2; sr; rewrite BH; exact ER).
  assert (RT2 : rt s2 = rt s) by (unfold s2; sr; rewrite BT; reflexivity).
  assert (A2s : mA s2 = mA s) by (apply S2). assert (NR2 : nr s2 = nr s) by (apply S2). assert (NC2 : nc s2 = nc s) by (apply S2).
  pose proof (exec_eff i j k aij aik (cst s1 k) (row_view s1 i) s2 nd H2 (md_tags s2 M2)) as PE.
  rewrite NR2, RT2, A2s, !(ss_ct _ _ _ S2) in PE. cbv zeta in PE.
  pose proof (exec_sat i j k aij aik q (cst s1 k) (row_view s1 i) s2 nd H2 (md_tags s2 M2)) as PX.
  rewrite (ss_w2 _ _ S2), (ss_w3 _ _ S2), NR2, RT2, A2s, !(ss_ct _ _ _ S2), NC2 in PX.
  cbv zeta in PX.
  destruct (execute_substitution i j k aij aik (cst s1 k) (row_view s1 i) (kill_row2 i s2) nd) as [s4 nd4] eqn:EX. cbn [fst] in PX, PE.
  intros X; injection X as <- <- <-.
  assert (E3 : exists p0, lhs s2 i = Fin p0 /\ p0 == q) by (exists p; auto).
  specialize (fun WS4 => PX WF WS Hi Ti NJ ltac:(rewrite EM; reflexivity) IJ IK NIJ NIK Tj Tk CN E3 R2s WS4).
  assert (TS : tiny s4 = false).
  { destruct PE as (RS&_); auto; try (rewrite EM; reflexivity).
    - intros q0 c a Hq Ha. eapply (w_rin s (inv_0 s H)); eauto.
    - rewrite (rs_tiny _ _ RS). unfold s2. sr. rewrite (rs_tiny _ _ BR). exact HT. }
  clear PE. split; [exact TS|]. intros OK4. right.
  destruct (PX (q_sub _ (ok_quiet _ OK4))) as (RS&E2&E5&[E6 E7]&FW&BW). clear PX.
  destruct RS as [RO RC _]. destruct BR as [RO1 RC1 _].
  (* objective values *)
  assert (LV : live_cols s4 = filter (fun c => negb (Nat.eqb c k)) (live_cols s)).
  { rewrite (live_cols_active s4 OK4), (live_cols_active s OK), E2, filter_filter. apply filter_ext. intros c. rewrite E5.
    unfold upd. destruct (Nat.eqb_spec c k) as [->|D]; [destruct (t_cinact (ct s k)); reflexivity|].
    rewrite (ss_ct _ _ c S2). destruct (t_cinact (ct s c)); reflexivity. }
  assert (LK : In k (live_cols s)) by (apply (col_live s k OK); auto).
  assert (LJ : In j (filter (fun c => negb (Nat.eqb c k)) (live_cols s))).
  { apply filter_In. split; [apply (col_live s j OK); auto|]. apply negb_true_iff, Nat.eqb_neq. auto. }
  assert (CST : cst s4 = upd (cst s) j (cst s j - aij / aik * cst s k)).
  { rewrite RC. unfold s2. sr. rewrite RC1. unfold s0. sr. reflexivity. }
  assert (OFF : off s4 = off s + q / aik * cst s k).
  { rewrite RO. unfold s2. sr. rewrite RO1, RC1, EB. unfold s0. sr. reflexivity. }
  assert (OB : forall x, at_eq aij aik q j k x -> obj s4 x == obj s x).
  { intros x AE. unfold obj. rewrite LV, CST, OFF.
    rewrite (sumQ_perm1 k (live_cols s) _ (live_cols_nd s) LK).
    assert (ND : NoDup (filter (fun c => negb (Nat.eqb c k)) (live_cols s))) by (apply NoDup_filter, live_cols_nd).
    rewrite (sumQ_perm1 j _ (fun k0 => upd (cst s) j (cst s j - aij / aik * cst s k) k0 * x k0) ND LJ).
    rewrite (sumQ_perm1 j _ (fun k0 => cst s k0 * x k0) ND LJ).
    rewrite upd_same.
    rewrite (sumQ_ext (filter (fun j0 => negb (Nat.eqb j0 j)) _) (fun k0 => upd (cst s) j (cst s j - aij / aik * cst s k) k0 * x k0) (fun k0 => cst s k0 * x k0)).
    - apply eq2 in AE; auto. assert (XK : x k == q / aik - aij / aik * x j) by lra. rewrite XK. lra.
    - intros c Hc. apply filter_In in Hc. destruct Hc as [_ Hc]. apply negb_true_iff, Nat.eqb_neq in Hc.
      rewrite upd_other by auto. reflexivity. }
  assert (OBJ1 : forall x, obj s0 x == obj s x) by (intros; reflexivity).
  assert (SATQ : forall c x, sat zero c s2 x <-> sat zero c s1 x).
  { intros c x. apply sat_same_rows; reflexivity. }
  assert (SAT0 : forall c x, sat zero c s0 x <-> sat zero c s x).
  { intros c x. apply sat_same_rows; reflexivity. }
  assert (ATE : forall c x, sat zero c s x -> at_eq aij aik b j k x).
  { intros c x [Sx _]. specialize (Sx i Hi Ti). unfold exactly in Sx. rewrite EL, ER in Sx. apply within_zero_eq in Sx; auto.
    rewrite (dot_two s i j k aij aik x) in Sx; auto; [|rewrite EM; reflexivity]. rewrite EB. exact Sx. }
  constructor.
  - rewrite E2. auto.
  - intros x Sx. pose proof (ATE _ _ Sx) as AE.
    destruct MB as [[BS _ _ _ _ _] _].
    { exists x. split; [exact AE|apply SAT0; exact Sx]. }
    assert (S1x : sat zero zero s1 x) by (apply (se_fwd _ _ _ _ _ (BS zero)); auto; apply SAT0; auto).
    apply SATQ in S1x. destruct (FW _ _ S1x) as [_ S4x]. split; [exact S4x|]. apply OB. rewrite <- EB. exact AE.
  - intros [x0 [_ F0]] B y HB Sy.
    destruct MB as [[BS _ _ _ _ BO'] IM].
    { exists x0. split; [apply (ATE _ _ F0)|apply SAT0; auto]. }
    set (x := upd y k ((q - aij * y j) / aik)).
    assert (XK : x k = (q - aij * y j) / aik) by (unfold x; apply upd_same).
    assert (XO : forall c, c <> k -> x c = y c) by (intros c D; unfold x; apply upd_other; auto).
    assert (AE : at_eq aij aik q j k x).
    { unfold at_eq. rewrite XK, XO by auto. field. auto. }
    assert (Tj4 : t_cinact (ct s4 j) = false) by (rewrite E5, upd_other by auto; rewrite (ss_ct _ _ j S2); auto).
    assert (NK4 : forall c, t_cinact (ct s4 c) = false -> c <> k) by (intros c T ->; rewrite E5, upd_same in T; discriminate).
    assert (S4x : sat zero (upto B) s4 x).
    { assert (DE : forall r, (nr s4 = nr s4) -> (r < nr s4)%nat -> t_inact (rt s4 r) = false -> dot (mA s4 r) x == dot (mA s4 r) y).
      { intros r _ Hr Tr. apply dot_ext. intros c a Ha. rewrite XO; [reflexivity|].
        intros ->. assert (Z := inv_R s4 (ok_inv s4 OK4) r k a Hr Tr Ha).
        destruct (ok_quiet s4 OK4) as [_ QF QS].
        apply (quiet_col s4 k (ok_inv s4 OK4) QF QS) in Z; [|rewrite E2; auto].
        apply NK4 in Z. auto. }
      destruct Sy as [Y1 [Y2 Y3]]. split; [|split].
      - intros r Hr Tr. specialize (Y1 r Hr Tr). specialize (DE r eq_refl Hr Tr).
        eapply within_moved with (d := 0); [| | |exact Y1]; try (apply moved_0; lra). lra.
      - intros c Hc Tc. rewrite XO by auto. auto.
      - destruct (ok_quiet s4 OK4) as [_ QF QS]. unfold pinned. rewrite QF, QS. split; intros ? []. }
    exists x. split; [|split].
    + intros c _ Tc. rewrite XO by auto. reflexivity.
    + apply SAT0. apply (se_bwd _ _ _ _ _ (BS (upto (grow B)))). apply SATQ.
      apply BW; [|exact AE|].
      * eapply sat_weaken; [| |exact S4x]; intros; [lra|apply grow_le; auto].
      * assert (Wj : within B (lb s1 j) (y j) (ub s1 j)).
        { destruct Sy as [_ [Y2 _]]. specialize (Y2 j ltac:(rewrite E2; auto) Tj4). rewrite E6, E7 in Y2. exact Y2. }
        specialize (IM B (y j) Wj HB). rewrite EB in IM. unfold upto. rewrite XK.
        change (lb s2) with (lb s1). change (ub s2) with (ub s1).
        destruct (BO' k ltac:(auto)) as [-> ->].
        eapply within_le; [|exact IM]. unfold grow. apply Qmult_le_compat_r; [exact RA|]. pose proof tol_pos. lra.
    + rewrite <- (OB x AE). unfold obj. rewrite (sumQ_ext _ (fun k0 => cst s4 k0 * x k0) (fun k0 => cst s4 k0 * y k0)); [reflexivity|].
      intros c Hc. apply (col_live s4 c OK4) in Hc. rewrite XO; [reflexivity|]. apply NK4; tauto.
  - intros c Tc. rewrite E5. unfold upd. destruct (Nat.eqb c k); [reflexivity|]. rewrite (ss_ct _ _ c S2). auto.
  - exists k. auto.
Qed.
