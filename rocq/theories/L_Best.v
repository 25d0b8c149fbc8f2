(** Weak duality with tolerances, and what it says about a postsolved solution. *)
From Coq Require Import NArith Lqa.
From Verif Require Import M_Num S_LP M_Settings M_Driver S_Driver M_State M_Act M_Core M_Simple M_StonCols
  M_Dton M_Parallel M_Propagate M_Init M_Post M_Run S_Run S_Sem S_Sem4 S_Post S_Kkt S_Prim L_Sem L_Ston L_Post7 L_Kkt5 L_Prim L_Prim7.
Import M_Driver.
Open Scope Q_scope.

Lemma swap_sums : forall (rows cols : list nat) (A : nat -> row) (y x : nat -> Q), NoDup cols ->
  (forall i j a, In i rows -> In (j, a) (A i) -> In j cols) ->
  sumQ cols (fun j => sumQ rows (fun i => coeff (A i) j * y i) * x j) == sumQ rows (fun i => y i * dot (A i) x).
Proof.
  induction rows as [|i rows IH]; intros cols A y x ND HL; cbn [sumQ].
  - apply sumQ_0. intros; lra.
  - rewrite <- (IH cols A y x ND) by (intros; eapply HL; [right|]; eauto).
    rewrite <- (sum_coeff (A i) cols x ND) by (intros; eapply HL; [left|]; eauto).
    rewrite (sumQ_ext cols _ (fun j => sumQ rows (fun i0 => coeff (A i0) j * y i0) * x j + y i * (coeff (A i) j * x j))) by (intros; lra).
    rewrite sumQ_lin. lra.
Qed.
Lemma value_split : forall P x y z, NoDup (lp_cols P) -> (forall i j a, In i (lp_rows P) -> In (j, a) (lp_A P i) -> In j (lp_cols P)) ->
  stationary P y z ->
  objective P x == lp_off P + sumQ (lp_cols P) (fun j => z j * x j) + sumQ (lp_rows P) (fun i => y i * dot (lp_A P i) x).
Proof.
  intros P x y z ND HL ST. unfold objective. rewrite <- (swap_sums _ _ _ y x ND HL).
  rewrite (sumQ_ext (lp_cols P) (fun j => lp_c P j * x j)
    (fun j => z j * x j + 1 * (sumQ (lp_rows P) (fun i => coeff (lp_A P i) j * y i) * x j))).
  - rewrite sumQ_lin. lra.
  - intros j Hj. rewrite (ST j Hj). lra.
Qed.
Lemma press_gap : forall t m low v upp w, 0 <= t -> pressed t m low v upp -> ext_le low w -> le_ext w upp -> m * v <= m * w + t * Qabs m.
Proof.
  intros t m low v upp w T [A B] L U. destruct (Qlt_le_dec 0 m) as [C|C].
  - destruct (A C) as [q [E D]]. subst low. cbn in L. apply Qabs_Qle_condition in D. rewrite Qabs_pos by lra. nra.
  - destruct (Qlt_le_dec m 0) as [C'|C'].
    + destruct (B C') as [q [E D]]. subst upp. cbn in U. apply Qabs_Qle_condition in D. rewrite Qabs_neg by lra. nra.
    + assert (E : m == 0) by lra. rewrite E. rewrite Qabs_pos by lra. lra.
Qed.
Lemma sum_le : forall l f g, (forall k, In k l -> f k <= g k) -> sumQ l f <= sumQ l g.
Proof.
  induction l as [|k l IH]; intros f g H; cbn [sumQ]; [lra|]. pose proof (H k ltac:(left; auto)). specialize (IH f g ltac:(intros; apply H; right; auto)). lra.
Qed.
Lemma weak_duality : forall P rtol c x y z w, NoDup (lp_cols P) ->
  (forall i j a, In i (lp_rows P) -> In (j, a) (lp_A P i) -> In j (lp_cols P)) ->
  (forall i, In i (lp_rows P) -> 0 <= rtol i) -> 0 <= c ->
  stationary P y z -> complementary rtol c P x y z -> feasible P w ->
  objective P x <= objective P w + gap rtol c P y z.
Proof.
  intros P rtol c x y z w ND HL T C ST [CR CC] [FR FC].
  rewrite (value_split P x y z ND HL ST), (value_split P w y z ND HL ST). unfold gap.
  assert (A : sumQ (lp_cols P) (fun j => z j * x j) <= sumQ (lp_cols P) (fun j => z j * w j) + sumQ (lp_cols P) (fun k => c * Qabs (z k))).
  { rewrite <- (Qmult_1_l (sumQ (lp_cols P) (fun k => c * Qabs (z k)))), <- sumQ_lin. apply sum_le. intros k Hk.
    destruct (FC k Hk) as [U V]. pose proof (press_gap c (z k) _ _ _ (w k) C (CC k Hk) U V). lra. }
  assert (B : sumQ (lp_rows P) (fun i => y i * dot (lp_A P i) x) <= sumQ (lp_rows P) (fun i => y i * dot (lp_A P i) w) + sumQ (lp_rows P) (fun i => rtol i * Qabs (y i))).
  { rewrite <- (Qmult_1_l (sumQ (lp_rows P) (fun k => rtol k * Qabs (y k)))), <- sumQ_lin. apply sum_le. intros i Hi.
    destruct (FR i Hi) as [U V]. pose proof (press_gap (rtol i) (y i) _ _ _ (dot (lp_A P i) w) (T i Hi) (CR i Hi) U V). lra. }
  lra.
Qed.
Lemma norm1_in : forall r k a, In (k, a) r -> Qabs a <= norm1 r.
Proof.
  induction r as [|[j b] r IH]; intros k a []; cbn [norm1].
  - injection H as -> ->. assert (0 <= norm1 r). { clear. induction r as [|[? ?] r IH]; cbn [norm1]; [lra|]. pose proof (Qabs_nonneg q). lra. } lra.
  - specialize (IH k a H). pose proof (Qabs_nonneg b). lra.
Qed.
Lemma norm1_nonneg : forall r, 0 <= norm1 r.
Proof. induction r as [|[? a] r IH]; cbn [norm1]; [lra|]. pose proof (Qabs_nonneg a). lra. Qed.
Lemma wide_covers : forall rtol c P, wide rtol c P -> covers rtol FEAS_TOL P.
Proof.
  intros rtol c P [C W] i Hi. specialize (W i Hi). pose proof (norm1_nonneg (lp_A P i)) as N.
  assert (F : 0 < FEAS_TOL) by reflexivity. 
  set (t := FEAS_TOL) in *. clearbody t. set (n := norm1 _) in *.
  assert (X : 0 <= c * n) by (apply Qmult_le_0_compat; lra). assert (X2 : 0 <= t * n) by (apply Qmult_le_0_compat; lra).
  split; [lra|]. intros k a Hk. pose proof (norm1_in _ _ _ Hk) as Y. fold n in Y. pose proof (Qabs_nonneg a).
  assert (Qabs a * t <= n * t) by (apply Qmult_le_compat_r; lra). lra.
Qed.
Lemma run_best : forall stgs fits clock fuel P r rtol c, wf_input P -> signs_kept stgs ->
  run_presolver stgs fits clock fuel P = Some r -> res_reduced r = true ->
  wide rtol c (lp_of_input P) -> bounds_meet (lp_of_input P) -> neighbours_known (log (res_state r)) ->
  forall x y z x' y' z', feasible_up_to rtol (fun _ => c) (reduced_lp (res_state r)) x ->
  stationary (reduced_lp (res_state r)) y z -> complementary rtol FEAS_TOL (reduced_lp (res_state r)) x y z ->
  solution_is P (postsolve_state (res_state r) x y z) x' y' z' ->
  feasible_up_to rtol (fun _ => c) (lp_of_input P) x' /\
  forall w, feasible (lp_of_input P) w ->
    objective (lp_of_input P) x' <= objective (lp_of_input P) w + gap rtol FEAS_TOL (lp_of_input P) y' z'.
Proof.
  intros stgs fits clock fuel P r rtol c WF SK H Hr WD BM KN x y z x' y' z' FX ST CS S.
  assert (VK : values_kept stgs) by (destruct SK as [[A B] [C _]]; repeat split; auto; apply A).
  split; [eapply run_PS; eauto|]. intros w FW. pose proof (wide_covers _ _ _ WD) as CV.
  apply weak_duality; auto.
  - cbn. apply seq_NoDup.
  - cbn. intros i j a Hi Hj. apply in_seq in Hi. apply in_seq. destruct (wf_rows P WF i ltac:(lia)) as [_ Y]. specialize (Y j a Hj). lia.
  - intros i Hi. apply (CV i Hi).
  - vm_compute. discriminate.
  - eapply run_stationary; eauto. apply SK.
  - eapply run_CS; eauto.
Qed.
