(** Concrete cases for the merging of parallel rows. *)
From Coq Require Import NArith Lqa Lia Qabs.
From Verif Require Import M_Num S_LP M_Settings M_Driver S_Driver M_State M_Act M_Core M_Simple
  M_StonCols M_Dton M_Parallel M_Propagate M_Init M_Post M_Run S_Run S_Struct S_Sem S_Merge
  L_State L_Struct L_Struct2 L_Struct11 L_Sem L_Sem2 L_Mid5 L_ParRow L_Reach L_Refute.
Import M_Driver.
Open Scope Q_scope.

Fixpoint scaledb (q : Q) (r r' : row) : bool :=
  match r, r' with
  | [], [] => true
  | (c, v) :: t, (c', v') :: t' => Nat.eqb c c' && Qeqb v (q * v') && scaledb q t t'
  | _, _ => false
  end.
Lemma scaledb_ok : forall q r r', scaledb q r r' = true -> scaled q r r'.
Proof.
  intros q r. induction r as [|[c v] r IH]; intros [|[c' v'] r'] H; cbn in H; try discriminate; constructor.
  - apply andb_true_iff in H. destruct H as [H _]. apply andb_true_iff in H. destruct H as [H1 H2].
    apply Nat.eqb_eq in H1. qb. auto.
  - apply andb_true_iff in H. destruct H as [_ H]. apply IH; auto.
Qed.
Lemma scaled_scaledb : forall q r r', scaled q r r' -> scaledb q r r' = true.
Proof.
  intros q r r' H. induction H as [|[c v] [c' v'] r r' [A B] H IH]; auto. cbn in *. subst. rewrite Nat.eqb_refl, IH.
  destruct (Qeqb v (q * v')) eqn:E; auto. qb. contradiction.
Qed.
Lemma nearly_same : forall q r r', nearly_scaled q r r' -> same_pattern q r r' = true.
Proof.
  intros q r r' H. induction H as [|[c v] [c' v'] r r' [A B] H IH]; auto. cbn [fst snd same_pattern] in *. subst.
  rewrite Nat.eqb_refl, IH. apply Qabs_Qle_condition in B. apply absq_le in B.
  unfold IS_ZERO_FEAS_TOL. destruct (Qleb _ _) eqn:E; auto. qb. exfalso. lra.
Qed.
Definition clearb (P : LP) : bool :=
  forallb (fun i => forallb (fun j => Nat.eqb i j ||
    let q := first_entry (lp_A P i) / first_entry (lp_A P j) in
    negb (same_pattern q (lp_A P i) (lp_A P j)) || scaledb q (lp_A P i) (lp_A P j)) (lp_rows P)) (lp_rows P).
Lemma clearb_ok : forall P, clearb P = true -> clear_cut P.
Proof.
  intros P H i j Hi Hj N q K. unfold clearb in H. rewrite forallb_forall in H. specialize (H i Hi). cbv beta in H.
  rewrite forallb_forall in H. specialize (H j Hj). apply orb_true_iff in H. destruct H as [H|H]; [apply Nat.eqb_eq in H; contradiction|].
  cbv zeta in H. fold q in H. rewrite (nearly_same _ _ _ K) in H. apply scaledb_ok. exact H.
Qed.
(** Ratio of two rows from their first entries *)
Lemma scaled_ratio : forall q r r', scaled q r r' -> ~ first_entry r' == 0 -> first_entry r / first_entry r' == q.
Proof.
  intros q r r' H. destruct H as [|[c v] [c' v'] r r' [A B] H]; cbn in *; intros N; [lra|]. rewrite B. field. auto.
Qed.
Definition parb (r r' : row) : bool :=
  Qeqb (first_entry r') 0 || scaledb (first_entry r / first_entry r') r r'.
Lemma parb_ok : forall q r r', scaled q r r' -> parb r r' = true.
Proof.
  intros q r r' H. unfold parb. destruct (Qeqb (first_entry r') 0) eqn:E; auto. qb. cbn [orb]. apply scaled_scaledb.
  eapply scaled_ext; [|exact H]. symmetry. apply scaled_ratio; auto.
Qed.
Definition unmixedb (s : state) : bool :=
  forallb (fun i => forallb (fun j => forallb (fun k =>
    Nat.eqb j k || negb (parb (mA s j) (mA s i) && parb (mA s k) (mA s i) &&
      t_eq (rt s i) && negb (t_eq (rt s j)) && negb (t_eq (rt s k)))) (live_rows s)) (live_rows s)) (live_rows s).
Lemma unmixedb_ok : forall s, unmixedb s = true -> unmixed s.
Proof.
  intros s H i j k q p Hi Hj Hk N S1 S2 T1 T2 T3. unfold unmixedb in H.
  rewrite forallb_forall in H. specialize (H i Hi). cbv beta in H. rewrite forallb_forall in H. specialize (H j Hj). cbv beta in H.
  rewrite forallb_forall in H. specialize (H k Hk). cbv beta in H.
  rewrite (parb_ok _ _ _ S1), (parb_ok _ _ _ S2), T1, T2, T3 in H. cbn in H. rewrite orb_false_r in H. apply Nat.eqb_eq in H. contradiction.
Qed.

(** x + y <= 4,  -2x - 2y <= -2,  x - y = 1,  -3x + 3y = -3 *)
Definition mp : input :=
  prob [[(0%nat, 1); (1%nat, 1)]; [(0%nat, -(2)); (1%nat, -(2))]; [(0%nat, 1); (1%nat, -(1))]; [(0%nat, -(3)); (1%nat, 3)]]
       [NInf; NInf; Fin 1; Fin (-(3))] [Fin 4; Fin (-(2)); Fin 1; Fin (-(3))]
       [Fin 0; Fin 0] [PInf; PInf] [1; 1].
Lemma mp_case : wf_input mp /\ reached default_settings (fun _ => true) mp (new_presolver mp) /\
  w_empty_rows (new_presolver mp) = [] /\ clear_cut (reduced_lp (new_presolver mp)) /\ unmixed (new_presolver mp) /\
  length (live_rows (new_presolver mp)) = 4%nat /\
  length (live_rows (fst (remove_parallel_rows (new_presolver mp)))) = 2%nat /\
  snd (remove_parallel_rows (new_presolver mp)) = UNCHANGED /\ feasible (reduced_lp (new_presolver mp)) (fun k => match k with O => 2 | _ => 1 end).
Proof.
  split; [apply wfb_ok; vm_compute; reflexivity|].
  split; [apply rc_start|]. split; [vm_compute; reflexivity|].
  split; [apply clearb_ok; vm_compute; reflexivity|].
  split; [apply unmixedb_ok; vm_compute; reflexivity|].
  split; [vm_compute; reflexivity|]. split; [vm_compute; reflexivity|]. split; [vm_compute; reflexivity|].
  apply feasb_ok; vm_compute; reflexivity.
Qed.

(** x + y >= t,  x + y >= 0,  x + y <= t, with t the tolerance *)
Definition ep : input :=
  prob [[(0%nat, 1); (1%nat, 1)]; [(0%nat, 1); (1%nat, 1)]; [(0%nat, 1); (1%nat, 1)]]
       [Fin FEAS_TOL; Fin 0; NInf] [PInf; PInf; Fin FEAS_TOL]
       [Fin 0; Fin 0] [PInf; PInf] [1; 1].
Lemma ep_case : wf_input ep /\ reached default_settings (fun _ => true) ep (new_presolver ep) /\
  w_empty_rows (new_presolver ep) = [] /\ clear_cut (reduced_lp (new_presolver ep)) /\ unmixed (new_presolver ep) /\
  feasible (reduced_lp (new_presolver ep)) (fun k => match k with O => FEAS_TOL | _ => 0 end) /\
  snd (remove_parallel_rows (new_presolver ep)) = INFEASIBLE.
Proof.
  split; [apply wfb_ok; vm_compute; reflexivity|].
  split; [apply rc_start|]. split; [vm_compute; reflexivity|].
  split; [apply clearb_ok; vm_compute; reflexivity|].
  split; [apply unmixedb_ok; vm_compute; reflexivity|].
  split; [apply feasb_ok; vm_compute; reflexivity|vm_compute; reflexivity].
Qed.
