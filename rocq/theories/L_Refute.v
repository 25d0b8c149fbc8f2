(** Witnesses for P_Refute.v. *)
From Coq Require Import NArith Lqa.
From Verif Require Import M_Num S_LP M_Settings M_Driver M_State M_Act M_Core M_Simple M_StonCols
  M_Dton M_Parallel M_Propagate M_Init M_Post M_Run S_Run.
From Verif Require Export S_Default.

Definition arr {A} (d : A) (l : list A) : nat -> A := fun i => nth i l d.
Definition prob (rows : list row) (l r : list ext) (lb ub : list ext) (c : list Q) : input :=
  mkInput (length rows) (length c) (arr [] rows) (arr NInf l) (arr PInf r)
          (arr NInf lb) (arr PInf ub) (arr 0 c).

(** decidable well-formedness, used on literals *)
Fixpoint sortedb (r : row) : bool :=
  match r with
  | [] => true
  | (j, _) :: r' => (match r' with [] => true | (k, _) :: _ => Nat.ltb j k end) && sortedb r'
  end.
Lemma sortedb_ok : forall r, sortedb r = true -> sorted_row r.
Proof.
  induction r as [|[j a] r IH]; simpl; [tauto|].
  rewrite andb_true_iff. intros [H1 H2]. split; [|auto].
  destruct r as [|[k b] r]; [tauto|]. apply Nat.ltb_lt; assumption.
Qed.
Definition ext_is_p e := match e with PInf => true | _ => false end.
Definition ext_is_n e := match e with NInf => true | _ => false end.
Definition wfb (P : input) : bool :=
  forallb (fun i => sortedb (in_A P i) &&
     forallb (fun e => Nat.ltb (fst e) (in_n P) && negb (Qeqb (snd e) 0)) (in_A P i) &&
     negb (ext_is_p (in_lhs P i)) && negb (ext_is_n (in_rhs P i))) (seq 0 (in_m P)) &&
  forallb (fun k => negb (ext_is_p (in_lb P k)) && negb (ext_is_n (in_ub P k))) (seq 0 (in_n P)).
Lemma wfb_ok : forall P, wfb P = true -> wf_input P.
Proof.
  intros P H. unfold wfb in H. apply andb_true_iff in H. destruct H as [H1 H2].
  rewrite forallb_forall in H1, H2.
  assert (R : forall i, (i < in_m P)%nat -> In i (seq 0 (in_m P))) by (intros; apply in_seq; lia).
  assert (C : forall i, (i < in_n P)%nat -> In i (seq 0 (in_n P))) by (intros; apply in_seq; lia).
  constructor; intros i Hi.
  - specialize (H1 i (R i Hi)). rewrite !andb_true_iff in H1. destruct H1 as [[[S F] _] _].
    split; [apply sortedb_ok; assumption|]. rewrite forallb_forall in F.
    intros j a Hin. specialize (F (j, a) Hin). simpl in F. apply andb_true_iff in F.
    destruct F as [F1 F2]. split; [apply Nat.ltb_lt; assumption|].
    intros E. unfold Qeqb in F2. apply Qeq_bool_iff in E. rewrite E in F2. discriminate.
  - specialize (H1 i (R i Hi)). rewrite !andb_true_iff in H1. destruct H1 as [[_ F] _].
    intros E. rewrite E in F. discriminate.
  - specialize (H1 i (R i Hi)). rewrite !andb_true_iff in H1. destruct H1 as [_ F].
    intros E. rewrite E in F. discriminate.
  - specialize (H2 i (C i Hi)). rewrite !andb_true_iff in H2. destruct H2 as [F _].
    intros E. rewrite E in F. discriminate.
  - specialize (H2 i (C i Hi)). rewrite !andb_true_iff in H2. destruct H2 as [_ F].
    intros E. rewrite E in F. discriminate.
Qed.

(** The run of a problem, and its final state (garbage if the run failed) *)
Definition dummy : state := new_presolver (prob [] [] [] [] [] []).
Definition outcome (P : input) : run_result state :=
  match run_presolver default_settings (fun _ => true) (fun _ => false) 20 P with
  | Some r => r
  | None => mkResult dummy 99%N false 0
  end.
Lemma run_outcome : forall P, N.eqb (res_status (outcome P)) 99 = false -> run P (outcome P).
Proof.
  unfold outcome, run. intros P. destruct (run_presolver _ _ _ _ _); [reflexivity|discriminate].
Qed.

Ltac small k := let H := fresh in
  intros k H; repeat (destruct k as [|k]; [clear H|]); try (exfalso; clear - H; cbv in H; lia).
(** the entries of a solution *)
Definition xs (s : solution) (k : nat) := val (sx s k).
Definition ys (s : solution) (k : nat) := val (sy s k).
Definition zs (s : solution) (k : nat) := val (sz s k).
Definition completeb (P : input) (sol : solution) : bool :=
  negb (s_err sol) && forallb (fun k => known (sx sol k) && known (sz sol k)) (seq 0 (in_n P))
  && forallb (fun i => known (sy sol i)) (seq 0 (in_m P)).
Lemma completeb_ok : forall P sol, completeb P sol = true ->
  solution_is P sol (xs sol) (ys sol) (zs sol).
Proof.
  intros P sol H. unfold completeb in H. rewrite !andb_true_iff, !forallb_forall in H.
  destruct H as [[E X] Y]. split; [destruct (s_err sol); [discriminate|reflexivity]|]. split.
  - intros k Hk. specialize (X k ltac:(apply in_seq; lia)). apply andb_true_iff in X.
    unfold xs, zs. destruct X as [X1 X2].
    destruct (sx sol k), (sz sol k); try discriminate; split; reflexivity.
  - intros i Hi. specialize (Y i ltac:(apply in_seq; lia)). unfold ys.
    destruct (sy sol i); [reflexivity|discriminate].
Qed.

(** A problem with no rows and no columns left. *)
Lemma empty_optimal : forall s x, live_rows s = [] -> live_cols s = [] ->
  optimal (reduced_lp s) x.
Proof.
  intros s x R C. split.
  - split; simpl; rewrite ?R, ?C; simpl; tauto.
  - intros x' _. unfold objective; simpl. rewrite C; simpl. lra.
Qed.

(** decidable feasibility *)
Definition ext_leb e q := match e with NInf => true | Fin p => Qleb p q | PInf => false end.
Definition leb_ext q e := match e with NInf => false | Fin p => Qleb q p | PInf => true end.
Lemma ext_leb_ok : forall e q, ext_leb e q = true <-> ext_le e q.
Proof. destruct e; simpl; intros; unfold Qleb; rewrite ?Qle_bool_iff; split; try tauto; try discriminate. Qed.
Lemma leb_ext_ok : forall e q, leb_ext q e = true <-> le_ext q e.
Proof. destruct e; simpl; intros; unfold Qleb; rewrite ?Qle_bool_iff; split; try tauto; try discriminate. Qed.
Definition feasb (P : LP) (x : nat -> Q) : bool :=
  forallb (fun i => ext_leb (lp_lhs P i) (dot (lp_A P i) x) && leb_ext (dot (lp_A P i) x) (lp_rhs P i))
          (lp_rows P) &&
  forallb (fun k => ext_leb (lp_lb P k) (x k) && leb_ext (x k) (lp_ub P k)) (lp_cols P).
Lemma feasb_ok : forall P x, feasb P x = true <-> feasible P x.
Proof.
  intros P x. unfold feasb, feasible, row_sat, col_sat.
  rewrite andb_true_iff, !forallb_forall. split; intros [H1 H2]; split; intros i Hi.
  - specialize (H1 i Hi). rewrite andb_true_iff, ext_leb_ok, leb_ext_ok in H1. assumption.
  - specialize (H2 i Hi). rewrite andb_true_iff, ext_leb_ok, leb_ext_ok in H2. assumption.
  - rewrite andb_true_iff, ext_leb_ok, leb_ext_ok. auto.
  - rewrite andb_true_iff, ext_leb_ok, leb_ext_ok. auto.
Qed.
Lemma feasb_no : forall P x, feasb P x = false -> ~ feasible P x.
Proof. intros P x H F. apply feasb_ok in F. congruence. Qed.

Notation c0 := (0%nat). Notation c1 := (1%nat). Notation c2 := (2%nat). Notation c3 := (3%nat).

(** C21: x0 = 3 by a singleton row; column 1 is empty with lb = ub = 2 *)
Definition Pa := prob [[(c0, 1)]] [Fin 3] [Fin 3] [Fin 0; Fin 2] [Fin 10; Fin 2] [1; 3].
Lemma offset_twice : exists P r x y z x0,
  wf_input P /\ run P r /\ res_status r = REDUCED /\ res_reduced r = true /\
  optimal (reduced_lp (res_state r)) x0 /\
  solution_is P (postsolve_state (res_state r) x0 (fun _ => 0) (fun _ => 0)) x y z /\
  feasible (lp_of_input P) x /\
  ~ objective (lp_of_input P) x == objective (reduced_lp (res_state r)) x0.
Proof.
  pose (sol := postsolve_state (res_state (outcome Pa)) (fun _ => 0) (fun _ => 0) (fun _ => 0)).
  exists Pa, (outcome Pa), (xs sol), (ys sol), (zs sol), (fun _ => 0).
  split; [apply wfb_ok; vm_compute; reflexivity|].
  split; [apply run_outcome; vm_compute; reflexivity|].
  split; [vm_compute; reflexivity|]. split; [vm_compute; reflexivity|].
  split; [apply empty_optimal; vm_compute; reflexivity|].
  split; [apply completeb_ok; vm_compute; reflexivity|].
  split; [apply feasb_ok; vm_compute; reflexivity|].
  intros E. apply Qeq_bool_iff in E. vm_compute in E. discriminate.
Qed.

(** C23: min a  s.t.  a + c <= 10,  a >= 5,  c free *)
Definition Pn := prob [[(c0, 1); (c1, 1)]] [NInf] [Fin 10] [Fin 5; NInf] [PInf; PInf] [1; 0].
Lemma inf_fix_bad : exists P r x y z x0,
  wf_input P /\ run P r /\ res_status r = REDUCED /\
  optimal (reduced_lp (res_state r)) x0 /\
  solution_is P (postsolve_state (res_state r) x0 (fun _ => 0) (fun _ => 0)) x y z /\
  ~ feasible (lp_of_input P) x /\
  (exists xo, feasible (lp_of_input P) xo).
Proof.
  pose (sol := postsolve_state (res_state (outcome Pn)) (fun _ => 0) (fun _ => 0) (fun _ => 0)).
  exists Pn, (outcome Pn), (xs sol), (ys sol), (zs sol), (fun _ => 0).
  split; [apply wfb_ok; vm_compute; reflexivity|].
  split; [apply run_outcome; vm_compute; reflexivity|].
  split; [vm_compute; reflexivity|].
  split; [apply empty_optimal; vm_compute; reflexivity|].
  split; [apply completeb_ok; vm_compute; reflexivity|].
  split; [apply feasb_no; vm_compute; reflexivity|].
  exists (fun _ => 5). apply feasb_ok. vm_compute. reflexivity.
Qed.

(** a free variable with zero cost in a row without sides *)
Definition Pf := prob [[(c0, 1); (c1, 1); (c2, 1)]; [(c1, 1); (c2, 1); (c3, 1)]] [NInf; Fin 1]
  [PInf; Fin 5] [NInf; Fin 0; Fin 0; Fin 0] [PInf; Fin 3; Fin 3; Fin 3] [0; -(2); 3; 1].
Lemma free_row_inf : exists P r,
  wf_input P /\ run P r /\ res_status r = REDUCED /\
  forall x0 y0 z0, s_err (postsolve_state (res_state r) x0 y0 z0) = true.
Proof.
  exists Pf, (outcome Pf).
  split; [apply wfb_ok; vm_compute; reflexivity|].
  split; [apply run_outcome; vm_compute; reflexivity|].
  split; [vm_compute; reflexivity|].
  intros. vm_compute. reflexivity.
Qed.

(** C27:  x + y = 0,  x - y <= 100,  x in [0,1],  y in [5,6] *)
Definition Po := prob [[(c0, 1); (c1, 1)]; [(c0, 1); (c1, -(1))]] [Fin 0; NInf] [Fin 0; Fin 100]
  [Fin 0; Fin 5] [Fin 1; Fin 6] [1; 0].
Lemma hidden_infeasibility : exists P r x0,
  wf_input P /\ run P r /\ res_status r = REDUCED /\
  infeasible (lp_of_input P) /\ feasible (reduced_lp (res_state r)) x0.
Proof.
  exists Po, (outcome Po), (fun _ => 0).
  split; [apply wfb_ok; vm_compute; reflexivity|].
  split; [apply run_outcome; vm_compute; reflexivity|].
  split; [vm_compute; reflexivity|].
  split; [|apply feasb_ok; vm_compute; reflexivity].
  intros x [R C]. destruct (R c0 ltac:(left; reflexivity)) as [_ R0].
  destruct (C c0 ltac:(left; reflexivity)) as [C0 _].
  destruct (C c1 ltac:(right; left; reflexivity)) as [C1 _].
  cbn in R0, C0, C1. lra.
Qed.

(** C28:  x + y + z = 5,  <= 10,  <= 3 *)
Definition r3 := [(c0, 1); (c1, 1); (c2, 1)].
Definition Pp := prob [r3; r3; r3] [Fin 5; NInf; NInf] [Fin 5; Fin 10; Fin 3]
  [NInf; NInf; NInf] [PInf; PInf; PInf] [1; 1; 1].
Lemma parallel_rows_drop : exists P r x0,
  wf_input P /\ (forall i i', (i < in_m P)%nat -> (i' < in_m P)%nat -> in_A P i = in_A P i') /\
  run P r /\ res_status r = REDUCED /\
  infeasible (lp_of_input P) /\ feasible (reduced_lp (res_state r)) x0.
Proof.
  exists Pp, (outcome Pp), (fun _ => 0).
  split; [apply wfb_ok; vm_compute; reflexivity|].
  split.
  { assert (A : forall i, (i < 3)%nat -> in_A Pp i = r3).
    { intros i Hi. destruct i as [|[|[|i]]]; try reflexivity. lia. }
    intros i i' Hi Hi'. cbn in Hi, Hi'. rewrite !A; auto. }
  split; [apply run_outcome; vm_compute; reflexivity|].
  split; [vm_compute; reflexivity|].
  split; [|apply feasb_ok; vm_compute; reflexivity].
  intros x [R C]. destruct (R c0 ltac:(left; reflexivity)) as [R0 _].
  destruct (R c2 ltac:(right; right; left; reflexivity)) as [_ R2].
  cbn in R0, R2. lra.
Qed.

(** C32:  x0 + x1 = 5,  x1 + x2 <= 100,  x0 + x2 <= 180,  x1 free *)
Definition Pl := prob [[(c0, 1); (c1, 1)]; [(c1, 1); (c2, 1)]; [(c0, 1); (c2, 1)]]
  [Fin 5; NInf; NInf] [Fin 5; Fin 100; Fin 180] [Fin 0; NInf; Fin 0] [Fin 10; PInf; Fin 200]
  [1; 1; -(1)].
Lemma stale_activity : exists P r x y z x0,
  wf_input P /\ run P r /\ res_status r = REDUCED /\
  optimal (reduced_lp (res_state r)) x0 /\
  solution_is P (postsolve_state (res_state r) x0 (fun _ => 0) (fun _ => 0)) x y z /\
  ~ feasible (lp_of_input P) x /\
  (exists xo, feasible (lp_of_input P) xo).
Proof.
  pose (sol := postsolve_state (res_state (outcome Pl)) (fun _ => 0) (fun _ => 0) (fun _ => 0)).
  exists Pl, (outcome Pl), (xs sol), (ys sol), (zs sol), (fun _ => 0).
  split; [apply wfb_ok; vm_compute; reflexivity|].
  split; [apply run_outcome; vm_compute; reflexivity|].
  split; [vm_compute; reflexivity|].
  split; [apply empty_optimal; vm_compute; reflexivity|].
  split; [apply completeb_ok; vm_compute; reflexivity|].
  split; [apply feasb_no; vm_compute; reflexivity|].
  exists (fun k => match k with c1 => 5 | _ => 0 end). apply feasb_ok. vm_compute. reflexivity.
Qed.

Lemma stale_activity_value : exists P s x i,
  wf_input P /\ s = fst (remove_dton_eq_rows (fun _ => true) (new_presolver P)) /\
  t_inact (rt s i) = false /\ n_inf_max (acts s i) = 0%Z /\
  (forall k a, In (k, a) (mA s i) -> ext_le (lb s k) (x k) /\ le_ext (x k) (ub s k)) /\
  a_max (acts s i) < dot (mA s i) x.
Proof.
  exists Pl, (fst (remove_dton_eq_rows (fun _ => true) (new_presolver Pl))),
    (fun k => match k with c2 => 200 | _ => 0 end), c1.
  split; [apply wfb_ok; vm_compute; reflexivity|].
  split; [reflexivity|]. split; [vm_compute; reflexivity|]. split; [vm_compute; reflexivity|].
  split; [|vm_compute; reflexivity].
  intros k a H. vm_compute in H.
  destruct H as [E | [E | []]]; injection E as <- <-; vm_compute; split; discriminate.
Qed.

(** C30: column 1 in [5,10] and column 0 free are equal *)
Definition Ps := prob [[(c0, 1); (c1, 1); (c2, 1); (c3, 3)]; [(c0, 1); (c1, 1); (c2, -(1)); (c3, 1)]]
  [Fin 1; Fin 1] [Fin 20; Fin 20] [NInf; Fin 5; Fin 0; Fin 0] [PInf; Fin 10; Fin 10; Fin 4]
  [1; 1; -(1); 2].
Lemma parallel_col_split : exists P r x y z x0,
  wf_input P /\ run P r /\ res_status r = REDUCED /\
  feasible (reduced_lp (res_state r)) x0 /\
  solution_is P (postsolve_state (res_state r) x0 (fun _ => 0) (fun _ => 0)) x y z /\
  ~ feasible (lp_of_input P) x.
Proof.
  pose (x0 := fun k => match k with c1 => 8 | _ => 0 end).
  pose (sol := postsolve_state (res_state (outcome Ps)) x0 (fun _ => 0) (fun _ => 0)).
  exists Ps, (outcome Ps), (xs sol), (ys sol), (zs sol), x0.
  split; [apply wfb_ok; vm_compute; reflexivity|].
  split; [apply run_outcome; vm_compute; reflexivity|].
  split; [vm_compute; reflexivity|].
  split; [apply feasb_ok; vm_compute; reflexivity|].
  split; [apply completeb_ok; vm_compute; reflexivity|].
  apply feasb_no; vm_compute; reflexivity.
Qed.

(** C36: row 0 has both sides tighter than row 1, closer to each other than the tolerance *)
Definition Pw := prob [r3; r3; [(c0, 1); (c1, -(1)); (c2, 3)]] [Fin 1; Fin 0; Fin (-(3))]
  [Fin (10000001 # 10000000); Fin 10; Fin 3] [NInf; NInf; NInf] [PInf; PInf; PInf] [1; 2; 1].
Lemma both_sides_change : exists P r x y z x0 y0 z0,
  wf_input P /\ run P r /\ res_status r = REDUCED /\
  feasible (reduced_lp (res_state r)) x0 /\ stationary (reduced_lp (res_state r)) y0 z0 /\
  solution_is P (postsolve_state (res_state r) x0 y0 z0) x y z /\
  ~ stationary (lp_of_input P) y z.
Proof.
  pose (x0 := fun k => match k with c0 => (10000001 # 10000000) | _ => 0 end).
  pose (y0 := fun i => match i with c1 => 1 | _ => 0 end).
  pose (z0 := fun k => match k with c1 => 1 | _ => 0 end).
  pose (sol := postsolve_state (res_state (outcome Pw)) x0 y0 z0).
  exists Pw, (outcome Pw), (xs sol), (ys sol), (zs sol), x0, y0, z0.
  split; [apply wfb_ok; vm_compute; reflexivity|].
  split; [apply run_outcome; vm_compute; reflexivity|].
  split; [vm_compute; reflexivity|].
  split; [apply feasb_ok; vm_compute; reflexivity|].
  split.
  { intros j Hj.
    assert (L : lp_cols (reduced_lp (res_state (outcome Pw))) = [c0; c1; c2]) by (vm_compute; reflexivity).
    rewrite L in Hj. destruct Hj as [<- | [<- | [<- | []]]]; vm_compute; reflexivity. }
  split; [apply completeb_ok; vm_compute; reflexivity|].
  intros S. specialize (S c0 ltac:(left; reflexivity)).
  apply Qeq_bool_iff in S. vm_compute in S. discriminate.
Qed.

(** C41: only bounds are tightened *)
Definition Pu := prob [r3; [(c0, 1); (c1, -(1)); (c2, 2)]] [NInf; Fin 1] [Fin 10; Fin 5]
  [Fin 0; Fin 0; Fin 0] [PInf; PInf; Fin 3] [-(1); -(2); -(3)].
Lemma unchanged_changed : exists P r k,
  wf_input P /\ run P r /\ res_status r = UNCHANGED /\ (k < in_n P)%nat /\
  ub (res_state r) k <> in_ub P k.
Proof.
  exists Pu, (outcome Pu), c0.
  split; [apply wfb_ok; vm_compute; reflexivity|].
  split; [apply run_outcome; vm_compute; reflexivity|].
  split; [vm_compute; reflexivity|]. split; [cbn; lia|].
  vm_compute. discriminate.
Qed.

(** C44:  1000 x0 + x1 >= 5e-4  with  x0 in [0, 1e-6], x1 = 0 *)
Definition Pj := prob [[(c0, 1000); (c1, 1)]; [(c0, 1); (c1, 1)]] [Fin (5 # 10000); NInf]
  [PInf; Fin 5] [Fin 0; Fin 0] [Fin (1 # 1000000); Fin 0] [1; 1].
Lemma false_infeasible : exists P r x,
  wf_input P /\ run P r /\ res_status r = INFEASIBLE /\ feasible (lp_of_input P) x.
Proof.
  exists Pj, (outcome Pj), (fun k => match k with c0 => (1 # 1000000) | _ => 0 end).
  split; [apply wfb_ok; vm_compute; reflexivity|].
  split; [apply run_outcome; vm_compute; reflexivity|].
  split; [vm_compute; reflexivity|]. apply feasb_ok; vm_compute; reflexivity.
Qed.

Definition Pq := prob [r3; [(c0, 1); (c1, 1); (c2, 1 + (1 # 2000000))]]
  [Fin 1000; Fin (1000 + (1 # 1000))] [Fin 1000; Fin (1000 + (1 # 1000))]
  [NInf; NInf; NInf] [PInf; PInf; PInf] [1; 1; 1].
Lemma false_infeasible_parallel : exists P r x,
  wf_input P /\ run P r /\ res_status r = INFEASIBLE /\ feasible (lp_of_input P) x.
Proof.
  exists Pq, (outcome Pq), (fun k => match k with c0 => -(1000) | c1 => 0 | _ => 2000 end).
  split; [apply wfb_ok; vm_compute; reflexivity|].
  split; [apply run_outcome; vm_compute; reflexivity|].
  split; [vm_compute; reflexivity|]. apply feasb_ok; vm_compute; reflexivity.
Qed.

(** C11, C45: substituting x1 = 1 - x0 into a row in which x1 has the coefficient 1e-11 and x0 does
    not occur *)
Definition T11 := 1 # 100000000000.
Definition Pt := prob
  [[(c0, 1); (c1, 1)]; [(c1, T11); (c2, 1); (c3, 1)]; [(c0, 1); (c2, 2); (c3, 1)];
   [(c0, 2); (c2, 1); (c3, 3)]]
  [Fin 1; Fin 1; Fin 1; NInf] [Fin 1; PInf; Fin 3; Fin 6]
  [Fin 0; Fin 0; Fin 0; Fin 0] [Fin 10; Fin 10; Fin 10; Fin 10] [1; 2; 2; 1].
Lemma copies_disagree : exists P r i k a,
  wf_input P /\ run P r /\ res_status r = REDUCED /\ res_reduced r = true /\
  (i < in_m P)%nat /\ (k < in_n P)%nat /\
  rsz (res_state r) i <> (-1)%Z /\ In (k, a) (mA (res_state r) i) /\
  csz (res_state r) k = (-1)%Z /\ mAT (res_state r) k = [].
Proof.
  exists Pt, (outcome Pt), c2, c0, 1.
  split; [apply wfb_ok; vm_compute; reflexivity|].
  split; [apply run_outcome; vm_compute; reflexivity|].
  split; [vm_compute; reflexivity|]. split; [vm_compute; reflexivity|].
  split; [cbn; lia|]. split; [cbn; lia|].
  split; [vm_compute; discriminate|]. split; [vm_compute; left; reflexivity|].
  split; vm_compute; reflexivity.
Qed.
(** the same with the near-zero row last: there is no later entry in the column to delete *)
Definition Pt' := prob
  [[(c0, 1); (c1, 1)]; [(c0, 1); (c2, 2); (c3, 1)]; [(c0, 2); (c2, 1); (c3, 3)];
   [(c1, T11); (c2, 1); (c3, 1)]]
  [Fin 1; Fin 1; NInf; Fin 1] [Fin 1; Fin 3; Fin 6; PInf]
  [Fin 0; Fin 0; Fin 0; Fin 0] [Fin 10; Fin 10; Fin 10; Fin 10] [1; 2; 2; 1].
Lemma missing_entry : exists P r, wf_input P /\ run P r /\ bad (res_state r) = true.
Proof.
  exists Pt', (outcome Pt').
  split; [apply wfb_ok; vm_compute; reflexivity|].
  split; [apply run_outcome; vm_compute; reflexivity|]. vm_compute. reflexivity.
Qed.
