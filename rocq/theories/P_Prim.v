(** C46 and C47: the postsolved point is feasible, and as good as any other, up to tolerances. *)
From Coq Require Import NArith Lqa.
From Verif Require Import M_Num S_LP M_Settings M_Driver S_Driver M_State M_Act M_Core M_Simple M_StonCols
  M_Dton M_Parallel M_Propagate M_Init M_Post M_Run S_Run S_Sem S_Sem4 S_Post S_Kkt S_Prim L_Refute L_Prim7 L_Prim8 L_Prim9 L_Best.
Open Scope Q_scope.

(** ** C46: a point that is feasible for the reduced problem up to tolerances is taken back to one that is
    feasible for the original problem up to the same tolerances.  The tolerance of a row has to be wide
    enough for the tolerances the presolver itself works with.  Missing: substitution of singleton and
    doubleton columns and merging of parallel ones. *)
Theorem C46_feasible_back_partial : forall stgs fits clock fuel P r rtol c, wf_input P -> values_kept stgs ->
  run_presolver stgs fits clock fuel P = Some r -> res_reduced r = true ->
  wide rtol c (lp_of_input P) -> bounds_meet (lp_of_input P) -> neighbours_known (log (res_state r)) ->
  forall x y z x' y' z', feasible_up_to rtol (fun _ => c) (reduced_lp (res_state r)) x ->
  solution_is P (postsolve_state (res_state r) x y z) x' y' z' -> feasible_up_to rtol (fun _ => c) (lp_of_input P) x'.
Proof. exact run_PS. Qed.
Print Assumptions C46_feasible_back_partial.

(** Without dual fixing nothing has to be assumed about the log. *)
Theorem C46_no_dual_fix_partial : forall stgs fits clock fuel P r rtol c, wf_input P -> values_kept stgs -> dual_fix_on stgs = false ->
  run_presolver stgs fits clock fuel P = Some r -> res_reduced r = true ->
  wide rtol c (lp_of_input P) -> bounds_meet (lp_of_input P) ->
  forall x y z x' y' z', feasible_up_to rtol (fun _ => c) (reduced_lp (res_state r)) x ->
  solution_is P (postsolve_state (res_state r) x y z) x' y' z' -> feasible_up_to rtol (fun _ => c) (lp_of_input P) x'.
Proof. exact run_PS_plain. Qed.
Print Assumptions C46_no_dual_fix_partial.

(** ** C47: if the solution given to postsolve satisfies the optimality conditions of the reduced problem up
    to tolerances, the point returned is feasible up to tolerances and no feasible point of the original
    problem is better by more than the tolerances weighed with the multipliers returned. *)
Theorem C47_optimal_back_partial : forall stgs fits clock fuel P r rtol c, wf_input P -> signs_kept stgs ->
  run_presolver stgs fits clock fuel P = Some r -> res_reduced r = true ->
  wide rtol c (lp_of_input P) -> bounds_meet (lp_of_input P) -> neighbours_known (log (res_state r)) ->
  forall x y z x' y' z', feasible_up_to rtol (fun _ => c) (reduced_lp (res_state r)) x ->
  stationary (reduced_lp (res_state r)) y z -> complementary rtol FEAS_TOL (reduced_lp (res_state r)) x y z ->
  solution_is P (postsolve_state (res_state r) x y z) x' y' z' ->
  feasible_up_to rtol (fun _ => c) (lp_of_input P) x' /\
  forall w, feasible (lp_of_input P) w ->
    objective (lp_of_input P) x' <= objective (lp_of_input P) w + gap rtol FEAS_TOL (lp_of_input P) y' z'.
Proof. exact run_best. Qed.
Print Assumptions C47_optimal_back_partial.

(** ** The hypotheses are met *)
Definition enough (P : input) (i : nat) : Q := FEAS_TOL + (FEAS_TOL + FEAS_TOL) * norm1 (in_A P i).
Definition sP := mkSettings false false false false true true true false 10 60 true.
Definition PP := prob
  [[(0%nat, 1); (1%nat, 2); (2%nat, 1)]; [(1%nat, 1); (2%nat, 1); (3%nat, 1)];
   [(1%nat, 1); (2%nat, 3); (4%nat, 1)]; [(1%nat, 1); (5%nat, 1)]; [(6%nat, 2)]; [(0%nat, 1); (3%nat, 1); (6%nat, 1)]]
  [Fin 4; NInf; Fin 1; Fin 3; Fin 4; Fin 0] [Fin 4; Fin 5;  Fin 20; PInf; Fin 4; PInf]
  [Fin 0; Fin 0; Fin 0; Fin (-(10)); Fin 0; Fin 0; Fin 0]
  [Fin 10; Fin 2; PInf; PInf; Fin 3; PInf; Fin 5] [1; 1; 2; -(1); 1; 0; 1].
Definition oP := run_presolver sP (fun _ => true) (fun _ => false) 20 PP.
Definition stP : state := match oP with Some r => res_state r | None => new_presolver PP end.
Lemma oP_some : match oP with Some r => res_reduced r | None => false end = true.
Proof. vm_compute. reflexivity. Qed.
Definition xP (k : nat) : Q := match k with 1%nat => 2 | 3%nat => 3 | _ => 0 end.
(** Column 5 is sent to infinity and comes back at 1, where its row [x1 + x5 >= 3] holds. *)
Example PP_ok : wf_input PP /\ values_kept sP /\
  (exists r, run_presolver sP (fun _ => true) (fun _ => false) 20 PP = Some r /\ res_reduced r = true /\ res_state r = stP) /\
  live_rows stP = [0; 1; 2; 5]%nat /\ live_cols stP = [0; 1; 2; 3; 4]%nat /\
  In (FIXED_COL_INF true 5 (Fin 0) [(Fin 3, [(1%nat, 1); (5%nat, 1)])]) (log stP) /\
  wide (enough PP) FEAS_TOL (lp_of_input PP) /\ bounds_meet (lp_of_input PP) /\ neighbours_known (log stP) /\
  feasible_up_to (enough PP) (fun _ => FEAS_TOL) (reduced_lp stP) xP /\
  let sol := postsolve_state stP xP (fun _ => 0) (fun _ => 0) in
  solution_is PP sol (xs sol) (ys sol) (zs sol) /\ map (sx sol) (seq 0 7) = map Some [0; 2; 0; 3; 0; 1; 4 # 2].
Proof.
  split; [apply wfb_ok; vm_compute; reflexivity|]. split; [repeat split|].
  split.
  { unfold stP. pose proof oP_some as E. unfold oP in *. destruct (run_presolver _ _ _ _ _) as [r|]; [|discriminate].
    exists r. auto. }
  split; [vm_compute; reflexivity|]. split; [vm_compute; reflexivity|].
  split; [vm_compute; tauto|].
  split; [apply wideb_ok; vm_compute; reflexivity|]. split; [apply meetb_ok; vm_compute; reflexivity|].
  split; [apply knownb_ok; vm_compute; reflexivity|]. split; [apply feasupb_ok; vm_compute; reflexivity|].
  cbv zeta. split; [apply completeb_ok|]; vm_compute; reflexivity.
Qed.
(** [min x0 + 2 x1 + x2 + 5 x3] subject to [x0 + x1 + x3 >= 7], [2 x0 <= 6], [x3 = 2], [x1 + x2 <= 10], [x >= 0]. *)
Definition sK := mkSettings false false false false false true true false 10 60 true.
Definition PK := prob [[(0%nat, 1); (1%nat, 1); (3%nat, 1)]; [(0%nat, 2)]; [(3%nat, 1)]; [(1%nat, 1); (2%nat, 1)]]
  [Fin 7; NInf; Fin 2; NInf] [PInf; Fin 6; Fin 2; Fin 10] [Fin 0; Fin 0; Fin 0; Fin 0] [PInf; PInf; PInf; PInf] [1; 2; 1; 5].
Definition oK := run_presolver sK (fun _ => true) (fun _ => false) 20 PK.
Definition stK : state := match oK with Some r => res_state r | None => new_presolver PK end.
Lemma oK_some : match oK with Some r => res_reduced r | None => false end = true.
Proof. vm_compute. reflexivity. Qed.
Definition xK (k : nat) : Q := match k with O => 3 | _ => 2 end.
Definition yK (i : nat) : Q := 2.
Definition zK (k : nat) : Q := match k with O => -(1) | _ => 0 end.
Example PK_ok : wf_input PK /\ signs_kept sK /\
  (exists r, run_presolver sK (fun _ => true) (fun _ => false) 20 PK = Some r /\ res_reduced r = true /\ res_state r = stK) /\
  wide (enough PK) FEAS_TOL (lp_of_input PK) /\ bounds_meet (lp_of_input PK) /\ neighbours_known (log stK) /\
  feasible_up_to (enough PK) (fun _ => FEAS_TOL) (reduced_lp stK) xK /\
  stationary (reduced_lp stK) yK zK /\ complementary (enough PK) FEAS_TOL (reduced_lp stK) xK yK zK /\
  let sol := postsolve_state stK xK yK zK in
  solution_is PK sol (xs sol) (ys sol) (zs sol) /\
  gap (enough PK) FEAS_TOL (lp_of_input PK) (ys sol) (zs sol) < 1 # 10000.
Proof.
  split; [apply wfb_ok; vm_compute; reflexivity|]. split; [repeat split|].
  split.
  { unfold stK. pose proof oK_some as E. unfold oK in *. destruct (run_presolver _ _ _ _ _) as [r|]; [|discriminate].
    exists r. auto. }
  split; [apply wideb_ok; vm_compute; reflexivity|]. split; [apply meetb_ok; vm_compute; reflexivity|].
  split; [apply knownb_ok; vm_compute; reflexivity|]. split; [apply feasupb_ok; vm_compute; reflexivity|].
  split; [apply statb_ok; vm_compute; reflexivity|]. split; [apply compb_ok; vm_compute; reflexivity|].
  cbv zeta. split; [apply completeb_ok; vm_compute; reflexivity|]. vm_compute. reflexivity.
Qed.
