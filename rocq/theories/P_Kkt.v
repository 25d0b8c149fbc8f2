(** C37: signs of the duals and complementary slackness. *)
From Coq Require Import NArith Lqa.
From Verif Require Import M_Num S_LP M_Settings M_Driver S_Driver M_State M_Act M_Core M_Simple M_StonCols
  M_Dton M_Parallel M_Propagate M_Init M_Post M_Run S_Run S_Sem S_Sem4 S_Post S_Kkt L_Refute L_KktR L_Kkt5 L_Prim8.
Open Scope Q_scope.

(** With the default settings the postsolved dual of a row may have the wrong sign, whatever the solution
    of the reduced problem: here the row sits at its right side, away from its left side by more than
    one, and its dual is positive.  The primal point is feasible and the dual equations hold. *)
Theorem C37_refuted : exists P r x y z,
  wf_input P /\ run P r /\ res_status r = REDUCED /\ res_reduced r = true /\
  (forall x0 y0 z0, complementary (fun _ => 0) 0 (reduced_lp (res_state r)) x0 y0 z0) /\
  (forall x0 y0 z0, solution_is P (postsolve_state (res_state r) x0 y0 z0) x y z) /\
  feasible (lp_of_input P) x /\ stationary (lp_of_input P) y z /\
  ~ complementary (fun _ => 1) 1 (lp_of_input P) x y z.
Proof. exact wrong_sign. Qed.
Print Assumptions C37_refuted.

(** One reduction, from any state a run can reach, with any settings: if the dual values of what is left
    satisfy the dual equations, the sign conditions and complementary slackness, so do the values that
    postsolve computes from them for the problem before. *)
Theorem C37_step_partial : forall stgs fits P s f s' st rtol, wf_input P -> reached stgs fits P s -> In f simple_steps ->
  In f (common_steps stgs) -> f s = (s', st) -> ~ trouble st ->
  (forall i, 0 <= rtol i) -> covers rtol FEAS_TOL (reduced_lp s) ->
  exists new, log s' = new ++ log s /\
  forall x y z, stationary (reduced_lp s') y z -> complementary rtol FEAS_TOL (reduced_lp s') x y z ->
  let sol := taken_back new s' x y z in
  stationary (reduced_lp s) (fun i => val (sy sol i)) (fun k => val (sz sol k)) /\
  complementary rtol FEAS_TOL (reduced_lp s) (fun k => val (sx sol k)) (fun i => val (sy sol i)) (fun k => val (sz sol k)).
Proof. exact step_signs. Qed.
Print Assumptions C37_step_partial.

(** Whole runs with these reductions only. *)
Theorem C37_run_partial : forall stgs fits clock fuel P r rtol, wf_input P -> signs_kept stgs ->
  run_presolver stgs fits clock fuel P = Some r -> res_reduced r = true -> covers rtol FEAS_TOL (lp_of_input P) ->
  forall x y z x' y' z', stationary (reduced_lp (res_state r)) y z -> complementary rtol FEAS_TOL (reduced_lp (res_state r)) x y z ->
  solution_is P (postsolve_state (res_state r) x y z) x' y' z' -> complementary rtol FEAS_TOL (lp_of_input P) x' y' z'.
Proof. exact run_CS. Qed.
Print Assumptions C37_run_partial.

(** ** The hypotheses are met: [min x0 + 2 x1 + x2 + 5 x3] subject to [x0 + x1 + x3 >= 7], [2 x0 <= 6], [x3 = 2],
    [x1 + x2 <= 10], [x >= 0]. *)
Definition sK := mkSettings false false false false false true true false 10 60 true.
Definition PK := prob [[(0%nat, 1); (1%nat, 1); (3%nat, 1)]; [(0%nat, 2)]; [(3%nat, 1)]; [(1%nat, 1); (2%nat, 1)]]
  [Fin 7; NInf; Fin 2; NInf] [PInf; Fin 6; Fin 2; Fin 10] [Fin 0; Fin 0; Fin 0; Fin 0] [PInf; PInf; PInf; PInf] [1; 2; 1; 5].
Definition oK := run_presolver sK (fun _ => true) (fun _ => false) 20 PK.
Definition stK : state := match oK with Some r => res_state r | None => new_presolver PK end.
Lemma oK_some : match oK with Some r => res_reduced r | None => false end = true.
Proof. vm_compute. reflexivity. Qed.
Definition tK (i : nat) : Q := match i with 1%nat => 2 * FEAS_TOL | _ => FEAS_TOL end.
Definition xK (k : nat) : Q := match k with O => 3 | _ => 2 end.
Definition yK (i : nat) : Q := 2.
Definition zK (k : nat) : Q := match k with O => -(1) | _ => 0 end.
Lemma PK_rows : live_rows stK = [0%nat] /\ live_cols stK = [0%nat; 1%nat].
Proof. vm_compute. auto. Qed.
(** The multiplier -1 of the upper bound 3, which came from the second row, goes to that row. *)
Example PK_ok : wf_input PK /\ signs_kept sK /\
  (exists r, run_presolver sK (fun _ => true) (fun _ => false) 20 PK = Some r /\ res_reduced r = true /\ res_state r = stK) /\
  covers tK FEAS_TOL (lp_of_input PK) /\
  stationary (reduced_lp stK) yK zK /\ complementary tK FEAS_TOL (reduced_lp stK) xK yK zK /\
  let sol := postsolve_state stK xK yK zK in
  s_err sol = false /\ map (sx sol) (seq 0 4) = map Some [3; 2; 0; 2] /\
  map (sz sol) (seq 0 4) = map Some [0; 0; 1; 0] /\ map (sy sol) (seq 0 4) = map Some [2; -(1 # 2); 3; 0].
Proof.
  split; [apply wfb_ok; vm_compute; reflexivity|]. split; [repeat split|].
  split.
  { unfold stK. pose proof oK_some as E. unfold oK in *. destruct (run_presolver _ _ _ _ _) as [r|]; [|discriminate].
    exists r. auto. }
  split.
  { apply coversb_ok. vm_compute. reflexivity. }
  split; [apply statb_ok; vm_compute; reflexivity|].
  split; [apply compb_ok; vm_compute; reflexivity|].
  cbv zeta. repeat split; vm_compute; reflexivity.
Qed.
