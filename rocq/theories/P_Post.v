(** C36, C38: the solution handed back by postsolve.  Theorems only; vocabulary in S_LP.v, S_Run.v,
    S_Post.v.

    With all reductions on, both properties are false of the code (P_Refute.v).  Here the reductions
    that rewrite coefficients (doubleton rows, parallel columns) are switched off, and for the dual
    equations also parallel rows. *)
From Coq Require Import NArith.
From Verif Require Import M_Num S_LP M_Settings M_Driver S_Driver M_State M_Act M_Core M_Simple M_StonCols
  M_Dton M_Parallel M_Propagate M_Init M_Post M_Run S_Run S_Struct S_Sem S_Sem2 S_Sem3 S_Sem4 S_Post L_Refute
  L_Post7.
Open Scope Q_scope.

(** ** C38: postsolve assigns every entry of x, y and z *)
Theorem C38_all_assigned_partial : forall stgs fits clock fuel P r, wf_input P -> coefficients_kept stgs ->
  run_presolver stgs fits clock fuel P = Some r -> res_reduced r = true ->
  Forall invertible (log (res_state r)) ->
  forall x y z, exists x' y' z', solution_is P (postsolve_state (res_state r) x y z) x' y' z'.
Proof. exact run_complete. Qed.
Print Assumptions C38_all_assigned_partial.

(** ** C36: the dual equations of the reduced problem become those of the original problem *)
Theorem C36_stationarity_partial : forall stgs fits clock fuel P r, wf_input P -> duals_kept stgs ->
  run_presolver stgs fits clock fuel P = Some r -> res_reduced r = true ->
  forall x y z x' y' z', stationary (reduced_lp (res_state r)) y z ->
  solution_is P (postsolve_state (res_state r) x y z) x' y' z' -> stationary (lp_of_input P) y' z'.
Proof. exact run_stationary. Qed.
Print Assumptions C36_stationarity_partial.

(** ** The hypotheses are met *)
Definition sB := mkSettings true false false false true true true true 10 60 true.
Definition PB := prob
  [[(c0, 1); (c1, 2); (c2, 1)]; [(c1, 1); (c2, 1); (c3, 1)]; [(c1, 1); (c2, -(1))];
   [(c1, 1); (c2, 3); (4%nat, 1)]; [(c1, 1); (5%nat, 1)]; [(6%nat, 2)]; [(7%nat, 1); (8%nat, -(1))]]
  [Fin 4; NInf; Fin (-(1)); Fin 1; Fin 0; Fin 4; Fin 1] [Fin 4; Fin 5; PInf; Fin 20; PInf; Fin 4; Fin 2]
  [Fin 0; Fin 0; Fin 0; Fin (-(10)); Fin 0; Fin 0; Fin 0; Fin 0; Fin 0]
  [Fin 10; Fin 2; PInf; PInf; Fin 3; PInf; Fin 5; PInf; PInf] [1; 1; 2; -(1); 1; 0; 1; 1; 1].
Definition oB := run_presolver sB (fun _ => true) (fun _ => false) 20 PB.
Definition stB : state := match oB with Some r => res_state r | None => new_presolver PB end.
Lemma oB_some : match oB with Some r => res_reduced r | None => false end = true.
Proof. vm_compute. reflexivity. Qed.
(** Seventeen records of nine kinds, six columns and four rows gone. *)
Example PB_ok : wf_input PB /\ duals_kept sB /\
  (exists r, run_presolver sB (fun _ => true) (fun _ => false) 20 PB = Some r /\ res_reduced r = true /\ res_state r = stB) /\
  live_rows stB = [c0; c2; c3] /\ live_cols stB = [c1; c2; 4%nat] /\
  log stB =
    [DELETED_ROW 1 0; BOUND_CHANGE_THE_ROW 2 [(c1, 1); (c2, -(1))] 1; BOUND_CHANGE_NO_ROW 2 3 (Fin 0) true;
     BOUND_CHANGE_THE_ROW 0 [(c1, 2); (c2, 1)] 1; BOUND_CHANGE_NO_ROW 2 4 (Fin 0) true; FIXED_COL 8 0 2 [];
     SUB_COL 3 [(c1, 1); (c2, 1); (c3, 1)] (Fin 5) 1 0; EQ_TO_INEQ 1 (-(1)); DELETED_ROW 6 1;
     SUB_COL 7 [(7%nat, 1); (8%nat, -(1))] (Fin 1) 6 1; SUB_COL 0 [(c0, 1); (c1, 2); (c2, 1)] (Fin 4) 0 0;
     EQ_TO_INEQ 0 1; DELETED_ROW 5 (1 # 2); ADDED_ROWS 5 [(5%nat, 2)] 2; FIXED_COL 6 (4 # 2) 1 [(5%nat, 2)];
     DELETED_ROW 4 0; FIXED_COL_INF true 5 (Fin 0) [(Fin 0, [(c1, 1); (5%nat, 1)])]] /\
  Forall invertible (log stB).
Proof.
  split; [apply wfb_ok; vm_compute; reflexivity|]. split; [repeat split|].
  split.
  { unfold stB. pose proof oB_some as E. unfold oB in *. destruct (run_presolver _ _ _ _ _) as [r|]; [|discriminate].
    exists r. auto. }
  split; [vm_compute; reflexivity|]. split; [vm_compute; reflexivity|].
  match goal with |- log stB = ?l /\ _ => assert (E : log stB = l) by (vm_compute; reflexivity); rewrite E end.
  split; [reflexivity|]. repeat constructor; cbn.
  intros e [<-|[]]. reflexivity.
Qed.
(** Dual values of the reduced problem, and what postsolve makes of them *)
Definition xB (k : nat) : Q := if Nat.eqb k c2 then 1 # 3 else 0.
Definition yB (i : nat) : Q := if Nat.eqb i c3 then 2 # 3 else 0.
Definition zB (k : nat) : Q := if Nat.eqb k c1 then -(2 # 3) else if Nat.eqb k 4 then 1 # 3 else 0.
Example PB_post : stationary (reduced_lp stB) yB zB /\
  let sol := postsolve_state stB xB yB zB in
  s_err sol = false /\ map (sx sol) (seq 0 9) = map Some [11 # 3; 0; 1 # 3; 14 # 3; 0; 0; 4 # 2; 1; 0] /\
  map (sz sol) (seq 0 9) = map Some [0; -(2 # 3); 0; 0; 1 # 3; 0; 0 # 2; 0; 2] /\
  map (sy sol) (seq 0 7) = map Some [1; -(1); 0; 2 # 3; 0; 1 # 2; 1].
Proof.
  split.
  - intros j Hj. change (lp_cols (reduced_lp stB)) with (live_cols stB) in Hj.
    assert (E : live_cols stB = [c1; c2; 4%nat]) by (vm_compute; reflexivity). rewrite E in Hj.
    repeat destruct Hj as [<-|Hj]; [..|destruct Hj]; vm_compute; reflexivity.
  - cbv zeta. repeat split; vm_compute; reflexivity.
Qed.
