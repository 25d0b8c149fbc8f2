(** C36, with parallel rows merged.  Theorems only; vocabulary in S_LP.v, S_Run.v, S_Post.v, S_Sides.v. *)
From Coq Require Import NArith.
From Verif Require Import M_Num S_LP M_Settings M_Driver S_Driver M_State M_Act M_Core M_Simple M_StonCols
  M_Dton M_Parallel M_Propagate M_Init M_Post M_Run S_Run S_Struct S_Sem S_Sem2 S_Sem3 S_Sem4 S_Post S_Sides L_Refute
  L_PostPar.
Open Scope Q_scope.

(** ** C36: the dual equations of the reduced problem become those of the original problem, also
    when rows were merged, as long as no removed row gave both its sides (P_Refute.v has a run where
    one does and the equations are lost) *)
Theorem C36_parallel_rows_partial : forall stgs fits clock fuel P r, wf_input P -> coefficients_kept stgs -> clear_ratios P ->
  run_presolver stgs fits clock fuel P = Some r -> res_reduced r = true -> one_side (log (res_state r)) ->
  forall x y z x' y' z', stationary (reduced_lp (res_state r)) y z ->
  solution_is P (postsolve_state (res_state r) x y z) x' y' z' -> stationary (lp_of_input P) y' z'.
Proof. exact run_stationary_par. Qed.
Print Assumptions C36_parallel_rows_partial.

(** ** The hypotheses are met: rows 0, 1 and 2 are parallel, row 1 stays with the right side of row 0
    and the left side of row 2 *)
Definition sR := mkSettings true false true false false true true true 10 60 true.
Definition PR := prob
  [[(c0, 1); (c1, 2); (c2, 1)]; [(c0, 2); (c1, 4); (c2, 2)]; [(c0, -(1)); (c1, -(2)); (c2, -(1))];
   [(c0, 1); (c1, -(1)); (c2, 3)]; [(c0, 1); (c3, 2)]]
  [NInf; NInf; NInf; Fin (-(2)); Fin 3] [Fin 6; Fin 20; Fin (-(1)); Fin 4; PInf]
  [Fin 0; Fin 0; Fin 0; Fin 0] [Fin 10; Fin 9; Fin 8; Fin 2] [1; -(1); 2; 1].
Definition oR := run_presolver sR (fun _ => true) (fun _ => false) 20 PR.
Definition stR : state := match oR with Some r => res_state r | None => new_presolver PR end.
Lemma oR_some : match oR with Some r => res_reduced r | None => false end = true.
Proof. vm_compute. reflexivity. Qed.
Example PR_ok : wf_input PR /\ coefficients_kept sR /\ clear_ratios PR /\
  (exists r, run_presolver sR (fun _ => true) (fun _ => false) 20 PR = Some r /\ res_reduced r = true /\ res_state r = stR) /\
  live_rows stR = [c1; c3; 4%nat] /\ live_cols stR = [c0; c1; c2; c3] /\
  log stR = [DELETED_ROW 0 0; DELETED_ROW 2 0; LHS_CHANGE 1 [(c0, 2); (c1, 4); (c2, 2)] 2 2 (-(2));
    RHS_CHANGE 1 [(c0, 2); (c1, 4); (c2, 2)] 12 0 2] /\ one_side (log stR).
Proof.
  split; [apply wfb_ok; vm_compute; reflexivity|]. split; [repeat split|].
  split; [apply ratiosb_ok; vm_compute; reflexivity|].
  split.
  { unfold stR. pose proof oR_some as E. unfold oR in *. destruct (run_presolver _ _ _ _ _) as [r|]; [|discriminate].
    exists r. auto. }
  split; [vm_compute; reflexivity|]. split; [vm_compute; reflexivity|].
  match goal with |- log stR = ?l /\ _ => assert (E : log stR = l) by (vm_compute; reflexivity); rewrite E end.
  split; [reflexivity|]. intros i r v j q i' r' v' q' A B. cbn in A, B.
  destruct A as [A|[A|[A|[A|[]]]]]; try discriminate A; destruct B as [B|[B|[B|[B|[]]]]]; try discriminate B. congruence.
Qed.
(** The multiplier of row 1 goes to row 0 (right side met) or to row 2 (left side met). *)
Definition yR (v : Q) (i : nat) : Q := if Nat.eqb i 1 then v else 0.
Definition zR (v : Q) (k : nat) : Q := coeff [(c0, 1 - 2 * v); (c1, -(1) - 4 * v); (c2, 2 - 2 * v); (c3, 1)] k.
Definition xR (v : Q) (k : nat) : Q := if Nat.eqb k 0 then v else 0.
Example PR_post : (forall v, stationary (reduced_lp stR) (yR v) (zR v)) /\
  (let sol := postsolve_state stR (xR 6) (yR (-(1))) (zR (-(1))) in
   s_err sol = false /\ map (sx sol) (seq 0 4) = map Some [6; 0; 0; 0] /\
   map (sy sol) (seq 0 5) = map Some [-(2); 0; 0; 0; 0] /\ map (sz sol) (seq 0 4) = map Some [3; 3; 4; 1]) /\
  (let sol := postsolve_state stR (xR 1) (yR 1) (zR 1) in
   s_err sol = false /\ map (sx sol) (seq 0 4) = map Some [1; 0; 0; 0] /\
   map (sy sol) (seq 0 5) = map Some [0; 0; -(2); 0; 0] /\ map (sz sol) (seq 0 4) = map Some [-(1); -(5); 0; 1]).
Proof.
  split; [|split].
  - intros v j Hj. change (lp_cols (reduced_lp stR)) with (live_cols stR) in Hj.
    assert (E : live_cols stR = [c0; c1; c2; c3]) by (vm_compute; reflexivity). rewrite E in Hj.
    assert (E2 : lp_rows (reduced_lp stR) = [c1; c3; 4%nat]) by (vm_compute; reflexivity). rewrite E2.
    assert (A1 : lp_A (reduced_lp stR) c1 = [(c0, 2); (c1, 4); (c2, 2)]) by (vm_compute; reflexivity).
    assert (A3 : lp_A (reduced_lp stR) c3 = [(c0, 1); (c1, -(1)); (c2, 3)]) by (vm_compute; reflexivity).
    assert (A4 : lp_A (reduced_lp stR) 4%nat = [(c0, 1); (c3, 2)]) by (vm_compute; reflexivity).
    cbn [sumQ]. rewrite A1, A3, A4.
    repeat destruct Hj as [<-|Hj]; [..|destruct Hj];
    match goal with |- _ == lp_c _ ?k - _ => let q := eval vm_compute in (lp_c (reduced_lp stR) k) in
      assert (EC : lp_c (reduced_lp stR) k = q) by (vm_compute; reflexivity); rewrite EC end; cbn; ring.
  - cbv zeta. repeat split; vm_compute; reflexivity.
  - cbv zeta. repeat split; vm_compute; reflexivity.
Qed.
