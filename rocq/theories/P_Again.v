(** C42: calling run_presolver a second time on the same presolver.  The property is false of the code. *)
From Coq Require Import NArith.
From Verif Require Import M_Num S_LP M_Settings M_Driver M_State M_Act M_Core M_Simple M_StonCols
  M_Dton M_Parallel M_Propagate M_Init M_Post M_Log M_Run S_Run S_Struct S_Log S_Sem S_Sem4 S_Post L_Refute M_Again L_Again.
Open Scope Q_scope.

(** There is a problem whose first run removes a column and whose second run removes nothing more; an
    optimal solution of the second reduced problem, postsolved after the first call, gives a feasible
    point of the input, and postsolved after the second call gives a point violating a row. *)
Theorem C42_refuted : exists P r1 r2 x0 h1 h2 x1 y1 z1 x2 y2 z2,
  wf_input P /\ run P r1 /\ res_reduced r1 = true /\
  run_again default_settings (fun _ => true) (fun _ => false) 20 P (res_state r1) = Some r2 /\ res_reduced r2 = true /\
  optimal (reduced_lp (res_state r2)) x0 /\
  api_postsolve x0 (fun _ => 0) (fun _ => 0) (handle_of P (res_state r1) blank) = Some h1 /\
  solution_is P (h_sol h1) x1 y1 z1 /\ feasible (lp_of_input P) x1 /\
  api_postsolve x0 (fun _ => 0) (fun _ => 0) (handle_again P (res_state r1) (res_state r2) blank) = Some h2 /\
  solution_is P (h_sol h2) x2 y2 z2 /\ ~ feasible (lp_of_input P) x2.
Proof. exact again_bad. Qed.
Print Assumptions C42_refuted.

(** The two calls on that problem: the same rows and columns are left, and the column map is
    overwritten with the identity on the two columns left. *)
Example Px_again :
  (live_rows (res_state (outcome Px)), live_cols (res_state (outcome Px))) = ([0; 1]%nat, [1; 2]%nat) /\
  (live_rows (res_state (second Px)), live_cols (res_state (second Px))) = ([0; 1]%nat, [0; 1]%nat) /\
  length (log (res_state (second Px))) = length (log (res_state (outcome Px))) /\
  map (h_cmap (handle_of Px (res_state (outcome Px)) blank)) [0; 1; 2]%nat = [-1; 0; 1]%Z /\
  map (h_cmap (handle_again Px (res_state (outcome Px)) (res_state (second Px)) blank)) [0; 1; 2]%nat = [0; 1; 1]%Z.
Proof. do 4 (split; [vm_compute; reflexivity|]). vm_compute. reflexivity. Qed.
