(** Witness: a dual of the wrong sign. *)
From Coq Require Import NArith Lqa.
From Verif Require Import M_Num S_LP M_Settings M_Driver S_Driver M_State M_Act M_Core M_Simple M_StonCols
  M_Dton M_Parallel M_Propagate M_Init M_Post M_Run S_Run L_Refute S_Kkt.
Open Scope Q_scope.
(** min x1 - x0  s.t.  3/2 <= x0 + x1 <= 4,  x0 in [0,3],  x1 in [1,10] *)
Definition Pd := prob [[(0%nat, 1); (1%nat, 1)]] [Fin (3 # 2)] [Fin 4] [Fin 0; Fin 1] [Fin 3; Fin 10] [-(1); 1].
Lemma wrong_sign : exists P r x y z,
  wf_input P /\ run P r /\ res_status r = REDUCED /\ res_reduced r = true /\
  (forall x0 y0 z0, complementary (fun _ => 0) 0 (reduced_lp (res_state r)) x0 y0 z0) /\
  (forall x0 y0 z0, solution_is P (postsolve_state (res_state r) x0 y0 z0) x y z) /\
  feasible (lp_of_input P) x /\ stationary (lp_of_input P) y z /\
  ~ complementary (fun _ => 1) 1 (lp_of_input P) x y z.
Proof.
  pose (sol := postsolve_state (res_state (outcome Pd)) (fun _ => 0) (fun _ => 0) (fun _ => 0)).
  exists Pd, (outcome Pd), (xs sol), (ys sol), (zs sol).
  split; [apply wfb_ok; vm_compute; reflexivity|].
  split; [apply run_outcome; vm_compute; reflexivity|].
  split; [vm_compute; reflexivity|]. split; [vm_compute; reflexivity|].
  split. { intros x0 y0 z0. split; intros i Hi; exfalso; vm_compute in Hi; exact Hi. }
  split.
  { intros x0 y0 z0. split; [vm_compute; reflexivity|]. split.
    - intros k Hk. destruct k as [|[|k]]; [split; vm_compute; reflexivity|split; vm_compute; reflexivity|].
      exfalso. clear -Hk. cbv in Hk. lia.
    - intros k Hk. destruct k as [|k]; [vm_compute; reflexivity|]. exfalso. clear -Hk. cbv in Hk. lia. }
  split; [apply feasb_ok; vm_compute; reflexivity|].
  split.
  { intros k Hk. apply in_seq in Hk. destruct k as [|[|k]]; [vm_compute; reflexivity|vm_compute; reflexivity|].
    exfalso. clear -Hk. cbv in Hk. lia. }
  intros [R _]. destruct (R 0%nat ltac:(left; reflexivity)) as [R1 _].
  destruct (R1 ltac:(vm_compute; reflexivity)) as [q [E L]].
  vm_compute in E. injection E as <-. vm_compute in L. apply L. reflexivity.
Qed.
