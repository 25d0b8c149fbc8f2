(** C34, C35, C43: the flat reduction log, the placement of the reduced solution and repeated calls of
    postsolve.  Theorems only; vocabulary in S_Log.v. *)
From Coq Require Import NArith.
From Verif Require Import M_Num S_LP M_State M_Post M_Log S_Log L_Log.
Open Scope Z_scope.

(** ** C34: each record is read back exactly as it was written, whatever was written around it *)
Theorem C34_records : forall (l : list reduction) (n : nat) (r : reduction),
  nth_error (rev l) n = Some r -> read_record (write_log l) (Z.of_nat n) = Some r.
Proof. exact read_all. Qed.
Print Assumptions C34_records.

(** ... and postsolve replays the records newest first, never reading outside the log, when the bound
    changes are grouped as propagation leaves them. *)
Theorem C34_replay : forall l n m cm rm x y z old, grouped 0 l ->
  postsolver_run (write_log l) n m cm rm x y z old = Some (replay None l (place n m cm rm x y z old)).
Proof. exact run_same. Qed.
Print Assumptions C34_replay.

(** ** C35: the reduced solution is placed by the maps; every other entry is marked as not retrieved,
    whatever the buffers contained *)
Theorem C35_placement : forall n m cm rm x y z old, let s := place n m cm rm x y z old in
  placed n cm x (sx s) /\ placed m rm y (sy s) /\ placed n cm z (sz s) /\ s_err s = false.
Proof. exact placed_place. Qed.
Print Assumptions C35_placement.

(** ** C43: any history of postsolve calls leaves the log and the maps alone, and the last call gives
    the same solution as a first call *)
Theorem C43_repeatable : forall l h cs x y z,
  h_log h = write_log l -> grouped 0 l -> Forall (in_range (h_cols h) (h_rows h)) l ->
  exists h1 h2, calls (cs ++ [(x, y, z)]) h = Some h1 /\ api_postsolve x y z h = Some h2 /\
    same_sol (h_cols h) (h_rows h) (h_sol h1) (h_sol h2) /\ h_log h1 = h_log h /\ h_cmap h1 = h_cmap h /\ h_rmap h1 = h_rmap h.
Proof. exact repeat_calls. Qed.
Print Assumptions C43_repeatable.

(** ** A log with records of many kinds, newest first *)
Definition row1 : row := [(0%nat, 2%Q); (2%nat, (-(1))%Q); (3%nat, 5%Q)].
Definition ex_log : list reduction :=
  [ DELETED_ROW 1 0; PARALLEL_COL 0 3 (CT true false false false) (CT false true false true) NInf (Fin 3%Q) (Fin 1%Q) PInf 2;
    BOUND_CHANGE_THE_ROW 0 row1 2; BOUND_CHANGE_NO_ROW 2 4 NInf true; FIXED_COL 1 7 1 [(0%nat, 3%Q)]; BOUND_CHANGE_NO_ROW 0 1 (Fin 0%Q) false;
    FIXED_COL_INF true 4 (Fin 0%Q) [(Fin 3%Q, [(4%nat, 1%Q); (2%nat, 2%Q)]); (Fin 2%Q, [(4%nat, 1%Q)])];
    SUB_COL 5 row1 (Fin 3%Q) 1 9; EQ_TO_INEQ 1 3; LHS_CHANGE 0 row1 3 2 2; ADDED_ROWS 0 [(1%nat, 2%Q)] 5; ADDED_ROW 0 1 4 ].
Example ex_log_ok : grouped 0 ex_log /\ Forall (in_range 6 3) ex_log.
Proof.
  split; [vm_compute; reflexivity|].
  assert (B : below 6 row1) by (intros k a [H|[H|[H|[]]]]; injection H as <- <-; Lia.lia).
  unfold ex_log. repeat (apply Forall_cons; [cbn [in_range]; repeat split; try Lia.lia; auto|]); try apply Forall_nil.
  - intros k a [H|[]]; injection H as <- <-; Lia.lia.
  - intros e [<-|[<-|[]]] k a H; cbn in H; [destruct H as [H|[H|[]]]|destruct H as [H|[]]]; injection H as <- <-; Lia.lia.
  - intros k a [H|[]]; injection H as <- <-; Lia.lia.
Qed.
Example ex_starts : fl_starts (write_log ex_log) = [0; 2; 4; 9; 10; 15; 22; 24; 27; 29; 33; 38; 39].
Proof. vm_compute. reflexivity. Qed.
