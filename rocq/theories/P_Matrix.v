(** C49: the matrix handed out is cut out of the matrix given. *)
From Coq Require Import NArith.
From Verif Require Import M_Num S_LP M_Settings M_Driver M_State M_Init M_Run S_Run S_Sem S_Matrix L_Refute L_Keep L_Keep2.
Open Scope Q_scope.

(** If substitution through equations with two entries is switched off, the matrix of the problem handed
    out consists of the rows and columns of the given one that were not removed, with their
    coefficients unchanged. *)
Theorem C49_matrix_kept : forall stgs fits clock fuel P r, wf_input P -> dton_eq_on stgs = false ->
  run_presolver stgs fits clock fuel P = Some r -> res_reduced r = true ->
  submatrix (lp_of_input P) (reduced_lp (res_state r)).
Proof. exact run_submatrix. Qed.
Print Assumptions C49_matrix_kept.
(** The same for every intermediate problem. *)
Theorem C49_matrix_kept_between : forall stgs fits P s, wf_input P -> dton_eq_on stgs = false ->
  reached stgs fits P s -> submatrix (lp_of_input P) (reduced_lp s).
Proof. exact reached_submatrix. Qed.
Print Assumptions C49_matrix_kept_between.

(** ** The hypotheses are met: two rows and two columns of the same shape, a row that becomes a bound, an
    equation that fixes a variable. *)
Definition sM := mkSettings true false true true true true true true 10 60 true.
Definition PM := prob
  [[(0%nat, 1); (1%nat, 1); (3%nat, 1); (4%nat, 1)]; [(0%nat, 2)]; [(3%nat, 1)]; [(1%nat, 1); (2%nat, 1); (4%nat, 2); (5%nat, 2)];
   [(0%nat, 1); (1%nat, 1); (2%nat, -(1)); (5%nat, -(2))]; [(0%nat, 2); (1%nat, 2); (2%nat, -(2)); (5%nat, -(4))]]
  [Fin 7; NInf; Fin 2; NInf; Fin (-(4)); Fin (-(7))] [PInf; Fin 6; Fin 2; Fin 10; PInf; PInf]
  [Fin 0; Fin 0; Fin 0; Fin 0; Fin 0; Fin 0] [PInf; PInf; PInf; PInf; PInf; PInf] [1; 2; -(1); 5; 1; -(2)].
Definition shown (P : input) := match run_presolver sM (fun _ => true) (fun _ => false) 20 P with
  | Some r => Some (res_reduced r, res_status r, live_rows (res_state r), live_cols (res_state r), map (mA (res_state r)) (live_rows (res_state r)))
  | None => None end.
Example C49_case : wf_input PM /\ dton_eq_on sM = false /\
  shown PM = Some (true, REDUCED, [0; 3; 5]%nat, [0; 1; 4; 5]%nat,
    [[(0%nat, 1); (1%nat, 1); (4%nat, 1)]; [(1%nat, 1); (4%nat, 2); (5%nat, 2)]; [(0%nat, 2); (1%nat, 2); (5%nat, -(4))]]).
Proof. split; [apply wfb_ok; vm_compute; reflexivity|]. split; vm_compute; reflexivity. Qed.
(** The hypothesis is needed: with the substitution switched on coefficients change. *)
Theorem C49_doubleton_refuted : exists P r, wf_input P /\
  run_presolver default_settings (fun _ => true) (fun _ => false) 20 P = Some r /\ res_reduced r = true /\
  ~ submatrix (lp_of_input P) (reduced_lp (res_state r)).
Proof. exact dton_changes. Qed.
Print Assumptions C49_doubleton_refuted.
