(** C13: allocation failures inside new_presolver.  Theorems only; programs in M_Alloc.v, vocabulary
    and lists of allocation sites in S_Alloc.v. *)
From Coq Require Import List Bool.
Import ListNotations.
From Verif Require Import M_Alloc S_Alloc L_Alloc.

(** ** The full property fails: for each of these allocations, its failure alone is not dealt with
    (invalid access, double free, exit, or a presolver with a missing part is returned) *)
Theorem C13_refuted : forall s, In s unhandled_sites -> ~ handled (outcome_of (only_fails s) yes).
Proof. exact not_handled. Qed.
Print Assumptions C13_refuted.

(** ** What holds: whenever something fails and only allocations outside that list do, new_presolver
    returns NULL without undefined behaviour.  MISSING: the allocations of [unhandled_sites]. *)
Theorem C13_handled_partial : forall ok answer,
  (forall s, ok s = false -> In s (clean_sites ++ leaky_sites)) -> (exists s, ok s = false) ->
  handled (outcome_of ok answer).
Proof. exact handled_any. Qed.
Print Assumptions C13_handled_partial.
(** ... and nothing stays allocated if only [clean_sites] fail. *)
Theorem C13_no_leak_partial : forall ok answer,
  (forall s, ok s = false -> In s clean_sites) -> (exists s, ok s = false) ->
  handled_without_leak (outcome_of ok answer).
Proof. exact handled_clean. Qed.
Print Assumptions C13_no_leak_partial.
Theorem C13_leaks : forall s, In s leaky_sites -> ~ handled_without_leak (outcome_of (only_fails s) yes).
Proof. exact leaks. Qed.
Print Assumptions C13_leaks.

(** ** With enough memory a presolver is returned, and free_presolver frees all of it exactly once *)
Theorem C13_built_and_freed : forall answer, exists p h h',
  outcome_of all_ok answer = Returns p h /\ p <> Null /\
  run all_ok answer (free_presolver p) h = Returns tt h' /\ live h' = [].
Proof. exact built_and_freed. Qed.
Print Assumptions C13_built_and_freed.

(** ** What happens in some of the cases *)
Example double_free_on_last_buffer : outcome_of (only_fails s_sol_z) yes = UB double_free.
Proof. vm_compute. reflexivity. Qed.
Example null_in_workspace : outcome_of (only_fails s_map) yes = UB null_deref /\ outcome_of (only_fails (s_vec_data int_vec)) yes = UB null_deref.
Proof. split; vm_compute; reflexivity. Qed.
Example null_in_stats : outcome_of (only_fails s_stats) yes = UB null_deref.
Proof. vm_compute. reflexivity. Qed.
Example exit_when_growing : outcome_of (only_fails (s_vec_more ston_rows)) yes = Exits.
Proof. vm_compute. reflexivity. Qed.
Example double_free_on_objective : exists ok, outcome_of ok yes = UB double_free /\ ok s_obj = false.
Proof. exists (only_fails s_obj). split; vm_compute; reflexivity. Qed.
Example problem_missing : match outcome_of (only_fails s_prob) yes with Returns (Blk s_pres) h => field_of h s_pres f_prob = Null | _ => False end.
Proof. vm_compute. reflexivity. Qed.
(** two failures at once, both handled *)
Example two_failures : handled_without_leak (outcome_of (fun s => negb (site_beq s s_lhs) && negb (site_beq s s_iw2)) yes).
Proof. eexists. split; vm_compute; reflexivity. Qed.
