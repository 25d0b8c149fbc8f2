(** Specification vocabulary for the driver theorems. *)
From Coq Require Import NArith.
From Verif Require Import M_Num M_Settings M_Driver.

(** A status reports trouble when it is INFEASIBLE or UNBNDORINFEAS. *)
Definition trouble (st : status) : Prop := st = INFEASIBLE \/ st = UNBNDORINFEAS.

(** The statuses the explorers may return (established for the modelled explorers in L_Run.v). *)
Record status_ranges {S} (ex : explorers S) : Prop := {
  rg_close_bounds : forall s, In (snd (x_close_bounds ex s)) [UNCHANGED; INFEASIBLE];
  rg_empty_cols : forall s, In (snd (x_empty_cols ex s)) [UNCHANGED; UNBNDORINFEAS];
  rg_dual_fix : forall s, In (snd (x_dual_fix ex s)) [UNCHANGED; UNBNDORINFEAS];
  rg_ston_rows : forall s, In (snd (x_ston_rows ex s)) [UNCHANGED; REDUCED; INFEASIBLE];
  rg_empty_rows : forall s, In (snd (x_empty_rows ex s)) [UNCHANGED; INFEASIBLE];
  rg_ston_cols : forall s, In (snd (x_ston_cols ex s)) [UNCHANGED; UNBNDORINFEAS];
  rg_dton_eq : forall s, In (snd (x_dton_eq ex s)) [UNCHANGED];
  rg_check_acts : forall s, In (snd (x_check_acts ex s)) [UNCHANGED; INFEASIBLE];
  rg_propagate : forall s, In (snd (x_propagate ex s)) [UNCHANGED; INFEASIBLE];
  rg_par_rows : forall s, In (snd (x_par_rows ex s)) [UNCHANGED; INFEASIBLE];
  rg_par_cols : forall s, In (snd (x_par_cols ex s)) [UNCHANGED; UNBNDORINFEAS] }.

(** Observing a run: the state is extended by the list of statuses the explorers returned. *)
Definition observe1 {S} (f : S -> S * status) (t : S * list status) : (S * list status) * status :=
  let '(s', st) := f (fst t) in ((s', st :: snd t), st).

Definition observed {S} (ex : explorers S) : explorers (S * list status) :=
  mkExplorers
    (fun t => x_nnz ex (fst t)) (fun t => x_rows ex (fst t)) (fun t => x_cols ex (fst t))
    (observe1 (x_close_bounds ex)) (observe1 (x_empty_cols ex)) (observe1 (x_dual_fix ex))
    (observe1 (x_ston_rows ex)) (observe1 (x_empty_rows ex)) (observe1 (x_ston_cols ex))
    (observe1 (x_dton_eq ex)) (observe1 (x_check_acts ex)) (observe1 (x_propagate ex))
    (observe1 (x_par_rows ex)) (observe1 (x_par_cols ex))
    (fun t => (x_relax ex (fst t), snd t)) (fun t => (x_clean ex (fst t), snd t)).

(** An explorer keeps an invariant and never adds non-zeros, unless it reports trouble. *)
Definition tame {S} (I : S -> Prop) (nnz : S -> nat) (f : S -> S * status) : Prop :=
  forall s, I s -> HAS_STATUS (snd (f s)) UNBNDORINFEAS = false ->
    I (fst (f s)) /\ (nnz (fst (f s)) <= nnz s)%nat.

Record tame_explorers {S} (ex : explorers S) (I : S -> Prop) : Prop := {
  tm_close_bounds : tame I (x_nnz ex) (x_close_bounds ex);
  tm_empty_cols : tame I (x_nnz ex) (x_empty_cols ex);
  tm_dual_fix : tame I (x_nnz ex) (x_dual_fix ex);
  tm_ston_rows : tame I (x_nnz ex) (x_ston_rows ex);
  tm_empty_rows : tame I (x_nnz ex) (x_empty_rows ex);
  tm_ston_cols : tame I (x_nnz ex) (x_ston_cols ex);
  tm_dton_eq : tame I (x_nnz ex) (x_dton_eq ex);
  tm_check_acts : tame I (x_nnz ex) (x_check_acts ex);
  tm_propagate : tame I (x_nnz ex) (x_propagate ex);
  tm_par_rows : tame I (x_nnz ex) (x_par_rows ex);
  tm_par_cols : tame I (x_nnz ex) (x_par_cols ex) }.
