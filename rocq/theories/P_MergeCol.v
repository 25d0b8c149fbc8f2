(** C30: merging parallel columns, from one reached state to the next, and the split in postsolve. *)
From Coq Require Import NArith.
From Verif Require Import M_Num S_LP M_Settings M_Driver M_State M_Parallel M_Init M_Post M_Run S_Run S_Sem S_Sem2 S_Sem4
  S_MergeCol L_ParCol3 L_ParCol4.
Import M_Driver.
Open Scope Q_scope.

(** When columns that look parallel are, costs that look proportional are, no bounds are crossed and
    every variable occurs in a row: for every feasible point there is one of the new problem that is
    at least as good, every feasible point of the new problem comes from one of the old with the same
    objective value (so both have the same optimal value), and UNBNDORINFEAS is right.  Missing:
    columns parallel only up to the tolerance. *)
Theorem C30_parallel_cols_partial : forall stgs fits P s s' st, wf_input P -> reached stgs fits P s ->
  w_ston_rows s = [] -> not_crossed (reduced_lp s) -> all_used (reduced_lp s) -> clear_cut_cols (reduced_lp s) ->
  remove_parallel_cols s = (s', st) ->
  no_loss (reduced_lp s) (reduced_lp s') /\ nothing_gained (reduced_lp s) (reduced_lp s') /\
  (st = UNBNDORINFEAS -> (exists x, feasible (reduced_lp s) x) -> unbounded (reduced_lp s)).
Proof. exact parallel_cols_sem. Qed.
Print Assumptions C30_parallel_cols_partial.

(** Five columns; two are merged with ratio -2, a dominated one is fixed. *)
Example C30_case : let s := new_presolver mc in let s' := fst (remove_parallel_cols s) in
  wf_input mc /\ reached default_settings (fun _ => true) mc s /\ w_ston_rows s = [] /\
  not_crossed (reduced_lp s) /\ all_used (reduced_lp s) /\ clear_cut_cols (reduced_lp s) /\
  snd (remove_parallel_cols s) = UNCHANGED /\
  live_cols s = [0%nat; 1%nat; 2%nat; 3%nat; 4%nat] /\ live_cols s' = [1%nat; 3%nat; 4%nat] /\
  feasible (reduced_lp s) mc_x.
Proof. exact mc_case. Qed.
(** Two parallel columns that make the problem unbounded. *)
Example C30_unbounded_case : let s := new_presolver uc in
  wf_input uc /\ reached default_settings (fun _ => true) uc s /\ w_ston_rows s = [] /\
  not_crossed (reduced_lp s) /\ all_used (reduced_lp s) /\ clear_cut_cols (reduced_lp s) /\
  snd (remove_parallel_cols s) = UNBNDORINFEAS /\ feasible (reduced_lp s) (fun k => match k with O => 1 | 1%nat => 1 | _ => 0 end).
Proof. exact uc_case. Qed.

(** When the merge takes no finite bound away from column j, postsolve splits every value v of the
    merged column into p + q w = v with p within the old bounds of j and w within those of k up to the
    tolerance.  Missing: merges with an infinite bound of k, where it is false (C30_refuted). *)
Theorem C30_split_partial : forall stgs fits P s j k q v r sol t, wf_input P -> reached stgs fits P s ->
  In j (lp_cols (reduced_lp s)) -> In k (lp_cols (reduced_lp s)) -> j <> k -> ~ q == 0 -> not_crossed (reduced_lp s) ->
  t = merge_cols j k q s -> (lb t j = NInf -> lb s j = NInf) -> (ub t j = PInf -> ub s j = PInf) ->
  log t = r :: log s -> sx sol j = Some v -> ext_le (lb t j) v -> le_ext v (ub t j) ->
  exists p w, sx (retrieve_one r sol) j = Some p /\ sx (retrieve_one r sol) k = Some w /\ p + q * w == v /\
    within 0 (lb s j) p (ub s j) /\ within FEAS_TOL (lb s k) w (ub s k).
Proof. exact split_sem. Qed.
Print Assumptions C30_split_partial.
(** The value -5 of the merged pair is split into 0 - 2 * 5/2. *)
Example C30_split_case : let s := new_presolver mc in let t := merge_cols 0 1 (-(2)) s in
  (lb t 0%nat = NInf -> lb s 0%nat = NInf) /\ (ub t 0%nat = PInf -> ub s 0%nat = PInf) /\
  log t = mc_rec :: log s /\ ext_le (lb t 0%nat) (-(5)) /\ le_ext (-(5)) (ub t 0%nat) /\
  let sol := retrieve_one mc_rec (mkSol (fun k => if Nat.eqb k 1 then None else Some (-(5))) (fun _ => Some 0) (fun _ => Some 0) false) in
  option_map Qred (sx sol 0%nat) = Some 0 /\ option_map Qred (sx sol 1%nat) = Some (5 # 2).
Proof. exact mc_split. Qed.
