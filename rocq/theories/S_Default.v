(** A run with the default settings, as much storage as needed and a clock that never runs out. *)
From Coq Require Import NArith.
From Verif Require Import M_Num S_LP M_Settings M_Driver M_State M_Init M_Run S_Run.

Definition run (P : input) (r : run_result state) : Prop :=
  run_presolver default_settings (fun _ => true) (fun _ => false) 20 P = Some r.
