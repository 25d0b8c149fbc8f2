(** A run with doubleton equations that changes coefficients. *)
From Coq Require Import NArith.
From Verif Require Import M_Num S_LP M_Settings M_Driver M_State M_Init M_Run S_Run S_Sem S_Matrix L_Refute.
Open Scope Q_scope.
Definition PD := prob
  [[(0%nat, 1); (1%nat, 2)]; [(0%nat, 1); (1%nat, 1); (2%nat, 1)]; [(0%nat, 1); (1%nat, 1); (2%nat, -(1)); (3%nat, 1)]; [(1%nat, 1); (2%nat, 2); (3%nat, 1)]]
  [Fin 4; NInf; Fin 1; NInf] [Fin 4; Fin 5; Fin 6; Fin 7] [Fin 0; Fin 0; Fin 0; Fin 0] [Fin 3; Fin 3; Fin 3; Fin 3] [1; 2; -(1); -(2)].
Definition rowD (o : option (run_result state)) := match o with Some r => (res_reduced r, live_rows (res_state r), live_cols (res_state r), mA (res_state r) 1%nat) | None => (false, [], [], []) end.
Lemma rowD_some : forall o, rowD o = (true, [1; 2; 3]%nat, [1; 2; 3]%nat, [(1%nat, -(1)); (2%nat, 1)]) ->
  exists r, o = Some r /\ res_reduced r = true /\ ~ submatrix (lp_of_input PD) (reduced_lp (res_state r)).
Proof.
  intros [r|] X; [|discriminate]. exists r. split; [reflexivity|].
  assert (A := f_equal (fun p => fst (fst (fst p))) X). assert (B := f_equal (fun p => snd (fst (fst p))) X).
  assert (C := f_equal (fun p => snd (fst p)) X). assert (D := f_equal snd X). cbn [fst snd rowD] in A, B, C, D. clear X.
  split; [exact A|]. intros [_ _ S]. specialize (S 1%nat). cbn [lp_rows lp_cols lp_A reduced_lp] in S.
  rewrite B, C, D in S. specialize (S (or_introl eq_refl)). vm_compute in S. discriminate.
Qed.
Lemma rowD_is : rowD (run_presolver default_settings (fun _ => true) (fun _ => false) 20 PD) =
  (true, [1; 2; 3]%nat, [1; 2; 3]%nat, [(1%nat, -(1)); (2%nat, 1)]).
Proof. vm_compute. reflexivity. Qed.
Lemma dton_changes : exists P r, wf_input P /\
  run_presolver default_settings (fun _ => true) (fun _ => false) 20 P = Some r /\ res_reduced r = true /\
  ~ submatrix (lp_of_input P) (reduced_lp (res_state r)).
Proof.
  destruct (rowD_some _ rowD_is) as [r X]. exists PD, r. split; [apply wfb_ok; vm_compute; reflexivity|exact X].
Qed.
