(** Witness for P_Again.v. *)
From Coq Require Import NArith Lqa.
From Verif Require Import M_Num S_LP M_Settings M_Driver M_State M_Act M_Core M_Simple M_StonCols
  M_Dton M_Parallel M_Propagate M_Init M_Post M_Log M_Run S_Run S_Struct S_Log S_Sem S_Sem4 S_Post L_Refute M_Again.
Open Scope Q_scope.

(** min x0 + x1 + x2,  5 <= x0 + x1 + 2 x2 <= 10,  -5 <= x1 - 3 x2 <= -5/2,  x0 = 3 *)
Definition Px := prob [[(c0, 1); (c1, 1); (c2, 2)]; [(c1, 1); (c2, -(3))]] [Fin 5; Fin (-(5))] [Fin 10; Fin (-(5#2))]
  [Fin 3; Fin 0; Fin 0] [Fin 3; Fin 4; Fin 4] [1; 1; 1].
Definition second (P : input) : run_result state :=
  match run_again default_settings (fun _ => true) (fun _ => false) 20 P (res_state (outcome P)) with
  | Some r => r | None => mkResult dummy 99%N false 0 end.
Lemma second_run : forall P, N.eqb (res_status (second P)) 99 = false ->
  run_again default_settings (fun _ => true) (fun _ => false) 20 P (res_state (outcome P)) = Some (second P).
Proof. unfold second. intros P. destruct (run_again _ _ _ _ _ _); [reflexivity|discriminate]. Qed.
Definition posted (h : handle) (x : nat -> Q) : solution :=
  match api_postsolve x (fun _ => 0) (fun _ => 0) h with Some h' => h_sol h' | None => blank end.
Definition isS {A} (o : option A) : bool := match o with Some _ => true | None => false end.
Lemma posted_some : forall h x, isS (api_postsolve x (fun _ => 0) (fun _ => 0) h) = true ->
  exists h', api_postsolve x (fun _ => 0) (fun _ => 0) h = Some h' /\ h_sol h' = posted h x.
Proof. unfold posted. intros h x. destruct (api_postsolve _ _ _ _) as [h'|]; [|discriminate]. intros _. exists h'. auto. Qed.
Definition xx (k : nat) : Q := match k with 1%nat => 1 | _ => 0 end.

Lemma again_bad : exists P r1 r2 x0 h1 h2 x1 y1 z1 x2 y2 z2,
  wf_input P /\ run P r1 /\ res_reduced r1 = true /\
  run_again default_settings (fun _ => true) (fun _ => false) 20 P (res_state r1) = Some r2 /\ res_reduced r2 = true /\
  optimal (reduced_lp (res_state r2)) x0 /\
  api_postsolve x0 (fun _ => 0) (fun _ => 0) (handle_of P (res_state r1) blank) = Some h1 /\
  solution_is P (h_sol h1) x1 y1 z1 /\ feasible (lp_of_input P) x1 /\
  api_postsolve x0 (fun _ => 0) (fun _ => 0) (handle_again P (res_state r1) (res_state r2) blank) = Some h2 /\
  solution_is P (h_sol h2) x2 y2 z2 /\ ~ feasible (lp_of_input P) x2.
Proof.
  destruct (posted_some (handle_of Px (res_state (outcome Px)) blank) xx) as [h1 [E1 F1]]; [vm_compute; reflexivity|].
  destruct (posted_some (handle_again Px (res_state (outcome Px)) (res_state (second Px)) blank) xx) as [h2 [E2 F2]]; [vm_compute; reflexivity|].
  exists Px, (outcome Px), (second Px), xx, h1, h2.
  exists (xs (h_sol h1)), (ys (h_sol h1)), (zs (h_sol h1)), (xs (h_sol h2)), (ys (h_sol h2)), (zs (h_sol h2)).
  split; [apply wfb_ok; vm_compute; reflexivity|].
  split; [apply run_outcome; vm_compute; reflexivity|].
  split; [vm_compute; reflexivity|].
  split; [apply second_run; vm_compute; reflexivity|].
  split; [vm_compute; reflexivity|].
  split.
  { split; [apply feasb_ok; vm_compute; reflexivity|].
    intros x' [R C].
    assert (Lr : lp_rows (reduced_lp (res_state (second Px))) = [c0; c1]) by (vm_compute; reflexivity).
    assert (Lc : lp_cols (reduced_lp (res_state (second Px))) = [c0; c1]) by (vm_compute; reflexivity).
    destruct (R c0) as [R0 _]; [rewrite Lr; left; reflexivity|].
    destruct (C c0) as [C0 _]; [rewrite Lc; left; reflexivity|].
    assert (A0 : lp_A (reduced_lp (res_state (second Px))) c0 = [(c0, 1); (c1, 2)]) by (vm_compute; reflexivity).
    assert (L0 : lp_lhs (reduced_lp (res_state (second Px))) c0 = Fin 2) by (vm_compute; reflexivity).
    assert (B0 : lp_lb (reduced_lp (res_state (second Px))) c0 = Fin 0) by (vm_compute; reflexivity).
    rewrite A0, L0 in R0. rewrite B0 in C0. cbn [dot ext_le] in R0, C0.
    assert (O : forall x, objective (reduced_lp (res_state (second Px))) x == 3 + (x c0 + x c1)).
    { intros x. unfold objective. rewrite Lc. cbn [sumQ].
      assert (Ea : lp_c (reduced_lp (res_state (second Px))) c0 = 1) by (vm_compute; reflexivity).
      assert (Eb : lp_c (reduced_lp (res_state (second Px))) c1 = 1) by (vm_compute; reflexivity).
      assert (Eo : lp_off (reduced_lp (res_state (second Px))) = 3) by (vm_compute; reflexivity).
      rewrite Ea, Eb, Eo. generalize (x c0) (x c1). intros. lra. }
    rewrite !O. cbn [xx]. clear - R0 C0. lra. }
  split; [exact E1|]. split; [apply completeb_ok; rewrite F1; vm_compute; reflexivity|].
  split; [rewrite F1; apply feasb_ok; vm_compute; reflexivity|].
  split; [exact E2|]. split; [apply completeb_ok; rewrite F2; vm_compute; reflexivity|].
  rewrite F2. apply feasb_no. vm_compute. reflexivity.
Qed.
