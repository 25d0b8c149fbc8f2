(** The objective value of whole runs (C21). *)
From Coq Require Import NArith Lqa.
From Verif Require Import M_Num S_LP M_Settings M_Driver S_Driver M_State M_Act M_Core M_Simple
  M_StonCols M_Dton M_Parallel M_Propagate M_Init M_Post M_Log M_Run S_Run S_Struct S_Sem S_Sem2 S_Sem3 S_Sem4 S_Log S_Post
  L_State L_Struct L_Struct2 L_Struct3 L_Struct4 L_Struct5 L_Struct6 L_Struct7 L_Struct8 L_Struct9 L_Struct10 L_Struct11
  L_Sem L_Sem2 L_Mid L_Act L_Reach L_Post L_Post2 L_Post4 L_Post5 L_Post6 L_Post7 L_Obj L_Obj2 L_Obj3 L_Log.
Import M_Driver.
Notation bad := M_State.bad.
Open Scope Q_scope.

(** ** Replaying the log *)
Definition vx (t : solution) (k : nat) : Q := val (sx t k).
Lemma wsum_dot : forall f l, ysum f l = dot l (fun k => val (f k)).
Proof. induction l as [|[i a] l IH]; cbn [M_Post.wsum dot]; auto. rewrite IH. reflexivity. Qed.
Lemma added_rows_x : forall i a l t, sx (retrieve_added_rows i l a t) = sx t.
Proof.
  intros i a l t. unfold retrieve_added_rows. set (t0 := err_if _ t). change (sx t) with (sx t0). clearbody t0. revert t0.
  induction l as [|e l IH]; intros t0; cbn [fold_left]; auto. rewrite IH. destruct (Nat.eqb _ _); reflexivity.
Qed.
Lemma bound_change_x : forall i j r v o l t, sx (retrieve_bound_change i j r v o l t) = sx t.
Proof.
  intros. unfold retrieve_bound_change. destruct (_ && _); [reflexivity|]. destruct (negb _); [reflexivity|].
  cbn [put_z sx]. set (t0 := put_y i _ _). change (sx t) with (sx t0). clearbody t0. revert t0.
  generalize (first_of j 1 r) (val (sz t j)). intros d z.
  induction r as [|e r IH]; intros t0; cbn [fold_left]; auto. rewrite IH.
  destruct (Nat.eqb _ _); [reflexivity|]. destruct (negb _); reflexivity.
Qed.
Lemma side_change_x : forall b i r v j q t, sx (retrieve_side_change b i r v j q t) = sx t.
Proof. intros. unfold retrieve_side_change. destruct (negb _); [reflexivity|]. destruct (if b then _ else _); reflexivity. Qed.
Lemma upd_same_but : forall f k (v : Q), same_but k (fun j => val (f j)) (fun j => val (upd f k (Some v) j)).
Proof. intros f k v j N. rewrite upd_other by auto. lra. Qed.
Lemma one_rep1 : forall r t, rep1 r (vx t) (vx (retrieve_one r t)).
Proof.
  intros r t. destruct r; cbn [rep1 retrieve_one]; unfold vx.
  - unfold retrieve_fix_col. cbn [put_z put_x err_if sx]. split; [rewrite upd_same; cbn; lra|apply upd_same_but].
  - unfold retrieve_fix_col_inf. destruct (fold_left _ _ _) as [[ex c] er]. cbn [put_z put_x err_if sx]. apply upd_same_but.
  - unfold retrieve_sub_col. cbn [put_z put_x err_if sx]. split; [rewrite upd_same; cbn [val]; rewrite wsum_dot; lra|apply upd_same_but].
  - exact I.
  - intros q; cbn; lra.
  - intros q; cbn; lra.
  - intros q; rewrite added_rows_x; lra.
  - intros q; lra.
  - intros q; lra.
  - intros q; rewrite side_change_x; lra.
  - intros q; rewrite side_change_x; lra.
  - intros q; cbn; lra.
Qed.
Lemma replay_rep : forall l i r n t, grouped n l -> rep l (vx t) (vx (replay (gr i r n) l t)).
Proof.
  induction l as [|rc l IH]; intros i r n t G.
  - cbn in G. subst n. cbn. intros j. lra.
  - destruct n as [|n].
    + cbn [gr replay]. destruct rc; try (eexists; split; [apply one_rep1|]; apply (IH i r O _ G)).
      cbn [grouped] in G. exists (vx t). split; [intros j; cbn; lra|].
      apply (IH _ _ _ t G).
    + cbn [gr replay]. destruct rc; cbn [grouped] in G; try contradiction.
      * eexists. split; [|apply (IH i r (S n) _ G)].
        match goal with |- rep1 (FIXED_COL ?a ?b ?c ?d) _ _ => apply (one_rep1 (FIXED_COL a b c d)) end.
      * assert (EG : match n with O => None | S n' => Some (i, r, S n') end = gr i r n) by (destruct n; reflexivity).
        rewrite EG. eexists. split; [|apply (IH i r n _ G)].
        intros q. unfold vx. rewrite bound_change_x. lra.
Qed.

(** ** Runs *)
Lemma sumQ_filter : forall (p : nat -> bool) f l, sumQ (filter p l) f == sumQ l (fun k => if p k then f k else 0).
Proof. induction l as [|k l IH]; cbn [filter sumQ]; [lra|]. destruct (p k); cbn [sumQ]; rewrite IH; lra. Qed.
Lemma pobj_reduced : forall s x, Ok s -> pobj s x == objective (reduced_lp s) x.
Proof.
  intros s x [H [Q1 Q2 Q3] N]. unfold pobj, objective. cbn [reduced_lp lp_off lp_cols lp_c]. rewrite Q2. cbn [sumQ].
  unfold live_cols. rewrite sumQ_filter. rewrite (sumQ_ext (seq 0 (nc s)) (aterm s x) (fun k => if negb (Z.eqb (csz s k) (-1)) then cst s k * x k else 0)); [lra|].
  intros k Hk. apply in_seq in Hk. unfold aterm. pose proof (quiet_col s k H Q2 Q3 ltac:(lia)) as Q.
  destruct (Z.eqb_spec (csz s k) (-1)) as [E|E]; cbn [negb].
  - destruct (t_cinact (ct s k)) eqn:T; [lra|]. exfalso. apply Q; auto.
  - rewrite (proj1 Q E). lra.
Qed.
Lemma J_start : forall P, wf_input P -> J (objective (lp_of_input P)) (new_presolver P).
Proof.
  intros P WF _. destruct (init_fields P) as (NR & NC & MA & CS & OF & LG & RTG & CTG & LB & UB & LH & RH & W).
  split; [|split; [|split]].
  - intros k Hk T. rewrite init_cols_active in T. discriminate.
  - rewrite W. contradiction.
  - rewrite W. contradiction.
  - rewrite LG. intros x x' R. cbn [rep] in R. unfold pobj, objective. rewrite W, OF, NC. cbn [lp_of_input lp_off lp_cols lp_c sumQ].
    rewrite (sumQ_ext (seq 0 (in_n P)) (fun j => in_c P j * x' j) (aterm (new_presolver P) x)); [lra|].
    intros k _. unfold aterm. rewrite init_cols_active, CS, R. lra.
Qed.
Lemma common_J : forall ob stgs f s s' st, Ok s -> Mid s -> AV RT s ->
  In f (common_steps stgs) -> f s = (s', st) -> J ob s -> J ob s'.
Proof.
  intros ob stgs f s s' st OK M A IN E K.
  pose proof (ok_inv s OK) as H. pose proof (ok_quiet s OK) as [Q1 Q2 Q3]. assert (QQ : quiet s) by (constructor; auto).
  assert (X : J ob (fst (f s))); [|rewrite E in X; exact X]. clear E.
  unfold common_steps in IN. rewrite !in_app_iff in IN. destruct IN as [IN|[IN|[IN|IN]]].
  - destruct IN as [<-|[<-|[<-|[<-|[]]]]].
    + apply J_close_bounds; auto.
    + apply J_empty_cols; auto.
    + apply J_ston_rows; auto.
    + apply J_empty_rows; auto.
  - destruct (dual_fix_on stgs); [|contradiction]. destruct IN as [<-|[]]. apply J_dual_fix; auto.
  - destruct (ston_cols_on stgs); [|contradiction]. destruct IN as [<-|[]]. apply J_ston_cols; auto.
  - destruct (primal_propagation_on stgs); [|contradiction]. destruct IN as [<-|[<-|[]]].
    + apply J_check_acts; auto.
    + apply J_propagate; auto.
Qed.
Lemma reached_J : forall stgs fits P s, wf_input P -> coefficients_kept stgs -> reached stgs fits P s ->
  J (objective (lp_of_input P)) s.
Proof.
  intros stgs fits P s WF CK R.
  induction R as [|f s s' st IN R IH E NT|s s' st ON C R IH E NT|s s' st ON C R IH E NT|s s' st ON R IH E NT TN].
  - apply J_start; auto.
  - destruct (reached_ok stgs fits P s WF R) as [OK M].
    destruct (reached_Back False stgs fits P s WF CK (fun _ f => f) R) as [_ A].
    apply (common_J _ stgs f s s' st OK M A IN E IH).
  - pose proof (J_par_rows (objective (lp_of_input P)) s IH) as X. rewrite E in X. exact X.
  - destruct CK; congruence.
  - destruct CK; congruence.
Qed.
Lemma removed_range : forall n m l, Forall (in_range n m) l -> forall k, In k (removed_cols l) -> (k < n)%nat.
Proof.
  intros n m l F k Hk. unfold removed_cols in Hk. apply in_flat_map in Hk. destruct Hk as [r [Hr Hk]].
  rewrite Forall_forall in F. specialize (F r Hr). destruct r; cbn in Hk; try contradiction;
  (destruct Hk as [<-|[]]; cbn in F; tauto).
Qed.
Lemma reached_objective : forall stgs fits P s x y z, wf_input P -> coefficients_kept stgs -> reached stgs fits P s ->
  NoDup (removed_cols (log s)) ->
  objective (lp_of_input P) (vx (postsolve_state s x y z)) == objective (reduced_lp s) x.
Proof.
  intros stgs fits P s x y z WF CK R ND.
  destruct (reached_log stgs fits P s WF CK R) as (NR & NC & RG & GR).
  destruct (reached_ok stgs fits P s WF R) as [OK _].
  destruct (reached_J stgs fits P s WF CK R) as (_ & _ & _ & I4).
  { split; auto. rewrite NC. apply (removed_range _ _ _ RG). }
  rewrite (I4 (vx (start_sol s x y z))).
  - rewrite <- (pobj_reduced s x OK). apply pobj_ext. intros k Hk T.
    unfold vx, start_sol, copy_reduced_sol, keep_map. cbn [sx].
    pose proof (cact_alive s k (inv_0 s (ok_inv s OK)) Hk T) as A.
    destruct (Z.eqb_spec (csz s k) (-1)); [contradiction|]. cbn; lra.
  - apply (replay_rep (log s) O [] O (start_sol s x y z) GR).
Qed.
Lemma run_objective : forall stgs fits clock fuel P r, wf_input P -> coefficients_kept stgs ->
  run_presolver stgs fits clock fuel P = Some r -> res_reduced r = true ->
  NoDup (removed_cols (log (res_state r))) ->
  forall x y z x' y' z', solution_is P (postsolve_state (res_state r) x y z) x' y' z' ->
  objective (lp_of_input P) x' == objective (reduced_lp (res_state r)) x.
Proof.
  intros stgs fits clock fuel P r WF CK H Hr ND x y z x' y' z' [_ [SX _]].
  destruct (run_reached _ _ _ _ _ _ WF (proj1 CK) H Hr) as [s [R [L [LG E]]]]. rewrite E in SX. rewrite L. rewrite LG in ND.
  rewrite <- (reached_objective stgs fits P s x y z WF CK R ND).
  unfold objective. cbn [lp_of_input lp_off lp_cols lp_c].
  rewrite (sumQ_ext (seq 0 (in_n P)) (fun j => in_c P j * x' j) (fun j => in_c P j * vx (postsolve_state s x y z) j)); [lra|].
  intros k Hk. apply in_seq in Hk. destruct (SX k ltac:(lia)) as [EX _]. unfold vx. rewrite EX. cbn. lra.
Qed.
(** The log of a run is well formed *)
Lemma run_log : forall stgs fits clock fuel P r, wf_input P -> coefficients_kept stgs ->
  run_presolver stgs fits clock fuel P = Some r -> res_reduced r = true ->
  Forall (in_range (in_n P) (in_m P)) (log (res_state r)) /\ grouped 0 (log (res_state r)).
Proof.
  intros stgs fits clock fuel P r WF CK H Hr.
  destruct (run_reached _ _ _ _ _ _ WF (proj1 CK) H Hr) as [s [R [L [LG E]]]]. rewrite LG.
  destruct (reached_log stgs fits P s WF CK R) as (_ & _ & A & B). auto.
Qed.

(** ** Postsolve through the API *)
Lemma idx_not : forall keep k, keep k = true -> Z.eqb (index_map keep k) (-1) = false.
Proof. intros keep k H. unfold index_map. rewrite H. apply Z.eqb_neq. lia. Qed.
Lemma idx_nat : forall keep k, keep k = true -> Z.to_nat (index_map keep k) = rank keep k.
Proof. intros keep k H. unfold index_map. rewrite H. apply Nat2Z.id. Qed.
Lemma place_start : forall P s x y z old,
  same_sol (in_n P) (in_m P) (place (in_n P) (in_m P) (index_map (kept_col s)) (index_map (kept_row s)) x y z old)
    (start_sol s (fun k => x (rank (kept_col s) k)) (fun i => y (rank (kept_row s) i)) (fun k => z (rank (kept_col s) k))).
Proof.
  intros P s x y z old. destruct (placed_place (in_n P) (in_m P) (index_map (kept_col s)) (index_map (kept_row s)) x y z old) as (A & B & C & D).
  assert (E : forall keep v k, (if Z.eqb (index_map keep k) (-1) then None else Some (v (Z.to_nat (index_map keep k)))) =
     match keep_map keep k with Some j => Some (v (rank keep j) : Q) | None => None end).
  { intros keep v k. unfold keep_map. destruct (keep k) eqn:K; [rewrite idx_not, idx_nat; auto|]. unfold index_map. rewrite K. reflexivity. }
  split; [|split].
  - intros k Hk. rewrite (A k Hk), (C k Hk), !E. split; reflexivity.
  - intros i Hi. rewrite (B i Hi), E. reflexivity.
  - exact D.
Qed.
Lemma run_api : forall stgs fits clock fuel P r, wf_input P -> coefficients_kept stgs ->
  run_presolver stgs fits clock fuel P = Some r -> res_reduced r = true ->
  forall old x y z, exists h, api_postsolve x y z (handle_of P (res_state r) old) = Some h /\
    same_sol (in_n P) (in_m P) (h_sol h)
      (postsolve_state (res_state r) (fun k => x (rank (kept_col (res_state r)) k)) (fun i => y (rank (kept_row (res_state r)) i))
                       (fun k => z (rank (kept_col (res_state r)) k))).
Proof.
  intros stgs fits clock fuel P r WF CK H Hr old x y z. destruct (run_log _ _ _ _ _ _ WF CK H Hr) as [RG GR].
  set (s := res_state r) in *. unfold api_postsolve. cbn [handle_of h_log h_cols h_rows h_cmap h_rmap h_sol].
  rewrite run_same by exact GR. eexists. split; [reflexivity|]. cbn [h_sol].
  unfold postsolve_state, postsolve. apply same_replay; [exact RG|exact I|]. apply place_start.
Qed.
