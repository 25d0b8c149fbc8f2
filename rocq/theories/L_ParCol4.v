(** The split of a merged pair of columns, and concrete cases. *)
From Coq Require Import NArith Lqa Lia Qabs.
From Verif Require Import M_Num S_LP M_Settings M_Driver S_Driver M_State M_Act M_Core M_Simple
  M_StonCols M_Dton M_Parallel M_Propagate M_Init M_Post M_Run S_Run S_Struct S_Sem S_Sem2 S_Sem4 S_Merge S_MergeCol
  L_State L_Struct L_Struct2 L_Struct5 L_Struct7 L_Struct11 L_Sem L_Sem2 L_Sem3 L_Sem4 L_Sem6 L_Sem9 L_Ston L_Mid L_Mid5 L_Mid6
  L_ParRow L_ParCol L_ParCol2 L_ParCol3 L_Reach L_Refute.
Import M_Driver.
Open Scope Q_scope.

Lemma split_arith : forall (lj uj lk uk pos : bool) lbj ubj lbk ubk q v,
  (if pos then 0 < q else q < 0) ->
  (lj = false -> uj = false -> lbj <= ubj) -> (lk = false -> uk = false -> lbk <= ubk) ->
  (* no infinity comes from k *)
  (lj = false -> (if pos then lk else uk) = false) -> (uj = false -> (if pos then uk else lk) = false) ->
  (lj = false -> lbj + (if pos then lbk else ubk) * q <= v) ->
  (uj = false -> v <= ubj + (if pos then ubk else lbk) * q) ->
  let xj0 := if negb lj then lbj else if negb uj then ubj else 0 in
  let xk0 := (v - xj0) / q in
  let '(p, w) := if negb lk && Qgeb lbk (xk0 + FEAS_TOL) then (v - q * lbk, lbk)
                 else if negb uk && Qgeb xk0 (ubk + FEAS_TOL) then (v - q * ubk, ubk)
                 else (xj0, xk0) in
  p + q * w == v /\ (lj = false -> lbj <= p) /\ (uj = false -> p <= ubj) /\
  (lk = false -> lbk <= w + FEAS_TOL) /\ (uk = false -> w - FEAS_TOL <= ubk).
Proof.
  intros lj uj lk uk pos lbj ubj lbk ubk q v SG NJ NK FL FU L U. cbv zeta.
  set (xj0 := if negb lj then lbj else if negb uj then ubj else 0).
  assert (NZ : ~ q == 0) by (destruct pos; lra).
  set (xk0 := (v - xj0) / q). assert (EK : q * xk0 == v - xj0) by (unfold xk0; field; auto).
  clearbody xk0. pose proof tol_pos as TP.
  assert (XJ : (lj = false -> lbj <= xj0) /\ (uj = false -> xj0 <= ubj)).
  { unfold xj0. destruct lj, uj; cbn [negb]; split; intros; try discriminate; try lra; auto. }
  destruct (negb lk && Qgeb lbk (xk0 + FEAS_TOL)) eqn:C1.
  - apply andb_true_iff in C1. destruct C1 as [C0 C1]. apply negb_true_iff in C0. qb.
    split; [lra|]. split; [|split; [|split]]; try (intros; lra).
    + intros A. specialize (L A). specialize (FL A). destruct pos.
      * lra.
      * (* q < 0: the value of j goes up *)
        assert (q * lbk <= q * xk0). { rewrite !(Qmult_comm q). apply mul_hi; auto. lra. }
        destruct XJ as [X _]. specialize (X A). lra.
    + intros A. specialize (U A). specialize (FU A). destruct pos.
      * assert (q * xk0 <= q * lbk). { rewrite !(Qmult_comm q). apply mul_lo; auto. lra. }
        destruct XJ as [_ X]. specialize (X A). lra.
      * lra.
    + intros B. specialize (NK C0 B). lra.
  - destruct (negb uk && Qgeb xk0 (ubk + FEAS_TOL)) eqn:C2.
    + apply andb_true_iff in C2. destruct C2 as [C0 C2]. apply negb_true_iff in C0. qb.
      split; [lra|]. split; [|split; [|split]]; try (intros; lra).
      * intros A. specialize (L A). destruct pos.
        -- assert (q * ubk <= q * xk0). { rewrite !(Qmult_comm q). apply mul_lo; auto. lra. }
           destruct XJ as [X _]. specialize (X A). lra.
        -- lra.
      * intros A. specialize (U A). destruct pos.
        -- lra.
        -- assert (q * xk0 <= q * ubk). { rewrite !(Qmult_comm q). apply mul_hi; auto. lra. }
           destruct XJ as [_ X]. specialize (X A). lra.
      * intros B. specialize (NK B C0). lra.
    + split; [lra|]. split; [apply XJ|]. split; [apply XJ|]. split; intros A; rewrite A in *; cbn [negb andb] in *; qb; lra.
Qed.

Theorem split_sem : forall stgs fits P s j k q v r sol t, wf_input P -> reached stgs fits P s ->
  In j (lp_cols (reduced_lp s)) -> In k (lp_cols (reduced_lp s)) -> j <> k -> ~ q == 0 -> not_crossed (reduced_lp s) ->
  t = merge_cols j k q s -> (lb t j = NInf -> lb s j = NInf) -> (ub t j = PInf -> ub s j = PInf) ->
  log t = r :: log s -> sx sol j = Some v -> ext_le (lb t j) v -> le_ext v (ub t j) ->
  exists p w, sx (retrieve_one r sol) j = Some p /\ sx (retrieve_one r sol) k = Some w /\ p + q * w == v /\
    within 0 (lb s j) p (ub s j) /\ within FEAS_TOL (lb s k) w (ub s k).
Proof.
  intros stgs fits P s j k q v r sol t WF RC Hj Hk D NZ [_ NC] Et NL NU EL EV LV UV.
  destruct (reached_ok stgs fits P s WF RC) as [OK M]. assert (TG := md_tags s M).
  assert (NCj := NC j Hj). assert (NCk := NC k Hk). cbn [lp_lb lp_ub reduced_lp] in NCj, NCk.
  apply col_live in Hj, Hk; auto. destruct Hj as [Hj Tj]. destruct Hk as [Hk Tk].
  pose proof (tr_lb s TG j Hj Tj) as Lj. pose proof (tr_ub s TG j Hj Tj) as Uj.
  pose proof (tr_lb s TG k Hk Tk) as Lk. pose proof (tr_ub s TG k Hk Tk) as Uk.
  set (l := t_lb_inf (ct s j) || (if Qgtb q 0 then t_lb_inf (ct s k) else t_ub_inf (ct s k))).
  set (u := t_ub_inf (ct s j) || (if Qgtb q 0 then t_ub_inf (ct s k) else t_lb_inf (ct s k))).
  assert (ER : r = PARALLEL_COL j k (CT l u (t_fixed (ct s j)) (t_sub (ct s j))) (tag_sub (ct s k)) (lb s j) (ub s j) (lb s k) (ub s k) q /\
     lb t j = (if l then NInf else Fin (fin (lb s j) + fin (if Qgtb q 0 then lb s k else ub s k) * q)) /\
     ub t j = (if u then PInf else Fin (fin (ub s j) + fin (if Qgtb q 0 then ub s k else lb s k) * q))).
  { subst t. unfold merge_cols in *. unfold l, u.
    destruct (Qgtb q 0); cbv zeta in *; unfold set_col_to_substituted in *; sra; injection EL as <-;
      rewrite !(upd_other _ _ k j), !upd_same, !(upd_other _ _ j k) by auto; auto. }
  destruct ER as [-> [ELB EUB]]. rewrite ELB in NL, LV. rewrite EUB in NU, UV. clear ELB EUB EL Et t.
  assert (El : l = t_lb_inf (ct s j)).
  { destruct l eqn:E; [|unfold l in E; apply orb_false_iff in E; symmetry; apply E]. rewrite (NL eq_refl) in Lj.
    destruct (t_lb_inf (ct s j)); auto; discriminate. }
  assert (Eu : u = t_ub_inf (ct s j)).
  { destruct u eqn:E; [|unfold u in E; apply orb_false_iff in E; symmetry; apply E]. rewrite (NU eq_refl) in Uj.
    destruct (t_ub_inf (ct s j)); auto; discriminate. }
  cbn [retrieve_one]. unfold retrieve_parallel_col. rewrite EV. cbn [val].
  pose proof (split_arith (t_lb_inf (ct s j)) (t_ub_inf (ct s j)) (t_lb_inf (ct s k)) (t_ub_inf (ct s k)) (Qgtb q 0)
    (fin (lb s j)) (fin (ub s j)) (fin (lb s k)) (fin (ub s k)) q v) as X. cbv zeta in X.
  rewrite El, Eu. cbn [t_lb_inf t_ub_inf tag_sub].
  destruct (if negb (t_lb_inf (ct s k)) && _ then _ else _) as [p w]. cbn [fst snd] in X.
  destruct X as [X1 [X2 [X3 [X4 X5]]]].
  - destruct (Qgtb q 0) eqn:G; qb; auto. destruct (Qlt_le_dec q 0); auto. exfalso. apply NZ. lra.
  - intros A B. rewrite A in Lj. rewrite B in Uj. destruct (lb s j), (ub s j); try discriminate. exact NCj.
  - intros A B. rewrite A in Lk. rewrite B in Uk. destruct (lb s k), (ub s k); try discriminate. exact NCk.
  - intros A. rewrite A in El. unfold l in El. apply orb_false_iff in El. apply El.
  - intros A. rewrite A in Eu. unfold u in Eu. apply orb_false_iff in Eu. apply Eu.
  - intros A. rewrite El, A in LV. destruct (Qgtb q 0); exact LV.
  - intros A. rewrite Eu, A in UV. destruct (Qgtb q 0); exact UV.
  - exists p, w. unfold put_z, put_x, err_if. cbn [sx]. rewrite upd_same, upd_other, upd_same by auto.
    split; auto. split; auto. split; auto. split.
    + apply inb_within; auto. split; auto.
    + split.
      * destruct (t_lb_inf (ct s k)); [rewrite Lk; exact I|]. apply ext_le_fin; auto.
      * destruct (t_ub_inf (ct s k)); [rewrite Uk; exact I|]. apply le_ext_fin; auto.
Qed.

(** ** Concrete cases *)
Definition ratiob (P : LP) (q : Q) (j k : nat) : bool :=
  forallb (fun i => Qeqb (coeff (lp_A P i) j) (q * coeff (lp_A P i) k)) (lp_rows P).
Definition nearb (P : LP) (q : Q) (j k : nat) : bool :=
  forallb (fun i => IS_ZERO_FEAS_TOL (coeff (lp_A P i) j - q * coeff (lp_A P i) k)) (lp_rows P).
Definition pairb (P : LP) (i j k : nat) : bool :=
  let a := coeff (lp_A P i) j in let b := coeff (lp_A P i) k in let q := a / b in
  Nat.eqb j k || Qeqb b 0 ||
  ((negb (nearb P q j k) || ratiob P q j k) &&
   (negb (ratiob P q j k) || negb (IS_ZERO_FEAS_TOL (lp_c P j * b - lp_c P k * a)) || Qeqb (lp_c P j * b) (lp_c P k * a))).
Definition clearcb (P : LP) : bool :=
  forallb (fun i => forallb (fun j => forallb (fun k => pairb P i j k) (lp_cols P)) (lp_cols P)) (lp_rows P).
Lemma ratiob_of : forall P q j k, col_ratio P q j k -> ratiob P q j k = true.
Proof.
  intros P q j k C. apply forallb_forall. intros i Hi. specialize (C i Hi).
  destruct (Qeqb (coeff (lp_A P i) j) (q * coeff (lp_A P i) k)) eqn:E; auto. qb. contradiction.
Qed.
Lemma zero_of : forall v, Qabs v <= FEAS_TOL -> IS_ZERO_FEAS_TOL v = true.
Proof.
  intros v H. apply Qabs_Qle_condition in H. apply absq_le in H. unfold IS_ZERO_FEAS_TOL.
  destruct (Qleb (ABSq v) FEAS_TOL) eqn:E; auto. qb. exfalso. lra.
Qed.
Lemma nearb_of : forall P q j k, nearly_col_ratio P q j k -> nearb P q j k = true.
Proof. intros P q j k C. apply forallb_forall. intros i Hi. apply zero_of. apply (C i Hi). Qed.
Lemma clearcb_ok : forall P, clearcb P = true -> clear_cut_cols P.
Proof.
  intros P H.
  assert (X : forall i j k, In i (lp_rows P) -> In j (lp_cols P) -> In k (lp_cols P) -> pairb P i j k = true).
  { intros i j k Hi Hj Hk. unfold clearcb in H. rewrite forallb_forall in H. specialize (H i Hi). cbv beta in H.
    rewrite forallb_forall in H. specialize (H j Hj). cbv beta in H. rewrite forallb_forall in H. apply (H k Hk). }
  constructor; intros i j k Hi Hj Hk N NZ q; specialize (X i j k Hi Hj Hk); unfold pairb in X; cbv zeta in X; fold q in X;
    apply orb_true_iff in X; (destruct X as [X|X]; [apply orb_true_iff in X; destruct X as [X|X]; [apply Nat.eqb_eq in X; contradiction|qb; contradiction]|]);
    apply andb_true_iff in X; destruct X as [X1 X2].
  - intros C. rewrite (nearb_of _ _ _ _ C) in X1. cbn in X1. intros i' Hi'. unfold ratiob in X1. rewrite forallb_forall in X1.
    specialize (X1 i' Hi'). qb. auto.
  - intros C Z. rewrite (ratiob_of _ _ _ _ C), (zero_of _ Z) in X2. cbn in X2. qb. auto.
Qed.
Definition usedb (P : LP) : bool :=
  forallb (fun k => existsb (fun i => negb (Qeqb (coeff (lp_A P i) k) 0)) (lp_rows P)) (lp_cols P).
Lemma usedb_ok : forall P, usedb P = true -> all_used P.
Proof.
  intros P H k Hk. unfold usedb in H. rewrite forallb_forall in H. specialize (H k Hk). apply existsb_exists in H.
  destruct H as [i [Hi E]]. exists i. split; auto. apply negb_true_iff in E. qb. auto.
Qed.
Definition aboveb (l u : ext) : bool := match l, u with Fin p, Fin q => Qleb p q | _, _ => true end.
Definition crossb (P : LP) : bool :=
  forallb (fun i => aboveb (lp_lhs P i) (lp_rhs P i)) (lp_rows P) && forallb (fun k => aboveb (lp_lb P k) (lp_ub P k)) (lp_cols P).
Lemma crossb_ok : forall P, crossb P = true -> not_crossed P.
Proof.
  intros P H. apply andb_true_iff in H. destruct H as [A B]. rewrite forallb_forall in A, B.
  assert (X : forall l u, aboveb l u = true -> not_above l u) by (intros [| |] [| |]; cbn; auto; intros; qb; auto).
  split; intros i Hi; apply X; [apply A|apply B]; auto.
Qed.

(** Columns 0, 1 merge (ratio -2, proportional costs), column 2 (parallel to 3, dearer) is fixed at
    its lower bound, 3 and 4 stay *)
Definition mc : input :=
  prob [[(0%nat, 1); (1%nat, -(2)); (2%nat, 1); (3%nat, 1)]; [(0%nat, 2); (1%nat, -(4)); (4%nat, 1)];
        [(2%nat, 3); (3%nat, 3); (4%nat, 1)]]
       [Fin 1; NInf; Fin 2] [Fin 8; Fin 9; PInf]
       [Fin 0; Fin (-(1)); Fin 1; Fin 0; Fin 0] [Fin 5; Fin 3; Fin 7; PInf; Fin 4] [1; -(2); 5; 3; 1].
Definition mc_x (k : nat) : Q := match k with O => 2 | 1%nat => 1 | 2%nat => 2 | 3%nat => 1 | _ => 1 end.
Lemma mc_case : let s := new_presolver mc in let s' := fst (remove_parallel_cols s) in
  wf_input mc /\ reached default_settings (fun _ => true) mc s /\ w_ston_rows s = [] /\
  not_crossed (reduced_lp s) /\ all_used (reduced_lp s) /\ clear_cut_cols (reduced_lp s) /\
  snd (remove_parallel_cols s) = UNCHANGED /\
  live_cols s = [0%nat; 1%nat; 2%nat; 3%nat; 4%nat] /\ live_cols s' = [1%nat; 3%nat; 4%nat] /\
  feasible (reduced_lp s) mc_x.
Proof.
  cbv zeta. split; [apply wfb_ok; vm_compute; reflexivity|].
  split; [apply rc_start|]. split; [vm_compute; reflexivity|].
  split; [apply crossb_ok; vm_compute; reflexivity|]. split; [apply usedb_ok; vm_compute; reflexivity|].
  split; [apply clearcb_ok; vm_compute; reflexivity|]. split; [vm_compute; reflexivity|]. split; [vm_compute; reflexivity|].
  split; [vm_compute; reflexivity|]. apply feasb_ok; vm_compute; reflexivity.
Qed.
(** x1 + x2 + x0 with x1 dearer than x2, x1 without lower bound and x2 without upper bound *)
Definition uc : input :=
  prob [[(0%nat, 1); (1%nat, 1); (2%nat, 1)]; [(0%nat, 1); (1%nat, 2); (2%nat, 2)]] [Fin 1; NInf] [Fin 4; Fin 6]
       [Fin 0; NInf; Fin 0] [Fin 5; Fin 3; PInf] [1; 3; 2].
Lemma uc_case : let s := new_presolver uc in
  wf_input uc /\ reached default_settings (fun _ => true) uc s /\ w_ston_rows s = [] /\
  not_crossed (reduced_lp s) /\ all_used (reduced_lp s) /\ clear_cut_cols (reduced_lp s) /\
  snd (remove_parallel_cols s) = UNBNDORINFEAS /\ feasible (reduced_lp s) (fun k => match k with O => 1 | 1%nat => 1 | _ => 0 end).
Proof.
  cbv zeta. split; [apply wfb_ok; vm_compute; reflexivity|].
  split; [apply rc_start|]. split; [vm_compute; reflexivity|].
  split; [apply crossb_ok; vm_compute; reflexivity|]. split; [apply usedb_ok; vm_compute; reflexivity|].
  split; [apply clearcb_ok; vm_compute; reflexivity|]. split; [vm_compute; reflexivity|].
  apply feasb_ok; vm_compute; reflexivity.
Qed.
(** The split of a merged value: 0 and 1 of [mc] as the code merges them *)
Definition mc_rec := match log (merge_cols 0 1 (-(2)) (new_presolver mc)) with r :: _ => r | [] => EQ_TO_INEQ 0 0 end.
Lemma mc_split : let s := new_presolver mc in let t := merge_cols 0 1 (-(2)) s in
  (lb t 0%nat = NInf -> lb s 0%nat = NInf) /\ (ub t 0%nat = PInf -> ub s 0%nat = PInf) /\
  log t = mc_rec :: log s /\ ext_le (lb t 0%nat) (-(5)) /\ le_ext (-(5)) (ub t 0%nat) /\
  let sol := retrieve_one mc_rec (mkSol (fun k => if Nat.eqb k 1 then None else Some (-(5))) (fun _ => Some 0) (fun _ => Some 0) false) in
  option_map Qred (sx sol 0%nat) = Some 0 /\ option_map Qred (sx sol 1%nat) = Some (5 # 2).
Proof.
  cbv zeta. split; [vm_compute; discriminate|]. split; [vm_compute; discriminate|].
  split; [vm_compute; reflexivity|]. split; [vm_compute; discriminate|]. split; [vm_compute; discriminate|].
  split; vm_compute; reflexivity.
Qed.
