(** Doubleton equality rows: the explorer. *)
From Coq Require Import NArith Lqa Lia Qabs.
From Verif Require Import M_Num S_LP M_Settings M_Driver S_Driver M_State M_Act M_Core M_Simple
  M_StonCols M_Dton M_Parallel M_Propagate M_Init M_Post M_Run S_Run S_Struct S_Sem S_Sem4 S_Dton
  L_State L_Struct L_Struct2 L_Struct3 L_Struct4 L_Struct5 L_Struct6 L_Struct7 L_Struct8 L_Tiny L_Struct9 L_Struct10 L_Struct11
  L_Sem L_Sem2 L_Sem3 L_Sem4 L_Sem5 L_Mid L_Mid2 L_Mid3 L_Mid4 L_Mid5 L_Mid7 L_Reach L_ParCol3 L_Dton L_Dton2 L_NoTiny L_Init L_Refute.
Import M_Driver.
Notation bad := M_State.bad.
Open Scope Q_scope.

Definition grown (m : nat) (B : Q) : Q := Nat.iter m grow B.
Lemma grown_pos : forall m B, 0 <= B -> 0 <= grown m B.
Proof.
  induction m as [|m IH]; intros B H; [exact H|]. change (0 <= grow (grown m B)).
  pose proof (grow_le _ (IH B H)). specialize (IH B H). lra.
Qed.
Lemma grown_drift : forall m, grown m 0 = drift m.
Proof. induction m as [|m IH]; [reflexivity|]. change (grow (grown m 0) = drift (S m)). rewrite IH. reflexivity. Qed.
Lemma grown_add : forall a b B, grown (a + b) B = grown a (grown b B).
Proof. induction a as [|a IH]; intros b B; [reflexivity|]. change (grow (grown (a + b) B) = grow (grown a (grown b B))). rewrite IH. reflexivity. Qed.

Record chain (m : nat) (s t : state) : Prop := {
  ch_nc : nc t = nc s;
  ch_fwd : forall x, sat zero zero s x -> sat zero zero t x /\ obj t x == obj s x;
  ch_bwd : some_feasible (fun _ => True) s -> forall B y, 0 <= B -> sat zero (upto B) t y ->
    exists x, (forall c, (c < nc t)%nat -> t_cinact (ct t c) = false -> x c == y c) /\
      sat zero (upto (grown m B)) s x /\ obj s x == obj t y;
  ch_ct : forall c, t_cinact (ct s c) = true -> t_cinact (ct t c) = true;
  ch_len : (length (live_cols t) + m = length (live_cols s))%nat }.
Lemma chain_same : forall s t, nr t = nr s -> nc t = nc s -> mA t = mA s -> lhs t = lhs s -> rhs t = rhs s -> rt t = rt s ->
  ct t = ct s -> lb t = lb s -> ub t = ub s -> w_fixed t = w_fixed s -> w_sub t = w_sub s -> csz t = csz s -> cst t = cst s -> off t = off s ->
  chain 0 s t.
Proof.
  intros s t E1 E2 E3 E4 E5 E6 E7 E8 E9 E10 E11 E12 E13 E14.
  assert (S : forall r c x, sat r c t x <-> sat r c s x) by (intros; apply sat_same_rows; auto).
  assert (O : forall x, obj t x == obj s x) by (intros; unfold obj, live_cols; rewrite E2, E12, E13, E14; reflexivity).
  constructor; auto.
  - intros x X. split; [apply S; auto|apply O].
  - intros _ B y HB Y. exists y. split; [intros; reflexivity|]. split; [apply S; auto|symmetry; apply O].
  - intros c. rewrite E7. auto.
  - unfold live_cols. rewrite E2, E12. lia.
Qed.
Lemma chain_refl : forall s, chain 0 s s.
Proof. intros. apply chain_same; reflexivity. Qed.
Lemma chain_step : forall s t, sub_step s t -> chain 1 s t.
Proof.
  intros s t [A1 A2 A3 A4 [k [K1 K2]]]. constructor; auto. rewrite K2.
  pose proof (live_cols_nd s) as ND. revert K1 ND. generalize (live_cols s). clear.
  induction l as [|c l IH]; intros K ND; [destruct K|]. inversion ND; subst. cbn [filter].
  destruct (Nat.eqb_spec c k) as [->|D]; cbn [negb length].
  - rewrite filter_all; [lia|]. intros x Hx. apply negb_true_iff, Nat.eqb_neq. congruence.
  - destruct K as [K|K]; [congruence|]. specialize (IH K H2). lia.
Qed.
Lemma chain_trans : forall a b s t u, chain a s t -> chain b t u -> chain (a + b) s u.
Proof.
  intros a b s t u [A1 A2 A3 A4 A5] [B1 B2 B3 B4 B5]. constructor; try congruence; auto; try lia.
  - intros x X. destruct (A2 x X) as [Y1 Y2]. destruct (B2 x Y1) as [Z1 Z2]. split; auto. lra.
  - intros [x0 [_ F0]] B y HB Y.
    assert (Ft : some_feasible (fun _ => True) t) by (exists x0; split; auto; apply A2; auto).
    destruct (B3 Ft B y HB Y) as (z&Z1&Z2&Z3).
    destruct (A3 ltac:(exists x0; auto) (grown b B) z (grown_pos b B HB) Z2) as (x&X1&X2&X3).
    exists x. rewrite grown_add. split; [|split; [exact X2|lra]].
    intros c Hc Tc. rewrite X1, Z1; auto; [reflexivity|rewrite <- B1; auto|].
    destruct (t_cinact (ct t c)) eqn:E; auto. apply B4 in E. congruence.
Qed.

Lemma dton_fold_chain : forall fits l s nd st, Ok s -> Mid s -> tiny s = false -> ndok s l -> ndok s nd ->
  along_rows fits good l (s, nd, st) ->
  let '(s', nd', st') := fold_left (dton_row fits) l (s, nd, st) in
  Ok s' /\ Mid s' /\ tiny s' = false /\ exists m, chain m s s'.
Proof.
  induction l as [|i l IH]; intros s nd st OK M HT NL NO GD; cbn [fold_left].
  - split; [auto|]. split; [auto|]. split; [auto|]. exists 0%nat. apply chain_refl.
  - cbn [along_rows fst] in GD. destruct GD as [G1 G2]. destruct (NL i (or_introl eq_refl)) as [Hi Ri].
    assert (PN : pend1 s). { intros p Hp. rewrite (q_rows _ (ok_quiet s OK)) in Hp. destruct Hp. }
    pose proof (dton_row_spec fits s nd st i (ok_inv s OK) PN Hi Ri NO) as P.
    pose proof (dton_row_step fits s nd st i OK M HT Hi Ri NO G1) as Q.
    destruct (dton_row fits (s, nd, st) i) as [[s1 nd1] st1].
    destruct Q as (O1&M1&T1&C1). destruct (P T1) as (_&F1&N1&_).
    assert (NL1 : ndok s1 l). { eapply ndok_fr; [exact F1|]. intros p Hp. apply NL. right; auto. }
    specialize (IH s1 nd1 st1 O1 M1 T1 NL1 N1 G2).
    destruct (fold_left (dton_row fits) l (s1, nd1, st1)) as [[s' nd'] st'].
    destruct IH as (O2&M2&T2&m&C2). split; [auto|]. split; [auto|]. split; [auto|].
    destruct C1 as [[->|[tk ->]]|C1].
    + exists m. exact C2.
    + exists m. change (chain (0 + m) s s'). eapply chain_trans; [|exact C2]. apply chain_same; reflexivity.
    + exists (1 + m)%nat. eapply chain_trans; [apply chain_step; exact C1|exact C2].
Qed.
Lemma dton_pass_chain : forall fits s, Ok s -> Mid s -> tiny s = false -> along_rows fits good (w_dton s) (s, [], UNCHANGED) ->
  let '(s', st') := remove_dton_eq_rows__ fits s in
  Ok s' /\ Mid s' /\ tiny s' = false /\ (exists m, chain m s s').
Proof.
  intros fits s OK M HT GD.
  assert (PN : pend1 s). { intros p Hp. rewrite (q_rows _ (ok_quiet s OK)) in Hp. destruct Hp. }
  pose proof (dton_pass_spec fits s (ok_inv s OK) PN) as P.
  pose proof (dton_pass_Mid fits s (ok_inv s OK) M (q_fixed _ (ok_quiet s OK)) PN) as PM.
  revert P PM. unfold remove_dton_eq_rows__.
  pose proof (dton_fold_chain fits (w_dton s) s [] UNCHANGED OK M HT (l_dton s (inv_L s (ok_inv s OK)))) as Q.
  specialize (Q ltac:(intros p []) GD).
  destruct (fold_left (dton_row fits) (w_dton s) (s, [], UNCHANGED)) as [[s1 nd] st].
  destruct Q as (O1&M1&T1&m&C1). intros P PM. destruct (P T1) as (I1&(D1&D2&D3&D4&D5&D6)&_). specialize (PM T1).
  destruct (ok_quiet s OK) as [Q1 Q2 Q3].
  split; [constructor; [auto|constructor; congruence|apply D2, OK]|]. split; [auto|]. split; [exact T1|].
  exists (m + 0)%nat. eapply chain_trans; [exact C1|]. apply chain_same; reflexivity.
Qed.
Lemma dton_loop_chain : forall fits f s, Ok s -> Mid s -> tiny s = false -> along_passes fits good f s -> (alive s < f)%nat ->
  let s' := dton_loop fits f s in Ok s' /\ Mid s' /\ tiny s' = false /\ exists m, chain m s s'.
Proof.
  assert (R : forall s, Ok s -> Mid s -> tiny s = false -> Ok s /\ Mid s /\ tiny s = false /\ exists m, chain m s s).
  { intros s A B C. split; [auto|]. split; [auto|]. split; [auto|]. exists 0%nat. apply chain_refl. }
  induction f as [|f IH]; intros s OK M HT GD AL; [lia|]. cbv zeta. cbn [dton_loop]. cbn [along_passes] in GD.
  assert (PN : pend1 s). { intros p Hp. rewrite (q_rows _ (ok_quiet s OK)) in Hp. destruct Hp. }
  pose proof (dton_pass_spec fits s (ok_inv s OK) PN) as P.
  pose proof (dton_pass_chain fits s OK M HT) as Q.
  destruct (w_dton s) as [|d l]; [apply R; auto|].
  destruct GD as [G1 G2]. specialize (Q G1).
  destruct (remove_dton_eq_rows__ fits s) as [s1 st]. cbn [fst snd] in G2.
  destruct Q as (O1&M1&T1&m&C1). destruct (P T1) as (_&_&_&D1).
  destruct (N.eqb_spec st REDUCED) as [E|E].
  2:{ split; [auto|]. split; [auto|]. split; [auto|]. exists m. auto. }
  destruct D1 as [->|[_ D1]]; [discriminate|].
  destruct (IH s1 O1 M1 T1 (G2 E) ltac:(lia)) as (O2&M2&T2&m2&C2).
  split; [auto|]. split; [auto|]. split; [auto|]. exists (m + m2)%nat. eapply chain_trans; eauto.
Qed.

Lemma reached_tiny : forall stgs fits P s, wf_input P -> reached stgs fits P s -> tiny s = false.
Proof.
  intros stgs fits P s WF R. induction R as [|f s s' st IN R IH E NT|s s' st ON C R IH E NT|s s' st ON C R IH E NT|s s' st ON R IH E NT TN].
  - apply (new_presolver_Ok P WF).
  - change (L_NoTiny.T s) in IH. change (L_NoTiny.T s'). replace s' with (fst (f s)) by (rewrite E; reflexivity).
    unfold common_steps in IN. rewrite !in_app_iff in IN. destruct IN as [IN|[IN|[IN|IN]]].
    + destruct IN as [<-|[<-|[<-|[<-|[]]]]]; [apply tf_close_bounds|apply tf_empty_cols|apply tf_ston_rows|apply tf_empty_rows]; auto.
    + destruct (dual_fix_on stgs); [|destruct IN]. destruct IN as [<-|[]]. apply tf_dual_fix; auto.
    + destruct (ston_cols_on stgs); [|destruct IN]. destruct IN as [<-|[]]. apply tf_ston_cols; auto.
    + destruct (primal_propagation_on stgs); [|destruct IN]. destruct IN as [<-|[<-|[]]]; [apply tf_check_acts|apply tf_prop]; auto.
  - change (L_NoTiny.T s) in IH. change (L_NoTiny.T s'). replace s' with (fst (remove_parallel_rows s)) by (rewrite E; reflexivity). apply tf_par_rows; auto.
  - change (L_NoTiny.T s) in IH. change (L_NoTiny.T s'). replace s' with (fst (remove_parallel_cols s)) by (rewrite E; reflexivity). apply tf_par_cols; auto.
  - exact TN.
Qed.

Lemma dton_sem : forall stgs fits P s s' st, wf_input P -> reached stgs fits P s -> clear_dton fits s ->
  remove_dton_eq_rows fits s = (s', st) ->
  carries_over anything (reduced_lp s) (reduced_lp s') /\
  ((exists x, feasible (reduced_lp s) x) ->
   lifts_back exactly (fun _ => drift (length (lp_cols (reduced_lp s)) - length (lp_cols (reduced_lp s')))) (reduced_lp s) (reduced_lp s')).
Proof.
  intros stgs fits P s s' st WF RC CL E. assert (HT := reached_tiny _ _ _ _ WF RC).
  destruct (reached_ok stgs fits P s WF RC) as [OK M].
  pose proof (alive_bound s) as AB.
  destruct (dton_loop_chain fits (S (nr s)) s OK M HT CL ltac:(lia)) as (O1&M1&T1&m&C1).
  unfold remove_dton_eq_rows in E. cbv zeta in E. rewrite (q_fixed _ (ok_quiet _ O1)) in E. 
  assert (E1 : dton_loop fits (S (nr s)) s = s') by congruence. rewrite E1 in *. clear E1 E.
  destruct C1 as [A1 A2 A3 A4 A5]. split.
  - intros x Fx _. apply sat_feasible in Fx; auto. destruct (A2 x Fx) as [X1 X2]. split; [apply sat_feasible; auto|].
    rewrite <- !obj_reduced. exact X2.
  - intros [x0 F0] y Fy. apply sat_feasible in F0; auto. apply sat_feasible in Fy; auto.
    destruct (A3 ltac:(exists x0; auto) 0 y ltac:(lra) Fy) as (x&X1&X2&X3). exists x. split; [|split].
    + intros c Hc. apply (col_live s' c O1) in Hc. apply X1; tauto.
    + apply sat_reduced; auto. cbn [lp_cols reduced_lp]. rewrite grown_drift in X2.
      replace (length (live_cols s) - length (live_cols s'))%nat with m by lia. exact X2.
    + rewrite <- !obj_reduced. exact X3.
Qed.

(** ** A concrete case *)
Definition equationb (P : LP) (i : nat) : bool :=
  match lp_lhs P i, lp_rhs P i with Fin p, Fin q => Qeq_bool p q | _, _ => false end.
Lemma equationb_ok : forall P i, equationb P i = true -> equation P i.
Proof.
  intros P i. unfold equationb, equation. destruct (lp_lhs P i), (lp_rhs P i); try discriminate.
  intros E. apply Qeq_bool_iff in E. eauto.
Qed.
Lemma coeff_nz : forall r k, ~ coeff r k == 0 -> In k (map fst r).
Proof.
  induction r as [|[c a] r IH]; cbn [coeff map fst]; intros k N; [lra|].
  destruct (Nat.eqb_spec c k) as [->|D]; [left; auto|]. right. apply IH. intros C. apply N. rewrite C. lra.
Qed.
Definition fillb (P : LP) (i : nat) : bool :=
  let e := map fst (lp_A P i) in
  forallb (fun q => forallb (fun j => forallb (fun k =>
    let new := coeff (lp_A P q) j - coeff (lp_A P i) j / coeff (lp_A P i) k * coeff (lp_A P q) k in
    Nat.eqb j k || Qeq_bool new 0 || negb (Qle_bool (Qabs new) ZERO_TOL)) e) e) (lp_rows P).
Lemma fillb_ok : forall P i, fillb P i = true -> clear_fill P i.
Proof.
  intros P i H j k q Hq NJ N1 N2 N3. unfold fillb in H. cbv zeta in *.
  rewrite forallb_forall in H. specialize (H q Hq).
  rewrite forallb_forall in H. specialize (H j (coeff_nz _ _ N1)).
  rewrite forallb_forall in H. specialize (H k (coeff_nz _ _ N2)).
  apply orb_true_iff in H. destruct H as [H|H]; [apply orb_true_iff in H; destruct H as [H|H]|].
  - apply Nat.eqb_eq in H. contradiction.
  - apply Qeq_bool_iff in H. auto.
  - right. apply negb_true_iff in H. destruct (Qlt_le_dec ZERO_TOL (Qabs (coeff (lp_A P q) j - coeff (lp_A P i) j / coeff (lp_A P i) k * coeff (lp_A P q) k))) as [L|L]; auto.
    apply Qle_bool_iff in L. congruence.
Qed.
Definition goodb (s : state) (i : nat) : bool :=
  negb (existsb (Nat.eqb i) (lp_rows (reduced_lp s))) || equationb (reduced_lp s) i && fillb (reduced_lp s) i.
Lemma goodb_ok : forall s i, goodb s i = true -> good s i.
Proof.
  intros s i H IN. unfold goodb in H. apply orb_true_iff in H. destruct H as [H|H].
  - apply negb_true_iff in H. assert (X : existsb (Nat.eqb i) (lp_rows (reduced_lp s)) = true); [|congruence].
    apply existsb_exists. exists i. split; auto. apply Nat.eqb_refl.
  - apply andb_true_iff in H. destruct H as [A B]. split; [apply equationb_ok|apply fillb_ok]; auto.
Qed.
Fixpoint rowsb (fits : nat -> bool) (l : list nat) (a : state * list nat * status) : bool :=
  match l with [] => true | i :: l' => goodb (fst (fst a)) i && rowsb fits l' (dton_row fits a i) end.
Fixpoint passesb (fits : nat -> bool) (fuel : nat) (s : state) : bool :=
  match w_dton s, fuel with
  | [], _ => true
  | _, O => true
  | l, S f => rowsb fits l (s, [], UNCHANGED) &&
      (let '(s1, st) := remove_dton_eq_rows__ fits s in if N.eqb st REDUCED then passesb fits f s1 else true)
  end.
Lemma rowsb_ok : forall fits l a, rowsb fits l a = true -> along_rows fits good l a.
Proof.
  induction l as [|i l IH]; intros a H; cbn in *; auto. apply andb_true_iff in H. destruct H as [A B].
  split; [apply goodb_ok; auto|apply IH; auto].
Qed.
Lemma passesb_ok : forall fits f s, passesb fits f s = true -> along_passes fits good f s.
Proof.
  induction f as [|f IH]; intros s H; cbn [passesb along_passes] in *; destruct (w_dton s) as [|d l]; auto.
  apply andb_true_iff in H. destruct H as [A B]. split; [apply (rowsb_ok fits (d :: l)); exact A|].
  destruct (remove_dton_eq_rows__ fits s) as [s1 st]. cbn. intros ->. apply IH. exact B.
Qed.
Lemma clearb_ok : forall fits s, passesb fits (S (nr s)) s = true -> clear_dton fits s.
Proof. intros. apply passesb_ok. auto. Qed.

(** x0 + 2 x1 = 4; its substitution makes the second row another equation with two entries *)
Definition de : input :=
  prob [[(0%nat, 1); (1%nat, 2)]; [(0%nat, 1); (1%nat, 2); (2%nat, 1); (3%nat, 1)];
        [(0%nat, 1); (2%nat, 1); (3%nat, 2); (4%nat, 1)]; [(1%nat, 1); (3%nat, 1); (4%nat, -(1))]]
       [Fin 4; Fin 7; NInf; Fin (-(2))] [Fin 4; Fin 7; Fin 12; PInf]
       [Fin 0; NInf; Fin 0; Fin 1; Fin 0] [Fin 10; PInf; Fin 5; PInf; Fin 9] [1; 3; 2; -(1); 1].
Definition de_x (k : nat) : Q := match k with O => 2 | 1%nat => 1 | 2%nat => 1 | 3%nat => 2 | _ => 1 end.
Lemma de_case : let s := new_presolver de in let s' := fst (remove_dton_eq_rows (fun _ => true) s) in
  wf_input de /\ reached default_settings (fun _ => true) de s /\ clear_dton (fun _ => true) s /\
  live_cols s = [0%nat; 1%nat; 2%nat; 3%nat; 4%nat] /\ length (live_cols s') = 3%nat /\ live_rows s' = [2%nat; 3%nat] /\
  feasible (reduced_lp s) de_x.
Proof.
  cbv zeta. split; [apply wfb_ok; vm_compute; reflexivity|].
  split; [apply rc_start|]. split; [apply clearb_ok; vm_compute; reflexivity|].
  split; [vm_compute; reflexivity|]. split; [vm_compute; reflexivity|]. split; [vm_compute; reflexivity|].
  apply feasb_ok; vm_compute; reflexivity.
Qed.
