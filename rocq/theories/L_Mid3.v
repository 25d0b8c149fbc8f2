(** Tags and locks through singleton columns and bound propagation. *)
From Coq Require Import NArith Lqa.
From Verif Require Import M_Num S_LP M_Settings M_Driver S_Driver M_State M_Act M_Core M_Simple
  M_StonCols M_Dton M_Parallel M_Propagate M_Init M_Post M_Run S_Run S_Struct S_Sem
  L_State L_Struct L_Struct2 L_Struct3 L_Struct4 L_Struct5 L_Struct6 L_Struct7 L_Struct8 L_Struct11
  L_Sem L_Sem2 L_Sem3 L_Sem4 L_Mid L_Mid2.
Open Scope Q_scope.

(** ** A row changes its sides and its tag *)
Record retag (s s' : state) (i : nat) (t : rowtag) : Prop := mkRetag {
  rg_nr : nr s' = nr s;  rg_nc : nc s' = nc s;  rg_AT : mAT s' = mAT s;
  rg_lb : lb s' = lb s;  rg_ub : ub s' = ub s;  rg_ct : ct s' = ct s;  rg_csz : csz s' = csz s;
  rg_fx : w_fixed s' = w_fixed s;  rg_er : w_empty_rows s' = w_empty_rows s;
  rg_rt : rt s' = upd (rt s) i t;  rg_act : t_inact t = false;
  rg_sides : forall j, j <> i -> lhs s' j = lhs s j /\ rhs s' j = rhs s j;
  rg_l : if t_lhs_inf t then lhs s' i = NInf else is_fin (lhs s' i) = true;
  rg_r : if t_rhs_inf t then rhs s' i = PInf else is_fin (rhs s' i) = true;
  rg_e : t_eq t = true -> exists p q, lhs s' i = Fin p /\ rhs s' i = Fin q /\ p == q;
  rg_up : forall k, (ups s' k = ups s k + ksum (fun a => upt t a - upt (rt s i) a) k (mA s i))%Z;
  rg_dn : forall k, (dns s' k = dns s k + ksum (fun a => dnt t a - dnt (rt s i) a) k (mA s i))%Z }.

Lemma retag_Mid : forall s s' i t, Inv s -> Mid s -> (i < nr s)%nat -> t_inact (rt s i) = false ->
  retag s s' i t -> Mid s'.
Proof.
  intros s s' i t H [[G1 G2 G3 G4 G5] [P1 P2] E L] Hi Ti R. constructor.
  - constructor; rewrite ?(rg_nr _ _ _ _ R), ?(rg_nc _ _ _ _ R), ?(rg_rt _ _ _ _ R), ?(rg_lb _ _ _ _ R),
      ?(rg_ub _ _ _ _ R), ?(rg_ct _ _ _ _ R); auto.
    + intros j Hj T. destruct (Nat.eq_dec j i) as [->|D].
      * rewrite upd_same. apply (rg_l _ _ _ _ R).
      * rewrite upd_other in * by auto. destruct (rg_sides _ _ _ _ R j D) as [-> _]. apply G1; auto.
    + intros j Hj T. destruct (Nat.eq_dec j i) as [->|D].
      * rewrite upd_same. apply (rg_r _ _ _ _ R).
      * rewrite upd_other in * by auto. destruct (rg_sides _ _ _ _ R j D) as [_ ->]. apply G2; auto.
    + intros j Hj T. destruct (Nat.eq_dec j i) as [->|D].
      * rewrite upd_same. apply (rg_e _ _ _ _ R).
      * rewrite upd_other in * by auto. destruct (rg_sides _ _ _ _ R j D) as [-> ->]. apply G3; auto.
  - constructor; rewrite ?(rg_fx _ _ _ _ R), ?(rg_csz _ _ _ _ R), ?(rg_ct _ _ _ _ R); auto.
  - intros j. rewrite (rg_er _ _ _ _ R), (rg_rt _ _ _ _ R). intros Hj. updg; [apply (rg_act _ _ _ _ R)|auto].
  - apply (LK_row s s' i t); auto.
    + apply act_alive; auto. apply H.
    + apply R.
    + apply R.
    + intros k. rewrite (rg_ct _ _ _ _ R). reflexivity.
    + apply R.
    + apply R.
    + apply R.
Qed.

Lemma locks_side : forall d (l : bool) r s k,
  let s' := foldS (fun s e => if l then lock_lhs d (fst e) (snd e) s else lock_rhs d (fst e) (snd e) s) r s in
  ups s' k = (ups s k + d * ksum (if l then upw true false else upw false true) k r)%Z /\
  dns s' k = (dns s k + d * ksum (if l then dnw true false else dnw false true) k r)%Z.
Proof.
  intros d l r s k. destruct l.
  - exact (lock_fold d true false r s k).
  - exact (lock_fold d false true r s k).
Qed.
Lemma locks_to_ineq : forall r l s k,
  ups (update_locks_eq_to_ineq r l s) k = (ups s k + -1 * ksum (if l then upw true false else upw false true) k r)%Z /\
  dns (update_locks_eq_to_ineq r l s) k = (dns s k + -1 * ksum (if l then dnw true false else dnw false true) k r)%Z.
Proof. intros. exact (locks_side (-1) l r s k). Qed.
Lemma locks_to_eq : forall r l s k,
  ups (update_locks_ineq_to_eq r l s) k = (ups s k + ksum (if l then upw true false else upw false true) k r)%Z /\
  dns (update_locks_ineq_to_eq r l s) k = (dns s k + ksum (if l then dnw true false else dnw false true) k r)%Z.
Proof. intros. destruct (locks_side 1 l r s k) as [A B]. rewrite Z.mul_1_l in A, B. split; [exact A|exact B]. Qed.
(** difference of the weights when one side appears or disappears *)
Lemma w_diff : forall (f : bool -> bool -> Q -> Z), f = upw \/ f = dnw -> forall ri li a,
  (f false li a = f true li a + f false true a)%Z /\ (f ri false a = f ri true a + f true false a)%Z /\
  f true true a = 0%Z.
Proof.
  intros f [->| ->] ri li a; unfold dnw, upw; destruct ri, li, (Qgtb a 0); repeat split; reflexivity.
Qed.

(** ** The column goes out of its only row *)
Lemma cut_Mid : forall s i k t, Mid s -> w_fixed s = [] -> t_cinact t = true -> Mid (cut i k t s).
Proof.
  intros s i k t [[G1 G2 G3 G4 G5] P E L] WF T. unfold cut. constructor.
  - constructor; sr; auto; intros j Hj; updg; try congruence; first [apply G4|apply G5]; auto.
  - apply pend_nil. sr. auto.
  - exact E.
  - apply (LK_frame s); auto. sr. intros j Hj TJ. updh TJ; [congruence|].
    rewrite upd_other by auto. auto 10.
Qed.

Lemma sub_and_row_Mid : forall s i k a v side ck r b, Inv s -> Mid s -> w_fixed s = [] ->
  ~ In i (w_empty_rows s) ->
  let s1 := sub_col_now k (sub_var_in_obj r k a b s) in
  Mid (set_row_to_inactive i v (record (SUB_COL k (row_view s1 i) side i ck) s1)).
Proof.
  intros s i k a v side ck r b H M WF NE s1.
  destruct (sub_var_frame r k a b s) as [c [o E]].
  apply set_row_inactive_Mid.
  - apply (mid_same_Mid s1); [mid_ref|]. unfold s1. rewrite E. unfold sub_col_now.
    destruct M as [[G1 G2 G3 G4 G5] P EA L]. constructor.
    + constructor; sr; auto; intros j Hj; updg; unfold t_cinact, tag_sub; cbn; rewrite ?orb_true_r;
        try discriminate; first [apply G4|apply G5]; auto.
    + apply pend_nil. sr. auto.
    + exact EA.
    + apply (LK_frame s); auto. sr. intros j Hj TJ. updh TJ; [unfold t_cinact, tag_sub in TJ; cbn in TJ; rewrite orb_true_r in TJ; discriminate|].
      rewrite upd_other by auto. auto 10.
  - unfold s1. rewrite E. unfold sub_col_now. sr. auto.
Qed.

Lemma view_frame : forall s s' i, rsz s' i = rsz s i -> mA s' i = mA s i -> row_view s' i = row_view s i.
Proof. intros s s' i A B. unfold row_view. rewrite A, B. reflexivity. Qed.
Lemma remove_row_eq : forall i k s, row_view s i = mA s i ->
  remove_from_row i k s = set_nnz (nnz s - 1)%Z (set_rsz1 i (rsz s i - 1)%Z (setA i (del_entry k (mA s i)) s)).
Proof. intros i k s E. unfold remove_from_row. rewrite E. reflexivity. Qed.
Lemma eq_to_ineq_Mid : forall s i (kr : bool) v act, Inv s -> Mid s -> (i < nr s)%nat -> t_inact (rt s i) = false ->
  t_lhs_inf (rt s i) = false -> t_rhs_inf (rt s i) = false ->
  let s3 := if kr
    then set_rt1 i R_LHS_INF (set_lhs1 i NInf (set_rhs1 i (ext_sub (rhs s i) v) s))
    else set_rt1 i R_RHS_INF (set_rhs1 i PInf (set_lhs1 i (ext_sub (lhs s i) v) s)) in
  Mid (set_act1 i act (update_locks_eq_to_ineq (row_view s i) kr s3)).
Proof.
  intros s i kr v act H M Hi Ti TL TR s3.
  pose proof (tr_lhs s (md_tags s M) i Hi Ti) as GL. rewrite TL in GL.
  pose proof (tr_rhs s (md_tags s M) i Hi Ti) as GR. rewrite TR in GR.
  rewrite (view_full s i H Hi Ti).
  apply (retag_Mid s _ i (if kr then R_LHS_INF else R_RHS_INF)); auto.
  assert (LS : forall j, _) by (intros j; exact (locks_to_ineq (mA s i) kr s3 j)).
  destruct (locks_only_eq_to_ineq (mA s i) kr s3) as [u [d EF]]. rewrite EF in *. clear EF.
  sr in LS. unfold s3 in *. clear s3.
  destruct kr; constructor; sr; try reflexivity; rewrite ?upd_same.
  all: try (intros j D; rewrite !upd_other by auto; auto; fail).
  all: try discriminate.
  all: try (cbn; destruct (rhs s i); cbn in *; congruence).
  all: try (cbn; destruct (lhs s i); cbn in *; congruence).
  all: intros j; destruct (LS j) as [A B]; first [rewrite A|rewrite B]; sr;
    rewrite <- ksum_scale; f_equal; apply ksum_ext; intros b;
    unfold upt, dnt; rewrite TL, TR; cbn [R_LHS_INF R_RHS_INF t_lhs_inf t_rhs_inf];
    unfold dnw, upw; destruct (Qgtb b 0); reflexivity.
Qed.

Lemma push_ston_Mid : forall s i, Mid s -> Mid (push_ston_rows i s).
Proof. intros s i M. apply (mid_same_Mid s); auto. mid_ref. Qed.
Lemma push_dton_Mid : forall s i, Mid s -> Mid (push_dton i s).
Proof. intros s i M. apply (mid_same_Mid s); auto. mid_ref. Qed.
Lemma process_eq_Mid : forall s i k a ab be, Inv s -> Mid s -> w_fixed s = [] -> (i < nr s)%nat -> (k < nc s)%nat ->
  t_inact (rt s i) = false -> t_cinact (ct s k) = false -> mAT s k = [(i, a)] -> (2 <= rsz s i)%Z ->
  t_eq (rt s i) = true -> Mid (fst (process_colston_eq i k a ab be s)).
Proof.
  intros s i k a ab be H M WF Hi Hk Ti Tk EK R2 TE. unfold process_colston_eq.
  assert (NE : ~ In i (w_empty_rows s)) by (apply not_empty_rsz; auto; lia).
  destruct (negb ab && negb be); [auto|].
  cbv zeta. destruct (ab && be); cbn [fst]; [apply sub_and_row_Mid; auto|].
  destruct (sub_var_frame (row_view s i) k a (fin (rhs s i)) s) as [c [o E]]. rewrite E.
  set (s1 := sub_col_now k (set_off o (set_cst c s))).
  set (s2 := handle_impl_free_eq ab i k a (cst s k) s1).
  assert (M2 : Mid s2).
  2: { clearbody s2. destruct (Z.eqb _ 1); [apply push_ston_Mid; auto|].
       destruct (_ && _); [apply push_dton_Mid; auto|auto]. }
  assert (TS : t_cinact (tag_sub (ct s k)) = true) by (unfold t_cinact, tag_sub; cbn; apply orb_true_r).
  assert (IC : Inv (cut i k (tag_sub (ct s k)) s)) by (apply (cut_Inv s i k a); auto).
  assert (MC : Mid (cut i k (tag_sub (ct s k)) s)) by (apply cut_Mid; auto).
  pose proof (view_full s i H Hi Ti) as VF.
  destruct (tr_eq s (md_tags s M) i Hi Ti TE) as [p [q [EL [ER PQ]]]].
  pose proof (tr_lhs s (md_tags s M) i Hi Ti) as TL. pose proof (tr_rhs s (md_tags s M) i Hi Ti) as TR.
  rewrite EL in TL. rewrite ER in TR.
  assert (TLF : t_lhs_inf (rt s i) = false) by (destruct (t_lhs_inf (rt s i)); congruence).
  assert (TRF : t_rhs_inf (rt s i) = false) by (destruct (t_rhs_inf (rt s i)); congruence).
  unfold s2, handle_impl_free_eq. cbv zeta.
  set (sr0 := record (SUB_COL k _ _ i 0) _).
  assert (V0 : row_view sr0 i = mA sr0 i).
  { rewrite (view_frame s sr0 i); [exact VF| |]; unfold sr0, s1, sub_col_now; sr; reflexivity. }
  rewrite (remove_row_eq i k sr0 V0).
  set (sx := set_nnz (nnz sr0 - 1)%Z _).
  assert (IX : Inv sx).
  { eapply same_Inv; [|exact IC]. unfold sx, sr0, s1, sub_col_now, cut. same_ref. }
  assert (MX : Mid sx).
  { eapply mid_same_Mid; [|exact MC]. unfold sx, sr0, s1, sub_col_now, cut. mid_ref. }
  assert (HX : (i < nr sx)%nat) by exact Hi.
  assert (RX : rt sx = rt s) by (unfold sx, sr0, s1, sub_col_now; sr; reflexivity).
  clearbody sx. clear IC MC V0. clearbody sr0. clear s2. clearbody s1.
  apply eq_to_ineq_Mid; rewrite ?RX; auto.
Qed.

(** ** Inequalities *)
Lemma let_intro : forall T (P : state -> Prop) (A : T) (B : T -> state),
  (forall x, x = A -> P (B x)) -> P (let x := A in B x).
Proof. intros T P A B H. apply H. reflexivity. Qed.
Ltac let_one x E := match goal with |- ?P (let y := ?A in @?B y) => apply (let_intro _ P A B); intros x E; cbv beta end.

Lemma sides_Mid : forall s s4 i v, Mid s -> (i < nr s)%nat -> t_inact (rt s i) = false -> t_eq (rt s i) = false ->
  s4 = (let s3 := if t_lhs_inf (rt s i) then s else set_lhs1 i (ext_sub (lhs s i) v) s in
        if t_rhs_inf (rt s3 i) then s3 else set_rhs1 i (ext_sub (rhs s3 i) v) s3) -> Mid s4.
Proof.
  intros s s4 i v [[G1 G2 G3 G4 G5] [P1 P2] E L] Hi Ti Te ->.
  pose proof (G1 i Hi Ti) as GL. pose proof (G2 i Hi Ti) as GR. cbv zeta.
  destruct (t_lhs_inf (rt s i)) eqn:TL; sr; destruct (t_rhs_inf (rt s i)) eqn:TR; sr;
    (constructor; [|constructor; auto|exact E|apply (LK_frame s); auto; intros j Hj TJ; sr; auto 10]);
    (constructor; sr; auto; intros j Hj TJ;
     (destruct (Nat.eq_dec j i) as [->|D]; [|rewrite ?upd_other by auto; first [apply G1|apply G2|apply G3]; auto]);
     rewrite ?upd_same, ?TL, ?TR; try congruence; try apply G1; try apply G2; auto;
     first [destruct (lhs s i); cbn in *; congruence|destruct (rhs s i); cbn in *; congruence]).
Qed.
Lemma fix_col_ston_Mid : forall s i k v a, Inv s -> Mid s -> w_fixed s = [] -> (i < nr s)%nat ->
  t_inact (rt s i) = false -> t_eq (rt s i) = false -> Mid (fix_col_ston i k v a s).
Proof.
  intros s i k v a H M WF Hi Ti Te. cbv beta delta [fix_col_ston].
  pose proof (cut_Mid s i k (tag_fixed (ct s k)) M WF eq_refl) as MC.
  let_one s1 E1. rewrite (remove_row_eq i k s (view_full s i H Hi Ti)) in E1. let_one r Er. let_one s2 E2. let_one s3 E3. let_one s4 E4. let_one a0 Ea. let_one t0 Et.
  let_one a1 E5. let_one a2 E6. let_one s5 E7.
  assert (M2 : Mid s2).
  { eapply mid_same_Mid; [|exact MC]. subst s2 s1. unfold cut. mid_ref. }
  assert (N2 : nr s2 = nr s) by (subst s2 s1; reflexivity).
  assert (R2 : rt s2 = rt s) by (subst s2 s1; reflexivity).
  assert (M4 : Mid s4).
  { apply (sides_Mid s2 s4 i (a * v)); rewrite ?R2, ?N2; auto. subst s4 s3. rewrite <- R2. reflexivity. }
  clear - M4 E7. subst s5. eapply mid_same_Mid; [|exact M4]. unfold fix_var_in_obj. mid_ref.
Qed.

Lemma close_row_Mid : forall (u : bool) s i, Inv s -> Mid s -> (i < nr s)%nat -> t_inact (rt s i) = false ->
  (if u then t_rhs_inf (rt s i) else t_lhs_inf (rt s i)) = false -> Mid (close_row u i s).
Proof.
  intros u s i H M Hi Ti TF. unfold close_row. cbv zeta. rewrite (view_full s i H Hi Ti).
  pose proof (tr_lhs s (md_tags s M) i Hi Ti) as GL. pose proof (tr_rhs s (md_tags s M) i Hi Ti) as GR.
  set (s1 := if (if u then t_lhs_inf (rt s i) else t_rhs_inf (rt s i))
             then update_locks_ineq_to_eq (mA s i) u s else s).
  assert (LS : forall j, ups s1 j = (ups s j + ksum (fun a => upt R_EQ a - upt (rt s i) a) j (mA s i))%Z /\
                         dns s1 j = (dns s j + ksum (fun a => dnt R_EQ a - dnt (rt s i) a) j (mA s i))%Z).
  { intros j. unfold s1.
    assert (Z0 : forall g, (forall a, g a = 0%Z) -> ksum g j (mA s i) = 0%Z).
    { intros g G. rewrite (ksum_ext g (fun a => 0 * g a)%Z) by (intros; rewrite G; reflexivity).
      rewrite ksum_scale. reflexivity. }
    destruct u; [destruct (t_lhs_inf (rt s i)) eqn:TL|destruct (t_rhs_inf (rt s i)) eqn:TR].
    - destruct (locks_to_eq (mA s i) true s j) as [-> ->].
      split; f_equal; apply ksum_ext; intros b; unfold upt, dnt; rewrite TL, TF; cbn [R_EQ t_lhs_inf t_rhs_inf];
        unfold dnw, upw; destruct (Qgtb b 0); reflexivity.
    - rewrite !Z0; [split; lia| |]; intros b; unfold upt, dnt; rewrite TL, TF; cbn [R_EQ t_lhs_inf t_rhs_inf]; lia.
    - destruct (locks_to_eq (mA s i) false s j) as [-> ->].
      split; f_equal; apply ksum_ext; intros b; unfold upt, dnt; rewrite TR, TF; cbn [R_EQ t_lhs_inf t_rhs_inf];
        unfold dnw, upw; destruct (Qgtb b 0); reflexivity.
    - rewrite !Z0; [split; lia| |]; intros b; unfold upt, dnt; rewrite TR, TF; cbn [R_EQ t_lhs_inf t_rhs_inf]; lia. }
  assert (L1 : locks_only s s1).
  { unfold s1. clear. destruct (if u then _ else _); [apply locks_only_ineq_to_eq|apply locks_only_refl]. }
  destruct L1 as [x [y E1]]. clearbody s1. subst s1. sr in LS.
  set (s3 := set_rt1 i R_EQ (if u then _ else _)).
  assert (M3 : Mid s3).
  { apply (retag_Mid s s3 i R_EQ); auto. unfold s3. destruct u; rewrite TF in *.
    - destruct (rhs s i) as [|q|] eqn:ER; try discriminate.
      constructor; sr; try reflexivity; rewrite ?upd_same, ?ER; try reflexivity.
      + intros j D. rewrite !upd_other by auto. auto.
      + intros _. exists q, q. repeat split; reflexivity.
      + intros j. apply LS.
      + intros j. apply LS.
    - destruct (lhs s i) as [|q|] eqn:ER; try discriminate.
      constructor; sr; try reflexivity; rewrite ?upd_same, ?ER; try reflexivity.
      + intros j D. rewrite !upd_other by auto. auto.
      + intros _. exists q, q. repeat split; reflexivity.
      + intros j. apply LS.
      + intros j. apply LS. }
  clearbody s3. destruct (Z.eqb _ 2); auto using push_dton_Mid.
Qed.

Lemma process_ineq_Mid : forall s i k a ab be, Inv s -> Mid s -> w_fixed s = [] -> (i < nr s)%nat -> (k < nc s)%nat ->
  t_inact (rt s i) = false -> t_eq (rt s i) = false -> mAT s k = [(i, a)] -> (2 <= rsz s i)%Z ->
  Mid (fst (process_colston_ineq i k a ab be s)).
Proof.
  intros s i k a ab be H M WF Hi Hk Ti Te EK R2.
  assert (NE : ~ In i (w_empty_rows s)) by (apply not_empty_rsz; auto; lia).
  assert (FM : forall v, Mid (push_if_ston i (fix_col_ston i k v a s))).
  { intros v. pose proof (fix_col_ston_Mid s i k v a H M WF Hi Ti Te) as X. unfold push_if_ston.
    set (s' := fix_col_ston i k v a s) in *. clearbody s'. destruct (Z.eqb _ 1); auto using push_ston_Mid. }
  unfold process_colston_ineq. cbv zeta.
  match goal with |- Mid (fst (if ?b then _ else _)) => destruct b eqn:C1 end; [destruct (t_lb_inf _); cbn [fst]; auto|].
  match goal with |- Mid (fst (if ?b then _ else _)) => destruct b eqn:C2 end; [destruct (t_ub_inf _); cbn [fst]; auto|].
  destruct (ab && be).
  { match goal with |- Mid (fst (if ?b then _ else _)) => destruct b end; [destruct (t_lhs_inf _); cbn [fst]; [auto|apply sub_and_row_Mid; auto]|].
    match goal with |- Mid (fst (if ?b then _ else _)) => destruct b end; [destruct (t_rhs_inf _); cbn [fst]; [auto|apply sub_and_row_Mid; auto]|].
    cbn [fst]; apply sub_and_row_Mid; auto. }
  match goal with |- Mid (fst (if ?b then _ else _)) => destruct b eqn:C3 end.
  { cbn [fst]. apply close_row_Mid; auto. cbn.
    destruct (t_rhs_inf (rt s i)); auto. exfalso. revert C1 C2 C3.
    destruct (Qgtb (cst s k) 0), (Qltb (cst s k) 0), (Qgtb a 0), (Qltb a 0), (t_lhs_inf (rt s i)), ab, be; cbn; discriminate. }
  match goal with |- Mid (fst (if ?b then _ else _)) => destruct b eqn:C4 end; [|auto].
  cbn [fst]. apply close_row_Mid; auto. cbn.
  destruct (t_lhs_inf (rt s i)); auto. exfalso. revert C1 C2 C3 C4.
  destruct (Qgtb (cst s k) 0), (Qltb (cst s k) 0), (Qgtb a 0), (Qltb a 0), (t_rhs_inf (rt s i)), ab, be; cbn; discriminate.
Qed.

Lemma ston_col_Mid : forall s k, Inv s -> Mid s -> w_fixed s = [] -> (k < nc s)%nat -> csz s k = 1%Z ->
  t_cinact (ct s k) = false -> Mid (fst (ston_col s k)).
Proof.
  intros s k H M WF Hk C1 Tk.
  pose proof (tight_csz s k (inv_0 s H) (inv_C s H) Hk Tk) as SZ. rewrite C1 in SZ.
  unfold ston_col. destruct (mAT s k) as [|[i a] r] eqn:EK; [discriminate|].
  assert (r = []) by (unfold Z_len in SZ; destruct r; simpl in SZ; [reflexivity|lia]). subst r.
  destruct (w_cin s (inv_0 s H) i k a Hk) as [Hi _]; [rewrite EK; left; reflexivity|].
  destruct (t_inact (rt s i)) eqn:Ti; cbn [orb]; auto.
  destruct (Z.leb_spec (rsz s i) 1); auto.
  cbv zeta. destruct (t_eq (rt s i)) eqn:Te.
  - apply process_eq_Mid; auto. lia.
  - apply process_ineq_Mid; auto. lia.
Qed.

Lemma ston_cols_pass_Mid : forall l s st, Inv s -> Mid s -> w_fixed s = [] -> NoDup l -> (forall k, In k l -> ready s k) ->
  Mid (fst (fold_or ston_col l s st)).
Proof.
  induction l as [|k l IH]; intros s st H M WF ND HR; simpl; auto.
  destruct (HR k (or_introl eq_refl)) as [Hk [C1 Tk]].
  pose proof (ston_col_ok s k H Hk C1 Tk) as X. pose proof (ston_col_Mid s k H M WF Hk C1 Tk) as Y.
  destruct (ston_col s k) as [s1 st1]. destruct X as [S1 [[F1 F2 F3] ST]]. cbn [fst] in Y.
  inversion ND; subst. apply IH; auto.
  - apply S1.
  - congruence.
  - intros j Hj. destruct (HR j (or_intror Hj)) as [A [B C]].
    destruct (F3 j) as [E1 [E2 E3]]; [intros ->; contradiction|].
    unfold ready. rewrite (stp_nc _ _ S1), E1, E2. auto.
Qed.
Lemma refresh_Mid : forall s, Mid s -> Mid (refresh_ston_cols s).
Proof. intros s M. apply (mid_same_Mid s); auto. unfold refresh_ston_cols. mid_ref. Qed.

Lemma refresh_ready : forall s, Inv s -> quiet s -> forall k, In k (w_ston_cols (refresh_ston_cols s)) ->
  ready (refresh_ston_cols s) k.
Proof.
  intros s H [Q1 Q2 Q3] k Hk. unfold refresh_ston_cols in Hk. sr in Hk. apply filter_In in Hk.
  destruct Hk as [Hk C]. apply Z.eqb_eq in C. destruct (l_ston_cols s (inv_L s H) k Hk) as [A _].
  unfold refresh_ston_cols, ready. sr. split; auto. split; auto.
  destruct (t_cinact (ct s k)) eqn:T; auto. exfalso.
  destruct (l_pend s (inv_L s H) k A T) as [X|X].
  - rewrite C. discriminate.
  - rewrite Q2 in X. contradiction.
  - rewrite Q3 in X. contradiction.
Qed.
Lemma ston_cols___Mid : forall s, Inv s -> Mid s -> quiet s -> Mid (fst (remove_ston_cols__ s)).
Proof.
  intros s H M QS. unfold remove_ston_cols__. cbv zeta.
  pose proof (refresh_Inv s H) as I0. pose proof (refresh_Mid s M) as M0.
  pose proof (refresh_ready s H QS) as RR. pose proof (l_ston_cols_nd _ (inv_L _ I0)) as ND.
  assert (WF : w_fixed (refresh_ston_cols s) = []) by (destruct QS; auto).
  set (s0 := refresh_ston_cols s) in *. clearbody s0.
  pose proof (ston_cols_pass_Mid (w_ston_cols s0) s0 UNCHANGED I0 M0 WF ND RR) as X.
  pose proof (ston_pass_ok (w_ston_cols s0) s0 UNCHANGED I0 ND RR) as Y.
  destruct (fold_or ston_col (w_ston_cols s0) s0 UNCHANGED) as [s1 st]. cbn [fst] in *.
  apply dir_Mid; auto. apply Y.
Qed.
Lemma ston_cols_loop_Mid : forall f s, Inv s -> Mid s -> quiet s -> (mu s < f)%nat ->
  Mid (fst (ston_cols_loop f s)).
Proof.
  induction f as [|f IH]; intros s H M QS LT; [lia|]. simpl.
  pose proof (ston_cols_pass_spec s H QS) as X. pose proof (ston_cols___Mid s H M QS) as Y.
  destruct (remove_ston_cols__ s) as [s1 st]. destruct X as [S1 [Q1 ST]]. cbn [fst] in Y.
  destruct ST as [->|[->|[-> MU]]]; auto.
  rewrite N.eqb_refl. apply IH; auto; [apply S1|lia].
Qed.
Lemma ston_cols_Mid : forall s, Inv s -> Mid s -> quiet s -> Mid (fst (remove_ston_cols s)).
Proof. intros s H M QS. apply ston_cols_loop_Mid; auto. pose proof (mu_le s). lia. Qed.
