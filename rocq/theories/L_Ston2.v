(** What the steps on singleton columns keep. *)
From Coq Require Import NArith Lqa.
From Verif Require Import M_Num S_LP M_Settings M_Driver S_Driver M_State M_Act M_Core M_Simple
  M_StonCols M_Dton M_Parallel M_Propagate M_Init M_Post M_Run S_Run S_Struct S_Sem
  L_State L_Struct L_Struct2 L_Struct3 L_Struct4 L_Struct5 L_Struct6 L_Struct7 L_Struct8 L_Struct9 L_Struct10 L_Struct11
  L_Sem L_Sem2 L_Sem3 L_Sem4 L_Mid L_Mid2 L_Mid3 L_Mid4 L_Mid5 L_Act L_Act2 L_Act4 L_Act6 L_Act8 L_Free L_Ston.
Open Scope Q_scope.

Definition same_pts (s t : state) : Prop := forall x, sat1 s x -> sat1 t x /\ obj t x == obj s x.
Definition lifts (s t : state) : Prop := forall x', sat1 t x' ->
  exists x, (forall j, In j (live_cols t) -> x j == x' j) /\ sat1 s x /\ obj s x == obj t x'.
Definition noloss (s t : state) : Prop := forall x, sat1 s x -> exists x', sat1 t x' /\ obj t x' <= obj s x.
Lemma same_noloss : forall s t, same_pts s t -> noloss s t.
Proof. intros s t F x X. destruct (F x X) as [Y E]. exists x. split; auto. lra. Qed.
Lemma noloss_refl : forall s, noloss s s.
Proof. intros s x X. exists x. split; auto. lra. Qed.
Lemma noloss_trans : forall a b c, noloss a b -> noloss b c -> noloss a c.
Proof. intros a b c F G x X. destruct (F x X) as [y [Y E]]. destruct (G y Y) as [z [Z E']]. exists z. split; auto. lra. Qed.
Lemma lifts_refl : forall s, lifts s s.
Proof. intros s x X. exists x. split; [intros; lra|]. split; auto. lra. Qed.
Lemma lifts_trans : forall a b c, (forall j, In j (live_cols c) -> In j (live_cols b)) -> lifts a b -> lifts b c -> lifts a c.
Proof.
  intros a b c L F G z Z. destruct (G z Z) as [y [E1 [Y E2]]]. destruct (F y Y) as [x [E3 [X E4]]].
  exists x. split; [|split; [auto|lra]]. intros j Hj. rewrite E3 by auto. apply E1; auto.
Qed.

(** ** Frames *)
Lemma sub_row_frame : forall s i k a b v side ck, srt (mA s i) -> ~ a == 0 -> row_view s i = mA s i ->
  let s1 := sub_col_now k (sub_var_in_obj (row_view s i) k a b s) in
  let t := set_row_to_inactive i v (record (SUB_COL k (row_view s1 i) side i ck) s1) in
  stepf s t i k /\ csz t = upd (csz s) k (-1)%Z /\ t_cinact (ct t k) = true /\ t_inact (rt t i) = true /\
  (forall j, cst t j == cst s j - cst s k / a * coeff (mA s i) j) /\ off t == off s + b * (cst s k / a).
Proof.
  intros s i k a b v side ck SR Na VF s1 t.
  destruct (sub_var_spec (row_view s i) k a b s) as [c [o [E [E1 E2]]]]; [rewrite VF; auto|auto|].
  subst t s1. rewrite VF in *. rewrite E. unfold sub_col_now, set_row_to_inactive. sr. rewrite !upd_same.
  split; [|split; [auto|split; [unfold t_cinact, tag_sub; cbn; apply orb_true_r|split; [auto|split; auto]]]].
  constructor; sr; auto.
  - intros j D. rewrite upd_other by auto. auto.
  - intros j D. rewrite upd_other by auto. auto.
Qed.

Definition new_lhs (kr : bool) (l : ext) (d : Q) : ext := if kr then NInf else ext_sub l d.
Definition new_rhs (kr : bool) (r : ext) (d : Q) : ext := if kr then ext_sub r d else PInf.
Lemma handle_frame : forall s (above : bool) i k a ck, srt (mA s i) -> row_view s i = mA s i -> In (k, a) (mA s i) ->
  let t := handle_impl_free_eq above i k a ck s in
  let kr := Bool.eqb above (Qgtb a 0) in let v := fin (if above then lb s k else ub s k) in
  nr t = nr s /\ nc t = nc s /\ lb t = lb s /\ ub t = ub s /\ w_fixed t = w_fixed s /\ w_sub t = w_sub s /\ ct t = ct s /\
  csz t = csz s /\ cst t = cst s /\ off t = off s /\
  (forall j, j <> i -> rt t j = rt s j /\ mA t j = mA s j /\ lhs t j = lhs s j /\ rhs t j = rhs s j) /\
  mA t i = del_entry k (mA s i) /\ t_inact (rt t i) = false /\
  lhs t i = new_lhs kr (lhs s i) (v * a) /\ rhs t i = new_rhs kr (rhs s i) (v * a).
Proof.
  intros s above i k a ck SR VF IN. cbv zeta. unfold handle_impl_free_eq. cbv zeta.
  set (sr0 := record (SUB_COL k _ _ i 0) _).
  assert (V0 : row_view sr0 i = mA sr0 i) by exact VF.
  rewrite (remove_row_eq i k sr0 V0). set (sx := set_nnz (nnz sr0 - 1)%Z _).
  set (kr := Bool.eqb above (Qgtb a 0)).
  set (s3 := if kr then set_rt1 i _ _ else _).
  set (rv := row_view sx i).
  destruct (locks_only_eq_to_ineq rv kr s3) as [x [y E4]]. rewrite E4. clear E4. set (s4 := set_dns _ _).
  match goal with |- context [set_act1 i ?A s4] => set (A4 := A) end. clearbody A4 rv.
  unfold s4, s3, sx, sr0. unfold new_lhs, new_rhs.
  destruct kr; sr; rewrite !upd_same; repeat split; auto; rewrite ?upd_other by auto; auto.
Qed.
Lemma process1_frame : forall s (ab be : bool) i k a, srt (mA s i) -> row_view s i = mA s i -> In (k, a) (mA s i) -> ~ a == 0 ->
  (2 <= rsz s i)%Z -> ab <> be -> let t := fst (process_colston_eq i k a ab be s) in
  let kr := Bool.eqb ab (Qgtb a 0) in let v := fin (if ab then lb s k else ub s k) in
  stepf s t i k /\ csz t = upd (csz s) k (-1)%Z /\ t_cinact (ct t k) = true /\ t_inact (rt t i) = false /\
  (forall j, cst t j == cst s j - cst s k / a * coeff (mA s i) j) /\ off t == off s + fin (rhs s i) * (cst s k / a) /\
  mA t i = del_entry k (mA s i) /\ lhs t i = new_lhs kr (lhs s i) (v * a) /\ rhs t i = new_rhs kr (rhs s i) (v * a).
Proof.
  intros s ab be i k a SR VF IN Na R2 NE. cbv zeta. unfold process_colston_eq.
  assert (B1 : negb ab && negb be = false) by (destruct ab, be; auto; congruence).
  assert (B2 : ab && be = false) by (destruct ab, be; auto; congruence).
  rewrite B1, B2. cbn [fst]. clear B1 B2.
  destruct (sub_var_spec (row_view s i) k a (fin (rhs s i)) s) as [c [o [E [E1 E2]]]]; [rewrite VF; auto|auto|].
  rewrite E. set (s1 := sub_col_now k (set_off o (set_cst c s))).
  assert (VF1 : row_view s1 i = mA s1 i) by exact VF.
  destruct (handle_frame s1 ab i k a (cst s k) SR VF1 IN) as (F1&F2&F3&F4&F5&F6&F7&F8&F9&F10&F11&F12&F13&F14&F15).
  set (s2 := handle_impl_free_eq ab i k a (cst s k) s1) in *. clearbody s2.
  set (t := if Z.eqb (rsz s2 i) 1 then _ else _).
  assert (X : stepf s t i k /\ csz t = csz s2 /\ ct t = ct s2 /\ rt t = rt s2 /\ cst t = cst s2 /\ off t = off s2 /\ mA t = mA s2 /\
     lhs t = lhs s2 /\ rhs t = rhs s2).
  { unfold t. destruct (Z.eqb (rsz s2 i) 1); [|match goal with |- context [if ?b then push_dton _ _ else _] => destruct b end];
      (split; [constructor; sr; rewrite ?F1, ?F2, ?F3, ?F4, ?F5, ?F6, ?F7; auto;
               intros j D; first [destruct (F11 j D) as (-> & -> & -> & ->); unfold s1, sub_col_now; sr; solve [auto]|
                 unfold s1, sub_col_now; sr; apply upd_other; solve [auto]]
              |sr; repeat split; auto]). }
  clearbody t. destruct X as (X1&X2&X3&X4&X5&X6&X7&X8&X9).
  rewrite X2, X3, X4, X5, X6, X7, X8, X9, F7, F8, F9, F10, F12, F13, F14, F15. split; [auto|].
  unfold s1, sub_col_now. sr. rewrite !upd_same. unfold t_cinact, tag_sub. cbn. rewrite orb_true_r.
  rewrite VF in *. repeat split; auto.
Qed.
Lemma fix_frame : forall s i k v a, row_view s i = mA s i -> let t := fix_col_ston i k v a s in
  stepf s t i k /\ csz t = upd (csz s) k (-1)%Z /\ t_cinact (ct t k) = true /\ rt t i = rt s i /\
  cst t = cst s /\ off t = off s + cst s k * v /\ mA t i = del_entry k (mA s i) /\
  lhs t i = (if t_lhs_inf (rt s i) then lhs s i else ext_sub (lhs s i) (a * v)) /\
  rhs t i = (if t_rhs_inf (rt s i) then rhs s i else ext_sub (rhs s i) (a * v)).
Proof.
  intros s i k v a VF. cbv zeta. unfold fix_col_ston. rewrite (remove_row_eq i k s VF). cbv zeta.
  match goal with |- context [set_act1 i ?A _] => set (A2 := A) end. clearbody A2. unfold fix_var_in_obj. sr.
  destruct (t_lhs_inf (rt s i)) eqn:TL; sr; destruct (t_rhs_inf (rt s i)) eqn:TR; sr; rewrite ?upd_same;
    (split; [constructor; sr; auto; [intros j D; apply upd_other; auto|intros j D; rewrite ?upd_other by auto; auto]|]);
    repeat split; auto.
Qed.
Lemma push_if_frame : forall s t i k, stepf s t i k -> stepf s (push_if_ston i t) i k.
Proof. intros s t i k [F1 F2 F3 F4 F5 F6 F7 F8]. unfold push_if_ston. destruct (Z.eqb _ 1); constructor; sr; auto. Qed.
Lemma close_frame : forall u i k s, let t := close_row u i s in
  stepf s t i k /\ csz t = csz s /\ ct t = ct s /\ t_inact (rt t i) = false /\ cst t = cst s /\ off t = off s /\ mA t = mA s /\
  lhs t i = (if u then rhs s i else lhs s i) /\ rhs t i = (if u then rhs s i else lhs s i).
Proof.
  intros u i k s. cbv zeta. unfold close_row. cbv zeta.
  set (s1 := if (if u then t_lhs_inf (rt s i) else _) then _ else s).
  assert (L1 : locks_only s s1).
  { unfold s1. destruct (if u then t_lhs_inf (rt s i) else _); [apply locks_only_ineq_to_eq|apply locks_only_refl]. }
  destruct L1 as [x [y E]]. clearbody s1. subst s1.
  set (s3 := set_rt1 i R_EQ _).
  assert (X : stepf s s3 i k /\ csz s3 = csz s /\ ct s3 = ct s /\ t_inact (rt s3 i) = false /\ cst s3 = cst s /\ off s3 = off s /\ mA s3 = mA s /\
    lhs s3 i = (if u then rhs s i else lhs s i) /\ rhs s3 i = (if u then rhs s i else lhs s i)).
  { unfold s3. destruct u; sr; rewrite !upd_same; (split; [constructor; sr; auto; intros j D; rewrite !upd_other by auto; auto|repeat split; auto]). }
  clearbody s3. destruct X as [[F1 F2 F3 F4 F5 F6 F7 F8] X]. destruct (Z.eqb _ 2); (split; [constructor; sr; auto|exact X]).
Qed.
