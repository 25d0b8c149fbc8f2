(** Replaying the log: the primal values; singleton rows. *)
From Coq Require Import NArith Lqa.
From Verif Require Import M_Num S_LP M_Settings M_Driver S_Driver M_State M_Act M_Core M_Simple
  M_StonCols M_Dton M_Parallel M_Propagate M_Init M_Post M_Run S_Run S_Struct S_Sem S_Log S_Kkt S_Prim
  L_State L_Struct L_Struct2 L_Struct3 L_Struct4 L_Struct5 L_Struct6 L_Struct11 L_Sem L_Sem2 L_Sem3 L_Sem4 L_Mid L_Mid2
  L_Post L_Post2 L_Post3 L_Kkt L_Kkt2 L_Kkt3 L_Act L_Act2 L_Act3 L_Act4 L_ActP L_Ston3 L_Prim L_Prim2 L_Prim3.
Import M_Driver.
Notation bad := M_State.bad.
Notation xv := L_Prim.xv.
Notation sub := L_Prim.sub.
Open Scope Q_scope.
Definition bnd_rec (r : reduction) : Prop := match r with BOUND_CHANGE_THE_ROW _ _ _ | BOUND_CHANGE_NO_ROW _ _ _ _ => True | _ => False end.
Lemma bnd_rec_id : forall l x, Forall bnd_rec l -> xrep l x = x.
Proof. induction l as [|r l IH]; intros x F; inversion F as [|? ? A B]; subst; cbn [xrep]; auto. destruct r; try contradiction; apply IH; auto. Qed.
Lemma bnd_rec_plain : forall l, Forall bnd_rec l -> Forall plain l.
Proof. intros l. apply Forall_impl. intros r H. destruct r; try contradiction; exact I. Qed.
Section Prim.
Variable rtol : nat -> Q.
Variable ctol : Q.
Hypothesis ctol1 : FEAS_TOL <= ctol.
Notation PS := (L_Prim.PS rtol ctol).
Notation PB := (L_Prim.PB rtol ctol).
Notation cover := (L_Prim.cover rtol ctol).

(** ** Bounds that only tighten *)
Lemma tight_PB : forall s s' new, nr s' = nr s -> nc s' = nc s -> mA s' = mA s -> rt s' = rt s -> lhs s' = lhs s -> rhs s' = rhs s ->
  (forall k, t_fixed (ct s' k) = t_fixed (ct s k) /\ t_cinact (ct s' k) = t_cinact (ct s k)) ->
  (forall k, t_fixed (ct s k) = true -> ub s' k = ub s k) ->
  (forall k x, (k < nc s)%nat -> t_cinact (ct s k) = false -> within ctol (lb s' k) x (ub s' k) -> within ctol (lb s k) x (ub s k)) ->
  (NB s -> NB s') -> log s' = new ++ log s -> Forall bnd_rec new -> PB s s'.
Proof.
  intros s s' new A1 A2 A3 A4 A5 A6 A7 A8 A9 N L F. split; [|split; [auto|]].
  - apply sub_same; auto; intros; congruence.
  - exists new. split; [auto|]. split; [apply bnd_rec_plain; auto|]. intros x _ _ _ _ [CR CC]. rewrite bnd_rec_id by auto. constructor.
    + intros i Hi T. specialize (CR i ltac:(congruence) ltac:(congruence)). rewrite A3, A5, A6 in CR.
      eapply within_ext; [|exact CR]. apply dot_ext. intros k a _. unfold xv. destruct (A7 k) as [-> _].
      destruct (t_fixed (ct s k)) eqn:TF; [rewrite A8 by auto; lra|lra].
    + intros k Hk T. destruct (A7 k) as [_ E]. apply A9; auto. apply CC; congruence.
Qed.
Lemma update_ub_PB : forall s k v i, tags_right s -> (k < nc s)%nat -> t_cinact (ct s k) = false ->
  let '(s1, st) := update_ub k v i s in PB s s1 /\ (st <> INFEASIBLE -> is_fin (ub s1 k) = true /\ fin (ub s1 k) <= v + FEAS_TOL /\
    lb s1 k = lb s k /\ lhs s1 = lhs s /\ rhs s1 = rhs s /\ tags_right s1 /\ mA s1 = mA s /\ nr s1 = nr s /\ nc s1 = nc s /\ rt s1 = rt s /\
    t_cinact (ct s1 k) = false).
Proof.
  intros s k v i TG Hk TK. pose proof (update_ub_cases k v i s) as X. destruct (update_ub k v i s) as [s1 st]. pose proof tol_pos as TP.
  pose proof (tr_lb s TG k Hk TK) as GL. pose proof (tr_ub s TG k Hk TK) as GU.
  destruct X as [(-> & -> & _)|(-> & V & [(-> & T1 & T2)|(T1 & [A [W ->]])])].
  - split; [apply PB_refl|congruence].
  - split; [apply PB_refl|]. intros _. rewrite T1 in GU. split; auto. split; [lra|]. auto 12.
  - split.
    + eapply tight_PB with (new := [_; _]); sr; try reflexivity.
      * intros j. updg; auto.
      * intros j TF. updg; auto. rewrite (fixed_cinact _ TK) in TF. discriminate.
      * intros j x Hj TJ. updg; auto. intros [W1 W2]. split; auto. cbn in W2.
        destruct (t_ub_inf (ct s k)); [rewrite GU; exact I|]. apply le_ext_fin; auto. specialize (T1 eq_refl). lra.
      * intros N j. sr. intros Hj. updg; [intros _|apply N; auto]. intros F1 F2. cbn [fin].
        destruct (t_lb_inf (ct s k)); [rewrite GL in F1; discriminate|]. specialize (V eq_refl). lra.
      * constructor; [exact I|]. constructor; [exact I|constructor].
    + intros _. sr. rewrite upd_same. cbn [fin is_fin]. split; auto. split; [lra|]. split; auto. split; auto. split; auto.
      split; [|do 4 (split; [auto|]); rewrite upd_same; exact TK].
      destruct TG as [G1 G2 G3 G4 G5].
      assert (CE : forall j, t_cinact (upd (ct s) k (untag_ub_inf (ct s k)) j) = t_cinact (ct s j)) by (intros j; updg; auto).
      constructor; sr; auto; intros j Hj; rewrite CE; intros T.
      * updg; apply G4; auto.
      * updg; [reflexivity|]. apply G5; auto.
Qed.
Lemma update_lb_PB : forall s k v i, tags_right s -> (k < nc s)%nat -> t_cinact (ct s k) = false ->
  let '(s1, st) := update_lb k v i s in PB s s1 /\ (st <> INFEASIBLE -> is_fin (lb s1 k) = true /\ v - FEAS_TOL <= fin (lb s1 k) /\
    ub s1 k = ub s k /\ lhs s1 = lhs s /\ rhs s1 = rhs s /\ tags_right s1 /\ mA s1 = mA s /\ nr s1 = nr s /\ nc s1 = nc s /\ rt s1 = rt s /\
    t_cinact (ct s1 k) = false).
Proof.
  intros s k v i TG Hk TK. pose proof (update_lb_cases k v i s) as X. destruct (update_lb k v i s) as [s1 st]. pose proof tol_pos as TP.
  pose proof (tr_lb s TG k Hk TK) as GL. pose proof (tr_ub s TG k Hk TK) as GU.
  destruct X as [(-> & -> & _)|(-> & V & [(-> & T1 & T2)|(T1 & [A [W ->]])])].
  - split; [apply PB_refl|congruence].
  - split; [apply PB_refl|]. intros _. rewrite T1 in GL. split; auto. split; [lra|]. auto 12.
  - split.
    + eapply tight_PB with (new := [_; _]); sr; try reflexivity.
      * intros j. updg; auto.
      * intros j x Hj TJ. updg; auto. intros [W1 W2]. split; auto. cbn in W1.
        destruct (t_lb_inf (ct s k)); [rewrite GL; exact I|]. apply ext_le_fin; auto. specialize (T1 eq_refl). lra.
      * intros N j. sr. intros Hj. updg; [intros _|apply N; auto]. intros F1 F2. cbn [fin].
        destruct (t_ub_inf (ct s k)); [rewrite GU in F2; discriminate|]. specialize (V eq_refl). lra.
      * constructor; [exact I|]. constructor; [exact I|constructor].
    + intros _. sr. rewrite upd_same. cbn [fin is_fin]. split; auto. split; [lra|]. split; auto. split; auto. split; auto.
      split; [|do 4 (split; [auto|]); rewrite upd_same; exact TK].
      destruct TG as [G1 G2 G3 G4 G5].
      assert (CE : forall j, t_cinact (upd (ct s) k (untag_lb_inf (ct s k)) j) = t_cinact (ct s j)) by (intros j; updg; auto).
      constructor; sr; auto; intros j Hj; rewrite CE; intros T.
      * updg; [reflexivity|]. apply G4; auto.
      * updg; apply G5; auto.
Qed.

(** ** Equations with one entry *)
Lemma ston_eq_PB : forall s s' i k a v c1 c2 c3, (i < nr s)%nat -> (k < nc s)%nat -> mA s i = [(k, a)] ->
  t_inact (rt s i) = false -> t_cinact (ct s k) = false ->
  (exists p q, lhs s i = Fin p /\ rhs s i = Fin q /\ p == q /\ q == a * v) ->
  nr s' = nr s -> nc s' = nc s -> (forall j, j <> k -> ct s' j = ct s j /\ lb s' j = lb s j /\ ub s' j = ub s j) ->
  t_fixed (ct s' k) = true -> fin (ub s' k) = v -> within ctol (lb s k) v (ub s k) ->
  (forall j, j <> i -> rt s' j = rt s j /\ mA s' j = mA s j) -> lhs s' = lhs s -> rhs s' = rhs s ->
  t_inact (rt s' i) = true ->
  log s' = DELETED_ROW i c1 :: ADDED_ROWS i c2 c3 :: FIXED_COL k v (cst s k) (mAT s k) :: log s -> PB s s'.
Proof.
  intros s s' i k a v c1 c2 c3 Hi Hk EA Ti Tk (p & q & EP & EQ & PQ & QV) E1 E2 E3 FK UB WK E4 EL ER E5 L.
  assert (CK : t_cinact (ct s' k) = true) by (unfold t_cinact; rewrite FK; reflexivity).
  split; [|split].
  - split; auto. intros j Hj T. destruct (Nat.eq_dec j i) as [->|N]; [congruence|].
    destruct (E4 j N) as [R1 R2]. rewrite R1 in T. rewrite R2. split; auto. lra.
  - apply NB_same; auto. intros j T. destruct (Nat.eq_dec j k) as [->|N]; [congruence|]. destruct (E3 j N) as (B1 & B2 & B3). rewrite <- B1. auto.
  - exists [DELETED_ROW i c1; ADDED_ROWS i c2 c3; FIXED_COL k v (cst s k) (mAT s k)].
    split; [auto|]. split; [repeat (constructor; [exact I|]); constructor|].
    intros x CV _ _ _ [CR CC]. cbn [xrep xone]. constructor.
    + intros j Hj Tj. destruct (Nat.eq_dec j i) as [->|N].
      * assert (DE : dot (mA s i) (xv s (upd x k v)) == q).
        { rewrite EA. unfold xv. cbn [dot]. rewrite (fixed_cinact _ Tk), upd_same. rewrite QV. lra. }
        pose proof (cover_tol rtol ctol ctol1 s i CV Hi Ti) as RT. pose proof tol_pos.
        rewrite EP, EQ. split; cbn; lra.
      * destruct (E4 j N) as [R1 R2]. specialize (CR j ltac:(rewrite E1; auto) ltac:(rewrite R1; auto)). rewrite R2, EL, ER in CR.
        eapply within_ext; [|exact CR]. apply dot_ext. intros m c Hm. unfold xv.
        destruct (Nat.eq_dec m k) as [->|NM].
        -- rewrite FK, (fixed_cinact _ Tk), upd_same, UB. lra.
        -- rewrite upd_other by auto. destruct (E3 m NM) as (-> & _ & ->). lra.
    + intros j Hj Tj. destruct (Nat.eq_dec j k) as [->|N]; [rewrite upd_same; auto|].
      rewrite upd_other by auto. destruct (E3 j N) as (B1 & B2 & B3).
      specialize (CC j ltac:(rewrite E2; auto) ltac:(rewrite B1; auto)). rewrite B2, B3 in CC. exact CC.
Qed.

(** ** Singleton rows *)
Lemma cover_one : forall s i k a, cover s -> (i < nr s)%nat -> t_inact (rt s i) = false -> mA s i = [(k, a)] -> (ctol + FEAS_TOL) * Qabs a <= rtol i.
Proof.
  intros s i k a C Hi T E. specialize (C i Hi T). rewrite E in C. cbn [norm1] in C. pose proof tol_pos. lra.
Qed.
Lemma ston_row_gone : forall s i k a v w, (i < nr s)%nat -> (k < nc s)%nat -> mA s i = [(k, a)] -> ~ a == 0 -> tags_right s ->
  t_inact (rt s i) = false -> t_cinact (ct s k) = false ->
  (t_rhs_inf (rt s i) = false -> fin (rhs s i) == a * v /\ if Qgtb a 0 then is_fin (ub s k) = true /\ fin (ub s k) <= v + FEAS_TOL
     else is_fin (lb s k) = true /\ v - FEAS_TOL <= fin (lb s k)) ->
  (t_lhs_inf (rt s i) = false -> fin (lhs s i) == a * w /\ if Qgtb a 0 then is_fin (lb s k) = true /\ w - FEAS_TOL <= fin (lb s k)
     else is_fin (ub s k) = true /\ fin (ub s k) <= w + FEAS_TOL) -> PB s (set_row_to_inactive i 0 s).
Proof.
  intros s i k a v w Hi Hk EA Na TG Ti Tk FR FL. apply (row_PB rtol ctol s _ i 0); unfold set_row_to_inactive; sr; auto.
  - intros j N. rewrite upd_other; auto.
  - rewrite upd_same. reflexivity.
  - intros x CV _ W _. pose proof (cover_one s i k a CV Hi Ti EA) as RT. destruct (W k Hk Tk) as [W1 W2].
    pose proof (tr_lhs s TG i Hi Ti) as TL. pose proof (tr_rhs s TG i Hi Ti) as TR.
    assert (D : dot (mA s i) (xv s x) == a * x k).
    { rewrite EA. unfold xv. cbn [dot]. rewrite (fixed_cinact _ Tk). lra. }
    split.
    + destruct (t_lhs_inf (rt s i)); [rewrite TL; exact I|]. apply ext_le_fin; auto. destruct (FL eq_refl) as [E F]. rewrite D, E.
      destruct (Qgtb a 0) eqn:G; qb; destruct F as [F1 F2].
      * apply ext_le_fin in W1; auto. pose proof (near_low (ctol + FEAS_TOL) a w (x k)) as X. lra.
      * apply le_ext_fin in W2; auto. pose proof (near_low' (ctol + FEAS_TOL) a w (x k)) as X. lra.
    + destruct (t_rhs_inf (rt s i)); [rewrite TR; exact I|]. apply le_ext_fin; auto. destruct (FR eq_refl) as [E F]. rewrite D, E.
      destruct (Qgtb a 0) eqn:G; qb; destruct F as [F1 F2].
      * apply le_ext_fin in W2; auto. pose proof (near_upp (ctol + FEAS_TOL) a v (x k)) as X. lra.
      * apply ext_le_fin in W1; auto. pose proof (near_upp' (ctol + FEAS_TOL) a v (x k)) as X. lra.
Qed.
Lemma remove_stonrow_PB : forall s i, Inv s -> Mid s -> w_sub s = [] -> In i (w_ston_rows s) -> t_inact (rt s i) = false ->
  PB s (fst (remove_stonrow i s)).
Proof.
  intros s i H M WS Hin T. destruct (l_ston_rows s (inv_L s H) i Hin) as [Hi D]. specialize (D T).
  pose proof (md_tags s M) as TG.
  unfold remove_stonrow. destruct (mA s i) as [|[k a] r] eqn:EA.
  - destruct D as [D|[_ D]]; [discriminate|]. rewrite D. apply PB_refl.
  - destruct D as [D|[D _]]; [|discriminate]. destruct r; [|discriminate].
    destruct (w_rin s (inv_0 s H) i k a Hi) as [Hk Na]; [rewrite EA; left; reflexivity|].
    destruct (t_fixed (ct s k)) eqn:Fk; [apply PB_refl|].
    assert (TK : t_cinact (ct s k) = false).
    { apply pend_col_fixed; auto. eapply (inv_R s H); eauto. rewrite EA. left; reflexivity. }
    destruct (t_eq (rt s i)) eqn:TE.
    + pose proof (fix_col_cases s k (fin (rhs s i) / a) (cst s k)) as FX.
      destruct (fix_col k _ _ s) as [s1 st].
      destruct FX as [[-> [-> _]]|[-> [V1 [V2 [A [W E]]]]]]; [rewrite N.eqb_refl; cbn [fst]; apply PB_refl|].
      change (N.eqb REDUCED INFEASIBLE) with false. cbn [fst].
      assert (E1 : nr s1 = nr s /\ nc s1 = nc s /\ rt s1 = rt s /\ cst s1 = cst s /\ mAT s1 = mAT s /\ mA s1 = mA s /\
        lhs s1 = lhs s /\ rhs s1 = rhs s /\
        lb s1 = upd (lb s) k (Fin (fin (rhs s i) / a)) /\ ub s1 = upd (ub s) k (Fin (fin (rhs s i) / a)) /\
        ct s1 = upd (ct s) k (tag_fixed (ct s k)) /\ log s1 = FIXED_COL k (fin (rhs s i) / a) (cst s k) (mAT s k) :: log s).
      { rewrite E. unfold set_col_to_fixed. sr. repeat split; reflexivity. }
      clear E. destruct E1 as (E1 & E2 & E3 & E4 & E5 & E5' & E8 & E9 & E10 & E11 & E6 & E7).
      cbv zeta. set (s' := record _ _).
      assert (F : nr s' = nr s /\ nc s' = nc s /\ rt s' = upd (rt s) i R_INACTIVE /\ cst s' = cst s /\ mAT s' = mAT s /\
        ct s' = upd (ct s) k (tag_fixed (ct s k)) /\ mA s' = upd (mA s) i [] /\ lhs s' = lhs s /\ rhs s' = rhs s /\
        lb s' = upd (lb s) k (Fin (fin (rhs s i) / a)) /\ ub s' = upd (ub s) k (Fin (fin (rhs s i) / a)) /\
        log s' = DELETED_ROW i (cst s k / a) :: ADDED_ROWS i (mAT s k) a :: FIXED_COL k (fin (rhs s i) / a) (cst s k) (mAT s k) :: log s).
      { unfold s'. sr. rewrite E1, E2, E3, E4, E5, E5', E6, E7, E8, E9, E10, E11. repeat split; reflexivity. }
      clearbody s'. destruct F as (F1 & F2 & F3 & F4 & F5 & F6 & F8 & F9 & F10 & F11 & F12 & F7).
      eapply (ston_eq_PB s s' i k a (fin (rhs s i) / a)); eauto.
      * destruct (tr_eq s (md_tags s M) i Hi T TE) as (p & q & P1 & P2 & P3). exists p, q. rewrite P2. cbn [fin].
        repeat split; auto. field. auto.
      * intros j N. rewrite F6, F11, F12, !upd_other; auto.
      * rewrite F6, upd_same. reflexivity.
      * rewrite F12, upd_same. reflexivity.
      * pose proof (tr_lb s TG k Hk TK) as GL. pose proof (tr_ub s TG k Hk TK) as GU.
        apply within_side.
        -- destruct (t_lb_inf (ct s k)); auto.
        -- destruct (t_ub_inf (ct s k)); auto.
        -- intros IF. destruct (t_lb_inf (ct s k)); [rewrite GL in IF; discriminate|]. specialize (V2 eq_refl). lra.
        -- intros IF. destruct (t_ub_inf (ct s k)); [rewrite GU in IF; discriminate|]. specialize (V1 eq_refl). lra.
      * intros j N. rewrite F3, F8, !upd_other; auto.
      * rewrite F3, upd_same. reflexivity.
    + set (v := fin (rhs s i) / a). set (w := fin (lhs s i) / a).
      assert (EV : fin (rhs s i) == a * v) by (unfold v; field; auto).
      assert (EW : fin (lhs s i) == a * w) by (unfold w; field; auto). clearbody v w.
      assert (A1 : let '(s1, st1) := (if t_rhs_inf (rt s i) then (s, UNCHANGED) else if Qgtb a 0 then update_ub k v i s else update_lb k v i s) in
        PB s s1 /\ (st1 <> INFEASIBLE -> (t_rhs_inf (rt s i) = false -> if Qgtb a 0 then is_fin (ub s1 k) = true /\ fin (ub s1 k) <= v + FEAS_TOL
            else is_fin (lb s1 k) = true /\ v - FEAS_TOL <= fin (lb s1 k)) /\
          lhs s1 = lhs s /\ rhs s1 = rhs s /\ tags_right s1 /\ mA s1 = mA s /\ nr s1 = nr s /\ nc s1 = nc s /\ rt s1 = rt s /\ t_cinact (ct s1 k) = false)).
      { destruct (t_rhs_inf (rt s i)); [split; [apply PB_refl|intros _; split; [discriminate|auto 12]]|].
        destruct (Qgtb a 0).
        - pose proof (update_ub_PB s k v i TG Hk TK) as X. destruct (update_ub k v i s) as [s1 st1]. destruct X as [X1 X2]. split; auto.
          intros N. destruct (X2 N) as (Y1 & Y2 & Y3 & Y4). auto.
        - pose proof (update_lb_PB s k v i TG Hk TK) as X. destruct (update_lb k v i s) as [s1 st1]. destruct X as [X1 X2]. split; auto.
          intros N. destruct (X2 N) as (Y1 & Y2 & Y3 & Y4). auto. }
      destruct (if t_rhs_inf (rt s i) then _ else _) as [s1 st1]. destruct A1 as [B1 A1].
      destruct (N.eqb_spec st1 INFEASIBLE) as [->|NE]; [auto|]. destruct (A1 NE) as (R1 & L1 & L2 & TG1 & L3 & L4 & L5 & L6 & TK1).
      assert (Hk1 : (k < nc s1)%nat) by (rewrite L5; auto).
      assert (A2 : let '(s2, st2) := (if t_lhs_inf (rt s i) then (s1, UNCHANGED) else if Qgtb a 0 then update_lb k w i s1 else update_ub k w i s1) in
        PB s1 s2 /\ (st2 <> INFEASIBLE -> (t_lhs_inf (rt s i) = false -> if Qgtb a 0 then is_fin (lb s2 k) = true /\ w - FEAS_TOL <= fin (lb s2 k)
            else is_fin (ub s2 k) = true /\ fin (ub s2 k) <= w + FEAS_TOL) /\
          (if Qgtb a 0 then ub s2 k = ub s1 k else lb s2 k = lb s1 k) /\
          lhs s2 = lhs s1 /\ rhs s2 = rhs s1 /\ tags_right s2 /\ mA s2 = mA s1 /\ nr s2 = nr s1 /\ nc s2 = nc s1 /\ rt s2 = rt s1 /\ t_cinact (ct s2 k) = false)).
      { destruct (t_lhs_inf (rt s i)); [split; [apply PB_refl|intros _; split; [discriminate|split; [destruct (Qgtb a 0); auto|auto 12]]]|].
        destruct (Qgtb a 0).
        - pose proof (update_lb_PB s1 k w i TG1 Hk1 TK1) as X. destruct (update_lb k w i s1) as [s2 st2]. destruct X as [X1 X2]. split; auto.
          intros N. destruct (X2 N) as (Y1 & Y2 & Y3 & Y4). auto.
        - pose proof (update_ub_PB s1 k w i TG1 Hk1 TK1) as X. destruct (update_ub k w i s1) as [s2 st2]. destruct X as [X1 X2]. split; auto.
          intros N. destruct (X2 N) as (Y1 & Y2 & Y3 & Y4). auto. }
      destruct (if t_lhs_inf (rt s i) then _ else _) as [s2 st2]. destruct A2 as [B2 A2].
      destruct (N.eqb_spec st2 INFEASIBLE) as [->|NE2]; cbn [fst]; [eapply PB_trans; eauto|].
      destruct (A2 NE2) as (Q1 & Q2 & M1 & M2 & TG2 & M3 & M4 & M5 & M6 & TK2).
      eapply PB_trans; [auto|exact B1|]. eapply PB_trans; [auto|exact B2|].
      eapply (ston_row_gone s2 i k a v w); auto; rewrite ?M3, ?M4, ?M5, ?M6, ?M1, ?M2, ?L1, ?L2, ?L3, ?L4, ?L5, ?L6; auto.
      * intros X. split; auto. specialize (R1 X). destruct (Qgtb a 0); rewrite Q2; auto.
      * intros X. split; auto. apply (Q1 X).
Qed.
Lemma ston_pass_PB : forall b l s, Inv s -> Mid s -> w_sub s = [] -> (forall i, In i l -> In i (w_ston_rows s)) -> PB s (fst (ston_pass b l s)).
Proof.
  intros b. induction l as [|i l IH]; intros s H M WS HL; cbn [ston_pass].
  - apply PB_refl.
  - destruct (if b then _ else _) eqn:SK.
    + apply IH; auto. intros; apply HL; simpl; auto.
    + assert (T : t_inact (rt s i) = false).
      { destruct b; apply orb_false_iff in SK; destruct SK as [S1 S2]; auto. }
      pose proof (remove_stonrow_stp s i H (HL i (or_introl eq_refl)) T) as X.
      pose proof (remove_stonrow_PB s i H M WS (HL i (or_introl eq_refl)) T) as Z.
      pose proof (remove_stonrow_Mid s i H M WS (HL i (or_introl eq_refl)) T) as MM.
      destruct (remove_stonrow i s) as [s1 st]. destruct X as [S1 F1]. cbn [fst] in Z, MM.
      destruct (N.eqb st INFEASIBLE); auto. destruct F1 as [F1 F2].
      eapply PB_trans; [auto|exact Z|]. apply IH; [apply S1|auto|congruence|].
      intros j Hj. rewrite F2. apply HL; simpl; auto.
Qed.
Lemma ston_rows_PB : forall s, Inv s -> Mid s -> w_sub s = [] -> PB s (fst (remove_ston_rows s)).
Proof.
  intros s H M WS. unfold remove_ston_rows.
  destruct (w_ston_rows s) as [|i0 l0] eqn:EL; [apply PB_refl|]. rewrite <- EL. set (l := w_ston_rows s).
  pose proof (ston_pass_stp true l s H (fun i X => X)) as P1.
  pose proof (ston_pass_PB true l s H M WS (fun i X => X)) as B1.
  pose proof (ston_pass_Mid true l s H M WS (fun i X => X)) as M1.
  destruct (ston_pass true l s) as [s1 st1]. destruct P1 as [S1 [F1 E1]]. cbn [fst] in B1, M1.
  destruct (N.eqb_spec st1 INFEASIBLE); [auto|].
  assert (HL1 : forall i, In i l -> In i (w_ston_rows s1)) by (destruct F1 as [_ ->]; auto).
  assert (WS1 : w_sub s1 = []) by (destruct F1; congruence).
  pose proof (ston_pass_stp false l s1 (st_inv _ _ S1) HL1) as P2.
  pose proof (ston_pass_PB false l s1 (st_inv _ _ S1) M1 WS1 HL1) as B2.
  pose proof (ston_pass_Mid false l s1 (st_inv _ _ S1) M1 WS1 HL1) as M2.
  destruct (ston_pass false l s1) as [s2 st2]. destruct P2 as [S2 [F2 E2]]. cbn [fst] in B2, M2.
  assert (B : PB s s2) by (eapply PB_trans; eauto).
  destruct (N.eqb_spec st2 INFEASIBLE); [auto|]. cbn [fst].
  set (s3 := set_w_ston_rows [] s2).
  assert (I3 : Inv s3) by (apply clear_ston_rows; apply S2).
  assert (M3 : Mid s3) by (eapply mid_same_Mid; [|exact M2]; mid_ref).
  destruct (stp_dir s3 I3) as [S4 [F4 _]].
  assert (M4 : Mid (delete_inactive_rows s3)) by (apply dir_Mid; auto).
  eapply PB_trans; [auto|exact B|].
  eapply PB_trans; [auto|apply (still_same rtol ctol s2 s3); reflexivity|].
  eapply PB_trans; [auto|apply dir_PB; auto|]. apply finish_PB; [apply S4|apply M4|apply M4|].
  destruct F4 as [_ [-> _]]. unfold s3. sr. destruct F2; congruence.
Qed.
End Prim.
