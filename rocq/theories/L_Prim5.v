(** Replaying the log: the primal values; dual fixing. *)
From Coq Require Import NArith Lqa.
From Verif Require Import M_Num S_LP M_Settings M_Driver S_Driver M_State M_Act M_Core M_Simple
  M_StonCols M_Dton M_Parallel M_Propagate M_Init M_Post M_Run S_Run S_Struct S_Sem S_Log S_Kkt S_Prim
  L_State L_Struct L_Struct2 L_Struct3 L_Struct4 L_Struct5 L_Struct6 L_Struct11 L_Sem L_Sem2 L_Sem3 L_Sem4 L_Sem9 L_Mid L_Mid2
  L_Post L_Post2 L_Post3 L_Post5 L_Kkt L_Kkt2 L_Kkt3 L_Act L_Act2 L_Act3 L_Act4 L_ActP L_Ston3 L_Prim.
Import M_Driver.
Notation bad := M_State.bad.
Notation xv := L_Prim.xv.
Notation sub := L_Prim.sub.
Open Scope Q_scope.
Section Prim.
Variable rtol : nat -> Q.
Variable ctol : Q.
Hypothesis ctol1 : FEAS_TOL <= ctol.
Notation PS := (L_Prim.PS rtol ctol).
Notation PB := (L_Prim.PB rtol ctol).
Notation cover := (L_Prim.cover rtol ctol).

(** The extreme value is beyond the bound and beyond what each row asks. *)
Lemma extreme_up : forall k x q rows b c er,
  (forall sd r, In (sd, r) rows -> srt r /\ exists a, In (k, a) r) ->
  fst (fst (fold_left (inf_row true k (sol_of x)) rows (b, c, er))) = Fin q ->
  ext_le b q /\ forall sd r a, In (sd, r) rows -> In (k, a) r ->
    ext_le (ext_div (ext_minus sd (M_Post.wsum (sx (sol_of x)) (others k r))) a) q.
Proof.
  intros k x q. induction rows as [|[sd r] rows IH]; intros b c er HR E; cbn [fold_left] in E.
  - cbn [fst] in E. subst b. split; [simpl; lra|]. intros sd r a [].
  - destruct (HR sd r (or_introl eq_refl)) as [SR [a Ha]].
    unfold inf_row at 2 in E. rewrite (last_coeff_is k r a c SR Ha) in E.
    set (v := ext_div _ a) in *.
    apply IH in E; [|intros sd' r' X; apply (HR sd' r'); right; auto]. destruct E as [E1 E2].
    assert (Y : ext_le b q /\ ext_le v q).
    { clear - E1. unfold ext_ltb in E1. destruct v as [|v|], b as [|b|]; simpl in *; try tauto.
      destruct (Qltb v b) eqn:L; qb; simpl in E1; split; lra. }
    split; [apply Y|]. intros sd' r' a' [X|X] Hk; [|eapply E2; eauto].
    injection X as <- <-.
    assert (AA : a' = a).
    { rewrite <- (last_coeff_is k r a' 0 SR Hk). apply (last_coeff_is k r a 0 SR Ha). }
    rewrite AA. apply Y.
Qed.
Lemma extreme_dn : forall k x q rows b c er,
  (forall sd r, In (sd, r) rows -> srt r /\ exists a, In (k, a) r) ->
  fst (fst (fold_left (inf_row false k (sol_of x)) rows (b, c, er))) = Fin q ->
  le_ext q b /\ forall sd r a, In (sd, r) rows -> In (k, a) r ->
    le_ext q (ext_div (ext_minus sd (M_Post.wsum (sx (sol_of x)) (others k r))) a).
Proof.
  intros k x q. induction rows as [|[sd r] rows IH]; intros b c er HR E; cbn [fold_left] in E.
  - cbn [fst] in E. subst b. split; [simpl; lra|]. intros sd r a [].
  - destruct (HR sd r (or_introl eq_refl)) as [SR [a Ha]].
    unfold inf_row at 2 in E. rewrite (last_coeff_is k r a c SR Ha) in E.
    set (v := ext_div _ a) in *.
    apply IH in E; [|intros sd' r' X; apply (HR sd' r'); right; auto]. destruct E as [E1 E2].
    assert (Y : le_ext q b /\ le_ext q v).
    { clear - E1. unfold ext_ltb in E1. destruct v as [|v|], b as [|b|]; simpl in *; try tauto.
      destruct (Qltb b v) eqn:L; qb; simpl in E1; split; lra. }
    split; [apply Y|]. intros sd' r' a' [X|X] Hk; [|eapply E2; eauto].
    injection X as <- <-.
    assert (AA : a' = a).
    { rewrite <- (last_coeff_is k r a' 0 SR Hk). apply (last_coeff_is k r a 0 SR Ha). }
    rewrite AA. apply Y.
Qed.
Lemma wsum_dot : forall x (r : row), M_Post.wsum (sx (sol_of x)) r == dot r x.
Proof. intros x r. induction r as [|[j a] r IH]; cbn [M_Post.wsum dot]; [lra|]. rewrite IH. cbn. lra. Qed.
Lemma dot_split : forall k a (r : row) x, srt r -> In (k, a) r -> dot r x == a * x k + dot (others k r) x.
Proof.
  intros k a r x. induction r as [|[j b] r IH]; intros S Hin; [contradiction|].
  apply srt_inv in S. destruct S as [S L]. unfold others in *. cbn [dot filter fst]. destruct Hin as [E|Hin].
  - injection E as -> ->. rewrite Nat.eqb_refl. cbn [negb].
    assert (X : filter (fun e : nat * Q => negb (Nat.eqb (fst e) k)) r = r).
    { clear IH S. assert (Y : forall e, In e r -> fst e <> k).
      { intros [j c] Hj. apply L in Hj. simpl in *. lia. }
      clear L. induction r as [|e r IH]; cbn [filter]; auto.
      destruct (Nat.eqb_spec (fst e) k) as [E|E]; [exfalso; apply (Y e); simpl; auto|]. cbn [negb]. rewrite IH; auto.
      intros; apply Y; simpl; auto. }
    rewrite X. lra.
  - destruct (Nat.eqb_spec j k) as [->|N]; [exfalso; apply L in Hin; simpl in Hin; lia|]. cbn [negb dot].
    rewrite IH by auto. lra.
Qed.
(** columns waiting to be taken out have a record *)
Definition PL (s : state) : Prop := forall k, In k (w_fixed s) -> exists v c col, In (FIXED_COL k v c col) (log s).

(** ** Columns sent to infinity *)
Lemma inf_PB : forall (pos : bool) k s, Inv s -> tags_right s -> (k < nc s)%nat -> t_cinact (ct s k) = false -> RV s -> PL s ->
  w_sub s = [] -> free_dir pos s k -> (if pos then ub s k = PInf else lb s k = NInf) ->
  PB s (fix_col_to_inf pos k s).
Proof.
  intros pos k s H TG Hk Tk V PLs WS FD BD.
  unfold fix_col_to_inf. set (rec := FIXED_COL_INF pos k _ _).
  destruct (zero_rows (mAT s k) (record rec s)) as [new X]. cbv zeta in X.
  assert (KE : forall T (f : state -> T), (forall s0 i, f (set_row_to_inactive i 0 s0) = f s0) ->
     f (foldS (fun s e => if t_inact (rt s (fst e)) then s else set_row_to_inactive (fst e) 0 s) (mAT s k) (record rec s)) = f (record rec s)).
  { intros T f Hf. apply foldS_keep. intros s0 e. destruct (t_inact _); auto. }
  pose proof (KE _ mA ltac:(reflexivity)) as KA. pose proof (KE _ lhs ltac:(reflexivity)) as KL.
  pose proof (KE _ rhs ltac:(reflexivity)) as KR. pose proof (KE _ lb ltac:(reflexivity)) as KLB.
  pose proof (KE _ ub ltac:(reflexivity)) as KUB. clear KE.
  set (s2 := foldS _ (mAT s k) (record rec s)) in *. clearbody s2.
  destruct X as (A & F & B & C & D & E & G & R & _).
  set (s3 := set_ub1 _ _ _).
  assert (Y : nr s3 = nr s /\ nc s3 = nc s /\ rt s3 = rt s2 /\ mA s3 = mA s /\ lhs s3 = lhs s /\ rhs s3 = rhs s /\
    (forall j, j <> k -> ct s3 j = ct s j /\ lb s3 j = lb s j /\ ub s3 j = ub s j) /\ log s3 = new ++ rec :: log s /\
    t_cinact (ct s3 k) = true).
  { unfold s3. sr. rewrite B, C, G, A, KA, KL, KR, KLB, KUB. sr. rewrite upd_same. repeat split; auto; rewrite !upd_other; auto. }
  clearbody s3. destruct Y as (Y1 & Y2 & Y4 & Y5 & Y6 & Y7 & Y8 & Y9 & Y10).
  assert (RT3 : forall i, t_inact (rt s3 i) = (hasb i (mAT s k) || t_inact (rt s i))%bool) by (intros i; rewrite Y4, R; sr; auto).
  split; [|split].
  { apply sub_same; auto; [intros; congruence|]. intros i T. rewrite RT3, T. apply orb_true_r. }
  { apply NB_same; auto. intros j T. destruct (Nat.eq_dec j k) as [->|N]; [congruence|]. destruct (Y8 j N) as (E1 & E2 & E3). rewrite <- E1. auto. }
  exists (new ++ [rec]). split; [rewrite Y9, <- app_assoc; reflexivity|].
  assert (NX : Forall plain new /\ forall x, xrep new x = x).
  { clear - F. induction new as [|r new IH]; [split; auto|]. inversion F as [|? ? [i [-> _]] F']; subst.
    destruct (IH F') as [I1 I2]. split; [constructor; [exact I|auto]|]. intros x. cbn [xrep xone]. auto. }
  destruct NX as [NX1 NX2].
  split; [apply Forall_app; split; auto; constructor; [exact I|constructor]|].
  intros x CV NBs KN XF [CR CC]. apply xfine_app in XF. destruct XF as [_ XF]. rewrite NX2 in XF. cbn [xfine] in XF. destruct XF as [XF _].
  rewrite xrep_app, NX2. cbn [xrep xone].
  unfold rec in XF |- *. cbn [fine1 xone] in XF |- *. rewrite Y9 in KN. specialize (KN new pos k _ _ (log s) eq_refl).
  set (q := fin (fst (fst (fold_left (inf_row pos k (sol_of x)) (inf_rows s k) ((if pos then lb s k else ub s k), 0, false))))).
  assert (Q0 : fst (fst (fold_left (inf_row pos k (sol_of x)) (inf_rows s k) ((if pos then lb s k else ub s k), 0, false))) = Fin q).
  { unfold q. destruct (fst (fst _)); try discriminate. reflexivity. }
  clearbody q. clear XF.
  assert (HR : forall sd r, In (sd, r) (inf_rows s k) -> srt r /\ exists a, In (k, a) r).
  { intros sd r Hin. apply in_map_iff in Hin. destruct Hin as [[i a] [E0 Hin]]. cbn [fst] in E0. injection E0 as _ <-.
    destruct (w_cin s (inv_0 s H) i k a Hk Hin) as [Hi _]. split.
    - unfold row_view. pose proof (w_rsrt s (inv_0 s H) i Hi) as S. clear - S.
      revert S. generalize (Z.to_nat (rsz s i)). generalize (mA s i). intros l. induction l as [|[j b] l IH]; intros n S; destruct n; cbn [firstn]; try apply srt_nil.
      apply srt_inv in S. destruct S as [S L]. apply srt_cons; auto. intros e He. apply L. revert He. clear.
      revert n. induction l as [|c l IH]; intros n He; destruct n; cbn [firstn] in He; try contradiction. destruct He as [->|He]; [left; auto|right; eapply IH; eauto].
    - exists a. apply (V i k a Hk); auto. apply cact_alive; auto; apply H. }
  assert (RQ : forall i, (i < nr s)%nat -> t_inact (rt s i) = false -> 0 <= rtol i).
  { intros i Hi T. pose proof (CV i Hi T) as Z0. pose proof (norm1_pos (mA s i)) as Z1. pose proof (tol_pos' ctol ctol1) as Z2.
    assert (0 <= (ctol + FEAS_TOL) * norm1 (mA s i)) by (apply Qmult_le_0_compat; auto). pose proof tol_pos. lra. }
  constructor.
  - intros i Hi Ti. destruct (hasb i (mAT s k)) eqn:HB.
    + apply hasb_has in HB. destruct HB as [a Ha].
      assert (HA : In (k, a) (mA s i)).
      { apply (w_agree s (inv_0 s H) i k a Hi Hk); auto; [apply act_alive; auto; apply H|apply cact_alive; auto; apply H]. }
      assert (IR : In ((if t_lhs_inf (rt s i) then rhs s i else lhs s i), mA s i) (inf_rows s k)).
      { apply in_map_iff. exists (i, a). split; auto. cbn [fst]. rewrite view_full; auto. }
      pose proof (w_rsrt s (inv_0 s H) i Hi) as SR.
      destruct (w_rin s (inv_0 s H) i k a Hi HA) as [_ Na].
      assert (DV : dot (mA s i) (xv s (upd x k q)) == a * q + dot (others k (mA s i)) x).
      { rewrite (dot_split k a _ _ SR HA). apply Qplus_comp.
        - unfold L_Prim.xv. apply orb_false_iff in Tk. destruct Tk as [-> _]. rewrite upd_same. reflexivity.
        - apply dot_ext. intros j c Hj. unfold others in Hj. apply filter_In in Hj. destruct Hj as [Hj Nj].
          apply negb_true_iff, Nat.eqb_neq in Nj. cbn [fst] in Nj. unfold L_Prim.xv.
          destruct (pend_entry s i j c H WS Hi Ti Hj) as (_ & _ & [TJ|TJ]).
          + apply orb_false_iff in TJ. destruct TJ as [-> _]. rewrite upd_other by auto. reflexivity.
          + exfalso. destruct (PLs j TJ) as (v & c' & col & PR). exact (KN _ _ j c v c' col IR Hj PR). }
      apply (within_le 0); [apply RQ; auto|]. eapply within_ext; [symmetry; exact DV|].
      destruct (FD i a Hi Ti HA) as [D1 D2].
      pose proof (tr_lhs s TG i Hi Ti) as TL. pose proof (tr_rhs s TG i Hi Ti) as TR.
      assert (EX : if pos then ext_le (ext_div (ext_minus (if t_lhs_inf (rt s i) then rhs s i else lhs s i) (M_Post.wsum (sx (sol_of x)) (others k (mA s i)))) a) q
                   else le_ext q (ext_div (ext_minus (if t_lhs_inf (rt s i) then rhs s i else lhs s i) (M_Post.wsum (sx (sol_of x)) (others k (mA s i)))) a)).
      { destruct pos; [apply (proj2 (extreme_up k x q _ _ _ _ HR Q0) _ _ a IR HA)|apply (proj2 (extreme_dn k x q _ _ _ _ HR Q0) _ _ a IR HA)]. }
      pose proof (wsum_dot x (others k (mA s i))) as WD. set (d := dot (others k (mA s i)) x) in *. clearbody d.
      set (w := M_Post.wsum _ _) in *. clearbody w.
      clear - EX WD D1 D2 TL TR Na.
      assert (SOL : forall b, a * ((b - w) / a) == b - w) by (intros; field; auto).
      destruct (Q_dec a 0) as [[L|G]|Z]; [| |contradiction]; destruct pos.
      * rewrite (D2 L) in *. rewrite TL. split; [exact I|]. destruct (rhs s i) as [|b|]; [destruct (t_rhs_inf (rt s i)); discriminate| |exact I].
        cbn in EX |- *. specialize (SOL b). set (p := (b - w) / a) in *. clearbody p.
        assert (0 <= (0 - a) * (q - p)) by (apply Qmult_le_0_compat; lra). lra.
      * rewrite (D2 L) in TR. rewrite TR. split; [|exact I]. destruct (t_lhs_inf (rt s i)); [rewrite TL; exact I|]. destruct (lhs s i) as [|b|]; try discriminate.
        cbn in EX |- *. specialize (SOL b). set (p := (b - w) / a) in *. clearbody p.
        assert (0 <= (0 - a) * (p - q)) by (apply Qmult_le_0_compat; lra). lra.
      * rewrite (D1 G) in TR. rewrite TR. split; [|exact I]. destruct (t_lhs_inf (rt s i)); [rewrite TL; exact I|]. destruct (lhs s i) as [|b|]; try discriminate.
        cbn in EX |- *. specialize (SOL b). set (p := (b - w) / a) in *. clearbody p.
        assert (0 <= a * (q - p)) by (apply Qmult_le_0_compat; lra). lra.
      * rewrite (D1 G) in *. rewrite TL. split; [exact I|]. destruct (rhs s i) as [|b|]; [destruct (t_rhs_inf (rt s i)); discriminate| |exact I].
        cbn in EX |- *. specialize (SOL b). set (p := (b - w) / a) in *. clearbody p.
        assert (0 <= a * (p - q)) by (apply Qmult_le_0_compat; lra). lra.
    + assert (TI : t_inact (rt s3 i) = false) by (rewrite RT3, HB; auto).
      specialize (CR i ltac:(rewrite Y1; auto) TI). rewrite Y5, Y6, Y7 in CR.
      eapply within_ext; [|exact CR]. apply dot_ext. intros j a Hj.
      assert (N : j <> k).
      { intros ->. apply (w_agree s (inv_0 s H) i k a Hi Hk) in Hj; [|apply act_alive; auto; apply H|apply cact_alive; auto; apply H].
        assert (HB' : hasb i (mAT s k) = true) by (apply hasb_has; exists a; auto). congruence. }
      unfold L_Prim.xv. destruct (Y8 j N) as (-> & _ & ->). rewrite upd_other by auto. lra.
  - intros j Hj Tj. destruct (Nat.eq_dec j k) as [->|N].
    + rewrite upd_same. apply (within_le 0); [pose proof tol_pos; lra|]. apply within0. destruct pos; rewrite BD.
      * split; [|exact I]. apply (proj1 (extreme_up k x q _ _ _ _ HR Q0)).
      * split; [exact I|]. apply (proj1 (extreme_dn k x q _ _ _ _ HR Q0)).
    + rewrite upd_other by auto. destruct (Y8 j N) as (B1 & B2 & B3).
      specialize (CC j ltac:(rewrite Y2; auto) ltac:(rewrite B1; auto)). rewrite B2, B3 in CC. exact CC.
Qed.
Lemma fix_col_PL : forall s k v ck, PL s -> PL (fst (fix_col k v ck s)).
Proof.
  intros s k v ck P. pose proof (fix_col_cases s k v ck) as C. destruct (fix_col k v ck s) as [s1 st]. cbn [fst].
  destruct C as [[_ [-> _]]|[_ [_ [_ [A [W E]]]]]]; [auto|]. rewrite E. intros j. unfold set_col_to_fixed. sr.
  intros Hj. apply in_app_or in Hj. destruct Hj as [Hj|[<-|[]]].
  - destruct (P j Hj) as (v' & c & col & X). exists v', c, col. right; auto.
  - exists v, ck, (mAT s k). left; auto.
Qed.
Lemma dual_fix_loop_PB : forall l s ti st, Inv s -> Mid s -> PL s -> NoDup l -> (forall k, In k l -> (k < nc s)%nat) ->
  let '(s', _, _) := dual_fix_loop l s ti st in PB s s' /\ PL s'.
Proof.
  induction l as [|k l IH]; intros s ti st H M P ND HL; cbn [dual_fix_loop].
  - split; [apply PB_refl|auto].
  - inversion ND; subst.
    assert (HL' : forall j, In j l -> (j < nc s)%nat) by (intros; apply HL; simpl; auto).
    assert (Hk : (k < nc s)%nat) by (apply HL; simpl; auto).
    destruct (t_cinact (ct s k)) eqn:TK; cbn [orb]; [apply IH; auto|].
    destruct (_ && _); [apply IH; auto|].
    assert (X : let '(s', ti', _) := simple_dual_fix_col k s ti in stp s s' /\ PB s s' /\ Mid s' /\ PL s').
    { assert (F : forall v, let s' := fst (fix_col k v (cst s k) s) in stp s s' /\ PB s s' /\ Mid s' /\ PL s').
      { intros v. cbv zeta. split; [apply stp_fix_col; auto|]. split; [apply fix_col_PB; auto; apply M|].
        split; [apply fix_col_Mid; auto|apply fix_col_PL; auto]. }
      pose proof (conj (stp_refl s H) (conj (PB_refl rtol ctol s) (conj M P))) as U.
      unfold simple_dual_fix_col. repeat match goal with |- context [if ?b then _ else _] => destruct b end;
        first [exact U|apply F]. }
    destruct (simple_dual_fix_col k s ti) as [[s1 ti1] st1]. destruct X as [S1 [B1 [M1 P1]]].
    assert (Y := IH s1 ti1 (N.lor st st1) (st_inv _ _ S1) M1 P1 H3).
    rewrite (stp_nc _ _ S1) in Y. specialize (Y HL').
    destruct (dual_fix_loop l s1 ti1 _) as [[s2 ti2] st2]. destruct Y as [Y1 Y2]. split; [|auto].
    eapply PB_trans; [auto|exact B1|exact Y1].
Qed.
Lemma inf_steps_PB : forall l s, Inv s -> Mid s -> RV s -> PL s -> w_sub s = [] -> NoDup (map snd l) ->
  (forall e, In e l -> inf_ok s e) -> PB s (foldS inf_step l s).
Proof.
  induction l as [|[b k] l IH]; intros s H M V P WS ND HL; cbn [foldS]; [apply PB_refl|].
  cbn [map snd] in ND. inversion ND as [|? ? NI ND']; subst.
  destruct (HL (b, k) (or_introl eq_refl)) as (Hk & Tk & C0 & LB). cbn [fst snd] in *.
  assert (ES : inf_step s (b, k) = fix_col_to_inf b k s).
  { unfold inf_step. destruct (Nat.eqb k 0); auto. destruct b.
    - destruct LB as [L1 [L2 _]]. rewrite L2. apply Z.eqb_neq in L1. rewrite L1. reflexivity.
    - destruct LB as [L1 _]. rewrite L1. reflexivity. }
  destruct (active_unlisted s k H Tk) as [NF _].
  destruct (fix_col_to_inf_stp b k s H Hk) as [S1 F1].
  pose proof (fix_col_to_inf_Mid b k s H M Hk NF) as M1.
  destruct (fix_col_to_inf_keep b k s H Hk V) as (V1 & C1 & K1).
  assert (B1 : PB s (fix_col_to_inf b k s)).
  { apply inf_PB; auto.
    - apply M.
    - apply locks_free; auto; [apply M|]. destruct b; tauto.
    - pose proof (tr_ub s (md_tags s M) k Hk Tk) as XU. pose proof (tr_lb s (md_tags s M) k Hk Tk) as XL.
      destruct b; [destruct LB as [_ [_ LB]]; rewrite LB in XU|destruct LB as [_ LB]; rewrite LB in XL]; auto. }
  destruct (inf_shape b k s) as [R [W [L [EE _]]]]. cbv zeta in EE.
  rewrite ES. eapply PB_trans; [auto|exact B1|]. apply IH; auto.
  - apply S1.
  - destruct B1 as (_ & _ & new & EL & _). intros j Hj. rewrite EL.
    assert (Hj' : In j (w_fixed s)) by (rewrite EE in Hj; exact Hj). destruct (P j Hj') as (v & c & col & X).
    exists v, c, col. apply in_or_app; auto.
  - rewrite EE. exact WS.
  - intros e He. destruct (HL e (or_intror He)) as (Q1 & Q2 & Q3 & Q4).
    assert (N : snd e <> k) by (intros E0; apply NI; rewrite <- E0; apply in_map; auto).
    unfold inf_ok. rewrite K1 by auto. rewrite C1, (stp_nc _ _ S1).
    assert (DU : dns (fix_col_to_inf b k s) = dns s /\ ups (fix_col_to_inf b k s) = ups s) by (rewrite EE; split; reflexivity).
    destruct DU as [-> ->]. auto.
Qed.
Lemma dual_fix_PB : forall s, Inv s -> Mid s -> quiet s -> PB s (fst (simple_dual_fix s)).
Proof.
  intros s H M Q. unfold simple_dual_fix.
  assert (HL : forall k, In k (seq 0 (nc s)) -> (k < nc s)%nat) by (intros k Hk; apply in_seq in Hk; lia).
  pose proof (dual_fix_loop_stp (seq 0 (nc s)) s [] UNCHANGED H HL) as X.
  pose proof (dual_fix_loop_Back True (seq 0 (nc s)) s [] UNCHANGED H (quiet_freshA s H Q) (quiet_RV s H Q) (seq_NoDup _ _) HL (NoDup_nil _)) as Y.
  assert (P0 : PL s) by (intros k Hk; rewrite (q_fixed s Q) in Hk; contradiction).
  pose proof (dual_fix_loop_PB (seq 0 (nc s)) s [] UNCHANGED H M P0 (seq_NoDup _ _) HL) as Z.
  pose proof (dual_fix_loop_Mid (seq 0 (nc s)) s [] UNCHANGED H M (seq_NoDup _ _) HL (NoDup_nil _)) as MM.
  assert (D0 : DF (fun _ => 0) (fun _ => FEAS_TOL) s s (seq 0 (nc s)) []).
  { constructor; auto using gstep_refl, seq_NoDup; [constructor|intros e []]. }
  assert (TO : tol_ok (fun _ => FEAS_TOL) s).
  { intros k _ _. pose proof tol_pos. split; [lra|left; lra]. }
  pose proof (DF_loop _ _ s TO (seq 0 (nc s)) s [] UNCHANGED D0 (or_introl eq_refl)) as L1.
  destruct (dual_fix_loop (seq 0 (nc s)) s [] UNCHANGED) as [[s1 ti] st].
  destruct X as [S1 [F1 T1]]; [intros e []|]. destruct Y as (_ & V1 & N1 & T2); [intros e []|].
  destruct Z as [B1 P1]. destruct MM as (M1 & _ & T3); [intros e []|]. destruct L1 as [D1 _]. cbn [fst].
  assert (W1 : w_sub s1 = []) by (pose proof (q_sub s Q); destruct F1 as [f1 _]; congruence).
  assert (IO : forall e, In e ti -> inf_ok s1 e).
  { intros e He. pose proof (df_ti _ _ _ _ _ _ D1 e He) as (I1 & I2 & I3 & I4).
    destruct (df_rest _ _ _ _ _ _ D1 (snd e) (or_intror (in_map snd _ _ He))) as [E1 _].
    unfold inf_ok. rewrite E1, (df_ups _ _ _ _ _ _ D1), (df_dns _ _ _ _ _ _ D1), (df_cst _ _ _ _ _ _ D1), (df_nc _ _ _ _ _ _ D1). auto. }
  pose proof (inf_steps_PB ti s1 (st_inv _ _ S1) M1 V1 P1 W1 N1 IO) as B2.
  pose proof (inf_steps_Mid ti s1 (st_inv _ _ S1) M1 N1 T3) as M2.
  destruct (inf_steps_stp ti s1 (st_inv _ _ S1)) as [S2 F2]; [apply T2|].
  set (s2 := foldS inf_step ti s1) in *.
  destruct (stp_dir s2 (st_inv _ _ S2)) as [S3 [F3 W3]].
  assert (M3 : Mid (delete_inactive_rows s2)) by (apply dir_Mid; auto; apply S2).
  eapply PB_trans; [auto|exact B1|]. eapply PB_trans; [auto|exact B2|].
  eapply PB_trans; [auto|apply dir_PB; apply S2|]. apply finish_PB; [apply S3|apply M3|apply M3|].
  destruct F2 as [_ [f2 _]], F3 as [_ [f3 _]]. congruence.
Qed.
End Prim.
