(** The facts that hold in all states between and inside the explorers: tags agree with the bounds
    and sides, columns waiting to be deleted are listed once, rows listed as empty are active and
    locks count the sides that stop a variable from moving. *)
From Coq Require Import NArith Lqa.
From Verif Require Import M_Num S_LP M_Settings M_Driver S_Driver M_State M_Act M_Core M_Simple
  M_StonCols M_Dton M_Parallel M_Propagate M_Init M_Post M_Run S_Run S_Struct S_Sem
  L_State L_Struct L_Struct2 L_Struct3 L_Struct4 L_Struct5 L_Struct6 L_Struct11 L_Sem L_Sem2 L_Sem3 L_Sem4.
Open Scope Q_scope.

(** ** Weights *)
Definition upw (ri li : bool) (a : Q) : Z :=
  ((if ri then 0 else if Qgtb a 0 then 1 else 0) + (if li then 0 else if Qgtb a 0 then 0 else 1))%Z.
Definition dnw (ri li : bool) (a : Q) : Z := upw li ri a.
Definition upt (t : rowtag) : Q -> Z := upw (t_rhs_inf t) (t_lhs_inf t).
Definition dnt (t : rowtag) : Q -> Z := dnw (t_rhs_inf t) (t_lhs_inf t).

(** Sum over the entries of a row or column *)
Fixpoint wsum (w : nat -> Q -> Z) (c : row) : Z :=
  match c with [] => 0%Z | (i, a) :: c' => (w i a + wsum w c')%Z end.
(** Sum over the entries with index k *)
Fixpoint ksum (g : Q -> Z) (k : nat) (r : row) : Z :=
  match r with [] => 0%Z | (j, a) :: r' => ((if Nat.eqb j k then g a else 0) + ksum g k r')%Z end.

Lemma wsum_ext : forall w w' c, (forall i a, In (i, a) c -> w i a = w' i a) -> wsum w c = wsum w' c.
Proof.
  induction c as [|[i a] c IH]; simpl; intros H; auto. rewrite (H i a) by auto.
  rewrite IH; auto.
Qed.
Lemma wsum_change : forall w w' i c, (forall j a, j <> i -> w' j a = w j a) ->
  wsum w' c = (wsum w c + ksum (fun a => w' i a - w i a)%Z i c)%Z.
Proof.
  induction c as [|[j a] c IH]; simpl; intros H; auto. rewrite IH by auto.
  destruct (Nat.eqb_spec j i) as [->|D]; [lia|]. rewrite H by auto. lia.
Qed.
Lemma wsum_filter : forall p w c, wsum w (filter p c) = wsum (fun i a => if p (i, a) then w i a else 0%Z) c.
Proof. induction c as [|[i a] c IH]; simpl; auto. destruct (p (i, a)); simpl; rewrite IH; lia. Qed.
Lemma ksum_out : forall g k r, ~ has k r -> ksum g k r = 0%Z.
Proof.
  induction r as [|[j a] r IH]; simpl; intros N; auto. destruct (Nat.eqb_spec j k) as [->|].
  - exfalso. apply N. exists a. left; reflexivity.
  - rewrite IH; auto. intros [b Hb]. apply N. exists b. right; auto.
Qed.
Lemma ksum_in : forall g k a r, srt r -> In (k, a) r -> ksum g k r = g a.
Proof.
  induction r as [|[j b] r IH]; simpl; intros S Hin; [tauto|].
  apply srt_inv in S. destruct S as [S L]. destruct Hin as [E|Hin].
  - injection E as -> ->. rewrite Nat.eqb_refl, ksum_out; [lia|].
    intros [c Hc]. apply L in Hc. simpl in Hc. lia.
  - destruct (Nat.eqb_spec j k) as [->|]; [apply L in Hin; simpl in Hin; lia|].
    rewrite (IH S Hin). lia.
Qed.
Lemma ksum_agree : forall g k i r c, srt r -> srt c -> (forall a, In (k, a) r <-> In (i, a) c) ->
  ksum g k r = ksum g i c.
Proof.
  intros g k i r c S1 S2 H. destruct (hasb k r) eqn:HB.
  - apply hasb_has in HB. destruct HB as [a Ha]. rewrite (ksum_in g k a r S1 Ha).
    apply H in Ha. rewrite (ksum_in g i a c S2 Ha). reflexivity.
  - assert (N : ~ has k r) by (intros C; apply hasb_has in C; congruence).
    rewrite (ksum_out g k r N). rewrite ksum_out; auto. intros [a Ha]. apply N. exists a. apply H; auto.
Qed.
Lemma ksum_ext : forall g g' k r, (forall a, g a = g' a) -> ksum g k r = ksum g' k r.
Proof. induction r as [|[j a] r IH]; simpl; intros H; auto. rewrite IH, H; auto. Qed.
Lemma ksum_scale : forall d g k r, ksum (fun a => d * g a)%Z k r = (d * ksum g k r)%Z.
Proof. induction r as [|[j a] r IH]; simpl; [lia|]. rewrite IH. destruct (Nat.eqb j k); lia. Qed.

(** ** The effect of lock updates *)
Lemma lock_coeff_eff : forall d ri li j a s k, let s' := lock_coeff d ri li j a s in
  ups s' k = (ups s k + if Nat.eqb j k then d * upw ri li a else 0)%Z /\
  dns s' k = (dns s k + if Nat.eqb j k then d * dnw ri li a else 0)%Z.
Proof.
  intros d ri li j a s k. cbv zeta. unfold lock_coeff, lock_rhs, lock_lhs, dnw, upw.
  destruct ri, li, (Qgtb a 0); sr; updg; rewrite ?upd_same, ?Nat.eqb_refl;
    repeat match goal with |- context [Nat.eqb ?x ?y] => destruct (Nat.eqb_spec x y); [congruence|] end;
    try (destruct (Nat.eqb_spec j k)); split; lia.
Qed.
Lemma lock_fold : forall d ri li r s k,
  let s' := foldS (fun s e => lock_coeff d ri li (fst e) (snd e) s) r s in
  ups s' k = (ups s k + d * ksum (upw ri li) k r)%Z /\
  dns s' k = (dns s k + d * ksum (dnw ri li) k r)%Z.
Proof.
  induction r as [|[j a] r IH]; intros s k; cbv zeta; simpl; [split; lia|].
  destruct (IH (lock_coeff d ri li j a s) k) as [-> ->].
  destruct (lock_coeff_eff d ri li j a s k) as [-> ->].
  destruct (Nat.eqb j k); split; lia.
Qed.
Lemma lock_fold_only : forall d ri li r s,
  locks_only s (foldS (fun s e => lock_coeff d ri li (fst e) (snd e) s) r s).
Proof.
  intros. apply foldS_rel.
  - exact locks_only_refl.
  - exact locks_only_trans.
  - intros. apply locks_only_coeff.
Qed.

(** ** The invariant *)
Definition LK (s : state) : Prop := forall k, (k < nc s)%nat -> t_cinact (ct s k) = false ->
  ups s k = wsum (fun i => upt (rt s i)) (mAT s k) /\ dns s k = wsum (fun i => dnt (rt s i)) (mAT s k).
Record Mid (s : state) : Prop := {
  md_tags : tags_right s;
  md_pend : pend_ok s;
  md_empty : empty_act s;
  md_lk : LK s }.

Lemma LK_frame : forall s s',
  (forall k, (k < nc s')%nat -> t_cinact (ct s' k) = false ->
     (k < nc s)%nat /\ t_cinact (ct s k) = false /\ ups s' k = ups s k /\ dns s' k = dns s k /\
     mAT s' k = mAT s k /\
     (forall i a, In (i, a) (mAT s k) -> t_lhs_inf (rt s' i) = t_lhs_inf (rt s i) /\
                                         t_rhs_inf (rt s' i) = t_rhs_inf (rt s i))) ->
  LK s -> LK s'.
Proof.
  intros s s' F L k Hk T. destruct (F k Hk T) as [A [B [C [D [E G]]]]].
  rewrite C, D, E. destruct (L k A B) as [-> ->].
  split; apply wsum_ext; intros i a Hin; destruct (G i a Hin) as [X Y]; unfold upt, dnt; rewrite X, Y; reflexivity.
Qed.

(** A row of the tags changes and the locks of its columns with it. *)
Lemma LK_row : forall s s' i t, Inv s -> (i < nr s)%nat -> rsz s i <> (-1)%Z ->
  nc s' = nc s -> mAT s' = mAT s -> (forall k, t_cinact (ct s' k) = t_cinact (ct s k)) -> rt s' = upd (rt s) i t ->
  (forall k, ups s' k = ups s k + ksum (fun a => upt t a - upt (rt s i) a) k (mA s i))%Z ->
  (forall k, dns s' k = dns s k + ksum (fun a => dnt t a - dnt (rt s i) a) k (mA s i))%Z ->
  LK s -> LK s'.
Proof.
  intros s s' i t H Hi Ri EN EA EC ER EU ED L k Hk T. rewrite EN in Hk. rewrite EC in T.
  assert (Ck : csz s k <> (-1)%Z) by (apply cact_alive; auto; apply H).
  assert (AG : forall g, ksum g k (mA s i) = ksum g i (mAT s k)).
  { intros g. apply ksum_agree.
    - apply (w_rsrt s (inv_0 s H)); auto.
    - apply (w_csrt s (inv_0 s H)); auto.
    - intros a. apply (w_agree s (inv_0 s H)); auto. }
  destruct (L k Hk T) as [LU LD]. rewrite EU, ED, EA, !AG, LU, LD, ER. split.
  - rewrite (wsum_change (fun i => upt (rt s i)) (fun j => upt (upd (rt s) i t j)) i).
    + rewrite upd_same. reflexivity.
    + intros j a D. rewrite upd_other by auto. reflexivity.
  - rewrite (wsum_change (fun i => dnt (rt s i)) (fun j => dnt (upd (rt s) i t j)) i).
    + rewrite upd_same. reflexivity.
    + intros j a D. rewrite upd_other by auto. reflexivity.
Qed.

(** Nothing the invariant speaks of changes. *)
Record mid_same (s s' : state) : Prop := mkMS {
  ms_nr : nr s' = nr s;  ms_nc : nc s' = nc s;  ms_AT : mAT s' = mAT s;
  ms_lhs : lhs s' = lhs s;  ms_rhs : rhs s' = rhs s;  ms_lb : lb s' = lb s;  ms_ub : ub s' = ub s;
  ms_rt : rt s' = rt s;  ms_ct : ct s' = ct s;  ms_csz : csz s' = csz s;
  ms_ups : ups s' = ups s;  ms_dns : dns s' = dns s;
  ms_fx : w_fixed s' = w_fixed s;  ms_er : w_empty_rows s' = w_empty_rows s }.
Ltac mid_ref := constructor; sr; reflexivity.
Lemma mid_same_Mid : forall s s', mid_same s s' -> Mid s -> Mid s'.
Proof.
  intros s s' E [[G1 G2 G3 G4 G5] [P1 P2] A L]. constructor.
  - constructor; rewrite ?(ms_nr _ _ E), ?(ms_nc _ _ E), ?(ms_lhs _ _ E), ?(ms_rhs _ _ E), ?(ms_lb _ _ E),
      ?(ms_ub _ _ E), ?(ms_rt _ _ E), ?(ms_ct _ _ E); auto.
  - constructor; rewrite ?(ms_fx _ _ E), ?(ms_csz _ _ E), ?(ms_ct _ _ E); auto.
  - unfold empty_act. rewrite (ms_er _ _ E), (ms_rt _ _ E). exact A.
  - unfold LK. rewrite (ms_nc _ _ E), (ms_ct _ _ E), (ms_ups _ _ E), (ms_dns _ _ E), (ms_AT _ _ E), (ms_rt _ _ E).
    exact L.
Qed.
Lemma mid_same_acts : forall s s', acts_only s s' -> mid_same s s'.
Proof. intros s s' [a [w ->]]. mid_ref. Qed.

(** ** Bounds *)
Definition nobody : (nat -> Q) -> Prop := fun _ => False.
Lemma Mid_of_sem : forall r c s t, semstep nobody r c s t -> LK t -> Mid t.
Proof. intros r c s t [A B C _ _ _] L. constructor; auto. Qed.

Lemma fix_col_Mid : forall s k v ck, Inv s -> Mid s -> (k < nc s)%nat -> t_cinact (ct s k) = false ->
  Mid (fst (fix_col k v ck s)).
Proof.
  intros s k v ck H [G P E L] Hk T. pose proof (fix_col_cases s k v ck) as FC.
  destruct (fix_col k v ck s) as [s1 st] eqn:EF. cbn [fst].
  destruct FC as [[-> [-> _]]|[-> [_ [_ [A [W E1]]]]]]; [constructor; auto|].
  apply (Mid_of_sem zero tol_cols s).
  - eapply fix_col_sem; eauto.
    + intros x [].
    + left. unfold tol_cols. lra.
  - subst s1. unfold set_col_to_fixed. apply (LK_frame s); auto. sr. intros j Hj TJ.
    updh TJ; [discriminate|]. repeat split; auto.
Qed.
Lemma update_lb_Mid : forall s k v i, Inv s -> Mid s -> (k < nc s)%nat -> t_cinact (ct s k) = false ->
  Mid (fst (update_lb k v i s)).
Proof.
  intros s k v i H [G P E L] Hk T. pose proof (update_lb_cases k v i s) as X.
  destruct (update_lb k v i s) as [s1 st]. cbn [fst].
  destruct X as [[_ [-> _]]|[_ [_ [[-> _]|[A B]]]]]; try (constructor; auto; fail).
  apply (Mid_of_sem zero zero s).
  - eapply lb_new_sem; eauto.
    + intros TL. specialize (A TL). pose proof tol_pos. lra.
    + intros x [].
  - destruct B as [A1 [W1 ->]]. apply (LK_frame s); auto. sr. intros j Hj TJ.
    split; [auto|]. split; [updh TJ; auto|]. auto 10.
Qed.
Lemma update_ub_Mid : forall s k v i, Inv s -> Mid s -> (k < nc s)%nat -> t_cinact (ct s k) = false ->
  Mid (fst (update_ub k v i s)).
Proof.
  intros s k v i H [G P E L] Hk T. pose proof (update_ub_cases k v i s) as X.
  destruct (update_ub k v i s) as [s1 st]. cbn [fst].
  destruct X as [[_ [-> _]]|[_ [_ [[-> _]|[A B]]]]]; try (constructor; auto; fail).
  apply (Mid_of_sem zero zero s).
  - eapply ub_new_sem; eauto.
    + intros TL. specialize (A TL). pose proof tol_pos. lra.
    + intros x [].
  - destruct B as [A1 [W1 ->]]. apply (LK_frame s); auto. sr. intros j Hj TJ.
    split; [auto|]. split; [updh TJ; auto|]. auto 10.
Qed.

(** ** Rows *)
Lemma set_row_inactive_Mid : forall s i v, Mid s -> ~ In i (w_empty_rows s) -> Mid (set_row_to_inactive i v s).
Proof.
  intros s i v [[G1 G2 G3 G4 G5] [P1 P2] E L] N. unfold set_row_to_inactive. constructor.
  - constructor; sr; auto; intros j Hj; updg; try discriminate; first [apply G1|apply G2|apply G3]; auto.
  - constructor; sr; auto.
  - intros j Hj. sra. rewrite upd_other by congruence. auto.
  - apply (LK_frame s); auto. sr. intros k Hk T. do 5 (split; [auto|]). intros j a _. updg; auto.
Qed.

(** Whether a row listed as empty can be what we are at *)
Lemma not_empty_row : forall s i e r, Inv s -> mA s i = e :: r -> ~ In i (w_empty_rows s).
Proof.
  intros s i e r H E X. destruct (l_empty_rows s (inv_L s H) i X) as [_ [A _]]. congruence.
Qed.
Lemma not_empty_rsz : forall s i, Inv s -> (i < nr s)%nat -> t_inact (rt s i) = false -> rsz s i <> 0%Z ->
  ~ In i (w_empty_rows s).
Proof.
  intros s i H Hi T R X. destruct (l_empty_rows s (inv_L s H) i X) as [_ [A _]].
  apply R. rewrite (tight_rsz s i (inv_0 s H) (inv_R s H) Hi T), A. reflexivity.
Qed.

(** ** Deleting rows *)
Lemma delete_row_locks : forall s i, W0 s -> (i < nr s)%nat -> rsz s i <> (-1)%Z ->
  forall k, (k < nc s)%nat -> csz s k <> (-1)%Z ->
  ups (delete_row s i) k = (ups s k - ksum (upt (rt s i)) k (mA s i))%Z /\
  dns (delete_row s i) k = (dns s k - ksum (dnt (rt s i)) k (mA s i))%Z.
Proof.
  intros s i H Hi Ri k Hk Ck. unfold delete_row. destruct (Z.eqb_spec (rsz s i) 0) as [Z0|NZ].
  - assert (N : ~ has k (mA s i)).
    { intros [a Ha]. apply Ck. apply (zero_rsz_dead s i H Hi k a Z0 Ha). }
    rewrite !ksum_out by auto. sr. split; lia.
  - cbv zeta. sr. fold (upt (rt s i)) (dnt (rt s i)). unfold dnt, dnw, upt.
    pose proof (w_rsrt s H i Hi) as S. revert S.
    assert (GEN : forall r t, srt r -> csz t k <> (-1)%Z \/ ~ has k r ->
      let t' := foldS (fun t e => if Z.eqb (csz t (fst e)) (-1) then t
        else lock_coeff (-1) (t_rhs_inf (rt s i)) (t_lhs_inf (rt s i)) (fst e) (snd e)
               (set_csz1 (fst e) (csz t (fst e) - 1)%Z t)) r t in
      ups t' k = (ups t k - ksum (upw (t_rhs_inf (rt s i)) (t_lhs_inf (rt s i))) k r)%Z /\
      dns t' k = (dns t k - ksum (upw (t_lhs_inf (rt s i)) (t_rhs_inf (rt s i))) k r)%Z).
    { induction r as [|[j a] r IH]; intros t S C; cbv zeta; cbn [foldS ksum fst snd]; [split; lia|].
      apply srt_inv in S. destruct S as [S LT].
      assert (NR : j = k -> ~ has k r).
      { intros -> [b Hb]. apply LT in Hb. simpl in Hb. lia. }
      set (t1 := if Z.eqb (csz t j) (-1) then t else _).
      assert (C1 : csz t1 k <> (-1)%Z \/ ~ has k r).
      { destruct (Nat.eq_dec j k) as [e|D]; [right; auto|]. destruct C as [C|C].
        - left. unfold t1. destruct (Z.eqb_spec (csz t j) (-1)); auto.
          destruct (locks_only_coeff (-1) (t_rhs_inf (rt s i)) (t_lhs_inf (rt s i)) j a
                      (set_csz1 j (csz t j - 1)%Z t)) as [u [d ->]]. sr. rewrite upd_other by auto. auto.
        - right. intros [b Hb]. apply C. exists b. right; auto. }
      destruct (IH t1 S C1) as [-> ->].
      assert (E : ups t1 k = (ups t k - if Nat.eqb j k then upw (t_rhs_inf (rt s i)) (t_lhs_inf (rt s i)) a else 0)%Z /\
                  dns t1 k = (dns t k - if Nat.eqb j k then upw (t_lhs_inf (rt s i)) (t_rhs_inf (rt s i)) a else 0)%Z).
      { unfold t1. destruct (Z.eqb_spec (csz t j) (-1)) as [e|D].
        - destruct (Nat.eqb_spec j k) as [->|]; [|split; lia]. exfalso. destruct C as [C|C]; [auto|].
          apply C. exists a. left; reflexivity.
        - destruct (lock_coeff_eff (-1) (t_rhs_inf (rt s i)) (t_lhs_inf (rt s i)) j a
                      (set_csz1 j (csz t j - 1)%Z t) k) as [-> ->]. sr. unfold dnw.
          destruct (Nat.eqb j k); split; lia. }
      destruct E as [-> ->]. split; lia. }
    intros S. specialize (GEN (mA s i) (set_rsz1 i (-1)%Z (set_nnz (nnz s - rsz s i)%Z s)) S (or_introl Ck)).
    cbv zeta in GEN. sra. exact GEN.
Qed.

(** Locks while some of the rows are already gone *)
Definition LKw (s : state) : Prop := forall k, (k < nc s)%nat -> t_cinact (ct s k) = false ->
  ups s k = wsum (fun i a => if Z.eqb (rsz s i) (-1) then 0%Z else upt (rt s i) a) (mAT s k) /\
  dns s k = wsum (fun i a => if Z.eqb (rsz s i) (-1) then 0%Z else dnt (rt s i) a) (mAT s k).

Lemma delete_row_LKw : forall s i, W0 s -> (i < nr s)%nat -> t_inact (rt s i) = true -> rsz s i <> (-1)%Z ->
  LKw s -> LKw (delete_row s i).
Proof.
  intros s i H Hi T Ri L.
  destruct (delete_row_eq s i (w_rsrt s H i Hi) (zero_rsz_dead s i H Hi)) as [u [d [c [M [E _]]]]].
  assert (ENC : nc (delete_row s i) = nc s) by (rewrite E; reflexivity).
  assert (ECT : ct (delete_row s i) = ct s) by (rewrite E; reflexivity).
  assert (EAT : mAT (delete_row s i) = mAT s) by (rewrite E; reflexivity).
  assert (ERT : rt (delete_row s i) = rt s) by (rewrite E; reflexivity).
  assert (ERS : rsz (delete_row s i) = upd (rsz s) i (-1)%Z) by (rewrite E; reflexivity).
  intros k Hk Tk. rewrite ENC in Hk. rewrite ECT in Tk.
  assert (Ck : csz s k <> (-1)%Z) by (apply cact_alive; auto).
  destruct (delete_row_locks s i H Hi Ri k Hk Ck) as [-> ->]. rewrite EAT, ERT, ERS.
  assert (AG : forall g, ksum g k (mA s i) = ksum g i (mAT s k)).
  { intros g. apply ksum_agree.
    - apply (w_rsrt s H); auto.
    - apply (w_csrt s H); auto.
    - intros a. apply (w_agree s H); auto. }
  destruct (L k Hk Tk) as [-> ->]. rewrite !AG.
  assert (W : forall g : rowtag -> Q -> Z,
    (wsum (fun i0 a => if Z.eqb (rsz s i0) (-1) then 0%Z else g (rt s i0) a) (mAT s k) - ksum (g (rt s i)) i (mAT s k))%Z =
    wsum (fun i0 a => if Z.eqb (upd (rsz s) i (-1)%Z i0) (-1) then 0%Z else g (rt s i0) a) (mAT s k)).
  { intros g. rewrite (wsum_change (fun i0 a => if Z.eqb (rsz s i0) (-1) then 0%Z else g (rt s i0) a)
      (fun i0 a => if Z.eqb (upd (rsz s) i (-1)%Z i0) (-1) then 0%Z else g (rt s i0) a) i).
    - rewrite upd_same, Z.eqb_refl. destruct (Z.eqb_spec (rsz s i) (-1)); [congruence|].
      rewrite (ksum_ext (fun a => (0 - g (rt s i) a)%Z) (fun a => (-1 * g (rt s i) a)%Z)) by (intros; lia).
      rewrite ksum_scale. lia.
    - intros j a D. rewrite upd_other by auto. reflexivity. }
  rewrite !W. auto.
Qed.
Lemma delete_rows_LKw : forall l s, W0 s -> NoDup l ->
  (forall i, In i l -> (i < nr s)%nat /\ t_inact (rt s i) = true /\ rsz s i <> (-1)%Z) ->
  LKw s -> LKw (foldS delete_row l s).
Proof.
  induction l as [|i l IH]; simpl; intros s H ND HL L; auto.
  inversion ND as [|x l' Nin ND']; subst.
  destruct (HL i (or_introl eq_refl)) as [Hi [Ti Ri]].
  destruct (delete_row_W0 s i H Hi Ti Ri) as [H1 _].
  destruct (delete_row_eq s i (w_rsrt s H i Hi) (zero_rsz_dead s i H Hi)) as [u1 [d1 [c1 [M1 [E1 _]]]]].
  apply IH; auto.
  - intros j Hj. destruct (HL j (or_intror Hj)) as [A [B C]]. rewrite E1. sr.
    rewrite upd_other by congruence. auto.
  - apply delete_row_LKw; auto.
Qed.
Lemma dir_LK : forall s, Inv s -> LK s -> LK (delete_inactive_rows s).
Proof.
  intros s H L. unfold delete_inactive_rows. destruct (w_rows s) as [|i0 l0] eqn:EW; auto. rewrite <- EW in *.
  assert (HL : forall i, In i (w_rows s) -> (i < nr s)%nat /\ t_inact (rt s i) = true /\ rsz s i <> (-1)%Z).
  { intros i Hi. apply (l_rows s (inv_L s H)); auto. }
  assert (LW : LKw s).
  { intros k Hk T. destruct (L k Hk T) as [-> ->]. split; apply wsum_ext; intros i a Hin;
      (destruct (Z.eqb_spec (rsz s i) (-1)) as [e|]; [|reflexivity]);
      exfalso; apply (inv_C s H i k a Hk T Hin); auto. }
  pose proof (delete_rows_LKw (w_rows s) s (inv_0 s H) (l_rows_nd s (inv_L s H)) HL LW) as LW'.
  destruct (delete_rows_fold (w_rows s) s (inv_0 s H) (l_rows_nd s (inv_L s H)) HL)
    as [u [d [c [M [r [n [E [W _]]]]]]]].
  set (s1 := foldS delete_row (w_rows s) s) in *.
  destruct (compact_cols_fold (seq 0 (nc s)) s1 (seq_NoDup _ _)) as [MT [E2 HM]].
  { intros k Hk T. apply (w_cact s1 W); auto. rewrite E. sr. apply in_seq in Hk. lia. }
  rewrite E2. intros k Hk T. sra.
  assert (HK : (k < nc s1)%nat) by exact Hk.
  assert (NC : nc s1 = nc s) by (rewrite E; reflexivity).
  rewrite HM. rewrite (proj2 (seq_memb (nc s) k)) by lia. rewrite T. cbn [negb andb].
  unfold dropr. rewrite !wsum_filter. destruct (LW' k HK T) as [-> ->].
  split; apply wsum_ext; intros i a _; cbn [fst]; destruct (Z.eqb (rsz s1 i) (-1)); reflexivity.
Qed.
Lemma dir_Mid : forall s, Inv s -> Mid s -> Mid (delete_inactive_rows s).
Proof.
  intros s H [G P E L]. destruct (dir_sem s H) as [_ [_ [A [B [_ [_ C]]]]]].
  constructor; auto. apply dir_LK; auto.
Qed.

(** ** Deleting columns *)
Lemma finish_Mid : forall s, Inv s -> Mid s -> w_sub s = [] \/ w_ston_rows s = [] -> Mid (finish s).
Proof.
  intros s H [G P E L] PRE.
  pose proof (finish_cols s H PRE) as FC. cbv zeta in FC. fold (finish s) in FC.
  destruct FC as [I' [_ [_ [_ [WF [WS AD]]]]]].
  destruct (finish_sem s H G P PRE) as [_ [_ [A [B [_ [_ C]]]]]].
  destruct B as [_ [_ [_ [B1 [B2 [B3 [B4 [B5 B6]]]]]]]].
  constructor; auto.
  - apply pend_nil; auto.
  - pose proof (delete_fixed_cols_same s) as SS.
    apply (LK_frame s); auto. intros k Hk T. rewrite B6 in Hk. rewrite B1 in T.
    split; [auto|]. split; [auto|]. rewrite B3, B4, B2. split; [auto|]. split; [auto|].
    split; [|auto]. rewrite (dic_AT _ _ AD) by (rewrite (ss_nc _ _ SS); auto).
    rewrite (ss_ct _ _ k SS), T. rewrite (ss_AT _ _ SS). reflexivity.
Qed.
