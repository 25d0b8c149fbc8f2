(** Doubleton equality rows preserve the structural invariant, unless a near-zero coefficient
    is written where there was none (flag [tiny]). *)
From Coq Require Import NArith Sorted Lqa Lia.
From Verif Require Import M_Num S_LP M_Driver M_State M_Act M_Core M_Simple M_StonCols M_Dton
  L_State L_Struct L_Struct2 L_Struct3 L_Struct4 L_Struct5 L_Struct6 L_Tiny.

(** ** The worklist invariant with columns j and k exempted from the list of empty columns *)
Record WLX (j k : nat) (s : state) : Prop := mkWLX {
  x_rows_nd : NoDup (w_rows s);
  x_rows : forall i, In i (w_rows s) <->
           (i < nr s)%nat /\ t_inact (rt s i) = true /\ rsz s i <> (-1)%Z;
  x_fixed : forall c, In c (w_fixed s) -> (c < nc s)%nat /\ t_fixed (ct s c) = true;
  x_sub : forall c, In c (w_sub s) -> (c < nc s)%nat /\ t_sub (ct s c) = true;
  x_pend : forall c, (c < nc s)%nat -> t_cinact (ct s c) = true -> csz s c <> (-1)%Z ->
           In c (w_fixed s) \/ In c (w_sub s);
  x_ston_rows : forall i, In i (w_ston_rows s) -> (i < nr s)%nat /\
           (t_inact (rt s i) = false ->
            length (mA s i) = 1%nat \/ (mA s i = [] /\ t_fixed (ct s (stale s i)) = true));
  x_empty_rows_c : forall i, (i < nr s)%nat -> t_inact (rt s i) = false -> rsz s i = 0%Z ->
           In i (w_empty_rows s);
  x_empty_rows : forall i, In i (w_empty_rows s) -> (i < nr s)%nat /\ mA s i = [] /\
           (t_inact (rt s i) = true -> rsz s i = (-1)%Z);
  x_empty_cols_c : forall c, c <> j -> c <> k -> (c < nc s)%nat -> t_cinact (ct s c) = false ->
           csz s c = 0%Z -> In c (w_empty_cols s);
  x_empty_cols : forall c, In c (w_empty_cols s) -> c <> j /\ c <> k /\ (c < nc s)%nat /\ mAT s c = [];
  x_ston_cols_nd : NoDup (w_ston_cols s);
  x_ston_cols : forall c, In c (w_ston_cols s) -> (c < nc s)%nat /\ (csz s c <= 1)%Z;
  x_dton : forall i, In i (w_dton s) -> (i < nr s)%nat /\ (rsz s i <= 2)%Z;
  x_acts : forall i, In i (w_acts s) -> (i < nr s)%nat }.
Record InvX (j k : nat) (s : state) : Prop := mkInvX {
  xv_0 : W0 s;  xv_R : tightR s;  xv_C : tightC s;  xv_L : WLX j k s }.

(** ** (A) the doubleton row itself goes *)
Record killed (i j k : nat) (s s' : state) : Prop := {
  kd_nr : nr s' = nr s;  kd_nc : nc s' = nc s;
  kd_A : forall q, mA s' q = if Nat.eqb q i then [] else mA s q;
  kd_rsz : forall q, rsz s' q = if Nat.eqb q i then (-1)%Z else rsz s q;
  kd_rt : forall q, t_inact (rt s' q) = if Nat.eqb q i then true else t_inact (rt s q);
  kd_fx : forall c, t_fixed (ct s' c) = t_fixed (ct s c);
  kd_sb : forall c, t_sub (ct s' c) = t_sub (ct s c);
  kd_AT : forall c, mAT s' c = if (Nat.eqb c j || Nat.eqb c k)%bool then del_entry i (mAT s c) else mAT s c;
  kd_csz : forall c, csz s' c = (if (Nat.eqb c j || Nat.eqb c k)%bool then csz s c - 1 else csz s c)%Z;
  kd_w1 : w_rows s' = w_rows s;  kd_w2 : w_fixed s' = w_fixed s;  kd_w3 : w_sub s' = w_sub s;
  kd_w4 : w_ston_rows s' = w_ston_rows s;  kd_w5 : w_empty_rows s' = w_empty_rows s;
  kd_w6 : w_empty_cols s' = w_empty_cols s;  kd_w7 : w_ston_cols s' = w_ston_cols s;
  kd_w8 : w_dton s' = w_dton s;  kd_w9 : w_acts s' = w_acts s;  kd_stale : stale s' = stale s }.

Lemma jk_cases : forall c j k : nat, (Nat.eqb c j || Nat.eqb c k)%bool = true <-> c = j \/ c = k.
Proof. intros. rewrite orb_true_iff, !Nat.eqb_eq. tauto. Qed.

Lemma killed_InvX : forall i j k a b s s', Inv s -> killed i j k s s' ->
  (i < nr s)%nat -> t_inact (rt s i) = false -> j <> k ->
  (forall e, In e (mA s i) <-> e = (j, a) \/ e = (k, b)) ->
  t_cinact (ct s j) = false -> t_cinact (ct s k) = false ->
  InvX j k s'.
Proof.
  intros i j k a b s s' [H TR TC L] K Hi Ti NJ EN Cj Ck.
  pose proof (act_alive s i H Hi Ti) as RA.
  assert (IJ : In (j, a) (mA s i)) by (apply EN; auto).
  assert (IK : In (k, b) (mA s i)) by (apply EN; auto).
  assert (Hj : (j < nc s)%nat) by (eapply (w_rin s H); eauto).
  assert (Hk : (k < nc s)%nat) by (eapply (w_rin s H); eauto).
  assert (Zj := cact_alive s j H Hj Cj). assert (Zk := cact_alive s k H Hk Ck).
  assert (TJ : In (i, a) (mAT s j)) by (apply (w_agree s H); auto).
  assert (TK : In (i, b) (mAT s k)) by (apply (w_agree s H); auto).
  pose proof (tight_csz s j H TC Hj Cj) as Sj. pose proof (tight_csz s k H TC Hk Ck) as Sk.
  pose proof (del_entry_len i a _ (w_csrt s H j Hj) TJ) as Lj.
  pose proof (del_entry_len i b _ (w_csrt s H k Hk) TK) as Lk.
  assert (CI : forall c, t_cinact (ct s' c) = t_cinact (ct s c)).
  { intros c. unfold t_cinact. rewrite (kd_fx _ _ _ _ _ K), (kd_sb _ _ _ _ _ K). reflexivity. }
  assert (CN : forall c, (csz s' c = -1 <-> csz s c = -1)%Z).
  { intros c. rewrite (kd_csz _ _ _ _ _ K). destruct (_ || _)%bool eqn:E; [|tauto].
    apply jk_cases in E. unfold Z_len in *. destruct E; subst c; lia. }
  (* the column of row i is j or k *)
  assert (CO : forall c x, (c < nc s)%nat -> csz s c <> (-1)%Z -> In (i, x) (mAT s c) -> c = j \/ c = k).
  { intros c x Hc Zc Hin. apply (w_agree s H) in Hin; auto. apply EN in Hin.
    destruct Hin as [E|E]; injection E; auto. }
  assert (CT0 : forall c q x, (c < nc s)%nat -> In (q, x) (mAT s' c) -> q <> i /\ In (q, x) (mAT s c)).
  { intros c q x Hc. rewrite (kd_AT _ _ _ _ _ K). destruct (_ || _)%bool eqn:E.
    - rewrite del_entry_In. simpl. tauto.
    - intros Hin. split; auto. intros ->.
      destruct (Z.eq_dec (csz s c) (-1)).
      + destruct (w_cdead s H c Hc e) as [_ C]. rewrite C in Hin. contradiction.
      + apply (CO c x Hc n) in Hin. apply jk_cases in Hin. congruence. }
  assert (CT1 : forall c q x, q <> i -> In (q, x) (mAT s c) -> In (q, x) (mAT s' c)).
  { intros c q x Nq Hin. rewrite (kd_AT _ _ _ _ _ K). destruct (_ || _)%bool; auto.
    apply del_entry_In. auto. }
  assert (RN : forall q, q <> i -> rsz s' q = rsz s q /\ mA s' q = mA s q /\ t_inact (rt s' q) = t_inact (rt s q)).
  { intros q Nq. rewrite (kd_rsz _ _ _ _ _ K), (kd_A _ _ _ _ _ K), (kd_rt _ _ _ _ _ K).
    destruct (Nat.eqb_spec q i); [contradiction|auto]. }
  assert (RI : rsz s' i = (-1)%Z /\ mA s' i = [] /\ t_inact (rt s' i) = true).
  { rewrite (kd_rsz _ _ _ _ _ K), (kd_A _ _ _ _ _ K), (kd_rt _ _ _ _ _ K), Nat.eqb_refl. auto. }
  assert (ACT : forall q, t_inact (rt s' q) = false -> q <> i /\ t_inact (rt s q) = false).
  { intros q Tq. destruct (Nat.eq_dec q i); [subst; destruct RI as [_ [_ E]]; congruence|].
    destruct (RN q n) as [_ [_ E]]. rewrite <- E. auto. }
  destruct RI as [RI1 [RI2 RI3]].
  assert (DC : forall r, dropr (csz s') r = dropr (csz s) r).
  { intros r. apply dropr_ext. intros e _. apply CN. }
  (* lengths of columns *)
  assert (DL : forall c, (c < nc s)%nat -> csz s c <> (-1)%Z ->
     (Z_len (dropr (rsz s') (mAT s' c)) <= csz s' c)%Z /\
     (t_cinact (ct s c) = false -> csz s' c = Z_len (dropr (rsz s') (mAT s' c)))).
  { intros c Hc Zc.
    assert (DE : dropr (rsz s') (mAT s' c) = dropr (rsz s) (mAT s' c)).
    { apply dropr_ext. intros [q x] Hq. destruct (CT0 c q x Hc Hq) as [Nq _].
      simpl. destruct (RN q Nq) as [E _]. rewrite E. tauto. }
    rewrite DE, (kd_csz _ _ _ _ _ K), (kd_AT _ _ _ _ _ K).
    destruct (_ || _)%bool eqn:E.
    - apply jk_cases in E.
      assert (FT : dropr (rsz s) (del_entry i (mAT s c)) = del_entry i (mAT s c)).
      { apply filter_all. intros [q x] Hq. apply del_entry_In in Hq. destruct Hq as [Hq _].
        simpl. apply negb_true_iff, Z.eqb_neq.
        destruct E; subst c; eapply TC; eauto. }
      rewrite FT. unfold Z_len in *. destruct E; subst c; split; intros; lia.
    - split; [apply (w_cpen s H); auto | intros Tc; apply (w_cact s H); auto]. }
  constructor.
  - constructor; rewrite ?(kd_nr _ _ _ _ _ K), ?(kd_nc _ _ _ _ _ K).
    + intros q Hq R. destruct (Nat.eq_dec q i); [subst; auto|]. destruct (RN q n) as [E1 [_ E2]].
      rewrite E2. apply (w_rdead s H); auto. congruence.
    + intros c Hc R. apply CN in R. destruct (w_cdead s H c Hc R) as [X1 X2]. rewrite CI. split; auto.
      rewrite (kd_AT _ _ _ _ _ K), X2. destruct (_ || _)%bool; reflexivity.
    + intros q Hq. destruct (Nat.eq_dec q i); [subst; rewrite RI2; apply srt_nil|].
      destruct (RN q n) as [_ [E _]]. rewrite E. apply (w_rsrt s H); auto.
    + intros c Hc. rewrite (kd_AT _ _ _ _ _ K). pose proof (w_csrt s H c Hc).
      destruct (_ || _)%bool; auto. apply del_entry_srt; auto.
    + intros q c x Hq Hin. destruct (Nat.eq_dec q i); [subst; rewrite RI2 in Hin; contradiction|].
      destruct (RN q n) as [_ [E _]]. rewrite E in Hin. apply (w_rin s H q c x); auto.
    + intros q c x Hc Hin. destruct (CT0 c q x Hc Hin) as [_ Hi2]. apply (w_cin s H q c x); auto.
    + intros q c x Hq Hc Rq Zc. destruct (Nat.eq_dec q i); [subst; congruence|].
      destruct (RN q n) as [E1 [E2 _]]. rewrite E2.
      assert (Zc' : csz s c <> (-1)%Z) by (rewrite <- CN; auto).
      rewrite (w_agree s H q c x Hq Hc ltac:(congruence) Zc'). split; [apply CT1; auto|].
      intros Hin. apply (CT0 c q x Hc Hin).
    + intros q Hq Tq. apply ACT in Tq. destruct Tq as [Nq Tq]. destruct (RN q Nq) as [E1 [E2 _]].
      rewrite E1, E2, DC. apply (w_ract s H); auto.
    + intros q Hq Rq. destruct (Nat.eq_dec q i); [subst; congruence|].
      destruct (RN q n) as [E1 [E2 _]]. rewrite E2, DC. rewrite E1 in *. apply (w_rpen s H); auto.
    + intros c Hc Tc. rewrite CI in Tc. apply (DL c Hc (cact_alive s c H Hc Tc)). exact Tc.
    + intros c Hc Zc. rewrite CN in Zc. apply (DL c Hc Zc).
  - intros q c x. rewrite (kd_nr _ _ _ _ _ K). intros Hq Tq Hin. apply ACT in Tq. destruct Tq as [Nq Tq].
    destruct (RN q Nq) as [_ [E2 _]]. rewrite E2 in Hin. rewrite CN. eapply TR; eauto.
  - intros q c x. rewrite (kd_nc _ _ _ _ _ K), CI. intros Hc Tc Hin. destruct (CT0 c q x Hc Hin) as [Nq Hin'].
    destruct (RN q Nq) as [E _]. rewrite E. eapply TC; eauto.
  - destruct L as [B1 B2 B3 B4 B5 B6 B7 B8 B9 B10 B11 B12 B13 B14].
    constructor; rewrite ?(kd_nr _ _ _ _ _ K), ?(kd_nc _ _ _ _ _ K), ?(kd_w1 _ _ _ _ _ K), ?(kd_w2 _ _ _ _ _ K),
      ?(kd_w3 _ _ _ _ _ K), ?(kd_w4 _ _ _ _ _ K), ?(kd_w5 _ _ _ _ _ K), ?(kd_w6 _ _ _ _ _ K),
      ?(kd_w7 _ _ _ _ _ K), ?(kd_w8 _ _ _ _ _ K), ?(kd_w9 _ _ _ _ _ K), ?(kd_stale _ _ _ _ _ K); auto.
    + intros q. rewrite B2. destruct (Nat.eq_dec q i) as [->|n].
      * split; [intros [_ [C _]]; congruence|intros [_ [_ C]]; congruence].
      * destruct (RN q n) as [E1 [_ E3]]. rewrite E1, E3. tauto.
    + intros c Hc. rewrite (kd_fx _ _ _ _ _ K). auto.
    + intros c Hc. rewrite (kd_sb _ _ _ _ _ K). auto.
    + intros c Hc. rewrite CI, CN. auto.
    + intros q Hq. destruct (B6 q Hq) as [C D]. split; auto. intros T. apply ACT in T. destruct T as [Nq T].
      destruct (RN q Nq) as [_ [E2 _]]. rewrite E2, (kd_fx _ _ _ _ _ K). auto.
    + intros q Hq T R. apply ACT in T. destruct T as [Nq T]. destruct (RN q Nq) as [E1 _]. rewrite E1 in R. auto.
    + intros q Hq. destruct (B8 q Hq) as [C [D E]]. split; auto. destruct (Nat.eq_dec q i) as [->|n].
      * rewrite D in IJ. contradiction.
      * destruct (RN q n) as [E1 [E2 E3]]. rewrite E1, E2, E3. auto.
    + intros c N1 N2 Hc T Z. rewrite CI in T. rewrite (kd_csz _ _ _ _ _ K) in Z.
      destruct (_ || _)%bool eqn:E; [apply jk_cases in E; tauto|]. auto.
    + intros c Hc. destruct (B10 c Hc) as [C D].
      assert (c <> j) by (intros ->; rewrite D in TJ; contradiction).
      assert (c <> k) by (intros ->; rewrite D in TK; contradiction).
      split; auto. split; auto. split; auto. rewrite (kd_AT _ _ _ _ _ K), D. destruct (_ || _)%bool; reflexivity.
    + intros c Hc. destruct (B12 c Hc) as [C D]. split; auto. rewrite (kd_csz _ _ _ _ _ K).
      destruct (_ || _)%bool; lia.
    + intros q Hq. destruct (B13 q Hq) as [C D]. split; auto. rewrite (kd_rsz _ _ _ _ _ K).
      destruct (_ =? _)%nat; lia.
Qed.

(** ** (B) one row of the substituted column *)
Record substd (q j k : nat) (r' c' : row) (s s' : state) : Prop := {
  sd_nr : nr s' = nr s;  sd_nc : nc s' = nc s;
  sd_A : forall p, mA s' p = if Nat.eqb p q then r' else mA s p;
  sd_rsz : forall p, rsz s' p = if Nat.eqb p q then Z_len r' else rsz s p;
  sd_rt : forall p, t_inact (rt s' p) = t_inact (rt s p);
  sd_fx : forall c, t_fixed (ct s' c) = t_fixed (ct s c);
  sd_sb : forall c, t_sub (ct s' c) = t_sub (ct s c);
  sd_AT : forall c, mAT s' c = if Nat.eqb c j then c' else if Nat.eqb c k then del_entry q (mAT s k) else mAT s c;
  sd_csz : forall c, csz s' c = if Nat.eqb c j then Z_len c' else if Nat.eqb c k then Z_len (del_entry q (mAT s k)) else csz s c;
  sd_w1 : w_rows s' = w_rows s;  sd_w2 : w_fixed s' = w_fixed s;  sd_w3 : w_sub s' = w_sub s;
  sd_w4 : forall p, In p (w_ston_rows s') -> In p (w_ston_rows s) \/ p = q /\ length r' = 1%nat;
  sd_w5 : forall p, In p (w_empty_rows s') <-> In p (w_empty_rows s) \/ p = q /\ r' = [];
  sd_w6 : w_empty_cols s' = w_empty_cols s;  sd_w7 : w_ston_cols s' = w_ston_cols s;
  sd_w8 : w_dton s' = w_dton s;
  sd_w9 : forall p, In p (w_acts s') -> In p (w_acts s) \/ (p < nr s)%nat;
  sd_stale : stale s' = stale s }.

Lemma substd_InvX : forall q j k aqk new (B : bool) r' c' s s', InvX j k s ->
  substd q j k r' c' s s' ->
  (q < nr s)%nat -> (j < nc s)%nat -> (k < nc s)%nat -> j <> k ->
  t_inact (rt s q) = false -> t_cinact (ct s j) = false -> t_cinact (ct s k) = false ->
  In (k, aqk) (mA s q) ->
  srt r' -> srt c' ->
  (forall e, In e r' <-> (fst e <> k /\ fst e <> j /\ In e (mA s q)) \/ (B = true /\ e = (j, new))) ->
  (forall e, In e c' <-> (fst e <> q /\ In e (mAT s j)) \/ (B = true /\ e = (q, new))) ->
  (B = true -> ~ new == 0) ->
  (B = false -> has j (mA s q)) ->
  (length r' <= length (mA s q))%nat ->
  ~ In j (w_ston_cols s) ->
  InvX j k s'.
Proof.
  intros q j k aqk new B r' c' s s' [H TR TC L] K Hq Hj Hk NJ Tq Tj Tk IK SR SC HR HC NZ BF LEN NS.
  pose proof (act_alive s q H Hq Tq) as RA.
  assert (Zj := cact_alive s j H Hj Tj). assert (Zk := cact_alive s k H Hk Tk).
  assert (TK : In (q, aqk) (mAT s k)) by (apply (w_agree s H); auto).
  pose proof (tight_csz s j H TC Hj Tj) as Sj. pose proof (tight_csz s k H TC Hk Tk) as Sk.
  pose proof (tight_rsz s q H TR Hq Tq) as Sq.
  pose proof (del_entry_len q aqk _ (w_csrt s H k Hk) TK) as Lk.
  assert (CI : forall c, t_cinact (ct s' c) = t_cinact (ct s c)).
  { intros c. unfold t_cinact. rewrite (sd_fx _ _ _ _ _ _ _ K), (sd_sb _ _ _ _ _ _ _ K). reflexivity. }
  assert (CN : forall c, (csz s' c = -1 <-> csz s c = -1)%Z).
  { intros c. rewrite (sd_csz _ _ _ _ _ _ _ K).
    destruct (Nat.eqb_spec c j); [subst; unfold Z_len in *; lia|].
    destruct (Nat.eqb_spec c k); [subst; unfold Z_len in *; lia|]. tauto. }
  assert (RN : forall p, (rsz s' p = -1 <-> rsz s p = -1)%Z).
  { intros p. rewrite (sd_rsz _ _ _ _ _ _ _ K).
    destruct (Nat.eqb_spec p q); [subst; unfold Z_len in *; lia|tauto]. }
  assert (AP : forall p, p <> q -> mA s' p = mA s p /\ rsz s' p = rsz s p).
  { intros p Np. rewrite (sd_A _ _ _ _ _ _ _ K), (sd_rsz _ _ _ _ _ _ _ K).
    destruct (Nat.eqb_spec p q); [contradiction|auto]. }
  assert (AQ : mA s' q = r' /\ rsz s' q = Z_len r').
  { rewrite (sd_A _ _ _ _ _ _ _ K), (sd_rsz _ _ _ _ _ _ _ K), Nat.eqb_refl. auto. }
  destruct AQ as [AQ RQ].
  assert (CP : forall c, c <> j -> c <> k -> mAT s' c = mAT s c /\ csz s' c = csz s c).
  { intros c N1 N2. rewrite (sd_AT _ _ _ _ _ _ _ K), (sd_csz _ _ _ _ _ _ _ K).
    destruct (Nat.eqb_spec c j); [contradiction|]. destruct (Nat.eqb_spec c k); [contradiction|auto]. }
  assert (CJ : mAT s' j = c' /\ csz s' j = Z_len c').
  { rewrite (sd_AT _ _ _ _ _ _ _ K), (sd_csz _ _ _ _ _ _ _ K), Nat.eqb_refl. auto. }
  assert (CK : mAT s' k = del_entry q (mAT s k) /\ csz s' k = Z_len (del_entry q (mAT s k))).
  { rewrite (sd_AT _ _ _ _ _ _ _ K), (sd_csz _ _ _ _ _ _ _ K).
    destruct (Nat.eqb_spec k j); [congruence|]. rewrite Nat.eqb_refl. auto. }
  destruct CJ as [CJ ZJ]. destruct CK as [CK ZK].
  assert (DC : forall r, dropr (csz s') r = dropr (csz s) r) by (intros; apply dropr_ext; intros; apply CN).
  assert (DR : forall r, dropr (rsz s') r = dropr (rsz s) r) by (intros; apply dropr_ext; intros; apply RN).
  (* entries of column lists *)
  assert (CE : forall c p x, (c < nc s)%nat -> In (p, x) (mAT s' c) ->
            (p < nr s)%nat /\ (~ x == 0) /\ (t_cinact (ct s c) = false -> rsz s p <> (-1)%Z)).
  { intros c p x Hc Hin. destruct (Nat.eq_dec c j) as [->|N1].
    - rewrite CJ in Hin. apply HC in Hin. destruct Hin as [[N Hin]|[HB E]].
      + destruct (w_cin s H p j x Hj Hin). split; auto. split; auto. intros. eapply TC; eauto.
      + injection E; intros; subst. auto.
    - destruct (Nat.eq_dec c k) as [->|N2].
      + rewrite CK in Hin. apply del_entry_In in Hin. destruct Hin as [Hin _].
        destruct (w_cin s H p k x Hk Hin). split; auto. split; auto. intros. eapply TC; eauto.
      + destruct (CP c N1 N2) as [E _]. rewrite E in Hin. destruct (w_cin s H p c x Hc Hin).
        split; auto. split; auto. intros. eapply TC; eauto. }
  assert (RE : forall c x, In (c, x) r' -> (c < nc s)%nat /\ (~ x == 0) /\ csz s c <> (-1)%Z).
  { intros c x Hin. apply HR in Hin. destruct Hin as [[_ [_ Hin]]|[HB E]].
    - destruct (w_rin s H q c x Hq Hin). split; auto. split; auto. eapply TR; eauto.
    - injection E; intros; subst. auto. }
  assert (DQ : dropr (csz s) r' = r').
  { apply filter_all. intros [c x] Hc. simpl. apply negb_true_iff, Z.eqb_neq. eapply RE; eauto. }
  assert (DJ : forall c, (c < nc s)%nat -> t_cinact (ct s c) = false -> dropr (rsz s) (mAT s' c) = mAT s' c).
  { intros c Hc Tc. apply filter_all. intros [p x] Hp. simpl. apply negb_true_iff, Z.eqb_neq.
    destruct (CE c p x Hc Hp) as [_ [_ E]]. auto. }
  constructor.
  - constructor; rewrite ?(sd_nr _ _ _ _ _ _ _ K), ?(sd_nc _ _ _ _ _ _ _ K).
    + intros p Hp R. rewrite (sd_rt _ _ _ _ _ _ _ K). rewrite RN in R. apply (w_rdead s H); auto.
    + intros c Hc R. rewrite CN in R. rewrite CI. destruct (w_cdead s H c Hc R) as [E1 E2]. split; auto.
      destruct (Nat.eq_dec c j) as [->|N1]; [congruence|]. destruct (Nat.eq_dec c k) as [->|N2]; [congruence|].
      destruct (CP c N1 N2) as [E _]. congruence.
    + intros p Hp. destruct (Nat.eq_dec p q) as [->|N]; [congruence|].
      destruct (AP p N) as [E _]. rewrite E. apply (w_rsrt s H); auto.
    + intros c Hc. destruct (Nat.eq_dec c j) as [->|N1]; [congruence|].
      destruct (Nat.eq_dec c k) as [->|N2]; [rewrite CK; apply del_entry_srt; apply (w_csrt s H); auto|].
      destruct (CP c N1 N2) as [E _]. rewrite E. apply (w_csrt s H); auto.
    + intros p c x Hp Hin. destruct (Nat.eq_dec p q) as [->|N].
      * rewrite AQ in Hin. destruct (RE c x Hin) as [E1 [E2 _]]. auto.
      * destruct (AP p N) as [E _]. rewrite E in Hin. apply (w_rin s H p c x); auto.
    + intros p c x Hc Hin. destruct (CE c p x Hc Hin) as [E1 [E2 _]]. auto.
    + intros p c x Hp Hc Rp Zc. rewrite RN in Rp. rewrite CN in Zc.
      pose proof (w_agree s H p c x Hp Hc Rp Zc) as AG.
      destruct (Nat.eq_dec p q) as [->|N].
      * rewrite AQ, HR. simpl. destruct (Nat.eq_dec c j) as [->|N1].
        -- rewrite CJ, HC. simpl. split.
           ++ intros [[_ [C _]]|[HB E]]; [congruence|]. right. injection E; intros; subst; auto.
           ++ intros [[C _]|[HB E]]; [congruence|]. right. injection E; intros; subst; auto.
        -- destruct (Nat.eq_dec c k) as [->|N2].
           ++ rewrite CK, del_entry_In. simpl. split; [intros [[C _]|[_ E]]; [congruence|injection E; intros; congruence]|tauto].
           ++ destruct (CP c N1 N2) as [E _]. rewrite E, <- AG. split; [|auto].
              intros [[_ [_ C]]|[_ C]]; auto. injection C; intros; congruence.
      * destruct (AP p N) as [E _]. rewrite E, AG. destruct (Nat.eq_dec c j) as [->|N1].
        -- rewrite CJ, HC. simpl. split; [auto|]. intros [[_ C]|[_ C]]; auto. injection C; intros; congruence.
        -- destruct (Nat.eq_dec c k) as [->|N2].
           ++ rewrite CK, del_entry_In. simpl. tauto.
           ++ destruct (CP c N1 N2) as [E' _]. rewrite E'. tauto.
    + intros p Hp T. rewrite (sd_rt _ _ _ _ _ _ _ K) in T. rewrite DC.
      destruct (Nat.eq_dec p q) as [->|N]; [rewrite AQ, RQ, DQ; reflexivity|].
      destruct (AP p N) as [E1 E2]. rewrite E1, E2. apply (w_ract s H); auto.
    + intros p Hp R. rewrite RN in R. rewrite DC.
      destruct (Nat.eq_dec p q) as [->|N]; [rewrite AQ, RQ, DQ; lia|].
      destruct (AP p N) as [E1 E2]. rewrite E1, E2. apply (w_rpen s H); auto.
    + intros c Hc T. rewrite CI in T. rewrite DR.
      destruct (Nat.eq_dec c j) as [->|N1]; [rewrite DJ, CJ, ZJ by auto; reflexivity|].
      destruct (Nat.eq_dec c k) as [->|N2]; [rewrite DJ, CK, ZK by auto; reflexivity|].
      destruct (CP c N1 N2) as [E1 E2]. rewrite E1, E2. apply (w_cact s H); auto.
    + intros c Hc Zc. rewrite CN in Zc. rewrite DR.
      destruct (Nat.eq_dec c j) as [->|N1]; [rewrite DJ, CJ, ZJ by auto; lia|].
      destruct (Nat.eq_dec c k) as [->|N2]; [rewrite DJ, CK, ZK by auto; lia|].
      destruct (CP c N1 N2) as [E1 E2]. rewrite E1, E2. apply (w_cpen s H); auto.
  - intros p c x. rewrite (sd_nr _ _ _ _ _ _ _ K), (sd_rt _ _ _ _ _ _ _ K), CN. intros Hp T Hin.
    destruct (Nat.eq_dec p q) as [->|N].
    + rewrite AQ in Hin. eapply RE; eauto.
    + destruct (AP p N) as [E1 _]. rewrite E1 in Hin. eapply TR; eauto.
  - intros p c x. rewrite (sd_nc _ _ _ _ _ _ _ K), CI, RN. intros Hc T Hin.
    destruct (CE c p x Hc Hin) as [_ [_ E]]. auto.
  - destruct L as [B1 B2 B3 B4 B5 B6 B7 B8 B9 B10 B11 B12 B13 B14].
    constructor; rewrite ?(sd_nr _ _ _ _ _ _ _ K), ?(sd_nc _ _ _ _ _ _ _ K), ?(sd_w1 _ _ _ _ _ _ _ K), ?(sd_w2 _ _ _ _ _ _ _ K),
      ?(sd_w3 _ _ _ _ _ _ _ K), ?(sd_w6 _ _ _ _ _ _ _ K),
      ?(sd_w7 _ _ _ _ _ _ _ K), ?(sd_w8 _ _ _ _ _ _ _ K), ?(sd_stale _ _ _ _ _ _ _ K); auto.
    + intros p. rewrite B2, (sd_rt _ _ _ _ _ _ _ K), RN. tauto.
    + intros c Hc. rewrite (sd_fx _ _ _ _ _ _ _ K). auto.
    + intros c Hc. rewrite (sd_sb _ _ _ _ _ _ _ K). auto.
    + intros c Hc. rewrite CI, CN. auto.
    + intros p Hp. rewrite (sd_rt _ _ _ _ _ _ _ K), (sd_fx _ _ _ _ _ _ _ K).
      apply (sd_w4 _ _ _ _ _ _ _ K) in Hp. destruct Hp as [Hp|[-> E]].
      * destruct (B6 p Hp) as [C D]. split; auto. intros T. destruct (Nat.eq_dec p q) as [->|N].
        -- rewrite AQ. left. destruct (D T) as [E|[E _]]; [|rewrite E in IK; contradiction].
           assert (HL : (length r' <= 1)%nat) by lia. destruct r' as [|e r']; [|simpl in *; lia]. exfalso.
           assert (BB : B = false). { destruct B; auto. exfalso. apply (HR (j, new)). right; auto. }
           destruct (BF BB) as [x Hx]. destruct (mA s q) as [|e1 [|e2 l]]; simpl in *; try lia; try contradiction.
           destruct Hx as [Hx|[]]. destruct IK as [IK|[]]. congruence.
        -- destruct (AP p N) as [E1 _]. rewrite E1. auto.
      * split; auto. rewrite AQ. auto.
    + intros p Hp. rewrite (sd_rt _ _ _ _ _ _ _ K), (sd_w5 _ _ _ _ _ _ _ K). intros T R.
      destruct (Nat.eq_dec p q) as [->|N].
      * right. split; auto. rewrite RQ in R. unfold Z_len in R. destruct r'; [auto|simpl in R; lia].
      * left. destruct (AP p N) as [_ E]. apply B7; auto. congruence.
    + intros p. rewrite (sd_w5 _ _ _ _ _ _ _ K), (sd_rt _ _ _ _ _ _ _ K), RN. intros [Hp|[-> E]].
      * destruct (B8 p Hp) as [C [D E]]. split; auto. destruct (Nat.eq_dec p q) as [->|N].
        -- rewrite D in IK. contradiction.
        -- destruct (AP p N) as [E1 _]. rewrite E1. auto.
      * split; auto. split; [congruence|]. intros; congruence.
    + intros c N1 N2 Hc T Z. rewrite CI in T. destruct (CP c N1 N2) as [_ E]. rewrite E in Z. auto.
    + intros c Hc. destruct (B10 c Hc) as [N1 [N2 [C D]]]. repeat (split; auto).
      destruct (CP c N1 N2) as [E _]. congruence.
    + intros c Hc. destruct (B12 c Hc) as [C D]. split; auto.
      destruct (Nat.eq_dec c j) as [->|N1]; [contradiction|].
      destruct (Nat.eq_dec c k) as [->|N2]; [rewrite ZK; unfold Z_len in *; lia|].
      destruct (CP c N1 N2) as [_ E]. lia.
    + intros p Hp. destruct (B13 p Hp) as [C D]. split; auto. destruct (Nat.eq_dec p q) as [->|N].
      * rewrite RQ. unfold Z_len in *. lia.
      * destruct (AP p N) as [_ E]. lia.
    + intros p Hp. apply (sd_w9 _ _ _ _ _ _ _ K) in Hp. destruct Hp; auto.
Qed.

(** ** (C) the substituted column goes *)
Record finished (j k : nat) (s s' : state) : Prop := {
  fd_nr : nr s' = nr s;  fd_nc : nc s' = nc s;
  fd_A : forall p, mA s' p = mA s p;
  fd_rsz : forall p, rsz s' p = rsz s p;
  fd_rt : forall p, t_inact (rt s' p) = t_inact (rt s p);
  fd_fx : forall c, t_fixed (ct s' c) = if Nat.eqb c k then true else t_fixed (ct s c);
  fd_sb : forall c, t_sub (ct s' c) = if Nat.eqb c k then true else t_sub (ct s c);
  fd_AT : forall c, mAT s' c = if Nat.eqb c k then [] else mAT s c;
  fd_csz : forall c, csz s' c = if Nat.eqb c k then (-1)%Z else csz s c;
  fd_w1 : w_rows s' = w_rows s;  fd_w2 : w_fixed s' = w_fixed s;  fd_w3 : w_sub s' = w_sub s;
  fd_w4 : w_ston_rows s' = w_ston_rows s;  fd_w5 : w_empty_rows s' = w_empty_rows s;
  fd_w6 : w_empty_cols s' = if Z.eqb (csz s j) 0 then w_empty_cols s ++ [j] else w_empty_cols s;
  fd_w7 : w_ston_cols s' = if Z.eqb (csz s j) 1 then w_ston_cols s ++ [j] else w_ston_cols s;
  fd_w8 : w_dton s' = w_dton s;  fd_w9 : w_acts s' = w_acts s;  fd_stale : stale s' = stale s }.

Lemma finished_Inv : forall j k s s', InvX j k s -> finished j k s s' ->
  (j < nc s)%nat -> (k < nc s)%nat -> j <> k -> t_cinact (ct s j) = false ->
  (forall i a, (i < nr s)%nat -> In (k, a) (mA s i) -> t_inact (rt s i) = true) ->
  (In j (w_ston_cols s) -> csz s j <> 1%Z) ->
  Inv s'.
Proof.
  intros j k s s' [H TR TC L] K Hj Hk NJ Tj NR NS.
  pose proof (tight_csz s j H TC Hj Tj) as Sj.
  assert (TT : forall c, t_cinact (ct s' c) = if Nat.eqb c k then true else t_cinact (ct s c)).
  { intros c. unfold t_cinact. rewrite (fd_fx _ _ _ _ K), (fd_sb _ _ _ _ K). destruct (_ =? _)%nat; reflexivity. }
  assert (TF : forall c, t_cinact (ct s' c) = false -> c <> k /\ t_cinact (ct s c) = false).
  { intros c. rewrite TT. destruct (Nat.eqb_spec c k); [discriminate|auto]. }
  assert (CP : forall c, c <> k -> mAT s' c = mAT s c /\ csz s' c = csz s c).
  { intros c N. rewrite (fd_AT _ _ _ _ K), (fd_csz _ _ _ _ K). destruct (Nat.eqb_spec c k); [contradiction|auto]. }
  assert (CK : mAT s' k = [] /\ csz s' k = (-1)%Z /\ t_cinact (ct s' k) = true).
  { rewrite (fd_AT _ _ _ _ K), (fd_csz _ _ _ _ K), TT, Nat.eqb_refl. auto. }
  destruct CK as [CK [ZK TK]].
  assert (DR : forall r, dropr (rsz s') r = dropr (rsz s) r).
  { intros r. apply dropr_ext. intros e _. rewrite (fd_rsz _ _ _ _ K). tauto. }
  assert (DC : forall r, dropr (csz s') r = del_entry k (dropr (csz s) r)).
  { intros r. rewrite <- dropr_kill. apply dropr_ext. intros e _. rewrite (fd_csz _ _ _ _ K). unfold upd. tauto. }
  constructor.
  - constructor; rewrite ?(fd_nr _ _ _ _ K), ?(fd_nc _ _ _ _ K).
    + intros p Hp. rewrite (fd_rsz _ _ _ _ K), (fd_rt _ _ _ _ K). apply (w_rdead s H); auto.
    + intros c Hc R. destruct (Nat.eq_dec c k) as [->|N]; auto. destruct (CP c N) as [E1 E2].
      rewrite E2 in R. destruct (w_cdead s H c Hc R) as [F1 F2]. rewrite TT.
      destruct (_ =? _)%nat; split; congruence.
    + intros p Hp. rewrite (fd_A _ _ _ _ K). apply (w_rsrt s H); auto.
    + intros c Hc. destruct (Nat.eq_dec c k) as [->|N]; [rewrite CK; apply srt_nil|].
      destruct (CP c N) as [E1 _]. rewrite E1. apply (w_csrt s H); auto.
    + intros p c x. rewrite (fd_A _ _ _ _ K). apply (w_rin s H).
    + intros p c x Hc. destruct (Nat.eq_dec c k) as [->|N]; [rewrite CK; contradiction|].
      destruct (CP c N) as [E1 _]. rewrite E1. apply (w_cin s H); auto.
    + intros p c x Hp Hc Rp Zc. destruct (Nat.eq_dec c k) as [->|N]; [congruence|].
      destruct (CP c N) as [E1 E2]. rewrite E1, (fd_A _ _ _ _ K). rewrite (fd_rsz _ _ _ _ K) in Rp.
      apply (w_agree s H); auto. congruence.
    + intros p Hp. rewrite (fd_rt _ _ _ _ K), (fd_rsz _ _ _ _ K), (fd_A _ _ _ _ K), DC. intros T.
      rewrite del_entry_absent; [apply (w_ract s H); auto|].
      intros [b Hb]. apply dropr_In in Hb. destruct Hb as [Hb _]. rewrite (NR p b Hp Hb) in T. discriminate.
    + intros p Hp. rewrite (fd_rsz _ _ _ _ K), (fd_A _ _ _ _ K), DC. intros R.
      etransitivity; [|apply (w_rpen s H); auto]. unfold Z_len, del_entry.
      pose proof (filter_len _ (fun e : nat * Q => negb (fst e =? k)%nat) (dropr (csz s) (mA s p))). lia.
    + intros c Hc T. apply TF in T. destruct T as [N T]. destruct (CP c N) as [E1 E2]. rewrite E1, E2, DR.
      apply (w_cact s H); auto.
    + intros c Hc Zc. destruct (Nat.eq_dec c k) as [->|N]; [congruence|]. destruct (CP c N) as [E1 E2].
      rewrite E1, E2, DR in *. apply (w_cpen s H); auto.
  - intros p c x. rewrite (fd_nr _ _ _ _ K), (fd_rt _ _ _ _ K), (fd_A _ _ _ _ K). intros Hp T Hin.
    destruct (Nat.eq_dec c k) as [->|N]; [rewrite (NR p x Hp Hin) in T; discriminate|].
    destruct (CP c N) as [_ E2]. rewrite E2. eapply TR; eauto.
  - intros p c x. rewrite (fd_nc _ _ _ _ K). intros Hc T Hin. apply TF in T. destruct T as [N T].
    destruct (CP c N) as [E1 _]. rewrite E1 in Hin. rewrite (fd_rsz _ _ _ _ K). eapply TC; eauto.
  - destruct L as [B1 B2 B3 B4 B5 B6 B7 B8 B9 B10 B11 B12 B13 B14].
    assert (FX : forall c, t_fixed (ct s c) = true -> t_fixed (ct s' c) = true).
    { intros c. rewrite (fd_fx _ _ _ _ K). destruct (_ =? _)%nat; auto. }
    assert (SX : forall c, t_sub (ct s c) = true -> t_sub (ct s' c) = true).
    { intros c. rewrite (fd_sb _ _ _ _ K). destruct (_ =? _)%nat; auto. }
    constructor; rewrite ?(fd_nr _ _ _ _ K), ?(fd_nc _ _ _ _ K), ?(fd_w1 _ _ _ _ K), ?(fd_w2 _ _ _ _ K),
      ?(fd_w3 _ _ _ _ K), ?(fd_w4 _ _ _ _ K), ?(fd_w5 _ _ _ _ K),
      ?(fd_w8 _ _ _ _ K), ?(fd_w9 _ _ _ _ K), ?(fd_stale _ _ _ _ K); auto.
    + intros p. rewrite (fd_rt _ _ _ _ K), (fd_rsz _ _ _ _ K). auto.
    + intros c Hc. destruct (B3 c Hc). auto.
    + intros c Hc. destruct (B4 c Hc). auto.
    + intros c Hc T Zc. destruct (Nat.eq_dec c k) as [->|N]; [congruence|]. destruct (CP c N) as [_ E2].
      rewrite TT in T. destruct (Nat.eqb_spec c k); [contradiction|]. apply B5; auto. congruence.
    + intros p Hp. rewrite (fd_rt _ _ _ _ K), (fd_A _ _ _ _ K). destruct (B6 p Hp) as [C D]. split; auto.
      intros T. destruct (D T) as [E|[E1 E2]]; auto.
    + intros p Hp. rewrite (fd_rt _ _ _ _ K), (fd_rsz _ _ _ _ K). auto.
    + intros p. rewrite (fd_rt _ _ _ _ K), (fd_rsz _ _ _ _ K), (fd_A _ _ _ _ K). auto.
    + intros c Hc T Z. apply TF in T. destruct T as [N T]. destruct (CP c N) as [_ E2]. rewrite E2 in Z.
      rewrite (fd_w6 _ _ _ _ K). destruct (Nat.eq_dec c j) as [->|N1].
      * rewrite Z. simpl. apply In_app_one; auto.
      * assert (In c (w_empty_cols s)) by auto. destruct (_ =? _)%Z; auto. apply In_app_one; auto.
    + intros c. rewrite (fd_w6 _ _ _ _ K). intros Hc.
      assert (X : In c (w_empty_cols s) \/ c = j /\ csz s j = 0%Z).
      { destruct (Z.eqb_spec (csz s j) 0); auto. apply In_app_one in Hc. destruct Hc; auto. }
      destruct X as [X|[-> X]].
      * destruct (B10 c X) as [N1 [N2 [E1 E2]]]. split; auto. destruct (CP c N2). congruence.
      * split; auto. destruct (CP j NJ) as [E _]. rewrite E. unfold Z_len in *.
        destruct (mAT s j); [auto|simpl in *; lia].
    + rewrite (fd_w7 _ _ _ _ K). destruct (Z.eqb_spec (csz s j) 1); auto.
      apply NoDup_app_one; auto. intros C. apply NS in C. contradiction.
    + intros c. rewrite (fd_w7 _ _ _ _ K). intros Hc.
      assert (X : In c (w_ston_cols s) \/ c = j /\ csz s j = 1%Z).
      { destruct (Z.eqb_spec (csz s j) 1); auto. apply In_app_one in Hc. destruct Hc; auto. }
      rewrite (fd_csz _ _ _ _ K). destruct X as [X|[-> X]].
      * destruct (B12 c X). split; auto. destruct (_ =? _)%nat; lia.
      * split; auto. destruct (_ =? _)%nat; lia.
    + intros p. rewrite (fd_rsz _ _ _ _ K). auto.
Qed.

(** ** The substitution of one row, on the state *)
Definition virt (k : nat) (rest : row) (s : state) : state := setAT k rest (set_csz1 k (Z_len rest) s).
Record fr (s s' : state) : Prop := mkFr {
  fr_mono : mono s s';  fr_nx : Nx s -> Nx s';
  fr_rsz : forall i, (i < nr s)%nat -> (rsz s' i <= rsz s i)%Z;
  fr_w1 : w_rows s' = w_rows s;  fr_w2 : w_fixed s' = w_fixed s;  fr_w3 : w_sub s' = w_sub s;
  fr_w8 : w_dton s' = w_dton s }.
Lemma fr_refl : forall s, fr s s.
Proof. intros; constructor; auto using mono_refl. intros; lia. Qed.
Lemma fr_trans : forall a b c, fr a b -> fr b c -> fr a c.
Proof.
  intros a b c [] []. constructor; eauto using mono_trans; try congruence.
  intros i Hi. etransitivity; [apply fr_rsz1|apply fr_rsz0; auto].
  rewrite (mo_nr _ _ fr_mono0). auto.
Qed.
Lemma fr_same : forall s s', same_struct s s' -> fr s s'.
Proof.
  intros s s' S. constructor; eauto using mono_same, Nx_same.
  - intros. rewrite (ss_rsz _ _ S). lia.
  - apply S.
  - apply S.
  - apply S.
  - apply S.
Qed.

Lemma set_coeff_row : forall j new r r', srt r -> set_coeff j new r = Some r' ->
  (Qleb (ABSq new) ZERO_TOL = true -> has j r) ->
  srt r' /\
  exists B : bool,
  (forall e, In e r' <-> (fst e <> j /\ In e r) \/ (B = true /\ e = (j, new))) /\
  (B = true -> ~ new == 0) /\ (B = false -> has j r) /\
  length r' = (if B then (if hasb j r then length r else S (length r)) else (length r - 1))%nat /\
  (B = false -> (1 <= length r)%nat).
Proof.
  intros j new r r' S E HT. unfold set_coeff in E. destruct (Qleb _ _) eqn:B0.
  - destruct (HT eq_refl) as [a Ha]. rewrite (drop_entry_in j a r S Ha) in E. injection E; intros <-.
    split; [apply del_entry_srt; auto|]. exists false. split; [|split; [|split; [|split]]].
    + intros e. rewrite del_entry_In. split; [tauto|]. intros [X|[X _]]; [tauto|discriminate].
    + discriminate.
    + intros _. exists a; auto.
    + pose proof (del_entry_len j a r S Ha). lia.
    + intros _. pose proof (del_entry_len j a r S Ha). lia.
  - injection E; intros <-. split; [apply put_entry_srt; auto|]. exists true. split; [|split; [|split; [|split]]].
    + intros e. rewrite put_entry_In by auto. tauto.
    + intros _ Z. assert (X : Qleb (ABSq new) ZERO_TOL = true); [|congruence].
      apply Qle_bool_iff. unfold ABSq, ZERO_TOL. destruct (Qltb new 0); lra.
    + discriminate.
    + destruct (hasb j r) eqn:HB.
      * apply hasb_has in HB. destruct HB as [a Ha]. apply (put_entry_len_in j new a r S Ha).
      * apply put_entry_len_out; auto. intros C. apply hasb_has in C. congruence.
    + discriminate.
Qed.
