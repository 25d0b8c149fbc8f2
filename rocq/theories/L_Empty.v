(** The values at which empty columns are fixed, and what is noted about them. *)
From Coq Require Import NArith Lqa Qabs.
From Verif Require Import M_Num S_LP M_Settings M_Driver S_Driver M_State M_Act M_Core M_Simple
  M_StonCols M_Dton M_Parallel M_Propagate M_Init M_Post M_Run S_Run S_Struct S_Sem S_FixCols
  L_State L_Struct L_Struct2 L_Struct3 L_Struct4 L_Struct5 L_Struct6 L_Struct11
  L_Sem L_Sem2 L_Sem3 L_Sem4 L_Sem5 L_Sem6 L_Mid L_Mid2 L_Mid3 L_Reach L_Sem7 L_Sem8.
Import M_Driver.
Notation bad := M_State.bad.
Open Scope Q_scope.

(** what the loop leaves of the columns still to be visited *)
Definition as_in (s t : state) (k : nat) : Prop :=
  ct t k = ct s k /\ lb t k = lb s k /\ ub t k = ub s k.

Lemma pick_best : forall s t k, tags_right s -> (k < nc s)%nat -> t_cinact (ct s k) = false ->
  (is_fin (lb s k) = true -> is_fin (ub s k) = true -> fin (lb s k) <= fin (ub s k)) ->
  as_in s t k -> cst t = cst s ->
  snd (remove_empty_col k t) = UNBNDORINFEAS \/
  exists v t0, remove_empty_col k t = (close_empty_col k v t0, UNCHANGED) /\ near_empty k t t0 /\
    best_value (reduced_lp s) k v.
Proof.
  intros s t k TG Hk TK LU [EC [EL EU]] EK. unfold best_value. cbn [lp_lb lp_ub lp_c reduced_lp].
  pose proof (tr_lb s TG k Hk TK) as L0. pose proof (tr_ub s TG k Hk TK) as U0.
  unfold remove_empty_col. rewrite EC, EL, EU, EK.
  assert (TL : t_lb_inf (ct s k) = false -> exists q, lb s k = Fin q).
  { intros T. rewrite T in L0. destruct (lb s k); try discriminate; eauto. }
  assert (TL1 : t_lb_inf (ct s k) = true -> lb s k = NInf).
  { intros T. rewrite T in L0. auto. }
  assert (TU : t_ub_inf (ct s k) = false -> exists q, ub s k = Fin q).
  { intros T. rewrite T in U0. destruct (ub s k); try discriminate; eauto. }
  assert (TU1 : t_ub_inf (ct s k) = true -> ub s k = PInf).
  { intros T. rewrite T in U0. auto. }
  clear L0 U0 EC EL EU EK TG.
  destruct (Qeqb (cst s k) 0) eqn:C0.
  - right. qb. do 2 eexists. split; [reflexivity|]. split; [left; reflexivity|].
    destruct (t_lb_inf (ct s k)), (t_ub_inf (ct s k)); cbn [negb andb];
    try (destruct (TL eq_refl) as [l El]); try (destruct (TU eq_refl) as [u Eu]);
    try (pose proof (TL1 eq_refl) as El); try (pose proof (TU1 eq_refl) as Eu); rewrite El, Eu in *; cbn [ext_le le_ext fin is_fin] in *;
    try specialize (LU eq_refl eq_refl);
    repeat match goal with |- context [if ?b then _ else _] => let B := fresh in destruct b eqn:B; qb end;
    (split; [try exact I; lra|split; [try exact I; lra|intros; rewrite C0; lra]]).
  - destruct (Qltb (cst s k) 0) eqn:C1; qb.
    + destruct (t_ub_inf (ct s k)) eqn:T; [left; reflexivity|]. right. destruct (TU eq_refl) as [u Eu].
      rewrite Eu in *. cbn [fin is_fin le_ext] in *.
      do 2 eexists. split; [reflexivity|]. split; [right; left; eauto|]. split; [|split; [lra|intros; nra]].
      destruct (t_lb_inf (ct s k)); [rewrite (TL1 eq_refl); exact I|]. destruct (TL eq_refl) as [l El].
      rewrite El in *. cbn [fin is_fin ext_le] in *. apply LU; auto.
    + destruct (t_lb_inf (ct s k)) eqn:T; [left; reflexivity|]. right. destruct (TL eq_refl) as [l El].
      rewrite El in *. cbn [fin is_fin ext_le] in *.
      do 2 eexists. split; [reflexivity|]. split; [right; right; eauto|]. split; [lra|]. split; [|intros; nra].
      destruct (t_ub_inf (ct s k)); [rewrite (TU1 eq_refl); exact I|]. destruct (TU eq_refl) as [u Eu].
      rewrite Eu in *. cbn [fin is_fin le_ext] in *. apply LU; auto.
Qed.

Lemma values_loop : forall s l t, tags_right s -> NoDup l ->
  (forall k, In k l -> (k < nc s)%nat /\ t_cinact (ct s k) = false /\
     (is_fin (lb s k) = true -> is_fin (ub s k) = true -> fin (lb s k) <= fin (ub s k)) /\ as_in s t k) ->
  cst t = cst s -> nc t = nc s ->
  let '(t', st) := for_until UNBNDORINFEAS remove_empty_col l t in
  st <> UNBNDORINFEAS ->
  exists vs, log t' = map (note_fixed (cst s)) vs ++ log t /\ Permutation.Permutation (map fst vs) l /\
    (forall k v, In (k, v) vs -> best_value (reduced_lp s) k v) /\
    off t' == cost_of (cst s) vs + off t /\ nc t' = nc s /\
    (forall k, csz t' k = if in_dec Nat.eq_dec k l then (-1)%Z else csz t k).
Proof.
  intros s l. induction l as [|k l IH]; intros t TG ND HL EK EN; cbn [for_until].
  - intros _. exists []. cbn [map app cost_of]. split; auto. split; [constructor|]. split; [intros ? ? []|].
    split; [lra|]. split; auto.
  - inversion ND as [|? ? NI ND']; subst. destruct (HL k (or_introl eq_refl)) as [Hk [TK [LU AS]]].
    destruct (pick_best s t k TG Hk TK LU AS EK) as [U|[v [t0 [E [NE BV]]]]].
    + destruct (remove_empty_col k t) as [t1 st1]. cbn [snd] in U. subst st1. cbn. intros X. exfalso. apply X. reflexivity.
    + rewrite E. cbn [N.eqb UNCHANGED UNBNDORINFEAS].
      assert (F : cst t0 = cst t /\ nc t0 = nc t /\ log t0 = log t /\ off t0 = off t /\ csz t0 = csz t /\ ct t0 = ct t /\
                  forall j, j <> k -> lb t0 j = lb t j /\ ub t0 j = ub t j).
      { destruct NE as [->|[[q ->]|[q ->]]]; sr; do 6 (split; [reflexivity|]); intros jj D; rewrite ?upd_other by auto; auto. }
      destruct F as [F1 [F2 [F3 [F4 [F5 [F6 F7]]]]]].
      assert (IHX := IH (close_empty_col k v t0) TG ND').
      destruct (for_until UNBNDORINFEAS remove_empty_col l (close_empty_col k v t0)) as [t' st].
      assert (G : st <> UNBNDORINFEAS -> exists vs, log t' = map (note_fixed (cst s)) vs ++ log (close_empty_col k v t0) /\
        Permutation.Permutation (map fst vs) l /\
        (forall k v, In (k, v) vs -> best_value (reduced_lp s) k v) /\
        off t' == cost_of (cst s) vs + off (close_empty_col k v t0) /\ nc t' = nc s /\
        (forall j, csz t' j = if in_dec Nat.eq_dec j l then (-1)%Z else csz (close_empty_col k v t0) j)).
      { apply IHX; unfold close_empty_col; sr; try congruence.
        intros j Hj. destruct (HL j (or_intror Hj)) as [A [B [C [D1 [D2 D3]]]]]. do 3 (split; [assumption|]).
        assert (N : j <> k) by (intros ->; contradiction). destruct (F7 j N) as [L1 U1].
        unfold as_in. sr. rewrite upd_other by auto. rewrite F6, L1, U1. auto. }
      clear IHX. intros X. destruct (G X) as [vs [V1 [V2 [V3 [V4 [V5 V6]]]]]].
      exists (vs ++ [(k, v)]). unfold close_empty_col in V1, V4, V6. sr in V1. sr in V4.
      split; [|split; [|split; [|split; [|split]]]].
      * rewrite map_app, <- app_assoc. cbn [map app]. unfold note_fixed at 2. cbn [fst snd].
        rewrite V1, F1, EK, F3. reflexivity.
      * rewrite map_app. cbn [map fst]. apply Permutation.Permutation_sym. eapply Permutation.perm_trans;
          [apply Permutation.perm_skip, Permutation.Permutation_sym, V2|apply Permutation.Permutation_cons_append].
      * intros j w Hin. apply in_app_or in Hin. destruct Hin as [Hin|[Hin|[]]]; [auto|]. injection Hin as <- <-. auto.
      * assert (CA : cost_of (cst s) (vs ++ [(k, v)]) == cost_of (cst s) vs + cst s k * v).
        { clear. induction vs as [|[j w] vs IH]; cbn [cost_of app]; [lra|]. rewrite IH. lra. }
        rewrite CA, V4, F1, EK, F4. lra.
      * auto.
      * intros j. rewrite V6. sr. rewrite F5. unfold upd.
        destruct (in_dec Nat.eq_dec j l), (in_dec Nat.eq_dec j (k :: l)); auto.
        -- exfalso. apply n. right; auto.
        -- destruct i as [->|i]; [rewrite Nat.eqb_refl; reflexivity|contradiction].
        -- destruct (Nat.eqb_spec j k) as [->|]; auto. exfalso. apply n0. left; auto.
Qed.

Lemma r_empty_values : forall stgs fits P s, wf_input P -> reached stgs fits P s ->
  empty_cols_fresh s -> forall s' st, remove_empty_cols s = (s', st) -> st <> UNBNDORINFEAS ->
  exists vs, log s' = map (note_fixed (lp_c (reduced_lp s))) vs ++ log s /\ NoDup (map fst vs) /\
    (forall k, In k (map fst vs) <-> In k (lp_cols (reduced_lp s)) /\ in_no_row (reduced_lp s) k) /\
    (forall k v, In (k, v) vs -> best_value (reduced_lp s) k v) /\
    lp_off (reduced_lp s') == lp_off (reduced_lp s) + cost_of (lp_c (reduced_lp s)) vs /\
    (forall k, In k (lp_cols (reduced_lp s')) <-> In k (lp_cols (reduced_lp s)) /\ ~ In k (map fst vs)).
Proof.
  intros stgs fits P s WF R [ND FR] s' st E NU.
  destruct (reached_ok stgs fits P s WF R) as [OK M]. pose proof (ok_inv _ OK) as H. pose proof (inv_L s H) as L.
  assert (HL : forall k, In k (w_empty_cols s) -> (k < nc s)%nat /\ t_cinact (ct s k) = false /\
     (is_fin (lb s k) = true -> is_fin (ub s k) = true -> fin (lb s k) <= fin (ub s k)) /\ as_in s s k).
  { intros k Hk. destruct (FR k Hk) as [A B]. destruct (l_empty_cols s L k Hk) as [C _]. unfold as_in. auto 10. }
  pose proof (values_loop s (w_empty_cols s) s (md_tags s M) ND HL eq_refl eq_refl) as V.
  unfold remove_empty_cols in E. destruct (for_until UNBNDORINFEAS remove_empty_col (w_empty_cols s) s) as [t st0].
  destruct (N.eqb_spec st0 UNBNDORINFEAS) as [Y|N0]; injection E as E1 E2; subst s'; [congruence|]. clear E2.
  destruct (V N0) as [vs [V1 [V2 [V3 [V4 [V5 V6]]]]]]. exists vs. cbn [lp_c lp_cols lp_off reduced_lp]. sr.
  assert (IN : forall k, In k (map fst vs) <-> In k (w_empty_cols s)).
  { intros k. split; apply Permutation.Permutation_in; [auto|apply Permutation.Permutation_sym; auto]. }
  split; [auto|]. split; [eapply Permutation.Permutation_NoDup; [apply Permutation.Permutation_sym; exact V2|auto]|].
  split; [|split; [auto|split; [rewrite V4; lra|]]].
  - intros k. rewrite IN. split.
    + intros Hk. destruct (FR k Hk) as [A _]. destruct (l_empty_cols s L k Hk) as [C D].
      split; [apply live_col_act; auto|]. apply no_entries; auto.
    + intros [Hk EA]. apply live_col_act in Hk; auto. destruct Hk as [Hk Tk]. apply (no_entries s H k Hk Tk) in EA.
      apply (l_empty_cols_c s L); auto. rewrite (w_cact s (inv_0 s H) k Hk Tk), EA. reflexivity.
  - intros k. rewrite IN, !live_cols_in. sr. rewrite V5, V6. destruct (in_dec Nat.eq_dec k (w_empty_cols s)); split; tauto.
Qed.
