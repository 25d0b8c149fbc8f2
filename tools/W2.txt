(* More checkers for tools/witness.py: hypotheses of the theorems about merged rows and columns and about
   doubleton equations. *)
From Coq Require Import NArith Lqa Lia Qabs.
From Verif Require Import M_Num S_LP M_Settings M_Driver S_Driver M_State M_Act M_Core M_Simple M_StonCols
  M_Dton M_Parallel M_Propagate M_Init M_Post M_Run S_Run S_Struct S_Sem S_Sem2 S_Sem4 S_Post S_Trace S_Merge S_MergeCol S_Dton S_Sides S_Exact W0.
Import M_Driver.
Open Scope Q_scope.
Definition forp {A} (f : A -> bool) (P : A -> Prop) (H : forall a, f a = true -> P a) l : forallb f l = true -> forall a, In a l -> P a.
Proof. intros E a Ha. apply H. rewrite forallb_forall in E. auto. Qed.
Definition ratiosb (P : input) : bool :=
  forallb (fun i => forallb (fun j => Nat.eqb i j ||
    forallb (fun e1 => forallb (fun e2 => negb (Nat.eqb (fst e1) (fst e2)) ||
      forallb (fun f1 => forallb (fun f2 => negb (Nat.eqb (fst f1) (fst f2)) ||
        negb (Qle_bool (Qabs (snd f1 - snd e1 / snd e2 * snd f2)) FEAS_TOL) ||
        Qeq_bool (snd f1) (snd e1 / snd e2 * snd f2))
      (in_A P j)) (in_A P i)) (in_A P j)) (in_A P i)) (seq 0 (in_m P))) (seq 0 (in_m P)).
Lemma ratiosb_ok : forall P, ratiosb P = true -> clear_ratios P.
Proof.
  intros P H i j k l a b c d Hi Hj NE I1 I2 I3 I4 T. unfold ratiosb in H.
  rewrite forallb_forall in H. specialize (H i ltac:(apply in_seq; lia)).
  rewrite forallb_forall in H. specialize (H j ltac:(apply in_seq; lia)).
  destruct (Nat.eqb_spec i j) as [|_]; [contradiction|]. cbn [orb] in H.
  rewrite forallb_forall in H. specialize (H _ I1). rewrite forallb_forall in H. specialize (H _ I2).
  cbn [fst snd] in H. rewrite Nat.eqb_refl in H. cbn [negb orb] in H.
  rewrite forallb_forall in H. specialize (H _ I3). rewrite forallb_forall in H. specialize (H _ I4).
  cbn [fst snd] in H. rewrite Nat.eqb_refl in H. cbn [negb orb] in H.
  apply Qle_bool_iff in T. rewrite T in H. cbn [negb orb] in H. apply Qeq_bool_iff. exact H.
Qed.
Definition onesb (lg : list reduction) : bool :=
  forallb (fun a => match a with LHS_CHANGE _ _ _ j _ => forallb (fun b => match b with RHS_CHANGE _ _ _ j' _ => negb (Nat.eqb j j') | _ => true end) lg | _ => true end) lg.
Lemma onesb_ok lg : onesb lg = true -> one_side lg.
Proof.
  unfold onesb, one_side. rewrite forallb_forall. intros H i r v j q i' r' v' q' A B. specialize (H _ A). cbn in H.
  rewrite forallb_forall in H. specialize (H _ B). cbn in H. rewrite Nat.eqb_refl in H. discriminate H.
Qed.
(* rows *)
Definition cutb (P : LP) : bool := forallb (fun i => forallb (fun j => Nat.eqb i j ||
  (let q := first_entry (lp_A P i) / first_entry (lp_A P j) in
   negb (Nat.eqb (length (lp_A P i)) (length (lp_A P j))) ||
   forallb (fun p => negb (Nat.eqb (fst (fst p)) (fst (snd p))) || negb (Qle_bool (Qabs (snd (fst p) - q * snd (snd p))) FEAS_TOL) || Qeq_bool (snd (fst p)) (q * snd (snd p)))
     (combine (lp_A P i) (lp_A P j)))) (lp_rows P)) (lp_rows P).
Lemma cutb_ok P : cutb P = true -> clear_cut P.
Proof.
  intros H i j Hi Hj N q NS. unfold cutb in H. rewrite forallb_forall in H. specialize (H i Hi). rewrite forallb_forall in H. specialize (H j Hj).
  destruct (Nat.eqb_spec i j) as [|_]; [contradiction|]. cbn [orb] in H. cbv zeta in H. fold q in H. clearbody q.
  assert (L : length (lp_A P i) = length (lp_A P j)) by (clear H; induction NS; cbn; congruence). rewrite L, Nat.eqb_refl in H. cbn [negb orb] in H. clear L.
  induction NS as [|[k a] [l b] r r' [E F] NS IH]; constructor.
  - cbn [combine forallb fst snd] in *. subst. apply andb_true_iff in H. destruct H as [H _]. rewrite Nat.eqb_refl in H. cbn [negb orb] in H.
    apply Qle_bool_iff in F. rewrite F in H. cbn [negb orb] in H. split; [auto|apply Qeq_bool_iff; auto].
  - apply IH. cbn [combine forallb] in H. apply andb_true_iff in H. apply H.
Qed.
Lemma no_eq_unmixed s : (forallb (fun i => negb (t_eq (rt s i))) (live_rows s)) = true -> unmixed s.
Proof. intros H i j k q p Hi _ _ _ _ _ T _ _. rewrite forallb_forall in H. specialize (H i Hi). rewrite T in H. discriminate. Qed.
Lemma all_eq_unmixed s : (forallb (fun i => t_eq (rt s i)) (live_rows s)) = true -> unmixed s.
Proof. intros H i j k q p _ Hj _ _ _ _ _ T _. rewrite forallb_forall in H. specialize (H j Hj). rewrite T in H. discriminate. Qed.
(* columns *)
Definition ratiob (P : LP) (q : Q) (j k : nat) : bool :=
  forallb (fun i => Qeq_bool (coeff (lp_A P i) j) (q * coeff (lp_A P i) k)) (lp_rows P).
Definition nearb (P : LP) (q : Q) (j k : nat) : bool :=
  forallb (fun i => Qle_bool (Qabs (coeff (lp_A P i) j - q * coeff (lp_A P i) k)) FEAS_TOL) (lp_rows P).
Definition pairb (P : LP) (i j k : nat) : bool :=
  let a := coeff (lp_A P i) j in let b := coeff (lp_A P i) k in let q := a / b in
  Nat.eqb j k || Qeq_bool b 0 ||
  ((negb (nearb P q j k) || ratiob P q j k) &&
   (negb (ratiob P q j k) || negb (Qle_bool (Qabs (lp_c P j * b - lp_c P k * a)) FEAS_TOL) || Qeq_bool (lp_c P j * b) (lp_c P k * a))).
Definition clearcb (P : LP) : bool :=
  forallb (fun i => forallb (fun j => forallb (fun k => pairb P i j k) (lp_cols P)) (lp_cols P)) (lp_rows P).
Lemma clearcb_ok : forall P, clearcb P = true -> clear_cut_cols P.
Proof.
  intros P H.
  assert (X : forall i j k, In i (lp_rows P) -> In j (lp_cols P) -> In k (lp_cols P) -> pairb P i j k = true).
  { intros i j k Hi Hj Hk. unfold clearcb in H. rewrite forallb_forall in H. specialize (H i Hi). cbv beta in H.
    rewrite forallb_forall in H. specialize (H j Hj). cbv beta in H. rewrite forallb_forall in H. apply (H k Hk). }
  constructor; intros i j k Hi Hj Hk N NZ q; specialize (X i j k Hi Hj Hk); unfold pairb in X; cbv zeta in X; fold q in X;
    apply orb_true_iff in X; (destruct X as [X|X]; [apply orb_true_iff in X; destruct X as [X|X]; [apply Nat.eqb_eq in X; contradiction|apply Qeq_bool_iff in X; contradiction]|]);
    apply andb_true_iff in X; destruct X as [X1 X2].
  - intros C. assert (E : nearb P q j k = true) by (apply forallb_forall; intros i' Hi'; apply Qle_bool_iff; apply (C i' Hi')). rewrite E in X1. cbn in X1.
    intros i' Hi'. unfold ratiob in X1. rewrite forallb_forall in X1. specialize (X1 i' Hi'). apply Qeq_bool_iff in X1. auto.
  - intros C Z. assert (E : ratiob P q j k = true) by (apply forallb_forall; intros i' Hi'; apply Qeq_bool_iff; apply (C i' Hi')).
    apply Qle_bool_iff in Z. rewrite E, Z in X2. cbn in X2. apply Qeq_bool_iff in X2. auto.
Qed.
Definition usedb (P : LP) : bool :=
  forallb (fun k => existsb (fun i => negb (Qeq_bool (coeff (lp_A P i) k) 0)) (lp_rows P)) (lp_cols P).
Lemma usedb_ok : forall P, usedb P = true -> all_used P.
Proof.
  intros P H k Hk. unfold usedb in H. rewrite forallb_forall in H. specialize (H k Hk). apply existsb_exists in H.
  destruct H as [i [Hi E]]. exists i. split; auto. apply negb_true_iff in E. intros C. apply Qeq_bool_iff in C. congruence.
Qed.
Definition aboveb (l u : ext) : bool := match l, u with Fin p, Fin q => Qle_bool p q | _, _ => true end.
Definition crossb (P : LP) : bool :=
  forallb (fun i => aboveb (lp_lhs P i) (lp_rhs P i)) (lp_rows P) && forallb (fun k => aboveb (lp_lb P k) (lp_ub P k)) (lp_cols P).
Lemma crossb_ok : forall P, crossb P = true -> not_crossed P.
Proof.
  intros P H. apply andb_true_iff in H. destruct H as [A B]. rewrite forallb_forall in A, B.
  assert (X : forall l u, aboveb l u = true -> not_above l u) by (intros [| |] [| |]; cbn; auto; intros; apply Qle_bool_iff; auto).
  split; intros i Hi; apply X; [apply A|apply B]; auto.
Qed.
(* doubleton equations *)
Lemma coeff_nz : forall r k, ~ coeff r k == 0 -> In k (map fst r).
Proof.
  induction r as [|[c a] r IH]; cbn [coeff map fst]; intros k N; [lra|].
  destruct (Nat.eqb_spec c k) as [->|D]; [left; auto|]. right. apply IH. intros C. apply N. rewrite C. lra.
Qed.
Definition equationb (P : LP) (i : nat) : bool := match lp_lhs P i, lp_rhs P i with Fin p, Fin q => Qeq_bool p q | _, _ => false end.
Definition fillb (P : LP) (i : nat) : bool :=
  let e := map fst (lp_A P i) in
  forallb (fun q => forallb (fun j => forallb (fun k =>
    let new := coeff (lp_A P q) j - coeff (lp_A P i) j / coeff (lp_A P i) k * coeff (lp_A P q) k in
    Nat.eqb j k || Qeq_bool new 0 || negb (Qle_bool (Qabs new) ZERO_TOL)) e) e) (lp_rows P).
Lemma fillb_ok : forall P i, fillb P i = true -> clear_fill P i.
Proof.
  intros P i H j k q Hq NJ N1 N2 N3. unfold fillb in H. cbv zeta in *.
  rewrite forallb_forall in H. specialize (H q Hq).
  rewrite forallb_forall in H. specialize (H j (coeff_nz _ _ N1)).
  rewrite forallb_forall in H. specialize (H k (coeff_nz _ _ N2)).
  apply orb_true_iff in H. destruct H as [H|H]; [apply orb_true_iff in H; destruct H as [H|H]|].
  - apply Nat.eqb_eq in H. contradiction.
  - apply Qeq_bool_iff in H. auto.
  - right. apply negb_true_iff in H. destruct (Qlt_le_dec ZERO_TOL (Qabs (coeff (lp_A P q) j - coeff (lp_A P i) j / coeff (lp_A P i) k * coeff (lp_A P q) k))) as [L|L]; auto.
    apply Qle_bool_iff in L. congruence.
Qed.
Definition good (t : state) (i : nat) : Prop := In i (lp_rows (reduced_lp t)) -> equation (reduced_lp t) i /\ clear_fill (reduced_lp t) i.
Definition goodb (s : state) (i : nat) : bool :=
  negb (existsb (Nat.eqb i) (lp_rows (reduced_lp s))) || equationb (reduced_lp s) i && fillb (reduced_lp s) i.
Lemma goodb_ok : forall s i, goodb s i = true -> good s i.
Proof.
  intros s i H IN. unfold goodb in H. apply orb_true_iff in H. destruct H as [H|H].
  - apply negb_true_iff in H. assert (X : existsb (Nat.eqb i) (lp_rows (reduced_lp s)) = true); [|congruence].
    apply existsb_exists. exists i. split; auto. apply Nat.eqb_refl.
  - apply andb_true_iff in H. destruct H as [A B]. split; [|apply fillb_ok; auto]. unfold equationb in A. unfold equation.
    destruct (lp_lhs (reduced_lp s) i); try discriminate; destruct (lp_rhs (reduced_lp s) i); try discriminate.
    apply Qeq_bool_iff in A. eauto.
Qed.
Fixpoint rowsb (fits : nat -> bool) (l : list nat) (a : state * list nat * status) : bool :=
  match l with [] => true | i :: l' => goodb (fst (fst a)) i && rowsb fits l' (dton_row fits a i) end.
Fixpoint passesb (fits : nat -> bool) (fuel : nat) (s : state) : bool :=
  match w_dton s, fuel with
  | [], _ => true
  | _, O => true
  | l, S f => rowsb fits l (s, [], UNCHANGED) &&
      (let '(s1, st) := remove_dton_eq_rows__ fits s in if N.eqb st REDUCED then passesb fits f s1 else true)
  end.
Lemma rowsb_ok : forall fits l a, rowsb fits l a = true -> along_rows fits good l a.
Proof.
  induction l as [|i l IH]; intros a H; cbn in *; auto. apply andb_true_iff in H. destruct H as [A B].
  split; [apply goodb_ok; auto|apply IH; auto].
Qed.
Lemma passesb_ok : forall fits f s, passesb fits f s = true -> along_passes fits good f s.
Proof.
  induction f as [|f IH]; intros s H; cbn [passesb along_passes] in *; destruct (w_dton s) as [|d l]; auto.
  apply andb_true_iff in H. destruct H as [A B]. split; [apply (rowsb_ok fits (d :: l)); exact A|].
  destruct (remove_dton_eq_rows__ fits s) as [s1 st]. cbn. intros ->. apply IH. exact B.
Qed.
Lemma clearb_ok : forall fits s, passesb fits (S (nr s)) s = true -> clear_dton fits s.
Proof. intros. apply passesb_ok. auto. Qed.
Definition withinb t l v u : bool := ext_leb l (v + t) && leb_ext (v - t) u.
Lemma withinb_ok t l v u : within t l v u -> withinb t l v u = true.
Proof. intros [A B]. apply andb_true_iff. split; [apply ext_leb_ok|apply leb_ext_ok]; auto. Qed.
Definition upb rt ct (P : LP) x : bool :=
  forallb (fun i => withinb (rt i) (lp_lhs P i) (dot (lp_A P i) x) (lp_rhs P i)) (lp_rows P) &&
  forallb (fun k => withinb (ct k) (lp_lb P k) (x k) (lp_ub P k)) (lp_cols P).
Lemma upb_ok rt ct P x : feasible_up_to rt ct P x -> upb rt ct P x = true.
Proof. intros [A B]. apply andb_true_iff. rewrite !forallb_forall. split; intros i Hi; apply withinb_ok; auto. Qed.
(* exact runs *)
Definition apartb2 (P : LP) : bool :=
  forallb (fun k => match lp_lb P k, lp_ub P k with Fin l, Fin u => Qle_bool u l || Qgtb (u - l) FEAS_TOL | _, _ => true end) (lp_cols P).
Lemma gtb_lt : forall a b, Qgtb a b = true -> b < a.
Proof. intros a b H. unfold Qgtb in H. apply negb_true_iff in H. apply Qnot_le_lt. intro Z. apply Qle_bool_iff in Z. congruence. Qed.
Lemma apartb2_ok : forall P, apartb2 P = true -> apart P.
Proof.
  intros P H k l u Hk EL EU LT. unfold apartb2 in H. rewrite forallb_forall in H. specialize (H k Hk). rewrite EL, EU in H.
  apply orb_true_iff in H. destruct H as [H|H]; [apply Qle_bool_iff in H; lra|apply gtb_lt; auto].
Qed.
Fixpoint nodupb2 (l : list nat) : bool := match l with [] => true | k :: l' => negb (existsb (Nat.eqb k) l') && nodupb2 l' end.
Lemma nodupb2_ok : forall l, nodupb2 l = true -> NoDup l.
Proof.
  induction l as [|k l IH]; intros H; constructor; cbn in H; apply andb_true_iff in H; destruct H as [A B]; auto.
  intros C. apply negb_true_iff in A. assert (existsb (Nat.eqb k) l = true) by (apply existsb_exists; exists k; rewrite Nat.eqb_refl; auto). congruence.
Qed.
Fixpoint scaledb2 (q : Q) (r r' : row) : bool :=
  match r, r' with
  | [], [] => true
  | (c, v) :: t, (c', v') :: t' => Nat.eqb c c' && Qeq_bool v (q * v') && scaledb2 q t t'
  | _, _ => false
  end.
Lemma scaled_scaledb2 : forall q q' r r', q' == q -> scaled q r r' -> scaledb2 q' r r' = true.
Proof.
  intros q q' r r' EQ H. induction H as [|[c v] [c' v'] r r' [A B] H IH]; auto. cbn in *. subst. rewrite Nat.eqb_refl, IH.
  replace (Qeq_bool v (q' * v')) with true; auto. symmetry. apply Qeq_bool_iff. rewrite EQ. auto.
Qed.
Lemma scaled_ratio2 : forall q r r', scaled q r r' -> ~ first_entry r' == 0 -> first_entry r / first_entry r' == q.
Proof.
  intros q r r' H. destruct H as [|[c v] [c' v'] r r' [A B] H]; cbn in *; intros N; [lra|]. rewrite B. field. auto.
Qed.
Definition parb2 (r r' : row) : bool := scaledb2 (first_entry r / first_entry r') r r'.
Definition ends_of2 (q : Q) (pos neg : ext) : list Q :=
  if Qgtb q 0 then match pos with Fin w => [w / q] | _ => [] end else match neg with Fin w => [w / q] | _ => [] end.
Definition sidesb2 (P : LP) : bool :=
  forallb (fun i => negb (Qeq_bool (first_entry (lp_A P i)) 0) &&
    forallb (fun j => negb (parb2 (lp_A P j) (lp_A P i)) || forallb (fun k => negb (parb2 (lp_A P k) (lp_A P i)) ||
      let qj := first_entry (lp_A P j) / first_entry (lp_A P i) in let qk := first_entry (lp_A P k) / first_entry (lp_A P i) in
      forallb (fun l => forallb (fun u => Qle_bool u l || Qgtb (u - l) FEAS_TOL) (ends_of2 qk (lp_rhs P k) (lp_lhs P k)))
        (ends_of2 qj (lp_lhs P j) (lp_rhs P j))) (lp_rows P)) (lp_rows P)) (lp_rows P).
Lemma ends_in2 : forall q q' a b w v, q' == q -> w == q * v -> (0 < q /\ a = Fin w \/ q < 0 /\ b = Fin w) ->
  exists v', In v' (ends_of2 q' a b) /\ v' == v.
Proof.
  intros q q' a b w v EQ EW [[Q E]|[Q E]]; unfold ends_of2; destruct (Qgtb q' 0) eqn:G.
  - rewrite E. exists (w / q'). split; [left; reflexivity|]. rewrite EW, EQ. field. lra.
  - exfalso. unfold Qgtb in G. apply negb_false_iff in G. apply Qle_bool_iff in G. lra.
  - exfalso. apply gtb_lt in G. lra.
  - rewrite E. exists (w / q'). split; [left; reflexivity|]. rewrite EW, EQ. field. lra.
Qed.
Lemma sidesb2_ok : forall P, sidesb2 P = true -> sides_apart P.
Proof.
  intros P H i j k l u Hi Hj Hk (q & w & A1 & A2 & A3) (p & v & B1 & B2 & B3) LT.
  unfold sidesb2 in H. rewrite forallb_forall in H. specialize (H i Hi). cbv beta in H. apply andb_true_iff in H. destruct H as [N H].
  apply negb_true_iff in N. assert (NZ : ~ first_entry (lp_A P i) == 0) by (intros C; apply Qeq_bool_iff in C; congruence).
  rewrite forallb_forall in H. specialize (H j Hj). cbv beta in H. unfold parb2 in H. rewrite (scaled_scaledb2 _ _ _ _ (scaled_ratio2 _ _ _ A1 NZ) A1) in H. cbn [negb orb] in H.
  rewrite forallb_forall in H. specialize (H k Hk). cbv beta in H. rewrite (scaled_scaledb2 _ _ _ _ (scaled_ratio2 _ _ _ B1 NZ) B1) in H. cbn [negb orb] in H. cbv zeta in H.
  destruct (ends_in2 q _ _ _ w l (scaled_ratio2 _ _ _ A1 NZ) A2 A3) as [l' [L1 L2]].
  destruct (ends_in2 p _ _ _ v u (scaled_ratio2 _ _ _ B1 NZ) B2 B3) as [u' [U1 U2]].
  rewrite forallb_forall in H. specialize (H l' L1). cbv beta in H. rewrite forallb_forall in H. specialize (H u' U1).
  apply orb_true_iff in H. destruct H as [H|H]; [apply Qle_bool_iff in H; lra|apply gtb_lt in H; lra].
Qed.
Definition nilb2 (l : list nat) : bool := match l with [] => true | _ => false end.
Definition hereb2 (fits : nat -> bool) (c : call) : bool :=
  match c_kind c with
  | CloseBounds => apartb2 (reduced_lp (c_before c))
  | EmptyCols => nodupb2 (w_empty_cols (c_before c)) && forallb (fun k => negb (t_cinact (ct (c_before c) k))) (w_empty_cols (c_before c))
  | StonCols | CheckActs | Propagate => false
  | DtonEq => passesb fits (S (nr (c_before c))) (c_before c) && negb (tiny (c_after c))
  | ParRows => nilb2 (w_empty_rows (c_before c)) && cutb (reduced_lp (c_before c)) && sidesb2 (reduced_lp (c_before c))
  | ParCols => nilb2 (w_ston_rows (c_before c)) && usedb (reduced_lp (c_before c)) && clearcb (reduced_lp (c_before c))
  | _ => true
  end.
Lemma nilb2_ok : forall l, nilb2 l = true -> l = [].
Proof. intros [|]; auto; discriminate. Qed.
Lemma hereb2_ok : forall fits c, hereb2 fits c = true -> exact_here fits c.
Proof.
  intros fits c B. unfold hereb2 in B. unfold exact_here, exact_call. destruct (c_kind c); try discriminate; auto.
  - split; auto. apply apartb2_ok; auto.
  - split; auto. apply andb_true_iff in B. destruct B as [B1 B2]. split; [apply nodupb2_ok; auto|]. rewrite forallb_forall in B2. intros k Hk. apply negb_true_iff. auto.
  - split; auto. apply andb_true_iff in B. destruct B as [B1 B2]. split; [apply clearb_ok; auto|apply negb_true_iff; auto].
  - split; auto. apply andb_true_iff in B. destruct B as [B B3]. apply andb_true_iff in B. destruct B as [B1 B2].
    split; [apply nilb2_ok; auto|split; [apply cutb_ok; auto|apply sidesb2_ok; auto]].
  - split; auto. apply andb_true_iff in B. destruct B as [B B3]. apply andb_true_iff in B. destruct B as [B1 B2].
    split; [apply nilb2_ok; auto|split; [apply usedb_ok; auto|apply clearcb_ok; auto]].
Qed.
Lemma exact_run_all2 : forall fits l, forallb (hereb2 fits) l = true -> exact_run fits l.
Proof.
  induction l as [|c l IH]; intros H; cbn; auto. cbn in H. apply andb_true_iff in H. destruct H as [A B].
  split; [apply hereb2_ok; auto|auto].
Qed.
(* no point is as good *)
Definition low_of (c : Q) (l u : ext) : option Q :=
  if Qeq_bool c 0 then Some 0 else if Qgtb c 0 then match l with Fin v => Some (c * v) | _ => None end
  else match u with Fin v => Some (c * v) | _ => None end.
Lemma low_of_ok : forall c l u v x, low_of c l u = Some v -> ext_le l x -> le_ext x u -> v <= c * x.
Proof.
  intros c l u v x H A B. unfold low_of in H. destruct (Qeq_bool c 0) eqn:E.
  - apply Qeq_bool_iff in E. injection H as <-. rewrite E. lra.
  - destruct (Qgtb c 0) eqn:G.
    + apply gtb_lt in G. destruct l; try discriminate. injection H as <-. cbn in A. apply Qmult_le_l; auto.
    + unfold Qgtb in G. apply negb_false_iff in G. apply Qle_bool_iff in G. destruct u; try discriminate. injection H as <-. cbn in B.
      assert (X : 0 <= (- c) * (q - x)) by (apply Qmult_le_0_compat; lra). lra.
Qed.
Fixpoint box_low (f : nat -> Q) (P : LP) (l : list nat) : option Q :=
  match l with
  | [] => Some 0
  | k :: l' => match low_of (f k) (lp_lb P k) (lp_ub P k), box_low f P l' with Some a, Some b => Some (a + b) | _, _ => None end
  end.
Lemma box_low_ok : forall f P x l v, (forall k, In k l -> col_sat P x k) -> box_low f P l = Some v -> v <= sumQ l (fun k => f k * x k).
Proof.
  induction l as [|k l IH]; intros v H E; cbn in *; [injection E as <-; lra|].
  destruct (low_of (f k) (lp_lb P k) (lp_ub P k)) as [a|] eqn:A; [|discriminate]. destruct (box_low f P l) as [b|]; [|discriminate]. injection E as <-.
  specialize (IH b ltac:(intros; apply H; auto) eq_refl). destruct (H k (or_introl eq_refl)) as [H1 H2].
  pose proof (low_of_ok _ _ _ _ _ A H1 H2). lra.
Qed.
Fixpoint row_low (P : LP) (m : Q) (r : row) : option Q :=
  match r with
  | [] => Some 0
  | (k, a) :: r' => match low_of (m * a) (lp_lb P k) (lp_ub P k), row_low P m r' with Some p, Some q => Some (p + q) | _, _ => None end
  end.
Lemma row_low_ok : forall P x m r v, (forall k a, In (k, a) r -> col_sat P x k) -> row_low P m r = Some v -> v <= m * dot r x.
Proof.
  induction r as [|[k a] r IH]; intros v H E; cbn in *; [injection E as <-; lra|].
  destruct (low_of (m * a) (lp_lb P k) (lp_ub P k)) as [p|] eqn:A; [|discriminate]. destruct (row_low P m r) as [q|]; [|discriminate]. injection E as <-.
  specialize (IH q ltac:(intros; eapply H; eauto) eq_refl). destruct (H k a (or_introl eq_refl)) as [H1 H2].
  pose proof (low_of_ok _ _ _ _ _ A H1 H2). lra.
Qed.
Definition row_bad (P : LP) (i : nat) : bool :=
  forallb (fun e => existsb (Nat.eqb (fst e)) (lp_cols P)) (lp_A P i) &&
  (match row_low P 1 (lp_A P i), lp_rhs P i with Some v, Fin w => Qgtb v w | _, _ => false end ||
   match row_low P (-(1)) (lp_A P i), lp_lhs P i with Some v, Fin w => Qgtb (v + w) 0 | _, _ => false end ||
   match lp_lhs P i, lp_rhs P i with Fin v, Fin w => Qgtb v w | _, _ => false end).
Definition none_as_good (P : LP) (v : Q) : bool :=
  existsb (row_bad P) (lp_rows P) || existsb (fun k => match lp_lb P k, lp_ub P k with Fin l, Fin u => Qgtb l u | _, _ => false end) (lp_cols P) ||
  match box_low (lp_c P) P (lp_cols P) with Some b => Qgtb (lp_off P + b) v | None => false end.
Lemma none_as_good_ok : forall P v x, none_as_good P v = true -> feasible P x -> v < objective P x.
Proof.
  intros P v x H [FR FC]. unfold none_as_good in H. apply orb_true_iff in H. destruct H as [H|H]; [apply orb_true_iff in H; destruct H as [H|H]|].
  - exfalso. apply existsb_exists in H. destruct H as [i [Hi H]]. apply andb_true_iff in H. destruct H as [IN H].
    assert (W : forall k a, In (k, a) (lp_A P i) -> col_sat P x k).
    { intros k a Hk. rewrite forallb_forall in IN. specialize (IN _ Hk). apply existsb_exists in IN. destruct IN as [k' [K1 K2]]. apply Nat.eqb_eq in K2. cbn in K2. subst. auto. }
    destruct (FR i Hi) as [R1 R2]. apply orb_true_iff in H. destruct H as [H|H]; [apply orb_true_iff in H; destruct H as [H|H]|].
    + destruct (row_low P 1 (lp_A P i)) as [u|] eqn:E; [|discriminate]. apply (row_low_ok P x _ _ _ W) in E. destruct (lp_rhs P i); try discriminate. apply gtb_lt in H. cbn in R2. lra.
    + destruct (row_low P (-(1)) (lp_A P i)) as [u|] eqn:E; [|discriminate]. apply (row_low_ok P x _ _ _ W) in E. destruct (lp_lhs P i); try discriminate. apply gtb_lt in H. cbn in R1. lra.
    + destruct (lp_lhs P i); try discriminate. destruct (lp_rhs P i); try discriminate. apply gtb_lt in H. cbn in R1, R2. lra.
  - exfalso. apply existsb_exists in H. destruct H as [k [Hk H]]. destruct (FC k Hk) as [A B]. destruct (lp_lb P k); try discriminate. destruct (lp_ub P k); try discriminate.
    apply gtb_lt in H. cbn in A, B. lra.
  - destruct (box_low (lp_c P) P (lp_cols P)) as [b|] eqn:E; [|discriminate]. apply (box_low_ok _ _ x) in E; auto. apply gtb_lt in H. unfold objective. lra.
Qed.
