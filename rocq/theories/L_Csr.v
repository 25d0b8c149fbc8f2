From Coq Require Import QArith Lia.
From Verif Require Import M_Mem L_Mem M_Csr S_Csr S_Mat L_Vec.
Local Open Scope Z_scope.

Lemma wf_mono M : wf_mat M -> forall i j, 0 <= i <= j -> j <= mm M -> adat (ps M) i <= adat (ps M) j.
Proof.
  intros W i j. intros H. assert (G : forall k : nat, i + Z.of_nat k <= mm M -> adat (ps M) i <= adat (ps M) (i + Z.of_nat k)).
  { induction k; intros; [replace (i + Z.of_nat 0) with i by lia; lia|].
    specialize (wf_rng M W (i + Z.of_nat k)). intros R.
    replace (i + Z.of_nat (S k)) with (i + Z.of_nat k + 1) by lia.
    assert (adat (ps M) i <= adat (ps M) (i + Z.of_nat k)) by (apply IHk; lia). lia. }
  intros. replace j with (i + Z.of_nat (Z.to_nat (j - i))) by lia. apply G; lia.
Qed.

Lemma wf_bounds M r : wf_mat M -> 0 <= r < mm M ->
  0 <= adat (ps M) r /\ adat (ps M) r <= adat (pe M) r /\ adat (pe M) r <= adat (ps M) (r + 1)
  /\ adat (ps M) (r + 1) <= alen (mx M).
Proof.
  intros W H. pose proof (wf_rng M W r H).
  pose proof (wf_mono M W 0 r). pose proof (wf_mono M W (r+1) (mm M)).
  pose proof (wf_s0 M W). pose proof (wf_end M W). repeat split; lia.
Qed.

(* ---------------------------------------------------------------- matrix_new_no_extra_space *)
Lemma ci_bounds Ax Ai Ap m n nnz : csr_input Ax Ai Ap m n nnz -> forall i j, 0 <= i <= j -> j <= m -> adat Ap i <= adat Ap j.
Proof.
  intros W i j H. assert (G : forall k : nat, i + Z.of_nat k <= m -> adat Ap i <= adat Ap (i + Z.of_nat k)).
  { induction k; intros; [replace (i + Z.of_nat 0) with i by lia; lia|].
    pose proof (ci_mono _ _ _ _ _ _ W (i + Z.of_nat k)).
    replace (i + Z.of_nat (S k)) with (i + Z.of_nat k + 1) by lia.
    assert (adat Ap i <= adat Ap (i + Z.of_nat k)) by (apply IHk; lia). lia. }
  intros. replace j with (i + Z.of_nat (Z.to_nat (j - i))) by lia. apply G; lia.
Qed.

Lemma new_ranges jp (Ap : arr Z) m : 0 <= m -> m + 2 <= alen Ap ->
  exists s e, for_z 0 (m + 1) (fun k '(s, e) =>
        do a <- aget Ap k;
        do s' <- aset s k a;
        do b <- aget Ap (k + 1);
        do e' <- aset e k b;
        Some (s', e'))
      (malloc (m + 1) jp, malloc (m + 1) jp) = Some (s, e)
   /\ alen s = m + 1 /\ alen e = m + 1
   /\ (forall k, 0 <= k <= m -> adat s k = adat Ap k /\ adat e k = adat Ap (k + 1)).
Proof.
  intros Hm HL.
  destruct (for_z_inv (fun j (st : arr Z * arr Z) => alen (fst st) = m + 1 /\ alen (snd st) = m + 1 /\
     forall k, 0 <= k < j -> adat (fst st) k = adat Ap k /\ adat (snd st) k = adat Ap (k + 1))
     (fun k '(s, e) =>
        do a <- aget Ap k;
        do s' <- aset s k a;
        do b <- aget Ap (k + 1);
        do e' <- aset e k b;
        Some (s', e')) 0 (m + 1) (malloc (m + 1) jp, malloc (m + 1) jp)) as ([s e] & E & A & B & C).
  - lia.
  - cbn. repeat split; auto; lia.
  - intros j [s e] Hj (A & B & C). cbn [fst snd] in *.
    rewrite !aget_ok by lia. cbn [bind]. rewrite aset_ok by lia. cbn [bind]. rewrite aset_ok by lia. cbn [bind].
    eexists; split; [reflexivity|]. cbn [fst snd alen adat]. repeat split; auto; ifb; subst; auto; apply C; lia.
  - exists s, e. cbn [fst snd] in *. repeat split; auto; apply C; lia.
Qed.

Lemma matrix_new_no_extra_space_ok jx ji jp Ax Ai Ap m n nnz :
  csr_input Ax Ai Ap m n nnz -> m + 2 <= alen Ap ->
  exists A, matrix_new_no_extra_space jx ji jp Ax Ai Ap m n nnz = Some A
    /\ mm A = m /\ mn A = n /\ mnnz A = nnz /\ wf_mat A
    /\ (forall r, 0 <= r < m -> row_entries A r = input_row Ax Ai Ap r).
Proof.
  intros C HL. pose proof (ci_m _ _ _ _ _ _ C). pose proof (ci_x _ _ _ _ _ _ C). pose proof (ci_i _ _ _ _ _ _ C).
  pose proof (ci_bounds _ _ _ _ _ _ C) as MONO. pose proof (ci_0 _ _ _ _ _ _ C) as E0. pose proof (ci_end _ _ _ _ _ _ C) as E1.
  assert (0 <= nnz) by (rewrite <- E1, <- E0; apply MONO; lia).
  unfold matrix_new_no_extra_space.
  rewrite memcpy_ok by (unfold malloc; cbn; lia). cbn [bind].
  rewrite memcpy_ok by (unfold malloc; cbn; lia). cbn [bind].
  destruct (new_ranges jp Ap m) as (s & e & E & A & B & D); [lia|lia|]. rewrite E. cbn [bind].
  eexists; split; [reflexivity|]. cbn [mm mn mnnz]. repeat split; auto.
  - cbn. destruct (D 0); lia.
  - cbn [ps pe mm] in *. destruct (D r) as [-> ->]; [lia|]. apply MONO; lia.
  - cbn [ps pe mm] in *. destruct (D r) as [_ ->]; [lia|]. destruct (D (r + 1)) as [-> _]; lia.
  - cbn. destruct (D m); lia.
  - intros r Hr. unfold row_entries, input_row. cbn [ps pe mi mx].
    destruct (D r) as [-> ->]; [lia|]. apply map_ext_in. intros k Hk. apply in_zrange in Hk.
    assert (0 <= k < nnz).
    { pose proof (MONO 0 r). pose proof (MONO (r + 1) m). lia. }
    cbn [adat]. unfold malloc; cbn [adat]. ifb. f_equal; f_equal; lia.
Qed.

(* with an Ap array of the documented length the code reads Ap[m+1] *)
Lemma matrix_new_no_extra_space_oob jx ji jp Ax Ai Ap m n nnz :
  csr_input Ax Ai Ap m n nnz -> alen Ap = m + 1 ->
  matrix_new_no_extra_space jx ji jp Ax Ai Ap m n nnz = None.
Proof.
  intros C HL. pose proof (ci_m _ _ _ _ _ _ C).
  unfold matrix_new_no_extra_space.
  destruct (memcpy _ _ _ _ _); cbn [bind]; auto.
  destruct (memcpy _ _ _ _ _); cbn [bind]; auto.
  rewrite (for_z_split _ 0 m) by lia.
  destruct (for_z 0 m _ _) as [[s e]|]; cbn [bind]; auto.
  rewrite for_z_cons by lia. cbn [bind].
  destruct (aget Ap m); cbn [bind]; auto. destruct (aset s m z); cbn [bind]; auto.
  rewrite aget_oob by lia. reflexivity.
Qed.

(* ---------------------------------------------------------------- nested row loop *)
Notation triple := (Z * (Z * Q))%type.   (* row, (column, value) *)
Definition row_triples (A : matrix) (i : Z) : list triple := map (fun e => (i, e)) (row_entries A i).
Definition triples_upto (A : matrix) (i : Z) : list triple := flat_map (row_triples A) (zrange 0 i).

Lemma triples_upto_snoc A i : 0 <= i -> triples_upto A (i + 1) = triples_upto A i ++ row_triples A i.
Proof. intros; unfold triples_upto. rewrite zrange_snoc by lia. rewrite flat_map_app. cbn. now rewrite app_nil_r. Qed.

Lemma triples_prefix A i : 0 <= i <= mm A -> exists rest, triples_upto A (mm A) = triples_upto A i ++ rest.
Proof.
  intros. exists (flat_map (row_triples A) (zrange i (mm A))).
  unfold triples_upto. rewrite <- flat_map_app, <- zrange_split by lia. reflexivity.
Qed.

Definition part_row (A : matrix) (i s j : Z) : list triple :=
  map (fun k => (i, (adat (mi A) k, adat (mx A) k))) (zrange s j).

Lemma part_row_full A i : row_triples A i = part_row A i (adat (ps A) i) (adat (pe A) i).
Proof. unfold row_triples, row_entries, part_row. rewrite map_map. reflexivity. Qed.

Lemma part_row_snoc A i s j : s <= j ->
  part_row A i s (j + 1) = part_row A i s j ++ [(i, (adat (mi A) j, adat (mx A) j))].
Proof. intros; unfold part_row. rewrite zrange_snoc, map_app by lia. reflexivity. Qed.

Lemma part_row_split A i s j e : s <= j <= e -> part_row A i s e = part_row A i s j ++ part_row A i j e.
Proof. intros; unfold part_row. rewrite (zrange_split s j e), map_app by lia. reflexivity. Qed.

Lemma nested_inv {S} (A : matrix) (P : list triple -> S -> Prop) (body : Z -> Z -> S -> option S) s0 :
  wf_mat A -> P nil s0 ->
  (forall i j done st rest, 0 <= i < mm A -> adat (ps A) i <= j < adat (pe A) i ->
      0 <= j < alen (mx A) ->
      triples_upto A (mm A) = done ++ (i, (adat (mi A) j, adat (mx A) j)) :: rest ->
      P done st -> exists st', body i j st = Some st' /\ P (done ++ [(i, (adat (mi A) j, adat (mx A) j))]) st') ->
  exists st, for_z 0 (mm A) (fun i st => do s <- aget (ps A) i; do e <- aget (pe A) i; for_z s e (body i) st) s0 = Some st
    /\ P (triples_upto A (mm A)) st.
Proof.
  intros W P0 HS.
  destruct (for_z_inv (fun i st => P (triples_upto A i) st)
    (fun i st => do s <- aget (ps A) i; do e <- aget (pe A) i; for_z s e (body i) st) 0 (mm A) s0) as (st & E & H).
  - apply (wf_m A W).
  - exact P0.
  - intros i st Hi HP. pose proof (wf_bounds A i W Hi).
    rewrite !aget_ok by (rewrite ?(wf_lps A W), ?(wf_lpe A W); lia). cbn [bind].
    destruct (for_z_inv (fun j st => P (triples_upto A i ++ part_row A i (adat (ps A) i) j) st)
       (body i) (adat (ps A) i) (adat (pe A) i) st) as (st' & E & H').
    + lia.
    + unfold part_row; rewrite zrange_nil by lia. cbn. now rewrite app_nil_r.
    + intros j st1 Hj HP1. rewrite part_row_snoc by lia. rewrite app_assoc.
      destruct (triples_prefix A (i + 1)) as (rest & ER); [lia|].
      eapply (HS i j _ st1 (part_row A i (j + 1) (adat (pe A) i) ++ rest)); auto; try lia.
      rewrite ER, triples_upto_snoc, part_row_full by lia.
      rewrite (part_row_split A i _ (j + 1) (adat (pe A) i)) by lia.
      rewrite part_row_snoc by lia. rewrite <- !app_assoc. reflexivity.
    + exists st'; split; auto. rewrite triples_upto_snoc, part_row_full by lia. auto.
  - exists st; auto.
Qed.

(* ---------------------------------------------------------------- transpose *)
Definition cnt (c : Z) (l : list triple) : Z := Z.of_nat (length (filter (fun t => fst (snd t) =? c) l)).
Definition colpart (c : Z) (l : list triple) : list (Z * Q) :=
  map (fun t => (fst t, snd (snd t))) (filter (fun t => fst (snd t) =? c) l).

Lemma cnt_app c a b : cnt c (a ++ b) = cnt c a + cnt c b.
Proof. unfold cnt. rewrite filter_app, app_length. lia. Qed.
Lemma cnt_nonneg c a : 0 <= cnt c a.
Proof. unfold cnt; lia. Qed.
Lemma cnt_one c t : cnt c [t] = if fst (snd t) =? c then 1 else 0.
Proof. unfold cnt; cbn. destruct (fst (snd t) =? c); reflexivity. Qed.
Lemma colpart_length c l : Z.of_nat (length (colpart c l)) = cnt c l.
Proof. unfold colpart, cnt. now rewrite map_length. Qed.
Lemma colpart_app c a b : colpart c (a ++ b) = colpart c a ++ colpart c b.
Proof. unfold colpart. now rewrite filter_app, map_app. Qed.

(* start of column c in the transposed matrix *)
Definition T0 (l : list triple) (c : Z) : Z := zsum (map (fun k => 2 * cnt k l + 4) (zrange 0 c)).
Lemma zsum_app a b : zsum (a ++ b) = zsum a + zsum b.
Proof. unfold zsum; induction a; cbn [fold_right app] in *; lia. Qed.
Lemma T0_succ l c : 0 <= c -> T0 l (c + 1) = T0 l c + (2 * cnt c l + 4).
Proof. intros; unfold T0. rewrite zrange_snoc, map_app, zsum_app by lia. cbn. lia. Qed.
Lemma T0_0 l : T0 l 0 = 0.
Proof. reflexivity. Qed.
Lemma T0_mono l i j : 0 <= i <= j -> T0 l i <= T0 l j.
Proof.
  intros H. replace j with (i + Z.of_nat (Z.to_nat (j - i))) by lia. generalize (Z.to_nat (j - i)) as k.
  induction k; [replace (i + Z.of_nat 0) with i by lia; lia|].
  replace (i + Z.of_nat (S k)) with (i + Z.of_nat k + 1) by lia. rewrite T0_succ by lia.
  pose proof (cnt_nonneg (i + Z.of_nat k) l). lia.
Qed.
Lemma T0_nonneg l c : 0 <= c -> 0 <= T0 l c.
Proof. intros; rewrite <- (T0_0 l). apply T0_mono; lia. Qed.
Lemma T0_app1 l t n : 0 <= n -> T0 (l ++ [t]) n = T0 l n + if (0 <=? fst (snd t)) && (fst (snd t) <? n) then 2 else 0.
Proof.
  intros. replace n with (Z.of_nat (Z.to_nat n)) by lia. generalize (Z.to_nat n) as k. clear n H.
  induction k. { cbn. ifb. }
  replace (Z.of_nat (S k)) with (Z.of_nat k + 1) by lia. rewrite !T0_succ by lia. rewrite IHk, cnt_app, cnt_one.
  ifb.
Qed.
Lemma T0_total l n : 0 <= n -> (forall t, In t l -> 0 <= fst (snd t) < n) -> T0 l n = 2 * Z.of_nat (length l) + 4 * n.
Proof.
  intros Hn. induction l as [|t l IH] using rev_ind; intros H.
  - cbn [length]. replace n with (Z.of_nat (Z.to_nat n)) by lia. generalize (Z.to_nat n) as k. clear.
    induction k; [reflexivity|]. replace (Z.of_nat (S k)) with (Z.of_nat k + 1) by lia.
    rewrite T0_succ by lia. rewrite IHk. unfold cnt; cbn [filter length]; lia.
  - rewrite T0_app1 by lia. rewrite IH by (intros; apply H; apply in_or_app; auto).
    assert (0 <= fst (snd t) < n) by (apply H; apply in_or_app; right; now left).
    rewrite app_length; cbn [length]. ifb.
Qed.

Lemma length_triples A : wf_mat A -> forall i, 0 <= i <= mm A ->
  Z.of_nat (length (triples_upto A i)) = zsum (map (fun r => Z.of_nat (length (row_entries A r))) (zrange 0 i)).
Proof.
  intros W i Hi. replace i with (Z.of_nat (Z.to_nat i)) by lia. generalize (Z.to_nat i) as k. clear i Hi.
  induction k; [reflexivity|]. replace (Z.of_nat (S k)) with (Z.of_nat k + 1) by lia.
  rewrite triples_upto_snoc, zrange_snoc, map_app, zsum_app by lia. rewrite app_length.
  cbn [map zsum fold_right]. unfold row_triples; rewrite map_length. lia.
Qed.

Lemma in_triples A t : In t (triples_upto A (mm A)) -> 0 <= fst t < mm A /\ In (snd t) (row_entries A (fst t)).
Proof.
  unfold triples_upto. rewrite in_flat_map. intros (i & Hi & Ht). apply in_zrange in Hi.
  unfold row_triples in Ht. apply in_map_iff in Ht. destruct Ht as (e & <- & He). auto.
Qed.

Lemma colpart_column A c : colpart c (triples_upto A (mm A)) = column (mm A) (row_entries A) c.
Proof.
  unfold column, triples_upto. induction (zrange 0 (mm A)) as [|r l IH]; auto. cbn [flat_map].
  rewrite colpart_app, IH. f_equal. clear. unfold colpart, row_triples.
  induction (row_entries A r) as [|e l IH]; auto. cbn [map filter].
  cbn [fst snd]. destruct (fst e =? c); cbn [map]; rewrite IH; auto.
Qed.

Lemma app_cons_inj_len {X} (a b c d : list X) : a ++ b = c ++ d -> length a = length c -> a = c /\ b = d.
Proof. revert c; induction a; destruct c; cbn; intros; try lia; auto. inversion H. destruct (IHa c); auto; subst; auto. Qed.

Lemma transpose_ok jx ji jp A work :
  wf_mat A -> 0 <= mn A -> cols_ok A -> mnnz A = n_entries A -> alen work >= mn A ->
  exists AT, transpose jx ji jp A work = Some AT
    /\ mm AT = mn A /\ mn AT = mm A /\ mnnz AT = mnnz A /\ wf_mat AT
    /\ (forall c, 0 <= c < mn A -> row_entries AT c = column (mm A) (row_entries A) c)
    /\ (forall c, 0 <= c < mn A -> adat (ps AT) (c + 1) - adat (pe AT) c = Z.of_nat (length (row_entries AT c)) + 4).
Proof.
  intros W Hn HC HZ HW.
  set (L := triples_upto A (mm A)).
  assert (HLc : forall t, In t L -> 0 <= fst (snd t) < mn A).
  { intros t Ht. apply in_triples in Ht. destruct Ht. eapply HC; eauto. }
  assert (HLn : mnnz A = Z.of_nat (length L)).
  { unfold L. rewrite length_triples by (auto; pose proof (wf_m A W); lia). exact HZ. }
  unfold transpose.
  (* memset *)
  destruct (for_z_inv (fun j (c : arr Z) => alen c = alen work /\ forall k, 0 <= k < j -> adat c k = 0)
     (fun k c => aset c k 0) 0 (mn A) work) as (c0 & E0 & A0 & B0).
  { lia. } { split; auto; lia. }
  { intros j s Hj [? Hs]. rewrite aset_ok by lia. eexists; split; [reflexivity|]. cbn. split; auto.
    intros. ifb; auto. apply Hs; lia. }
  rewrite E0; cbn [bind]. clear E0.
  (* counting *)
  destruct (nested_inv A (fun done (c : arr Z) => alen c = alen work /\ forall k, 0 <= k < mn A -> adat c k = cnt k done)
     (fun i j c => do col <- aget (mi A) j; do o <- aget c col; aset c col (o + 1)) c0 W) as (c1 & E1 & A1 & B1).
  { split; auto. }
  { intros i j done st rest Hi Hj Hj2 HR [S1 S2]. rewrite aget_ok by (rewrite (wf_lmi A W); lia). cbn [bind].
    assert (0 <= adat (mi A) j < mn A).
    { apply (HLc (i, (adat (mi A) j, adat (mx A) j))). unfold L. rewrite HR. apply in_or_app. right; now left. }
    rewrite aget_ok by lia. cbn [bind]. rewrite aset_ok by lia. eexists; split; [reflexivity|].
    cbn. split; auto. intros. rewrite cnt_app, cnt_one. cbn [fst snd]. rewrite S2, (Z.eqb_sym (adat (mi A) j)) by lia.
    ifb; subst; auto. rewrite S2; lia. }
  rewrite E1; cbn [bind]. clear E1. fold L in B1.
  (* pointers *)
  unfold matrix_alloc; cbn [mm mn mnnz mcap mi mx ps pe].
  rewrite aset_ok by (unfold malloc; cbn; lia). cbn [bind]. unfold malloc.
  match goal with |- context [for_z 0 (mn A) ?bb (?ss, ?ee, c1)] =>
  destruct (for_z_inv (fun i (st : arr Z * arr Z * arr Z) => let '(s, e, c) := st in
      alen s = mn A + 1 /\ alen e = mn A + 1 /\ alen c = alen work /\
      (forall k, 0 <= k <= i -> adat s k = T0 L k) /\
      (forall k, 0 <= k < i -> adat e k = T0 L k + cnt k L) /\
      (forall k, 0 <= k < mn A -> adat c k = if k <? i then T0 L k else cnt k L)) bb 0 (mn A) (ss, ee, c1))
    as ([[s2 e2] c2] & E2 & A2 & B2 & C2 & D2 & F2 & G2) end.
  { lia. }
  { cbn [alen adat]. repeat split; auto; intros.
    - ifb. subst; reflexivity.
    - lia.
    - ifb. auto. }
  { intros i [[s e] c] Hi (S1 & S2 & S3 & S4 & S5 & S6).
    rewrite !aget_ok by lia. cbn [bind]. rewrite S6 by lia.
    destruct (Z.ltb_spec i i) as [?|_]; [lia|].
    rewrite !aset_ok by lia. cbn [bind]. eexists; split; [reflexivity|]. cbn [alen adat].
    repeat split; auto.
    - intros k Hk. ifb; [|apply S4; lia]. subst. rewrite T0_succ, S4 by lia.
      unfold calc_memory_row, EXTRA_ROW_SPACE, EXTRA_MEMORY_RATIO. lia.
    - intros k Hk. ifb; [|apply S5; lia]. subst. rewrite S4 by lia. reflexivity.
    - intros k Hk. rewrite S6 by lia. ifb; subst; auto; try (apply S4; lia). }
  rewrite E2; cbn [bind]. clear E2.
  set (cap := calc_memory (mnnz A) (mn A) EXTRA_ROW_SPACE EXTRA_MEMORY_RATIO).
  assert (Hcap : cap = T0 L (mn A)).
  { rewrite T0_total by auto. unfold cap, calc_memory, EXTRA_ROW_SPACE, EXTRA_MEMORY_RATIO. lia. }
  rewrite !aset_ok by lia. cbn [bind].
  (* filling *)
  match goal with |- context [for_z 0 (mm A) _ (?x0, ?i0, c2)] =>
  destruct (nested_inv A (fun done (st : arr Q * arr Z * arr Z) => let '(x, idx, c) := st in
      alen x = cap /\ alen idx = cap /\ alen c = alen work /\
      (forall k, 0 <= k < mn A -> adat c k = T0 L k + cnt k done) /\
      (forall k, 0 <= k < mn A -> map (fun p => (adat idx p, adat x p)) (zrange (T0 L k) (T0 L k + cnt k done)) = colpart k done))
     (fun i j '(x, idx, count) =>
        do col <- aget (mi A) j;
        do p <- aget count col;
        do v <- aget (mx A) j;
        do x' <- aset x p v;
        do idx' <- aset idx p i;
        do count' <- aset count col (p + 1);
        Some (x', idx', count')) (x0, i0, c2) W) as ([[x3 i3] c3] & E3 & A3 & B3 & C3 & D3 & F3) end.
  { cbn. repeat split; auto; intros.
    - rewrite G2 by lia. ifb. all: unfold cnt; cbn [filter length]; lia.
    - unfold cnt; cbn. rewrite zrange_nil by lia. reflexivity. }
  { intros i j done [[x idx] c] rest Hi Hj Hj2 HR (S1 & S2 & S3 & S4 & S5).
    set (v := adat (mx A) j) in *. set (col := adat (mi A) j) in *.
    assert (Hc : 0 <= col < mn A).
    { apply (HLc (i, (col, v))). unfold L. rewrite HR. apply in_or_app. right; now left. }
    assert (Hpos : forall k, cnt k L = cnt k done + (if col =? k then 1 else 0) + cnt k rest).
    { intros k. unfold L. rewrite HR. replace ((i, (col, v)) :: rest) with ([(i, (col, v))] ++ rest) by reflexivity.
      rewrite !cnt_app, cnt_one. cbn [fst snd]. lia. }
    assert (Hp : 0 <= T0 L col + cnt col done < cap).
    { pose proof (T0_nonneg L col). pose proof (cnt_nonneg col done). pose proof (cnt_nonneg col rest).
      pose proof (T0_mono L (col + 1) (mn A)). pose proof (T0_succ L col). specialize (Hpos col).
      rewrite Z.eqb_refl in Hpos. lia. }
    rewrite aget_ok by (rewrite (wf_lmi A W); lia). cbn [bind]. fold col.
    rewrite aget_ok by lia. cbn [bind]. rewrite aget_ok by lia. cbn [bind]. fold v. rewrite S4 by lia.
    rewrite !aset_ok by lia. cbn [bind]. eexists; split; [reflexivity|]. cbn [alen adat].
    repeat split; auto.
    - intros k Hk. rewrite cnt_app, cnt_one. cbn [fst snd]. rewrite (Z.eqb_sym col). ifb; subst; [lia|].
      rewrite S4; lia.
    - intros k Hk. rewrite cnt_app, cnt_one, colpart_app. cbn [fst snd]. rewrite <- S5 by lia.
      assert (SAME : forall hi, hi <= T0 L k + cnt k done -> map (fun p => (if p =? T0 L col + cnt col done then i else adat idx p,
            if p =? T0 L col + cnt col done then v else adat x p)) (zrange (T0 L k) hi)
            = map (fun p => (adat idx p, adat x p)) (zrange (T0 L k) hi)).
      { intros hi Hhi. apply map_ext_in. intros p Hp'. apply in_zrange in Hp'.
        assert (p <> T0 L col + cnt col done).
        { intro; subst p. destruct (Z.lt_trichotomy k col) as [|[|]].
          - pose proof (T0_mono L (k + 1) col). pose proof (T0_succ L k). specialize (Hpos k).
            pose proof (cnt_nonneg k done). pose proof (cnt_nonneg k rest). pose proof (cnt_nonneg col done). destruct (Z.eqb_spec col k); lia. 
          - subst; lia.
          - pose proof (T0_mono L (col + 1) k). pose proof (T0_succ L col). specialize (Hpos col).
            pose proof (cnt_nonneg col done). pose proof (cnt_nonneg col rest). rewrite Z.eqb_refl in Hpos. lia. }
        ifb. reflexivity. }
      unfold colpart at 1; cbn [filter fst snd]. destruct (col =? k) eqn:EK; zb.
      + subst k. rewrite Z.add_assoc, zrange_snoc, map_app by (pose proof (cnt_nonneg col done); lia).
        rewrite SAME by lia. cbn [map fst snd]. rewrite Z.eqb_refl. reflexivity.
      + rewrite Z.add_0_r, SAME by lia. cbn. now rewrite app_nil_r. }
  rewrite E3; cbn [bind]. fold L in D3, F3. clear E3.
  eexists; split; [reflexivity|]. cbn [mm mn mnnz mcap mi mx ps pe].
  assert (HS : forall k, 0 <= k <= mn A -> (if k =? mn A then cap else adat s2 k) = T0 L k).
  { intros. ifb; subst; auto. }
  assert (HR : forall c, 0 <= c < mn A ->
     row_entries (mkmat (mn A) (mm A) (mnnz A) cap i3 x3
        (mkarr (alen s2) (fun k => if k =? mn A then cap else adat s2 k))
        (mkarr (alen e2) (fun k => if k =? mn A then cap else adat e2 k))) c = colpart c L).
  { intros c Hc. unfold row_entries; cbn [mi mx ps pe adat]. rewrite HS by lia.
    destruct (Z.eqb_spec c (mn A)); [lia|]. rewrite F2 by lia. now apply F3. }
  repeat split; auto; try (cbn; lia).
  - cbn [adat ps pe mm]. rewrite HS by lia. rewrite T0_0. lia.
  - cbn [adat ps pe mm] in *. rewrite !HS by lia. destruct (Z.eqb_spec r (mn A)); [lia|]. rewrite F2 by lia.
    pose proof (cnt_nonneg r L). lia.
  - cbn [adat ps pe mm] in *. rewrite !HS by lia. destruct (Z.eqb_spec r (mn A)); [lia|]. rewrite F2, T0_succ by lia.
    pose proof (cnt_nonneg r L). lia.
  - cbn [adat ps pe mm mx]. rewrite HS by lia. lia.
  - intros c Hc. rewrite HR by lia. unfold L. apply colpart_column.
  - intros c Hc. rewrite HR by lia. cbn [adat]. rewrite colpart_length, HS by lia.
    destruct (Z.eqb_spec c (mn A)); [lia|]. rewrite F2, T0_succ by lia. lia.
Qed.
