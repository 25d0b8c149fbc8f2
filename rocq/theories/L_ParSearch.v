(** Proofs for C29. *)
From Coq Require Import QArith Qabs Permutation Lia Lqa.
From Verif Require Import M_Mem S_Csr M_Num M_Csr M_ParSearch S_Par L_Mem L_Vec.
Local Open Scope Z_scope.

Lemma read_n_ok {V} (a : arr V) : forall k i, 0 <= i -> i + Z.of_nat k <= alen a ->
  read_n a k i = Some (map (adat a) (zseq i k)).
Proof.
  induction k as [|k IH]; intros i H1 H2; [reflexivity|].
  cbn [read_n zseq map]. rewrite aget_ok by lia. cbn [bind]. rewrite IH by lia. reflexivity.
Qed.
Lemma read_range_ok {V} (a : arr V) lo hi : 0 <= lo <= hi -> hi <= alen a -> read_range a lo hi = Some (slice a lo hi).
Proof. intros. unfold read_range, slice, zrange. apply read_n_ok; lia. Qed.

Lemma abs_tol : forall a, IS_ZERO_FEAS_TOL a = true -> (Qabs a <= FEAS_TOL)%Q.
Proof.
  intros a H. unfold IS_ZERO_FEAS_TOL in H. apply Qle_bool_iff in H. revert H. unfold ABSq, Qltb.
  destruct (Qle_bool 0 a) eqn:E; cbn [negb].
  - apply Qle_bool_iff in E. rewrite (Qabs_pos a E). auto.
  - assert (N : (a <= 0)%Q). { apply Qlt_le_weak. apply Qnot_le_lt. intros X. apply Qle_bool_iff in X. congruence. }
    rewrite (Qabs_neg a N). auto.
Qed.
Lemma nth_zseq : forall n z k d, (k < n)%nat -> nth k (zseq z n) d = z + Z.of_nat k.
Proof. induction n as [|n IH]; intros z k d K; [lia|]. destruct k as [|k]; cbn [zseq nth]; [lia|]. rewrite IH by lia. lia. Qed.
Section Pure.
Variable A : matrix.
Variable tags : Z -> bool.
Hypothesis SE : searchable A tags.

Definition rp (r1 r2 : Z) : bool :=
  (row_len A r1 =? row_len A r2) &&
  forallb (fun j => IS_ZERO_FEAS_TOL (row_val A r1 j - (row_val A r1 0 / row_val A r2 0) * row_val A r2 j) &&
                    (adat (mi A) (adat (ps A) r1 + j) =? adat (mi A) (adat (ps A) r2 + j)))
          (zrange 0 (row_len A r2)).

Lemma same_up_to_ok : forall s1 s2 ratio k j, 0 <= s1 + j -> 0 <= s2 + j ->
  s1 + j + Z.of_nat k <= alen (mi A) -> s1 + j + Z.of_nat k <= alen (mx A) ->
  s2 + j + Z.of_nat k <= alen (mi A) -> s2 + j + Z.of_nat k <= alen (mx A) ->
  same_up_to k A s1 s2 ratio j = Some (forallb (fun j =>
    IS_ZERO_FEAS_TOL (adat (mx A) (s1 + j) - ratio * adat (mx A) (s2 + j)) &&
    (adat (mi A) (s1 + j) =? adat (mi A) (s2 + j))) (zseq j k)).
Proof.
  intros s1 s2 ratio. induction k as [|k IH]; intros j H1 H2 H3 H4 H5 H6; [reflexivity|].
  cbn [same_up_to zseq forallb]. rewrite (aget_ok (mx A) (s1 + j)) by lia. cbn [bind].
  rewrite (aget_ok (mx A) (s2 + j)) by lia. cbn [bind].
  destruct (IS_ZERO_FEAS_TOL _); cbn [negb andb]; [|reflexivity].
  rewrite (aget_ok (mi A) (s1 + j)) by lia. cbn [bind].
  rewrite (aget_ok (mi A) (s2 + j)) by lia. cbn [bind].
  destruct (_ =? _) eqn:E; cbn [negb andb]; [|reflexivity].
  apply IH; lia.
Qed.

Lemma rows_parallel_ok : forall r1 r2, 0 <= r1 < mm A -> 0 <= r2 < mm A -> tags r1 = false ->
  rows_parallel A r1 r2 = Some (rp r1 r2).
Proof.
  intros r1 r2 H1 H2 T1. destruct SE as [Sm Sps Spe Sin Slive Sdead].
  unfold rows_parallel. do 4 (rewrite aget_ok by lia; cbn [bind]).
  destruct (Sin r1 H1) as [B1 [C1 D1]]. destruct (Sin r2 H2) as [B2 [C2 D2]].
  unfold rp, row_len in *. destruct (Z.eqb_spec (adat (pe A) r1 - adat (ps A) r1) (adat (pe A) r2 - adat (ps A) r2)) as [E|]; cbn [negb andb]; [|reflexivity].
  destruct (Slive r1 H1 T1) as [P1 _].
  rewrite aget_ok by lia. cbn [bind]. rewrite aget_ok by lia. cbn [bind].
  assert (T2 : tags r2 = false).
  { destruct (tags r2) eqn:T2; [|reflexivity]. specialize (Sdead r2 H2 T2). lia. }
  destruct (Slive r2 H2 T2) as [P2 N2]. specialize (N2 0 ltac:(lia)). unfold row_val in N2. rewrite Z.add_0_r in N2.
  destruct (Qeqb _ 0) eqn:Q0; [exfalso; apply N2; apply Qeq_bool_iff; exact Q0|].
  rewrite same_up_to_ok by lia. unfold row_val, zrange. rewrite !Z.add_0_r.
  f_equal. f_equal. f_equal. lia.
Qed.

Variables sid coh : arr Z.
Hypothesis LS : mm A <= alen sid.
Hypothesis LC : mm A <= alen coh.

Definition heq (r0 r : Z) : bool := (adat sid r =? adat sid r0) && (adat coh r =? adat coh r0).
Fixpoint tbin (r0 : Z) (l : list Z) : list Z * list Z :=
  match l with
  | nil => (nil, nil)
  | r :: l' => if heq r0 r then let '(b, rest) := tbin r0 l' in (r :: b, rest) else (nil, l)
  end.
Lemma tbin_app : forall r0 l b rest, tbin r0 l = (b, rest) -> l = b ++ rest.
Proof.
  induction l as [|r l IH]; cbn [tbin]; intros b rest E; [inversion E; reflexivity|].
  destruct (heq r0 r); [|inversion E; reflexivity].
  destruct (tbin r0 l) as [b' r']. inversion E; subst. cbn [app]. f_equal. apply IH. reflexivity.
Qed.

Lemma slice_cons : forall {V} (a : arr V) lo hi, lo < hi -> slice a lo hi = adat a lo :: slice a (lo + 1) hi.
Proof. intros. unfold slice. rewrite zrange_cons by lia. reflexivity. Qed.
Lemma slice_nil : forall {V} (a : arr V) lo hi, hi <= lo -> slice a lo hi = nil.
Proof. intros. unfold slice. rewrite zrange_nil by lia. reflexivity. Qed.

Lemma bin_scan_ok : forall rows r0 k i, 0 <= i -> i + Z.of_nat k <= alen rows ->
  (forall q, i <= q < i + Z.of_nat k -> 0 <= adat rows q < mm A) ->
  bin_scan k rows sid coh (adat sid r0) (adat coh r0) i =
  Some (i + Z.of_nat (length (fst (tbin r0 (slice rows i (i + Z.of_nat k)))))).
Proof.
  intros rows r0. induction k as [|k IH]; intros i H1 H2 H3.
  { cbn [bin_scan]. rewrite slice_nil by lia. cbn [tbin fst length]. f_equal. lia. }
  cbn [bin_scan]. rewrite slice_cons by lia. cbn [tbin].
  assert (R := H3 i ltac:(lia)).
  rewrite aget_ok by lia. cbn [bind]. rewrite aget_ok by lia. cbn [bind]. unfold heq.
  destruct (adat sid (adat rows i) =? adat sid r0) eqn:E1; cbn [negb andb]; [|cbn [fst length]; f_equal; lia].
  rewrite aget_ok by lia. cbn [bind].
  destruct (adat coh (adat rows i) =? adat coh r0) eqn:E2; cbn [negb andb]; [|cbn [fst length]; f_equal; lia].
  replace (i + Z.of_nat (S k)) with (i + 1 + Z.of_nat k) by lia.
  rewrite IH; [|lia|lia|intros; apply H3; lia].
  destruct (tbin r0 _) as [b rest]. cbn [fst length]. f_equal. lia.
Qed.

Lemma get_bin_size_ok : forall rows i, 0 <= i < mm A -> mm A <= alen rows ->
  (forall q, i <= q < mm A -> 0 <= adat rows q < mm A) ->
  get_bin_size i (mm A) rows sid coh =
  Some (1 + Z.of_nat (length (fst (tbin (adat rows i) (slice rows (i + 1) (mm A)))))).
Proof.
  intros rows i Hi L R. assert (Ri := R i ltac:(lia)). unfold get_bin_size.
  rewrite (aget_ok rows i) by lia. cbn [bind]. rewrite aget_ok by lia. cbn [bind]. rewrite aget_ok by lia. cbn [bind].
  rewrite bin_scan_ok; [|lia|lia|intros; apply R; lia]. cbn [bind].
  replace (i + 1 + Z.of_nat (Z.to_nat (mm A - (i + 1)))) with (mm A) by lia. f_equal. lia.
Qed.

(** the rows of a bin parallel to its first one, then the first one *)
Definition fpure (first : Z) (b : list Z) : list Z :=
  match filter (rp first) b with nil => nil | g => g ++ [first] end.

Lemma in_bin_ok : forall rows bin bs dst gs, 0 <= dst <= bin -> 1 < bs -> bin + bs <= mm A -> mm A <= alen rows ->
  (forall q, bin <= q < mm A -> 0 <= adat rows q < mm A) -> tags (adat rows bin) = false ->
  let g := fpure (adat rows bin) (slice rows (bin + 1) (bin + bs)) in
  let n := Z.of_nat (length g) in
  exists rows', find_parallel_rows_in_bin A bin bs dst rows gs =
    Some (rows', match g with nil => gs | _ => gs ++ [last gs 0 + n] end, n) /\
    alen rows' = alen rows /\ n <= bs /\
    (forall q, q < dst \/ bin + bs <= q -> adat rows' q = adat rows q) /\
    slice rows' dst (dst + n) = g.
Proof.
  intros rows bin bs dst gs Hd Hb He L R T0. cbv zeta.
  set (first := adat rows bin). unfold find_parallel_rows_in_bin.
  rewrite aget_ok by lia. cbn [bind]. fold first.
  match goal with |- context [for_z 1 bs ?f (rows, 0)] =>
    destruct (for_z_inv (fun i '((a, n) : arr Z * Z) =>
      alen a = alen rows /\ 0 <= n <= i - 1 /\ (forall q, q < dst \/ bin + i <= q -> adat a q = adat rows q) /\
      n = Z.of_nat (length (filter (rp first) (slice rows (bin + 1) (bin + i)))) /\
      slice a dst (dst + n) = filter (rp first) (slice rows (bin + 1) (bin + i))) f 1 bs (rows, 0)) as [[a n] [E I]] end.
  - lia.
  - rewrite !slice_nil by lia. cbn [filter length]. repeat split; auto; lia.
  - intros i [a n] Hi (I1 & I2 & I3 & I4 & I5).
    rewrite aget_ok by lia. cbn [bind]. rewrite I3 by lia.
    assert (Rr := R (bin + i) ltac:(lia)). assert (Rf := R bin ltac:(lia)).
    rewrite rows_parallel_ok by (assumption || (unfold first; lia)). cbn [bind].
    replace (bin + (i + 1)) with (bin + i + 1) by lia.
    rewrite (slice_snoc rows (bin + 1)) by lia. rewrite filter_app. cbn [filter].
    destruct (rp first (adat rows (bin + i))) eqn:P.
    + rewrite aset_ok by lia. cbn [bind]. eexists. split; [reflexivity|].
      rewrite app_length. cbn [length alen adat]. repeat split; try lia.
      * intros q Hq. destruct (Z.eqb_spec q (dst + n)); [lia|]. apply I3. lia.
      * replace (dst + (n + 1)) with (dst + n + 1) by lia. rewrite slice_snoc by lia. cbn [adat].
        rewrite Z.eqb_refl. f_equal. rewrite <- I5. apply slice_ext. intros q Hq. cbn [adat].
        destruct (Z.eqb_spec q (dst + n)); [lia|reflexivity].
    + eexists. split; [reflexivity|]. rewrite app_nil_r. repeat split; auto; try lia. intros q Hq. apply I3. lia.
  - rewrite E. cbn [bind]. destruct I as (I1 & I2 & I3 & I4 & I5). unfold fpure.
    destruct (filter (rp first) (slice rows (bin + 1) (bin + bs))) as [|g0 g] eqn:F.
    + cbn [length] in I4. subst n. cbn [Z.ltb Z.compare]. exists a. cbn [length].
      repeat split; auto; try lia. 
    + cbn [length] in I4. destruct (Z.ltb_spec 0 n); [|lia].
      rewrite aset_ok by lia. cbn [bind]. eexists. split.
      { f_equal. f_equal; [|rewrite app_length; cbn [length]; lia].
        cbn [app]. f_equal. f_equal. f_equal. cbn [length]. rewrite app_length. cbn [length]. lia. }
      rewrite !app_length in *. cbn [alen adat length] in *. repeat split; try lia.
      * intros q Hq. destruct (Z.eqb_spec q (dst + n)); [lia|]. apply I3. lia.
      * replace (dst + Z.of_nat (S (length g) + 1)) with (dst + n + 1) by lia. rewrite slice_snoc by lia. cbn [adat].
        rewrite Z.eqb_refl. cbn [app]. change (g0 :: g ++ [first]) with ((g0 :: g) ++ [first]). f_equal.
        rewrite <- I5. apply slice_ext. intros q Hq. cbn [adat]. destruct (Z.eqb_spec q (dst + n)); [lia|reflexivity].
Qed.

(** the groups of a sorted list *)
Fixpoint gpure (fuel : nat) (l : list Z) : list (list Z) :=
  match fuel, l with
  | S f, r :: l' =>
      if tags r then nil else
      let '(b, rest) := tbin r l' in
      match fpure r b with nil => gpure f rest | g => g :: gpure f rest end
  | _, _ => nil
  end.
Fixpoint sums (base : Z) (gs : list (list Z)) : list Z :=
  match gs with nil => nil | g :: gs' => (base + Z.of_nat (length g)) :: sums (base + Z.of_nat (length g)) gs' end.

Lemma last_snoc : forall (l : list Z) x d, last (l ++ [x]) d = x.
Proof. intros. apply last_last. Qed.

Lemma search_ok : forall fuel i total rows gs, 0 <= total <= i -> i <= mm A -> mm A <= alen rows ->
  mm A - i < Z.of_nat fuel -> last gs 0 = total ->
  (forall q, i <= q < mm A -> 0 <= adat rows q < mm A) ->
  let G := gpure fuel (slice rows i (mm A)) in
  exists rows', search fuel A tags sid coh i total rows gs = Some (rows', gs ++ sums total G) /\
    alen rows' = alen rows /\ (forall q, q < total -> adat rows' q = adat rows q) /\
    total + Z.of_nat (length (concat G)) <= mm A /\
    slice rows' total (total + Z.of_nat (length (concat G))) = concat G.
Proof.
  induction fuel as [|f IH]; intros i total rows gs Ht Hi L F LG R; cbv zeta; [lia|].
  cbn [search]. destruct (Z.ltb_spec i (mm A)) as [Hlt|Hge].
  2:{ rewrite slice_nil by lia. cbn [gpure sums concat length]. exists rows. rewrite app_nil_r.
      repeat split; auto; try lia. rewrite slice_nil by lia. reflexivity. }
  rewrite (slice_cons rows i) by lia. cbn [gpure]. rewrite aget_ok by lia. cbn [bind].
  destruct (tags (adat rows i)) eqn:T.
  { cbn [sums concat length]. exists rows. rewrite app_nil_r. repeat split; auto; try lia. rewrite slice_nil by lia. reflexivity. }
  rewrite get_bin_size_ok by (lia || assumption). cbn [bind].
  destruct (tbin (adat rows i) (slice rows (i + 1) (mm A))) as [b rest] eqn:TB. cbn [fst].
  assert (AP := tbin_app _ _ _ _ TB).
  assert (LEN : Z.of_nat (length b) + Z.of_nat (length rest) = mm A - (i + 1)).
  { rewrite <- slice_length with (a := rows) by lia. rewrite AP, app_length. lia. }
  assert (Eb : b = slice rows (i + 1) (i + 1 + Z.of_nat (length b)) /\ rest = slice rows (i + 1 + Z.of_nat (length b)) (mm A)).
  { rewrite (slice_split rows (i + 1) (i + 1 + Z.of_nat (length b)) (mm A)) in AP by lia.
    assert (LL : length (slice rows (i + 1) (i + 1 + Z.of_nat (length b))) = length b).
    { apply Nat2Z.inj. rewrite slice_length by lia. lia. }
    apply (f_equal (firstn (length b))) in AP as A1. rewrite !firstn_app in A1.
    rewrite LL, Nat.sub_diag, !firstn_O, !app_nil_r, firstn_all in A1. rewrite <- LL in A1 at 1. rewrite firstn_all in A1.
    split; [auto|]. apply (f_equal (skipn (length b))) in AP as A2. rewrite !skipn_app in A2.
    rewrite LL, Nat.sub_diag, skipn_all in A2. rewrite <- LL in A2 at 1. rewrite skipn_all in A2. cbn [app skipn] in A2. auto. }
  destruct Eb as [Eb Er].
  destruct (Z.ltb_spec 1 (1 + Z.of_nat (length b))) as [HB|HB].
  - destruct (in_bin_ok rows i (1 + Z.of_nat (length b)) total gs) as [rows' X]; try lia; auto.
    cbv zeta in X. replace (i + (1 + Z.of_nat (length b))) with (i + 1 + Z.of_nat (length b)) in X by lia.
    rewrite <- Eb in X. destruct X as (X1 & X2 & X3 & X4 & X5). rewrite X1. cbn [bind].
    set (g := fpure (adat rows i) b) in *.
    replace (i + (1 + Z.of_nat (length b) - 1) + 1) with (i + 1 + Z.of_nat (length b)) by lia.
    assert (Er' : slice rows' (i + 1 + Z.of_nat (length b)) (mm A) = rest).
    { rewrite Er. apply slice_ext. intros q Hq. apply X4. lia. }
    destruct (IH (i + 1 + Z.of_nat (length b)) (total + Z.of_nat (length g)) rows'
                 match g with nil => gs | _ => gs ++ [last gs 0 + Z.of_nat (length g)] end) as [rows2 Y]; try lia.
    { destruct g as [|z g']; [cbn [length]; lia|]. rewrite last_snoc. lia. }
    { intros q Hq. rewrite X4 by lia. apply R. lia. }
    cbv zeta in Y. rewrite Er' in Y. destruct Y as (Y1 & Y2 & Y3 & Y4 & Y5).
    exists rows2. rewrite Y1. rewrite Y2, X2. 
    assert (PRE : slice rows2 total (total + Z.of_nat (length g)) = g).
    { transitivity (slice rows' total (total + Z.of_nat (length g))); [|exact X5]. apply slice_ext. intros q Hq. apply Y3. lia. }
    destruct g as [|z g'] eqn:Eg.
    + cbn [length] in *. replace (total + Z.of_nat 0) with total in * by lia.
      split; [reflexivity|]. split; [reflexivity|]. split; [intros q Hq; rewrite Y3, X4 by lia; reflexivity|]. auto.
    + split.
      { rewrite <- app_assoc. cbn [app sums]. rewrite LG. reflexivity. }
      split; [reflexivity|]. split; [intros q Hq; rewrite Y3, X4 by lia; reflexivity|].
      cbn [concat]. rewrite app_length. split; [lia|].
      rewrite (slice_split rows2 total (total + Z.of_nat (length (z :: g')))) by lia.
      rewrite PRE. f_equal. etransitivity; [|exact Y5]. f_equal. lia.
  - destruct b as [|]; [|cbn [length] in HB; lia]. cbn [length] in *. 
    unfold fpure. cbn [filter].
    replace (i + 1 + Z.of_nat 0) with (i + 1) in Er by lia.
    destruct (IH (i + 1) total rows gs) as [rows2 Y]; try lia; auto.
    { intros q Hq. apply R. lia. }
    cbv zeta in Y. rewrite <- Er in Y. exists rows2. exact Y.
Qed.

(** ** Properties of the list version *)
Lemma rp_spec : forall r i, 0 <= r < mm A -> 0 <= i < mm A -> tags r = false -> rp r i = true ->
  tags i = false /\ parallel_within FEAS_TOL A r i.
Proof.
  intros r i Hr Hi T H. destruct SE as [Sm Sps Spe Sin Slive Sdead].
  unfold rp in H. apply andb_true_iff in H. destruct H as [HL HF]. apply Z.eqb_eq in HL.
  destruct (Slive r Hr T) as [Pr _].
  assert (Ti : tags i = false). { destruct (tags i) eqn:E; [|reflexivity]. specialize (Sdead i Hi E). lia. }
  split; [exact Ti|]. destruct (Slive i Hi Ti) as [Pi Ni].
  rewrite forallb_forall in HF.
  assert (HF' : forall j, 0 <= j < row_len A r ->
     (Qabs (row_val A r j - row_val A r 0 / row_val A i 0 * row_val A i j) <= FEAS_TOL)%Q /\
     adat (mi A) (adat (ps A) r + j) = adat (mi A) (adat (ps A) i + j)).
  { intros j Hj. specialize (HF j). rewrite in_zrange in HF. specialize (HF ltac:(lia)).
    apply andb_true_iff in HF. destruct HF as [H1 H2]. apply Z.eqb_eq in H2. split; [|exact H2].
    apply abs_tol. exact H1. }
  split; [|split; [auto|]].
  - unfold row_ix. unfold row_len in *. apply slice_move; [lia|]. intros k Hk. 
    destruct (HF' k) as [_ E]; [lia|]. auto.
  - exists (row_val A r 0 / row_val A i 0)%Q. split; [intros j Hj; apply HF'; auto|].
    field. apply Ni. lia.
Qed.

Lemma gpure_in : forall fuel l x, In x (concat (gpure fuel l)) -> In x l.
Proof.
  induction fuel as [|f IH]; intros [|r l] x H; cbn [gpure concat] in H; try contradiction.
  destruct (tags r); [contradiction|]. destruct (tbin r l) as [b rest] eqn:TB. apply tbin_app in TB. subst l.
  unfold fpure in H. destruct (filter (rp r) b) as [|g0 g] eqn:F.
  - right. apply in_or_app. right. apply (IH rest x H).
  - cbn [app concat] in H.
    change (In x (((g0 :: g) ++ [r]) ++ concat (gpure f rest))) in H.
    apply in_app_or in H. destruct H as [H|H].
    + apply in_app_or in H. destruct H as [H|[->|[]]]; [|left; reflexivity].
      right. apply in_or_app. left. rewrite <- F in H. apply filter_In in H. tauto.
    + right. apply in_or_app. right. apply (IH rest x H).
Qed.
Lemma NoDup_app_l : forall {T} (a b : list T), NoDup (a ++ b) -> NoDup a.
Proof. induction a as [|x a IH]; intros b H; [constructor|]. inversion H; subst. constructor; [|eapply IH; eauto]. intros X. apply H2. apply in_or_app; auto. Qed.
Lemma NoDup_app_r : forall {T} (a b : list T), NoDup (a ++ b) -> NoDup b.
Proof. induction a as [|x a IH]; intros b H; [exact H|]. inversion H; subst. eapply IH; eauto. Qed.
Lemma NoDup_app_x : forall {T} (a b : list T) x, NoDup (a ++ b) -> In x a -> In x b -> False.
Proof. induction a as [|y a IH]; intros b x H X Y; [contradiction|]. inversion H; subst. destruct X as [->|X]; [apply H2, in_or_app; auto|eapply IH; eauto]. Qed.
Lemma NoDup_app_mk : forall {T} (a b : list T), NoDup a -> NoDup b -> (forall x, In x a -> In x b -> False) -> NoDup (a ++ b).
Proof.
  induction a as [|y a IH]; intros b Ha Hb D; [exact Hb|]. inversion Ha; subst. cbn [app]. constructor.
  - intros X. apply in_app_or in X. destruct X as [X|X]; [auto|eapply D; [left; reflexivity|exact X]].
  - apply IH; auto. intros x X Y. eapply D; [right; exact X|exact Y].
Qed.
Lemma gpure_nd : forall fuel l, NoDup l -> NoDup (concat (gpure fuel l)).
Proof.
  induction fuel as [|f IH]; intros [|r l] ND; cbn [gpure concat]; try constructor.
  destruct (tags r); [constructor|]. destruct (tbin r l) as [b rest] eqn:TB. apply tbin_app in TB. subst l.
  inversion ND; subst. assert (NDb := NoDup_app_l _ _ H2). assert (NDr := NoDup_app_r _ _ H2).
  unfold fpure. destruct (filter (rp r) b) as [|g0 g] eqn:F; [auto|].
  assert (SUB : forall x, In x (g0 :: g) -> In x b). { intros x X. rewrite <- F in X. apply filter_In in X. tauto. }
  cbn [app concat]. change (NoDup (((g0 :: g) ++ [r]) ++ concat (gpure f rest))).
  apply NoDup_app_mk; [|auto|].
  - apply NoDup_app_mk; [rewrite <- F; apply NoDup_filter; auto|repeat constructor; intros []|].
    intros x X [->|[]]. apply H1. apply in_or_app. left. auto.
  - intros x X Y. apply gpure_in in Y. apply in_app_or in X. destruct X as [X|[->|[]]].
    + eapply NoDup_app_x; [exact H2| |exact Y]. auto.
    + apply H1. apply in_or_app. right. auto.
Qed.
Lemma gpure_groups : forall fuel l, (forall x, In x l -> 0 <= x < mm A) -> forall g, In g (gpure fuel l) ->
  (2 <= length g)%nat /\ exists r, In r g /\ forall i, In i g -> 0 <= i < mm A /\ tags i = false /\
     (i = r \/ parallel_within FEAS_TOL A r i).
Proof.
  induction fuel as [|f IH]; intros [|r l] B g H; cbn [gpure] in H; try contradiction.
  destruct (tags r) eqn:T; [contradiction|]. destruct (tbin r l) as [b rest] eqn:TB. apply tbin_app in TB. subst l.
  assert (Br : forall x, In x rest -> 0 <= x < mm A) by (intros x X; apply B; right; apply in_or_app; auto).
  unfold fpure in H. destruct (filter (rp r) b) as [|g0 g'] eqn:F; [eapply IH; eauto|].
  cbn [app] in H. destruct H as [<-|H]; [|eapply IH; eauto].
  change (g0 :: g' ++ [r]) with ((g0 :: g') ++ [r]). rewrite <- F.
  assert (Rr : 0 <= r < mm A) by (apply B; left; reflexivity).
  split; [rewrite app_length, F; cbn [length]; lia|]. exists r. split; [apply in_or_app; right; left; reflexivity|].
  intros i Hi. apply in_app_or in Hi. destruct Hi as [Hi|[<-|[]]]; [|auto].
  apply filter_In in Hi. destruct Hi as [Hi P].
  assert (Ri : 0 <= i < mm A) by (apply B; right; apply in_or_app; auto).
  destruct (rp_spec r i Rr Ri T P) as [Ti PW]. auto.
Qed.
End Pure.

Lemma par_refl : forall A tags r, searchable A tags -> 0 <= r < mm A -> parallel_within FEAS_TOL A r r.
Proof.
  intros A tags r SE Hr. split; [reflexivity|]. split; [reflexivity|]. exists 1%Q. split; [|ring].
  intros j Hj. setoid_replace (row_val A r j - 1 * row_val A r j)%Q with 0%Q by ring. discriminate.
Qed.

(** groups from prefix sums *)
Lemma groups_sums : forall (a : arr Z) G base, slice a base (base + Z.of_nat (length (concat G))) = concat G ->
  groups a (base :: sums base G) = G.
Proof.
  induction G as [|g G IH]; intros base H; [reflexivity|].
  cbn [sums]. change (groups a (base :: (base + Z.of_nat (length g)) :: sums (base + Z.of_nat (length g)) G))
    with (slice a base (base + Z.of_nat (length g)) :: groups a ((base + Z.of_nat (length g)) :: sums (base + Z.of_nat (length g)) G)).
  cbn [concat] in H. rewrite app_length, Nat2Z.inj_add, Z.add_assoc in H.
  rewrite (slice_split a base (base + Z.of_nat (length g))) in H by lia.
  assert (LL : length (slice a base (base + Z.of_nat (length g))) = length g).
  { apply Nat2Z.inj. rewrite slice_length by lia. lia. }
  assert (E1 : slice a base (base + Z.of_nat (length g)) = g).
  { apply (f_equal (firstn (length g))) in H. rewrite !firstn_app, LL, Nat.sub_diag, !firstn_O, !app_nil_r, firstn_all in H.
    rewrite <- LL in H at 1. rewrite firstn_all in H. exact H. }
  rewrite E1. f_equal. apply IH. rewrite E1 in H. apply app_inv_head in H. exact H.
Qed.

Lemma compute_hashes_ok : forall hs hc IM A tags sid coh, searchable A tags ->
  mm A <= alen sid -> mm A <= alen coh ->
  exists sid' coh', compute_hashes hs hc IM A tags sid coh = Some (sid', coh') /\ alen sid' = alen sid /\ alen coh' = alen coh /\
    forall i, 0 <= i < mm A -> adat sid' i = (if tags i then IM else hs (row_ix A i)) /\
      adat coh' i = (if tags i then adat coh i else hc (slice (mx A) (adat (ps A) i) (adat (pe A) i))).
Proof.
  intros hs hc IM A tags sid coh [Sm Sps Spe Sin Slive Sdead] L1 L2. unfold compute_hashes.
  match goal with |- context [for_z 0 (mm A) ?f _] =>
    destruct (for_z_inv (fun i '((a, b) : arr Z * arr Z) => alen a = alen sid /\ alen b = alen coh /\
      (forall k, i <= k -> adat b k = adat coh k) /\
      forall k, 0 <= k < i -> adat a k = (if tags k then IM else hs (row_ix A k)) /\
        adat b k = (if tags k then adat coh k else hc (slice (mx A) (adat (ps A) k) (adat (pe A) k)))) f 0 (mm A) (sid, coh)) as [[a b] [E I]] end.
  - exact Sm.
  - repeat split; auto; lia.
  - intros i [a b] Hi (I1 & I2 & I3 & I4). destruct (tags i) eqn:T.
    + rewrite aset_ok by lia. cbn [bind]. eexists. split; [reflexivity|]. cbn [alen adat]. repeat split; auto.
      * intros k Hk. apply I3. lia.
      * destruct (Z.eqb_spec k i) as [->|]; [rewrite T; reflexivity|apply I4; lia].
      * destruct (Z.eq_dec k i) as [->|]; [rewrite T; apply I3; lia|apply I4; lia].
    + destruct (Sin i Hi) as [B1 [B2 B3]]. destruct (Slive i Hi T) as [P _]. unfold row_len in P.
      rewrite (aget_ok (ps A)) by lia. cbn [bind]. rewrite (aget_ok (pe A)) by lia. cbn [bind].
      rewrite read_range_ok by lia. cbn [bind]. rewrite aset_ok by lia. cbn [bind].
      rewrite aget_ok by lia. cbn [bind]. rewrite read_range_ok by lia. cbn [bind]. rewrite aset_ok by lia. cbn [bind].
      eexists. split; [reflexivity|]. cbn [alen adat]. repeat split; auto.
      * intros k Hk. destruct (Z.eqb_spec k i); [lia|]. apply I3. lia.
      * destruct (Z.eqb_spec k i) as [->|]; [rewrite T; reflexivity|apply I4; lia].
      * destruct (Z.eqb_spec k i) as [->|]; [rewrite T; reflexivity|apply I4; lia].
  - exists a, b. destruct I as (I1 & I2 & I3 & I4). repeat split; auto; apply I4; lia.
Qed.

Lemma search_groups : forall hs hc IM order A removed rows0 sid0 coh0, searchable A removed ->
  mm A <= alen rows0 -> mm A <= alen sid0 -> mm A <= alen coh0 ->
  (forall f g, Permutation (order f g) (zrange 0 (mm A))) ->
  exists rows starts, find_parallel_rows hs hc IM order A removed rows0 sid0 coh0 = Some (rows, starts) /\
    hd 1 starts = 0 /\ last starts 0 <= mm A /\
    exists sid coh, compute_hashes hs hc IM A removed sid0 coh0 = Some (sid, coh) /\
      groups rows starts = gpure A removed sid coh (S (Z.to_nat (mm A))) (order (adat sid) (adat coh)).
Proof.
  intros hs hc IM order A removed rows0 sid0 coh0 SE L0 L1 L2 PM.
  destruct (compute_hashes_ok hs hc IM A removed sid0 coh0 SE L1 L2) as (sid & coh & EH & A1 & A2 & _).
  unfold find_parallel_rows. rewrite EH. cbn [bind]. assert (Sm := se_m _ _ SE).
  match goal with |- context [for_z 0 (mm A) ?f rows0] =>
    destruct (for_z_inv (fun i (a : arr Z) => alen a = alen rows0) f 0 (mm A) rows0) as [rows1 [E I]] end;
    [exact Sm|reflexivity| |].
  { intros i a Hi Ha. rewrite aset_ok by lia. eexists. split; [reflexivity|]. exact Ha. }
  rewrite E. cbn [bind]. specialize (PM (adat sid) (adat coh)).
  set (so := order (adat sid) (adat coh)) in *.
  set (rows2 := mkarr (alen rows1) _). 
  assert (LSO : Z.of_nat (length so) = mm A).
  { rewrite (Permutation_length PM). rewrite zrange_length by lia. lia. }
  assert (SL : slice rows2 0 (mm A) = so).
  { unfold slice. apply nth_ext with (d := 0) (d' := 0); [rewrite map_length; apply Nat2Z.inj; rewrite zrange_length by lia; lia|].
    rewrite map_length. intros k Hk. assert (Hk' : Z.of_nat k < mm A). { apply Nat2Z.inj_lt in Hk. rewrite zrange_length in Hk by lia. lia. }
    assert (NZ : nth k (zrange 0 (mm A)) (-1) = Z.of_nat k).
    { unfold zrange. rewrite nth_zseq by lia. lia. }
    rewrite (nth_indep _ 0 (adat rows2 (-1))) by (rewrite map_length; exact Hk).
    rewrite map_nth, NZ. unfold rows2. cbn [adat].
    destruct (Z.leb_spec 0 (Z.of_nat k)); [|lia]. destruct (Z.ltb_spec (Z.of_nat k) (mm A)); [|lia]. cbn [andb]. rewrite Nat2Z.id. reflexivity. }
  assert (RNG : forall x, In x so -> 0 <= x < mm A).
  { intros x X. eapply Permutation_in in X; [|exact PM]. rewrite in_zrange in X. exact X. }
  assert (ND : NoDup so).
  { eapply Permutation_NoDup; [apply Permutation_sym; exact PM|]. clear. unfold zrange. generalize (Z.to_nat (mm A - 0)). intros n. generalize 0.
    induction n as [|n IH]; intros z; cbn [zseq]; constructor; auto. rewrite in_zseq. lia. }
  destruct (search_ok A removed SE sid coh) with (fuel := S (Z.to_nat (mm A))) (i := 0) (total := 0) (rows := rows2) (gs := [0]) as [rows3 X]; try lia; try reflexivity.
  { unfold rows2. cbn [alen]. lia. }
  { intros q Hq. apply RNG. rewrite <- SL. apply in_map. rewrite in_zrange. lia. }
  cbv zeta in X. rewrite SL in X. destruct X as (X1 & X2 & X3 & X4 & X5). rewrite X1.
  set (G := gpure A removed sid coh (S (Z.to_nat (mm A))) so) in *.
  exists rows3, ([0] ++ sums 0 G). split; [reflexivity|]. cbn [app].
  assert (GE : groups rows3 (0 :: sums 0 G) = G) by (apply groups_sums; exact X5).
  split; [reflexivity|]. split.
  { assert (LS : forall G b, last (b :: sums b G) 0 = b + Z.of_nat (length (concat G))).
    { clear. induction G as [|g G IH]; intros b; [cbn; lia|]. cbn [sums concat]. rewrite app_length.
      change (last (b :: (b + Z.of_nat (length g)) :: sums (b + Z.of_nat (length g)) G) 0) with (last ((b + Z.of_nat (length g)) :: sums (b + Z.of_nat (length g)) G) 0).
      rewrite IH. lia. }
    rewrite LS. exact X4. }
  exists sid, coh. split; [reflexivity|exact GE].
Qed.

Lemma search_safe : forall hs hc IM order A removed rows0 sid0 coh0, searchable A removed ->
  mm A <= alen rows0 -> mm A <= alen sid0 -> mm A <= alen coh0 ->
  (forall f g, Permutation (order f g) (zrange 0 (mm A))) ->
  exists rows starts, find_parallel_rows hs hc IM order A removed rows0 sid0 coh0 = Some (rows, starts) /\
    hd 1 starts = 0 /\ last starts 0 <= mm A /\
    NoDup (concat (groups rows starts)) /\
    (forall g, In g (groups rows starts) -> (2 <= length g)%nat /\
       exists r, In r g /\ forall i, In i g -> 0 <= i < mm A /\ removed i = false /\ parallel_within FEAS_TOL A r i).
Proof.
  intros hs hc IM order A removed rows0 sid0 coh0 SE L0 L1 L2 PM.
  destruct (search_groups hs hc IM order A removed rows0 sid0 coh0 SE L0 L1 L2 PM) as (rows & starts & E & H1 & H2 & sid & coh & _ & GE).
  exists rows, starts. split; [exact E|]. split; [exact H1|]. split; [exact H2|]. rewrite GE.
  specialize (PM (adat sid) (adat coh)). set (so := order (adat sid) (adat coh)) in *.
  assert (RNG : forall x, In x so -> 0 <= x < mm A).
  { intros x X. eapply Permutation_in in X; [|exact PM]. rewrite in_zrange in X. exact X. }
  assert (ND : NoDup so).
  { eapply Permutation_NoDup; [apply Permutation_sym; exact PM|]. clear. unfold zrange. generalize (Z.to_nat (mm A - 0)). intros n. generalize 0.
    induction n as [|n IH]; intros z; cbn [zseq]; constructor; auto. rewrite in_zseq. lia. }
  split; [apply gpure_nd; exact ND|].
  intros g Hg. destruct (gpure_groups A removed SE sid coh _ so RNG g Hg) as [G2 [r [Hr Hall]]].
  split; [exact G2|]. exists r. split; [exact Hr|]. intros i Hi. destruct (Hall i Hi) as [B [T P]].
  split; [exact B|]. split; [exact T|]. destruct P as [->|P]; [apply (par_refl A removed); auto|exact P].
Qed.

(** The comparator is a consistent order *)
Lemma comparator_order : forall sid coh a b c,
  comparator sid coh a a = 0 /\
  comparator sid coh b a = - comparator sid coh a b /\
  (comparator sid coh a b <= 0 -> comparator sid coh b c <= 0 -> comparator sid coh a c <= 0) /\
  (comparator sid coh a b = 0 <-> sid a = sid b /\ coh a = coh b).
Proof.
  intros. unfold comparator. repeat rewrite Z.gtb_ltb.
  repeat split; intros; repeat match goal with |- context [?x <? ?y] => destruct (Z.ltb_spec x y) | H : context [?x <? ?y] |- _ => destruct (Z.ltb_spec x y) end; try lia.
Qed.
