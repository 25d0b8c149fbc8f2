(** The search on arrays finds the groups of the search on rows used by the reductions (M_Parallel.v). *)
From Coq Require Import QArith Qabs Permutation Lia Lqa.
From Verif Require Import M_Mem S_Csr M_Num M_Csr M_ParSearch S_Par S_LP L_Mem L_Vec L_ParSearch.
From Verif Require M_Parallel L_Struct7.
Local Open Scope Z_scope.

Section Link.
Variable A : matrix.
Variable M : nat -> row.
Variable inact : nat -> bool.
Variable m : nat.
Notation zn := Z.of_nat.
Notation tg := (fun i => inact (Z.to_nat i)).
Hypothesis Em : mm A = zn m.
Hypothesis SE : searchable A tg.
Hypothesis ENC : forall i, (i < m)%nat -> row_ix A (zn i) = map zn (map fst (M i)) /\
  slice (mx A) (adat (ps A) (zn i)) (adat (pe A) (zn i)) = map snd (M i).

Lemma enc_len : forall i, (i < m)%nat -> row_len A (zn i) = zn (length (M i)).
Proof.
  intros i Hi. destruct (ENC i Hi) as [E _]. apply (f_equal (@length Z)) in E. rewrite !map_length in E.
  apply (f_equal zn) in E. unfold row_ix in E. destruct (se_in _ _ SE (zn i) ltac:(lia)) as [H _].
  rewrite slice_length in E by lia. unfold row_len. lia.
Qed.
Lemma sp_len : forall q r1 r2, M_Parallel.same_pattern q r1 r2 = true -> length r1 = length r2.
Proof.
  intros q. induction r1 as [|[c1 v1] r1 IH]; intros [|[c2 v2] r2] H; try reflexivity; try discriminate.
  cbn in H. apply andb_true_iff in H. cbn. f_equal. apply IH. tauto.
Qed.
Lemma sp_forallb : forall ratio s1 s2 r1 r2 j, length r1 = length r2 ->
  map (adat (mi A)) (zseq (s1 + j) (length r1)) = map zn (map fst r1) ->
  map (adat (mx A)) (zseq (s1 + j) (length r1)) = map snd r1 ->
  map (adat (mi A)) (zseq (s2 + j) (length r2)) = map zn (map fst r2) ->
  map (adat (mx A)) (zseq (s2 + j) (length r2)) = map snd r2 ->
  forallb (fun j => IS_ZERO_FEAS_TOL (adat (mx A) (s1 + j) - ratio * adat (mx A) (s2 + j)) &&
                    (adat (mi A) (s1 + j) =? adat (mi A) (s2 + j))) (zseq j (length r2)) =
  M_Parallel.same_pattern ratio r1 r2.
Proof.
  intros ratio s1 s2. induction r1 as [|[c1 v1] r1 IH]; intros [|[c2 v2] r2] j L E1 E2 E3 E4; try discriminate; [reflexivity|].
  cbn [length zseq map fst snd] in *. injection E1 as I1 I1'. injection E2 as I2 I2'. injection E3 as I3 I3'. injection E4 as I4 I4'.
  cbn [forallb M_Parallel.same_pattern]. rewrite I1, I2, I3, I4. rewrite <- (IH r2 (j + 1)).
  - f_equal. f_equal. destruct (Nat.eqb_spec c1 c2) as [->|N]; [apply Z.eqb_refl|]. apply Z.eqb_neq. lia.
  - congruence.
  - rewrite Z.add_assoc. exact I1'.
  - rewrite Z.add_assoc. exact I2'.
  - rewrite Z.add_assoc. exact I3'.
  - rewrite Z.add_assoc. exact I4'.
Qed.
Lemma rp_parallel : forall f i, (f < m)%nat -> (i < m)%nat -> inact f = false ->
  rp A (zn f) (zn i) = M_Parallel.parallel (M f) (M i).
Proof.
  intros f i Hf Hi T. unfold rp. rewrite !enc_len by auto.
  destruct (ENC f Hf) as [F1 F2]. destruct (ENC i Hi) as [I1 I2].
  destruct (se_live _ _ SE (zn f)) as [Pf _]; [lia|rewrite Nat2Z.id; exact T|]. rewrite enc_len in Pf by auto.
  destruct (se_in _ _ SE (zn f) ltac:(lia)) as [Bf _]. destruct (se_in _ _ SE (zn i) ltac:(lia)) as [Bi _].
  assert (Lf := enc_len f Hf). assert (Li := enc_len i Hi). unfold row_len in Lf, Li.
  unfold row_ix, slice, zrange in F1, F2, I1, I2.
  replace (Z.to_nat (adat (pe A) (zn f) - adat (ps A) (zn f))) with (length (M f)) in F1, F2 by lia.
  replace (Z.to_nat (adat (pe A) (zn i) - adat (ps A) (zn i))) with (length (M i)) in I1, I2 by lia.
  destruct (Z.eqb_spec (zn (length (M f))) (zn (length (M i)))) as [E|E]; cbn [andb].
  - apply Nat2Z.inj in E. destruct (M f) as [|[c1 v1] r1] eqn:Ef; [cbn in Pf; lia|]. destruct (M i) as [|[c2 v2] r2] eqn:Ei; [discriminate|].
    cbn [M_Parallel.parallel].
    assert (V1 : row_val A (zn f) 0 = v1) by (unfold row_val; cbn [length zseq map snd] in F2; rewrite Z.add_0_r; congruence).
    assert (V2 : row_val A (zn i) 0 = v2) by (unfold row_val; cbn [length zseq map snd] in I2; rewrite Z.add_0_r; congruence).
    rewrite V1, V2. unfold zrange. rewrite Z.sub_0_r, Nat2Z.id. unfold row_val.
    apply sp_forallb; rewrite ?Z.add_0_r; assumption.
  - symmetry. apply not_true_is_false. intros X. apply E. f_equal. unfold M_Parallel.parallel in X.
    destruct (M f) as [|[c1 v1] r1]; [cbn in Pf; lia|]. destruct (M i) as [|[c2 v2] r2]; [discriminate|]. eapply sp_len; eauto.
Qed.

Variables sid coh : arr Z.
Hypothesis HH : forall i, (i < m)%nat -> (adat sid (zn i), adat coh (zn i)) = M_Parallel.row_hash M inact i.

Lemma tbin_take : forall r0 l, (r0 < m)%nat -> (forall x, In x l -> (x < m)%nat) ->
  tbin sid coh (zn r0) (map zn l) =
  let '(b, rest) := M_Parallel.take_bin M inact (M_Parallel.row_hash M inact r0) l in (map zn b, map zn rest).
Proof.
  intros r0. induction l as [|k l IH]; intros H0 B; [reflexivity|]. cbn [map tbin M_Parallel.take_bin].
  unfold heq, M_Parallel.hash_eq. rewrite <- (HH r0 H0), <- (HH k) by (apply B; left; reflexivity). cbn [fst snd].
  destruct (_ && _); [|reflexivity]. rewrite IH; [|exact H0|intros; apply B; right; assumption]. rewrite <- (HH r0 H0).
  destruct (M_Parallel.take_bin M inact (adat sid (zn r0), adat coh (zn r0)) l). reflexivity.
Qed.

Lemma gpure_link : forall fuel l, (length l < fuel)%nat -> (forall x, In x l -> (x < m)%nat) -> forall f2, (length l <= f2)%nat ->
  gpure A tg sid coh fuel (map zn l) = map (map zn) (M_Parallel.groups_of M (M_Parallel.cut_bins M inact f2 l)).
Proof.
  induction fuel as [|f IH]; intros l LF B f2 L2; [lia|].
  destruct l as [|i l]; [destruct f2; reflexivity|]. destruct f2 as [|f2]; [cbn in L2; lia|].
  cbn [map gpure M_Parallel.cut_bins]. rewrite Nat2Z.id.
  destruct (inact i) eqn:T; [reflexivity|].
  assert (Hi : (i < m)%nat) by (apply B; left; reflexivity).
  rewrite tbin_take by (auto; intros; apply B; right; assumption).
  destruct (M_Parallel.take_bin M inact (M_Parallel.row_hash M inact i) l) as [b rest] eqn:TB.
  apply L_Struct7.take_bin_app in TB. subst l. cbn [length] in LF, L2. rewrite app_length in LF, L2.
  assert (FP : fpure A (zn i) (map zn b) = map zn (M_Parallel.find_parallel_rows_in_bin M (i :: b))).
  { unfold fpure. cbn [M_Parallel.find_parallel_rows_in_bin].
    assert (FE : filter (rp A (zn i)) (map zn b) = map zn (filter (fun k => M_Parallel.parallel (M i) (M k)) b)).
    { assert (Bb : forall x, In x b -> (x < m)%nat) by (intros; apply B; right; apply in_or_app; auto). clear - Bb Hi T ENC SE Em.
      induction b as [|k b IH]; [reflexivity|]. cbn [map filter].
      rewrite rp_parallel; auto; [|apply Bb; left; reflexivity]. rewrite IH by (intros; apply Bb; right; assumption).
      destruct (M_Parallel.parallel _ _); reflexivity. }
    rewrite FE. destruct (filter (fun k => M_Parallel.parallel (M i) (M k)) b) as [|g0 g]; [reflexivity|].
    cbn [map app]. rewrite map_app. reflexivity. }
  rewrite FP. rewrite (IH rest ltac:(lia)) with (f2 := f2); [|intros; apply B; right; apply in_or_app; auto|lia].
  destruct b as [|k b].
  - cbn [M_Parallel.find_parallel_rows_in_bin filter map]. reflexivity.
  - unfold M_Parallel.groups_of. cbn [map filter]. 
    destruct (M_Parallel.find_parallel_rows_in_bin M (i :: k :: b)) as [|g0 g]; reflexivity.
Qed.
End Link.

Lemma search_refines : forall A M inact m rows0 sid0 coh0, mm A = Z.of_nat m ->
  searchable A (fun i => inact (Z.to_nat i)) ->
  (forall i, (i < m)%nat -> row_ix A (Z.of_nat i) = map Z.of_nat (map fst (M i)) /\
     slice (mx A) (adat (ps A) (Z.of_nat i)) (adat (pe A) (Z.of_nat i)) = map snd (M i)) ->
  mm A <= alen rows0 -> mm A <= alen sid0 -> mm A <= alen coh0 ->
  (forall i, (i < m)%nat -> inact i = true -> adat coh0 (Z.of_nat i) = 0) ->
  exists rows starts, find_parallel_rows
      (fun l => M_Parallel.to_int (M_Parallel.hash_int_array (map Z.to_nat l)))
      (fun l => M_Parallel.to_int (M_Parallel.hash_double_array_with_scale l)) M_Parallel.INT_MAX
      (fun _ _ => map Z.of_nat (M_Parallel.sort_rows M inact (seq 0 m)))
      A (fun i => inact (Z.to_nat i)) rows0 sid0 coh0 = Some (rows, starts) /\
    groups rows starts = map (map Z.of_nat) (M_Parallel.groups_of M (M_Parallel.hash_bins M inact m)).
Proof.
  intros A M inact m rows0 sid0 coh0 Em SE ENC L0 L1 L2 Z0.
  set (hs := fun l => M_Parallel.to_int (M_Parallel.hash_int_array (map Z.to_nat l))).
  set (hc := fun l => M_Parallel.to_int (M_Parallel.hash_double_array_with_scale l)).
  assert (PS : Permutation (M_Parallel.sort_rows M inact (seq 0 m)) (seq 0 m)) by apply L_Struct7.sort_perm.
  assert (ZS : forall n lo, zseq (Z.of_nat lo) n = map Z.of_nat (seq lo n)).
  { induction n as [|n IH]; intros lo; [reflexivity|]. cbn [zseq seq map]. f_equal. rewrite <- IH. f_equal. lia. }
  destruct (search_groups hs hc M_Parallel.INT_MAX (fun _ _ => map Z.of_nat (M_Parallel.sort_rows M inact (seq 0 m))) A
     (fun i => inact (Z.to_nat i)) rows0 sid0 coh0 SE L0 L1 L2) as (rows & starts & E & _ & _ & sid & coh & EH & GE).
  { intros _ _. unfold zrange. change 0 with (Z.of_nat 0) at 1. rewrite ZS. replace (Z.to_nat (mm A - 0)) with m by lia.
    apply Permutation_map. exact PS. }
  exists rows, starts. split; [exact E|]. rewrite GE.
  destruct (compute_hashes_ok hs hc M_Parallel.INT_MAX A _ sid0 coh0 SE L1 L2) as (sid' & coh' & EH' & _ & _ & HV).
  rewrite EH in EH'. injection EH' as <- <-.
  unfold M_Parallel.hash_bins. apply gpure_link with (m := m); auto.
  - intros i Hi. destruct (HV (Z.of_nat i) ltac:(lia)) as [H1 H2]. rewrite Nat2Z.id in H1, H2. rewrite H1, H2.
    unfold M_Parallel.row_hash. destruct (inact i) eqn:T; [rewrite Z0 by auto; reflexivity|].
    destruct (ENC i Hi) as [E1 E2]. rewrite E1, E2. unfold hs, hc. repeat f_equal. rewrite map_map. rewrite <- (map_id (map fst (M i))) at 2.
    apply map_ext. intros. apply Nat2Z.id.
  - rewrite (Permutation_length PS), seq_length. lia.
  - intros x X. eapply Permutation_in in X; [|exact PS]. apply in_seq in X. lia.
  - rewrite (Permutation_length PS), seq_length. lia.
Qed.
