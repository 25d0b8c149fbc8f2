From Coq Require Import Lia.
From Verif Require Import M_Mem L_Mem M_Vec S_Csr S_Vec.
Local Open Scope Z_scope.

Lemma zseq_length lo k : length (zseq lo k) = k.
Proof. revert lo; induction k; cbn; auto. Qed.
Lemma zseq_app lo a b : zseq lo (a + b) = zseq lo a ++ zseq (lo + Z.of_nat a) b.
Proof.
  revert lo; induction a; intros; cbn [zseq Nat.add app]; [f_equal; lia|].
  f_equal. rewrite IHa. f_equal. f_equal. lia.
Qed.
Lemma in_zseq x lo k : In x (zseq lo k) <-> lo <= x < lo + Z.of_nat k.
Proof.
  revert lo; induction k; intros; cbn [zseq In]; [lia|]. rewrite IHk. lia.
Qed.
Lemma in_zrange x lo hi : In x (zrange lo hi) <-> lo <= x < hi.
Proof. unfold zrange; rewrite in_zseq. lia. Qed.
Lemma zrange_nil lo hi : hi <= lo -> zrange lo hi = nil.
Proof. intros; unfold zrange. now replace (Z.to_nat (hi - lo)) with O by lia. Qed.
Lemma zrange_split lo mid hi : lo <= mid <= hi -> zrange lo hi = zrange lo mid ++ zrange mid hi.
Proof.
  intros; unfold zrange. replace (Z.to_nat (hi - lo)) with (Z.to_nat (mid - lo) + Z.to_nat (hi - mid))%nat by lia.
  rewrite zseq_app. f_equal. f_equal. lia.
Qed.
Lemma zrange_cons lo hi : lo < hi -> zrange lo hi = lo :: zrange (lo + 1) hi.
Proof.
  intros; unfold zrange. now replace (Z.to_nat (hi - lo)) with (S (Z.to_nat (hi - (lo + 1)))) by lia.
Qed.
Lemma zrange_snoc lo hi : lo <= hi -> zrange lo (hi + 1) = zrange lo hi ++ [hi].
Proof.
  intros; rewrite (zrange_split lo hi) by lia. f_equal. rewrite zrange_cons, zrange_nil by lia. reflexivity.
Qed.
Lemma zrange_length lo hi : lo <= hi -> Z.of_nat (length (zrange lo hi)) = hi - lo.
Proof. intros; unfold zrange; rewrite zseq_length. lia. Qed.
Lemma zrange_shift lo hi d : zrange (lo + d) (hi + d) = map (fun k => k + d) (zrange lo hi).
Proof.
  unfold zrange. replace (hi + d - (lo + d)) with (hi - lo) by lia.
  generalize (Z.to_nat (hi - lo)) as k. intro k; revert lo; induction k; intros; cbn; f_equal.
  rewrite <- IHk. f_equal. lia.
Qed.

Lemma slice_ext {V} (a b : arr V) lo hi : (forall k, lo <= k < hi -> adat a k = adat b k) ->
  slice a lo hi = slice b lo hi.
Proof. intros; unfold slice. apply map_ext_in. intros k Hk. apply in_zrange in Hk. auto. Qed.
Lemma slice_shift {V} (a b : arr V) lo hi d : (forall k, lo <= k < hi -> adat b (k + d) = adat a k) ->
  slice b (lo + d) (hi + d) = slice a lo hi.
Proof.
  intros; unfold slice. rewrite zrange_shift, map_map. apply map_ext_in.
  intros k Hk. apply in_zrange in Hk. auto.
Qed.
Lemma slice_move {V} (a b : arr V) lo hi lo' hi' : hi' - lo' = hi - lo ->
  (forall k, 0 <= k < hi - lo -> adat b (lo' + k) = adat a (lo + k)) ->
  slice b lo' hi' = slice a lo hi.
Proof.
  intros E H. replace lo' with (lo + (lo' - lo)) by lia. replace hi' with (hi + (lo' - lo)) by lia.
  apply slice_shift. intros k Hk. specialize (H (k - lo)).
  replace (lo' + (k - lo)) with (k + (lo' - lo)) in H by lia. replace (lo + (k - lo)) with k in H by lia.
  apply H; lia.
Qed.
Lemma slice_length {V} (a : arr V) lo hi : lo <= hi -> Z.of_nat (length (slice a lo hi)) = hi - lo.
Proof. intros; unfold slice; rewrite map_length. now apply zrange_length. Qed.
Lemma slice_snoc {V} (a : arr V) lo hi : lo <= hi -> slice a lo (hi + 1) = slice a lo hi ++ [adat a hi].
Proof. intros; unfold slice; rewrite zrange_snoc, map_app by lia. reflexivity. Qed.
Lemma slice_split {V} (a : arr V) lo mid hi : lo <= mid <= hi ->
  slice a lo hi = slice a lo mid ++ slice a mid hi.
Proof. intros; unfold slice; rewrite (zrange_split lo mid hi), map_app by lia. reflexivity. Qed.

Section VEC.
Context {V : Type}.

(* representation invariant *)
Definition vec_rep (v : vec V) (l : list V) : Prop :=
  alen (vdata v) = vcap v /\ 0 < vcap v /\ 0 <= vlen v <= vcap v /\ slice (vdata v) 0 (vlen v) = l.

Lemma vec_new_rep c junk : 0 < c -> vec_rep (vec_new c junk) nil.
Proof. intros; unfold vec_rep; cbn. repeat split; try lia; try reflexivity. Qed.

Lemma vec_append_rep junk v l x : vec_rep v l ->
  exists v', vec_append junk v x = Some v' /\ vec_rep v' (l ++ [x]).
Proof.
  intros (A & B & C & D). unfold vec_append.
  destruct (vcap v <=? vlen v) eqn:E; zb; cbn [vdata vlen vcap realloc].
  - unfold realloc; rewrite aset_ok by (cbn [alen]; lia). cbn [bind]. eexists; split; [reflexivity|].
    unfold vec_rep; cbn [vdata vlen vcap alen]. repeat split; try lia.
    rewrite slice_snoc by lia. cbn [adat]. rewrite Z.eqb_refl. f_equal.
    rewrite <- D. apply slice_ext. intros; cbn [adat alen]. ifb. reflexivity.
  - rewrite aset_ok by lia. cbn [bind]. eexists; split; [reflexivity|].
    unfold vec_rep; cbn [vdata vlen vcap alen]. repeat split; try lia.
    rewrite slice_snoc by lia. cbn [adat]. rewrite Z.eqb_refl. f_equal.
    rewrite <- D. apply slice_ext. intros; cbn [adat]. ifb. reflexivity.
Qed.

Lemma grow_ok : forall fuel need cap, 0 < cap -> need <= cap + Z.of_nat fuel ->
  exists c, grow fuel need cap = Some c /\ cap <= c /\ need <= c.
Proof.
  induction fuel; intros; cbn [grow].
  - destruct (Z.gtb_spec need cap); [lia|]. exists cap; repeat split; lia.
  - destruct (Z.gtb_spec need cap).
    + destruct (IHfuel need (cap * 2)) as (c & E & ? & ?); try lia. exists c; repeat split; auto; lia.
    + exists cap; repeat split; lia.
Qed.

Lemma slice_arr_of_list (d : V) l : slice (arr_of_list d l) 0 (Z.of_nat (length l)) = l.
Proof.
  unfold slice, arr_of_list; cbn [adat]. unfold zrange.
  replace (Z.to_nat (Z.of_nat (length l) - 0)) with (length l) by lia.
  assert (G : forall l2 l1, map (fun i => nth (Z.to_nat i) (l1 ++ l2) d) (zseq (Z.of_nat (length l1)) (length l2)) = l2).
  { induction l2; intros; cbn [length zseq map]; auto.
    f_equal.
    - rewrite Nat2Z.id, app_nth2, Nat.sub_diag by lia. reflexivity.
    - specialize (IHl2 (l1 ++ [a])). rewrite <- app_assoc in IHl2. cbn [app] in IHl2.
      rewrite app_length in IHl2. cbn in IHl2. 
      replace (Z.of_nat (length l1) + 1) with (Z.of_nat (length l1 + 1)) by lia. apply IHl2. }
  apply (G l nil).
Qed.

Lemma vec_append_array_rep junk fuel v l (xs : arr V) n :
  vec_rep v l -> 0 <= n <= alen xs -> vlen v + n <= Z.of_nat fuel + 1 ->
  exists v', vec_append_array junk fuel v xs n = Some v' /\ vec_rep v' (l ++ slice xs 0 n).
Proof.
  intros (A & B & C & D) Hn HF. unfold vec_append_array.
  assert (G : forall w : vec V, alen (vdata w) = vcap w -> 0 < vcap w -> vlen w = vlen v -> vlen v + n <= vcap w ->
     slice (vdata w) 0 (vlen v) = l ->
     exists v', bind (memcpy (vdata w) (vlen w) xs 0 n) (fun d => Some (mkvec d (vlen w + n) (vcap w))) = Some v'
       /\ vec_rep v' (l ++ slice xs 0 n)).
  { intros w W1 W2 W3 W4 W5. rewrite memcpy_ok by lia. cbn [bind]. eexists; split; [reflexivity|].
    unfold vec_rep; cbn [vdata vlen vcap alen]. repeat split; try lia.
    rewrite W3, (slice_split _ 0 (vlen v)) by lia. f_equal.
    - rewrite <- W5. apply slice_ext; intros; cbn [adat]. ifb; auto; destruct E; lia.
    - apply slice_move; [lia|]. intros; cbn [adat].
      ifb; f_equal; lia. }
  destruct (Z.gtb_spec (vlen v + n) (vcap v)).
  - destruct (Z.gtb_spec (vcap v) 0); [|lia].
    destruct (grow_ok fuel (vlen v + n) (vcap v)) as (c & E & ? & ?); try lia.
    rewrite E; cbn [bind]. apply G; cbn [vdata vlen vcap realloc alen]; try lia.
    rewrite <- D. apply slice_ext; intros; unfold realloc; cbn [adat]. ifb. reflexivity.
  - cbn [bind]. apply G; auto.
Qed.

Lemma run_vop_rep junk d v l o : vec_rep v l ->
  exists v', run_vop junk d v o = Some v' /\ vec_rep v' (hist1 l (hist_of o)).
Proof.
  intros R; destruct o; cbn [run_vop hist_of hist1].
  - now apply vec_append_rep.
  - destruct (vec_append_array_rep junk (Z.to_nat (vlen v) + length xs) v l (arr_of_list d xs) (Z.of_nat (length xs)))
      as (v' & E & R'); auto.
    + cbn; lia.
    + destruct R as (_ & _ & ? & _). lia.
    + rewrite slice_arr_of_list in R'. eauto.
  - eexists; split; [reflexivity|]. destruct R as (A & B & C & D).
    unfold vec_rep, vec_clear_no_resize; cbn. repeat split; try lia; reflexivity.
Qed.

Lemma run_vops_rep junk d : forall os v l, vec_rep v l ->
  exists v', run_vops junk d v os = Some v' /\ vec_rep v' (fold_left hist1 (map hist_of os) l).
Proof.
  induction os as [|o os IH]; intros v l R; cbn [run_vops map fold_left].
  - eauto.
  - destruct (run_vop_rep junk d v l o R) as (v1 & E & R1). rewrite E; cbn [bind]. auto.
Qed.

Lemma contains_ok (eqb : V -> V -> bool) (EQ : forall a b, eqb a b = true <-> a = b) v l x :
  vec_rep v l -> exists b, vec_contains eqb v x = Some b /\ (b = true <-> In x l).
Proof.
  intros (A & B & C & D). unfold vec_contains.
  assert (G : forall k i, 0 <= i -> i + Z.of_nat k = vlen v ->
     exists b, contains_from eqb v x k i = Some b /\ (b = true <-> In x (slice (vdata v) i (vlen v)))).
  { induction k; intros; cbn [contains_from].
    - exists false. split; auto. unfold slice; rewrite zrange_nil by lia. cbn. intuition congruence.
    - rewrite aget_ok by lia. cbn [bind]. unfold slice; rewrite zrange_cons by lia. cbn [map In].
      destruct (eqb (adat (vdata v) i) x) eqn:E.
      + exists true; split; auto. apply EQ in E. tauto.
      + destruct (IHk (i + 1)) as (b & E2 & H2); try lia. exists b; split; auto. rewrite H2.
        split; [tauto|]. intros [F|F]; auto. apply EQ in F; congruence. }
  destruct (G (Z.to_nat (vlen v)) 0) as (b & E & H); try lia. exists b; split; auto. now rewrite H, D.
Qed.
End VEC.

Lemma C04_lemma (V : Type) (d : V) (junk : Z -> V) (cap : Z) (os : list (vop V)) : 0 < cap ->
    exists v, run_vops junk d (vec_new cap junk) os = Some v
      /\ vlen v = Z.of_nat (length (hist_contents (map hist_of os)))
      /\ vlen v <= vcap v
      /\ slice (vdata v) 0 (vlen v) = hist_contents (map hist_of os).
Proof.
  intros H. destruct (run_vops_rep junk d os _ _ (vec_new_rep cap junk H)) as (v & E & A & B & C & D).
  exists v; repeat split; auto; try lia. unfold hist_contents. rewrite <- D, slice_length; lia.
Qed.

Lemma C04_contains_lemma (V : Type) (eqb : V -> V -> bool) (d : V) (junk : Z -> V) (cap : Z) (os : list (vop V)) (x : V) :
    (forall a b, eqb a b = true <-> a = b) -> 0 < cap ->
    exists v b, run_vops junk d (vec_new cap junk) os = Some v
      /\ vec_contains eqb v x = Some b /\ (b = true <-> In x (hist_contents (map hist_of os))).
Proof.
  intros EQ H. destruct (run_vops_rep junk d os _ _ (vec_new_rep cap junk H)) as (v & E & R).
  destruct (contains_ok eqb EQ v _ x R) as (b & E2 & H2). exists v, b; auto.
Qed.

Lemma C04_zero_lemma (V : Type) (junk : Z -> V) (x : V) : vec_append junk (vec_new 0 junk) x = None.
Proof. reflexivity. Qed.
