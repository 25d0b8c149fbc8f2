From Coq Require Import ZArith QArith List Bool Lia.
From Verif Require Import M_Num M_Mem L_Mem S_Csr L_Vec M_Csr S_Mat L_Csr L_Shift S_Row S_OneRow L_Row S_Clean M_Clean.
Import ListNotations.
Local Open Scope Z_scope.

Section Rank.
  Variable keep : Z -> bool.
  Notation rank := (new_index keep).

  Lemma survivors_snoc i : 0 <= i -> survivors keep (i + 1) = survivors keep i ++ if keep i then [i] else nil.
  Proof. intros; unfold survivors. rewrite zrange_snoc, filter_app by lia. cbn. destruct (keep i); reflexivity. Qed.
  Lemma rank_snoc i : 0 <= i -> rank (i + 1) = rank i + if keep i then 1 else 0.
  Proof. intros; unfold new_index. rewrite survivors_snoc, app_length by lia. destruct (keep i); cbn; lia. Qed.
  Lemma rank_0 : rank 0 = 0. Proof. reflexivity. Qed.
  Lemma rank_nonneg i : 0 <= rank i. Proof. unfold new_index; lia. Qed.
  Lemma rank_plus i k : 0 <= i -> 0 <= k -> rank i <= rank (i + k) <= rank i + k.
  Proof.
    intros Hi Hk. replace k with (Z.of_nat (Z.to_nat k)) by lia. generalize (Z.to_nat k) as t. clear k Hk.
    induction t; [replace (i + Z.of_nat 0) with i by lia; lia|].
    replace (i + Z.of_nat (S t)) with (i + Z.of_nat t + 1) by lia. rewrite rank_snoc by lia.
    destruct (keep (i + Z.of_nat t)); lia.
  Qed.
  Lemma rank_le i : 0 <= i -> rank i <= i.
  Proof. intros. pose proof (rank_plus 0 i). rewrite rank_0 in *. replace (0 + i) with i in * by lia. lia. Qed.
  Lemma rank_mono i j : 0 <= i <= j -> rank i <= rank j.
  Proof. intros. pose proof (rank_plus i (j - i)). replace (i + (j - i)) with j in * by lia. lia. Qed.
  Lemma rank_lt i j : 0 <= i < j -> keep i = true -> rank i < rank j.
  Proof.
    intros H K. pose proof (rank_mono (i + 1) j). rewrite rank_snoc, K in * by lia. lia.
  Qed.
  (* onto *)
  Lemma rank_onto n r : 0 <= n -> 0 <= r < rank n -> exists i, 0 <= i < n /\ keep i = true /\ rank i = r.
  Proof.
    intros Hn. replace n with (Z.of_nat (Z.to_nat n)) by lia. generalize (Z.to_nat n) as t. clear n Hn.
    induction t; intros Hr. { change (new_index keep (Z.of_nat 0)) with 0 in Hr. lia. }
    replace (Z.of_nat (S t)) with (Z.of_nat t + 1) in * by lia. rewrite rank_snoc in Hr by lia.
    destruct (keep (Z.of_nat t)) eqn:K.
    - destruct (Z.eq_dec r (rank (Z.of_nat t))) as [->|].
      + exists (Z.of_nat t). repeat split; auto; lia.
      + destruct IHt as (i & ? & ? & ?); [lia|]. exists i. repeat split; auto; lia.
    - destruct IHt as (i & ? & ? & ?); [lia|]. exists i. repeat split; auto; lia.
  Qed.
  Lemma rank_inj i j : 0 <= i -> 0 <= j -> keep i = true -> keep j = true -> rank i = rank j -> i = j.
  Proof.
    intros Hi Hj Ki Kj E. destruct (Z.lt_trichotomy i j) as [L|[L|L]]; auto.
    - pose proof (rank_lt i j ltac:(lia) Ki). lia.
    - pose proof (rank_lt j i ltac:(lia) Kj). lia.
  Qed.
End Rank.

(* ---------------------------------------------------------------- ptr_shrink *)
Lemma ptr_shrink_ok {T} (ptr : arr T) (mp : arr Z) keep n :
  0 <= n <= alen ptr -> n <= alen mp -> exact_map keep n (adat mp) ->
  exists p, ptr_shrink ptr mp n = Some p /\ alen p = alen ptr /\
    slice p 0 (new_index keep n) = map (adat ptr) (survivors keep n).
Proof.
  intros Hn Hm EM. unfold ptr_shrink.
  destruct (for_z_inv (fun i (p : arr T) => alen p = alen ptr /\ (forall k, i <= k -> adat p k = adat ptr k) /\
      slice p 0 (new_index keep i) = map (adat ptr) (survivors keep i))
    (fun i p => do d <- aget mp i; if d =? -1 then Some p else do v <- aget p i; aset p d v) 0 n ptr)
    as (p & E & A & _ & C).
  - lia.
  - repeat split; auto.
  - intros i p Hi (A & B & C). rewrite aget_ok by lia. cbn [bind]. rewrite EM by lia.
    pose proof (rank_le keep i). pose proof (rank_nonneg keep i).
    rewrite rank_snoc, survivors_snoc by lia. destruct (keep i) eqn:K.
    + replace (new_index keep i =? -1) with false by (symmetry; apply Z.eqb_neq; lia).
      rewrite aget_ok by lia. cbn [bind]. rewrite aset_ok by lia. eexists; split; [reflexivity|].
      cbn [alen adat]. split; [auto|]. split.
      * intros k Hk. ifb; apply B; lia.
      * rewrite slice_snoc by lia. cbn [adat]. rewrite Z.eqb_refl, map_app. cbn [map].
        rewrite B by lia. f_equal. rewrite <- C. apply slice_ext. intros k Hk. cbn [adat]. ifb; reflexivity.
    + cbn [Z.eqb]. eexists; split; [reflexivity|]. repeat split; auto.
      * intros; apply B; lia.
      * rewrite Z.add_0_r, app_nil_r. auto.
  - exists p. auto.
Qed.

(* shrink_idx_vector: surviving elements, renamed, in order *)
Lemma shrink_idx_vector_ok (data : arr Z) n (mp : arr Z) :
  0 <= n <= alen data -> (forall k, 0 <= k < n -> 0 <= adat data k < alen mp) ->
  exists d' c, shrink_idx_vector data n mp = Some (d', c) /\ 0 <= c <= n /\ alen d' = alen data /\
    slice d' 0 c = map (adat mp) (filter (fun a => negb (adat mp a =? -1)) (slice data 0 n)).
Proof.
  intros Hn HM. unfold shrink_idx_vector.
  destruct (for_z_inv (fun i '((d, c) : arr Z * Z) => alen d = alen data /\ 0 <= c <= i /\
      (forall k, i <= k -> adat d k = adat data k) /\
      slice d 0 c = map (adat mp) (filter (fun a => negb (adat mp a =? -1)) (slice data 0 i)))
    (fun i '(data, curr) => do a <- aget data i; do d <- aget mp a;
       if d =? -1 then Some (data, curr) else do data <- aset data curr d; Some (data, curr + 1)) 0 n (data, 0))
    as ([d' c] & E & A & B & _ & C).
  - lia.
  - repeat split; auto; lia.
  - intros i [d c] Hi (A & B & C & D). rewrite aget_ok by lia. cbn [bind]. rewrite C by lia.
    specialize (HM i Hi). rewrite aget_ok by lia. cbn [bind].
    rewrite slice_snoc, filter_app, map_app by lia. cbn [filter].
    destruct (adat mp (adat data i) =? -1) eqn:K; cbn [negb map].
    + eexists; split; [reflexivity|]. cbn. rewrite app_nil_r. repeat split; auto; try lia. intros; apply C; lia.
    + rewrite aset_ok by lia. cbn [bind]. eexists; split; [reflexivity|]. cbn [alen adat].
      split; [auto|]. split; [lia|]. split.
      * intros k Hk. ifb; apply C; lia.
      * rewrite slice_snoc by lia. cbn [adat]. rewrite Z.eqb_refl. f_equal. rewrite <- D. apply slice_ext.
        intros k Hk. cbn [adat]. ifb; reflexivity.
  - exists d', c. auto.
Qed.

(* ---------------------------------------------------------------- remove_extra_space *)

(* where row r of the compacted matrix starts *)
Definition off (A : matrix) (keep : Z -> bool) (r : Z) : Z := zsum (map (len A) (survivors keep r)).
Lemma off_snoc A keep r : 0 <= r -> off A keep (r + 1) = off A keep r + if keep r then len A r else 0.
Proof.
  intros; unfold off. rewrite survivors_snoc, map_app, zsum_app by lia. destruct (keep r); cbn; lia.
Qed.
Lemma off_le A keep : wf_mat A -> forall r, 0 <= r <= mm A -> 0 <= off A keep r <= adat (ps A) r.
Proof.
  intros W r Hr. replace r with (Z.of_nat (Z.to_nat r)) in * by lia. revert Hr. generalize (Z.to_nat r) as t. clear r.
  induction t; intros Hr. { cbn. pose proof (wf_s0 A W). lia. }
  replace (Z.of_nat (S t)) with (Z.of_nat t + 1) in * by lia. rewrite off_snoc by lia.
  pose proof (wf_rng A W (Z.of_nat t) ltac:(lia)). unfold len. specialize (IHt ltac:(lia)). destruct (keep (Z.of_nat t)); lia.
Qed.
Lemma off_mono A keep : wf_mat A -> forall i j, 0 <= i <= j -> j <= mm A -> off A keep i <= off A keep j.
Proof.
  intros W i j Hi. replace j with (i + Z.of_nat (Z.to_nat (j - i))) by lia. generalize (Z.to_nat (j - i)) as t.
  induction t; intros Hj; [replace (i + Z.of_nat 0) with i by lia; lia|].
  replace (i + Z.of_nat (S t)) with (i + Z.of_nat t + 1) in * by lia. rewrite off_snoc by lia.
  pose proof (wf_rng A W (i + Z.of_nat t) ltac:(lia)). unfold len. specialize (IHt ltac:(lia)).
  destruct (keep (i + Z.of_nat t)); lia.
Qed.

Lemma map_loop (sizes cm0 : arr Z) n : 0 <= n -> n <= alen sizes -> n <= alen cm0 ->
  exists cm, for_z 0 n (fun i '(cnt, cm) =>
      do sz <- aget sizes i;
      if sz =? SIZE_INACTIVE then do cm <- aset cm i (-1); Some (cnt, cm)
      else do cm <- aset cm i cnt; Some (cnt + 1, cm)) (0, cm0) = Some (new_index (active sizes) n, cm)
    /\ alen cm = alen cm0 /\ exact_map (active sizes) n (adat cm).
Proof.
  intros Hn H1 H2.
  destruct (for_z_inv (fun i '((c, cm) : Z * arr Z) => c = new_index (active sizes) i /\ alen cm = alen cm0 /\
      exact_map (active sizes) i (adat cm))
    (fun i '(cnt, cm) =>
      do sz <- aget sizes i;
      if sz =? SIZE_INACTIVE then do cm <- aset cm i (-1); Some (cnt, cm)
      else do cm <- aset cm i cnt; Some (cnt + 1, cm)) 0 n (0, cm0)) as ([c cm] & E & A & B & C).
  - lia.
  - repeat split; auto. intros k Hk; lia.
  - intros i [c cm] Hi (A & B & C). rewrite aget_ok by lia. cbn [bind]. rewrite rank_snoc by lia.
    assert (KE : active sizes i = negb (adat sizes i =? SIZE_INACTIVE)) by reflexivity. rewrite KE.
    destruct (adat sizes i =? SIZE_INACTIVE) eqn:K; cbn [negb] in *;
    rewrite aset_ok by lia; cbn [bind]; (eexists; split; [reflexivity|]); cbn [alen adat];
    (split; [lia|]); (split; [auto|]); intros k Hk; cbn [adat]; destruct (Z.eqb_spec k i) as [->|];
    try (apply C; lia); rewrite KE; auto.
  - subst c. exists cm. auto.
Qed.


Lemma remove_extra_space_ok jx ji A rsz csz cm0 :
  wf_mat A -> 0 <= mn A -> mm A <= alen rsz -> mn A <= alen csz -> mn A <= alen cm0 ->
  (forall r e, 0 <= r < mm A -> active rsz r = true -> In e (row_entries A r) -> 0 <= fst e < mn A) ->
  exists B cm, remove_extra_space jx ji A rsz csz true cm0 = Some (B, cm)
    /\ mm B = new_index (active rsz) (mm A) /\ mn B = new_index (active csz) (mn A) /\ mnnz B = mnnz A
    /\ alen cm = alen cm0 /\ exact_map (active csz) (mn A) (adat cm)
    /\ wf_mat B /\ adat (ps B) 0 = 0 /\ adat (ps B) (mm B) = off A (active rsz) (mm A)
    /\ (forall r, 0 <= r < mm B -> adat (pe B) r = adat (ps B) (r + 1))
    /\ (forall r, 0 <= r < mm A -> active rsz r = true ->
          row_entries B (new_index (active rsz) r) = rename (adat cm) (row_entries A r)).
Proof.
  intros W Hn Hr Hc Hm HC. set (keep := active rsz) in *. unfold remove_extra_space.
  set (body1 := fun (i : Z) '((curr, ndel, A) : Z * Z * matrix) => _).
  destruct (for_z_inv (fun i '((curr, ndel, B) : Z * Z * matrix) =>
      curr = off A keep i /\ ndel = i - new_index keep i /\
      alen (ps B) = alen (ps A) /\ alen (pe B) = alen (pe A) /\ alen (mi B) = alen (mi A) /\ alen (mx B) = alen (mx A) /\
      (forall k, i <= k -> adat (ps B) k = adat (ps A) k /\ adat (pe B) k = adat (pe A) k) /\
      (forall k, curr <= k -> adat (mi B) k = adat (mi A) k /\ adat (mx B) k = adat (mx A) k) /\
      (forall r, 0 <= r < i -> keep r = true ->
          adat (ps B) (new_index keep r) = off A keep r /\
          adat (pe B) (new_index keep r) = off A keep r + len A r /\
          forall t, 0 <= t < len A r -> adat (mi B) (off A keep r + t) = adat (mi A) (adat (ps A) r + t) /\
                                       adat (mx B) (off A keep r + t) = adat (mx A) (adat (ps A) r + t)))
     body1 0 (mm A) (0, 0, A)) as ([[curr ndel] A1] & E & I1 & I2 & L1 & L2 & L3 & L4 & _ & _ & IR).
  - apply (wf_m A W).
  - repeat split; auto; intros; lia.
  - intros i [[curr ndel] B] Hi (I1 & I2 & L1 & L2 & L3 & L4 & IP & IC & IR). unfold body1.
    rewrite aget_ok by lia. cbn [bind]. rewrite rank_snoc, off_snoc by lia.
    pose proof (rank_le keep i ltac:(lia)). pose proof (rank_nonneg keep i).
    pose proof (off_le A keep W i ltac:(lia)) as OL. pose proof (wf_bounds A i W Hi) as WB.
    pose proof (wf_lps A W). pose proof (wf_lpe A W). pose proof (wf_lmi A W).
    assert (KE : keep i = negb (adat rsz i =? SIZE_INACTIVE)) by reflexivity.
    destruct (adat rsz i =? SIZE_INACTIVE); cbn [negb] in KE; rewrite KE.
    + eexists; split; [reflexivity|]. split; [lia|]. split; [lia|]. do 4 (split; [auto|]).
      split; [intros; apply IP; lia|]. split; [exact IC|]. intros r Hr' Kr.
      apply IR; auto. destruct (Z.eq_dec r i); [congruence|lia].
    + rewrite !aget_ok by lia. cbn [bind]. destruct (IP i ltac:(lia)) as (-> & ->).
      fold (len A i). assert (LE : len A i = adat (pe A) i - adat (ps A) i) by reflexivity.
      rewrite !memmove_ok by lia. cbn [bind]. rewrite !aset_ok by lia. cbn [bind].
      eexists; split; [reflexivity|]. unfold calc_memory_row. cbn [ps pe mi mx with_p with_xi alen adat].
      replace (i - ndel) with (new_index keep i) by lia. subst curr.
      split; [lia|]. split; [lia|]. do 4 (split; [auto|]).
      split; [intros k Hk; split; ifb; apply IP; lia|].
      split; [intros k Hk; split; ifb; apply IC; lia|].
      intros r Hr' Kr. destruct (Z.eq_dec r i) as [->|NE].
      * rewrite !Z.eqb_refl. split; [auto|]. split; [auto|]. intros t Ht. split; ifb.
        -- replace (off A keep i + t - off A keep i + adat (ps A) i) with (adat (ps A) i + t) by lia. apply IC. lia.
        -- replace (off A keep i + t - off A keep i + adat (ps A) i) with (adat (ps A) i + t) by lia. apply IC. lia.
      * pose proof (rank_lt keep r i ltac:(lia) Kr). destruct (IR r ltac:(lia) Kr) as (Q1 & Q2 & Q3).
        pose proof (off_mono A keep W (r + 1) i ltac:(lia) ltac:(lia)) as OM. rewrite off_snoc, Kr in OM by lia.
        split; [ifb; auto|]. split; [ifb; auto|]. intros t Ht. destruct (Q3 t Ht) as (Q4 & Q5). split; ifb; auto.
  - rewrite E. cbn [bind]. clear E body1.
    pose proof (rank_le keep (mm A) (wf_m A W)) as RL. pose proof (rank_nonneg keep (mm A)).
    pose proof (off_le A keep W (mm A)) as OL. pose proof (wf_m A W).
    pose proof (wf_lps A W). pose proof (wf_lpe A W). pose proof (wf_lmi A W). pose proof (wf_end A W).
    specialize (OL ltac:(lia)).
    replace (mm A - ndel) with (new_index keep (mm A)) by lia. set (m1 := new_index keep (mm A)) in *.
    rewrite !aset_ok by lia. cbn [bind]. subst curr ndel. set (N := off A keep (mm A)) in *.
    destruct (map_loop csz cm0 (mn A) Hn Hc Hm) as (cm & -> & LC & EM). cbn [bind].
    set (s := realloc (mkarr _ (fun k => if k =? m1 then N else adat (ps A1) k)) _ _).
    set (e := realloc (mkarr _ (fun k => if k =? m1 then N else adat (pe A1) k)) _ _).
    set (x := realloc (mx A1) _ _). set (ix := realloc (mi A1) _ _).
    assert (Ls : alen s = m1 + 1) by reflexivity. assert (Le : alen e = m1 + 1) by reflexivity.
    assert (LN : N <= alen (mx A1)) by lia.
    assert (Sv : forall k, 0 <= k <= m1 -> adat s k = if k =? m1 then N else adat (ps A1) k)
      by (intros; unfold s, realloc; cbn [adat alen]; ifb; auto).
    assert (Ev : forall k, 0 <= k <= m1 -> adat e k = if k =? m1 then N else adat (pe A1) k)
      by (intros; unfold e, realloc; cbn [adat alen]; ifb; auto).
    assert (Xv : forall k, 0 <= k < N -> adat x k = adat (mx A1) k)
      by (intros; unfold x, realloc; cbn [adat alen]; ifb; auto).
    assert (Iv : forall k, 0 <= k < N -> adat ix k = adat (mi A1) k)
      by (intros; unfold ix, realloc; cbn [adat alen]; ifb; auto).
    assert (Lx : alen x = Z.max N 1) by reflexivity. assert (Li : alen ix = Z.max N 1) by reflexivity.
    clearbody s e x ix.
    (* start of the compacted rows *)
    assert (SE : forall r, 0 <= r < mm A -> keep r = true ->
       adat s (new_index keep r) = off A keep r /\ adat e (new_index keep r) = off A keep (r + 1)
       /\ adat s (new_index keep r + 1) = off A keep (r + 1)).
    { intros r Hr' Kr. pose proof (rank_lt keep r (mm A) ltac:(lia) Kr). pose proof (rank_nonneg keep r).
      destruct (IR r Hr' Kr) as (Q1 & Q2 & _). rewrite Sv, Ev by lia.
      replace (new_index keep r =? m1) with false by (symmetry; apply Z.eqb_neq; lia).
      split; [auto|]. split; [rewrite off_snoc, Kr by lia; lia|].
      rewrite Sv by lia. destruct (Z.eqb_spec (new_index keep r + 1) m1) as [EQ|NE].
      - (* r is the last survivor *)
        assert (G : forall t : nat, r + 1 + Z.of_nat t <= mm A -> off A keep (r + 1 + Z.of_nat t) = off A keep (r + 1)).
        { induction t; intros; [f_equal; lia|].
          replace (r + 1 + Z.of_nat (S t)) with (r + 1 + Z.of_nat t + 1) by lia. rewrite off_snoc by lia.
          rewrite IHt by lia. destruct (keep (r + 1 + Z.of_nat t)) eqn:K2; [exfalso|lia].
          pose proof (rank_lt keep (r + 1 + Z.of_nat t) (mm A) ltac:(lia) K2).
          pose proof (rank_lt keep r (r + 1 + Z.of_nat t) ltac:(lia) Kr). lia. }
        unfold N. rewrite <- (G (Z.to_nat (mm A - (r + 1)))) by lia. f_equal. lia.
      - destruct (rank_onto keep (mm A) (new_index keep r + 1)) as (r2 & R1 & R2 & R3); [lia|lia|].
        destruct (IR r2 R1 R2) as (Q3 & _). rewrite <- R3, Q3.
        assert (LT : r < r2). { destruct (Z.lt_ge_cases r r2); auto. pose proof (rank_mono keep r2 r ltac:(lia)). lia. }
        assert (G : forall t : nat, r + 1 + Z.of_nat t <= r2 -> off A keep (r + 1 + Z.of_nat t) = off A keep (r + 1)).
        { induction t; intros; [f_equal; lia|].
          replace (r + 1 + Z.of_nat (S t)) with (r + 1 + Z.of_nat t + 1) by lia. rewrite off_snoc by lia.
          rewrite IHt by lia. destruct (keep (r + 1 + Z.of_nat t)) eqn:K2; [exfalso|lia].
          pose proof (rank_lt keep (r + 1 + Z.of_nat t) r2 ltac:(lia) K2).
          pose proof (rank_lt keep r (r + 1 + Z.of_nat t) ltac:(lia) Kr). lia. }
        rewrite <- (G (Z.to_nat (r2 - (r + 1)))) by lia. f_equal. lia. }
    assert (S0 : adat s 0 = 0).
    { destruct (Z.eq_dec m1 0) as [Z0|].
      - rewrite Sv by lia. rewrite Z0. cbn. 
        assert (G : forall t : nat, Z.of_nat t <= mm A -> off A keep (Z.of_nat t) = 0).
        { induction t; intros; [reflexivity|]. replace (Z.of_nat (S t)) with (Z.of_nat t + 1) by lia. rewrite off_snoc by lia.
          rewrite IHt by lia. destruct (keep (Z.of_nat t)) eqn:K2; [exfalso|lia].
          pose proof (rank_lt keep (Z.of_nat t) (mm A) ltac:(lia) K2). pose proof (rank_nonneg keep (Z.of_nat t)). lia. }
        pose proof (G (Z.to_nat (mm A)) ltac:(lia)) as GQ. rewrite Z2Nat.id in GQ by lia. exact GQ.
      - destruct (rank_onto keep (mm A) 0) as (r2 & R1 & R2 & R3); [lia|lia|]. rewrite <- R3.
        destruct (SE r2 R1 R2) as (-> & _).
        assert (G : forall t : nat, Z.of_nat t <= r2 -> off A keep (Z.of_nat t) = 0).
        { induction t; intros; [reflexivity|]. replace (Z.of_nat (S t)) with (Z.of_nat t + 1) by lia. rewrite off_snoc by lia.
          rewrite IHt by lia. destruct (keep (Z.of_nat t)) eqn:K2; [exfalso|lia].
          pose proof (rank_lt keep (Z.of_nat t) r2 ltac:(lia) K2). pose proof (rank_nonneg keep (Z.of_nat t)). lia. }
        pose proof (G (Z.to_nat r2) ltac:(lia)) as GQ. rewrite Z2Nat.id in GQ by lia. rewrite R3. exact GQ. }
    assert (SN : adat s m1 = N) by (rewrite Sv by lia; now rewrite Z.eqb_refl).
    assert (CT : forall k, 0 <= k < m1 -> 0 <= adat s k <= adat e k /\ adat e k = adat s (k + 1) /\ adat e k <= N).
    { intros k Hk. destruct (rank_onto keep (mm A) k) as (r2 & R1 & R2 & R3); [lia|lia|]. subst k.
      destruct (SE r2 R1 R2) as (-> & -> & ->). pose proof (off_le A keep W r2 ltac:(lia)).
      pose proof (off_mono A keep W r2 (r2 + 1) ltac:(lia) ltac:(lia)).
      pose proof (off_mono A keep W (r2 + 1) (mm A) ltac:(lia) ltac:(lia)). unfold N. lia. }
    (* renaming loop *)
    assert (IXOK : forall k, 0 <= k < m1 -> forall j, adat s k <= j < adat e k -> 0 <= adat (mi A1) j < mn A).
    { intros k Hk j Hj. destruct (rank_onto keep (mm A) k) as (r2 & R1 & R2 & R3); [lia|lia|]. subst k.
      destruct (SE r2 R1 R2) as (Q1 & Q2 & _). rewrite Q1, Q2 in Hj. rewrite off_snoc, R2 in Hj by lia.
      destruct (IR r2 R1 R2) as (_ & _ & Q3). destruct (Q3 (j - off A keep r2) ltac:(lia)) as (Q4 & _).
      replace (off A keep r2 + (j - off A keep r2)) with j in Q4 by lia. rewrite Q4.
      set (p := adat (ps A) r2 + (j - off A keep r2)).
      apply (HC r2 (adat (mi A) p, adat (mx A) p) R1 R2). unfold row_entries. apply in_map_iff. exists p. split; auto.
      apply in_zrange. unfold p, len in *. lia. }
    destruct (for_z_inv (fun i (y : arr Z) => alen y = Z.max N 1 /\
        forall k, 0 <= k < N -> adat y k = if k <? adat s i then adat cm (adat (mi A1) k) else adat (mi A1) k)
      (fun i ix => do a <- aget s i; do b <- aget e i;
        for_z a b (fun j ix => do c <- aget ix j; do d <- aget cm c; aset ix j d) ix) 0 m1 ix) as (y & -> & Ly & Yv).
    + lia.
    + split; [auto|]. intros k Hk. rewrite S0, Iv by lia. ifb; reflexivity.
    + intros i y Hi (Ly & Yv). rewrite !aget_ok by lia. cbn [bind]. specialize (CT i Hi). specialize (IXOK i Hi).
      destruct (for_z_inv (fun j (y : arr Z) => alen y = Z.max N 1 /\
        forall k, 0 <= k < N -> adat y k = if k <? j then adat cm (adat (mi A1) k) else adat (mi A1) k)
        (fun j ix => do c <- aget ix j; do d <- aget cm c; aset ix j d) (adat s i) (adat e i) y) as (y' & Ey & Ly' & Yv').
      * lia.
      * split; auto.
      * intros j z Hj (Lz & Zv). rewrite aget_ok by lia. cbn [bind]. rewrite Zv by lia. rewrite Z.ltb_irrefl.
        specialize (IXOK j Hj). rewrite aget_ok by lia. cbn [bind]. rewrite aset_ok by lia.
        eexists; split; [reflexivity|]. cbn [alen adat]. split; auto. intros k Hk.
        destruct (Z.eqb_spec k j) as [->|]; [ifb; auto|]. rewrite Zv by lia. ifb; auto.
      * exists y'. split; auto. split; auto. intros k Hk. rewrite Yv' by auto. destruct CT as (_ & -> & _). reflexivity.
    + cbn [bind]. exists (mkmat m1 (new_index (active csz) (mn A)) (mnnz A) (mcap A) y x s e), cm.
      split; [reflexivity|]. cbn [mm mn mnnz].
      do 5 (split; [reflexivity || assumption|]). split.
      { split; cbn [mm ps pe mi mx]; auto; try lia.
        - intros r Hr'. specialize (CT r Hr'). lia. }
      split; [exact S0|]. split; [exact SN|]. split; [intros r Hr'; apply (CT r Hr')|].
      intros r Hr' Kr. unfold row_entries at 1. cbn [ps pe mi mx].
      pose proof (rank_lt keep r (mm A) ltac:(lia) Kr). pose proof (rank_nonneg keep r).
      destruct (SE r Hr' Kr) as (-> & -> & _). rewrite off_snoc, Kr by lia.
      destruct (IR r Hr' Kr) as (_ & _ & Q3).
      pose proof (off_le A keep W r ltac:(lia)).
      pose proof (off_mono A keep W (r + 1) (mm A) ltac:(lia) ltac:(lia)) as OM. rewrite off_snoc, Kr in OM by lia.
      unfold rename, row_entries. rewrite map_map. cbn [fst snd].
      replace (zrange (off A keep r) (off A keep r + len A r))
        with (map (fun k => k + (off A keep r - adat (ps A) r)) (zrange (adat (ps A) r) (adat (pe A) r))).
      2:{ rewrite <- zrange_shift. f_equal; unfold len; lia. }
      rewrite map_map. apply map_ext_in. intros p Hp. apply in_zrange in Hp.
      assert (0 <= p - adat (ps A) r < len A r) by (unfold len; lia).
      destruct (Q3 (p - adat (ps A) r) ltac:(lia)) as (Q4 & Q5).
      replace (off A keep r + (p - adat (ps A) r)) with (p + (off A keep r - adat (ps A) r)) in * by lia.
      replace (adat (ps A) r + (p - adat (ps A) r)) with p in * by lia.
      rewrite Yv, Xv, Q5 by (unfold N; lia). f_equal. rewrite SN.
      replace (p + (off A keep r - adat (ps A) r) <? N) with true by (symmetry; apply Z.ltb_lt; unfold N; lia).
      now rewrite Q4.
Qed.

(* ---------------------------------------------------------------- compact_row *)
Lemma compact_row_ok M r sizes : wf_mat M -> 0 <= r < mm M ->
  (forall e, In e (row_entries M r) -> 0 <= fst e < alen sizes) ->
  exists B sh, compact_row M r sizes = Some (B, sh)
    /\ one_row M B r (filter (fun e => active sizes (fst e)) (row_entries M r))
    /\ mnnz B = mnnz M
    /\ sh = Z.of_nat (length (row_entries M r)) - Z.of_nat (length (row_entries B r)).
Proof.
  intros W Hr HC. pose proof (wf_bounds M r W Hr) as WB. pose proof (wf_lmi M W) as LM.
  pose proof (wf_lps M W). pose proof (wf_lpe M W).
  unfold compact_row. rewrite !aget_ok by lia. cbn [bind].
  set (s := adat (ps M) r) in *. set (e := adat (pe M) r) in *.
  assert (HK : forall k, s <= k < e -> 0 <= adat (mi M) k < alen sizes).
  { intros k Hk. apply (HC (adat (mi M) k, adat (mx M) k)). unfold row_entries. apply in_map_iff. exists k. split; auto. apply in_zrange; auto. }
  set (flt := filter (fun c => active sizes (fst c))).
  set (body := fun (j : Z) '((x, i, shift) : arr Q * arr Z * Z) => _).
  destruct (for_z_inv (fun j '((x, i, sh) : arr Q * arr Z * Z) =>
      alen x = alen (mx M) /\ alen i = alen (mi M) /\ 0 <= sh <= j - s /\
      (forall k, j <= k \/ k < s -> adat x k = adat (mx M) k /\ adat i k = adat (mi M) k) /\
      map (fun k => (adat i k, adat x k)) (zrange s (j - sh)) = flt (cells M s j)) body s e (mx M, mi M, 0))
    as ([[x i] sh] & E & L1 & L2 & L3 & L4 & L5).
  - lia.
  - repeat split; auto; try lia. unfold cells. rewrite !zrange_nil by lia. reflexivity.
  - intros j [[x i] sh] Hj (L1 & L2 & L3 & L4 & L5). unfold body.
    rewrite aget_ok by lia. cbn [bind]. destruct (L4 j ltac:(lia)) as (X1 & X2). rewrite X2.
    specialize (HK j Hj). rewrite aget_ok by lia. cbn [bind].
    assert (CS : cells M s (j + 1) = cells M s j ++ [cell M j]).
    { unfold cells. rewrite zrange_snoc, map_app by lia. reflexivity. }
    rewrite CS. unfold flt. rewrite filter_app. cbn [filter]. change (fst (cell M j)) with (adat (mi M) j).
    assert (AE : active sizes (adat (mi M) j) = negb (adat sizes (adat (mi M) j) =? SIZE_INACTIVE)) by reflexivity.
    destruct (adat sizes (adat (mi M) j) =? SIZE_INACTIVE); cbn [negb] in AE; rewrite AE.
    + eexists; split; [reflexivity|]. repeat split; auto; try lia; try (apply L4; lia).
      rewrite app_nil_r. replace (j + 1 - (sh + 1)) with (j - sh) by lia. exact L5.
    + rewrite aget_ok by lia. cbn [bind]. rewrite !aset_ok by lia. cbn [bind]. eexists; split; [reflexivity|].
      cbn [alen adat]. split; [auto|]. split; [auto|]. split; [lia|]. split.
      * intros k Hk. split; ifb; apply L4; lia.
      * replace (j + 1 - sh) with (j - sh + 1) by lia. rewrite zrange_snoc, map_app by lia.
        unfold flt in L5. rewrite <- L5. f_equal.
        -- apply map_ext_in. intros k Hk. apply in_zrange in Hk. ifb; reflexivity.
        -- cbn [map]. rewrite Z.eqb_refl, X1. reflexivity.
  - rewrite E. cbn [bind].
    destruct (row_update M x i (e - sh) r (mnnz M) W Hr L1 L2) as (pe' & E1 & OR).
    + fold s. unfold s, e in *. lia.
    + fold s. intros k Hk. apply L4. unfold s, e in *. lia.
    + rewrite E1. cbn [bind]. eexists _, _. split; [reflexivity|].
      cbn zeta in OR. fold s in OR.
      assert (CE : cells (with_nnz (with_p (with_xi M x i) (ps M) pe') (mnnz M)) s (e - sh) = flt (row_entries M r)).
      { rewrite row_cells. fold s e. rewrite <- L5. unfold cells, cell. cbn. reflexivity. }
      rewrite CE in OR. split; [|split].
      * refine (one_row_ext _ _ _ _ _ OR _ _ _ _ _ _ _ _); try reflexivity.
      * reflexivity.
      * pose proof (or_row _ _ _ _ OR) as RR.
        assert (RB : row_entries (with_p (with_xi M x i) (ps M) pe') r = flt (row_entries M r)) by exact RR.
        rewrite RB. rewrite !row_cells. fold s e. rewrite <- L5.
        rewrite map_length. rewrite zrange_length, cells_length by lia. lia.
Qed.

(* ---------------------------------------------------------------- problem_clean + populate *)
Lemma row_entries_length A r : wf_mat A -> 0 <= r < mm A -> Z.of_nat (length (row_entries A r)) = len A r.
Proof. intros W H. pose proof (wf_rng A W r H). rewrite row_cells, cells_length by lia. reflexivity. Qed.
Lemma off_total A keep : wf_mat A -> off A keep (mm A) = total A keep.
Proof.
  intros W. unfold off, total. f_equal. apply map_ext_in. intros r Hr. apply filter_In in Hr. destruct Hr as (Hr & _).
  apply in_zrange in Hr. symmetry. now apply row_entries_length.
Qed.

Lemma populate_ok jb ji P : 0 <= mn (ca_A P) -> wf_mat (ca_A P) ->
  mn (ca_A P) <= alen (ca_lb P) -> mn (ca_A P) <= alen (ca_ub P) ->
  exists l u ap, populate jb ji P = Some (mkpp (mm (ca_A P)) (mn (ca_A P)) (mnnz (ca_A P)) (mx (ca_A P)) (mi (ca_A P)) ap
        (ca_lhs P) (ca_rhs P) l u (ca_c P))
    /\ alen l = mn (ca_A P) /\ alen u = mn (ca_A P) /\ alen ap = mm (ca_A P) + 1
    /\ (forall k, 0 <= k < mn (ca_A P) -> adat l k = adat (ca_lb P) k /\ adat u k = adat (ca_ub P) k)
    /\ (forall k, 0 <= k <= mm (ca_A P) -> adat ap k = adat (ps (ca_A P)) k).
Proof.
  intros Hn W HL HU. unfold populate.
  set (b1 := fun (i : Z) '((l, u) : arr ext * arr ext) => _).
  destruct (for_z_inv (fun i '((l, u) : arr ext * arr ext) => alen l = mn (ca_A P) /\ alen u = mn (ca_A P) /\
      forall k, 0 <= k < i -> adat l k = adat (ca_lb P) k /\ adat u k = adat (ca_ub P) k)
     b1 0 (mn (ca_A P)) (malloc (mn (ca_A P)) jb, malloc (mn (ca_A P)) jb)) as ([l u] & E & L1 & L2 & L3).
  - lia.
  - repeat split; auto; lia.
  - intros i [l u] Hi (L1 & L2 & L3). unfold b1. rewrite aget_ok by lia. cbn [bind]. rewrite aset_ok by lia. cbn [bind].
    rewrite aget_ok by lia. cbn [bind]. rewrite aset_ok by lia. cbn [bind]. eexists; split; [reflexivity|].
    cbn [alen adat]. split; [auto|]. split; [auto|]. intros k Hk. destruct (Z.eqb_spec k i) as [->|]; [auto|]. apply L3. lia.
  - rewrite E. cbn [bind].
    set (b2 := fun (i : Z) (ap : arr Z) => _).
    destruct (for_z_inv (fun i (ap : arr Z) => alen ap = mm (ca_A P) + 1 /\ forall k, 0 <= k < i -> adat ap k = adat (ps (ca_A P)) k)
       b2 0 (mm (ca_A P) + 1) (malloc (mm (ca_A P) + 1) ji)) as (ap & E2 & A1 & A2).
    + pose proof (wf_m _ W). lia.
    + split; [reflexivity|]. intros; lia.
    + intros i ap Hi (A1 & A2). unfold b2. pose proof (wf_lps _ W). rewrite aget_ok by lia. cbn [bind]. rewrite aset_ok by lia.
      eexists; split; [reflexivity|]. cbn [alen adat]. split; [auto|]. intros k Hk. destruct (Z.eqb_spec k i) as [->|]; [auto|]. apply A2. lia.
    + rewrite E2. cbn [bind]. exists l, u, ap. split; [reflexivity|]. repeat split; auto; try (apply L3; lia). intros; apply A2; lia.
Qed.

Lemma in_rename f e l : In e (rename f l) <-> exists c, In (c, snd e) l /\ fst e = f c.
Proof.
  unfold rename. rewrite in_map_iff. split.
  - intros ([c v] & <- & H). cbn. exists c. auto.
  - intros (c & H & E). exists (c, snd e). cbn. split; auto. rewrite <- E. now destruct e.
Qed.

Lemma clean_all jx jb ji P : clean_pre P -> 0 <= mn (ca_A P) ->
  let rk := active (ca_rsz P) in let ck := active (ca_csz P) in
  let m := mm (ca_A P) in let n := mn (ca_A P) in
  exists P' pp, problem_clean jx ji P = Some P' /\ populate jb ji P' = Some pp
   /\ pp_m pp = new_index rk m /\ pp_n pp = new_index ck n /\ pp_nnz pp = total (ca_A P) rk
   /\ (alen (pp_Ap pp) = pp_m pp + 1 /\ adat (pp_Ap pp) 0 = 0 /\ adat (pp_Ap pp) (pp_m pp) = pp_nnz pp
        /\ (forall r, 0 <= r < pp_m pp -> adat (pp_Ap pp) r <= adat (pp_Ap pp) (r + 1))
        /\ pp_nnz pp <= alen (pp_Ax pp) /\ pp_nnz pp <= alen (pp_Ai pp)
        /\ (forall k, 0 <= k < pp_nnz pp -> 0 <= adat (pp_Ai pp) k < pp_n pp))
   /\ (forall r, 0 <= r < m -> rk r = true ->
        input_row (pp_Ax pp) (pp_Ai pp) (pp_Ap pp) (new_index rk r) = rename (new_index ck) (row_entries (ca_A P) r))
   /\ slice (pp_lhs pp) 0 (pp_m pp) = map (adat (ca_lhs P)) (survivors rk m)
   /\ slice (pp_rhs pp) 0 (pp_m pp) = map (adat (ca_rhs P)) (survivors rk m)
   /\ slice (pp_lbs pp) 0 (pp_n pp) = map (adat (ca_lb P)) (survivors ck n)
   /\ slice (pp_ubs pp) 0 (pp_n pp) = map (adat (ca_ub P)) (survivors ck n)
   /\ slice (pp_c pp) 0 (pp_n pp) = map (adat (ca_c P)) (survivors ck n)
   /\ exact_map rk m (adat (ca_rmap P')) /\ exact_map ck n (adat (ca_cmap P')).
Proof.
  intros C Hn. cbv zeta. destruct C as [cp_A0 cp_AT0 cp_mn0 cp_nm0 cp_rsz0 cp_csz0 cp_lhs0 cp_rhs0 cp_lb0 cp_ub0 cp_c0 cp_cm0 cp_rm0 cp_cols0 cp_rows0 cp_nnz0]. pose proof (wf_m _ cp_A0) as Hm. unfold problem_clean.
  destruct (remove_extra_space_ok jx ji (ca_A P) (ca_rsz P) (ca_csz P) (ca_cmap P))
    as (A' & cm & E1 & B1 & B2 & B3 & B4 & B5 & B6 & B7 & B7' & B8 & B9); auto; try lia.
  { intros r e Hr Kr He. apply (cp_cols0 r e); auto. }
  rewrite E1. cbn [bind].
  destruct (remove_extra_space_ok jx ji (ca_AT P) (ca_csz P) (ca_rsz P) (ca_rmap P))
    as (AT' & rm & E2 & D1 & D2 & D3 & D4 & D5 & D6 & _); auto; try lia.
  { intros c e Hc Kc He. rewrite cp_nm0. apply (cp_rows0 c e); auto. lia. }
  rewrite E2. cbn [bind]. rewrite cp_nm0 in D5.
  set (rk := active (ca_rsz P)) in *. set (ck := active (ca_csz P)) in *. set (m := mm (ca_A P)) in *. set (n := mn (ca_A P)) in *.
  destruct (ptr_shrink_ok (ca_rhs P) rm rk m) as (rhs' & -> & _ & R1); try lia; auto. cbn [bind].
  destruct (ptr_shrink_ok (ca_lhs P) rm rk m) as (lhs' & -> & _ & R2); try lia; auto. cbn [bind].
  destruct (ptr_shrink_ok (ca_lb P) cm ck n) as (lb' & -> & LB & R3); try lia; auto. cbn [bind].
  destruct (ptr_shrink_ok (ca_ub P) cm ck n) as (ub' & -> & UB & R4); try lia; auto. cbn [bind].
  destruct (ptr_shrink_ok (ca_rsz P) rm rk m) as (rsz' & -> & _ & R5); try lia; auto. cbn [bind].
  destruct (ptr_shrink_ok (ca_csz P) cm ck n) as (csz' & -> & _ & R6); try lia; auto. cbn [bind].
  destruct (ptr_shrink_ok (ca_c P) cm ck n) as (c' & -> & _ & R7); try lia; auto. cbn [bind].
  set (P' := mkca _ _ _ _ _ _ _ _ _ _ _).
  pose proof (rank_le ck n Hn) as RL.
  destruct (populate_ok jb ji P') as (l & u & ap & E3 & Q1 & Q2 & Q3 & Q4 & Q5); unfold P'; cbn [ca_A ca_lb ca_ub]; rewrite ?B2; try apply rank_nonneg; auto; try lia.
  exists P'. eexists. split; [reflexivity|]. split; [exact E3|].
  unfold P' in *. cbn [ca_A ca_lb ca_ub ca_rhs ca_lhs ca_c ca_cmap ca_rmap pp_m pp_n pp_nnz pp_Ap pp_Ax pp_Ai pp_lhs pp_rhs pp_lbs pp_ubs pp_c] in *.
  clear E1 E2 E3 P'.
  assert (NE : mnnz A' = total (ca_A P) rk) by congruence.
  pose proof (wf_m _ B6) as Hm'. pose proof (wf_end _ B6) as WE. pose proof (wf_lmi _ B6) as WL.
  rewrite (off_total _ _ cp_A0) in B7'.
  assert (ROWS : forall r, 0 <= r < m -> rk r = true ->
     input_row (mx A') (mi A') ap (new_index rk r) = rename (new_index ck) (row_entries (ca_A P) r)).
  { intros r Hr Kr. pose proof (rank_lt rk r m ltac:(lia) Kr). pose proof (rank_nonneg rk r).
    assert (input_row (mx A') (mi A') ap (new_index rk r) = row_entries A' (new_index rk r)) as ->.
    { unfold input_row, row_entries. rewrite !Q5 by lia. rewrite <- B8 by lia. reflexivity. }
    rewrite B9 by auto. unfold rename. apply map_ext_in. intros e He. f_equal.
    destruct (cp_cols0 r e Hr Kr He) as (F1 & F2). rewrite B5, F2 by auto. reflexivity. }
  split; [auto|]. split; [auto|]. split; [auto|]. split.
  { rewrite !Q5 by lia. split; [auto|]. split; [auto|]. split; [congruence|]. split.
    { intros r Hr. rewrite !Q5 by lia. pose proof (wf_rng _ B6 r Hr). lia. }
    split; [lia|]. split; [lia|].
    intros k Hk.
    (* find the row holding cell k *)
    assert (G : forall t : nat, Z.of_nat t <= mm A' -> k < adat (ps A') (Z.of_nat t) ->
       exists r, 0 <= r < mm A' /\ adat (ps A') r <= k < adat (ps A') (r + 1)).
    { induction t; intros T1 T2; [cbn in T2; lia|].
      destruct (Z.lt_ge_cases k (adat (ps A') (Z.of_nat t))); [apply IHt; lia|].
      exists (Z.of_nat t). replace (Z.of_nat t + 1) with (Z.of_nat (S t)) by lia. lia. }
    destruct (G (Z.to_nat (mm A'))) as (r & Hr & Hk2); [lia|rewrite Z2Nat.id by lia; lia|].
    destruct (rank_onto rk m r) as (r0 & H0 & K0 & EQ); [lia|lia|].
    assert (IN : In (adat (mi A') k, adat (mx A') k) (row_entries A' r)).
    { unfold row_entries. apply in_map_iff. exists k. split; auto. apply in_zrange. rewrite B8 by lia. lia. }
    rewrite <- EQ, B9 in IN by auto. apply in_rename in IN. destruct IN as (c & I1 & I2). cbn [fst snd] in *.
    destruct (cp_cols0 r0 _ H0 K0 I1) as (F1 & F2). cbn [fst] in *. rewrite I2, B5, F2, B2 by auto.
    pose proof (rank_lt ck c n ltac:(lia) F2). pose proof (rank_nonneg ck c). lia. }
  split; [exact ROWS|]. rewrite B1, B2.
  split; [auto|]. split; [auto|]. split; [|split; [|split; [auto|split; auto]]].
  - rewrite <- R3. apply slice_ext. intros k Hk. apply Q4. lia.
  - rewrite <- R4. apply slice_ext. intros k Hk. apply Q4. lia.
Qed.
