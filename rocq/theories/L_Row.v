(* Coefficient insertion and deletion on the arrays = list operations. *)
From Coq Require Import QArith Lia.
From Verif Require Import M_Mem L_Mem M_Csr S_Csr S_Mat S_Row S_OneRow L_Vec L_Csr L_Shift.
Local Open Scope Z_scope.

(* ------------------------------------------------------------ list facts *)
Lemma sorted_app a b : sorted (a ++ b) <-> sorted a /\ sorted b /\ forall e f, In e a -> In f b -> fst e < fst f.
Proof.
  induction a as [|x a IH]; cbn [app sorted].
  - split; intros; [repeat split; auto; intros; contradiction|tauto].
  - rewrite IH. split.
    + intros (H1 & H2 & H3 & H4). repeat split; auto.
      * intros; apply H1; apply in_or_app; auto.
      * intros e f [<-|He] Hf; auto. apply H1; apply in_or_app; auto.
    + intros ((H1 & H2) & H3 & H4). repeat split; auto.
      * intros f Hf. apply in_app_or in Hf. destruct Hf; auto. apply H4; auto. now left.
      * intros; apply H4; auto. now right.
Qed.

Lemma put_app a j v b : (forall e, In e a -> fst e < j) -> put j v (a ++ b) = a ++ put j v b.
Proof.
  induction a as [|x a IH]; intros H; cbn [app put]; auto.
  destruct (Z.ltb_spec (fst x) j) as [_|HX].
  - rewrite IH; auto. intros; apply H; now right.
  - specialize (H x (or_introl eq_refl)). lia.
Qed.

Lemma erase_app j a b : erase j (a ++ b) = erase j a ++ erase j b.
Proof. apply filter_app. Qed.
Lemma erase_none j a : (forall e, In e a -> fst e <> j) -> erase j a = a.
Proof.
  induction a as [|x a IH]; intros H; cbn; auto.
  destruct (Z.eqb_spec (fst x) j) as [HX|HX]; cbn.
  - exfalso; apply (H x); auto. now left.
  - f_equal. apply IH. intros; apply H; now right.
Qed.
Lemma value_at_app_none j a b : (forall e, In e a -> fst e <> j) -> value_at j (a ++ b) = value_at j b.
Proof.
  induction a as [|x a IH]; intros H; cbn; auto.
  destruct (Z.eqb_spec (fst x) j) as [HX|HX].
  - exfalso; apply (H x); auto. now left.
  - apply IH. intros; apply H; now right.
Qed.
Lemma value_at_absent j a : (forall e, In e a -> fst e <> j) -> value_at j a = 0%Q.
Proof. intros. rewrite <- (app_nil_r a), value_at_app_none; auto. Qed.

Lemma put_sorted j v l : sorted l -> sorted (put j v l) /\
  (forall e, In e (put j v l) -> e = (j, v) \/ (In e l /\ fst e <> j)) /\
  (forall e, In e l -> fst e <> j -> In e (put j v l)) /\ In (j, v) (put j v l).
Proof.
  induction l as [|x l IH]; cbn [put sorted]; intros H.
  - repeat split; cbn; auto. intros f [].  intros e [<-|[]]; auto.
  - destruct H as [H1 H2]. destruct (IH H2) as (I1 & I2 & I3 & I4). clear IH.
    destruct (Z.ltb_spec (fst x) j).
    + cbn [sorted In]. repeat split; auto.
      * intros f Hf. destruct (I2 f Hf) as [->|[? ?]]; auto.
      * intros e [<-|He]. { right; split; auto. lia. } destruct (I2 e He) as [->|[? ?]]; auto.
      * intros e [<-|He] Hn; auto.
    + destruct (Z.eqb_spec (fst x) j) as [EX|NX]; cbn [sorted In].
      * repeat split; auto.
        { intros f Hf. cbn. specialize (H1 f Hf). lia. }
        { intros e [<-|He]; auto. right; split; auto. specialize (H1 e He). lia. }
        { intros e [<-|He] Hn; auto. congruence. }
      * repeat split; auto.
        { intros f [<-|Hf]; cbn; [lia|]. specialize (H1 f Hf). lia. }
        { intros e [<-|[<-|He]]; auto. right; split; auto. specialize (H1 e He). lia. }
Qed.

(* ------------------------------------------------------------ cells *)
Definition cell (M : matrix) (k : Z) : Z * Q := (adat (mi M) k, adat (mx M) k).
Definition cells (M : matrix) (a b : Z) : list (Z * Q) := map (cell M) (zrange a b).
Lemma row_cells M r : row_entries M r = cells M (adat (ps M) r) (adat (pe M) r).
Proof. reflexivity. Qed.
Lemma cells_split M a b c : a <= b <= c -> cells M a c = cells M a b ++ cells M b c.
Proof. intros; unfold cells. now rewrite (zrange_split a b c), map_app by lia. Qed.
Lemma cells_cons M a b : a < b -> cells M a b = cell M a :: cells M (a + 1) b.
Proof. intros; unfold cells. now rewrite zrange_cons by lia. Qed.
Lemma cells_nil M a b : b <= a -> cells M a b = nil.
Proof. intros; unfold cells. now rewrite zrange_nil by lia. Qed.
Lemma in_cells M a b e : In e (cells M a b) <-> exists k, a <= k < b /\ e = cell M k.
Proof.
  unfold cells. rewrite in_map_iff. split; intros (k & H1 & H2).
  - exists k. rewrite in_zrange in H2. auto.
  - exists k. rewrite in_zrange. auto.
Qed.
Lemma cells_move A B a b a' b' : b' - a' = b - a ->
  (forall k, 0 <= k < b - a -> cell B (a' + k) = cell A (a + k)) -> cells B a' b' = cells A a b.
Proof.
  intros E H. apply (slice_move (mkarr 0 (cell A)) (mkarr 0 (cell B))); auto.
Qed.
Lemma cells_length M a b : a <= b -> Z.of_nat (length (cells M a b)) = b - a.
Proof. intros; unfold cells. rewrite map_length. now apply zrange_length. Qed.

(* ------------------------------------------------------------ changing one row in place *)
Lemma row_update A x i e' r nn : wf_mat A -> 0 <= r < mm A -> alen x = alen (mx A) -> alen i = alen (mi A) ->
  adat (ps A) r <= e' <= adat (ps A) (r + 1) ->
  (forall k, ~ (adat (ps A) r <= k < adat (ps A) (r + 1)) -> adat x k = adat (mx A) k /\ adat i k = adat (mi A) k) ->
  exists e, aset (pe A) r e' = Some e /\
    let B := with_nnz (with_p (with_xi A x i) (ps A) e) nn in
    one_row A B r (cells B (adat (ps A) r) e').
Proof.
  intros W Hr LX LI HE HO.
  rewrite aset_ok by (rewrite (wf_lpe A W); lia). eexists; split; [reflexivity|]. cbn zeta.
  set (B := with_nnz _ _).
  assert (PB : forall q, adat (pe B) q = if q =? r then e' else adat (pe A) q) by reflexivity.
  assert (RB : forall q, 0 <= q < mm A -> q <> r -> row_entries B q = row_entries A q).
  { intros q Hq NE. apply row_entries_move; cbn.
    - ifb.
    - intros k Hk. pose proof (wf_bounds A q W Hq). pose proof (wf_bounds A r W Hr).
      destruct (HO (adat (ps A) q + k)) as [-> ->]; auto. intro HK.
      destruct (Z.lt_trichotomy q r) as [|[|]]; [|lia|].
      + pose proof (wf_order A W q r). lia.
      + pose proof (wf_mono A W (r + 1) q). lia. }
  constructor; auto.
  - constructor; cbn; try apply W; try (rewrite LX; try rewrite LI; apply W).
    intros q Hq. pose proof (wf_rng A W q Hq). ifb. subst; lia.
  - rewrite row_cells, PB, Z.eqb_refl. reflexivity.
  - rewrite PB, Z.eqb_refl. rewrite cells_length by lia. lia.
  - intros q Hq NE. split; auto. rewrite PB. ifb.
Qed.

(* ------------------------------------------------------------ find_from *)
Lemma find_from_ok (a : arr Z) p dflt : forall k i, 0 <= i -> i + Z.of_nat k <= alen a ->
  exists q, find_from k p a i dflt = Some q /\
    ((i <= q < i + Z.of_nat k /\ p (adat a q) = true /\ forall t, i <= t < q -> p (adat a t) = false) \/
     (q = dflt /\ forall t, i <= t < i + Z.of_nat k -> p (adat a t) = false)).
Proof.
  induction k; intros i H1 H2; cbn [find_from].
  - exists dflt; split; auto. right; split; auto; lia.
  - rewrite aget_ok by lia. cbn [bind]. destruct (p (adat a i)) eqn:E.
    + exists i; split; auto. left. repeat split; auto; lia.
    + destruct (IHk (i + 1)) as (q & E2 & H); try lia. exists q; split; auto.
      destruct H as [(? & ? & H)|(? & H)]; [left|right].
      * repeat split; auto; try lia. intros t Ht. destruct (Z.eq_dec t i); [subst; auto|apply H; lia].
      * split; auto. intros t Ht. destruct (Z.eq_dec t i); [subst; auto|apply H; lia].
Qed.

(* the insertion position splits the row *)
Lemma find_ins A r j : wf_mat A -> 0 <= r < mm A ->
  exists p, find_from (Z.to_nat (adat (pe A) r - adat (ps A) r)) (fun c => j <=? c) (mi A) (adat (ps A) r) (adat (pe A) r) = Some p /\
    adat (ps A) r <= p <= adat (pe A) r /\
    (forall t, adat (ps A) r <= t < p -> adat (mi A) t < j) /\
    (p < adat (pe A) r -> j <= adat (mi A) p).
Proof.
  intros W Hr. pose proof (wf_bounds A r W Hr).
  destruct (find_from_ok (mi A) (fun c => j <=? c) (adat (pe A) r) (Z.to_nat (adat (pe A) r - adat (ps A) r)) (adat (ps A) r))
    as (p & E & H').
  - lia.
  - rewrite (wf_lmi A W). lia.
  - exists p; split; auto. destruct H' as [(? & ? & H')|(-> & H')]; zb.
    + repeat split; try lia. intros t Ht. specialize (H' t Ht). cbn in H'. zb. lia.
    + repeat split; try lia. intros t Ht. specialize (H' t). zb. apply Z.leb_gt. apply H'. lia.
Qed.

Lemma sorted_cells_lt A s e : sorted (cells A s e) -> forall a b, s <= a -> a < b -> b < e -> adat (mi A) a < adat (mi A) b.
Proof.
  intros S a b H1 H2 H3. rewrite (cells_split A s b e) in S by lia. apply sorted_app in S. destruct S as (_ & _ & S).
  apply (S (cell A a) (cell A b)); apply in_cells; eexists; split; eauto; lia.
Qed.

Ltac kases := cbn [adat]; ifb; auto; try (f_equal; lia); try (exfalso; lia).

Lemma insert_ok A r j v sz : wf_mat A -> 0 <= r < mm A -> tiny v = false -> sorted (row_entries A r) ->
  (mem j (row_entries A r) \/ adat (pe A) r < adat (ps A) (r + 1)) ->
  exists B, insert_or_update_coeff A r j v sz =
      Some (value_at j (row_entries A r), B, sz + (Z.of_nat (length (put j v (row_entries A r))) - Z.of_nat (length (row_entries A r))))
    /\ one_row A B r (put j v (row_entries A r))
    /\ mnnz B = mnnz A + (Z.of_nat (length (put j v (row_entries A r))) - Z.of_nat (length (row_entries A r))).
Proof.
  intros W Hr HT HS HR. pose proof (wf_bounds A r W Hr) as BD. pose proof (wf_lmi A W) as LMI.
  unfold insert_or_update_coeff. rewrite wf_ps_ok, wf_pe_ok by (auto; lia). cbn [bind].
  destruct (find_ins A r j W Hr) as (p & EP & P1 & P2 & P3). rewrite EP; cbn [bind]. rewrite HT; cbn [negb].
  set (s := adat (ps A) r) in *. set (e := adat (pe A) r) in *.
  assert (HL : row_entries A r = cells A s p ++ cells A p e) by (rewrite row_cells; apply cells_split; lia).
  assert (HLT : forall x, In x (cells A s p) -> fst x < j).
  { intros x Hx. apply in_cells in Hx. destruct Hx as (k & Hk & ->). cbn. apply P2; lia. }
  assert (HLN : forall x, In x (cells A s p) -> fst x <> j) by (intros x Hx; specialize (HLT x Hx); lia).
  rewrite HL, put_app, value_at_app_none by auto. rewrite !app_length.
  destruct (Z.eqb_spec p e) as [->|NE].
  - (* at the end *)
    assert (HM : e < adat (ps A) (r + 1)).
    { destruct HR as [HM|]; auto. exfalso. unfold mem in HM. rewrite HL, (cells_nil A e e), app_nil_r in HM by lia.
      apply in_map_iff in HM. destruct HM as (x & E1 & Hx). apply (HLN x Hx); auto. }
    rewrite !aset_ok by lia. cbn [bind].
    destruct (row_update A (mkarr (alen (mx A)) (fun k => if k =? e then v else adat (mx A) k))
         (mkarr (alen (mi A)) (fun k => if k =? e then j else adat (mi A) k)) (e + 1) r (mnnz A + 1) W Hr) as (e' & E1 & E2); auto.
    { fold s; lia. }
    { cbn [adat]. fold s. intros k Hk. ifb; subst; auto. }
    rewrite E1; cbn [bind]. rewrite (cells_nil A e e) by lia. cbn [put length value_at].
    eexists; split; [f_equal; f_equal; lia|]. fold s in E2. cbn zeta in E2. split.
    + replace (cells A s e ++ [(j, v)]) with (cells (with_nnz (with_p (with_xi A
             (mkarr (alen (mx A)) (fun k => if k =? e then v else adat (mx A) k))
             (mkarr (alen (mi A)) (fun k => if k =? e then j else adat (mi A) k))) (ps A) e') (mnnz A + 1)) s (e + 1)); [exact E2|].
      rewrite (cells_split _ s e) by lia. f_equal.
      * apply cells_move; auto. intros k Hk. unfold cell; cbn. kases.
      * rewrite cells_cons, cells_nil by lia. unfold cell; cbn. rewrite Z.eqb_refl. reflexivity.
    + cbn. lia.
  - rewrite aget_ok by lia. cbn [bind].
    rewrite (cells_cons A p e) by lia. cbn [put value_at cell fst snd].
    destruct (Z.ltb_spec (adat (mi A) p) j); [exfalso; specialize (P3 ltac:(lia)); lia|].
    destruct (Z.eqb_spec (adat (mi A) p) j) as [EJ|NJ].
    + (* replace *)
      rewrite aget_ok by lia. cbn [bind]. rewrite aset_ok by lia. cbn [bind].
      destruct (row_update A (mkarr (alen (mx A)) (fun k => if k =? p then v else adat (mx A) k)) (mi A) e r (mnnz A) W Hr) as (e' & E1 & E2); auto.
      { fold s; lia. }
      { cbn [adat]. fold s. intros k Hk. ifb; subst; auto. }
      eexists; split; [cbn [length]; f_equal; f_equal; lia|].
      rewrite aset_ok in E1 by (rewrite (wf_lpe A W); lia). injection E1 as <-. cbn zeta in E2. fold s in E2.
      split.
      * assert (CE : cells (with_xi A (mkarr (alen (mx A)) (fun k => if k =? p then v else adat (mx A) k)) (mi A)) s e
           = cells A s p ++ (j, v) :: cells A (p + 1) e).
        { rewrite (cells_split _ s p) by lia. f_equal.
          - apply cells_move; auto. intros k Hk. unfold cell; cbn. kases.
          - rewrite cells_cons by lia. f_equal.
            + unfold cell; cbn. rewrite Z.eqb_refl, EJ. reflexivity.
            + apply cells_move; auto. intros k Hk. unfold cell; cbn. kases. }
        rewrite <- CE. destruct E2 as [F1 F2 F3 F4 F5 F6 F7 F8 F9]. constructor; auto.
        -- constructor; cbn; apply W.
        -- cbn. rewrite cells_length by lia. unfold e, s; lia.
        -- intros q Hq NQ. destruct (F9 q Hq NQ) as [G1 G2]. split; auto.
           rewrite <- G1. unfold row_entries; cbn. destruct (Z.eqb_spec q r); [lia|]. reflexivity.
      * cbn. lia.
    + (* shift right and insert *)
      assert (HA : forall x, In x (cells A (p + 1) e) -> fst x <> j).
      { intros x Hx. apply in_cells in Hx. destruct Hx as (k & Hk & ->). cbn.
        rewrite row_cells in HS. fold s e in HS.
        pose proof (sorted_cells_lt A s e HS p k). specialize (P3 ltac:(lia)). lia. }
      rewrite (value_at_absent j (cells A (p + 1) e)) by auto.
      assert (HM : e < adat (ps A) (r + 1)).
      { destruct HR as [HM|]; auto. exfalso. unfold mem in HM. rewrite HL in HM.
        apply in_map_iff in HM. destruct HM as (x & E1 & Hx). apply in_app_or in Hx. destruct Hx as [Hx|Hx].
        - apply (HLN x Hx); auto.
        - apply in_cells in Hx. destruct Hx as (k & Hk & ->). cbn in E1.
          destruct (Z.eq_dec k p); [subst; lia|]. rewrite row_cells in HS. fold s e in HS.
          pose proof (sorted_cells_lt A s e HS p k). specialize (P3 ltac:(lia)). lia. }
      rewrite !memmove_ok by lia. cbn [bind]. rewrite aset_ok by (cbn; lia). cbn [bind].
      rewrite aset_ok by (cbn; lia). cbn [bind alen adat].
      match goal with |- context [with_xi A ?x ?i] =>
        destruct (row_update A x i (e + 1) r (mnnz A + 1) W Hr) as (e' & E1 & E2); auto;
        set (X := x) in *; set (I := i) in * end.
      { fold s; lia. }
      { unfold X, I; cbn [adat]. fold s. intros k Hk. ifb; subst; auto; exfalso; lia. }
      rewrite E1; cbn [bind]. eexists; split; [cbn [length]; f_equal; f_equal; lia|]. cbn zeta in E2. fold s in E2.
      split; [|cbn [mnnz with_nnz length]; lia].
      replace (cells A s p ++ (j, v) :: cell A p :: cells A (p + 1) e) with
        (cells (with_nnz (with_p (with_xi A X I) (ps A) e') (mnnz A + 1)) s (e + 1)); [exact E2|].
      rewrite <- (cells_cons A p e) by lia.
      rewrite (cells_split _ s p) by lia. f_equal.
      * apply cells_move; auto. intros k Hk. unfold cell, X, I; cbn. ifb; auto; exfalso; lia.
      * rewrite cells_cons by lia. f_equal.
        -- unfold cell, X, I; cbn. rewrite Z.eqb_refl. reflexivity.
        -- apply cells_move; [lia|]. intros k Hk. unfold cell, X, I; cbn. kases.
           f_equal; f_equal; lia.
Qed.

Lemma erase_cells A s e p j : sorted (cells A s e) -> s <= p < e -> adat (mi A) p = j ->
  erase j (cells A s e) = cells A s p ++ cells A (p + 1) e /\
  value_at j (cells A s e) = adat (mx A) p.
Proof.
  intros HS Hp HJ.
  assert (N1 : forall x, In x (cells A s p) -> fst x <> j).
  { intros x Hx. apply in_cells in Hx. destruct Hx as (k & Hk & ->). cbn.
    pose proof (sorted_cells_lt A s e HS k p). lia. }
  assert (N2 : forall x, In x (cells A (p + 1) e) -> fst x <> j).
  { intros x Hx. apply in_cells in Hx. destruct Hx as (k & Hk & ->). cbn.
    pose proof (sorted_cells_lt A s e HS p k). lia. }
  rewrite (cells_split A s p e), (cells_cons A p e) by lia. split.
  - rewrite erase_app, (erase_none j (cells A s p)) by auto. f_equal.
    cbn. rewrite HJ, Z.eqb_refl. cbn. fold (erase j (cells A (p + 1) e)). apply erase_none; auto.
  - rewrite value_at_app_none by auto. cbn. rewrite HJ, Z.eqb_refl. reflexivity.
Qed.

Lemma erase_length j l : sorted l -> mem j l -> Z.of_nat (length (erase j l)) = Z.of_nat (length l) - 1.
Proof.
  induction l as [|x l IH]; intros HS HM; [destruct HM|]. cbn in HS. destruct HS as [H1 H2].
  unfold erase; cbn [filter]. fold (erase j l). destruct (Z.eqb_spec (fst x) j) as [E|NE].
  - cbn [negb length]. rewrite erase_none; [lia|]. intros e He. specialize (H1 e He). lia.
  - cbn [negb length]. destruct HM as [HM|HM]; [cbn in HM; congruence|]. specialize (IH H2 HM). lia.
Qed.

Lemma insert_tiny_ok A r j v sz : wf_mat A -> 0 <= r < mm A -> tiny v = true -> sorted (row_entries A r) ->
  mem j (row_entries A r) ->
  exists B, insert_or_update_coeff A r j v sz = Some (0%Q, B, sz - 1)
    /\ one_row A B r (erase j (row_entries A r)) /\ mnnz B = mnnz A - 1.
Proof.
  intros W Hr HT HS HR. pose proof (wf_bounds A r W Hr) as BD. pose proof (wf_lmi A W) as LMI.
  unfold insert_or_update_coeff. rewrite wf_ps_ok, wf_pe_ok by (auto; lia). cbn [bind].
  destruct (find_ins A r j W Hr) as (p & EP & P1 & P2 & P3). rewrite EP; cbn [bind]. rewrite HT; cbn [negb].
  rewrite row_cells in *.
  set (s := adat (ps A) r) in *. set (e := adat (pe A) r) in *.
  assert (HP : p < e /\ adat (mi A) p = j).
  { unfold mem in HR. apply in_map_iff in HR. destruct HR as (x & E1 & Hx). apply in_cells in Hx.
    destruct Hx as (k & Hk & ->). cbn in E1.
    assert (p <= k) by (destruct (Z_lt_le_dec k p); auto; specialize (P2 k); lia).
    split; [lia|]. specialize (P3 ltac:(lia)). destruct (Z.eq_dec k p); [subst; auto|].
    pose proof (sorted_cells_lt A s e HS p k). lia. }
  destruct HP as [HP1 HP2].
  destruct (erase_cells A s e p j HS) as [EE _]; [lia|auto|]. rewrite EE.
  assert (G : exists x i, (if p =? e - 1 then Some (mx A, mi A) else
              do x <- memmove (mx A) p (p + 1) (e - p - 1);
              do i <- memmove (mi A) p (p + 1) (e - p - 1);
              Some (x, i)) = Some (x, i) /\ alen x = alen (mx A) /\ alen i = alen (mi A) /\
     forall k, (p <= k < e - 1 -> adat x k = adat (mx A) (k + 1) /\ adat i k = adat (mi A) (k + 1)) /\
               (~ (p <= k < e - 1) -> adat x k = adat (mx A) k /\ adat i k = adat (mi A) k)).
  { destruct (Z.eqb_spec p (e - 1)).
    - exists (mx A), (mi A). repeat split; auto; intros; lia.
    - rewrite !memmove_ok by lia. cbn [bind]. do 2 eexists. split; [reflexivity|]. cbn.
      repeat split; auto; intros; ifb; auto; try (f_equal; lia); exfalso; lia. }
  destruct G as (x & i & E1 & LX & LI & G). rewrite E1; cbn [bind fst snd].
  destruct (row_update A x i (e - 1) r (mnnz A - 1) W Hr) as (e' & E2 & E3); auto.
  { fold s; lia. }
  { fold s. intros k Hk. apply G. lia. }
  rewrite E2; cbn [bind]. eexists; split; [reflexivity|]. split; [|reflexivity].
  cbn zeta in E3. fold s in E3.
  replace (cells A s p ++ cells A (p + 1) e) with (cells (with_nnz (with_p (with_xi A x i) (ps A) e') (mnnz A - 1)) s (e - 1)); [exact E3|].
  rewrite (cells_split _ s p) by lia. f_equal; apply cells_move; try lia; intros k Hk; unfold cell; cbn.
  - destruct (G (s + k)) as [_ GG]. destruct GG as [-> ->]; [lia|]. reflexivity.
  - destruct (G (p + k)) as [GG _]. destruct GG as [-> ->]; [lia|]. f_equal; f_equal; lia.
Qed.

Lemma remove_coeff_ok A r j : wf_mat A -> 0 <= r < mm A -> sorted (row_entries A r) ->
  mem j (row_entries A r) -> adat (pe A) r < alen (mx A) ->
  exists B, remove_coeff A r j (adat (pe A) r - adat (ps A) r) = Some (B, adat (pe A) r - adat (ps A) r - 1)
    /\ one_row A B r (erase j (row_entries A r)) /\ mnnz B = mnnz A.
Proof.
  intros W Hr HS HR HO. pose proof (wf_bounds A r W Hr) as BD. pose proof (wf_lmi A W) as LMI.
  unfold remove_coeff. rewrite wf_ps_ok by (auto; lia). cbn [bind].
  rewrite row_cells in *.
  set (s := adat (ps A) r) in *. set (e := adat (pe A) r) in *.
  assert (HP : exists p, s <= p < e /\ adat (mi A) p = j).
  { unfold mem in HR. apply in_map_iff in HR. destruct HR as (x & E1 & Hx). apply in_cells in Hx.
    destruct Hx as (k & Hk & ->). exists k; split; auto. }
  destruct HP as (p & HP1 & HP2).
  destruct (erase_cells A s e p j HS) as [EE _]; [lia|auto|]. rewrite EE.
  assert (UNQ : forall k, s <= k < e -> (adat (mi A) k =? j) = (k =? p)).
  { intros k Hk. destruct (Z.eqb_spec k p) as [->|NE]; [apply Z.eqb_eq; auto|]. apply Z.eqb_neq. intro EQ.
    destruct (Z_lt_le_dec k p).
    - pose proof (sorted_cells_lt A s e HS k p). lia.
    - pose proof (sorted_cells_lt A s e HS p k). lia. }
  match goal with |- context [for_z 0 _ ?b _] =>
  destruct (for_z_inv (fun t (st : Z * arr Q * arr Z) => let '(sh, x, i) := st in
      alen x = alen (mx A) /\ alen i = alen (mi A) /\ sh = (if p - s <? t then 1 else 0) /\
      forall k, (s <= k < s + t -> p <= k -> adat x k = adat (mx A) (k + 1) /\ adat i k = adat (mi A) (k + 1)) /\
                (~ (s <= k < s + t /\ p <= k) -> adat x k = adat (mx A) k /\ adat i k = adat (mi A) k))
      b 0 (e - s) (0, mx A, mi A)) as ([[sh x] i] & E1 & LX & LI & ES & G) end.
  - lia.
  - repeat split; auto; try (intros; lia). ifb.
  - intros t [[sh x] i] Ht (LX & LI & ES & G).
    rewrite aget_ok by lia. cbn [bind].
    assert (GT : adat x (s + t) = adat (mx A) (s + t) /\ adat i (s + t) = adat (mi A) (s + t)) by (apply G; lia).
    assert (GT1 : s + t + 1 < alen (mx A) -> adat x (s + t + 1) = adat (mx A) (s + t + 1) /\ adat i (s + t + 1) = adat (mi A) (s + t + 1)).
    { intros; apply G; lia. }
    destruct GT as [GX GI]. rewrite GI, UNQ by lia.
    set (sh' := if s + t =? p then 1 else sh).
    assert (ES' : sh' = if p - s <? t + 1 then 1 else 0) by (unfold sh'; rewrite ES; ifb).
    assert (HB : 0 <= s + t + sh' < alen (mx A)) by (rewrite ES'; ifb).
    rewrite aget_ok by lia. cbn [bind]. rewrite aset_ok by lia. cbn [bind].
    rewrite aget_ok by lia. cbn [bind]. rewrite aset_ok by lia. cbn [bind].
    eexists; split; [reflexivity|]. cbn [alen adat]. split; [auto|]. split; [auto|]. split; [exact ES'|].
    intros k. destruct (Z.eqb_spec k (s + t)) as [->|NE].
    + destruct (Z_lt_le_dec (s + t) p).
      * assert (sh' = 0) as -> by (rewrite ES'; ifb). replace (s + t + 0) with (s + t) by lia. split; intros; [lia|auto].
      * assert (sh' = 1) as -> by (rewrite ES'; ifb). split; intros; [|lia]. apply GT1. rewrite ES' in HB. revert HB. ifb.
    + destruct (G k) as [G1 G2]. split; intros; [apply G1|apply G2]; lia.
  - rewrite E1; cbn [bind]. rewrite wf_pe_ok by (auto; lia). cbn [bind]. fold e.
    destruct (row_update A x i (e - 1) r (mnnz A) W Hr) as (e' & E2 & E3); auto.
    { fold s; lia. }
    { fold s. intros k Hk. apply G. lia. }
    rewrite E2; cbn [bind]. eexists; split; [reflexivity|]. split; [|reflexivity].
    cbn zeta in E3. fold s in E3.
    replace (cells A s p ++ cells A (p + 1) e) with (cells (with_p (with_xi A x i) (ps A) e') s (e - 1)); [exact E3|].
    rewrite (cells_split _ s p) by lia. f_equal; apply cells_move; try lia; intros k Hk; unfold cell; cbn.
    + destruct (G (s + k)) as [_ GG]. destruct GG as [-> ->]; [lia|]. reflexivity.
    + destruct (G (p + k)) as [GG _]. destruct GG as [-> ->]; [lia|lia|]. f_equal; f_equal; lia.
Qed.

(* the read one past the row *)
Lemma remove_coeff_oob A r j : wf_mat A -> 0 <= r < mm A -> sorted (row_entries A r) ->
  mem j (row_entries A r) -> adat (pe A) r = alen (mx A) ->
  remove_coeff A r j (adat (pe A) r - adat (ps A) r) = None.
Proof.
  intros W Hr HS HR HO. pose proof (wf_bounds A r W Hr) as BD. pose proof (wf_lmi A W) as LMI.
  unfold remove_coeff. rewrite wf_ps_ok by (auto; lia). cbn [bind].
  rewrite row_cells in *.
  set (s := adat (ps A) r) in *. set (e := adat (pe A) r) in *.
  assert (HP : exists p, s <= p < e /\ adat (mi A) p = j).
  { unfold mem in HR. apply in_map_iff in HR. destruct HR as (x & E1 & Hx). apply in_cells in Hx.
    destruct Hx as (k & Hk & ->). exists k; split; auto. }
  destruct HP as (p & HP1 & HP2).
  rewrite (for_z_split _ 0 (e - s - 1)) by lia.
  match goal with |- context [for_z 0 (e - s - 1) ?b ?s0] =>
   assert (G : forall st, for_z 0 (e - s - 1) b s0 = Some st -> let '(sh, x, i) := st in
      alen x = alen (mx A) /\ alen i = alen (mi A) /\ (p < e - 1 -> sh = 1) /\
      adat i (e - 1) = adat (mi A) (e - 1)) end.
  { unfold for_z.
    match goal with |- forall st, for_n ?n _ ?b _ = _ -> _ =>
    assert (GG : forall k t sh x i st, 0 <= t -> t + Z.of_nat k = e - s - 1 ->
       alen x = alen (mx A) -> alen i = alen (mi A) -> (p < s + t -> sh = 1) ->
       (forall q, s + t <= q -> adat i q = adat (mi A) q) ->
       for_n k t b (sh, x, i) = Some st -> let '(sh, x, i) := st in
      alen x = alen (mx A) /\ alen i = alen (mi A) /\ (p < e - 1 -> sh = 1) /\
      adat i (e - 1) = adat (mi A) (e - 1)) end.
    { induction k; intros t sh x i st H0 H1 H2 H3 H4 H5 HF; cbn [for_n] in HF.
      - injection HF as <-. repeat split; auto. + intros; apply H4; lia. + apply H5; lia.
      - rewrite aget_ok in HF by lia. cbn [bind] in HF. set (sh' := if adat i (s + t) =? j then 1 else sh) in HF.
        destruct (aget x (s + t + sh')) eqn:EX; cbn [bind] in HF; [|discriminate].
        rewrite aset_ok in HF by lia. cbn [bind] in HF.
        destruct (aget i (s + t + sh')) eqn:EI; cbn [bind] in HF; [|discriminate].
        rewrite aset_ok in HF by lia. cbn [bind] in HF.
        eapply IHk in HF; auto; try lia.
        + intros. unfold sh'. destruct (Z.eqb_spec (adat i (s + t)) j); auto. apply H4.
          destruct (Z.eq_dec p (s + t)); [|lia]. subst p. rewrite H5 in n by lia. congruence.
        + intros q0 Hq0. cbn. ifb. apply H5; lia. }
    intros st HF. eapply GG in HF; auto; try lia. }
  destruct (for_z 0 (e - s - 1) _ _) as [[[sh x] i]|]; cbn [bind]; auto.
  specialize (G _ eq_refl). cbn in G. destruct G as (LX & LI & G1 & G2).
  rewrite for_z_cons by lia. cbn [bind]. replace (s + (e - s - 1)) with (e - 1) by lia.
  rewrite aget_ok by lia. cbn [bind]. rewrite G2.
  assert (SH : (if adat (mi A) (e - 1) =? j then 1 else sh) = 1).
  { destruct (Z.eqb_spec (adat (mi A) (e - 1)) j); auto. apply G1. destruct (Z.eq_dec p (e - 1)); [|lia]. subst; congruence. }
  rewrite SH. rewrite aget_oob by lia. reflexivity.
Qed.

(* ------------------------------------------------------------ update_row_A_dton *)
Lemma mem_pos A s e j : mem j (cells A s e) -> exists p, s <= p < e /\ adat (mi A) p = j.
Proof.
  intros H. unfold mem in H. apply in_map_iff in H. destruct H as (x & E1 & Hx). apply in_cells in Hx.
  destruct Hx as (k & Hk & ->). exists k; split; auto.
Qed.

Lemma one_row_trans A B C r l l' : one_row A B r l -> one_row B C r l' -> one_row A C r l'.
Proof.
  intros R1 R2. pose proof (or_other _ _ _ _ R1) as O1. pose proof (or_other _ _ _ _ R2) as O2.
  destruct R1, R2. constructor; try congruence.
  intros q Hq NE. destruct (O1 q Hq NE). destruct (O2 q) as [? ?]; auto; [lia|]. split; congruence.
Qed.

Lemma one_row_ext A B B' r l : one_row A B r l -> 
  mm B' = mm B -> mn B' = mn B -> ps B' = ps B -> mx B' = mx B -> mi B' = mi B -> mcap B' = mcap B ->
  alen (pe B') = alen (pe B) -> (forall k, adat (pe B') k = adat (pe B) k) -> one_row A B' r l.
Proof.
  intros [] H1 H2 H3 H4 H5 H6 H7 H8.
  assert (RE : forall q, row_entries B' q = row_entries B q).
  { intros; unfold row_entries. now rewrite H3, H4, H5, H8. }
  constructor; try congruence.
  - match goal with W : wf_mat _ |- _ => destruct W end. constructor; rewrite ?H1, ?H3, ?H4, ?H5, ?H7; auto. intros; rewrite H8; auto.
  - intros q Hq NE. rewrite RE, H8. auto.
Qed.

Lemma ins_unique M r j p p' : wf_mat M -> 0 <= r < mm M -> 
  adat (ps M) r <= p <= adat (pe M) r -> (forall t, adat (ps M) r <= t < p -> adat (mi M) t < j) ->
  (p < adat (pe M) r -> j <= adat (mi M) p) ->
  adat (ps M) r <= p' <= adat (pe M) r -> (forall t, adat (ps M) r <= t < p' -> adat (mi M) t < j) ->
  (p' < adat (pe M) r -> j <= adat (mi M) p') -> p = p'.
Proof.
  intros W Hr A1 A2 A3 B1 B2 B3. destruct (Z.lt_trichotomy p p') as [|[|]]; auto.
  - specialize (B2 p ltac:(lia)). specialize (A3 ltac:(lia)). lia.
  - specialize (A2 p' ltac:(lia)). specialize (B3 ltac:(lia)). lia.
Qed.

Lemma erase_sorted j l : sorted l -> sorted (erase j l).
Proof.
  induction l as [|x l IH]; cbn; auto. intros [H1 H2].
  destruct (fst x =? j); cbn; auto. split; auto. intros f Hf. apply filter_In in Hf. apply H1; tauto.
Qed.
Lemma mem_erase i j l : mem i (erase j l) <-> mem i l /\ i <> j.
Proof.
  unfold mem, erase. rewrite !in_map_iff. split.
  - intros (x & <- & Hx). apply filter_In in Hx. destruct Hx as [Hx1 Hx2]. split; [eauto|].
    destruct (Z.eqb_spec (fst x) j); [discriminate|auto].
  - intros [(x & <- & Hx) NE]. exists x; split; auto. apply filter_In; split; auto.
    destruct (Z.eqb_spec (fst x) j); [congruence|auto].
Qed.
Lemma value_at_erase i j l : i <> j -> value_at i (erase j l) = value_at i l.
Proof.
  intros NE. induction l as [|x l IH]; cbn; auto.
  destruct (Z.eqb_spec (fst x) j); cbn; fold (erase j l).
  - rewrite IH. destruct (Z.eqb_spec (fst x) i); [congruence|auto].
  - rewrite IH. auto.
Qed.

Definition dton_row (j k : Z) (aij aik : Q) (l : list (Z * Q)) : list (Z * Q) :=
  let nv := (value_at j l - (aij / aik) * value_at k l)%Q in
  if tiny nv then erase j (erase k l) else put j nv (erase k l).

Lemma update_row_A_dton_ok A q j k aij aik sz : wf_mat A -> 0 <= q < mm A -> j <> k ->
  sorted (row_entries A q) -> mem k (row_entries A q) ->
  let l := row_entries A q in
  let nv := (value_at j l - (aij / aik) * value_at k l)%Q in
  (tiny nv = true -> mem j l) ->
  exists B, update_row_A_dton A q j k aij aik sz =
      Some ((value_at j l, value_at k l, nv), B,
            sz + (Z.of_nat (length (dton_row j k aij aik l)) - Z.of_nat (length l)))
    /\ one_row A B q (dton_row j k aij aik l)
    /\ mnnz B = mnnz A + (Z.of_nat (length (dton_row j k aij aik l)) - Z.of_nat (length l)).
Proof.
  intros W Hr NJK HS HR l nv HT. pose proof (wf_bounds A q W Hr) as BD. pose proof (wf_lmi A W) as LMI.
  unfold update_row_A_dton. rewrite wf_ps_ok, wf_pe_ok by (auto; lia). cbn [bind].
  destruct (find_ins A q j W Hr) as (p & EP & P1 & P2 & P3).
  destruct (find_from_ok (mi A) (fun c => c =? k) (-1) (Z.to_nat (adat (pe A) q - adat (ps A) q)) (adat (ps A) q))
    as (pk & EK & HK); [lia|lia|].
  rewrite EK; cbn [bind]. rewrite EP; cbn [bind].
  unfold l in *. rewrite row_cells in *.
  set (s := adat (ps A) q) in *. set (e := adat (pe A) q) in *.
  assert (PK : s <= pk < e /\ adat (mi A) pk = k).
  { destruct HK as [(K1 & K2 & K3)|(K1 & K2)]; zb; [split; auto; lia|].
    destruct (mem_pos A s e k HR) as (t & T1 & T2). specialize (K2 t ltac:(lia)). cbn in K2. zb. congruence. }
  destruct PK as [PK1 PK2]. clear HK.
  destruct (erase_cells A s e pk k HS) as [EE VK]; [lia|auto|].
  assert (OLD : (if p =? e then Some 0%Q else do c <- aget (mi A) p; (if c =? j then aget (mx A) p else Some 0%Q))
     = Some (value_at j (cells A s e))).
  { assert (HLN : forall x, In x (cells A s p) -> fst x <> j).
    { intros x Hx. apply in_cells in Hx. destruct Hx as (t & Ht & ->). cbn. specialize (P2 t ltac:(lia)). lia. }
    rewrite (cells_split A s p e), value_at_app_none by (auto; lia).
    destruct (Z.eqb_spec p e) as [->|].
    - rewrite cells_nil by lia. reflexivity.
    - rewrite aget_ok by lia. cbn [bind]. rewrite cells_cons by lia. cbn [value_at cell fst snd].
      destruct (Z.eqb_spec (adat (mi A) p) j). + apply aget_ok; lia.
      + rewrite value_at_absent; auto. intros x Hx. apply in_cells in Hx. destruct Hx as (t & Ht & ->). cbn.
        specialize (P3 ltac:(lia)). pose proof (sorted_cells_lt A s e HS p t). lia. }
  rewrite OLD; cbn [bind]. rewrite aget_ok by lia. cbn [bind]. rewrite <- VK.
  unfold nv in *. set (nv' := (value_at j (cells A s e) - (aij / aik) * value_at k (cells A s e))%Q) in *.
  rewrite !memmove_ok by lia. cbn [bind].
  set (X1 := mkarr (alen (mx A)) (fun t => if (pk <=? t) && (t <? pk + (e - pk - 1)) then adat (mx A) (t - pk + (pk + 1)) else adat (mx A) t)).
  set (I1 := mkarr (alen (mi A)) (fun t => if (pk <=? t) && (t <? pk + (e - pk - 1)) then adat (mi A) (t - pk + (pk + 1)) else adat (mi A) t)).
  destruct (row_update A X1 I1 (e - 1) q (mnnz A - 1) W Hr) as (e1 & E1 & OR1); auto.
  { fold s; lia. }
  { fold s. intros t Ht. unfold X1, I1; cbn. ifb; auto; exfalso; lia. }
  cbn zeta in OR1. fold s in OR1.
  set (B1 := with_nnz (with_p (with_xi A X1 I1) (ps A) e1) (mnnz A - 1)) in *.
  assert (CB1 : cells B1 s (e - 1) = erase k (cells A s e)).
  { rewrite EE. rewrite (cells_split _ s pk) by lia. f_equal; apply cells_move; try lia; intros t Ht; unfold cell; cbn.
    - ifb; auto; exfalso; lia.
    - ifb; try (exfalso; lia). f_equal; f_equal; lia. }
  rewrite CB1 in OR1.
  assert (PS1 : adat (ps B1) q = s) by reflexivity.
  assert (PE1 : adat (pe B1) q = e - 1).
  { pose proof (or_len _ _ _ _ OR1) as HH. rewrite HH. rewrite <- CB1, cells_length by lia. fold s; lia. }
  assert (W1 : wf_mat B1) by apply OR1. assert (M1 : mm B1 = mm A) by apply OR1.
  assert (R1 : row_entries B1 q = erase k (cells A s e)) by apply OR1.
  set (p' := if pk <? p then p - 1 else p).
  assert (FP : find_from (Z.to_nat (e - 1 - s)) (fun c => j <=? c) I1 s (e - 1) = Some p').
  { destruct (find_ins B1 q j W1) as (p2 & F1 & F2 & F3 & F4); [lia|]. rewrite PS1, PE1 in F1.
    change (mi B1) with I1 in F1. rewrite F1. f_equal.
    assert (HI : forall t, adat I1 t = if (pk <=? t) && (t <? e - 1) then adat (mi A) (t + 1) else adat (mi A) t).
    { intros; unfold I1; cbn. replace (pk + (e - pk - 1)) with (e - 1) by lia. ifb; auto; f_equal; lia. }
    apply (ins_unique B1 q j p2 p'); auto; try lia; rewrite ?PS1, ?PE1; change (mi B1) with I1.
    - unfold p'. assert (p = e -> pk < p) by lia. ifb.
    - intros t Ht. rewrite HI. unfold p' in Ht. revert Ht. ifb; intros; apply P2; lia.
    - intros Hp'. rewrite HI. unfold p' in *. revert Hp'. ifb; intros.
      + replace (p - 1 + 1) with p by lia. apply P3; lia.
      + specialize (P3 ltac:(lia)). pose proof (sorted_cells_lt A s e HS p (p + 1)). lia. }
  assert (S1 : sorted (row_entries B1 q)) by (rewrite R1; now apply erase_sorted).
  assert (L1 : Z.of_nat (length (erase k (cells A s e))) = Z.of_nat (length (cells A s e)) - 1) by now apply erase_length.
  assert (RB : 0 <= q < mm B1) by lia.
  unfold dton_row. fold nv'.
  destruct (tiny nv') eqn:TN.
  - specialize (HT TN).
    destruct (insert_tiny_ok B1 q j nv' (sz - 1) W1 RB TN S1) as (B2 & F1 & F2 & F3).
    { rewrite R1. apply mem_erase; auto. }
    unfold insert_or_update_coeff in F1. rewrite wf_ps_ok, wf_pe_ok in F1 by (auto; lia). cbn [bind] in F1.
    rewrite PS1, PE1 in F1. change (mi B1) with I1 in F1. rewrite FP in F1. cbn [bind] in F1. rewrite TN in F1. cbn [negb] in F1.
    change (mx B1) with X1 in F1.
    assert (L2 : Z.of_nat (length (erase j (erase k (cells A s e)))) = Z.of_nat (length (cells A s e)) - 2).
    { rewrite erase_length; [lia| |]. - now apply erase_sorted. - apply mem_erase; auto. }
    rewrite R1 in F2. assert (or1 : one_row A B2 q (erase j (erase k (cells A s e)))) by (eapply one_row_trans; eauto).
    assert (P'R : s <= p' < e - 1).
    { pose proof (or_len _ _ _ _ F2) as HH. rewrite L2, cells_length in HH by lia.
      destruct (find_ins B1 q j W1) as (p2 & G1 & G2 & G3 & G4); [lia|]. rewrite PS1, PE1 in *.
      change (mi B1) with I1 in *. rewrite FP in G1. injection G1 as G1. subst p2.
      split; [lia|]. destruct (mem_pos B1 s (e - 1) j) as (t & T1 & T2).
      { rewrite CB1. apply mem_erase; auto. }
      change (mi B1) with I1 in T2. destruct (Z_lt_le_dec t p'); [specialize (G3 t); lia|lia]. }
    (* both branches of the memmove *)
    rewrite (memmove_ok X1) by (unfold X1; cbn; lia). cbn [bind].
    rewrite (memmove_ok I1) by (unfold I1; cbn; lia). cbn [bind].
    rewrite (aset_ok (pe A)) by (rewrite (wf_lpe A W); lia). cbn [bind].
    eexists. split; [f_equal; f_equal; lia|].
    split; [|cbn [mnnz with_nnz]; lia].
    (* compare with B2 pointwise *)
    match goal with |- one_row _ ?B _ _ => set (B3 := B) end.
    assert (PB3 : forall t, adat (pe B3) t = if t =? q then e - 1 - 1 else adat (pe A) t) by reflexivity.
    destruct (row_update A (mx B3) (mi B3) (e - 1 - 1) q (mnnz B3) W Hr) as (e3 & G1 & G2); auto.
    { fold s; lia. }
    { fold s. intros t Ht. unfold B3, X1, I1; cbn. ifb; auto; exfalso; lia. }
    rewrite aset_ok in G1 by (rewrite (wf_lpe A W); lia). injection G1 as <-. cbn zeta in G2. fold s in G2.
    assert (CE : cells B3 s (e - 1 - 1) = erase j (erase k (cells A s e))).
    { rewrite <- (or_row _ _ _ _ F2), row_cells. rewrite (or_ps _ _ _ _ F2). change (adat (ps B1) q) with s.
      rewrite (or_len _ _ _ _ F2), L2, cells_length by lia. change (adat (ps B1) q) with s.
      apply cells_move; [lia|]. intros t Ht.
      destruct (p' =? e - 1 - 1) eqn:EP'; zb.
      - cbn [bind fst snd] in F1. destruct (aset (pe B1) q (e - 1 - 1)); cbn [bind] in F1; [|discriminate]. injection F1 as <- .
        unfold cell, B3; cbn [mx mi with_nnz with_p with_xi]. cbn [adat]. ifb; auto; exfalso; lia.
      - rewrite !memmove_ok in F1 by (unfold X1, I1; cbn; lia). cbn [bind fst snd] in F1.
        destruct (aset (pe B1) q (e - 1 - 1)); cbn [bind] in F1; [|discriminate]. injection F1 as <- .
        reflexivity. }
    rewrite <- CE. exact G2.
  - destruct (insert_ok B1 q j nv' (sz - 1) W1 RB TN S1) as (B2 & F1 & F2 & F3).
    { right. rewrite PE1. change (ps B1) with (ps A). lia. }
    unfold insert_or_update_coeff in F1. rewrite wf_ps_ok, wf_pe_ok in F1 by (auto; lia). cbn [bind] in F1.
    rewrite PS1, PE1 in F1. change (mi B1) with I1 in F1. rewrite FP in F1. cbn [bind] in F1. rewrite TN in F1. cbn [negb] in F1.
    change (mx B1) with X1 in F1. rewrite R1 in F1, F2, F3.
    assert (or1 : one_row A B2 q (put j nv' (erase k (cells A s e)))) by (eapply one_row_trans; eauto).
    set (LP := put j nv' (erase k (cells A s e))) in *.
    assert (E1d : forall t, adat e1 t = if t =? q then e - 1 else adat (pe A) t).
    { rewrite aset_ok in E1 by (rewrite (wf_lpe A W); lia). injection E1 as <-. reflexivity. }
    assert (E1l : alen e1 = alen (pe A)).
    { rewrite aset_ok in E1 by (rewrite (wf_lpe A W); lia). injection E1 as <-. reflexivity. }
    change (pe B1) with e1 in F1. change (mnnz B1) with (mnnz A - 1) in *.
    destruct (p' =? e - 1) eqn:C1.
    + destruct (aset X1 p' nv') as [X2|]; cbn [bind] in *; [|discriminate].
      destruct (aset I1 p' j) as [I2|]; cbn [bind] in *; [|discriminate].
      rewrite (aset_ok e1) in F1 by (rewrite E1l, (wf_lpe A W); lia). cbn [bind] in F1. injection F1 as F1a F1b F1c.
      subst B2. cbn [mnnz with_nnz] in F3. rewrite (aset_ok (pe A)) by (rewrite (wf_lpe A W); lia). cbn [bind].
      eexists. split; [f_equal; f_equal; lia|]. split; [|cbn [mnnz with_nnz]; lia].
      eapply one_row_ext; [exact or1|..]; try reflexivity; cbn; auto.
      intros t; rewrite E1d; ifb.
    + destruct (aget I1 p') as [c|]; cbn [bind] in *; [|discriminate].
      destruct (c =? j).
      * destruct (aget X1 p') as [ov|]; cbn [bind] in *; [|discriminate].
        destruct (aset X1 p' nv') as [X2|]; cbn [bind] in *; [|discriminate].
        injection F1 as F1a F1b F1c. subst B2. cbn [mnnz with_xi B1 with_nnz] in F3.
        rewrite (aset_ok (pe A)) by (rewrite (wf_lpe A W); lia). cbn [bind].
        eexists. split; [f_equal; f_equal; lia|]. split; [|cbn [mnnz with_nnz]; lia].
        eapply one_row_ext; [exact or1|..]; try reflexivity; cbn; auto.
      * destruct (memmove X1 _ _ _) as [X2|]; cbn [bind] in *; [|discriminate].
        destruct (memmove I1 _ _ _) as [I2|]; cbn [bind] in *; [|discriminate].
        destruct (aset X2 p' nv') as [X3|]; cbn [bind] in *; [|discriminate].
        destruct (aset I2 p' j) as [I3|]; cbn [bind] in *; [|discriminate].
        rewrite (aset_ok e1) in F1 by (rewrite E1l, (wf_lpe A W); lia). cbn [bind] in F1. injection F1 as F1a F1b F1c.
        subst B2. cbn [mnnz with_nnz] in F3. rewrite (aset_ok (pe A)) by (rewrite (wf_lpe A W); lia). cbn [bind].
        eexists. split; [f_equal; f_equal; lia|]. split; [|cbn [mnnz with_nnz]; lia].
        eapply one_row_ext; [exact or1|..]; try reflexivity; cbn; auto.
        intros t; rewrite E1d; ifb.
Qed.
