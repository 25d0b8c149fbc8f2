(* shift_row keeps every row and makes room. *)
From Coq Require Import QArith Lia.
From Verif Require Import M_Mem L_Mem M_Csr S_Csr S_Mat L_Vec L_Csr.
Local Open Scope Z_scope.

Definition len (A : matrix) (r : Z) : Z := adat (pe A) r - adat (ps A) r.

(* same shape, same rows *)
Definition same_rows (A B : matrix) : Prop :=
  mm B = mm A /\ mn B = mn A /\ mnnz B = mnnz A /\ mcap B = mcap A /\ alen (mx B) = alen (mx A) /\
  forall r, 0 <= r < mm A -> row_entries B r = row_entries A r.

Lemma same_rows_refl A : same_rows A A.
Proof. repeat split; auto. Qed.
Lemma same_rows_trans A B C : same_rows A B -> same_rows B C -> same_rows A C.
Proof.
  intros (a & b & c & d & e & f) (a' & b' & c' & d' & e' & f').
  repeat split; try congruence. intros. rewrite f' by lia. auto.
Qed.

Lemma row_entries_move (A B : matrix) r q :
  adat (pe B) q - adat (ps B) q = adat (pe A) r - adat (ps A) r ->
  (forall k, 0 <= k < adat (pe A) r - adat (ps A) r ->
     adat (mi B) (adat (ps B) q + k) = adat (mi A) (adat (ps A) r + k) /\
     adat (mx B) (adat (ps B) q + k) = adat (mx A) (adat (ps A) r + k)) ->
  row_entries B q = row_entries A r.
Proof.
  intros E H. unfold row_entries.
  apply (slice_move (mkarr 0 (fun k => (adat (mi A) k, adat (mx A) k))) (mkarr 0 (fun k => (adat (mi B) k, adat (mx B) k)))); auto.
  intros k Hk. cbn [adat]. destruct (H k Hk) as [-> ->]. reflexivity.
Qed.

(* moving one row inside the gap around it *)
Definition moved (A : matrix) (r ns : Z) (B : matrix) : Prop :=
  wf_mat B /\ same_rows A B /\
  (forall k, adat (ps B) k = if k =? r then ns else adat (ps A) k) /\
  (forall k, adat (pe B) k = if k =? r then ns + len A r else adat (pe A) k).

Lemma wf_order A : wf_mat A -> forall a b, 0 <= a < b -> b < mm A -> adat (pe A) a <= adat (ps A) b.
Proof.
  intros W a b H1 H2. pose proof (wf_rng A W a). pose proof (wf_mono A W (a + 1) b). lia.
Qed.

Lemma move_row A r ns : wf_mat A -> 0 <= r < mm A ->
  (r = 0 -> 0 <= ns) -> (0 < r -> adat (pe A) (r - 1) <= ns) -> ns + len A r <= adat (ps A) (r + 1) ->
  exists x i s e,
    (if len A r >? 0 then memmove (mx A) ns (adat (ps A) r) (len A r) else Some (mx A)) = Some x /\
    (if len A r >? 0 then memmove (mi A) ns (adat (ps A) r) (len A r) else Some (mi A)) = Some i /\
    aset (ps A) r ns = Some s /\ aset (pe A) r (ns + len A r) = Some e /\
    moved A r ns (with_p (with_xi A x i) s e).
Proof.
  intros W Hr H0 H1 H2.
  pose proof (wf_bounds A r W Hr) as (B1 & B2 & B3 & B4).
  assert (Hns : 0 <= ns).
  { destruct (Z.eq_dec r 0); auto. pose proof (wf_bounds A (r - 1) W). lia. }
  unfold len in *. set (L := adat (pe A) r - adat (ps A) r) in *.
  assert (X : exists x, (if L >? 0 then memmove (mx A) ns (adat (ps A) r) L else Some (mx A)) = Some x /\ alen x = alen (mx A)
     /\ forall k, adat x k = if (ns <=? k) && (k <? ns + L) then adat (mx A) (k - ns + adat (ps A) r) else adat (mx A) k).
  { destruct (Z.gtb_spec L 0).
    - rewrite memmove_ok by lia. eexists; split; [reflexivity|]. cbn. auto.
    - eexists; split; [reflexivity|]. split; auto. intros. ifb; auto. }
  assert (I : exists i, (if L >? 0 then memmove (mi A) ns (adat (ps A) r) L else Some (mi A)) = Some i /\ alen i = alen (mi A)
     /\ forall k, adat i k = if (ns <=? k) && (k <? ns + L) then adat (mi A) (k - ns + adat (ps A) r) else adat (mi A) k).
  { pose proof (wf_lmi A W). destruct (Z.gtb_spec L 0).
    - rewrite memmove_ok by lia. eexists; split; [reflexivity|]. cbn. auto.
    - eexists; split; [reflexivity|]. split; auto. intros. ifb; auto. }
  destruct X as (x & X1 & X2 & X3). destruct I as (i & I1 & I2 & I3).
  exists x, i. rewrite !aset_ok by (rewrite ?(wf_lps A W), ?(wf_lpe A W); lia).
  eexists; eexists. split; [exact X1|]. split; [exact I1|]. split; [reflexivity|]. split; [reflexivity|].
  assert (RE : forall q, 0 <= q < mm A -> row_entries
    (with_p (with_xi A x i) (mkarr (alen (ps A)) (fun k => if k =? r then ns else adat (ps A) k))
       (mkarr (alen (pe A)) (fun k => if k =? r then ns + L else adat (pe A) k))) q = row_entries A q).
  { intros q Hq. apply row_entries_move; cbn [with_p with_xi ps pe mi mx adat].
    - ifb. subst; unfold L; lia.
    - intros k Hk. destruct (Z.eqb_spec q r) as [->|NE].
      + rewrite X3, I3. fold L in Hk. ifb. split; f_equal; lia.
      + rewrite X3, I3. pose proof (wf_bounds A q W Hq).
        assert (~ (ns <= adat (ps A) q + k < ns + L)).
        { destruct (Z.lt_trichotomy q r) as [|[|]]; [|lia|].
          - pose proof (wf_order A W q (r - 1)). pose proof (wf_rng A W (r - 1)).
            destruct (Z.eq_dec q (r - 1)); [subst q; lia|]. lia.
          - pose proof (wf_mono A W (r + 1) q). lia. }
        ifb; auto. }
  split; [|split; [|split]].
  - constructor; cbn [with_p with_xi mm ps pe mi mx alen adat]; try (apply W); try (rewrite ?X2, ?I2; apply W).
    + ifb; auto. apply W.
    + intros q Hq. pose proof (wf_bounds A q W Hq).
      destruct (Z.eqb_spec q r) as [->|]; [|destruct (Z.eqb_spec (q + 1) r) as [E|]].
      * destruct (Z.eqb_spec (r + 1) r); unfold L in *; lia.
      * replace (r - 1) with q in H1 by lia. lia.
      * lia.
    + ifb. rewrite X2. apply W.
  - repeat split; auto.
  - intros; reflexivity.
  - intros; reflexivity.
Qed.

(* total length of rows a..b-1 *)
Definition sumlen (A : matrix) (a b : Z) : Z := zsum (map (len A) (zrange a b)).
Lemma sumlen_nil A a b : b <= a -> sumlen A a b = 0.
Proof. intros; unfold sumlen. now rewrite zrange_nil. Qed.
Lemma sumlen_snoc A a b : a <= b -> sumlen A a (b + 1) = sumlen A a b + len A b.
Proof. intros; unfold sumlen. rewrite zrange_snoc, map_app, zsum_app by lia. cbn. lia. Qed.
Lemma sumlen_cons A a b : a < b -> sumlen A a b = len A a + sumlen A (a + 1) b.
Proof. intros; unfold sumlen. rewrite zrange_cons by lia. reflexivity. Qed.

Record linv (A : matrix) (row lf lsh missing tot : Z) : Prop := {
  li_rng : 0 <= lf <= row;
  li_eq : lf = row -> lsh = 0 /\ tot = 0;
  li_gap : lf < row -> 0 <= lsh <= adat (ps A) (lf + 1) - adat (pe A) lf;
  li_full : lf < row -> missing > 0 -> lsh = adat (ps A) (lf + 1) - adat (pe A) lf;
  li_tot : lf < row -> tot = adat (pe A) row - (adat (ps A) (lf + 1) - lsh + sumlen A (lf + 1) (row + 1)) }.
Record rinv (A : matrix) (row rt rsh missing tot : Z) : Prop := {
  ri_rng : row + 1 <= rt <= mm A;
  ri_eq : rt = row + 1 -> rsh = 0 /\ tot = 0;
  ri_gap : row + 1 < rt -> 0 <= rsh <= adat (ps A) rt - adat (pe A) (rt - 1);
  ri_full : row + 1 < rt -> missing > 0 -> rsh = adat (ps A) rt - adat (pe A) (rt - 1);
  ri_tot : row + 1 < rt -> tot = adat (pe A) (rt - 1) + rsh - sumlen A (row + 1) rt - adat (ps A) (row + 1) }.

Lemma shift_search_ok A row : wf_mat A -> 0 <= row < mm A ->
  forall fuel lf rt missing rem lsh rsh totl totr,
  lf + (mm A - rt) < Z.of_nat fuel -> 0 <= missing ->
  linv A row lf lsh missing totl -> rinv A row rt rsh missing totr ->
  exists r, shift_search fuel A lf rt missing rem lsh rsh = Some r /\
    match r with None => True | Some (lf', rt', lsh', rsh') =>
      exists totl' totr', linv A row lf' lsh' 0 totl' /\ rinv A row rt' rsh' 0 totr' /\
        totl' + totr' = totl + totr + missing end.
Proof.
  intros W Hrow. induction fuel; intros lf rt missing rem lsh rsh totl totr HF HM HL HR.
  { destruct HL, HR. lia. }
  cbn [shift_search]. destruct (Z.gtb_spec missing 0) as [HM'|HM'].
  2:{ eexists; split; [reflexivity|]. cbn. exists totl, totr. assert (missing = 0) by lia. subst. repeat split; try apply HL; try apply HR; lia. }
  pose proof (li_rng _ _ _ _ _ _ HL) as RL. pose proof (ri_rng _ _ _ _ _ _ HR) as RR.
  destruct ((lf =? 0) && (rt =? mm A)) eqn:E; [eexists; split; [reflexivity|exact I]|].
  assert (SL : exists sl, (if lf =? 0 then Some 0 else
            do a <- aget (ps A) lf; do b <- aget (pe A) (lf - 1); Some (a - b)) = Some sl /\
            (0 < lf -> sl = adat (ps A) lf - adat (pe A) (lf - 1) /\ 0 <= sl)).
  { destruct (Z.eqb_spec lf 0). { eexists; split; [reflexivity|]; lia. }
    rewrite !aget_ok by (rewrite ?(wf_lps A W), ?(wf_lpe A W); lia). cbn [bind].
    eexists; split; [reflexivity|]. intros; split; auto. pose proof (wf_rng A W (lf - 1)).
    replace (lf - 1 + 1) with lf in * by lia. lia. }
  assert (SR : exists sr, (if rt =? mm A then Some 0 else
            do a <- aget (ps A) (rt + 1); do b <- aget (pe A) rt; Some (a - b)) = Some sr /\
            (rt < mm A -> sr = adat (ps A) (rt + 1) - adat (pe A) rt /\ 0 <= sr)).
  { destruct (Z.eqb_spec rt (mm A)). { eexists; split; [reflexivity|]; lia. }
    rewrite !aget_ok by (rewrite ?(wf_lps A W), ?(wf_lpe A W); lia). cbn [bind].
    eexists; split; [reflexivity|]. intros; split; auto. pose proof (wf_rng A W rt). lia. }
  destruct SL as (sl & -> & HSL). destruct SR as (sr & -> & HSR). cbn [bind].
  rewrite !aget_ok by (rewrite ?(wf_lps A W), ?(wf_lpe A W); lia). cbn [bind].
  match goal with |- context [match ?d with None => _ | Some _ => _ end] => set (dir := d) end.
  assert (D : match dir with None => True | Some true => 0 < lf | Some false => rt < mm A end).
  { unfold dir. destruct (lf =? 0) eqn:E1; zb; destruct (rt =? mm A) eqn:E2; zb; ifb; auto; try lia. }
  clearbody dir. destruct dir as [[|]|]; [| |eexists; split; [reflexivity|exact I]].
  - destruct (HSL D) as [-> HP].
    set (l := Z.min missing (adat (ps A) lf - adat (pe A) (lf - 1))).
    destruct (IHfuel (lf - 1) rt (missing - l) (rem - (adat (pe A) lf - adat (ps A) lf)) l rsh (totl + l) totr) as (r & E1 & E2).
    + lia.
    + lia.
    + constructor; intros; try lia; replace (lf - 1 + 1) with lf by lia; try lia.
      destruct (Z.eq_dec lf row) as [->|].
      * rewrite sumlen_snoc, sumlen_nil by lia. destruct (li_eq _ _ _ _ _ _ HL); auto. unfold len; lia.
      * rewrite sumlen_cons by lia. rewrite (li_tot _ _ _ _ _ _ HL) by lia.
        rewrite (li_full _ _ _ _ _ _ HL) by lia. unfold len; lia.
    + constructor; try apply HR. intros. apply HR; lia.
    + exists r; split; auto. destruct r as [[[[lf' rt'] lsh'] rsh']|]; auto.
      destruct E2 as (tl & tr & ? & ? & ?). exists tl, tr. split; [auto|split; [auto|lia]].
  - destruct (HSR D) as [-> HP].
    set (l := Z.min missing (adat (ps A) (rt + 1) - adat (pe A) rt)).
    destruct (IHfuel lf (rt + 1) (missing - l) (rem - (adat (pe A) rt - adat (ps A) rt)) lsh l totl (totr + l)) as (r & E1 & E2).
    + lia.
    + lia.
    + constructor; try apply HL. intros. apply HL; lia.
    + constructor; intros; try lia; replace (rt + 1 - 1) with rt by lia; try lia.
      destruct (Z.eq_dec rt (row + 1)) as [->|].
      * rewrite sumlen_snoc, sumlen_nil by lia. destruct (ri_eq _ _ _ _ _ _ HR); auto. unfold len; lia.
      * rewrite sumlen_snoc by lia. rewrite (ri_tot _ _ _ _ _ _ HR) by lia.
        rewrite (ri_full _ _ _ _ _ _ HR) by lia. unfold len; lia.
    + exists r; split; auto. destruct r as [[[[lf' rt'] lsh'] rsh']|]; auto.
      destruct E2 as (tl & tr & ? & ? & ?). exists tl, tr. split; [auto|split; [auto|lia]].
Qed.

Lemma wf_ps_ok A k : wf_mat A -> 0 <= k <= mm A -> aget (ps A) k = Some (adat (ps A) k).
Proof. intros W ?; apply aget_ok; rewrite (wf_lps A W); lia. Qed.
Lemma wf_pe_ok A k : wf_mat A -> 0 <= k <= mm A -> aget (pe A) k = Some (adat (pe A) k).
Proof. intros W ?; apply aget_ok; rewrite (wf_lpe A W); lia. Qed.

Lemma shift_left_exec_ok A row lf lsh tot : wf_mat A -> 0 <= row < mm A -> linv A row lf lsh 0 tot ->
  exists B, shift_left_exec A lf row lsh = Some B /\ wf_mat B /\ same_rows A B /\
    (forall r, row < r -> adat (ps B) r = adat (ps A) r /\ adat (pe B) r = adat (pe A) r) /\
    adat (pe B) row = adat (pe A) row - tot.
Proof.
  intros W Hrow HL. pose proof (li_rng _ _ _ _ _ _ HL) as RL. unfold shift_left_exec.
  rewrite wf_ps_ok by (auto; lia). cbn [bind].
  set (base := adat (ps A) (lf + 1) - lsh).
  match goal with |- context [for_z lf row ?b _] =>
  destruct (for_z_inv (fun l (st : Z * matrix) => let '(next, B) := st in
     wf_mat B /\ same_rows A B /\
     (forall r, l < r -> adat (ps B) r = adat (ps A) r /\ adat (pe B) r = adat (pe A) r) /\
     next = base + sumlen A (lf + 1) (l + 1) /\ (l < row -> next <= adat (ps A) (l + 1)) /\
     (l < row -> adat (pe B) l <= next) /\ (lf < l -> adat (pe B) l = next) /\
     (l = lf -> B = A)) b lf row (base, A)) as ([next B] & E & WB & SB & FB & EN & _ & _ & EP & EQ) end.
  - lia.
  - split; [auto|]. split; [apply same_rows_refl|]. split; [auto|]. split; [rewrite sumlen_nil by lia; lia|].
    repeat split; auto; intros; pose proof (li_gap _ _ _ _ _ _ HL); unfold base; lia.
  - intros l [next B] Hl (WB & SB & FB & EN & NL & NU & EP & EQ).
    destruct (FB (l + 1)) as [F1 F2]; [lia|].
    assert (MB : mm B = mm A) by apply SB.
    rewrite wf_pe_ok, wf_ps_ok by (auto; lia). cbn [bind].
    assert (len B (l + 1) = len A (l + 1)) as LE by (unfold len; lia).
    destruct (FB (l + 1 + 1)) as [F3 F4]; [lia|].
    pose proof (wf_rng A W (l + 1)). pose proof (wf_rng A W l).
    destruct (move_row B (l + 1) next) as (x & i & s & e & M1 & M2 & M3 & M4 & M5); auto; try lia.
    { intros; replace (l + 1 - 1) with l by lia. auto. apply NU; lia. }
    { rewrite F3, LE. unfold len. specialize (NL ltac:(lia)). lia. }
    fold (len B (l + 1)).
    rewrite M1; cbn [bind]. rewrite M2; cbn [bind]. rewrite M3; cbn [bind]. rewrite M4; cbn [bind].
    eexists; split; [reflexivity|].
    destruct M5 as (WB' & SB' & P1 & P2).
    split; [auto|]. split; [eapply same_rows_trans; eauto|].
    split. { intros r Hr. rewrite P1, P2. ifb. apply FB; lia. }
    split. { rewrite (sumlen_snoc A (lf + 1) (l + 1)) by lia. lia. }
    split. { intros. specialize (NL ltac:(lia)). rewrite LE. unfold len. lia. }
    split. { intros. rewrite P2. ifb. }
    split. { intros. rewrite P2. ifb. }
    lia.
  - rewrite E. cbn [bind]. exists B. split; auto. split; auto. split; auto. split; [exact FB|].
    destruct (Z.eq_dec lf row) as [->|].
    + rewrite EQ by auto. destruct (li_eq _ _ _ _ _ _ HL); auto; lia.
    + rewrite EP by lia. rewrite (li_tot _ _ _ _ _ _ HL) by lia. unfold base in EN. lia.
Qed.

Lemma shift_right_exec_ok A row rt rsh tot : wf_mat A -> 0 <= row < mm A -> rinv A row rt rsh 0 tot ->
  exists B, shift_right_exec A rt row rsh = Some B /\ wf_mat B /\ same_rows A B /\
    (forall r, r <= row \/ mm A <= r -> adat (ps B) r = adat (ps A) r /\ adat (pe B) r = adat (pe A) r) /\
    adat (ps B) (row + 1) = adat (ps A) (row + 1) + tot.
Proof.
  intros W Hrow HR. pose proof (ri_rng _ _ _ _ _ _ HR) as RR. unfold shift_right_exec.
  rewrite wf_pe_ok by (auto; lia). cbn [bind].
  set (base := adat (pe A) (rt - 1) + rsh).
  match goal with |- context [for_z 0 ?h ?b _] =>
  destruct (for_z_inv (fun k (st : Z * matrix) => let '(next, B) := st in
     wf_mat B /\ same_rows A B /\
     (forall r, r < rt - k \/ rt <= r -> adat (ps B) r = adat (ps A) r /\ adat (pe B) r = adat (pe A) r) /\
     next = base - sumlen A (rt - k) rt /\ (k < rt - (row + 1) -> adat (pe A) (rt - 1 - k) <= next) /\
     (k < rt - (row + 1) -> next <= adat (ps B) (rt - k)) /\ (0 < k -> adat (ps B) (rt - k) = next) /\
     (k = 0 -> B = A)) b 0 h (base, A)) as ([next B] & E & WB & SB & FB & EN & _ & _ & EP & EQ) end.
  - lia.
  - split; [auto|]. split; [apply same_rows_refl|]. split; [auto|]. split; [rewrite sumlen_nil by lia; lia|].
    repeat split; auto; intros; pose proof (ri_gap _ _ _ _ _ _ HR); unfold base; replace (rt - 1 - 0) with (rt - 1) by lia; 
      replace (rt - 0) with rt by lia; lia.
  - intros k [next B] Hk (WB & SB & FB & EN & NL & NU & EP & EQ).
    set (r := rt - 1 - k) in *. replace (rt - k) with (r + 1) in * by lia.
    destruct (FB r) as [F1 F2]; [lia|]. destruct (FB (r - 1)) as [F3 F4]; [lia|].
    assert (MB : mm B = mm A) by apply SB.
    rewrite wf_pe_ok, wf_ps_ok by (auto; lia). cbn [bind].
    assert (len B r = len A r) as LE by (unfold len; lia).
    pose proof (wf_rng A W r). pose proof (wf_rng A W (r - 1)) as WR1. replace (r - 1 + 1) with r in WR1 by lia.
    specialize (NL ltac:(lia)). specialize (NU ltac:(lia)).
    destruct (move_row B r (next - len B r)) as (x & i & s & e & M1 & M2 & M3 & M4 & M5); auto; try lia.
    { rewrite LE; unfold len; lia. }
    fold (len B r). replace (next - len B r + len B r) with next in * by lia.
    rewrite M1; cbn [bind]. rewrite M2; cbn [bind]. rewrite M3; cbn [bind]. rewrite M4; cbn [bind].
    eexists; split; [reflexivity|].
    destruct M5 as (WB' & SB' & P1 & P2).
    split; [auto|]. split; [eapply same_rows_trans; eauto|].
    replace (rt - (k + 1)) with r by lia.
    split. { intros q Hq. rewrite P1, P2. ifb. apply FB; lia. }
    split. { rewrite (sumlen_cons A r) by lia. lia. }
    replace (rt - 1 - (k + 1)) with (r - 1) by lia.
    split. { intros. rewrite LE. unfold len. lia. }
    split. { intros. rewrite P1. ifb. }
    split. { intros. rewrite P1. ifb. }
    lia.
  - rewrite E. cbn [bind]. exists B. split; auto. split; auto. split; auto.
    replace (rt - (rt - (row + 1))) with (row + 1) in * by lia.
    split. { intros; apply FB; lia. }
    destruct (Z.eq_dec rt (row + 1)) as [->|].
    + rewrite EQ by lia. destruct (ri_eq _ _ _ _ _ _ HR); auto; lia.
    + rewrite EP by lia. rewrite (ri_tot _ _ _ _ _ _ HR) by lia. unfold base in EN. lia.
Qed.

Lemma shift_row_ok A row extra max_shift : wf_mat A -> 0 <= row < mm A ->
  exists b B, shift_row A row extra max_shift = Some (b, B) /\ wf_mat B /\ same_rows A B /\
    adat (ps B) (mm A) <= alen (mx A) /\
    (b = false -> B = A) /\ (b = true -> extra <= adat (ps B) (row + 1) - adat (pe B) row).
Proof.
  intros W Hrow. unfold shift_row.
  rewrite wf_ps_ok, wf_pe_ok by (auto; lia). cbn [bind].
  set (missing := extra - (adat (ps A) (row + 1) - adat (pe A) row)).
  destruct (Z.leb_spec missing 0).
  { exists true, A. split; [auto|]. split; [auto|]. split; [apply same_rows_refl|]. split; [apply W|]. split; [discriminate|]. intros; lia. }
  destruct (shift_search_ok A row W Hrow (Z.to_nat (mm A) + 1) row (row + 1) missing max_shift 0 0 0 0) as (r & E & HX).
  - lia.
  - lia.
  - constructor; intros; lia.
  - constructor; intros; lia.
  - rewrite E; cbn [bind]. destruct r as [[[[lf rt] lsh] rsh]|].
    2:{ exists false, A. split; [auto|]. split; [auto|]. split; [apply same_rows_refl|]. split; [apply W|]. split; [auto|discriminate]. }
    destruct HX as (tl & tr & HL & HR & HT).
    destruct (shift_left_exec_ok A row lf lsh tl W Hrow HL) as (B & EB & WB & SB & FB & PB).
    rewrite EB; cbn [bind].
    assert (MB : mm B = mm A) by apply SB.
    assert (HRB : rinv B row rt rsh 0 tr).
    { pose proof (ri_rng _ _ _ _ _ _ HR).
      assert (LB : forall r, row < r -> len B r = len A r).
      { intros r Hr; unfold len. destruct (FB r Hr). lia. }
      assert (SLB : sumlen B (row + 1) rt = sumlen A (row + 1) rt).
      { unfold sumlen. f_equal. apply map_ext_in. intros k Hk. apply in_zrange in Hk. apply LB; lia. }
      constructor; intros; try lia.
      - apply HR; auto.
      - destruct (FB rt) as [-> _]; [lia|]. destruct (FB (rt - 1)) as [_ ->]; [lia|]. apply HR; auto.
      - rewrite SLB. destruct (FB (row + 1)) as [-> _]; [lia|]. destruct (FB (rt - 1)) as [_ ->]; [lia|]. apply HR; auto. }
    destruct (shift_right_exec_ok B row rt rsh tr WB) as (C & EC & WC & SC & FC & PC); auto; try lia.
    rewrite EC; cbn [bind]. exists true, C. split; auto. split; auto.
    split; [eapply same_rows_trans; eauto|].
    split. { rewrite <- MB. destruct SC as (SC0 & _ & _ & _ & SC1 & _). destruct SB as (_ & _ & _ & _ & SB1 & _).
      rewrite <- SB1, <- SC1, <- SC0. apply WC. }
    split; [discriminate|]. intros _. rewrite PC. destruct (FC row) as [_ ->]; [lia|].
    destruct (FB (row + 1)) as [-> _]; [lia|]. rewrite PB. lia.
Qed.
