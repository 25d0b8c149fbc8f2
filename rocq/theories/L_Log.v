(** The flat log is read back as it was written. *)
From Coq Require Import NArith Lia.
From Verif Require Import M_Num S_LP M_State M_Post M_Log S_Log L_State.
Open Scope Z_scope.

(** ** Blocks *)
Definition block (r : reduction) : N * list Z * list ext :=
  match r with
  | FIXED_COL k v ck c => (T_FIXED_COL, [Z.of_nat k; DUMMY_VALUE] ++ icols c, [Fin v; Fin ck] ++ ivals c)
  | FIXED_COL_INF pos k b rows => (T_FIXED_COL_INF,
      [if pos then 1 else -1; Z.of_nat k] ++ flat_map (fun e => Z.of_nat (length (snd e)) :: icols (snd e)) rows,
      [Fin (inject_Z (Z.of_nat (length rows))); b] ++ flat_map (fun e => fst e :: ivals (snd e)) rows)
  | SUB_COL k r b i ck => (T_SUB_COL, [Z.of_nat k] ++ icols r ++ [Z.of_nat i], [b] ++ ivals r ++ [Fin ck])
  | PARALLEL_COL j k tj tk lbj ubj lbk ubk ratio =>
      (T_PARALLEL_COL, [Z.of_nat j; Z.of_nat k; tag_code tj; tag_code tk; DUMMY_VALUE], [lbj; ubj; lbk; ubk; Fin ratio])
  | DELETED_ROW i v => (T_DELETED_ROW, [Z.of_nat i], [Fin v])
  | ADDED_ROW i j ratio => (T_ADDED_ROW, [Z.of_nat i; Z.of_nat j], [Fin ratio; Fin (inject_Z DUMMY_VALUE)])
  | ADDED_ROWS i c aik => (T_ADDED_ROWS, [Z.of_nat i] ++ icols c, [Fin aik] ++ ivals c)
  | BOUND_CHANGE_NO_ROW j implied other low => (T_BOUND_CHANGE_NO_ROW, [Z.of_nat j; if low then 1 else 0], [Fin implied; other])
  | BOUND_CHANGE_THE_ROW i r n => (T_BOUND_CHANGE_THE_ROW, [Z.of_nat i] ++ icols r, [Fin (inject_Z (Z.of_nat n))] ++ ivals r)
  | LHS_CHANGE i r side j ratio => (T_LHS_CHANGE, [Z.of_nat i; Z.of_nat j] ++ icols r, [Fin side; Fin ratio] ++ ivals r)
  | RHS_CHANGE i r side j ratio => (T_RHS_CHANGE, [Z.of_nat i; Z.of_nat j] ++ icols r, [Fin side; Fin ratio] ++ ivals r)
  | EQ_TO_INEQ i v => (T_EQ_TO_INEQ, [Z.of_nat i], [Fin v])
  end.
Definition btype r := fst (fst (block r)).
Definition bidx r := snd (fst (block r)).
Definition bvals r := snd (block r).
Lemma save_block : forall r f, save r f = append_record (btype r) (bidx r) (bvals r) f.
Proof. destruct r; reflexivity. Qed.
Lemma icols_len : forall r, length (icols r) = length r. Proof. intros. apply map_length. Qed.
Lemma ivals_len : forall r, length (ivals r) = length r. Proof. intros. apply map_length. Qed.
Lemma block_len : forall r, length (bidx r) = length (bvals r).
Proof.
  destruct r; unfold bidx, bvals; cbn; rewrite ?app_length, ?icols_len, ?ivals_len; cbn; auto.
  f_equal. f_equal. induction rows as [|[e w] rows IH]; cbn; auto. rewrite !app_length, icols_len, ivals_len, IH. auto.
Qed.

(** ** Reading from a log that extends another *)
Definition ext_of {A} (a b : list A) : Prop := exists t, b = a ++ t.
Record flext (f g : flog) : Prop := {
  fx_t : ext_of (fl_type f) (fl_type g); fx_s : ext_of (fl_starts f) (fl_starts g);
  fx_i : ext_of (fl_idx f) (fl_idx g); fx_v : ext_of (fl_vals f) (fl_vals g) }.
Lemma ext_refl : forall A (a : list A), ext_of a a. Proof. intros. exists []. rewrite app_nil_r. auto. Qed.
Lemma ext_app : forall A (a b c : list A), ext_of (a ++ b) c -> ext_of a c.
Proof. intros A a b c [t ->]. exists (b ++ t). rewrite app_assoc. auto. Qed.
Lemma flext_refl : forall f, flext f f. Proof. intros. constructor; apply ext_refl. Qed.
Lemma flext_save : forall r f g, flext (save r f) g -> flext f g.
Proof. intros r f g [A B C D]. rewrite save_block in *. cbn in *. constructor; eapply ext_app; eauto. Qed.

Lemma rd_nat : forall A (l : list A) n, rd l (Z.of_nat n) = nth_error l n.
Proof. intros. unfold rd. destruct (Z.ltb_spec (Z.of_nat n) 0); [lia|]. rewrite Nat2Z.id. auto. Qed.
Lemma rd_mid : forall A (pre b : list A) (G : list A) z i, ext_of (pre ++ b) G -> z = Z.of_nat (length pre + i) -> (i < length b)%nat ->
  rd G z = nth_error b i.
Proof.
  intros A pre b G z i [t ->] -> Hi. rewrite rd_nat. rewrite <- app_assoc, nth_error_app2 by lia.
  replace (length pre + i - length pre)%nat with i by lia. apply nth_error_app1; auto.
Qed.

(** a log [G] in which the block [ix, vs] starts at [st] *)
Record at_ (G : flog) (st : nat) (ix : list Z) (vs : list ext) : Prop := {
  at_i : exists pre, length pre = st /\ ext_of (pre ++ ix) (fl_idx G);
  at_v : exists pre, length pre = st /\ ext_of (pre ++ vs) (fl_vals G) }.
Lemma at_rd_i : forall G st ix vs i z x, at_ G st ix vs -> nth_error ix i = Some x -> z = Z.of_nat (st + i) -> rd (fl_idx G) z = Some x.
Proof.
  intros G st ix vs i z x [[pre [L E]] _] N Z. rewrite <- N. subst st. eapply rd_mid; eauto.
  apply nth_error_Some. congruence.
Qed.
Lemma at_rd_v : forall G st ix vs i z x, at_ G st ix vs -> nth_error vs i = Some x -> z = Z.of_nat (st + i) -> rd (fl_vals G) z = Some x.
Proof.
  intros G st ix vs i z x [_ [pre [L E]]] N Z. rewrite <- N. subst st. eapply rd_mid; eauto.
  apply nth_error_Some. congruence.
Qed.
Lemma at_idx : forall G st ix vs i z k, at_ G st ix vs -> nth_error ix i = Some (Z.of_nat k) -> z = Z.of_nat (st + i) -> rd_idx G z = Some k.
Proof.
  intros. unfold rd_idx. erewrite at_rd_i; eauto. destruct (Z.ltb_spec (Z.of_nat k) 0); [lia|]. rewrite Nat2Z.id. auto.
Qed.
Lemma at_val : forall G st ix vs i z q, at_ G st ix vs -> nth_error vs i = Some (Fin q) -> z = Z.of_nat (st + i) -> rd_val G z = Some q.
Proof. intros. unfold rd_val. erewrite at_rd_v; eauto. auto. Qed.
Lemma ext_sub : forall A (pre a b c G : list A), ext_of (pre ++ a ++ b ++ c) G -> ext_of ((pre ++ a) ++ b) G.
Proof. intros A pre a b c G [t ->]. exists (c ++ t). rewrite <- !app_assoc. auto. Qed.
Lemma at_sub : forall G st a b c a' b' c', at_ G st (a ++ b ++ c) (a' ++ b' ++ c') -> length a = length a' -> at_ G (st + length a) b b'.
Proof.
  intros G st a b c a' b' c' [[p [L E]] [q [M F]]] LL. constructor.
  - exists (p ++ a). rewrite app_length. split; [lia|]. eapply ext_sub; eauto.
  - exists (q ++ a'). rewrite app_length. split; [lia|]. eapply ext_sub; eauto.
Qed.
Lemma at_row : forall r G st z, at_ G st (icols r) (ivals r) -> z = Z.of_nat st -> rd_row G z (length r) = Some r.
Proof.
  induction r as [|[k a] r IH]; intros G st z H ->; cbn [rd_row length]; auto.
  erewrite (at_idx G st _ _ 0); [|eauto|reflexivity|lia].
  erewrite (at_val G st _ _ 0); [|eauto|reflexivity|lia].
  erewrite IH; [reflexivity| |].
  - apply (at_sub G st [Z.of_nat k] (icols r) [] [Fin a] (ivals r) []); auto. rewrite !app_nil_r. exact H.
  - cbn. lia.
Qed.
Lemma at_inf_rows : forall rows G st z,
  at_ G st (flat_map (fun e => Z.of_nat (length (snd e)) :: icols (snd e)) rows) (flat_map (fun e => fst e :: ivals (snd e)) rows) ->
  z = Z.of_nat st -> rd_inf_rows G z (length rows) = Some rows.
Proof.
  induction rows as [|[b r] rows IH]; intros G st z H ->; cbn [rd_inf_rows length]; auto.
  cbn [flat_map fst snd] in H.
  erewrite (at_rd_v G st _ _ 0); [|eauto|reflexivity|lia].
  erewrite (at_idx G st _ _ 0); [|eauto|reflexivity|lia].
  erewrite (at_row r G (st + 1)); [| |lia].
  - erewrite IH; [reflexivity| |].
    + apply (at_sub G st (Z.of_nat (length r) :: icols r) _ [] (b :: ivals r) _ []).
      * rewrite !app_nil_r. exact H.
      * cbn. rewrite icols_len, ivals_len. auto.
    + cbn. rewrite icols_len. lia.
  - change 1%nat with (length [Z.of_nat (length r)]).
    eapply (at_sub G st [Z.of_nat (length r)] (icols r) _ [b] (ivals r)); [exact H|auto].
Qed.

(** ** One record *)
Lemma write_sizes : forall l, let f := write_log l in length (fl_type f) = length l /\ length (fl_starts f) = S (length l) /\
  length (fl_idx f) = length (fl_vals f) /\ nth_error (fl_starts f) (length l) = Some (Z.of_nat (length (fl_idx f))).
Proof.
  induction l as [|r l [A [B [C D]]]]; cbn [write_log]; [cbn; auto|]. cbv zeta in *. rewrite save_block. unfold append_record. cbn [fl_type fl_starts fl_idx fl_vals length].
  rewrite !app_length. cbn [length]. rewrite C, block_len. repeat split; try lia.
  rewrite nth_error_app2 by lia. replace (S (length l) - length (fl_starts (write_log l)))%nat with 0%nat by lia.
  reflexivity.
Qed.
Lemma tag_roundtrip : forall t, tag_decode (tag_code t) = t.
Proof. intros [[] [] [] []]; reflexivity. Qed.
Lemma to_int_nat : forall n, Z.to_nat (to_int (inject_Z (Z.of_nat n))) = n.
Proof. intros. unfold to_int. cbn. rewrite Z.quot_1_r. apply Nat2Z.id. Qed.

Ltac nn := first [reflexivity | apply nth_error_app1 ].
Section One.
Variables (r : reduction) (l : list reduction) (G : flog).
Hypothesis X : flext (write_log (r :: l)) G.
Let st := length (fl_idx (write_log l)).
Lemma one_type : rd (fl_type G) (Z.of_nat (length l)) = Some (btype r).
Proof.
  destruct X as [A _ _ _]. cbn in A. rewrite save_block in A. cbn in A.
  destruct (write_sizes l) as [L _].
  erewrite (rd_mid _ (fl_type (write_log l)) [btype r] _ _ 0); eauto; cbn; auto; lia.
Qed.
Lemma one_start : rd (fl_starts G) (Z.of_nat (length l)) = Some (Z.of_nat st).
Proof.
  destruct X as [_ A _ _]. cbn in A. rewrite save_block in A. cbn in A. apply ext_app in A.
  destruct (write_sizes l) as (_&L&_&N). destruct A as [t ->]. rewrite rd_nat, nth_error_app1 by lia. exact N.
Qed.
Lemma one_next : rd (fl_starts G) (Z.of_nat (length l) + 1) = Some (Z.of_nat (st + length (bidx r))).
Proof.
  destruct X as [_ A _ _]. cbn in A. rewrite save_block in A. cbn in A.
  destruct (write_sizes l) as (_&L&_&N).
  erewrite (rd_mid _ (fl_starts (write_log l)) [_] _ _ 0); eauto; cbn; auto; [|lia]. rewrite app_length. auto.
Qed.
Lemma one_at : at_ G st (bidx r) (bvals r).
Proof.
  destruct X as [_ _ A B]. cbn in A, B. rewrite save_block in A, B. cbn in A, B.
  destruct (write_sizes l) as (_&_&L&_). constructor; [exists (fl_idx (write_log l))|exists (fl_vals (write_log l))]; split; auto.
Qed.
End One.

Ltac rd0 H n := first [erewrite (at_idx _ _ _ _ n _ _ H); [|reflexivity|lia] | erewrite (at_val _ _ _ _ n _ _ H); [|reflexivity|lia]
  | erewrite (at_rd_v _ _ _ _ n _ _ H); [|reflexivity|lia] | erewrite (at_rd_i _ _ _ _ n _ _ H); [|reflexivity|lia]].

Lemma read_one : forall r l G, flext (write_log (r :: l)) G -> read_record G (Z.of_nat (length l)) = Some r.
Proof.
  intros r l G X. unfold read_record. rewrite (one_type r l G X), (one_start r l G X), (one_next r l G X).
  pose proof (one_at r l G X) as H. set (st := length (fl_idx (write_log l))) in *. clearbody st. clear X.
  destruct r; unfold btype, bidx, bvals in *; cbn [block fst snd] in *.
  - cbn [N.eqb T_FIXED_COL]. rd0 H 0%nat. rd0 H 0%nat. rd0 H 1%nat.
    replace (Z.to_nat _) with (length colview) by (rewrite app_length, icols_len; cbn; lia).
    erewrite (at_row colview G (st + 2)); [reflexivity| |lia].
    apply (at_sub G st [Z.of_nat col; DUMMY_VALUE] (icols colview) [] [Fin val; Fin ck] (ivals colview) []); auto.
    rewrite !app_nil_r. exact H.
  - cbn [N.eqb Pos.eqb T_FIXED_COL T_FIXED_COL_INF T_SUB_COL]. rd0 H 0%nat. rd0 H 1%nat.
    rd0 H 0%nat. rd0 H 1%nat. rewrite to_int_nat.
    erewrite (at_inf_rows rows G (st + 2)); [destruct pos; reflexivity| |lia].
    apply (at_sub G st [if pos then 1 else -1; Z.of_nat col] _ [] [Fin (inject_Z (Z.of_nat (length rows))); bound] _ []); auto.
    rewrite !app_nil_r. exact H.
  - cbn [N.eqb Pos.eqb T_FIXED_COL T_SUB_COL].
    assert (LE : Z.to_nat (Z.of_nat (st + length ([Z.of_nat col] ++ icols ents ++ [Z.of_nat i])) - Z.of_nat st - 2) = length ents)
      by (rewrite !app_length, icols_len; cbn; lia).
    cbv zeta. rewrite LE. rd0 H 0%nat.
    erewrite (at_row ents G (st + 1)); [| |lia].
    + rd0 H 0%nat. erewrite (at_idx _ _ _ _ (1 + length ents) _ _ H); [| |lia].
      2:{ cbn. rewrite nth_error_app2; rewrite icols_len; auto. rewrite Nat.sub_diag. reflexivity. }
      erewrite (at_val _ _ _ _ (1 + length ents) _ _ H); [reflexivity| |lia].
      cbn. rewrite nth_error_app2; rewrite ivals_len; auto. rewrite Nat.sub_diag. reflexivity.
    + eapply (at_sub G st [Z.of_nat col] (icols ents) _ [rhs] (ivals ents)); [exact H|auto].
  - cbn [N.eqb Pos.eqb T_FIXED_COL T_FIXED_COL_INF T_SUB_COL T_PARALLEL_COL].
    rd0 H 0%nat. rd0 H 1%nat. erewrite (at_rd_i _ _ _ _ 2 _ _ H); [|reflexivity|lia]. erewrite (at_rd_i _ _ _ _ 3 _ _ H); [|reflexivity|lia].
    erewrite (at_rd_v _ _ _ _ 0 _ _ H); [|reflexivity|lia]. erewrite (at_rd_v _ _ _ _ 1 _ _ H); [|reflexivity|lia].
    erewrite (at_rd_v _ _ _ _ 2 _ _ H); [|reflexivity|lia]. erewrite (at_rd_v _ _ _ _ 3 _ _ H); [|reflexivity|lia].
    erewrite (at_val _ _ _ _ 4 _ _ H); [|reflexivity|lia]. rewrite !tag_roundtrip. reflexivity.
  - cbn [N.eqb Pos.eqb T_FIXED_COL T_FIXED_COL_INF T_SUB_COL T_PARALLEL_COL T_DELETED_ROW]. rd0 H 0%nat. rd0 H 0%nat. reflexivity.
  - cbn [N.eqb Pos.eqb T_FIXED_COL T_FIXED_COL_INF T_SUB_COL T_PARALLEL_COL T_DELETED_ROW T_ADDED_ROW].
    rd0 H 0%nat. rd0 H 1%nat. rd0 H 0%nat. reflexivity.
  - cbn [N.eqb Pos.eqb T_FIXED_COL T_FIXED_COL_INF T_SUB_COL T_PARALLEL_COL T_DELETED_ROW T_ADDED_ROW T_ADDED_ROWS].
    rd0 H 0%nat. replace (Z.to_nat _) with (length ents) by (rewrite app_length, icols_len; cbn; lia).
    erewrite (at_row ents G (st + 1)); [| |lia].
    + rd0 H 0%nat. reflexivity.
    + apply (at_sub G st [Z.of_nat i] (icols ents) [] [Fin aik] (ivals ents) []); auto. rewrite !app_nil_r. exact H.
  - cbn [N.eqb Pos.eqb T_FIXED_COL T_FIXED_COL_INF T_SUB_COL T_PARALLEL_COL T_DELETED_ROW T_ADDED_ROW T_ADDED_ROWS
      T_BOUND_CHANGE_THE_ROW T_BOUND_CHANGE_NO_ROW T_LHS_CHANGE T_RHS_CHANGE T_EQ_TO_INEQ orb].
    rd0 H 0%nat. rd0 H 0%nat. erewrite (at_rd_v _ _ _ _ 1 _ _ H); [|reflexivity|lia]. erewrite (at_rd_i _ _ _ _ 1 _ _ H); [|reflexivity|lia].
    destruct other_is_lower; reflexivity.
  - cbn [N.eqb Pos.eqb T_FIXED_COL T_FIXED_COL_INF T_SUB_COL T_PARALLEL_COL T_DELETED_ROW T_ADDED_ROW T_ADDED_ROWS
      T_BOUND_CHANGE_THE_ROW]. erewrite (at_val _ _ _ _ 0 _ _ H); [|reflexivity|lia]. rd0 H 0%nat.
    replace (Z.to_nat (Z.of_nat _ - _ - _)) with (length ents) by (rewrite app_length, icols_len; cbn; lia).
    erewrite (at_row ents G (st + 1)); [rewrite to_int_nat; reflexivity| |lia].
    apply (at_sub G st [Z.of_nat i] (icols ents) [] [Fin (inject_Z (Z.of_nat n))] (ivals ents) []); auto. rewrite !app_nil_r. exact H.
  - cbn [N.eqb Pos.eqb T_FIXED_COL T_FIXED_COL_INF T_SUB_COL T_PARALLEL_COL T_DELETED_ROW T_ADDED_ROW T_ADDED_ROWS
      T_BOUND_CHANGE_THE_ROW T_LHS_CHANGE orb]. rd0 H 0%nat.
    replace (Z.to_nat _) with (length ents) by (rewrite app_length, icols_len; cbn; lia).
    erewrite (at_row ents G (st + 2)); [| |lia].
    + rd0 H 0%nat. rd0 H 1%nat. rd0 H 1%nat. reflexivity.
    + apply (at_sub G st [Z.of_nat i; Z.of_nat j] (icols ents) [] [Fin side; Fin ratio] (ivals ents) []); auto. rewrite !app_nil_r. exact H.
  - cbn [N.eqb Pos.eqb T_FIXED_COL T_FIXED_COL_INF T_SUB_COL T_PARALLEL_COL T_DELETED_ROW T_ADDED_ROW T_ADDED_ROWS
      T_BOUND_CHANGE_THE_ROW T_LHS_CHANGE T_RHS_CHANGE orb]. rd0 H 0%nat.
    replace (Z.to_nat _) with (length ents) by (rewrite app_length, icols_len; cbn; lia).
    erewrite (at_row ents G (st + 2)); [| |lia].
    + rd0 H 0%nat. rd0 H 1%nat. rd0 H 1%nat. reflexivity.
    + apply (at_sub G st [Z.of_nat i; Z.of_nat j] (icols ents) [] [Fin side; Fin ratio] (ivals ents) []); auto. rewrite !app_nil_r. exact H.
  - cbn [N.eqb Pos.eqb T_FIXED_COL T_FIXED_COL_INF T_SUB_COL T_PARALLEL_COL T_DELETED_ROW T_ADDED_ROW T_ADDED_ROWS
      T_BOUND_CHANGE_THE_ROW T_BOUND_CHANGE_NO_ROW T_LHS_CHANGE T_RHS_CHANGE T_EQ_TO_INEQ orb].
    rd0 H 0%nat. rd0 H 0%nat. reflexivity.
Qed.
Lemma read_bc_one : forall j v o b l G, flext (write_log (BOUND_CHANGE_NO_ROW j v o b :: l)) G ->
  read_bound_change G (Z.of_nat (length l)) = Some (j, v, o, b).
Proof.
  intros j v o b l G X. unfold read_bound_change. rewrite (one_start _ l G X). pose proof (one_at _ l G X) as H.
  unfold bidx, bvals in H; cbn [block fst snd] in H.
  rd0 H 0%nat. rd0 H 0%nat. erewrite (at_rd_v _ _ _ _ 1 _ _ H); [|reflexivity|lia]. erewrite (at_rd_i _ _ _ _ 1 _ _ H); [|reflexivity|lia].
  destruct b; reflexivity.
Qed.

(** ** The whole log *)
Lemma ext_write : forall r l G, flext (write_log (r :: l)) G -> flext (write_log l) G.
Proof. intros r l G X. cbn in X. eapply flext_save; eauto. Qed.
Definition grp_left (g : option (nat * row * nat)) : nat := match g with Some (_, _, n) => n | None => O end.
Definition grp_ok (g : option (nat * row * nat)) : Prop := match g with Some (_, _, O) => False | _ => True end.
Lemma replay_same : forall l G g s, flext (write_log l) G -> grp_ok g -> grouped (grp_left g) l ->
  replay_flat G g (length l) s = Some (replay g l s).
Proof.
  induction l as [|r l IH]; intros G g s X OK GR.
  - cbn in *. destruct g as [[[a b] [|n]]|]; auto; [destruct OK|discriminate].
  - pose proof (ext_write _ _ _ X) as X'. cbn [length replay_flat replay].
    destruct g as [[[row ents] [|n]]|]; [destruct OK| |].
    + rewrite (one_type r l G X). destruct r; cbn [grouped grp_left] in GR; try (destruct GR; fail).
      * change (btype _) with T_FIXED_COL. cbn [N.eqb T_FIXED_COL]. rewrite (read_one _ l G X). rewrite IH; auto.
      * change (btype _) with T_BOUND_CHANGE_NO_ROW. cbn [N.eqb T_FIXED_COL T_BOUND_CHANGE_NO_ROW].
        rewrite (read_bc_one _ _ _ _ l G X). apply IH; auto; destruct n; auto; exact I.
    + rewrite (read_one r l G X). destruct r; try (apply IH; auto; fail).
      destruct n as [|n]; cbn [retrieve_one]; apply IH; auto; exact I.
Qed.
Lemma read_all : forall l n r, nth_error (rev l) n = Some r -> read_record (write_log l) (Z.of_nat n) = Some r.
Proof.
  intros l n r N. assert (forall G, flext (write_log l) G -> read_record G (Z.of_nat n) = Some r).
  { revert N. induction l as [|r' l IH]; intros N G X; [destruct n; discriminate|]. cbn [rev] in N.
    destruct (Nat.lt_ge_cases n (length (rev l))) as [L|L].
    - rewrite nth_error_app1 in N by auto. apply IH; auto. eapply ext_write; eauto.
    - rewrite nth_error_app2 in N by auto. destruct (n - length (rev l))%nat as [|k] eqn:E; [|destruct k; discriminate].
      injection N as ->. rewrite rev_length in *. replace n with (length l) by lia. apply read_one; auto. }
  apply H. apply flext_refl.
Qed.
Lemma run_same : forall l n m cm rm x y z old, grouped 0 l ->
  postsolver_run (write_log l) n m cm rm x y z old = Some (replay None l (place n m cm rm x y z old)).
Proof.
  intros. unfold postsolver_run. destruct (write_sizes l) as [-> _]. apply replay_same; auto; [apply flext_refl|exact I].
Qed.

(** ** Placing the reduced solution *)
Lemma fold_upd : forall (f : nat -> option Q) l b i, fold_left (fun b i => upd b i (f i)) l b i = if in_dec Nat.eq_dec i l then f i else b i.
Proof.
  induction l as [|j l IH]; intros b i; cbn [fold_left]; [destruct (in_dec Nat.eq_dec i []) as [H|]; auto; destruct H|].
  rewrite IH. destruct (in_dec Nat.eq_dec i l), (in_dec Nat.eq_dec i (j :: l)); auto.
  - exfalso. apply n. right; auto.
  - destruct i0 as [->|]; [|contradiction]. apply upd_same.
  - apply upd_other. intros ->. apply n0. left; auto.
Qed.
Lemma placed_place : forall n m cm rm x y z old, let s := place n m cm rm x y z old in
  placed n cm x (sx s) /\ placed m rm y (sy s) /\ placed n cm z (sz s) /\ s_err s = false.
Proof.
  intros. unfold s, place. cbn [sx sy sz s_err].
  repeat split; intros i Hi;
    match goal with |- fold_left (fun b i => upd b i (@?f i)) ?l ?bb ?ii = _ => rewrite (fold_upd f l bb ii) end;
    (destruct (in_dec _ _ _) as [|N]; [auto|exfalso; apply N; apply in_seq; lia]).
Qed.
Lemma place_same : forall n m cm rm x y z a b, same_sol n m (place n m cm rm x y z a) (place n m cm rm x y z b).
Proof.
  intros. destruct (placed_place n m cm rm x y z a) as (A1&A2&A3&A4). destruct (placed_place n m cm rm x y z b) as (B1&B2&B3&B4).
  repeat split; intros; try congruence; [rewrite (A1 _ H), (B1 _ H)|rewrite (A3 _ H), (B3 _ H)|rewrite (A2 _ H), (B2 _ H)]; auto.
Qed.

(** ** Replaying depends on the entries of the problem only *)
Section Cong.
Variables (n m : nat).
Notation same := (same_sol n m).
Lemma same_known : forall (f g : nat -> option Q) N r, (forall k, (k < N)%nat -> f k = g k) -> below N r -> all_known f r = all_known g r /\ wsum f r = wsum g r.
Proof.
  intros f g N r E. induction r as [|[k a] r IH]; intros B; [auto|].
  destruct IH as [I1 I2]; [intros j c H; eapply B; right; eauto|].
  unfold all_known in *. cbn [forallb wsum fst]. rewrite (E k) by (eapply B; left; eauto). rewrite I1, I2. auto.
Qed.
Lemma below_others : forall N k r, below N r -> below N (others k r).
Proof. intros N k r B j a H. apply filter_In in H. eapply B; apply H. Qed.
Lemma same_err : forall a b e e', same a b -> e = e' -> same (err_if e a) (err_if e' b).
Proof. intros a b e e' [A [B C]] ->. split; [|split]; cbn; auto. congruence. Qed.
Lemma same_px : forall a b k u v, same a b -> u = v -> same (put_x k u a) (put_x k v b).
Proof. intros a b k u v [A [B C]] ->. split; [|split]; cbn; auto. intros j Hj. destruct (A j Hj). unfold upd. destruct (Nat.eqb _ _); auto. Qed.
Lemma same_pz : forall a b k u v, same a b -> u = v -> same (put_z k u a) (put_z k v b).
Proof. intros a b k u v [A [B C]] ->. split; [|split]; cbn; auto. intros j Hj. destruct (A j Hj). unfold upd. destruct (Nat.eqb _ _); auto. Qed.
Lemma same_py : forall a b k u v, same a b -> u = v -> same (put_y k u a) (put_y k v b).
Proof. intros a b k u v [A [B C]] ->. split; [|split]; cbn; auto. intros j Hj. unfold upd. destruct (Nat.eqb _ _); auto. Qed.
Lemma same_x : forall a b k, same a b -> (k < n)%nat -> sx a k = sx b k. Proof. intros a b k [A _] H. apply A; auto. Qed.
Lemma same_z : forall a b k, same a b -> (k < n)%nat -> sz a k = sz b k. Proof. intros a b k [A _] H. apply A; auto. Qed.
Lemma same_y : forall a b k, same a b -> (k < m)%nat -> sy a k = sy b k. Proof. intros a b k [_ [A _]] H. apply A; auto. Qed.
Lemma same_rx : forall a b r, same a b -> below n r -> all_known (sx a) r = all_known (sx b) r /\ wsum (sx a) r = wsum (sx b) r.
Proof. intros a b r S. apply same_known. intros. eapply same_x; eauto. Qed.
Lemma same_ry : forall a b r, same a b -> below m r -> all_known (sy a) r = all_known (sy b) r /\ wsum (sy a) r = wsum (sy b) r.
Proof. intros a b r S. apply same_known. intros. eapply same_y; eauto. Qed.

Lemma same_bc : forall a b i j r v o low, same a b -> (i < m)%nat -> (j < n)%nat -> below n r ->
  same (retrieve_bound_change i j r v o low a) (retrieve_bound_change i j r v o low b).
Proof.
  intros a b i j r v o low S Hi Hj B. unfold retrieve_bound_change.
  rewrite (same_x a b j S Hj), (same_z a b j S Hj), (same_y a b i S Hi).
  set (e := negb _ || _ || _). assert (S0 : same (err_if e a) (err_if e b)) by (apply same_err; auto).
  destruct (_ && _); auto. destruct (negb (IS_EQUAL_FEAS_TOL _ _)); auto.
  apply same_pz; auto.
  assert (L : forall r' a b, same a b -> below n r' -> same
     (fold_left (fun s e => let k := fst e in if Nat.eqb k j then s else if negb (known (sz s k)) then s
        else put_z k (M_Post.val (sz s k) - snd e / first_of j 1 r * M_Post.val (sz b j)) s) r' a)
     (fold_left (fun s e => let k := fst e in if Nat.eqb k j then s else if negb (known (sz s k)) then s
        else put_z k (M_Post.val (sz s k) - snd e / first_of j 1 r * M_Post.val (sz b j)) s) r' b) -> True) by auto.
  clear L. generalize (M_Post.val (sz b j)). intros zj.
  assert (S1 : same (put_y i (M_Post.val (sy (err_if e a) i) + zj / first_of j 1 r) (err_if e a))
                    (put_y i (M_Post.val (sy (err_if e b) i) + zj / first_of j 1 r) (err_if e b))).
  { apply same_py; auto. cbn. rewrite (same_y a b i S Hi). auto. }
  generalize dependent (put_y i (M_Post.val (sy (err_if e a) i) + zj / first_of j 1 r)%Q (err_if e a)).
  generalize (put_y i (M_Post.val (sy (err_if e b) i) + zj / first_of j 1 r)%Q (err_if e b)).
  generalize (first_of j 1 r). intros q t0 t1 S1. clear S0 S a b e.
  revert t0 t1 S1. induction r as [|[k c] r IH]; intros t0 t1 S1; cbn [fold_left fst snd]; auto.
  apply IH; [intros k' c' H; eapply B; right; eauto|].
  destruct (Nat.eqb k j); auto. rewrite (same_z t1 t0 k S1) by (eapply B; left; eauto).
  destruct (negb _); auto. apply same_pz; auto.
Qed.
Lemma same_one : forall r a b, in_range n m r -> same a b -> same (retrieve_one r a) (retrieve_one r b).
Proof.
  intros r a b R S. destruct r; cbn [in_range retrieve_one] in *; auto.
  - destruct R as [R1 R2]. unfold retrieve_fix_col. destruct (same_ry a b colview S R2) as [-> ->].
    apply same_pz; auto. apply same_px; auto. apply same_err; auto.
  - destruct R as [R1 R2]. unfold retrieve_fix_col_inf.
    assert (E : forall rs st, (forall e, In e rs -> below n (snd e)) -> fold_left (inf_row pos col a) rs st = fold_left (inf_row pos col b) rs st).
    { induction rs as [|[sd w] rs IH]; intros st B; cbn [fold_left]; auto.
      assert (W : inf_row pos col a st (sd, w) = inf_row pos col b st (sd, w)).
      { destruct st as [[e0 c0] er]. unfold inf_row.
        destruct (same_rx a b (others col w) S) as [_ ->]; [apply below_others; apply (B (sd, w)); left; auto|auto]. }
      rewrite W. apply IH. intros e He. apply B. right; auto. }
    rewrite (E rows (bound, 0%Q, false) R2). destruct (fold_left _ _ _) as [[e0 c0] er].
    apply same_pz; auto. apply same_px; auto. apply same_err; auto.
  - destruct R as [R1 [R2 R3]]. unfold retrieve_sub_col.
    destruct (same_rx a b (others col ents) S) as [-> ->]; [apply below_others; auto|]. rewrite (same_y a b i S R3).
    apply same_px; auto. apply same_pz; auto. apply same_err; auto.
  - destruct R as [R1 R2]. unfold retrieve_parallel_col. rewrite (same_x a b j S R1), (same_z a b j S R1).
    match goal with |- context [let '(xj, xk) := ?t in _] => destruct t as [xj xk] end.
    apply same_pz; auto. apply same_px; auto. apply same_px; auto. apply same_err; auto.
  - apply same_py; auto.
  - destruct R as [R1 R2]. unfold retrieve_added_row. rewrite (same_y a b i S R1), (same_y a b j S R2).
    apply same_py; auto. apply same_err; auto.
  - destruct R as [R1 R2]. unfold retrieve_added_rows.
    assert (S0 : same (err_if (negb (known (sy a i))) a) (err_if (negb (known (sy b i))) b)) by (apply same_err; auto; rewrite (same_y a b i S R1); auto).
    generalize dependent (err_if (negb (known (sy a i))) a). generalize (err_if (negb (known (sy b i))) b).
    intros t0 t1 S0. clear S a b. revert t0 t1 S0. induction ents as [|[k c] r IH]; intros t0 t1 S1; cbn [fold_left fst snd]; auto.
    apply IH; [intros k' c' H; eapply R2; right; eauto|].
    destruct (Nat.eqb k i); auto. rewrite (same_y t1 t0 k S1) by (eapply R2; left; eauto). rewrite (same_y t1 t0 i S1 R1).
    apply same_py; auto. apply same_err; auto.
  - destruct R as [R1 [R2 R3]]. unfold retrieve_side_change. destruct (same_rx a b ents S R3) as [-> ->]. rewrite (same_y a b i S R1).
    set (e := negb _ || _). assert (S0 : same (err_if e a) (err_if e b)) by (apply same_err; auto).
    destruct (negb (IS_ZERO_FEAS_TOL _)); auto. destruct (Qltb _ 0); [apply same_py; auto|]. apply same_py; auto. apply same_py; auto.
  - destruct R as [R1 [R2 R3]]. unfold retrieve_side_change. destruct (same_rx a b ents S R3) as [-> ->]. rewrite (same_y a b i S R1).
    set (e := negb _ || _). assert (S0 : same (err_if e a) (err_if e b)) by (apply same_err; auto).
    destruct (negb (IS_ZERO_FEAS_TOL _)); auto. destruct (Qgtb _ 0); [apply same_py; auto|]. apply same_py; auto. apply same_py; auto.
  - unfold retrieve_eq_to_ineq. rewrite (same_y a b i S R). apply same_py; auto. apply same_err; auto.
Qed.
Definition grp_rng (g : option (nat * row * nat)) : Prop := match g with Some (i, r, _) => (i < m)%nat /\ below n r | None => True end.
Lemma same_replay : forall l g a b, Forall (in_range n m) l -> grp_rng g -> same a b -> same (replay g l a) (replay g l b).
Proof.
  induction l as [|r l IH]; intros g a b F Gr S; cbn [replay].
  - destruct g; auto. apply same_err; auto.
  - inversion F as [|? ? F1 F2]; subst. pose proof (same_one r a b F1 S) as S1. destruct g as [[[i ents] k]|].
    + destruct r; try (apply IH; auto; [exact I|apply same_err; auto]; fail); try (apply IH; auto; fail).
      apply IH; auto; [destruct k as [|[|k]]; exact I || exact Gr|]. apply same_bc; auto; apply Gr.
    + destruct r; try (apply IH; auto; fail). apply IH; auto. destruct n0; [exact I|exact F1].
Qed.
End Cong.

(** ** Repeated calls *)
Definition set_sol (s : solution) (h : handle) : handle := mkHandle (h_log h) (h_cols h) (h_rows h) (h_cmap h) (h_rmap h) s.
Lemma api_once : forall l h x y z, h_log h = write_log l -> grouped 0 l ->
  api_postsolve x y z h = Some (set_sol (replay None l (place (h_cols h) (h_rows h) (h_cmap h) (h_rmap h) x y z (h_sol h))) h).
Proof. intros l h x y z E G. unfold api_postsolve. rewrite E, run_same by auto. unfold set_sol. rewrite E. reflexivity. Qed.
Lemma repeat_calls : forall l h cs x y z, h_log h = write_log l -> grouped 0 l -> Forall (in_range (h_cols h) (h_rows h)) l ->
  exists h1 h2, calls (cs ++ [(x, y, z)]) h = Some h1 /\ api_postsolve x y z h = Some h2 /\
    same_sol (h_cols h) (h_rows h) (h_sol h1) (h_sol h2) /\ h_log h1 = h_log h /\ h_cmap h1 = h_cmap h /\ h_rmap h1 = h_rmap h.
Proof.
  intros l h cs x y z E G R.
  assert (L : forall cs s, exists s', calls cs (set_sol s h) = Some (set_sol s' h)).
  { induction cs0 as [|[[a b] c] cs0 IH]; intros s; cbn [calls]; [eexists; eauto|].
    rewrite (api_once l (set_sol s h)) by auto. cbn. apply IH. }
  assert (A : forall cs s, calls (cs ++ [(x, y, z)]) s = match calls cs s with Some h => calls [(x, y, z)] h | None => None end).
  { induction cs0 as [|[[a b] c] cs0 IH]; intros s; cbn [calls app]; auto. destruct (api_postsolve a b c s); auto. }
  destruct (L cs (h_sol h)) as [s' C]. assert (SH : set_sol (h_sol h) h = h) by (destruct h; reflexivity). rewrite SH in C.
  eexists; eexists. split; [rewrite A, C; cbn [calls]; rewrite (api_once l (set_sol s' h)) by auto; reflexivity|].
  split; [rewrite (api_once l h) by auto; reflexivity|]. split; [|cbn; auto].
  cbn. apply same_replay; auto; [exact I|]. apply place_same.
Qed.
