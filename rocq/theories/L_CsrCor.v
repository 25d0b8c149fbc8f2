(* Corollaries used by P_Csr.v: element-wise reading of the transpose. *)
From Coq Require Import ZArith QArith List Bool Lia.
From Verif Require Import M_Mem L_Mem S_Csr L_Vec M_Csr S_Mat L_Csr L_Shift S_Row L_Row M_Num.
Import ListNotations.
Local Open Scope Z_scope.

Lemma in_column m rows c i v : In (i, v) (column m rows c) <-> 0 <= i < m /\ In (c, v) (rows i).
Proof.
  unfold column. rewrite in_flat_map. split.
  - intros (r & Hr & H). apply in_zrange in Hr. apply in_map_iff in H. destruct H as ([c' v'] & E & H).
    apply filter_In in H. destruct H as (H & E2). cbn [fst snd] in *. apply Z.eqb_eq in E2.
    inversion E; subst. auto.
  - intros (Hi & H). exists i. split; [apply in_zrange; lia|]. apply in_map_iff. exists (c, v). split; auto.
    apply filter_In. split; auto. cbn. apply Z.eqb_refl.
Qed.

Lemma filter_col_short (l : list (Z * Q)) c : NoDup (map fst l) ->
  (length (filter (fun e => (fst e =? c)%Z) l) <= 1)%nat.
Proof.
  induction l as [|e l IH]; cbn [filter map length]; intros N; [lia|]. inversion N; subst.
  destruct (fst e =? c) eqn:E; [|auto]. apply Z.eqb_eq in E.
  assert (filter (fun e => fst e =? c) l = nil) as ->; [|cbn; lia].
  destruct (filter (fun e => fst e =? c) l) eqn:F; auto. exfalso.
  assert (In p (filter (fun e => fst e =? c) l)) as I by (rewrite F; left; auto).
  apply filter_In in I. destruct I as (I & EE). apply Z.eqb_eq in EE. apply H1.
  rewrite E, <- EE. now apply in_map.
Qed.

Lemma column_sorted rows c : forall k lo, 
  (forall r, NoDup (map fst (rows r))) -> 
  sorted (flat_map (fun r => map (fun e => (r, snd e)) (filter (fun e => fst e =? c) (rows r))) (zseq lo k)).
Proof.
  induction k; intros lo N; cbn [zseq flat_map]; [exact I|].
  apply sorted_app. split; [|split; [apply IHk; auto|]].
  - pose proof (filter_col_short (rows lo) c (N lo)).
    destruct (filter (fun e => fst e =? c) (rows lo)) as [|a [|b t]]; cbn in *; auto; try lia.
    split; auto. intros f [].
  - intros e f He Hf. apply in_map_iff in He. destruct He as (x & <- & _). cbn [fst].
    apply in_flat_map in Hf. destruct Hf as (r & Hr & Hf). apply in_zseq in Hr.
    apply in_map_iff in Hf. destruct Hf as (y & <- & _). cbn. lia.
Qed.

Lemma transpose_elem jx ji jp A work :
  wf_mat A -> 0 <= mn A -> cols_ok A -> mnnz A = n_entries A -> alen work >= mn A ->
  (forall r, 0 <= r < mm A -> NoDup (map fst (row_entries A r))) ->
  exists AT, transpose jx ji jp A work = Some AT
    /\ mm AT = mn A /\ mn AT = mm A /\ mnnz AT = mnnz A /\ wf_mat AT
    /\ (forall i j v, 0 <= j < mn A ->
          (In (i, v) (row_entries AT j) <-> 0 <= i < mm A /\ In (j, v) (row_entries A i)))
    /\ (forall j, 0 <= j < mn A -> sorted (row_entries AT j))
    /\ (forall j, 0 <= j < mn A -> 4 <= adat (ps AT) (j + 1) - adat (pe AT) j).
Proof.
  intros W Hn HC HZ HW ND. destruct (transpose_ok jx ji jp A work W Hn HC HZ HW) as (AT & E & E1 & E2 & E3 & WT & R & S).
  exists AT. repeat (split; [assumption|]). split; [|split].
  - intros. rewrite R by auto. apply in_column.
  - intros. rewrite R by auto.
    assert (column (mm A) (row_entries A) j = column (mm A) (fun r => if (0 <=? r) && (r <? mm A) then row_entries A r else nil) j) as ->.
    { unfold column. 
      assert (G : forall l, (forall r, In r l -> 0 <= r < mm A) ->
         flat_map (fun r => map (fun e => (r, snd e)) (filter (fun e => fst e =? j) (row_entries A r))) l =
         flat_map (fun r => map (fun e => (r, snd e)) (filter (fun e => fst e =? j) ((fun r => if (0 <=? r) && (r <? mm A) then row_entries A r else nil) r))) l).
      { induction l; intros G; auto. cbn [flat_map]. rewrite <- IHl by (intros; apply G; right; auto). f_equal.
        specialize (G a (or_introl eq_refl)). cbn beta. rewrite inb by lia. reflexivity. }
      apply G. intros r Hr. apply in_zrange in Hr. lia. }
    apply column_sorted. intros r. destruct ((0 <=? r) && (r <? mm A)) eqn:B; [|constructor].
    zb. apply ND; lia.
  - intros. rewrite S by auto. lia.
Qed.

(* shifting: the gap between consecutive columns, the content and the failure case spelled out *)
Lemma shift_row_spec A row extra max_shift : wf_mat A -> 0 <= row < mm A ->
  exists b B, shift_row A row extra max_shift = Some (b, B) /\ wf_mat B
    /\ mm B = mm A /\ mn B = mn A /\ mnnz B = mnnz A /\ alen (mx B) = alen (mx A)
    /\ (forall r, 0 <= r < mm A -> row_entries B r = row_entries A r)
    /\ (b = true -> extra <= adat (ps B) (row + 1) - adat (pe B) row)
    /\ (b = false -> B = A).
Proof.
  intros W H. destruct (shift_row_ok A row extra max_shift W H) as (b & B & E & WB & (S1 & S2 & S3 & S4 & S5 & S6) & _ & F & T).
  exists b, B. repeat (split; [assumption|]). assumption.
Qed.
