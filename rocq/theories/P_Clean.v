(* C09, C10: the arrays handed to the user and the index maps kept for postsolve. *)
From Coq Require Import QArith.
From Verif Require Import M_Mem M_Num S_Csr M_Csr S_Mat S_Row S_OneRow S_Clean M_Clean L_Row L_Clean L_Clean2.
Local Open Scope Z_scope.

(* From any state with consistent copies (no bound on its size, whatever is in uninitialised
   memory), cleaning and populating never leaves an array, and gives a gap-free CSR matrix
   whose rows are the surviving rows, in order, with renumbered columns; all per-row and
   per-column arrays list the surviving values in order. *)
Theorem C09_reduced_csr :
  forall (jx : Z -> Q) (jb : Z -> ext) (ji : Z -> Z) (P : carrays), clean_pre P -> 0 <= mn (ca_A P) ->
  let rk := active (ca_rsz P) in let ck := active (ca_csz P) in
  let m := mm (ca_A P) in let n := mn (ca_A P) in
  exists P' pp, problem_clean jx ji P = Some P' /\ populate jb ji P' = Some pp
   /\ pp_m pp = new_index rk m /\ pp_n pp = new_index ck n /\ pp_nnz pp = total (ca_A P) rk
   /\ (alen (pp_Ap pp) = pp_m pp + 1 /\ adat (pp_Ap pp) 0 = 0 /\ adat (pp_Ap pp) (pp_m pp) = pp_nnz pp
        /\ (forall r, 0 <= r < pp_m pp -> adat (pp_Ap pp) r <= adat (pp_Ap pp) (r + 1))
        /\ pp_nnz pp <= alen (pp_Ax pp) /\ pp_nnz pp <= alen (pp_Ai pp)
        /\ (forall k, 0 <= k < pp_nnz pp -> 0 <= adat (pp_Ai pp) k < pp_n pp))
   /\ (forall r, 0 <= r < m -> rk r = true ->
        input_row (pp_Ax pp) (pp_Ai pp) (pp_Ap pp) (new_index rk r) = rename (new_index ck) (row_entries (ca_A P) r))
   /\ slice (pp_lhs pp) 0 (pp_m pp) = map (adat (ca_lhs P)) (survivors rk m)
   /\ slice (pp_rhs pp) 0 (pp_m pp) = map (adat (ca_rhs P)) (survivors rk m)
   /\ slice (pp_lbs pp) 0 (pp_n pp) = map (adat (ca_lb P)) (survivors ck n)
   /\ slice (pp_ubs pp) 0 (pp_n pp) = map (adat (ca_ub P)) (survivors ck n)
   /\ slice (pp_c pp) 0 (pp_n pp) = map (adat (ca_c P)) (survivors ck n)
   /\ exact_map rk m (adat (ca_rmap P')) /\ exact_map ck n (adat (ca_cmap P')).
Proof. exact clean_all. Qed.
Print Assumptions C09_reduced_csr.

(* The index maps kept for postsolve: removed rows and columns go to -1, survivors keep their order,
   and the new indices are exactly those of the reduced problem. *)
Theorem C10_index_maps :
  forall (jx : Z -> Q) (ji : Z -> Z) (P : carrays), clean_pre P -> 0 <= mn (ca_A P) ->
  exists P', problem_clean jx ji P = Some P' /\
    renumbers (active (ca_rsz P)) (mm (ca_A P)) (mm (ca_A P')) (adat (ca_rmap P')) /\
    renumbers (active (ca_csz P)) (mn (ca_A P)) (mn (ca_A P')) (adat (ca_cmap P')).
Proof. exact clean_maps. Qed.
Print Assumptions C10_index_maps.

(* every array is compacted by that map, for any element type *)
Theorem C10_arrays_compacted :
  forall (T : Type) (ptr : arr T) (mp : arr Z) (keep : Z -> bool) (n : Z),
  0 <= n <= alen ptr -> n <= alen mp -> exact_map keep n (adat mp) ->
  exists p, ptr_shrink ptr mp n = Some p /\ alen p = alen ptr /\
    slice p 0 (new_index keep n) = map (adat ptr) (survivors keep n).
Proof. exact @ptr_shrink_ok. Qed.
Print Assumptions C10_arrays_compacted.

(* index lists keep their surviving members, renamed, in order *)
Theorem C10_lists_compacted :
  forall (data : arr Z) (n : Z) (mp : arr Z),
  0 <= n <= alen data -> (forall k, 0 <= k < n -> 0 <= adat data k < alen mp) ->
  exists d' c, shrink_idx_vector data n mp = Some (d', c) /\ 0 <= c <= n /\ alen d' = alen data /\
    slice d' 0 c = map (adat mp) (filter (fun a => negb (adat mp a =? -1)) (slice data 0 n)).
Proof. exact shrink_idx_vector_ok. Qed.
Print Assumptions C10_lists_compacted.

(* C11, array part: in-place compaction of one row or column keeps exactly the live entries *)
Theorem C11_compaction :
  forall (M : matrix) (r : Z) (sizes : arr Z), wf_mat M -> 0 <= r < mm M ->
  (forall e, In e (row_entries M r) -> 0 <= fst e < alen sizes) ->
  exists B sh, compact_row M r sizes = Some (B, sh)
    /\ one_row M B r (filter (fun e => active sizes (fst e)) (row_entries M r))
    /\ mnnz B = mnnz M
    /\ sh = Z.of_nat (length (row_entries M r)) - Z.of_nat (length (row_entries B r)).
Proof. exact compact_row_ok. Qed.
Print Assumptions C11_compaction.

(* non-vacuity: 3 rows, 3 columns with gaps; row 1 and column 0 are gone *)
Definition li (l : list Z) : arr Z := mkarr (Z.of_nat (length l)) (fun k => nth (Z.to_nat k) l 77).
Definition lq (l : list Q) : arr Q := mkarr (Z.of_nat (length l)) (fun k => nth (Z.to_nat k) l 77%Q).
Definition le_ (l : list Q) : arr ext := mkarr (Z.of_nat (length l)) (fun k => Fin (nth (Z.to_nat k) l 77%Q)).
Definition exP : carrays := mkca
  (mkmat 3 3 3 8 (li [1;2;0;9;9;9;1;9]) (lq [1;2;3;9;9;9;4;9]%Q) (li [0;2;6;8]) (li [2;2;7;8]))
  (mkmat 3 3 3 8 (li [9;9;0;2;9;0;9;9]) (lq [9;9;1;4;9;2;9;9]%Q) (li [0;2;5;8]) (li [0;4;6;8]))
  (li [2;-1;1]) (li [-1;2;1]) (le_ [10;20;30]%Q) (le_ [11;21;31]%Q) (le_ [1;2;3]%Q) (le_ [4;5;6]%Q)
  (lq [7;8;9]%Q) (li [0;0;0]) (li [0;0;0]).
Example C09_example :
  match problem_clean (fun _ => 0%Q) (fun _ => 0) exP with
  | Some P' => match populate (fun _ => PInf) (fun _ => 0) P' with
    | Some pp => (pp_m pp, pp_n pp, slice (pp_Ap pp) 0 3, slice (pp_Ai pp) 0 3, slice (pp_Ax pp) 0 3, slice (pp_c pp) 0 2)
        = (2, 2, [0;2;3], [0;1;0], [1;2;4]%Q, [8;9]%Q)
    | None => False end
  | None => False end.
Proof. vm_compute. reflexivity. Qed.
Example C09_hypotheses_met : clean_pre exP.
Proof.
  assert (T : forall r, 0 <= r < 3 -> r = 0 \/ r = 1 \/ r = 2) by (intros; Lia.lia).
  split; try reflexivity.
  - split; cbn; try reflexivity; try discriminate.
    intros r Hr. destruct (T r Hr) as [-> | [-> | ->]]; cbn; split; discriminate.
  - split; cbn; try reflexivity; try discriminate.
    intros r Hr. destruct (T r Hr) as [-> | [-> | ->]]; cbn; split; discriminate.
  - intros r e Hr. cbn in Hr. destruct (T r Hr) as [-> | [-> | ->]]; vm_compute; intros A H;
    repeat (destruct H as [<- | H]); try destruct H; try discriminate A; cbn; repeat split; discriminate.
  - intros r e Hr. cbn in Hr. destruct (T r Hr) as [-> | [-> | ->]]; vm_compute; intros A H;
    repeat (destruct H as [<- | H]); try destruct H; try discriminate A; cbn; repeat split; discriminate.
Qed.
