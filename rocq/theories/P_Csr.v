(* C05-C08: the sparse matrix with gaps. *)
From Coq Require Import QArith.
From Verif Require Import M_Mem S_Csr M_Csr S_Mat S_Row S_OneRow M_Num L_Csr L_Shift L_Row L_CsrCor.
Local Open Scope Z_scope.

(* ---- C05: input copy.
   Proved when the caller's Ap has one more cell than documented (m+2 instead of m+1 integers).
   MISSING for the full property: the documented size m+1, for which it is false - next theorem. *)
Theorem C05_input_copy_partial :
  forall (jx : Z -> Q) (ji jp : Z -> Z) (Ax : arr Q) (Ai Ap : arr Z) (m n nnz : Z),
    csr_input Ax Ai Ap m n nnz -> m + 2 <= alen Ap ->
    exists A, matrix_new_no_extra_space jx ji jp Ax Ai Ap m n nnz = Some A
      /\ mm A = m /\ mn A = n /\ mnnz A = nnz /\ wf_mat A
      /\ (forall r, 0 <= r < m -> row_entries A r = input_row Ax Ai Ap r).
Proof. exact matrix_new_no_extra_space_ok. Qed.
Print Assumptions C05_input_copy_partial.

(* With the documented m+1 row pointers every call reads one cell past the end of Ap. *)
Theorem C05_documented_size_refuted :
  forall (jx : Z -> Q) (ji jp : Z -> Z) (Ax : arr Q) (Ai Ap : arr Z) (m n nnz : Z),
    csr_input Ax Ai Ap m n nnz -> alen Ap = m + 1 ->
    matrix_new_no_extra_space jx ji jp Ax Ai Ap m n nnz = None.
Proof. exact matrix_new_no_extra_space_oob. Qed.
Print Assumptions C05_documented_size_refuted.

(* the 2x3 matrix [[1,0,2],[0,3,0]] *)
Definition ex_Ax : arr Q := mkarr 3 (fun k => if k =? 0 then 1 else if k =? 1 then 2 else 3)%Q.
Definition ex_Ai : arr Z := mkarr 3 (fun k => if k =? 0 then 0 else if k =? 1 then 2 else 1).
Definition ex_Ap (l : Z) : arr Z := mkarr l (fun k => if k =? 0 then 0 else if k =? 1 then 2 else 3).
Example C05_example :
  option_map (fun A => (row_entries A 0, row_entries A 1))
    (matrix_new_no_extra_space (fun _ => 9%Q) (fun _ => 9) (fun _ => 9) ex_Ax ex_Ai (ex_Ap 4) 2 3 3)
  = Some ([(0, 1%Q); (2, 2%Q)], [(1, 3%Q)]).
Proof. vm_compute. reflexivity. Qed.
Example C05_hypotheses_met : csr_input ex_Ax ex_Ai (ex_Ap 4) 2 3 3 /\ 2 + 2 <= alen (ex_Ap 4).
Proof.
  split; [|cbn; discriminate]. split; cbn; try reflexivity; try discriminate.
  - intros r Hr. assert (r = 0 \/ r = 1) as [-> | ->] by Lia.lia; cbn; discriminate.
  - intros k Hk. assert (k = 0 \/ k = 1 \/ k = 2) as [-> | [-> | ->]] by Lia.lia; cbn; split; (discriminate || reflexivity).
Qed.

(* ---- C06: transpose.  The NoDup hypothesis says the caller lists no column twice in one row. *)
Theorem C06_transpose :
  forall (jx : Z -> Q) (ji jp : Z -> Z) (A : matrix) (work : arr Z),
    wf_mat A -> 0 <= mn A -> cols_ok A -> mnnz A = n_entries A -> alen work >= mn A ->
    (forall r, 0 <= r < mm A -> NoDup (map fst (row_entries A r))) ->
    exists AT, transpose jx ji jp A work = Some AT
      /\ mm AT = mn A /\ mn AT = mm A /\ mnnz AT = mnnz A /\ wf_mat AT
      /\ (forall i j v, 0 <= j < mn A ->
            (In (i, v) (row_entries AT j) <-> 0 <= i < mm A /\ In (j, v) (row_entries A i)))
      /\ (forall j, 0 <= j < mn A -> sorted (row_entries AT j))
      /\ (forall j, 0 <= j < mn A -> 4 <= adat (ps AT) (j + 1) - adat (pe AT) j).
Proof. exact transpose_elem. Qed.
Print Assumptions C06_transpose.

(* without NoDup: the column lists still are the columns of the row lists, duplicates included *)
Theorem C06_transpose_with_duplicates :
  forall (jx : Z -> Q) (ji jp : Z -> Z) (A : matrix) (work : arr Z),
    wf_mat A -> 0 <= mn A -> cols_ok A -> mnnz A = n_entries A -> alen work >= mn A ->
    exists AT, transpose jx ji jp A work = Some AT
      /\ mm AT = mn A /\ mn AT = mm A /\ mnnz AT = mnnz A /\ wf_mat AT
      /\ (forall c, 0 <= c < mn A -> row_entries AT c = column (mm A) (row_entries A) c)
      /\ (forall c, 0 <= c < mn A -> adat (ps AT) (c + 1) - adat (pe AT) c = Z.of_nat (length (row_entries AT c)) + 4).
Proof. exact transpose_ok. Qed.
Print Assumptions C06_transpose_with_duplicates.

Definition exA : matrix :=
  mkmat 2 3 3 3 ex_Ai ex_Ax (mkarr 3 (adat (ex_Ap 3))) (mkarr 3 (fun k => adat (ex_Ap 3) (k + 1))).
Definition exAT : option matrix := transpose (fun _ => 0%Q) (fun _ => 0) (fun _ => 0) exA (mkarr 3 (fun _ => 5)).
Example C06_example :
  option_map (fun AT => (row_entries AT 0, row_entries AT 1, row_entries AT 2)) exAT
  = Some ([(0, 1%Q)], [(1, 3%Q)], [(0, 2%Q)]).
Proof. vm_compute. reflexivity. Qed.
Lemma exA_wf : wf_mat exA.
Proof.
  split; cbn; try reflexivity; try discriminate.
  intros r Hr. assert (r = 0 \/ r = 1) as [-> | ->] by Lia.lia; cbn; split; discriminate.
Qed.
Example C06_hypotheses_met :
  wf_mat exA /\ 0 <= mn exA /\ cols_ok exA /\ mnnz exA = n_entries exA /\
  (forall r, 0 <= r < mm exA -> NoDup (map fst (row_entries exA r))).
Proof.
  split; [exact exA_wf|]. split; [discriminate|]. split; [|split; [reflexivity|]].
  - intros r e Hr. cbn in Hr. assert (r = 0 \/ r = 1) as [-> | ->] by Lia.lia; vm_compute;
    intros H; repeat (destruct H as [<- | H]); try (destruct H); cbn; split; (discriminate || reflexivity).
  - intros r Hr. cbn in Hr. assert (r = 0 \/ r = 1) as [-> | ->] by Lia.lia; vm_compute;
    repeat constructor; cbn; intuition discriminate.
Qed.

(* ---- C07: making room.  No two rows overlap and everything is inside the allocation: [wf_mat B]. *)
Theorem C07_shift_row :
  forall (A : matrix) (row extra max_shift : Z), wf_mat A -> 0 <= row < mm A ->
    exists b B, shift_row A row extra max_shift = Some (b, B) /\ wf_mat B
      /\ mm B = mm A /\ mn B = mn A /\ mnnz B = mnnz A /\ alen (mx B) = alen (mx A)
      /\ (forall r, 0 <= r < mm A -> row_entries B r = row_entries A r)
      /\ (b = true -> extra <= adat (ps B) (row + 1) - adat (pe B) row)
      /\ (b = false -> B = A).
Proof. exact shift_row_spec. Qed.
Print Assumptions C07_shift_row.

Example C07_example : (* room for 12 in column 1 of the transposed example: both neighbours move *)
  match exAT with
  | None => false
  | Some AT => match shift_row AT 1 12 10 with
    | Some (true, B) => (adat (ps B) 2 - adat (pe B) 1 =? 12) && negb (adat (ps AT) 2 - adat (pe AT) 1 =? 12)
    | _ => false end
  end = true.
Proof. vm_compute. reflexivity. Qed.

(* ---- C08: single coefficients.  [one_row A B r l]: B is well formed, its row r is l, every
   other row and all row starts are those of A. *)
Theorem C08_insert :
  forall (A : matrix) (r j : Z) (v : Q) (sz : Z),
    wf_mat A -> 0 <= r < mm A -> tiny v = false -> sorted (row_entries A r) ->
    (mem j (row_entries A r) \/ adat (pe A) r < adat (ps A) (r + 1)) ->
    exists B, insert_or_update_coeff A r j v sz =
        Some (value_at j (row_entries A r), B,
              sz + (Z.of_nat (length (put j v (row_entries A r))) - Z.of_nat (length (row_entries A r))))
      /\ one_row A B r (put j v (row_entries A r))
      /\ mnnz B = mnnz A + (Z.of_nat (length (put j v (row_entries A r))) - Z.of_nat (length (row_entries A r))).
Proof. exact insert_ok. Qed.
Print Assumptions C08_insert.

Theorem C08_put_is_insertion :
  forall (j : Z) (v : Q) (l : list (Z * Q)), sorted l ->
    sorted (put j v l) /\
    (forall e, In e (put j v l) -> e = (j, v) \/ (In e l /\ fst e <> j)) /\
    (forall e, In e l -> fst e <> j -> In e (put j v l)) /\ In (j, v) (put j v l).
Proof. exact put_sorted. Qed.
Print Assumptions C08_put_is_insertion.

(* a (near) zero value deletes the entry - provided it is there *)
Theorem C08_insert_zero_partial :
  forall (A : matrix) (r j : Z) (v : Q) (sz : Z),
    wf_mat A -> 0 <= r < mm A -> tiny v = true -> sorted (row_entries A r) ->
    mem j (row_entries A r) ->
    exists B, insert_or_update_coeff A r j v sz = Some (0%Q, B, sz - 1)
      /\ one_row A B r (erase j (row_entries A r)) /\ mnnz B = mnnz A - 1.
Proof. exact insert_tiny_ok. Qed.
Print Assumptions C08_insert_zero_partial.

(* if it is not there, another entry disappears: writing 0 at index 1 of row [(0,1);(2,2)] *)
Theorem C08_insert_zero_refuted :
  exists (A : matrix) (r j : Z) (v : Q) (sz : Z) (B : matrix),
    wf_mat A /\ 0 <= r < mm A /\ tiny v = true /\ ~ mem j (row_entries A r) /\
    insert_or_update_coeff A r j v sz = Some (0%Q, B, sz - 1) /\
    row_entries A r = [(0, 1%Q); (2, 2%Q)] /\ row_entries B r = [(0, 1%Q)].
Proof.
  refine (ex_intro _ exA (ex_intro _ 0 (ex_intro _ 1 (ex_intro _ 0%Q (ex_intro _ 2 (ex_intro _ _ _)))))).
  split; [exact exA_wf|]. split; [split; [discriminate|reflexivity]|]. split; [reflexivity|].
  split; [vm_compute; intuition discriminate|]. split; [reflexivity|]. split; reflexivity.
Qed.
Print Assumptions C08_insert_zero_refuted.

(* removal, when the row does not end at the end of the allocation *)
Theorem C08_remove_partial :
  forall (A : matrix) (r j : Z),
    wf_mat A -> 0 <= r < mm A -> sorted (row_entries A r) ->
    mem j (row_entries A r) -> adat (pe A) r < alen (mx A) ->
    exists B, remove_coeff A r j (adat (pe A) r - adat (ps A) r) = Some (B, adat (pe A) r - adat (ps A) r - 1)
      /\ one_row A B r (erase j (row_entries A r)) /\ mnnz B = mnnz A.
Proof. exact remove_coeff_ok. Qed.
Print Assumptions C08_remove_partial.

(* ... otherwise one cell past the end of the allocation is read: always *)
Theorem C08_remove_refuted :
  forall (A : matrix) (r j : Z),
    wf_mat A -> 0 <= r < mm A -> sorted (row_entries A r) ->
    mem j (row_entries A r) -> adat (pe A) r = alen (mx A) ->
    remove_coeff A r j (adat (pe A) r - adat (ps A) r) = None.
Proof. exact remove_coeff_oob. Qed.
Print Assumptions C08_remove_refuted.
Example C08_remove_refuted_example : remove_coeff exA 1 1 1 = None.
Proof. vm_compute. reflexivity. Qed.

(* substituting column k by column j in one row (doubleton equations).
   [dton_row]: k is erased and j gets value a_qj - (aij/aik) a_qk, erased when (near) zero *)
Theorem C08_substitute_partial :
  forall (A : matrix) (q j k : Z) (aij aik : Q) (sz : Z),
    wf_mat A -> 0 <= q < mm A -> j <> k ->
    sorted (row_entries A q) -> mem k (row_entries A q) ->
    let l := row_entries A q in
    let nv := (value_at j l - (aij / aik) * value_at k l)%Q in
    (tiny nv = true -> mem j l) ->
    exists B, update_row_A_dton A q j k aij aik sz =
        Some ((value_at j l, value_at k l, nv), B,
              sz + (Z.of_nat (length (dton_row j k aij aik l)) - Z.of_nat (length l)))
      /\ one_row A B q (dton_row j k aij aik l)
      /\ mnnz B = mnnz A + (Z.of_nat (length (dton_row j k aij aik l)) - Z.of_nat (length l)).
Proof. exact update_row_A_dton_ok. Qed.
Print Assumptions C08_substitute_partial.

Example C08_example :
  match exAT with
  | None => False
  | Some AT => match insert_or_update_coeff AT 0 1 (7#1) 1 with
      | Some (old, B, sz) => old = 0%Q /\ sz = 2 /\ row_entries B 0 = [(0, 1%Q); (1, 7%Q)] /\ row_entries B 2 = [(0, 2%Q)]
      | None => False end end.
Proof. vm_compute. auto. Qed.
