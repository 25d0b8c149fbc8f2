(** C29: the search for parallel rows (and, on the transpose, columns), on arrays. *)
From Coq Require Import QArith Permutation Lia.
From Verif Require Import M_Mem S_Csr M_Num S_LP M_Csr M_ParSearch S_Par L_ParSearch L_ParSearch2.
From Verif Require M_Parallel.
Local Open Scope Z_scope.

(** Whatever the two hash functions return, whatever the work arrays held, and whatever permutation the
    sort returns: no access leaves an array, the groups found are disjoint, have at least two rows, all
    of them still there, all with the columns of one row of the group and its coefficients up to one
    factor and FEAS_TOL. *)
Theorem C29_search : forall hs hc IM order A removed rows0 sid0 coh0, searchable A removed ->
  mm A <= alen rows0 -> mm A <= alen sid0 -> mm A <= alen coh0 ->
  (forall f g, Permutation (order f g) (zrange 0 (mm A))) ->
  exists rows starts, find_parallel_rows hs hc IM order A removed rows0 sid0 coh0 = Some (rows, starts) /\
    hd 1 starts = 0 /\ last starts 0 <= mm A /\
    NoDup (concat (groups rows starts)) /\
    (forall g, In g (groups rows starts) -> (2 <= length g)%nat /\
       exists r, In r g /\ forall i, In i g -> 0 <= i < mm A /\ removed i = false /\ parallel_within FEAS_TOL A r i).
Proof. exact search_safe. Qed.
Print Assumptions C29_search.

(** What qsort is given is an order: reflexive, antisymmetric, transitive; equal exactly on equal hashes. *)
Theorem C29_comparator : forall sid coh a b c,
  comparator sid coh a a = 0 /\
  comparator sid coh b a = - comparator sid coh a b /\
  (comparator sid coh a b <= 0 -> comparator sid coh b c <= 0 -> comparator sid coh a c <= 0) /\
  (comparator sid coh a b = 0 <-> sid a = sid b /\ coh a = coh b).
Proof. exact comparator_order. Qed.
Print Assumptions C29_comparator.

(** With the code's hash functions and a stable sort, the groups are those of the row-level model the
    reductions use (M_Parallel.v). *)
Theorem C29_refines : forall A M inact m rows0 sid0 coh0, mm A = Z.of_nat m ->
  searchable A (fun i => inact (Z.to_nat i)) ->
  (forall i, (i < m)%nat -> row_ix A (Z.of_nat i) = map Z.of_nat (map fst (M i)) /\
     slice (mx A) (adat (ps A) (Z.of_nat i)) (adat (pe A) (Z.of_nat i)) = map snd (M i)) ->
  mm A <= alen rows0 -> mm A <= alen sid0 -> mm A <= alen coh0 ->
  (forall i, (i < m)%nat -> inact i = true -> adat coh0 (Z.of_nat i) = 0) ->
  exists rows starts, find_parallel_rows
      (fun l => M_Parallel.to_int (M_Parallel.hash_int_array (map Z.to_nat l)))
      (fun l => M_Parallel.to_int (M_Parallel.hash_double_array_with_scale l)) M_Parallel.INT_MAX
      (fun _ _ => map Z.of_nat (M_Parallel.sort_rows M inact (seq 0 m)))
      A (fun i => inact (Z.to_nat i)) rows0 sid0 coh0 = Some (rows, starts) /\
    groups rows starts = map (map Z.of_nat) (M_Parallel.groups_of M (M_Parallel.hash_bins M inact m)).
Proof. exact search_refines. Qed.
Print Assumptions C29_refines.

(** Five rows on two columns, with gaps: (1 2), (2 4), removed, (1 3), (-3 -6); one hash value for all,
    and a sort that puts the row parallel to no other second. *)
Definition e_list {V} (l : list V) (d : V) : arr V := mkarr (Z.of_nat (length l)) (fun k => nth (Z.to_nat k) l d).
Definition e_A : matrix := mkmat 5 2 8 10
  (e_list [0; 1; 0; 1; 7; 7; 0; 1; 0; 1] 0) (e_list [1; 2; 2; 4; 9; 9; 1; 3; -(3); -(6)]%Q 0%Q)
  (e_list [0; 2; 4; 6; 8] 0) (e_list [2; 4; 4; 8; 10] 0).
Definition e_removed (i : Z) : bool := i =? 2.
Definition e_order (_ _ : Z -> Z) : list Z := [0; 3; 1; 4; 2].
Definition e_work : arr Z := mkarr 5 (fun k => 100 + k).
Example e_searchable : searchable e_A e_removed.
Proof.
  assert (S : forall (P : Z -> Prop), P 0 -> P 1 -> P 2 -> P 3 -> P 4 -> forall i, 0 <= i < 5 -> P i).
  { intros P P0 P1 P2 P3 P4 i Hi. assert (E : i = 0 \/ i = 1 \/ i = 2 \/ i = 3 \/ i = 4) by lia.
    destruct E as [E|[E|[E|[E|E]]]]; subst i; auto. }
  assert (S2 : forall (P : Z -> Prop), P 0 -> P 1 -> forall i, 0 <= i < 2 -> P i).
  { intros P P0 P1 i Hi. assert (E : i = 0 \/ i = 1) by lia. destruct E as [E|E]; subst i; auto. }
  constructor; try (vm_compute; discriminate).
  - apply (S (fun i => 0 <= adat (ps e_A) i <= adat (pe e_A) i /\ adat (pe e_A) i <= alen (mi e_A) /\ adat (pe e_A) i <= alen (mx e_A)));
      (split; [split|split]); vm_compute; discriminate.
  - apply (S (fun i => e_removed i = false -> 0 < row_len e_A i /\ forall j, 0 <= j < row_len e_A i -> ~ (row_val e_A i j == 0)%Q));
      intros R; try discriminate R; (split; [vm_compute; reflexivity|]);
      (apply (S2 (fun j => ~ (row_val e_A _ j == 0)%Q)); vm_compute; discriminate).
  - apply (S (fun i => e_removed i = true -> row_len e_A i = 0)); intros R; try discriminate R; reflexivity.
Qed.
Example e_perm : forall f g, Permutation (e_order f g) (zrange 0 (mm e_A)).
Proof.
  intros f g. change (zrange 0 (mm e_A)) with [0; 1; 2; 3; 4]. unfold e_order. apply perm_skip.
  apply (Permutation_trans (l' := [1; 3; 4; 2])); [constructor|]. apply perm_skip.
  apply (Permutation_trans (l' := [3; 2; 4])); [apply perm_skip; constructor|constructor].
Qed.
Example e_found : exists rows starts,
  find_parallel_rows (fun _ => 5) (fun _ => 6) 2147483647 e_order e_A e_removed e_work e_work e_work = Some (rows, starts) /\
  starts = [0; 3] /\ groups rows starts = [[1; 4; 0]].
Proof. eexists. eexists. split; [vm_compute; reflexivity|]. split; vm_compute; reflexivity. Qed.
