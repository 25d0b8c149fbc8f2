(* Specification of compaction: survivors are renumbered in order. *)
From Coq Require Import QArith.
From Verif Require Import M_Mem M_Num S_Csr M_Csr S_Mat M_Clean.
Local Open Scope Z_scope.

(* the surviving indices below n, in increasing order *)
Definition survivors (keep : Z -> bool) (n : Z) : list Z := filter keep (zrange 0 n).

(* number of survivors strictly below i = the new index of a survivor i *)
Definition new_index (keep : Z -> bool) (i : Z) : Z := Z.of_nat (length (survivors keep i)).

(* the renumbering map: survivors to their new index, removed ones to -1 *)
Definition exact_map (keep : Z -> bool) (n : Z) (map : Z -> Z) : Prop :=
  forall i, 0 <= i < n -> map i = if keep i then new_index keep i else -1.

(* a row or column survives when its size is not the marker -1 *)
Definition active (sizes : arr Z) (i : Z) : bool := negb (adat sizes i =? SIZE_INACTIVE).

(* renumber the indices of a row *)
Definition rename (f : Z -> Z) (l : list (Z * Q)) : list (Z * Q) := map (fun e => (f (fst e), snd e)) l.

(* number of entries in the surviving rows *)
Definition total (A : matrix) (keep : Z -> bool) : Z :=
  zsum (map (fun r => Z.of_nat (length (row_entries A r))) (survivors keep (mm A))).

(* state in which problem_clean is called: both copies are well formed, arrays have the right
   length, surviving rows mention surviving columns only, and nnz counts the surviving entries *)
Record clean_pre (P : carrays) : Prop := {
  cp_A : wf_mat (ca_A P);  cp_AT : wf_mat (ca_AT P);
  cp_mn : mm (ca_AT P) = mn (ca_A P);  cp_nm : mn (ca_AT P) = mm (ca_A P);
  cp_rsz : alen (ca_rsz P) = mm (ca_A P);  cp_csz : alen (ca_csz P) = mn (ca_A P);
  cp_lhs : alen (ca_lhs P) = mm (ca_A P);  cp_rhs : alen (ca_rhs P) = mm (ca_A P);
  cp_lb : alen (ca_lb P) = mn (ca_A P);  cp_ub : alen (ca_ub P) = mn (ca_A P);
  cp_c : alen (ca_c P) = mn (ca_A P);
  cp_cm : alen (ca_cmap P) = mn (ca_A P);  cp_rm : alen (ca_rmap P) = mm (ca_A P);
  cp_cols : forall r e, 0 <= r < mm (ca_A P) -> active (ca_rsz P) r = true -> In e (row_entries (ca_A P) r) ->
      0 <= fst e < mn (ca_A P) /\ active (ca_csz P) (fst e) = true;
  cp_rows : forall c e, 0 <= c < mn (ca_A P) -> active (ca_csz P) c = true -> In e (row_entries (ca_AT P) c) ->
      0 <= fst e < mm (ca_A P);
  cp_nnz : mnnz (ca_A P) = total (ca_A P) (active (ca_rsz P)) }.


(* [mp] renumbers the [n'] survivors below [n]: removed ones go to -1, survivors keep their order and
   every new index is used *)
Definition renumbers (keep : Z -> bool) (n n' : Z) (mp : Z -> Z) : Prop :=
  (forall i, 0 <= i < n -> keep i = false -> mp i = -1) /\
  (forall i, 0 <= i < n -> keep i = true -> 0 <= mp i < n') /\
  (forall i j, 0 <= i < j -> j < n -> keep i = true -> keep j = true -> mp i < mp j) /\
  (forall r, 0 <= r < n' -> exists i, 0 <= i < n /\ keep i = true /\ mp i = r).
