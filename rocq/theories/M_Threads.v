(** The two threads of new_presolver (src/core/Presolver.c:116-144 and 282-299) as programs over a
    shared memory.

    A program is a tree of single reads and writes; [k++] and [+=] are a read followed by a write.
    Every object that either thread touches is an array of its own (they are different allocations);
    memory is sequentially consistent, which the C memory model guarantees for programs without data
    races -- that there are none is part of what is proved.  Allocation inside the threads succeeds
    (C13 is about failure); the pointers the second thread leaves in parallel_data are read after the
    join and are left out; the sizes A->m, A->n are constants; an array entry that the code re-reads
    without anyone having written it in between (row ends in loop conditions, tags) is read once. *)
From Coq Require Import NArith.
From Verif Require Import M_Num S_LP.
From Verif Require M_Csr.
Open Scope Z_scope.

Inductive loc :=
| Lhs (i : Z) | Rhs (i : Z)                      (* lhs_copy, rhs_copy *)
| RTag (i : Z) | CTag (k : Z)                    (* row_tags, col_tags *)
| InLb (k : Z) | InUb (k : Z)                    (* lbs, ubs: the caller's arrays *)
| BLb (k : Z) | BUb (k : Z)                      (* bounds[k].lb, bounds[k].ub *)
| A_i (j : Z) | A_x (j : Z) | A_start (i : Z) | A_end (i : Z)
| LockUp (k : Z) | LockDn (k : Z)                (* locks *)
| ActInfMin (i : Z) | ActInfMax (i : Z) | ActMin (i : Z) | ActMax (i : Z) | ActStatus (i : Z)
| RowSize (i : Z)
| Count (k : Z)                                  (* work->iwork_n_cols *)
| AT_i (j : Z) | AT_x (j : Z) | AT_start (k : Z) | AT_end (k : Z)
| ColSize (k : Z).
Inductive value := VI (z : Z) | VD (e : ext).
Definition mem := loc -> value.
Definition asI (v : value) : Z := match v with VI z => z | VD _ => 0 end.
Definition asD (v : value) : ext := match v with VD e => e | VI _ => Fin 0%Q end.

Inductive prog :=
| Done
| Rd (l : loc) (k : value -> prog)
| Wr (l : loc) (v : value) (k : prog).
Fixpoint seqp (p q : prog) : prog :=
  match p with Done => q | Rd l k => Rd l (fun v => seqp (k v) q) | Wr l v k => Wr l v (seqp k q) end.
Definition rdI (l : loc) (k : Z -> prog) : prog := Rd l (fun v => k (asI v)).
Definition rdD (l : loc) (k : ext -> prog) : prog := Rd l (fun v => k (asD v)).
Definition wrI (l : loc) (z : Z) : prog := Wr l (VI z) Done.
Definition wrD (l : loc) (e : ext) : prog := Wr l (VD e) Done.
Definition incr (l : loc) : prog := rdI l (fun z => wrI l (z + 1)).
(** for (i = a; i < b; ++i) *)
Fixpoint for_n (n : nat) (a : Z) (f : Z -> prog) : prog :=
  match n with O => Done | S n' => seqp (f a) (for_n n' (a + 1) f) end.
Definition for_p (a b : Z) (f : Z -> prog) : prog := for_n (Z.to_nat (b - a)) a f.
Definition when (b : bool) (p : prog) : prog := if b then p else Done.
Definition has (tag bits : Z) : bool := negb (Z.land tag bits =? 0).
(** UPDATE_TAG(tag, new_tag) *)
Definition or_tag (l : loc) (bits : Z) : prog := rdI l (fun t => wrI l (Z.lor t bits)).
Definition is_pinf (e : ext) : bool := match e with PInf => true | _ => false end.
Definition is_ninf (e : ext) : bool := match e with NInf => true | _ => false end.
Definition ext_eqb (a b : ext) : bool := match a, b with Fin p, Fin q => Qeqb p q | NInf, NInf => true | PInf, PInf => true | _, _ => false end.
(** x += a * b, on finite values *)
Definition fma (x a b : ext) : ext := Fin (fin x + fin a * fin b)%Q.
Definition pos (e : ext) : bool := match e with Fin q => Qgtb q 0 | PInf => true | NInf => false end.

Section Init.
Variables (m n n_alloc_AT : Z).

(** src/core/Tags.c:23-48 (the array comes zeroed from calloc) *)
Definition new_rowtags : prog :=
  seqp (for_p 0 m (fun i => wrI (RTag i) 0))
  (for_p 0 m (fun i =>
    seqp (rdD (Rhs i) (fun r => when (is_pinf r) (seqp (wrD (Rhs i) PInf) (or_tag (RTag i) 2))))
    (rdD (Lhs i) (fun l =>
      if is_ninf l then seqp (wrD (Lhs i) NInf) (or_tag (RTag i) 1)
      else rdD (Rhs i) (fun r => when (ext_eqb l r) (or_tag (RTag i) 4)))))).
(** src/core/Presolver.c:122-137 *)
Definition copy_bounds : prog :=
  for_p 0 n (fun i =>
    rdD (InLb i) (fun l => rdD (InUb i) (fun u =>
      seqp (wrD (BLb i) l) (seqp (wrD (BUb i) u)
        (seqp (when (is_ninf l) (or_tag (CTag i) 1)) (when (is_pinf u) (or_tag (CTag i) 4))))))).
(** src/core/Locks.c:25-62 *)
Definition new_locks : prog :=
  seqp (for_p 0 n (fun k => seqp (wrI (LockUp k) 0) (wrI (LockDn k) 0)))
  (for_p 0 m (fun i =>
    rdI (A_start i) (fun a => rdI (A_end i) (fun b =>
      for_p a b (fun j =>
        rdD (A_x j) (fun x => rdI (A_i j) (fun k => rdI (RTag i) (fun t =>
          if pos x then seqp (when (negb (has t 2)) (incr (LockUp k))) (when (negb (has t 1)) (incr (LockDn k)))
          else seqp (when (negb (has t 2)) (incr (LockDn k))) (when (negb (has t 1)) (incr (LockUp k)))))))))))
.
(** src/core/Activity.c:27-134 *)
Definition new_activities : prog :=
  for_p 0 m (fun i =>
    seqp (wrI (ActInfMin i) 0) (seqp (wrI (ActInfMax i) 0) (seqp (wrD (ActMax i) (Fin 0%Q)) (seqp (wrD (ActMin i) (Fin 0%Q))
    (seqp (wrI (ActStatus i) 0)
    (rdI (A_start i) (fun a => rdI (A_end i) (fun b =>
      seqp (for_p a b (fun j =>
        rdD (A_x j) (fun x => rdI (A_i j) (fun k => rdI (CTag k) (fun t =>
          if pos x then seqp (when (has t 4) (incr (ActInfMax i))) (when (has t 1) (incr (ActInfMin i)))
          else seqp (when (has t 1) (incr (ActInfMax i))) (when (has t 4) (incr (ActInfMin i))))))))
      (seqp (rdI (ActInfMax i) (fun c => when (c =? 0) (for_p a b (fun j =>
        rdD (A_x j) (fun x => rdI (A_i j) (fun k =>
          rdD (if pos x then BUb k else BLb k) (fun v => rdD (ActMax i) (fun y => wrD (ActMax i) (fma y x v)))))))))
      (rdI (ActInfMin i) (fun c => when (c =? 0) (for_p a b (fun j =>
        rdD (A_x j) (fun x => rdI (A_i j) (fun k =>
          rdD (if pos x then BLb k else BUb k) (fun v => rdD (ActMin i) (fun y => wrD (ActMin i) (fma y x v))))))))))))))))))
.
(** src/core/Matrix.c:531-537 on A *)
Definition count_rows_A : prog :=
  for_p 0 m (fun i => rdI (A_end i) (fun b => rdI (A_start i) (fun a => wrI (RowSize i) (b - a)))).
(** src/core/Presolver.c:116-144 *)
Definition init_thread : prog := seqp new_rowtags (seqp copy_bounds (seqp new_locks (seqp new_activities count_rows_A))).

(** src/core/Matrix.c:118-165 *)
Definition transpose : prog :=
  seqp (for_p 0 n (fun k => wrI (Count k) 0))
  (seqp (for_p 0 m (fun i => rdI (A_start i) (fun a => rdI (A_end i) (fun b => for_p a b (fun j => rdI (A_i j) (fun k => incr (Count k)))))))
  (seqp (wrI (AT_start 0) 0)
  (seqp (for_p 0 n (fun i => rdI (AT_start i) (fun s => rdI (Count i) (fun c =>
      seqp (wrI (AT_end i) (s + c)) (seqp (wrI (AT_start (i + 1)) (s + M_Csr.calc_memory_row c M_Csr.EXTRA_ROW_SPACE M_Csr.EXTRA_MEMORY_RATIO)) (wrI (Count i) s))))))
  (seqp (wrI (AT_start n) n_alloc_AT) (seqp (wrI (AT_end n) n_alloc_AT)
  (for_p 0 m (fun i => rdI (A_start i) (fun a => rdI (A_end i) (fun b => for_p a b (fun j =>
      rdI (A_i j) (fun k => rdI (Count k) (fun p => rdD (A_x j) (fun x =>
        seqp (wrD (AT_x p) x) (seqp (wrI (AT_i p) i) (incr (Count k)))))))))))))))).
(** src/core/Matrix.c:531-537 on AT *)
Definition count_rows_AT : prog :=
  for_p 0 n (fun i => rdI (AT_end i) (fun b => rdI (AT_start i) (fun a => wrI (ColSize i) (b - a)))).
(** src/core/Presolver.c:289-296 *)
Definition main_thread : prog := seqp transpose count_rows_AT.
End Init.

(** ** Execution *)
(** one thread alone *)
Definition loc_eq_dec : forall a b : loc, {a = b} + {a <> b}.
Proof. decide equality; apply Z.eq_dec. Defined.
Definition store (mm : mem) (l : loc) (v : value) : mem := fun l' => if loc_eq_dec l l' then v else mm l'.
Fixpoint exec (p : prog) (mm : mem) : mem :=
  match p with Done => mm | Rd l k => exec (k (mm l)) mm | Wr l v k => exec k (store mm l v) end.
(** one step of one of two threads: any interleaving is a sequence of these *)
Inductive pstep : mem * prog -> mem * prog -> Prop :=
| ps_rd : forall mm l k, pstep (mm, Rd l k) (mm, k (mm l))
| ps_wr : forall mm l v k, pstep (mm, Wr l v k) (store mm l v, k).
Inductive step : mem * prog * prog -> mem * prog * prog -> Prop :=
| st_1 : forall mm mm' p p' q, pstep (mm, p) (mm', p') -> step (mm, p, q) (mm', p', q)
| st_2 : forall mm mm' p q q', pstep (mm, q) (mm', q') -> step (mm, p, q) (mm', p, q').
Inductive steps : mem * prog * prog -> mem * prog * prog -> Prop :=
| ss_nil : forall c, steps c c
| ss_cons : forall c c' c'', step c c' -> steps c' c'' -> steps c c''.
