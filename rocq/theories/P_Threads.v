(** C12: the two threads that build the presolver.  Theorems only; programs in M_Threads.v,
    vocabulary in S_Threads.v. *)
From Coq Require Import NArith.
From Verif Require Import M_Num S_LP M_Threads S_Threads L_Threads.
Open Scope Z_scope.

(** ** Under no schedule do the two threads race *)
Theorem C12_no_race : forall m n na m0 c,
  steps (m0, init_thread m n, main_thread m n na) c -> ~ race c.
Proof. exact no_race. Qed.
Print Assumptions C12_no_race.

(** ** Every schedule that has ended leaves the memory of running one thread after the other, in
    either order *)
Theorem C12_one_result : forall m n na m0 c,
  steps (m0, init_thread m n, main_thread m n na) c -> finished c ->
  forall l, memory c l = exec (seqp (init_thread m n) (main_thread m n na)) m0 l /\
            memory c l = exec (seqp (main_thread m n na) (init_thread m n)) m0 l.
Proof. exact one_result. Qed.
Print Assumptions C12_one_result.

(** ** No schedule goes on for ever or gets stuck *)
Theorem C12_schedules_end : forall m n na m0,
  ~ runs_forever (m0, init_thread m n, main_thread m n na) /\
  forall c, steps (m0, init_thread m n, main_thread m n na) c -> finished c \/ exists c', step c c'.
Proof. exact schedules_end. Qed.
Print Assumptions C12_schedules_end.

(** ** An example: [[1,0,2],[0,3,0]], rows -inf <= . <= 4 and 1 <= . <= 1, bounds [0,inf), (-inf,2], [0,1] *)
Definition mem0 : mem := fun l => match l with
  | A_i j => VI (if j =? 0 then 0 else if j =? 1 then 2 else 1)
  | A_x j => VD (Fin (if j =? 0 then 1 else if j =? 1 then 2 else 3))%Q
  | A_start i => VI (if i =? 0 then 0 else if i =? 1 then 2 else 3)
  | A_end i => VI (if i =? 0 then 2 else 3)
  | Lhs i => VD (if i =? 0 then NInf else Fin 1%Q)
  | Rhs i => VD (if i =? 0 then Fin 4%Q else Fin 1%Q)
  | InLb k => VD (if k =? 1 then NInf else Fin 0%Q)
  | InUb k => VD (if k =? 0 then PInf else if k =? 1 then Fin 2%Q else Fin 1%Q)
  | _ => VI 0 end.
(** one step of each thread in turn *)
Definition one (c : mem * prog) : mem * prog :=
  match snd c with Done => c | Rd l k => (fst c, k (fst c l)) | Wr l v k => (store (fst c) l v, k) end.
Fixpoint turns (t : nat) (m : mem) (p q : prog) : mem * prog * prog :=
  match t with
  | O => (m, p, q)
  | S t' => let '(m1, p1) := one (m, p) in let '(m2, q1) := one (m1, q) in turns t' m2 p1 q1
  end.
Lemma turns_steps : forall t m p q, steps (m, p, q) (turns t m p q).
Proof.
  assert (T : forall a b c, steps a b -> steps b c -> steps a c).
  { intros a b c H. induction H as [d|d e f D _ IH]; intros K; [exact K|]. exact (ss_cons _ _ _ D (IH K)). }
  assert (O1 : forall m p m1 p1 q, one (m, p) = (m1, p1) -> steps (m, p, q) (m1, p1, q)).
  { intros m p m1 p1 q E. destruct p; cbn in E; injection E as <- <-; try apply ss_nil; (eapply ss_cons; [apply st_1; constructor|apply ss_nil]). }
  assert (O2 : forall m p m1 q1 q, one (m, q) = (m1, q1) -> steps (m, p, q) (m1, p, q1)).
  { intros m p m1 q1 q E. destruct q; cbn in E; injection E as <- <-; try apply ss_nil; (eapply ss_cons; [apply st_2; constructor|apply ss_nil]). }
  induction t as [|t IH]; intros m p q; cbn; [apply ss_nil|].
  destruct (one (m, p)) as [m1 p1] eqn:E1. destruct (one (m1, q)) as [m2 q1] eqn:E2.
  exact (T _ _ _ (O1 _ _ _ _ q E1) (T _ _ _ (O2 _ p1 _ _ _ E2) (IH m2 p1 q1))).
Qed.
Definition ended (c : config) : bool := match c with (_, Done, Done) => true | _ => false end.
Definition ex_run : config := turns 200 mem0 (init_thread 2 3) (main_thread 2 3 18).
Example ex_schedule : steps (mem0, init_thread 2 3, main_thread 2 3 18) ex_run /\ ended ex_run = true /\
  map (memory ex_run) [RTag 0; RTag 1; CTag 0; CTag 1; CTag 2; LockUp 0; LockDn 0; LockUp 1; LockDn 1; LockUp 2; RowSize 0; RowSize 1;
    ColSize 0; ColSize 1; ColSize 2; AT_i 0; AT_i 6; AT_i 12; ActInfMax 0; ActInfMin 0; ActInfMax 1; ActInfMin 1]
  = map VI [1; 4; 4; 1; 0; 1; 0; 1; 1; 1; 2; 1; 1; 1; 1; 0; 1; 0; 1; 0; 0; 1].
Proof. split; [apply turns_steps|]. split; vm_compute; reflexivity. Qed.
(** wrong programs do race: a transpose that also counts into the row sizes *)
Example ex_race : exists c, steps (mem0, init_thread 2 3, incr (RowSize 0)) c /\ race c.
Proof.
  assert (T : forall a b c, steps a b -> steps b c -> steps a c).
  { intros a b c H. induction H as [d|d e f D _ IH]; intros K; [exact K|]. exact (ss_cons _ _ _ D (IH K)). }
  pose (fix go (t : nat) (m : mem) (p : prog) : mem * prog := match t with O => (m, p) | S t' =>
    match p with Wr (RowSize 0) _ _ => (m, p) | _ => let '(m1, p1) := one (m, p) in go t' m1 p1 end end) as go.
  assert (G : forall t m p q, steps (m, p, q) (fst (go t m p), snd (go t m p), q)).
  { induction t as [|t IH]; intros m p q; [apply ss_nil|]. 
    assert (S1 : steps (m, p, q) (fst (go t (fst (one (m, p))) (snd (one (m, p)))), snd (go t (fst (one (m, p))) (snd (one (m, p)))), q)).
    { eapply T; [|apply IH]. destruct p; cbn; try apply ss_nil; (eapply ss_cons; [apply st_1; constructor|apply ss_nil]). }
    cbn [go]. destruct p as [|l k|l v k]; [exact S1|exact S1|].
    destruct l; try exact S1. destruct i; [apply ss_nil|exact S1|exact S1]. }
  exists (fst (go 500%nat mem0 (init_thread 2 3)), snd (go 500%nat mem0 (init_thread 2 3)), incr (RowSize 0)).
  split; [apply G|]. exists (RowSize 0). left. split.
  - unfold writes_next. vm_compute. eexists. eexists. reflexivity.
  - right. unfold reads_next. cbn. eexists. reflexivity.
Qed.
