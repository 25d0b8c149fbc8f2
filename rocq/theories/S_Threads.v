(** Specification for the concurrent initialisation: schedules, data races, finished runs. *)
From Verif Require Import M_Num S_LP M_Threads.
Open Scope Z_scope.

Definition config := (mem * prog * prog)%type.
(** the thread's next access is a write to / a read of [l] *)
Definition writes_next (p : prog) (l : loc) : Prop := exists v k, p = Wr l v k.
Definition reads_next (p : prog) (l : loc) : Prop := exists k, p = Rd l k.
(** both threads are about to touch the same place and at least one of them writes *)
Definition race (c : config) : Prop := let '(_, p, q) := c in
  exists l, (writes_next p l /\ (writes_next q l \/ reads_next q l)) \/ (writes_next q l /\ reads_next p l).
Definition finished (c : config) : Prop := let '(_, p, q) := c in p = Done /\ q = Done.
Definition memory (c : config) : mem := fst (fst c).
(** an infinite schedule *)
Definition runs_forever (c : config) : Prop := exists f : nat -> config, f O = c /\ forall t, step (f t) (f (S t)).
