(** Proofs about the two initialisation threads. *)
From Coq Require Import NArith Lia.
From Verif Require Import M_Num S_LP M_Threads S_Threads.
From Verif Require M_Csr.
Open Scope Z_scope.

(** [p] reads only where [r], writes only where [w] *)
Fixpoint within (r w : loc -> bool) (p : prog) : Prop :=
  match p with
  | Done => True
  | Rd l k => r l = true /\ forall v, within r w (k v)
  | Wr l v k => w l = true /\ within r w k
  end.
Section Two.
Variables (w1 w2 : loc -> bool).
Hypothesis disj : forall l, w1 l = true -> w2 l = true -> False.
Let r1 l := negb (w2 l).
Let r2 l := negb (w1 l).
Definition agree (f : loc -> bool) (m m' : mem) := forall l, f l = true -> m l = m' l.

Lemma exec_frame r w p : within r w p -> forall m l, w l = false -> exec p m l = m l.
Proof.
  induction p as [|l0 k IH|l0 v k IH]; cbn; intros H m l Hl.
  - reflexivity.
  - apply IH; [apply H|exact Hl].
  - rewrite IH; [|apply H|exact Hl]. unfold store. destruct (loc_eq_dec l0 l) as [->|]; [|reflexivity]. destruct H. congruence.
Qed.
Lemma exec_agree r w p : within r w p -> forall m m' f, (forall l, r l = true -> f l = true) -> agree f m m' -> agree f (exec p m) (exec p m').
Proof.
  induction p as [|l0 k IH|l0 v k IH]; cbn; intros H m m' f Hf A.
  - exact A.
  - rewrite <- (A l0) by (apply Hf, H). apply IH; [apply H|exact Hf|exact A].
  - apply IH; [apply H|exact Hf|]. intros l Hl. unfold store. destruct (loc_eq_dec l0 l); [reflexivity|apply A, Hl].
Qed.
Definition ok (c : config) : Prop := let '(_, p, q) := c in within r1 w1 p /\ within r2 w2 q.
(** where a configuration is heading *)
Definition goal (c : config) (l : loc) : value := let '(m, p, q) := c in
  if w1 l then exec p m l else if w2 l then exec q m l else m l.

Lemma pstep_within r w m p m' p' : pstep (m, p) (m', p') -> within r w p -> within r w p' /\ agree (fun l => negb (w l)) m m' /\ forall l, exec p m l = exec p' m' l.
Proof.
  intros H W. inversion H; subst; cbn in W.
  - split; [apply W|split; [intros lz _; reflexivity|reflexivity]].
  - split; [apply W|split; [|reflexivity]]. intros lz Hl. unfold store. destruct (loc_eq_dec l lz) as [->|]; [|reflexivity].
    destruct W as [W _]. rewrite W in Hl. discriminate.
Qed.
Lemma step_ok c c' : step c c' -> ok c -> ok c' /\ forall l, goal c l = goal c' l.
Proof.
  intros H O. inversion H; subst; cbn in O |- *; destruct O as [O1 O2].
  - destruct (pstep_within _ _ _ _ _ _ H0 O1) as (W & A & E). split; [tauto|]. intros l.
    destruct (w1 l) eqn:E1; [apply E|]. destruct (w2 l) eqn:E2.
    + apply (exec_agree r2 w2 q O2 mm mm' (fun l => negb (w1 l))); [auto|exact A|rewrite E1; reflexivity].
    + apply A. rewrite E1. reflexivity.
  - destruct (pstep_within _ _ _ _ _ _ H0 O2) as (W & A & E). split; [tauto|]. intros l.
    destruct (w1 l) eqn:E1.
    + apply (exec_agree r1 w1 p O1 mm mm' (fun l => negb (w2 l))); [auto|exact A|].
      destruct (w2 l) eqn:E2; [destruct (disj l E1 E2)|reflexivity].
    + destruct (w2 l) eqn:E2; [apply E|]. apply A. rewrite E2. reflexivity.
Qed.
Lemma steps_ok c c' : steps c c' -> ok c -> ok c' /\ forall l, goal c l = goal c' l.
Proof.
  induction 1 as [c|c c1 c2 H _ IH]; intros O; [auto|]. destruct (step_ok _ _ H O) as [O1 G]. destruct (IH O1) as [O2 G2].
  split; [exact O2|]. intros l. rewrite G. apply G2.
Qed.
Lemma ok_no_race c : ok c -> ~ race c.
Proof.
  destruct c as [[m p] q]. cbn. intros [O1 O2] [l [[[v [k ->]] [[v' [k' ->]]|[k' ->]]]|[[v [k ->]] [k' ->]]]]; cbn in O1, O2;
  destruct O1 as [O1 _], O2 as [O2 _].
  - exact (disj l O1 O2).
  - unfold r2 in O2. rewrite O1 in O2. discriminate.
  - unfold r1 in O1. rewrite O2 in O1. discriminate.
Qed.
Lemma exec_seqp p q m : exec (seqp p q) m = exec q (exec p m).
Proof. revert m. induction p as [|l k IH|l v k IH]; cbn; intros; auto. Qed.
Lemma goal_seq m p q : ok (m, p, q) -> forall l, goal (m, p, q) l = exec (seqp p q) m l /\ goal (m, p, q) l = exec (seqp q p) m l.
Proof.
  intros [O1 O2] l. rewrite !exec_seqp. cbn.
  assert (A1 : agree (fun l => negb (w1 l)) m (exec p m)).
  { intros l' Hl. symmetry. apply (exec_frame r1 w1); [exact O1|]. now apply Bool.negb_true_iff. }
  assert (A2 : agree (fun l => negb (w2 l)) m (exec q m)).
  { intros l' Hl. symmetry. apply (exec_frame r2 w2); [exact O2|]. now apply Bool.negb_true_iff. }
  destruct (w1 l) eqn:E1; [|destruct (w2 l) eqn:E2].
  - assert (E2 : w2 l = false) by (destruct (w2 l) eqn:E2; [destruct (disj l E1 E2)|reflexivity]). split.
    + symmetry. apply (exec_frame r2 w2); auto.
    + apply (exec_agree r1 w1 p O1 m (exec q m) (fun l => negb (w2 l))); auto. rewrite E2; reflexivity.
  - split.
    + apply (exec_agree r2 w2 q O2 m (exec p m) (fun l => negb (w1 l))); auto. rewrite E1; reflexivity.
    + symmetry. apply (exec_frame r1 w1); auto.
  - rewrite (exec_frame r2 w2 q O2) by auto. rewrite (exec_frame r1 w1 p O1) by auto.
    rewrite (exec_frame r1 w1 p O1) by auto. rewrite (exec_frame r2 w2 q O2) by auto. auto.
Qed.
End Two.

(** ** Every schedule ends *)
Definition back (c' c : config) : Prop := step c c'.
Lemma acc_config p q : forall m, Acc back (m, p, q).
Proof.
  revert q. induction p as [|l k IHp|l v k IHp].
  - induction q as [|l k IHq|l v k IHq]; intros m; constructor; intros c H; unfold back in H; inversion H; subst;
      match goal with P : pstep _ _ |- _ => inversion P; subst end; eauto.
  - induction q as [|l' k' IHq|l' v' k' IHq]; intros m; constructor; intros c H; unfold back in H; inversion H; subst;
      match goal with P : pstep _ _ |- _ => inversion P; subst end; eauto.
  - induction q as [|l' k' IHq|l' v' k' IHq]; intros m; constructor; intros c H; unfold back in H; inversion H; subst;
      match goal with P : pstep _ _ |- _ => inversion P; subst end; eauto.
Qed.
Lemma never_forever c : ~ runs_forever c.
Proof.
  destruct c as [[m p] q]. intros [f [F0 Fs]]. pose proof (acc_config p q m) as A. rewrite <- F0 in A. clear F0.
  remember (f O) as c eqn:E. revert E. assert (G : forall t, c = f t -> False); [|apply G].
  induction A as [c _ IH]. intros t ->. exact (IH (f (S t)) (Fs t) (S t) eq_refl).
Qed.
Lemma progress c : finished c \/ exists c', step c c'.
Proof.
  destruct c as [[m p] q]. destruct p as [|l k|l v k].
  - destruct q as [|l k|l v k]; [left; cbn; auto|right|right]; eexists; apply st_2; constructor.
  - right. eexists. apply st_1. constructor.
  - right. eexists. apply st_1. constructor.
Qed.

(** ** The two threads *)
Definition by_init (l : loc) : bool := match l with
  | Lhs _ | Rhs _ | RTag _ | CTag _ | BLb _ | BUb _ | LockUp _ | LockDn _ | ActInfMin _ | ActInfMax _ | ActMin _ | ActMax _ | ActStatus _ | RowSize _ => true
  | _ => false end.
Definition by_main (l : loc) : bool := match l with Count _ | AT_i _ | AT_x _ | AT_start _ | AT_end _ | ColSize _ => true | _ => false end.
Lemma by_disj l : by_init l = true -> by_main l = true -> False.
Proof. destruct l; discriminate. Qed.
Section W.
Variables (r w : loc -> bool).
Lemma w_seqp p q : within r w p -> within r w q -> within r w (seqp p q).
Proof.
  intros P Q. induction p as [|l k IH|l v k IH]; cbn in *; [exact Q| |].
  - split; [apply P|]. intros v. apply IH. apply P.
  - split; [apply P|]. apply IH. apply P.
Qed.
Lemma w_for a b f : (forall i, within r w (f i)) -> within r w (for_p a b f).
Proof. intros H. unfold for_p. generalize (Z.to_nat (b - a)) as k. intros k. revert a. induction k as [|k IH]; intros a; cbn; [exact I|]. apply w_seqp; auto. Qed.
Lemma w_when b p : within r w p -> within r w (when b p).
Proof. destruct b; cbn; auto. Qed.
Lemma w_rdI l k : r l = true -> (forall z, within r w (k z)) -> within r w (rdI l k).
Proof. cbn; auto. Qed.
Lemma w_rdD l k : r l = true -> (forall z, within r w (k z)) -> within r w (rdD l k).
Proof. cbn; auto. Qed.
Lemma w_wrI l z : w l = true -> within r w (wrI l z).
Proof. cbn; auto. Qed.
Lemma w_wrD l z : w l = true -> within r w (wrD l z).
Proof. cbn; auto. Qed.
Lemma w_incr l : r l = true -> w l = true -> within r w (incr l).
Proof. cbn; auto. Qed.
Lemma w_or l b : r l = true -> w l = true -> within r w (or_tag l b).
Proof. cbn; auto. Qed.
End W.
Ltac wstep := match goal with
  | |- forall _, _ => intro
  | |- within _ _ (seqp _ _) => apply w_seqp
  | |- within _ _ (for_p _ _ _) => apply w_for
  | |- within _ _ (when _ _) => apply w_when
  | |- within _ _ (rdI _ _) => apply w_rdI
  | |- within _ _ (rdD _ _) => apply w_rdD
  | |- within _ _ (wrI _ _) => apply w_wrI
  | |- within _ _ (wrD _ _) => apply w_wrD
  | |- within _ _ (incr _) => apply w_incr
  | |- within _ _ (or_tag _ _) => apply w_or
  | |- within _ _ (if ?b then _ else _) => destruct b
  | |- context [if pos ?x then _ else _] => destruct (pos x)
  | |- _ = true => reflexivity
  end.
Ltac wgo := repeat wstep.
Lemma init_within m n : within (fun l => negb (by_main l)) by_init (init_thread m n).
Proof. unfold init_thread, new_rowtags, copy_bounds, new_locks, new_activities, count_rows_A. wgo. Qed.
Lemma main_within m n na : within (fun l => negb (by_init l)) by_main (main_thread m n na).
Proof. unfold main_thread, transpose, count_rows_AT. wgo. Qed.
Lemma start_ok m n na m0 : ok by_init by_main (m0, init_thread m n, main_thread m n na).
Proof. split; [apply init_within|apply main_within]. Qed.

Lemma no_race m n na m0 c : steps (m0, init_thread m n, main_thread m n na) c -> ~ race c.
Proof. intros H. apply (ok_no_race by_init by_main by_disj). apply (steps_ok by_init by_main by_disj _ _ H). apply start_ok. Qed.
Lemma one_result m n na m0 c : steps (m0, init_thread m n, main_thread m n na) c -> finished c ->
  forall l, memory c l = exec (seqp (init_thread m n) (main_thread m n na)) m0 l /\ memory c l = exec (seqp (main_thread m n na) (init_thread m n)) m0 l.
Proof.
  intros H F l. destruct (steps_ok by_init by_main by_disj _ _ H (start_ok m n na m0)) as [_ G].
  destruct c as [[mf p] q]. destruct F as [-> ->]. specialize (G l).
  assert (E : goal by_init by_main (mf, Done, Done) l = mf l) by (cbn; destruct (by_init l), (by_main l); reflexivity).
  rewrite E in G. cbn [memory fst]. rewrite <- G. apply goal_seq; [apply by_disj|apply start_ok].
Qed.
Lemma schedules_end m n na m0 :
  ~ runs_forever (m0, init_thread m n, main_thread m n na) /\
  forall c, steps (m0, init_thread m n, main_thread m n na) c -> finished c \/ exists c', step c c'.
Proof. split; [apply never_forever|intros c _; apply progress]. Qed.
