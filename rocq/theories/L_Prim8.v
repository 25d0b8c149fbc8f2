(** Deciding the hypotheses on literals. *)
From Coq Require Import NArith Lqa.
From Verif Require Import M_Num S_LP M_Settings M_Driver M_State M_Act M_Core M_Simple M_StonCols
  M_Dton M_Parallel M_Propagate M_Init M_Post M_Run S_Run S_Sem S_Post S_Kkt S_Prim.
Import M_Driver.
Open Scope Q_scope.
Definition is_fix (j : nat) (r : reduction) : bool := match r with FIXED_COL k _ _ _ => Nat.eqb k j | _ => false end.
Fixpoint knownb (lg : list reduction) : bool :=
  match lg with
  | [] => true
  | r :: rest => (match r with
      | FIXED_COL_INF _ _ _ rows => forallb (fun e => forallb (fun c => negb (existsb (is_fix (fst c)) rest)) (snd e)) rows
      | _ => true end) && knownb rest
  end.
Lemma knownb_ok : forall lg, knownb lg = true -> neighbours_known lg.
Proof.
  induction lg as [|r lg IH]; intros H later pos k b rows earlier E side rr j a v c col Hr Hj Hin.
  - destruct later; discriminate.
  - cbn [knownb] in H. apply andb_true_iff in H. destruct H as [H1 H2]. destruct later as [|r0 later]; cbn [app] in E.
    + injection E as E1 E2. subst r lg. rewrite forallb_forall in H1. specialize (H1 _ Hr). cbn [snd] in H1.
      rewrite forallb_forall in H1. specialize (H1 _ Hj). cbn [fst] in H1. apply negb_true_iff in H1.
      assert (X : existsb (is_fix j) earlier = true).
      { apply existsb_exists. eexists. split; [exact Hin|]. cbn. apply Nat.eqb_refl. }
      congruence.
    + injection E as _ E. eapply (IH H2); eauto.
Qed.
Definition wideb (rtol : nat -> Q) (c : Q) (P : LP) : bool :=
  Qle_bool FEAS_TOL c && forallb (fun i => Qle_bool (FEAS_TOL + (c + FEAS_TOL) * norm1 (lp_A P i)) (rtol i)) (lp_rows P).
Lemma wideb_ok : forall rtol c P, wideb rtol c P = true -> wide rtol c P.
Proof.
  intros rtol c P H. unfold wideb in H. apply andb_true_iff in H. destruct H as [A B]. split; [apply Qle_bool_iff; auto|].
  intros i Hi. rewrite forallb_forall in B. apply Qle_bool_iff. exact (B i Hi).
Qed.
Definition withinb (t : Q) (l : ext) (v : Q) (u : ext) : bool :=
  (match l with NInf => true | Fin q => Qle_bool q (v + t) | PInf => false end) &&
  (match u with PInf => true | Fin q => Qle_bool (v - t) q | NInf => false end).
Lemma withinb_ok : forall t l v u, withinb t l v u = true -> within t l v u.
Proof.
  intros t l v u H. unfold withinb in H. apply andb_true_iff in H. destruct H as [A B]. split.
  - destruct l; cbn; try discriminate; auto. apply Qle_bool_iff; auto.
  - destruct u; cbn; try discriminate; auto. apply Qle_bool_iff; auto.
Qed.
Definition feasupb (rtol : nat -> Q) (c : Q) (P : LP) (x : nat -> Q) : bool :=
  forallb (fun i => withinb (rtol i) (lp_lhs P i) (dot (lp_A P i) x) (lp_rhs P i)) (lp_rows P) &&
  forallb (fun k => withinb c (lp_lb P k) (x k) (lp_ub P k)) (lp_cols P).
Lemma feasupb_ok : forall rtol c P x, feasupb rtol c P x = true -> feasible_up_to rtol (fun _ => c) P x.
Proof.
  intros rtol c P x H. unfold feasupb in H. apply andb_true_iff in H. destruct H as [A B]. rewrite forallb_forall in A, B.
  split; intros i Hi; apply withinb_ok; auto.
Qed.
Definition meetb (P : LP) : bool :=
  forallb (fun k => match lp_lb P k, lp_ub P k with Fin l, Fin u => Qle_bool l (u + FEAS_TOL) | _, _ => true end) (lp_cols P).
Lemma meetb_ok : forall P, meetb P = true -> bounds_meet P.
Proof.
  intros P H k l u Hk L U. unfold meetb in H. rewrite forallb_forall in H. specialize (H k Hk). rewrite L, U in H. apply Qle_bool_iff; auto.
Qed.
Definition statb (P : LP) (y z : nat -> Q) : bool :=
  forallb (fun j => Qeq_bool (z j) (lp_c P j - sumQ (lp_rows P) (fun i => coeff (lp_A P i) j * y i))) (lp_cols P).
Lemma statb_ok : forall P y z, statb P y z = true -> stationary P y z.
Proof. intros P y z H j Hj. unfold statb in H. rewrite forallb_forall in H. apply Qeq_bool_iff. exact (H j Hj). Qed.
Definition pressb (t m : Q) (low : ext) (v : Q) (upp : ext) : bool :=
  (Qle_bool m 0 || match low with Fin q => Qle_bool (Qabs (v - q)) t | _ => false end) &&
  (Qle_bool 0 m || match upp with Fin q => Qle_bool (Qabs (v - q)) t | _ => false end).
Lemma pressb_ok : forall t m low v upp, pressb t m low v upp = true -> pressed t m low v upp.
Proof.
  intros t m low v upp H. unfold pressb in H. apply andb_true_iff in H. destruct H as [A B]. split; intros SS.
  - apply orb_true_iff in A. destruct A as [C|C]; [apply Qle_bool_iff in C; lra|]. destruct low; try discriminate.
    eexists. split; [reflexivity|]. apply Qle_bool_iff; auto.
  - apply orb_true_iff in B. destruct B as [C|C]; [apply Qle_bool_iff in C; lra|]. destruct upp; try discriminate.
    eexists. split; [reflexivity|]. apply Qle_bool_iff; auto.
Qed.
Definition compb (rtol : nat -> Q) (c : Q) (P : LP) (x y z : nat -> Q) : bool :=
  forallb (fun i => pressb (rtol i) (y i) (lp_lhs P i) (dot (lp_A P i) x) (lp_rhs P i)) (lp_rows P) &&
  forallb (fun k => pressb c (z k) (lp_lb P k) (x k) (lp_ub P k)) (lp_cols P).
Lemma compb_ok : forall rtol c P x y z, compb rtol c P x y z = true -> complementary rtol c P x y z.
Proof.
  intros rtol c P x y z H. unfold compb in H. apply andb_true_iff in H. destruct H as [A B]. rewrite forallb_forall in A, B.
  split; intros i Hi; apply pressb_ok; auto.
Qed.
