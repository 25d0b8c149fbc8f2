(* Checkers for the search of tools/witness.py: each is implied by the notion of the specification, so that
   [false] refutes it. *)
From Coq Require Import NArith Lqa Lia.
From Verif Require Import M_Num S_LP M_Settings M_Driver S_Driver M_State M_Act M_Core M_Simple M_StonCols
  M_Dton M_Parallel M_Propagate M_Init M_Post M_Run S_Run S_Struct S_Sem S_Sem4 S_Post W0.
Open Scope Q_scope.
Definition rangeb (s : state) : bool :=
  forallb (fun i => forallb (fun e => Nat.ltb (fst e) (nc s) && negb (Z.eqb (csz s (fst e)) (-1))) (mA s i)) (seq 0 (nr s)) &&
  forallb (fun k => forallb (fun e => Nat.ltb (fst e) (nr s) && negb (Z.eqb (rsz s (fst e)) (-1))) (mAT s k)) (seq 0 (nc s)).
Definition sizeb (s : state) : bool :=
  forallb (fun i => Z.eqb (rsz s i) (-1) || Z.eqb (rsz s i) (Z_len (mA s i))) (seq 0 (nr s)) &&
  forallb (fun k => Z.eqb (csz s k) (-1) || Z.eqb (csz s k) (Z_len (mAT s k))) (seq 0 (nc s)).
Definition goneb (s : state) : bool :=
  forallb (fun i => negb (Z.eqb (rsz s i) (-1)) || match mA s i with [] => true | _ => false end) (seq 0 (nr s)) &&
  forallb (fun k => negb (Z.eqb (csz s k) (-1)) || match mAT s k with [] => true | _ => false end) (seq 0 (nc s)).
Definition hasb (j : nat) (r : row) : bool := existsb (fun e => Nat.eqb (fst e) j) r.
Definition agreeb (s : state) : bool :=
  forallb (fun i => forallb (fun e => hasb i (mAT s (fst e))) (mA s i)) (seq 0 (nr s)) &&
  forallb (fun k => forallb (fun e => hasb k (mA s (fst e))) (mAT s k)) (seq 0 (nc s)).
Definition consb (s : state) : bool := rangeb s && sizeb s && goneb s && agreeb s && Z.eqb (nnz s) (total_len (nr s) (mA s)).
Lemma hasb_in j a r : In (j, a) r -> hasb j r = true.
Proof. intros H. apply existsb_exists. exists (j, a). split; [auto|]. apply Nat.eqb_refl. Qed.
Lemma consb_ok s : consistent s -> consb s = true.
Proof.
  intros [_ _ A B C D E F G H]. unfold consb, rangeb, sizeb, goneb, agreeb. rewrite !andb_true_iff, !forallb_forall.
  assert (AR : forall i e, In i (seq 0 (nr s)) -> In e (mA s i) -> (fst e < nc s)%nat /\ csz s (fst e) <> (-1)%Z).
  { intros i [k a] Hi He. apply in_seq in Hi. destruct (A i k a ltac:(lia) He) as (?&?&?). auto. }
  assert (AC : forall k e, In k (seq 0 (nc s)) -> In e (mAT s k) -> (fst e < nr s)%nat /\ rsz s (fst e) <> (-1)%Z).
  { intros k [i a] Hi He. apply in_seq in Hi. destruct (B i k a ltac:(lia) He) as (?&?&?). auto. }
  split; [split; [split; [split|]|]|].
  - split; intros i Hi; apply forallb_forall; intros e He; apply andb_true_iff; rewrite Nat.ltb_lt, negb_true_iff, Z.eqb_neq; eauto.
  - split; intros i Hi; apply in_seq in Hi; apply orb_true_iff; rewrite !Z.eqb_eq.
    + destruct (Z.eq_dec (rsz s i) (-1)); [auto|right; apply D; [lia|auto]].
    + destruct (Z.eq_dec (csz s i) (-1)); [auto|right; apply E; [lia|auto]].
  - split; intros i Hi; apply in_seq in Hi; apply orb_true_iff; rewrite negb_true_iff, Z.eqb_neq.
    + destruct (Z.eq_dec (rsz s i) (-1)); [right; rewrite F; auto; lia|auto].
    + destruct (Z.eq_dec (csz s i) (-1)); [right; rewrite G; auto; lia|auto].
  - split; intros i Hi; apply forallb_forall; intros [k a] He; cbn [fst].
    + destruct (AR i (k, a) Hi He) as [X _]. apply in_seq in Hi. apply (hasb_in _ a). apply (C i k a); [lia|exact X|exact He].
    + destruct (AC i (k, a) Hi He) as [X _]. apply in_seq in Hi. apply (hasb_in _ a). apply (C k i a); [exact X|lia|exact He].
  - apply Z.eqb_eq. exact H.
Qed.
Definition nodupb (l : list nat) : bool :=
  (fix go l := match l with [] => true | a :: t => negb (existsb (Nat.eqb a) t) && go t end) l.
Lemma nodupb_ok l : nodupb l = true -> NoDup l.
Proof.
  induction l as [|a t IH]; cbn; intros H; [constructor|]. apply andb_true_iff in H. destruct H as [H1 H2].
  constructor; auto. intros Hin. apply negb_true_iff in H1. assert (existsb (Nat.eqb a) t = true); [|congruence].
  apply existsb_exists. exists a. split; [auto|]. apply Nat.eqb_refl.
Qed.
Definition stat_b (P : LP) (y z : nat -> Q) : bool :=
  forallb (fun j => Qeq_bool (z j) (lp_c P j - sumQ (lp_rows P) (fun i => coeff (lp_A P i) j * y i))) (lp_cols P).
Lemma stat_b_ok P y z : stat_b P y z = true <-> stationary P y z.
Proof.
  unfold stat_b, stationary. rewrite forallb_forall. split; intros H j Hj; [apply Qeq_bool_iff; auto|apply Qeq_bool_iff; auto].
Qed.
(* a run, and the parts of it the theorems speak about *)
Definition go (sg : settings) (P : input) := run_presolver sg (fun _ => true) (fun _ => false) 40 P.
Definition yt (i : nat) : Q := inject_Z (Z.of_nat i + 2).
Definition zt (s : state) (j : nat) : Q := lp_c (reduced_lp s) j - sumQ (lp_rows (reduced_lp s)) (fun i => coeff (lp_A (reduced_lp s) i) j * yt i).
Definition solt (s : state) := postsolve_state s yt yt (zt s).
(* what goes wrong; [true]: the theorem fails on this problem.  The run is evaluated once. *)
Definition on_run sg P (f : run_result state -> bool) : bool := wfb P && match go sg P with Some r => f r | None => false end.
Definition handed (r : run_result state) : bool := res_reduced r && negb (tiny (res_state r)).
(* the solution as lists, so that entries are computed once *)
Definition lst (n : nat) (f : nat -> option Q) : list (option Q) := map (fun o => match o with Some q => Some (Qred q) | None => None end) (map f (seq 0 n)).
Definition frz (P : input) (sol : solution) : solution :=
  let a := lst (in_n P) (sx sol) in let b := lst (in_m P) (sy sol) in let c := lst (in_n P) (sz sol) in
  mkSol (fun k => nth k a None) (fun k => nth k b None) (fun k => nth k c None) (s_err sol).
Definition v_cons sg P := on_run sg P (fun r => handed r && negb (consb (res_state r))).
Definition v_bad sg P := on_run sg P (fun r => negb (tiny (res_state r)) && M_State.bad (res_state r)).
Definition v_obj sg P := on_run sg P (fun r => let s := res_state r in handed r && nodupb (removed_cols (log s)) &&
  let sol := frz P (solt s) in completeb P sol && negb (Qeq_bool (objective (lp_of_input P) (xs sol)) (objective (reduced_lp s) yt))).
Definition v_stat sg P := on_run sg P (fun r => let s := res_state r in handed r &&
  let sol := frz P (solt s) in completeb P sol && negb (stat_b (lp_of_input P) (ys sol) (zs sol))).
Lemma on_run_ok sg P f : on_run sg P f = true -> exists r, wf_input P /\ go sg P = Some r /\ f r = true.
Proof. unfold on_run. intros H. apply andb_true_iff in H. destruct H as [A B]. destruct (go sg P) as [r|]; [|discriminate]. exists r. split; [apply wfb_ok; auto|auto]. Qed.
Lemma handed_ok r : handed r = true -> res_reduced r = true /\ tiny (res_state r) = false.
Proof. unfold handed. intros H. apply andb_true_iff in H. destruct H as [A B]. apply negb_true_iff in B. auto. Qed.
Lemma cons_found sg P : v_cons sg P = true -> exists r, wf_input P /\ go sg P = Some r /\ tiny (res_state r) = false /\ res_reduced r = true /\ ~ consistent (res_state r).
Proof.
  intros H. destruct (on_run_ok _ _ _ H) as (r & W & G & F). apply andb_true_iff in F. destruct F as [F1 F2]. destruct (handed_ok _ F1).
  exists r. do 4 (split; [assumption|]). intros C. apply consb_ok in C. rewrite C in F2. discriminate.
Qed.
Lemma bad_found sg P : v_bad sg P = true -> exists r, wf_input P /\ go sg P = Some r /\ tiny (res_state r) = false /\ M_State.bad (res_state r) = true.
Proof. intros H. destruct (on_run_ok _ _ _ H) as (r & W & G & F). apply andb_true_iff in F. destruct F as [F1 F2]. apply negb_true_iff in F1. exists r. auto. Qed.
Lemma lst_nth n f k : (k < n)%nat -> nth k (lst n f) None = match f k with Some q => Some (Qred q) | None => None end.
Proof.
  intros H. unfold lst. rewrite map_map. set (g := fun x => _). rewrite nth_indep with (d' := g 0%nat) by (rewrite map_length, seq_length; auto).
  rewrite map_nth, seq_nth by auto. reflexivity.
Qed.
Lemma val_lst n f k : (k < n)%nat -> known (nth k (lst n f) None) = true -> f k = Some (val (f k)) /\ val (nth k (lst n f) None) == val (f k).
Proof. intros H. rewrite (lst_nth n f k H). destruct (f k); cbn; intros K; [|discriminate K]. split; [reflexivity|]. apply Qred_correct. Qed.
Lemma frz_ok P sol : completeb P (frz P sol) = true -> solution_is P sol (xs sol) (ys sol) (zs sol) /\
  (forall k, (k < in_n P)%nat -> xs (frz P sol) k == xs sol k /\ zs (frz P sol) k == zs sol k) /\
  (forall i, (i < in_m P)%nat -> ys (frz P sol) i == ys sol i).
Proof.
  unfold completeb. rewrite !andb_true_iff, !forallb_forall. intros [[E X] Y].
  assert (HX : forall k, (k < in_n P)%nat -> known (sx (frz P sol) k) = true /\ known (sz (frz P sol) k) = true).
  { intros k Hk. specialize (X k ltac:(apply in_seq; lia)). apply andb_true_iff in X. exact X. }
  assert (HY : forall k, (k < in_m P)%nat -> known (sy (frz P sol) k) = true) by (intros k Hk; apply Y; apply in_seq; lia).
  split; [split; [|split]|split].
  - change (s_err (frz P sol)) with (s_err sol) in E. destruct (s_err sol); [discriminate|reflexivity].
  - intros k Hk. destruct (HX k Hk) as [A B]. split; [apply (val_lst _ _ _ Hk A)|apply (val_lst _ _ _ Hk B)].
  - intros k Hk. apply (val_lst _ _ _ Hk (HY k Hk)).
  - intros k Hk. destruct (HX k Hk) as [A B]. split; [apply (val_lst _ _ _ Hk A)|apply (val_lst _ _ _ Hk B)].
  - intros k Hk. apply (val_lst _ _ _ Hk (HY k Hk)).
Qed.
Lemma sumQ_eq l f g : (forall k, In k l -> f k == g k) -> sumQ l f == sumQ l g.
Proof. induction l as [|a l IH]; cbn; intros H; [reflexivity|]. rewrite (H a) by auto. rewrite IH by auto. reflexivity. Qed.
Lemma zt_stat s : stationary (reduced_lp s) yt (zt s).
Proof. intros j _. unfold zt. reflexivity. Qed.
Lemma obj_found sg P : v_obj sg P = true -> exists r x y z x' y' z', wf_input P /\ go sg P = Some r /\ res_reduced r = true /\
  NoDup (removed_cols (log (res_state r))) /\ solution_is P (postsolve_state (res_state r) x y z) x' y' z' /\
  ~ objective (lp_of_input P) x' == objective (reduced_lp (res_state r)) x.
Proof.
  intros H. destruct (on_run_ok _ _ _ H) as (r & W & G & F). cbv beta zeta in F. rewrite !andb_true_iff in F. destruct F as [[F1 F2] [F3 F4]].
  destruct (handed_ok _ F1). destruct (frz_ok _ _ F3) as (S & X & Y). set (so := solt (res_state r)) in *.
  exists r, yt, yt, (zt (res_state r)), (xs so), (ys so), (zs so). split; [exact W|]. split; [exact G|]. split; [assumption|]. split; [apply nodupb_ok; assumption|]. split; [exact S|].
  intros E. apply negb_true_iff in F4. assert (Qeq_bool (objective (lp_of_input P) (xs (frz P so))) (objective (reduced_lp (res_state r)) yt) = true); [|congruence].
  apply Qeq_bool_iff. rewrite <- E. unfold objective. apply Qplus_comp; [reflexivity|]. apply sumQ_eq. intros k Hk. apply in_seq in Hk.
  destruct (X k ltac:(cbn in Hk; lia)) as [-> _]. reflexivity.
Qed.
Lemma stat_found sg P : v_stat sg P = true -> exists r x y z x' y' z', wf_input P /\ go sg P = Some r /\ res_reduced r = true /\
  stationary (reduced_lp (res_state r)) y z /\ solution_is P (postsolve_state (res_state r) x y z) x' y' z' /\ ~ stationary (lp_of_input P) y' z'.
Proof.
  intros H. destruct (on_run_ok _ _ _ H) as (r & W & G & F). cbv beta zeta in F. rewrite !andb_true_iff in F. destruct F as [F1 [F3 F4]].
  destruct (handed_ok _ F1). destruct (frz_ok _ _ F3) as (S & X & Y). set (so := solt (res_state r)) in *.
  exists r, yt, yt, (zt (res_state r)), (xs so), (ys so), (zs so). split; [exact W|]. split; [exact G|]. split; [assumption|]. split; [apply zt_stat|]. split; [exact S|].
  intros E. apply negb_true_iff in F4. assert (stat_b (lp_of_input P) (ys (frz P so)) (zs (frz P so)) = true); [|congruence].
  apply stat_b_ok. intros j Hj. pose proof Hj as Hj'. apply in_seq in Hj'. destruct (X j ltac:(cbn in Hj'; lia)) as [_ ->]. rewrite (E j Hj).
  apply Qplus_comp; [reflexivity|]. apply Qopp_comp. apply sumQ_eq. intros i Hi. apply in_seq in Hi. rewrite (Y i ltac:(cbn in Hi; lia)). reflexivity.
Qed.
(* settings: all reductions; without those that rewrite coefficients; also without parallel rows *)
Definition g_all := default_settings.
Definition g_coef := mkSettings true false true false true true true true 10 60 false.
Definition g_dual := mkSettings true false false false true true true true 10 60 false.
Definition g_none := set_settings_false default_settings.
Definition g_prop := mkSettings false false false false true true true true 10 60 false.
