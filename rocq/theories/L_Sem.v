(** What the stored problem means: feasibility and objective of a state, and their behaviour under
    the deletions of rows and columns. *)
From Coq Require Import NArith Lqa.
From Verif Require Import M_Num S_LP M_Settings M_Driver S_Driver M_State M_Act M_Core M_Simple
  M_StonCols M_Dton M_Parallel M_Propagate M_Init M_Post M_Run S_Run S_Struct S_Sem
  L_State L_Struct L_Struct2 L_Struct3 L_Struct4 L_Struct5 L_Struct6 L_Struct11.

Open Scope Q_scope.

(** ** Rationals and bounds *)
Lemma Qltb_true : forall x y, Qltb x y = true <-> x < y.
Proof.
  intros. unfold Qltb. rewrite negb_true_iff. split.
  - intros H. destruct (Qlt_le_dec x y); auto. apply Qle_bool_iff in q. congruence.
  - intros H. destruct (Qle_bool y x) eqn:E; auto. apply Qle_bool_iff in E. lra.
Qed.
Lemma Qltb_false : forall x y, Qltb x y = false <-> y <= x.
Proof. intros. unfold Qltb. rewrite negb_false_iff. apply Qle_bool_iff. Qed.
Lemma Qleb_true : forall x y, Qleb x y = true <-> x <= y.
Proof. intros. apply Qle_bool_iff. Qed.
Lemma Qleb_false : forall x y, Qleb x y = false <-> y < x.
Proof.
  intros. unfold Qleb. split.
  - intros H. destruct (Qlt_le_dec y x); auto. apply Qle_bool_iff in q. congruence.
  - intros H. destruct (Qle_bool x y) eqn:E; auto. apply Qle_bool_iff in E. lra.
Qed.
Lemma Qgtb_true : forall x y, Qgtb x y = true <-> y < x.
Proof. intros. apply Qltb_true. Qed.
Lemma Qgtb_false : forall x y, Qgtb x y = false <-> x <= y.
Proof. intros. apply Qltb_false. Qed.
Lemma Qgeb_true : forall x y, Qgeb x y = true <-> y <= x.
Proof. intros. apply Qleb_true. Qed.
Lemma Qgeb_false : forall x y, Qgeb x y = false <-> x < y.
Proof. intros. apply Qleb_false. Qed.
Lemma Qeqb_true : forall x y, Qeqb x y = true <-> x == y.
Proof. intros. apply Qeq_bool_iff. Qed.
Lemma Qeqb_false : forall x y, Qeqb x y = false <-> ~ x == y.
Proof.
  intros. split; intros H.
  - intros E. apply Qeqb_true in E. congruence.
  - destruct (Qeqb x y) eqn:E; auto. apply Qeqb_true in E. contradiction.
Qed.
Ltac qb := repeat match goal with
  | H : Qltb _ _ = true |- _ => apply Qltb_true in H
  | H : Qltb _ _ = false |- _ => apply Qltb_false in H
  | H : Qleb _ _ = true |- _ => apply Qleb_true in H
  | H : Qleb _ _ = false |- _ => apply Qleb_false in H
  | H : Qgtb _ _ = true |- _ => apply Qgtb_true in H
  | H : Qgtb _ _ = false |- _ => apply Qgtb_false in H
  | H : Qgeb _ _ = true |- _ => apply Qgeb_true in H
  | H : Qgeb _ _ = false |- _ => apply Qgeb_false in H
  | H : Qeqb _ _ = true |- _ => apply Qeqb_true in H
  | H : Qeqb _ _ = false |- _ => apply Qeqb_false in H
  end.

Lemma ext_le_ext : forall e x y, x == y -> ext_le e x -> ext_le e y.
Proof. intros [|q|] x y E; simpl; auto. intros. lra. Qed.
Lemma le_ext_ext : forall e x y, x == y -> le_ext x e -> le_ext y e.
Proof. intros [|q|] x y E; simpl; auto. intros. lra. Qed.
Lemma within_ext : forall t l x y u, x == y -> within t l x u -> within t l y u.
Proof.
  intros t l x y u E [A B]. split; [eapply ext_le_ext; [|exact A]|eapply le_ext_ext; [|exact B]]; lra.
Qed.
Lemma within_le : forall t t' l x u, t <= t' -> within t l x u -> within t' l x u.
Proof.
  intros t t' l x u E [A B]. split.
  - destruct l; simpl in *; auto. lra.
  - destruct u; simpl in *; auto. lra.
Qed.
Lemma within0 : forall l x u, within 0 l x u <-> ext_le l x /\ le_ext x u.
Proof.
  intros. unfold within. split; intros [A B]; (split; [eapply ext_le_ext; [|exact A]|eapply le_ext_ext; [|exact B]]); lra.
Qed.
Lemma is_fin_Fin : forall e, is_fin e = true -> e = Fin (fin e).
Proof. destruct e; simpl; congruence. Qed.

(** [e'] is [e] moved down by [d]. *)
Definition moved (e e' : ext) (d : Q) : Prop :=
  match e with Fin p => exists q, e' = Fin q /\ q == p - d | _ => e' = e end.
Lemma moved_0 : forall e d, d == 0 -> moved e e d.
Proof. intros [|p|] d D; simpl; auto. exists p. split; auto. lra. Qed.
Lemma moved_ext : forall e e' d d', d == d' -> moved e e' d -> moved e e' d'.
Proof. intros [|p|] e' d d' D; simpl; auto. intros [q [-> E]]. exists q. split; auto. lra. Qed.
Lemma moved_sub : forall e e' d d', moved e e' d -> moved e (ext_sub e' d') (d + d').
Proof.
  intros [|p|] e' d d'; simpl; try (intros ->; reflexivity).
  intros [q [-> E]]. exists (q - d'). split; auto. lra.
Qed.
Lemma moved_trans : forall e e' e'' d d', moved e e' d -> moved e' e'' d' -> moved e e'' (d + d').
Proof.
  intros [|p|] e' e'' d d'; simpl; try (intros ->; simpl; auto).
  intros [q [-> E]]; simpl. intros [r [-> F]]. exists r. split; auto. lra.
Qed.
Lemma within_moved : forall t l l' u u' d x, moved l l' d -> moved u u' d ->
  (within t l (x + d) u <-> within t l' x u').
Proof.
  intros t l l' u u' d x L U. unfold within.
  assert (A : ext_le l (x + d + t) <-> ext_le l' (x + t)).
  { destruct l as [|p|]; simpl in L; try (subst l'; simpl; tauto).
    destruct L as [q [-> E]]. simpl. split; intros; lra. }
  assert (B : le_ext (x + d - t) u <-> le_ext (x - t) u').
  { destruct u as [|p|]; simpl in U; try (subst u'; simpl; tauto).
    destruct U as [q [-> E]]. simpl. split; intros; lra. }
  tauto.
Qed.
Lemma moved_is_fin : forall e e' d, moved e e' d -> is_fin e' = is_fin e.
Proof. intros [|p|] e' d; simpl; try (intros ->; reflexivity). intros [q [-> _]]. reflexivity. Qed.

(** ** Sums *)
Lemma sumQ_ext : forall l f g, (forall k, In k l -> f k == g k) -> sumQ l f == sumQ l g.
Proof.
  induction l as [|k l IH]; simpl; intros f g H; [lra|].
  rewrite (H k) by auto. rewrite (IH f g); [lra|auto].
Qed.
Lemma sumQ_app : forall l1 l2 f, sumQ (l1 ++ l2) f == sumQ l1 f + sumQ l2 f.
Proof. induction l1 as [|k l IH]; simpl; intros; [lra|]. rewrite IH. lra. Qed.
Lemma sumQ_0 : forall l f, (forall k, In k l -> f k == 0) -> sumQ l f == 0.
Proof. induction l as [|k l IH]; simpl; intros f H; [lra|]. rewrite (H k) by auto. rewrite IH; [lra|auto]. Qed.
Lemma sumQ_split : forall (p : nat -> bool) l f,
  sumQ l f == sumQ (filter p l) f + sumQ (filter (fun k => negb (p k)) l) f.
Proof.
  induction l as [|k l IH]; simpl; intros; [lra|]. rewrite IH. destruct (p k); simpl; lra.
Qed.
Lemma sumQ_perm1 : forall k l f, NoDup l -> In k l ->
  sumQ l f == f k + sumQ (filter (fun j => negb (Nat.eqb j k)) l) f.
Proof.
  induction l as [|j l IH]; simpl; intros f N Hin; [tauto|]. inversion N; subst.
  destruct (Nat.eqb_spec j k) as [->|D]; simpl.
  - rewrite filter_all; [lra|]. intros x Hx. apply negb_true_iff, Nat.eqb_neq. congruence.
  - rewrite IH; [lra|auto|]. destruct Hin; congruence.
Qed.
Lemma NoDup_filter' : forall A (f : A -> bool) l, NoDup l -> NoDup (filter f l).
Proof. intros. apply NoDup_filter. assumption. Qed.
(** Two lists without repetition and with the same members *)
Lemma sumQ_same : forall l1 l2 f, NoDup l1 -> NoDup l2 -> (forall k, In k l1 <-> In k l2) ->
  sumQ l1 f == sumQ l2 f.
Proof.
  induction l1 as [|k l IH]; intros l2 f N1 N2 E.
  - rewrite (sumQ_0 l2); [simpl; lra|]. intros k Hk. apply E in Hk. contradiction.
  - inversion N1; subst. rewrite (sumQ_perm1 k l2) by (auto; apply E; left; reflexivity).
    simpl. rewrite <- (IH (filter (fun j => negb (Nat.eqb j k)) l2)); [lra|auto|apply NoDup_filter; auto|].
    intros j. rewrite filter_In. split.
    + intros Hj. split; [apply E; right; auto|]. apply negb_true_iff, Nat.eqb_neq. congruence.
    + intros [Hj D]. apply negb_true_iff, Nat.eqb_neq in D. apply E in Hj. destruct Hj; congruence.
Qed.
Lemma sumQ_lin : forall l f g a, sumQ l (fun k => f k + a * g k) == sumQ l f + a * sumQ l g.
Proof. induction l as [|k l IH]; simpl; intros; [lra|]. rewrite IH. lra. Qed.

(** ** Rows *)
Lemma dot_ext : forall r x y, (forall k a, In (k, a) r -> x k == y k) -> dot r x == dot r y.
Proof.
  induction r as [|[k a] r IH]; simpl; intros x y H; [lra|].
  rewrite (H k a) by auto. rewrite (IH x y); [lra|]. intros; eapply H; eauto.
Qed.
Lemma dot_split : forall (p : nat * Q -> bool) r x,
  dot r x == dot (filter p r) x + dot (filter (fun e => negb (p e)) r) x.
Proof.
  induction r as [|[k a] r IH]; simpl; intros; [lra|]. rewrite IH.
  destruct (p (k, a)); simpl; lra.
Qed.
Lemma dot_0 : forall r x, (forall k a, In (k, a) r -> x k == 0) -> dot r x == 0.
Proof.
  induction r as [|[k a] r IH]; simpl; intros x H; [lra|].
  rewrite (H k a) by auto. rewrite IH; [lra|]. intros; eapply H; eauto.
Qed.
Lemma dot_del : forall r k a x, srt r -> In (k, a) r ->
  dot r x == a * x k + dot (del_entry k r) x.
Proof.
  induction r as [|[c v] r IH]; simpl; intros k a x S Hin; [tauto|].
  apply srt_inv in S. destruct S as [S L]. unfold del_entry in *. cbn [filter fst].
  destruct Hin as [E|Hin].
  - injection E as -> ->. rewrite Nat.eqb_refl. cbn [negb].
    change (filter _ r) with (del_entry k r). rewrite del_entry_absent; [lra|].
    intros [b Hb]. apply L in Hb. simpl in Hb. lia.
  - destruct (Nat.eqb_spec c k) as [->|D]; cbn [negb].
    + apply L in Hin. simpl in Hin. lia.
    + simpl. rewrite (IH k a x S Hin). lra.
Qed.

(** The part of a row on the columns in [fx]. *)
Definition part (r : row) (fx : list nat) (v : nat -> Q) : Q :=
  dot (filter (fun e => memb (fst e) fx) r) v.
Lemma part_nil : forall r v, part r [] v == 0.
Proof. intros. unfold part. rewrite filter_none; [simpl; lra|]. reflexivity. Qed.
Lemma filter_filter : forall A (f g : A -> bool) l,
  filter f (filter g l) = filter (fun x => f x && g x) l.
Proof.
  induction l as [|x l IH]; simpl; auto. destruct (g x) eqn:G; simpl; rewrite IH;
    [rewrite andb_true_r|rewrite andb_false_r]; reflexivity.
Qed.
Lemma part_add_out : forall r k fx v, ~ has k r -> part r (k :: fx) v == part r fx v.
Proof.
  intros r k fx v N. unfold part. rewrite (filter_ext_in (fun e => memb (fst e) (k :: fx)) (fun e => memb (fst e) fx)); [lra|].
  intros [j a] Hj. unfold memb. simpl. destruct (Nat.eqb_spec j k) as [->|]; auto.
  exfalso. apply N. exists a. auto.
Qed.
Lemma part_add_in : forall r k a fx v, srt r -> In (k, a) r -> ~ In k fx ->
  part r (k :: fx) v == a * v k + part r fx v.
Proof.
  intros r k a fx v S Hin N. unfold part.
  assert (S' : srt (filter (fun e => memb (fst e) (k :: fx)) r)) by (apply srt_filter; auto).
  rewrite (dot_del _ k a v S').
  - unfold del_entry. rewrite filter_filter.
    rewrite (filter_ext_in _ (fun e => memb (fst e) fx)); [lra|].
    intros [j b] _. unfold memb. simpl. destruct (Nat.eqb_spec j k) as [->|]; simpl; auto.
    symmetry. destruct (existsb (Nat.eqb k) fx) eqn:E; auto. exfalso. apply N. apply memb_In. exact E.
  - apply filter_In. split; auto. simpl. unfold memb. simpl. rewrite Nat.eqb_refl. reflexivity.
Qed.
