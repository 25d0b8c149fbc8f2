(** Proofs about allocation failures: every path of the program through a set of allocations that may
    fail is followed, by a checker proved sound. *)
From Coq Require Import List Bool.
Import ListNotations.
From Verif Require Import M_Alloc S_Alloc.

Definition memb (s : site) (l : list site) : bool := existsb (site_beq s) l.
Lemma beq_eq a b : site_beq a b = true <-> a = b.
Proof. split; [apply internal_site_dec_bl|apply internal_site_dec_lb]. Qed.
Lemma memb_in s l : memb s l = true <-> In s l.
Proof.
  unfold memb. rewrite existsb_exists. split.
  - intros (x & H & E). apply beq_eq in E. now subst.
  - intros H. exists s. split; [exact H|]. now apply beq_eq.
Qed.
Section Check.
Variables (may : list site) (P : outcome ptr -> list site -> bool).
(** [got]: the allocations of this path that may fail and did not *)
Fixpoint check (c : cmd ptr) (h : heap) (got : list site) : bool :=
  match c with
  | Ret a => P (Returns a h) got
  | Malloc s z k =>
      (if memb s may then check (k Null) h got else true) &&
      check (k (Blk s)) (mkHeap (s :: live h) (flds h) (if z then s :: zero h else zero h)) (s :: got)
  | Get p f k => match bad_access h p with Some w => P (UB w) got | None => check (k (field_of h (the_block p) f)) h got end
  | Put p f v k => match bad_access h p with Some w => P (UB w) got
      | None => check k (mkHeap (live h) ((the_block p, f, v) :: flds h) (zero h)) got end
  | Touch p k => match bad_access h p with Some w => P (UB w) got | None => check k h got end
  | TouchIf q p k => match bad_access h p with Some w => false | None => check k h got end
  | Free p k => match p with
      | Null => check k h got
      | Junk => P (UB wild_pointer) got
      | Blk b => if is_live h b then check k (remove_live b h) got else P (UB double_free) got
      end
  | Ask q k => check (k true) h got && check (k false) h got
  | Quit => P Exits got
  end.
Lemma check_sound ok answer : (forall s, ok s = false -> In s may) ->
  forall c h got, (forall s, In s got -> ok s = true) -> check c h got = true ->
  exists got', (forall s, In s got' -> ok s = true) /\ P (run ok answer c h) got' = true.
Proof.
  intros M. induction c as [a|s z k IH|p f k IH|p f v k IH|p k IH|q p k IH|p k IH|q k IH|]; intros h got G C; cbn [check run] in C |- *.
  - exists got. auto.
  - apply andb_true_iff in C. destruct C as [C1 C2]. destruct (ok s) eqn:E.
    + refine (IH _ _ _ _ C2). intros s' [<-|H]; [exact E|auto].
    + assert (S : memb s may = true) by (apply memb_in; auto). rewrite S in C1. exact (IH _ _ _ G C1).
  - destruct (bad_access h p); [exists got; auto|]. exact (IH _ _ _ G C).
  - destruct (bad_access h p); [exists got; auto|]. exact (IH _ _ G C).
  - destruct (bad_access h p); [exists got; auto|]. exact (IH _ _ G C).
  - destruct (bad_access h p); [discriminate|]. destruct (answer q); exact (IH _ _ G C).
  - destruct p; [exact (IH _ _ G C)|exists got; auto|]. destruct (is_live h b); [exact (IH _ _ G C)|exists got; auto].
  - apply andb_true_iff in C. destruct C as [C1 C2]. destruct (answer q); [exact (IH _ _ _ G C1)|exact (IH _ _ _ G C2)].
  - exists got. auto.
Qed.
End Check.

Definition good (may : list site) (o : outcome ptr) (got : list site) : bool :=
  match o with Returns Null _ => true | _ => match o with UB _ | Exits => false | _ => forallb (fun s => memb s got) may end end.
Definition good_clean (may : list site) (o : outcome ptr) (got : list site) : bool :=
  match o with Returns Null h => match live h with [] => true | _ => false end | Returns _ _ => forallb (fun s => memb s got) may | _ => false end.

(** a vector that outgrows its buffer ends the process when memory is short: not among the sites *)
Definition all_sites := clean_sites ++ leaky_sites.
Lemma check_clean : check clean_sites (good_clean clean_sites) new_presolver empty_heap [] = true.
Proof. vm_compute. reflexivity. Qed.
Lemma check_all : check all_sites (good all_sites) new_presolver empty_heap [] = true.
Proof. vm_compute. reflexivity. Qed.

Lemma handled_any ok answer : (forall s, ok s = false -> In s all_sites) -> (exists s, ok s = false) -> handled (outcome_of ok answer).
Proof.
  intros M [s F]. destruct (check_sound all_sites (good all_sites) ok answer M _ _ [] (fun x H => match H with end) check_all) as (got & G & C).
  unfold outcome_of, handled. destruct (run ok answer new_presolver empty_heap) as [a h| |]; cbn [good good_clean] in C; try discriminate C.
  destruct a; [eauto| |]; exfalso; pose proof (proj1 (forallb_forall _ _) C s (M s F)) as X; apply memb_in, G in X; congruence.
Qed.
Lemma handled_clean ok answer : (forall s, ok s = false -> In s clean_sites) -> (exists s, ok s = false) -> handled_without_leak (outcome_of ok answer).
Proof.
  intros M [s F]. destruct (check_sound clean_sites (good_clean clean_sites) ok answer M _ _ [] (fun x H => match H with end) check_clean) as (got & G & C).
  unfold outcome_of, handled_without_leak. destruct (run ok answer new_presolver empty_heap) as [a h| |]; cbn [good good_clean] in C; try discriminate C.
  destruct a.
  - exists h. split; [reflexivity|]. destruct (live h); [reflexivity|discriminate C].
  - exfalso. pose proof (proj1 (forallb_forall _ _) C s (M s F)) as X. apply memb_in, G in X. congruence.
  - exfalso. pose proof (proj1 (forallb_forall _ _) C s (M s F)) as X. apply memb_in, G in X. congruence.
Qed.
(** with enough memory: build, then free *)
Lemma run_bind ok answer {A B} (c : cmd A) (g : A -> cmd B) : forall h, run ok answer (bind c g) h =
  match run ok answer c h with Returns a h' => run ok answer (g a) h' | UB w => UB w | Exits => Exits end.
Proof.
  induction c; intros h; cbn; auto.
  - destruct (ok s); auto.
  - destruct (bad_access h p); auto.
  - destruct (bad_access h p); auto.
  - destruct (bad_access h p); auto.
  - destruct (answer q); auto. destruct (bad_access h p); auto.
  - destruct p; auto. destruct (is_live h b); auto.
Qed.
Definition whole : cmd ptr := p <- new_presolver;; free_presolver p;; Ret p.
Definition done_clean (o : outcome ptr) (got : list site) : bool :=
  match o with Returns (Blk s_pres) h => match live h with [] => true | _ => false end | _ => false end.
Lemma check_whole : check [] done_clean whole empty_heap [] = true.
Proof. vm_compute. reflexivity. Qed.
Lemma built_and_freed answer : exists p h h', outcome_of all_ok answer = Returns p h /\ p <> Null /\
  run all_ok answer (free_presolver p) h = Returns tt h' /\ live h' = [].
Proof.
  assert (M : forall s, all_ok s = false -> In s []) by (intros s X; discriminate X).
  destruct (check_sound [] done_clean all_ok answer M _ _ [] (fun x H => match H with end) check_whole) as (got & _ & C).
  unfold whole in C. rewrite run_bind in C. unfold outcome_of. destruct (run all_ok answer new_presolver empty_heap) as [p h| |]; try discriminate C.
  rewrite run_bind in C. destruct (run all_ok answer (free_presolver p) h) as [[] h'| |] eqn:E; try discriminate C. cbn in C.
  exists p, h, h'. destruct p as [| |b]; try discriminate C. destruct b; try discriminate C.
  repeat split; auto; [discriminate|]. destruct (live h'); [reflexivity|discriminate C].
Qed.
(** one failing allocation at any of the other places *)
Lemma not_handled s : In s unhandled_sites -> ~ handled (outcome_of (only_fails s) yes).
Proof.
  intros H [h E]. cbn [unhandled_sites app In] in H.
  repeat (destruct H as [<-|H]; [vm_compute in E; discriminate E|]). destruct H.
Qed.
Lemma leaks s : In s leaky_sites -> ~ handled_without_leak (outcome_of (only_fails s) yes).
Proof.
  intros H [h [E L]]. cbn [leaky_sites In] in H.
  repeat (destruct H as [<-|H]; [vm_compute in E; injection E as <-; vm_compute in L; discriminate L|]). destruct H.
Qed.
