(* Basic facts about the checked memory and loops. *)
From Coq Require Import Lia.
From Verif Require Import M_Mem.
Local Open Scope Z_scope.

Ltac zb := repeat match goal with
  | H : (_ && _)%bool = true |- _ => apply andb_true_iff in H; destruct H
  | H : (_ && _)%bool = false |- _ => apply andb_false_iff in H
  | H : (_ || _)%bool = true |- _ => apply orb_true_iff in H
  | H : (_ || _)%bool = false |- _ => apply orb_false_iff in H; destruct H
  | H : negb _ = true |- _ => apply negb_true_iff in H
  | H : negb _ = false |- _ => apply negb_false_iff in H
  | H : (_ <=? _) = true |- _ => apply Z.leb_le in H
  | H : (_ <=? _) = false |- _ => apply Z.leb_gt in H
  | H : (_ <? _) = true |- _ => apply Z.ltb_lt in H
  | H : (_ <? _) = false |- _ => apply Z.ltb_ge in H
  | H : (_ =? _) = true |- _ => apply Z.eqb_eq in H
  | H : (_ =? _) = false |- _ => apply Z.eqb_neq in H
  end.

(* decide every boolean test occurring in the goal *)
Ltac ifb := repeat match goal with
  | |- context [if ?b then _ else _] => let E := fresh "E" in destruct b eqn:E; zb; try lia
  end.

Lemma inb i n : 0 <= i < n -> ((0 <=? i) && (i <? n))%bool = true.
Proof. intros; apply andb_true_iff; split; [apply Z.leb_le|apply Z.ltb_lt]; lia. Qed.

Lemma aget_ok {V} (a : arr V) i : 0 <= i < alen a -> aget a i = Some (adat a i).
Proof. intros; unfold aget; now rewrite inb. Qed.

Lemma aset_ok {V} (a : arr V) i v : 0 <= i < alen a ->
  aset a i v = Some (mkarr (alen a) (fun k => if k =? i then v else adat a k)).
Proof. intros; unfold aset; now rewrite inb. Qed.

Lemma aget_oob {V} (a : arr V) i : alen a <= i -> aget a i = None.
Proof. intros; unfold aget. destruct (i <? alen a) eqn:E; zb; [lia|]. now rewrite andb_false_r. Qed.

Lemma memmove_ok {V} (a : arr V) d s n :
  0 <= n -> 0 <= d -> d + n <= alen a -> 0 <= s -> s + n <= alen a ->
  memmove a d s n = Some (mkarr (alen a)
     (fun k => if (d <=? k) && (k <? d + n) then adat a (k - d + s) else adat a k)).
Proof.
  intros; unfold memmove.
  now rewrite !(proj2 (Z.leb_le _ _)) by lia.
Qed.

Lemma memcpy_ok {V} (a b : arr V) d s n :
  0 <= n -> 0 <= d -> d + n <= alen a -> 0 <= s -> s + n <= alen b ->
  memcpy a d b s n = Some (mkarr (alen a)
     (fun k => if (d <=? k) && (k <? d + n) then adat b (k - d + s) else adat a k)).
Proof.
  intros; unfold memcpy.
  now rewrite !(proj2 (Z.leb_le _ _)) by lia.
Qed.

Lemma for_n_inv {S} (I : Z -> S -> Prop) body : forall k lo s,
  I lo s ->
  (forall j s, lo <= j < lo + Z.of_nat k -> I j s -> exists s', body j s = Some s' /\ I (j + 1) s') ->
  exists s', for_n k lo body s = Some s' /\ I (lo + Z.of_nat k) s'.
Proof.
  induction k; intros lo s H0 HS; cbn [for_n].
  - exists s. split; auto. replace (lo + Z.of_nat 0) with lo by lia. auto.
  - destruct (HS lo s) as (s' & E & H'); [lia|auto|]. rewrite E. cbn [bind].
    destruct (IHk (lo + 1) s') as (s2 & E2 & H2); auto.
    + intros; apply HS; auto; lia.
    + exists s2; split; auto. replace (lo + Z.of_nat (Datatypes.S k)) with (lo + 1 + Z.of_nat k) by lia. auto.
Qed.

Lemma for_z_inv {S} (I : Z -> S -> Prop) body lo hi s :
  lo <= hi -> I lo s ->
  (forall j s, lo <= j < hi -> I j s -> exists s', body j s = Some s' /\ I (j + 1) s') ->
  exists s', for_z lo hi body s = Some s' /\ I hi s'.
Proof.
  intros HL H0 HS. unfold for_z.
  destruct (for_n_inv I body (Z.to_nat (hi - lo)) lo s H0) as (s' & E & H').
  - intros; apply HS; auto; lia.
  - exists s'; split; auto. now replace hi with (lo + Z.of_nat (Z.to_nat (hi - lo))) by lia.
Qed.

Lemma for_z_empty {S} (body : Z -> S -> option S) lo hi s : hi <= lo -> for_z lo hi body s = Some s.
Proof. intros; unfold for_z. now replace (Z.to_nat (hi - lo)) with O by lia. Qed.

Lemma for_n_app {S} (body : Z -> S -> option S) : forall a b lo s,
  for_n (a + b) lo body s = bind (for_n a lo body s) (for_n b (lo + Z.of_nat a) body).
Proof.
  induction a; intros; cbn [for_n Nat.add].
  - cbn. f_equal. lia.
  - destruct (body lo s); cbn [bind]; auto. rewrite IHa. destruct (for_n a (lo+1) body s0); cbn [bind]; auto.
    f_equal. lia.
Qed.

Lemma for_z_split {S} (body : Z -> S -> option S) lo mid hi s : lo <= mid <= hi ->
  for_z lo hi body s = bind (for_z lo mid body s) (for_z mid hi body).
Proof.
  intros; unfold for_z.
  replace (Z.to_nat (hi - lo)) with (Z.to_nat (mid - lo) + Z.to_nat (hi - mid))%nat by lia.
  rewrite for_n_app. replace (lo + Z.of_nat (Z.to_nat (mid - lo))) with mid by lia. reflexivity.
Qed.

Lemma for_z_cons {S} (body : Z -> S -> option S) lo hi s : lo < hi ->
  for_z lo hi body s = bind (body lo s) (for_z (lo+1) hi body).
Proof.
  intros; unfold for_z. replace (Z.to_nat (hi - lo)) with (Datatypes.S (Z.to_nat (hi - (lo+1)))) by lia.
  reflexivity.
Qed.

Lemma for_list_inv {A S} (I : list A -> S -> Prop) body : forall l done s,
  I done s ->
  (forall a d s, In a l -> I d s -> exists s', body a s = Some s' /\ I (d ++ [a]) s') ->
  exists s', for_list l body s = Some s' /\ I (done ++ l) s'.
Proof.
  induction l as [|a l IH]; intros done s H0 HS; cbn [for_list].
  - exists s; rewrite app_nil_r; auto.
  - destruct (HS a done s) as (s1 & E & H1); [now left|auto|]. rewrite E; cbn [bind].
    destruct (IH (done ++ [a]) s1) as (s2 & E2 & H2); auto.
    + intros; apply HS; auto; now right.
    + exists s2; split; auto. now rewrite <- app_assoc in H2.
Qed.

