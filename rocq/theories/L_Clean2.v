(* The index maps that the final clean-up leaves behind. *)
From Coq Require Import QArith Lia.
From Verif Require Import M_Mem M_Num S_Csr M_Csr S_Mat S_Row S_Clean M_Clean L_Row L_Clean.
Local Open Scope Z_scope.

Lemma exact_renumbers keep n mp : 0 <= n -> exact_map keep n mp -> renumbers keep n (new_index keep n) mp.
Proof.
  intros Hn E. split; [|split; [|split]].
  - intros i Hi K. rewrite (E i Hi), K. reflexivity.
  - intros i Hi K. rewrite (E i Hi), K. split; [apply rank_nonneg|].
    apply Z.lt_le_trans with (new_index keep (i + 1)); [apply rank_lt; auto; lia|apply rank_mono; lia].
  - intros i j Hi Hj Ki Kj. rewrite (E i), (E j), Ki, Kj by lia. apply rank_lt; auto; lia.
  - intros r Hr. destruct (rank_onto keep n r Hn Hr) as [i [Hi [K R]]]. exists i. split; auto. split; auto. rewrite (E i Hi), K. auto.
Qed.
Lemma clean_maps jx ji P : clean_pre P -> 0 <= mn (ca_A P) ->
  exists P', problem_clean jx ji P = Some P' /\
    renumbers (active (ca_rsz P)) (mm (ca_A P)) (mm (ca_A P')) (adat (ca_rmap P')) /\
    renumbers (active (ca_csz P)) (mn (ca_A P)) (mn (ca_A P')) (adat (ca_cmap P')).
Proof.
  intros C N. destruct (clean_all jx (fun _ => PInf) ji P C N) as (P'&pp&E&F&H1&H2&_&_&_&_&_&_&_&_&R&K).
  exists P'. split; auto. unfold populate in F.
  destruct (for_z 0 (mn (ca_A P')) _ _) as [[l u]|]; [|discriminate]. cbn [bind] in F.
  destruct (for_z 0 (mm (ca_A P') + 1) _ _) as [ap|]; [|discriminate]. cbn [bind] in F.
  injection F as <-. cbn in H1, H2. rewrite H1, H2.
  split; apply exact_renumbers; auto. pose proof (wf_m _ (cp_A P C)). lia.
Qed.
