(* a concrete argsort, for the examples *)
From Coq Require Import Sorted Permutation.
From Verif Require Import Base SelectSpec PotModel PotSpec PotProofs PotProofs3.
Local Open Scope list_scope.
Local Open Scope Z_scope.

Fixpoint ins (p : Z * nat) (l : list (Z * nat)) : list (Z * nat) :=
  match l with [] => [p] | q :: l' => if fst p <=? fst q then p :: l else q :: ins p l' end.
Fixpoint isort (l : list (Z * nat)) : list (Z * nat) := match l with [] => [] | p :: l' => ins p (isort l') end.
Definition stable_argsort (a : list Z) : list nat := map snd (isort (combine a (seq 0 (length a)))).

Lemma ins_perm p l : Permutation (p :: l) (ins p l).
Proof. induction l as [|q l IH]; cbn; [reflexivity|]. destruct (fst p <=? fst q); [reflexivity|]. rewrite perm_swap. now constructor. Qed.
Lemma isort_perm l : Permutation l (isort l).
Proof. induction l as [|p l IH]; cbn; [reflexivity|]. rewrite <- ins_perm. now constructor. Qed.
Lemma ins_sorted p l : StronglySorted (fun a b => fst a <= fst b) l -> StronglySorted (fun a b => fst a <= fst b) (ins p l).
Proof.
  induction 1 as [|q l Hl IH Hq]; cbn; [repeat constructor|]. destruct (Z.leb_spec (fst p) (fst q)).
  - constructor; [constructor; assumption|]. constructor; [exact H|]. rewrite Forall_forall in *. intros x Hx. specialize (Hq x Hx). lia.
  - constructor; [exact IH|]. rewrite Forall_forall in *. intros x Hx. eapply Permutation_in in Hx; [|symmetry; apply ins_perm]. destruct Hx as [<-|Hx]; [lia|auto].
Qed.
Lemma isort_sorted l : StronglySorted (fun a b => fst a <= fst b) (isort l).
Proof. induction l; cbn; [constructor|]. now apply ins_sorted. Qed.
Lemma ssorted_pairs : forall l, StronglySorted (fun a b : Z * nat => fst a <= fst b) l -> forall i j, (i < j < length l)%nat -> fst (nth i l (0, O)) <= fst (nth j l (0, O)).
Proof.
  induction 1 as [|q l Hl IH Hq]; intros i j H; [cbn in H; lia|]. cbn in H. destruct i, j; cbn; try lia.
  - rewrite Forall_forall in Hq. apply Hq, nth_In. lia.
  - apply IH. lia.
Qed.
Lemma combine_seq_snd {A} : forall (l : list A) s, map snd (combine l (seq s (length l))) = seq s (length l).
Proof. induction l; intros s; cbn; [reflexivity|]. now rewrite IHl. Qed.
Lemma combine_seq_in (l : list Z) : forall s p, In p (combine l (seq s (length l))) -> (s <= snd p)%nat /\ nth (snd p - s) l 0 = fst p.
Proof.
  induction l as [|a l IH]; intros s p H; [easy|]. cbn in H. destruct H as [<-|H]; cbn [fst snd].
  - split; [lia|]. now rewrite Nat.sub_diag.
  - apply IH in H as [H1 H2]. split; [lia|]. replace (snd p - s)%nat with (S (snd p - S s)) by lia. exact H2.
Qed.
Lemma stable_argsort_sorts : sorts stable_argsort.
Proof.
  intros a. unfold stable_argsort. set (c := combine a (seq 0 (length a))). split.
  - transitivity (map snd c); [apply Permutation_map; symmetry; apply isort_perm|]. unfold c. now rewrite combine_seq_snd.
  - intros i j Hij Hj. rewrite map_length in Hj.
    assert (G : forall k, (k < length (isort c))%nat -> nth (nth k (map snd (isort c)) O) a 0 = fst (nth k (isort c) (0, O))).
    { intros k Hk. rewrite (nth_indep _ O (snd (0, O))) by (now rewrite map_length). rewrite map_nth.
      assert (In (nth k (isort c) (0, O)) c) by (eapply Permutation_in; [symmetry; apply isort_perm|now apply nth_In]).
      apply combine_seq_in in H as [_ H]. now rewrite Nat.sub_0_r in H. }
    rewrite !G by lia. apply ssorted_pairs; [apply isort_sorted|lia].
Qed.
