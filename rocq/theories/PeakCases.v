(* Cases for findpeaks. *)
From Coq Require Import Permutation String.
From Verif Require Import Base CrossSpec CrossModel RfcSpec RfcModel PeakModel PeakSpec AltProofs.
Local Open Scope list_scope.
Local Open Scope Z_scope.

Lemma put_perm key a : forall l, Permutation (put key a l) (a :: l).
Proof. induction l as [|b l IH]; [apply Permutation_refl|]. cbn [put]. destruct (key a <=? key b); [apply Permutation_refl|]. apply perm_trans with (b :: a :: l); [apply perm_skip; exact IH|apply perm_swap]. Qed.
Inductive chain (key : nat -> Z) : list nat -> Prop := chain0 : chain key [] | chain1 a l : (forall b, In b l -> key a <= key b) -> chain key l -> chain key (a :: l).
Lemma put_chain key a l : chain key l -> chain key (put key a l).
Proof.
  induction 1 as [|b l H C IH]; [constructor; [intros b []|constructor]|]. cbn [put]. destruct (Z.leb_spec (key a) (key b)) as [G|G].
  - constructor; [|constructor; assumption]. intros c [<-|Hc]; [exact G|]. pose proof (H c Hc). lia.
  - constructor; [|exact IH]. intros c Hc. apply (Permutation_in c (put_perm key a l)) in Hc. destruct Hc as [<-|Hc]; [lia|apply H, Hc].
Qed.
Lemma chain_nth key l : chain key l -> forall a b, (a < b < List.length l)%nat -> key (nth a l 0%nat) <= key (nth b l 0%nat).
Proof.
  induction 1 as [|c l H C IH]; intros a b L; [cbn in L; lia|]. destruct b as [|b]; [lia|]. cbn [List.length] in L. destruct a as [|a]; cbn [nth]; [apply H, nth_In; lia|apply IH; lia].
Qed.
Lemma stable_sorts : sorts stable_argsort.
Proof.
  intros l. unfold stable_argsort. set (key := fun i => nth i l 0). assert (P : forall s, Permutation (fold_right (put key) [] s) s) by (induction s as [|a s IH]; [apply Permutation_refl|]; cbn [fold_right]; apply perm_trans with (a :: fold_right (put key) [] s); [apply put_perm|apply perm_skip; exact IH]).
  assert (C : forall s, chain key (fold_right (put key) [] s)) by (induction s as [|a s IH]; [constructor|]; cbn [fold_right]; apply put_chain; exact IH).
  split; [apply P|]. intros a b L. apply (chain_nth key _ (C _)). rewrite (Permutation_length (P _)), seq_length. exact L.
Qed.
Lemma vector_case : let x := [0; 3; 1; 7; 2; 5; 5; 4; 6] in
  several_extremes x /\ findpeaks [] Numba None stable_argsort (Vec x) 3 (Some (0, 1)) (0, 1) = Ok [3; 8; 6]%nat /\
  findpeaks [] Numba None stable_argsort (Vec x) 3 (Some (0, 1)) (4, 5) = Ok [3; 8]%nat /\
  findpeaks [0] Numba None stable_argsort (Vec x) 3 (Some (3, 1)) (0, 1) = Ok [3; 8]%nat /\
  findtp0 Numba x false None = Ok (Some [0; 1; 2; 3; 4; 6; 7; 8]%nat).
Proof.
  intros x. split; [|vm_compute; repeat split; reflexivity]. exists 1%nat, 2%nat. split; [right|split; [left|lia]].
  - split; [lia|]. split; [cbn; lia|]. split; [cbn; lia|]. intros k L _. assert (k = 0%nat) by lia. subst k. cbn. lia.
  - split; [lia|]. split; [cbn; lia|]. split; [cbn; lia|]. intros k L F. assert (k = 0%nat \/ k = 1%nat) as [->| ->] by lia; [|cbn; lia]. pose proof (F 1%nat ltac:(lia)) as Q. cbn in Q. lia.
Qed.
Lemma matrix_case : findpeaks [] Numba None stable_argsort (Mat [[0; 3; 1; 2; 0]; [0; 4; 1; 1; 3]; [0; 1; 0; 3; 0]]) 3 (Some (0, 1)) (0, 1) = Ok [6; 13; 9]%nat.
Proof. vm_compute. reflexivity. Qed.
(* a single peak *)
Lemma single_case : ~ several_extremes [0; 1; 0] /\ findpeaks [] Numba None stable_argsort (Vec [0; 1; 0]) 2 (Some (0, 1)) (0, 1) = Err TypeError /\ TurnsDown [0; 1; 0] 1.
Proof.
  split; [|split; [vm_compute; reflexivity|]].
  - intros [e1 [e2 [A [B N]]]]. apply N. assert (Q : forall e, TurnsUp [0; 1; 0] e \/ TurnsDown [0; 1; 0] e -> e = 1%nat) by (intros e [[P [L _]]|[P [L _]]]; cbn in L; lia). rewrite (Q _ A), (Q _ B). reflexivity.
  - split; [lia|]. split; [cbn; lia|]. split; [cbn; lia|]. intros k L _. assert (k = 0%nat) by lia. subst k. cbn. lia.
Qed.
(* all cycles below the threshold: the maximum *)
Lemma below_case : findpeaks [0] Numba None stable_argsort (Vec [0; 3; 1; 7; 2; 5; 5; 4; 6]) 3 (Some (9, 1)) (0, 1) = Ok [3]%nat /\ findpeaks [0] Numba None stable_argsort (Vec [0; 3; 1; 7; 2; 5; 5; 4; 6]) 1 None (0, 1) = Ok [3]%nat.
Proof. vm_compute. split; reflexivity. Qed.
