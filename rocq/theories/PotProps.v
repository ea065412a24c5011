From Coq Require Import Sorted Permutation.
From Verif Require Import Base CrossModel SelectSpec PotModel PotSpec PotProofs PotProofs2 PotProofs3 PotProofs4 PotProofs5.
Local Open Scope list_scope.
Local Open Scope Z_scope.

(* ---- C61: the peaks kept inside one cluster, for every order argsort may choose among ties ---- *)
Theorem c61_ok_peaks : forall argsort y t tmin, sorts argsort -> length t = length y ->
  declustered tmin y t (fun i => (i < length y)%nat) (fun i => In i (find_ok_peaks argsort y t tmin)).
Proof. exact find_ok_peaks_spec. Qed.
Print Assumptions c61_ok_peaks.
Example c61_case : sorts stable_argsort /\ find_ok_peaks stable_argsort [4; 5; 3; 5; 1] [0; 1; 2; 3; 9] 1 = [1; 3; 4]%nat.
Proof. split; [apply stable_argsort_sorts|reflexivity]. Qed.

(* ---- C62: findpot ---- *)
(* it never raises and returns distinct exceedances *)
Theorem c62_total : forall m argsort data t thresh tmin, sorts argsort -> length t = length data ->
  exists r, findpot m argsort data (Some t) thresh tmin = Ok r /\ NoDup r /\ forall i, In i r -> exceeds data thresh i.
Proof. exact findpot_total. Qed.
Print Assumptions c62_total.
(* the documented behaviour, if there is at most one cluster *)
Theorem c62_one_cluster : forall m argsort data t thresh tmin, sorts argsort -> length t = length data ->
  at_most_one_cluster tmin (exceedance_times data t thresh) ->
  exists r, findpot m argsort data (Some t) thresh tmin = Ok r /\ NoDup r /\ declustered tmin data t (exceeds data thresh) (fun i => In i r).
Proof. exact findpot_one_cluster. Qed.
Print Assumptions c62_one_cluster.
Example c62_one_cluster_case : at_most_one_cluster 1 (exceedance_times [5; 3; 4; 0; 6] [0; 1; 2; 3; 4] 0) /\
  findpot Numba stable_argsort [5; 3; 4; 0; 6] None 0 1 = Ok [0; 2; 4]%nat.
Proof.
  split; [|reflexivity]. intros s P St. change (exceedance_times _ _ _) with [0; 1; 2; 4] in P.
  assert (s = [0; 1; 2; 4]) as ->.
  { assert (U : forall l l', StronglySorted Z.le l -> StronglySorted Z.le l' -> Permutation l l' -> l' = l).
    { induction l as [|a l IH]; intros l' S1 S2 Q; [now apply Permutation_nil in Q|]. destruct l' as [|b l']; [now apply Permutation_sym, Permutation_nil in Q|].
      inversion S1 as [|? ? A1 A2]; inversion S2 as [|? ? B1 B2]; subst. rewrite Forall_forall in A2, B2.
      assert (a = b). { assert (In a (b :: l')) by (eapply Permutation_in; [exact Q|now left]). assert (In b (a :: l)) by (eapply Permutation_in; [symmetry; exact Q|now left]). destruct H as [H|H], H0 as [H0|H0]; auto. apply B2 in H. apply A2 in H0. lia. }
      subst b. apply Permutation_cons_inv in Q. f_equal. now apply IH. }
    apply (U [0; 1; 2; 4]); [repeat constructor; lia| |exact P]. apply Sorted_StronglySorted; [intros x y z; lia|exact St]. }
  exists O, 2%nat. intros [|[|[|k]]] H; cbn in *; lia.
Qed.
(* with two or more clusters the last exceedance of the first cluster is always returned, whatever is near it *)
Theorem c62_last_of_first_cluster : forall m argsort data t thresh tmin a b, sorts argsort -> length t = length data -> Sorted Z.le t ->
  let ix := above data thresh in let s := exceedance_times data t thresh in
  cluster tmin s a b -> (forall k, (k < a)%nat -> ~ short tmin s k) -> (exists k, (b < k)%nat /\ short tmin s k) ->
  exists r, findpot m argsort data (Some t) thresh tmin = Ok r /\ In (nth b ix O) r.
Proof. exact findpot_last_kept. Qed.
Print Assumptions c62_last_of_first_cluster.
(* and nothing of the third or a later cluster is returned *)
Theorem c62_later_clusters_lost : forall m argsort data t thresh tmin a1 b1 a2 b2 k, sorts argsort -> length t = length data -> Sorted Z.le t ->
  let ix := above data thresh in let s := exceedance_times data t thresh in
  cluster tmin s a1 b1 -> cluster tmin s a2 b2 -> (b1 < a2)%nat -> (b2 < k < length ix)%nat -> short tmin s k \/ short tmin s (k - 1) ->
  exists r, findpot m argsort data (Some t) thresh tmin = Ok r /\ ~ In (nth k ix O) r.
Proof. exact findpot_third_lost. Qed.
Print Assumptions c62_later_clusters_lost.
(* so the documented behaviour fails: two neighbouring samples returned with tmin = 1, and the largest sample lost *)
Theorem c62_documented_refuted :
  findpot Numba stable_argsort [5; 3; 0; 0; 4; 6] None 0 1 = Ok [0; 1; 5]%nat /\ near 1 0 1 /\
  findpot Numba stable_argsort [5; 3; 0; 0; 4; 6; 0; 0; 9; 1] None 0 1 = Ok [0; 1; 5]%nat.
Proof. split; [reflexivity|]. split; [unfold near; lia|reflexivity]. Qed.
Print Assumptions c62_documented_refuted.
Example c62_cluster_case : let s := exceedance_times [5; 3; 0; 0; 4; 6; 0; 0; 9; 1] [0; 1; 2; 3; 4; 5; 6; 7; 8; 9] 0 in
  cluster 1 s 0 1 /\ cluster 1 s 2 3 /\ short 1 s 4.
Proof.
  cbv zeta. change (exceedance_times _ _ _) with [0; 1; 4; 5; 8; 9].
  assert (Sh : forall k, (k < 5)%nat -> short 1 [0; 1; 4; 5; 8; 9] k <-> Nat.even k = true).
  { intros [|[|[|[|[|k]]]]] H; unfold short; cbn; split; intros; try lia; try discriminate; try reflexivity; split; lia. }
  unfold cluster. split; [|split; [|apply Sh; [lia|reflexivity]]]; (split; [lia|]).
  - split; [intros k Hk; assert (k = 0)%nat as -> by lia; apply Sh; [lia|reflexivity]|]. split; [rewrite Sh by lia; discriminate|now left].
  - split; [intros k Hk; assert (k = 2)%nat as -> by lia; apply Sh; [lia|reflexivity]|]. split; [rewrite Sh by lia; discriminate|right]. rewrite Sh by lia. discriminate.
Qed.
(* decluster returns the heights and times of these indices *)
Theorem c62_decluster : forall m argsort data t thresh tmin, sorts argsort -> length t = length data ->
  exists r, findpot m argsort data (Some t) thresh tmin = Ok r /\
  decluster m argsort data (Some t) thresh tmin = Ok (map (fun i => nth i data 0) r, map (fun i => nth i t 0) r).
Proof. exact decluster_spec. Qed.
Print Assumptions c62_decluster.
