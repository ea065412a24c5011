(* C69, C71: index conversions and findoutliers *)
From Coq Require Import Sorting.Sorted.
From Verif Require Import Base IndexModel IndexSpec IndexProofs.
Local Open Scope Z_scope.

(* C69: sub2index gives the position of the element in the chosen order, or raises for subscripts outside
   the shape *)
Theorem c69_sub2index : forall shape subs o, in_shape shape subs ->
  sub2index shape subs o = Ok (position shape subs o) /\ 0 <= position shape subs o < prodZ shape.
Proof. exact sub2index_ok. Qed.
Print Assumptions c69_sub2index.
Theorem c69_sub2index_outside : forall shape subs o, ~ in_shape shape subs -> sub2index shape subs o = Err ValueError.
Proof. exact sub2index_bad. Qed.
Print Assumptions c69_sub2index_outside.
(* C69: index2sub gives the subscripts of that position, or raises for an index outside the array *)
Theorem c69_index2sub : forall shape i o, Forall (fun d => 0 <= d) shape -> 0 <= i < prodZ shape ->
  exists subs, index2sub shape i o = Ok subs /\ in_shape shape subs /\ position shape subs o = i.
Proof. exact index2sub_ok. Qed.
Print Assumptions c69_index2sub.
Theorem c69_index2sub_outside : forall shape i o, ~ 0 <= i < prodZ shape -> index2sub shape i o = Err ValueError.
Proof. exact index2sub_bad. Qed.
Print Assumptions c69_index2sub_outside.
(* C69: the two are mutually inverse *)
Theorem c69_index_sub_index : forall shape i o subs, Forall (fun d => 0 <= d) shape ->
  index2sub shape i o = Ok subs -> sub2index shape subs o = Ok i.
Proof. exact sub_index_sub. Qed.
Print Assumptions c69_index_sub_index.
Theorem c69_sub_index_sub : forall shape subs o i, sub2index shape subs o = Ok i ->
  Forall (fun d => 0 <= d) shape -> index2sub shape i o = Ok subs.
Proof. exact index_sub_index. Qed.
Print Assumptions c69_sub_index_sub.
Example c69_case : sub2index [3; 3; 4] [1; 2; 3] OrderC = Ok 23 /\ index2sub [3; 3; 4] 23 OrderC = Ok [1; 2; 3] /\
  index2sub [3; 3; 4] 34 OrderF = Ok [1; 2; 3] /\ Forall (fun d => 0 <= d) [3; 3; 4] /\ in_shape [3; 3; 4] [1; 2; 3].
Proof. repeat split; repeat constructor; lia. Qed.

(* C71: findoutliers reports exactly the suspicious samples, in increasing order; its two lists cover all
   samples, and exclude each other unless a single sample is suspicious *)
Theorem c71_findoutliers : forall x zcrit dcrit ddcrit, (2 < length x)%nat -> replaced x ->
  exists inds indg, findoutliers x zcrit dcrit ddcrit = Ok (inds, indg) /\
    StronglySorted lt inds /\ StronglySorted lt indg /\
    (forall j, In j inds <-> suspicious (filled x) zcrit dcrit ddcrit j) /\
    (forall j, In j inds -> (j < length x)%nat) /\
    (length inds <> 1%nat -> forall j, In j indg <-> (j < length x)%nat /\ ~ In j inds) /\
    (forall j, (j < length x)%nat -> In j inds \/ In j indg).
Proof. exact findoutliers_ok. Qed.
Print Assumptions c71_findoutliers.
Theorem c71_too_short : forall x zcrit dcrit ddcrit, (length x <= 2)%nat -> findoutliers x zcrit dcrit ddcrit = Err ValueError.
Proof. exact findoutliers_short. Qed.
Print Assumptions c71_too_short.
Example c71_case : findoutliers (map Some [0; 1; 3; 30; 4; 4; 6; 9]) 0 10 20 = Ok ([2; 3; 4; 5; 6]%nat, [0; 1; 7]%nat) /\
  replaced (map Some [0; 1; 3; 30; 4; 4; 6; 9]).
Proof.
  split; [reflexivity|]. left. intros i. do 8 (destruct i as [|i]; [discriminate|]). destruct i; discriminate.
Qed.
(* C71 fails for a single suspicious sample: it is in both lists *)
Theorem c71_single_outlier_refuted : exists x zcrit dcrit ddcrit inds indg j,
  findoutliers x zcrit dcrit ddcrit = Ok (inds, indg) /\ In j inds /\ In j indg.
Proof. exists (map Some [0; 1; 5; 7]), 0, 3, 100, [2%nat], [0; 1; 2; 3]%nat, 2%nat. split; [reflexivity|]. cbn. auto. Qed.
Print Assumptions c71_single_outlier_refuted.
(* C71 fails for missing samples: they are replaced by zero and may be classified as good *)
Theorem c71_missing_refuted : exists x zcrit dcrit ddcrit inds indg j,
  findoutliers x zcrit dcrit ddcrit = Ok (inds, indg) /\ nth j x (Some 0) = None /\ ~ In j inds /\ In j indg.
Proof.
  exists [Some 2; None; Some 3; Some (-2)], 0, 10, 10, [], [0; 1; 2; 3]%nat, 1%nat. split; [reflexivity|]. split; [reflexivity|]. cbn. auto.
Qed.
Print Assumptions c71_missing_refuted.
(* and one at the very start is not even replaced, so that the jump after it goes unnoticed *)
Theorem c71_first_missing_refuted : exists x zcrit dcrit ddcrit inds indg j,
  findoutliers x zcrit dcrit ddcrit = Ok (inds, indg) /\ suspicious (filled x) zcrit dcrit ddcrit j /\ ~ In j inds.
Proof.
  exists [None; Some 50; Some 52; Some 53], 0, 10, 100, [], [0; 1; 2; 3]%nat, 1%nat. split; [reflexivity|]. split; [|cbn; auto].
  left. exists 0%nat. cbn. repeat split; lia.
Qed.
Print Assumptions c71_first_missing_refuted.
