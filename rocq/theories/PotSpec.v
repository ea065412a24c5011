(* What declustering is supposed to do, in terms of heights and times only *)
From Coq Require Import Sorted Permutation.
From Verif Require Import Base SelectSpec.
Local Open Scope Z_scope.

(* every call of argsort returns a sorting order (which one, among ties, is left open) *)
Definition sorts (argsort : list Z -> list nat) : Prop := forall a, is_argsort a (argsort a).
(* two times closer than allowed *)
Definition near (tmin a b : Z) : Prop := Z.abs (a - b) <= tmin.
(* the positions kept among the peaks (y, t): far apart, and every other peak has a higher one nearby *)
Definition declustered (tmin : Z) (y t : list Z) (cand kept : nat -> Prop) : Prop :=
  (forall i, kept i -> cand i) /\
  (forall i j, kept i -> kept j -> i <> j -> ~ near tmin (nth i t 0) (nth j t 0)) /\
  (forall i, cand i -> ~ kept i -> exists j, kept j /\ near tmin (nth i t 0) (nth j t 0) /\ nth i y 0 <= nth j y 0).
Definition exceeds (data : list Z) (thresh : Z) (i : nat) : Prop := (i < length data)%nat /\ thresh < nth i data 0.
(* positions of the exceedances *)
Definition above (data : list Z) (thresh : Z) : list nat := filter (fun i => thresh <? nth i data 0) (seq 0 (length data)).
(* times of the exceedances, in the order of the samples *)
Definition exceedance_times (data t : list Z) (thresh : Z) : list Z :=
  map snd (filter (fun p => thresh <? fst p) (combine data t)).
(* all short gaps between consecutive times follow each other: at most one cluster *)
Definition at_most_one_cluster (tmin : Z) (times : list Z) : Prop :=
  forall s, Permutation times s -> Sorted Z.le s ->
  exists a b, forall k, (S k < length s)%nat -> (nth (S k) s 0 - nth k s 0 <= tmin <-> (a <= k < b)%nat).
(* the short gaps of the sorted times s between the positions a and b, bounded by long gaps (or the ends): a cluster *)
Definition short (tmin : Z) (s : list Z) (k : nat) : Prop := (S k < length s)%nat /\ nth (S k) s 0 - nth k s 0 <= tmin.
Definition cluster (tmin : Z) (s : list Z) (a b : nat) : Prop :=
  (a < b)%nat /\ (forall k, (a <= k < b)%nat -> short tmin s k) /\ ~ short tmin s b /\ (a = O \/ ~ short tmin s (a - 1)).
