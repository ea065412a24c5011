(* What the statistics are supposed to be *)
From Coq Require Import Reals ZArith.
From Verif Require Import Base GridSpec.
Local Open Scope R_scope.

(* how many elements of l satisfy the decidable condition *)
Definition count {A} (f : A -> bool) (l : list A) : nat := List.length (filter f l).
Definition Rleb (a b : R) : bool := if Rle_dec a b then true else false.
Definition Rltb (a b : R) : bool := if Rlt_dec a b then true else false.
Definition integers (l : list R) : Prop := forall v, In v l -> exists z, v = IZR z.
Definition average (l : list R) : R := sumR l / INR (List.length l).
Definition variance (l : list R) : R := average (map (fun v => (v - average l) ^ 2) l).
(* the fraction of the data not larger than v *)
Definition fraction_below (x : list R) (v : R) : R := INR (count (fun w => Rleb w v) x) / INR (List.length x).
(* exceedances of the threshold in block number b, counted from the first time *)
Definition in_block (first tb : R) (b : nat) (t : R) : bool :=
  Rleb (first + INR b * tb) t && Rltb t (first + INR (S b) * tb).
Definition block_count (data t : list R) (first tb thresh : R) (b : nat) : nat :=
  count (fun p => Rltb thresh (fst p) && in_block first tb b (snd p)) (combine data t).
