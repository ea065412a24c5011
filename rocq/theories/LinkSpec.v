(* What a profile expects of a link *)
From Coq Require Import Reals List String.
From Verif Require Import Base RvModel RvSpec LinkModel.
Import ListNotations.
Local Open Scope R_scope.

(* x is inside of the support of the distribution with this location and scale, where the probability of exceeding x is exp(logsf) *)
Definition exceeds (d : dist) (loc scale x logsf : R) : Prop :=
  0 < scale /\ inside d ((x - loc) / scale) /\ 1 - cdf d ((x - loc) / scale) = exp logsf.
(* the link gives the parameter i of phat from x, its log probability and the other parameters: the value at i itself is of no importance *)
Definition recovers (name : string) (x logsf : R) (phat : list R) (i : nat) : Prop :=
  exists f, LINKS name = Some f /\ forall phat', List.length phat' = List.length phat -> (forall j, j <> i -> nth j phat' 0 = nth j phat 0) ->
  f x logsf phat' i = Ok (nth_error phat i).
(* the link gives this answer *)
Definition answers (name : string) (x logsf : R) (phat : list R) (i : nat) (r : res float) : Prop := exists f, LINKS name = Some f /\ f x logsf phat i = r.
