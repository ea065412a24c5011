(* Independent trials: the number of successes. *)
From Coq Require Import Reals Lra.
From Verif Require Import Base.
Local Open Scope R_scope.

(* all outcomes of n trials *)
Fixpoint outcomes (n : nat) : list (list bool) := match n with O => [[]] | S m => map (cons true) (outcomes m) ++ map (cons false) (outcomes m) end.
(* the probability of an outcome when the i-th trial succeeds with probability p_i, independently *)
Fixpoint chance (probs : list R) (o : list bool) : R :=
  match probs, o with p :: probs', b :: o' => (if b then p else 1 - p) * chance probs' o' | [], [] => 1 | _, _ => 0 end.
Definition successes (o : list bool) : nat := List.length (filter (fun b => b) o).
(* the expectation of f (number of successes), and the probability of an event *)
Definition expect (probs : list R) (f : nat -> R) : R := fold_right Rplus 0 (map (fun o => chance probs o * f (successes o)) (outcomes (List.length probs))).
Definition prob (probs : list R) (event : nat -> bool) : R := expect probs (fun k => if event k then 1 else 0).
Definition probabilities (probs : list R) : Prop := forall p, In p probs -> 0 <= p <= 1.
