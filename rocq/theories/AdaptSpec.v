(* What the adaptive integrators are supposed to do *)
From Coq Require Import Reals.
From Verif Require Import Base PolySpec ChebSpec QuadSpec.
Local Open Scope R_scope.

(* the weight functions documented for gaussq, and the interval of the underlying rule *)
Definition doc_weight (wfun : nat) (alpha beta a b x : R) : R :=
  match wfun with
  | 4%nat => Rpower (x - a) alpha * Rpower (b - x) beta
  | 5%nat => / sqrt ((x - a) * (b - x))
  | 6%nat => sqrt ((x - a) * (b - x))
  | 7%nat => sqrt ((x - a) / (b - x))
  | 8%nat => / sqrt (b - x)
  | 9%nat => sqrt (b - x)
  | _ => 1
  end.
Definition rule_lo (wfun : nat) : R := match wfun with 7%nat | 8%nat | 9%nat => 0 | _ => -1 end.
Definition finite_interval_weight (wfun : nat) : Prop := In wfun [1; 4; 5; 6; 7; 8; 9]%nat.

(* the weight on the rule's own interval and on [a, b]; for wfun = 4 with the exponents as they are used, (1 - x)^alpha (1 + x)^beta *)
Definition base_weight (wfun : nat) alpha beta : R -> R :=
  if Nat.eqb wfun 4 then fun x => Rpower (1 - x) alpha * Rpower (x - -1) beta else doc_weight wfun alpha beta (rule_lo wfun) 1.
Definition real_weight (wfun : nat) alpha beta a b : R -> R :=
  if Nat.eqb wfun 4 then fun x => Rpower (b - x) alpha * Rpower (x - a) beta else doc_weight wfun alpha beta a b.

(* the rule applied on N equal panels of [a, b] *)
Definition composite (nodes weights : list R) (f : R -> R) (a b : R) (N : nat) : R :=
  let d := (b - a) / (2 * INR N) in
  fold_right Rplus 0 (map (fun j => d * rule_sum nodes weights (fun t => f (a + (2 * INR j + 1) * d + d * t))) (seq 0 N)).
(* lg is the integer nearest to the binary logarithm of x (either one half way) *)
Definition nearest_log2 (lg : Z) (x : R) : Prop := Rabs (IZR lg - ln x / ln 2) <= 1/2.
(* I is the integral of f over [a, infinity), respectively (-infinity, b] *)
Definition integral_to_infinity (f : R -> R) (a I : R) : Prop :=
  forall eps, 0 < eps -> exists X0, forall X, X0 <= X -> a <= X -> exists J, integral f a X J /\ Rabs (J - I) < eps.
Definition integral_from_infinity (f : R -> R) (b I : R) : Prop :=
  forall eps, 0 < eps -> exists X0, forall X, X <= X0 -> X <= b -> exists J, integral f X b J /\ Rabs (J - I) < eps.
(* shape parameters, in units of 10^-7, that have at most five decimals *)
Definition five_decimals (q : nat * nat * Z * Z) : Prop := let '(_, _, al, be) := q in (exists k, al = 100 * k)%Z /\ (exists k, be = 100 * k)%Z.
(* an integrand that is NaN at one point and the Chebyshev polynomial of degree 8 elsewhere *)
Definition spoiled (x : R) : option R := if Req_EM_T x (cos (PI / 16)) then None else Some (chebT 8 x).
(* the same result with the value negated *)
Definition neg_result (r : res (option R * option R)) : res (option R * option R) := let* p := r in Ok (option_map Ropp (fst p), snd p).
