(* Chebyshev polynomials *)
From Coq Require Import Reals.
From Verif Require Import Base.
Local Open Scope R_scope.

(* V_0 = 1, V_1 = kind * x, V_(k+2) = 2 x V_(k+1) - V_k; kind 1: T_k, kind 2: U_k *)
Fixpoint cheb_pair (kind x : R) (k : nat) : R * R :=
  match k with
  | O => (1, kind * x)
  | S k' => let (u, v) := cheb_pair kind x k' in (v, 2 * x * v - u)
  end.
Definition chebV (kind : R) (k : nat) (x : R) : R := fst (cheb_pair kind x k).
Definition chebT := chebV 1.
Definition chebU := chebV 2.

(* c_0 V_n + c_1 V_(n-1) + ... + c_n V_0 *)
Fixpoint series (kind : R) (ck : list R) (x : R) : R :=
  match ck with [] => 0 | c :: ck' => c * chebV kind (List.length ck') x + series kind ck' x end.
(* the same with the coefficients in increasing order *)
Definition series_low (ck : list R) (x : R) : R := series 1 (rev ck) x.

(* l lists every zero of V_n exactly once, in increasing order, all inside (-1, 1) *)
Definition zeros_in_order (kind : R) (n : nat) (l : list R) : Prop :=
  List.length l = n /\
  (forall i j, (i < j)%nat -> (j < n)%nat -> nth i l 0 < nth j l 0) /\
  (forall r, In r l -> -1 < r < 1) /\
  (forall r, In r l <-> chebV kind n r = 0).
