(* What a user expects of a kernel density estimate of transformed data *)
From Coq Require Import Reals List.
From Coquelicot Require Import Coquelicot.
From Verif Require Import Base SeaSpec KernelSpec.
Import ListNotations.
Local Open Scope R_scope.

(* l is the integral of f over the positive half line (used for functions without negative values only) *)
Definition half_integral (f : R -> R) (l : R) : Prop :=
  (forall a b, 0 < a -> a <= b -> ex_RInt f a b) /\ is_lim (fun W => RInt f (/ W) W) p_infty l.
(* the transformation of one coordinate with parameter v: the logarithm for v = 0, otherwise the power *)
Definition change (v x : R) : R := if Req_EM_T v 0 then ln x else if Req_EM_T v 1 then x else Rpower x v.
(* where it is used: everywhere for v = 1, otherwise for positive values *)
Definition domain (v x : R) : Prop := v = 1 \/ 0 < x.
(* the integral over this domain, and the integral over the values of the transformation *)
Definition domain_integral (v : R) (f : R -> R) (l : R) : Prop := if Req_EM_T v 1 then line_integral f l else half_integral f l.
Definition range_integral (v : R) (f : R -> R) (l : R) : Prop := if Req_EM_T v 0 then line_integral f l else if Req_EM_T v 1 then line_integral f l else half_integral f l.
(* the same in several dimensions, one coordinate after the other *)
Fixpoint domain_integrals (L2 : list R) (f : list R -> R) (l : R) : Prop :=
  match L2 with
  | [] => f [] = l
  | v :: r => exists g, (forall x, domain v x -> domain_integrals r (fun q => f (x :: q)) (g x)) /\ domain_integral v g l
  end.
Fixpoint range_integrals (L2 : list R) (f : list R -> R) (l : R) : Prop :=
  match L2 with
  | [] => f [] = l
  | v :: r => exists g, (forall x, range_integrals r (fun q => f (x :: q)) (g x)) /\ range_integral v g l
  end.
Fixpoint change_point (L2 p : list R) : list R := match L2, p with v :: r, x :: q => change v x :: change_point r q | _, _ => [] end.
(* a point of the domain *)
Definition in_domain (L2 p : list R) : Prop := Forall2 domain L2 p.
(* the bandwidths that a user may give for d dimensions: none, one number, one number for every dimension; and what is asked for in
   dimension i, where a value that is not positive asks for the default *)
Definition fits (d : nat) (hs : option (list R)) : Prop := match hs with None => True | Some h => List.length h = 1%nat \/ List.length h = d end.
Definition asked (hs : option (list R)) (i : nat) : R := match hs with None => 0 | Some [a] => a | Some h => nth i h 0 end.
(* the parameters of the transformation in d dimensions: one number for all, or one for every dimension *)
Definition exponents (L2 : list R) (d : nat) (l : list R) : Prop := (exists a, L2 = [a] /\ l = repeat a d) \/ (List.length L2 = d /\ l = L2).
(* the absolute value of the derivative of the transformation of every coordinate, multiplied *)
Fixpoint jacobian (L2 p : list R) (j : R) : Prop :=
  match L2, p with
  | [], [] => j = 1
  | v :: r, x :: q => exists dt j', is_derive (change v) x dt /\ jacobian r q j' /\ j = Rabs dt * j'
  | _, _ => False
  end.
