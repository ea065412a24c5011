(* What a user expects of the methods of a distribution *)
From Coq Require Import Reals.
From Coquelicot Require Import Coquelicot.
From Verif Require Import RvModel.
Local Open Scope R_scope.

(* inside of the support *)
Definition inside (d : dist) (x : R) : Prop :=
  match low d with Some a => a < x | None => True end /\ match high d with Some b => x < b | None => True end.
(* an optional method, where the class defines it, satisfies P *)
Definition defined (m : option (R -> R)) (P : (R -> R) -> Prop) : Prop := match m with Some f => P f | None => True end.

Record coherent (d : dist) : Prop := {
  (* the density is positive and the derivative of the distribution function *)
  density : forall x, inside d x -> 0 < pdf d x /\ is_derive (cdf d) x (pdf d x);
  (* which has values between 0 and 1 *)
  values : forall x, inside d x -> 0 < cdf d x < 1;
  (* the quantile function is its inverse *)
  quantile : forall q, 0 < q < 1 -> inside d (ppf d q) /\ cdf d (ppf d q) = q;
  unquantile : forall x, inside d x -> ppf d (cdf d x) = x;
  (* the other methods say the same *)
  survival : defined (sf d) (fun f => forall x, inside d x -> f x = 1 - cdf d x);
  upper_quantile : defined (isf d) (fun f => forall q, 0 < q < 1 -> f q = ppf d (1 - q));
  log_density : defined (logpdf d) (fun f => forall x, inside d x -> exp (f x) = pdf d x);
  log_values : defined (logcdf d) (fun f => forall x, inside d x -> exp (f x) = cdf d x);
  log_survival : defined (logsf d) (fun f => forall x, inside d x -> exp (f x) = 1 - cdf d x) }.
