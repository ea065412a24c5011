(* Specification of plot scales: which axes are logarithmic *)
From Coq Require Import String.
From Verif Require Import Base.
Local Open Scope string_scope.
Local Open Scope Z_scope.

Definition scale_name (x y z : bool) : string :=
  match x, y, z with
  | false, false, false => "linear" | true, false, false => "xlog"
  | false, true, false => "ylog" | true, true, false => "xylog"
  | false, false, true => "zlog" | true, false, true => "xzlog"
  | false, true, true => "yzlog" | true, true, true => "xyzlog"
  end.
(* decimal digit number k of n *)
Definition digit (n : Z) (k : Z) : Z := (n / 10 ^ k) mod 10.
