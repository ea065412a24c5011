(* Model of stirlerr, betaloge and binomln (src/wafo/misc.py:1838-1905, 2015-2120) over exact reals, elementwise.
   lg stands for scipy's gammaln; betaln of scipy is modelled by its definition. *)
From Coq Require Import Reals Bool.
Local Open Scope R_scope.

(* a float: a number, inf, -inf or nan *)
Inductive ext := Fin (r : R) | PInf | NInf | NaN.
Definition nlog (x : R) : ext := if Rlt_dec 0 x then Fin (ln x) else if Req_EM_T x 0 then NInf else NaN.
Definition esub (a b : ext) : ext :=
  match a, b with
  | Fin x, Fin y => Fin (x - y)
  | Fin _, PInf => NInf
  | Fin _, NInf => PInf
  | PInf, (Fin _ | NInf) => PInf
  | NInf, (Fin _ | PInf) => NInf
  | _, _ => NaN
  end.
(* 1873-1877: the literals are these fractions, given in the comments there, to at least 18 digits *)
Definition S0 : R := 1 / 12.
Definition S1 : R := 1 / 360.
Definition S2 : R := 1 / 1260.
Definition S3 : R := 1 / 1680.
Definition S4 : R := 1 / 1188.
(* 1838-1905 stirlerr at one number: nan below zero and inf at zero *)
Definition stirlerr (lg : R -> R) (n : R) : ext :=
  if Rlt_dec n 0 then NaN else if Req_EM_T n 0 then PInf else
  let nn := n * n in
  Fin (if Rlt_dec 500 n then (S0 - S1 / nn) / n
       else if Rlt_dec 80 n then (S0 - (S1 - S2 / nn) / nn) / n
       else if Rlt_dec 35 n then (S0 - (S1 - (S2 - S3 / nn) / nn) / nn) / n
       else if Rlt_dec 15 n then (S0 - (S1 - (S2 - (S3 - S4 / nn) / nn) / nn) / nn) / n
       else lg (n + 1) - ln (sqrt (2 * PI * n) * Rpower (n / exp 1) n)).
(* 2064-2073 _betaln3, called with 10 <= a *)
Definition betaln3 (lg : R -> R) (a b : R) : ext :=
  let apb := a + b in
  match stirlerr lg a, stirlerr lg b, stirlerr lg apb with
  | Fin ea, Fin eb, Fin eab => Fin (- (1 / 2) * ln b + 1 / 2 * ln (2 * PI) + (ea + eb - eab) + (a - 1 / 2) * ln (a / apb) + b * ln (1 + - a / apb))
  | _, _, _ => NaN
  end.
(* 2076-2118 betaloge at one pair; huge is the largest float *)
Definition betaloge (lg : R -> R) (huge z w : R) : ext :=
  let a := Rmin z w in
  let b := Rmax z w in
  if Req_EM_T a 0 then PInf
  else if Rlt_dec a 0 then NaN
  else if Rle_dec huge b then NInf
  else if Rle_dec 10 a then betaln3 lg a b
  else Fin (lg a + lg b - lg (a + b)).
(* 2015-2061 binomln at one pair *)
Definition binomln (lg : R -> R) (huge z w : R) : ext :=
  let zmw := z - w in
  let k := if Rlt_dec zmw 2 then zmw else w in
  if Rlt_dec k 0 then NInf
  else if Req_EM_T k 0 then Fin 0
  else if Req_EM_T k 1 then nlog z
  else esub (esub (Fin 0) (nlog (z + 1))) (betaloge lg huge (z - k + 1) (k + 1)).
