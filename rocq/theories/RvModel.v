(* Continuous distributions with closed forms of src/wafo/stats/_continuous_distns.py (cited as cd) and src/wafo/stats/distributions.py,
   over exact real numbers, on the inside of their supports.  scipy's rv_continuous, which handles the ends of the support, location and
   scale, is not modelled. *)
From Coq Require Import Reals.
Local Open Scope R_scope.

(* scipy.special and numpy *)
Definition expm1 (x : R) : R := exp x - 1.
Definition log1p (x : R) : R := ln (1 + x).
Definition xlogy (a y : R) : R := a * ln y.
Definition xlog1py (a y : R) : R := a * log1p y.
Definition expit (x : R) : R := 1 / (1 + exp (- x)).
Definition logit (q : R) : R := ln (q / (1 - q)).
Definition inv_boxcox (y l : R) : R := if Req_EM_T l 0 then exp y else exp (log1p (l * y) / l).
Definition inv_boxcox1p (y l : R) : R := if Req_EM_T l 0 then expm1 y else expm1 (log1p (l * y) / l).
Definition boxcox (x l : R) : R := if Req_EM_T l 0 then ln x else expm1 (l * ln x) / l.
Definition boxcox1p (x l : R) : R := if Req_EM_T l 0 then log1p x else expm1 (l * log1p x) / l.
Definition artanh (q : R) : R := ln ((1 + q) / (1 - q)) / 2.
(* x ** c for x > 0 *)
Notation "x ^^ c" := (Rpower x c) (at level 30).

(* the methods of a distribution; those that a class does not define are None.  The support is (low, high), None is infinite *)
Record dist := mk {
  low : option R; high : option R;
  pdf : R -> R; cdf : R -> R; ppf : R -> R;
  sf : option (R -> R); isf : option (R -> R);
  logpdf : option (R -> R); logcdf : option (R -> R); logsf : option (R -> R) }.

(* cd:443-471 *)
Definition anglit : dist := mk (Some (- PI / 4)) (Some (PI / 4)) (fun x => cos (2 * x)) (fun x => sin (x + PI / 4) ^ 2) (fun q => asin (sqrt q) - PI / 4) None None None None None.
(* cd:483-511 *)
Definition arcsine : dist := mk (Some 0) (Some 1) (fun x => 1 / PI / sqrt (x * (1 - x))) (fun x => 2 / PI * asin (sqrt x)) (fun q => sin (PI / 2 * q) ^ 2) None None None None None.
(* cd:825-855 *)
Definition bradford (c : R) : dist := mk (Some 0) (Some 1) (fun x => c / (c * x + 1) / log1p c) (fun x => log1p (c * x) / log1p c) (fun q => expm1 (q * log1p c) / c) None None None None None.
(* cd:889-971; the branch for x = 0 is left out *)
Definition burr (c d : R) : dist := mk (Some 0) None
  (fun x => c * d * x ^^ (- c - 1) / (1 + x ^^ (- c)) ^^ (d + 1)) (fun x => (1 + x ^^ (- c)) ^^ (- d)) (fun q => (q ^^ (- 1 / d) - 1) ^^ (- 1 / c))
  (Some (fun x => exp (log1p (- (1 + x ^^ (- c)) ^^ (- d))))) None
  (Some (fun x => ln c + ln d + xlogy (- c - 1) x - xlog1py (d + 1) (x ^^ (- c)))) (Some (fun x => log1p (x ^^ (- c)) * - d)) (Some (fun x => log1p (- (1 + x ^^ (- c)) ^^ (- d)))).
(* cd:1006-1073 *)
Definition burr12 (c d : R) : dist :=
  let lpdf := fun x => ln c + ln d + xlogy (c - 1) x + xlog1py (- d - 1) (x ^^ c) in
  let lsf := fun x => xlog1py (- d) (x ^^ c) in
  mk (Some 0) None (fun x => exp (lpdf x)) (fun x => - expm1 (lsf x)) (fun q => expm1 (- 1 / d * log1p (- q)) ^^ (1 / c))
    (Some (fun x => exp (lsf x))) None (Some lpdf) (Some (fun x => log1p (- (1 + x ^^ c) ^^ (- d)))) (Some lsf).
(* cd:1083-1134 *)
Definition fisk (c : R) : dist := burr c 1.
(* cd:1150-1184 *)
Definition cauchy : dist := mk None None (fun x => 1 / PI / (1 + x * x)) (fun x => / 2 + 1 / PI * atan x) (fun q => tan (PI * q - PI / 2))
  (Some (fun x => / 2 - 1 / PI * atan x)) (Some (fun q => tan (PI / 2 - PI * q))) None None None.
(* cd:1487-1534 *)
Definition expon : dist := mk (Some 0) None (fun x => exp (- x)) (fun x => - expm1 (- x)) (fun q => - log1p (- q))
  (Some (fun x => exp (- x))) (Some (fun q => - ln q)) (Some (fun x => - x)) None (Some (fun x => - x)).
(* cd:1669-1727 *)
Definition exponweib (a c : R) : dist :=
  let lpdf := fun x => let negxc := - x ^^ c in let exm1c := - expm1 negxc in ln a + ln c + xlogy (a - 1) exm1c + negxc + xlogy (c - 1) x in
  mk (Some 0) None (fun x => exp (lpdf x)) (fun x => (- expm1 (- x ^^ c)) ^^ a) (fun q => (- log1p (- q ^^ (1 / a))) ^^ (1 / c)) None None (Some lpdf) None None.
(* cd:1733-1780 *)
Definition exponpow (b : R) : dist :=
  let lpdf := fun x => let xb := x ^^ b in 1 + ln b + xlogy (b - 1) x + xb - exp xb in
  mk (Some 0) None (fun x => exp (lpdf x)) (fun x => - expm1 (- expm1 (x ^^ b))) (fun q => log1p (- log1p (- q)) ^^ (1 / b))
    (Some (fun x => exp (- expm1 (x ^^ b)))) (Some (fun q => log1p (- ln q) ^^ (1 / b))) (Some lpdf) None None.
(* cd:2053-2112 *)
Definition weibull_min (c : R) : dist := mk (Some 0) None (fun x => c * x ^^ (c - 1) * exp (- x ^^ c)) (fun x => - expm1 (- x ^^ c)) (fun q => (- log1p (- q)) ^^ (1 / c))
  (Some (fun x => exp (- x ^^ c))) None (Some (fun x => ln c + xlogy (c - 1) x - x ^^ c)) None (Some (fun x => - x ^^ c)).
(* cd:2129-2183 *)
Definition weibull_max (c : R) : dist := mk None (Some 0) (fun x => c * (- x) ^^ (c - 1) * exp (- (- x) ^^ c)) (fun x => exp (- (- x) ^^ c)) (fun q => - (- ln q) ^^ (1 / c))
  (Some (fun x => - expm1 (- (- x) ^^ c))) None (Some (fun x => ln c + xlogy (c - 1) (- x) - (- x) ^^ c)) (Some (fun x => - (- x) ^^ c)) None.
(* cd:2444-2480 *)
Definition genlogistic (c : R) : dist :=
  let lpdf := fun x => ln c - x - (c + 1) * log1p (exp (- x)) in
  mk None None (fun x => exp (lpdf x)) (fun x => (1 + exp (- x)) ^^ (- c)) (fun q => - ln (q ^^ (- 1 / c) - 1)) None None (Some lpdf) None None.
(* cd:2495-2566 *)
Definition genpareto (c : R) : dist :=
  let lpdf := fun x => if Req_EM_T c 0 then - x else - xlog1py (c + 1) (c * x) / c in
  mk (Some 0) (if Rlt_dec c 0 then Some (- 1 / c) else None) (fun x => exp (lpdf x)) (fun x => - inv_boxcox1p (- x) (- c)) (fun q => - boxcox1p (- q) (- c))
    (Some (fun x => inv_boxcox (- x) (- c))) (Some (fun q => - boxcox q (- c))) (Some lpdf) None (Some (fun x => if Req_EM_T c 0 then - x else - log1p (c * x) / c)).
(* cd:2674-2755; _XMIN, the smallest normal number, only guards the division and is left out; so are the cases of infinite x *)
Definition genextreme (c : R) : dist :=
  let loglogcdf := fun x => if Req_EM_T c 0 then - x else log1p (- c * x) / c in
  let lcdf := fun x => - exp (loglogcdf x) in
  let lpdf := fun x => let cx := if Req_EM_T c 0 then 0 else c * x in - exp (loglogcdf x) + loglogcdf x - log1p (- cx) in
  let q2x := fun x => if Req_EM_T c 0 then x else - expm1 (- c * x) / c in
  mk (if Rlt_dec c 0 then Some (1 / c) else None) (if Rlt_dec 0 c then Some (1 / c) else None) (fun x => exp (lpdf x)) (fun x => exp (lcdf x)) (fun q => q2x (- ln (- ln q)))
    (Some (fun x => - expm1 (lcdf x))) (Some (fun q => q2x (- ln (- log1p (- q))))) (Some lpdf) (Some lcdf) None.
(* cd:3137-3181 *)
Definition genhalflogistic (c : R) : dist := mk (Some 0) (Some (1 / c))
  (fun x => let limit := 1 / c in let tmp := 1 - c * x in let tmp0 := tmp ^^ (limit - 1) in let tmp2 := tmp0 * tmp in 2 * tmp0 / (1 + tmp2) ^ 2)
  (fun x => let limit := 1 / c in let tmp := 1 - c * x in let tmp2 := tmp ^^ limit in (1 - tmp2) / (1 + tmp2)) (fun q => 1 / c * (1 - ((1 - q) / (1 + q)) ^^ c)) None None None None None.
(* cd:3190-3223 *)
Definition gompertz (c : R) : dist :=
  let lpdf := fun x => ln c + x - c * expm1 x in
  mk (Some 0) None (fun x => exp (lpdf x)) (fun x => - expm1 (- c * expm1 x)) (fun q => log1p (- 1 / c * log1p (- q))) None None (Some lpdf) None None.
(* cd:3232-3272 *)
Definition gumbel_r : dist :=
  let lpdf := fun x => - x - exp (- x) in
  mk None None (fun x => exp (lpdf x)) (fun x => exp (- exp (- x))) (fun q => - ln (- ln q)) None None (Some lpdf) (Some (fun x => - exp (- x))) None.
(* cd:3285-3331 *)
Definition gumbel_l : dist :=
  let lpdf := fun x => x - exp x in
  mk None None (fun x => exp (lpdf x)) (fun x => - expm1 (- exp x)) (fun q => ln (- log1p (- q))) (Some (fun x => exp (- exp x))) (Some (fun q => ln (- ln q))) (Some lpdf) None (Some (fun x => - exp x)).
(* cd:3344-3375 *)
Definition halfcauchy : dist := mk (Some 0) None (fun x => 2 / PI / (1 + x * x)) (fun x => 2 / PI * atan x) (fun q => tan (PI / 2 * q)) None None (Some (fun x => ln (2 / PI) - log1p (x * x))) None None.
(* cd:3387-3420 *)
Definition halflogistic : dist :=
  let lpdf := fun x => ln 2 - x - 2 * log1p (exp (- x)) in
  mk (Some 0) None (fun x => exp (lpdf x)) (fun x => tanh (x / 2)) (fun q => 2 * artanh q) None None (Some lpdf) None None.
(* cd:3491-3519 *)
Definition hypsecant : dist := mk None None (fun x => 1 / (PI * cosh x)) (fun x => 2 / PI * atan (exp x)) (fun q => ln (tan (PI * q / 2))) None None None None None.
(* cd:4072-4116 *)
Definition invweibull (c : R) : dist := mk (Some 0) None (fun x => c * x ^^ (- c - 1) * exp (- x ^^ (- c))) (fun x => exp (- x ^^ (- c))) (fun q => (- ln q) ^^ (- 1 / c)) None None None None None.
(* cd:4222-4253 *)
Definition laplace : dist := mk None None (fun x => / 2 * exp (- Rabs x)) (fun x => if Rlt_dec 0 x then 1 - / 2 * exp (- x) else / 2 * exp x)
  (fun q => if Rlt_dec (/ 2) q then - ln (2 * (1 - q)) else ln (2 * q)) None None None None None.
(* cd:4842-4883 *)
Definition logistic : dist :=
  let lpdf := fun x => - x - 2 * log1p (exp (- x)) in
  mk None None (fun x => exp (lpdf x)) expit logit (Some (fun x => expit (- x))) (Some (fun q => - logit q)) (Some lpdf) None None.
(* cd:4946-4986 *)
Definition loglaplace (c : R) : dist := mk (Some 0) None (fun x => c / 2 * x ^^ ((if Rlt_dec x 1 then c else - c) - 1)) (fun x => if Rlt_dec x 1 then / 2 * x ^^ c else 1 - / 2 * x ^^ (- c))
  (fun q => if Rlt_dec q (/ 2) then (2 * q) ^^ (1 / c) else (2 * (1 - q)) ^^ (- 1 / c)) None None None None None.
(* cd:5260-5308 *)
Definition mielke (k s : R) : dist := mk (Some 0) None (fun x => k * x ^^ (k - 1) / (1 + x ^^ s) ^^ (1 + k * 1 / s)) (fun x => x ^^ k / (1 + x ^^ s) ^^ (k * 1 / s))
  (fun q => let qsk := q ^^ (s * 1 / k) in (qsk / (1 - qsk)) ^^ (1 / s)) None None (Some (fun x => ln k + ln x * (k - 1) - log1p (x ^^ s) * (1 + k * 1 / s))) None None.
(* cd:5577-5621 *)
Definition kappa3 (a : R) : dist := mk (Some 0) None (fun x => a * (a + x ^^ a) ^^ (- 1 / a - 1)) (fun x => x * (a + x ^^ a) ^^ (- 1 / a)) (fun q => (a / (q ^^ (- a) - 1)) ^^ (1 / a)) None None None None None.
(* cd:6119-6152 *)
Definition pareto (b : R) : dist := mk (Some 1) None (fun x => b * x ^^ (- b - 1)) (fun x => 1 - x ^^ (- b)) (fun q => (1 - q) ^^ (- 1 / b)) (Some (fun x => x ^^ (- b))) None None None None.
(* cd:6188-6229 *)
Definition lomax (c : R) : dist := mk (Some 0) None (fun x => c * 1 / (1 + x) ^^ (c + 1)) (fun x => - expm1 (- c * log1p x)) (fun q => expm1 (- log1p (- q) / c))
  (Some (fun x => exp (- c * log1p x))) None (Some (fun x => ln c - (c + 1) * log1p x)) None (Some (fun x => - c * log1p x)).
(* cd:6389-6427 *)
Definition powerlaw (a : R) : dist := mk (Some 0) (Some 1) (fun x => a * x ^^ (a - 1)) (fun x => x ^^ (a * 1)) (fun q => q ^^ (1 / a)) None None (Some (fun x => ln a + xlogy (a - 1) x)) (Some (fun x => a * ln x)) None.
(* cd:6582-6629 *)
Definition rayleigh : dist :=
  let lpdf := fun r => ln r - / 2 * r * r in let lsf := fun r => - / 2 * r * r in
  mk (Some 0) None (fun r => exp (lpdf r)) (fun r => - expm1 (- / 2 * r ^ 2)) (fun q => sqrt (- 2 * log1p (- q)))
    (Some (fun r => exp (lsf r))) (Some (fun q => sqrt (- 2 * ln q))) (Some lpdf) None (Some lsf).
(* distributions.py:160-213, cd:6645-6696 *)
Definition truncrayleigh (c : R) : dist :=
  let lsf := fun r => let rc := r + c in - (rc * rc - c * c) / 2 in
  mk (Some 0) None (fun r => let rc := r + c in rc * exp (- (rc * rc - c * c) / 2)) (fun r => let rc := r + c in - expm1 (- (rc * rc - c * c) / 2)) (fun q => sqrt (c * c - 2 * log1p (- q)) - c)
    (Some (fun r => exp (lsf r))) None (Some (fun r => let rc := r + c in ln rc - (rc * rc - c * c) / 2)) None (Some lsf).
(* cd:6715-6781; reciprocal and loguniform *)
Definition reciprocal (a b : R) : dist := mk (Some a) (Some b) (fun x => 1 / (x * ln (b * 1 / a))) (fun x => (ln x - ln a) / ln (b * 1 / a)) (fun q => a * (b * 1 / a) ^^ q)
  None None (Some (fun x => - ln x - ln (ln (b * 1 / a)))) None None.
(* cd:7049-7101 *)
Definition trapz_cdf (c d x : R) : R := if Rlt_dec x c then x ^ 2 / c / (d - c + 1) else if Rle_dec x d then (c + 2 * (x - c)) / (d - c + 1) else 1 - (1 - x) ^ 2 / (d - c + 1) / (1 - d).
Definition trapz (c d : R) : dist := mk (Some 0) (Some 1) (fun x => let u := 2 / (d - c + 1) in if Rlt_dec x c then u * x / c else if Rle_dec x d then u else u * (1 - x) / (1 - d))
  (trapz_cdf c d)
  (fun q => if Rlt_dec q (trapz_cdf c d c) then sqrt (q * c * (1 + d - c)) else if Rle_dec q (trapz_cdf c d d) then / 2 * q * (1 + d - c) + / 2 * c else 1 - sqrt ((1 - q) * (d - c + 1) * (1 - d))) None None None None None.
(* cd:7107-7165 *)
Definition triang (c : R) : dist := mk (Some 0) (Some 1)
  (fun x => if Req_EM_T c 0 then 2 - 2 * x else if Rlt_dec x c then 2 * x / c else if Req_EM_T c 1 then 2 * x else 2 * (1 - x) / (1 - c))
  (fun x => if Req_EM_T c 0 then 2 * x - x * x else if Rlt_dec x c then x * x / c else if Req_EM_T c 1 then x * x else (x * x - 2 * x + c) / (c - 1))
  (fun q => if Rlt_dec q c then sqrt (c * q) else 1 - sqrt ((1 - c) * (1 - q))) None None None None None.
(* cd:7180-7219 *)
Definition truncexpon (b : R) : dist := mk (Some 0) (Some b) (fun x => exp (- x) / - expm1 (- b)) (fun x => expm1 (- x) / expm1 (- b)) (fun q => - log1p (q * expm1 (- b)))
  None None (Some (fun x => - x - ln (- expm1 (- b)))) None None.
(* cd:7598-7620 *)
Definition uniform : dist := mk (Some 0) (Some 1) (fun x => 1) (fun x => x) (fun q => q) None None None None None.
