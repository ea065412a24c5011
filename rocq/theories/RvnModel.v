(* Continuous distributions built from the normal distribution, src/wafo/stats/_continuous_distns.py (cited as cd), over exact real numbers,
   on the inside of their supports.  scipy's rv_continuous is not modelled.  The special functions of scipy are their definitions. *)
From Coq Require Import Reals.
From Coquelicot Require Import Coquelicot.
From Verif Require Import RvModel.
Local Open Scope R_scope.

(* scipy.special.ndtr, ndtri, log_ndtr and erfc *)
Definition ndtr (x : R) : R := / 2 + RInt (fun u => exp (- (u ^ 2 / 2))) 0 x / sqrt (2 * PI).
Definition ndtri (q : R) : R := real (Lub_Rbar (fun x => ndtr x <= q)).
Definition log_ndtr (x : R) : R := ln (ndtr x).
Definition erfc (x : R) : R := 1 - 2 / sqrt PI * RInt (fun t => exp (- t ^ 2)) 0 x.

(* cd:247-280 *)
Definition norm_pdf_C : R := sqrt (2 * PI).
Definition norm_pdf_logC : R := ln norm_pdf_C.
Definition norm_pdf (x : R) : R := exp (- x ^ 2 / 2) / norm_pdf_C.
Definition norm_logpdf (x : R) : R := - x ^ 2 / 2 - norm_pdf_logC.
Definition norm_cdf (x : R) : R := ndtr x.
Definition norm_logcdf (x : R) : R := log_ndtr x.
Definition norm_ppf (q : R) : R := ndtri q.
Definition norm_sf (x : R) : R := norm_cdf (- x).
Definition norm_logsf (x : R) : R := norm_logcdf (- x).
Definition norm_isf (q : R) : R := - norm_ppf q.
(* cd:283-332 *)
Definition norm : dist := mk None None norm_pdf norm_cdf norm_ppf (Some norm_sf) (Some norm_isf) (Some norm_logpdf) (Some norm_logcdf) (Some norm_logsf).
(* cd:421-434 *)
Definition alpha (a : R) : dist := mk (Some 0) None (fun x => 1 / x ^ 2 / norm_cdf a * norm_pdf (a - 1 / x)) (fun x => norm_cdf (a - 1 / x) / norm_cdf a) (fun q => 1 / (a - ndtri (q * norm_cdf a)))
  None None (Some (fun x => - 2 * ln x + norm_logpdf (a - 1 / x) - ln (norm_cdf a))) None None.
(* cd:1822-1837 *)
Definition fatiguelife (c : R) : dist :=
  let lpdf := fun x => ln (x + 1) - (x - 1) ^ 2 / (2 * x * c ^ 2) - ln (2 * c) - / 2 * (ln (2 * PI) + 3 * ln x) in
  mk (Some 0) None (fun x => exp (lpdf x)) (fun x => norm_cdf (1 / c * (sqrt x - 1 / sqrt x))) (fun q => let tmp := c * ndtri q in / 4 * (tmp + sqrt (tmp ^ 2 + 4)) ^ 2) None None (Some lpdf) None None.
(* cd:3465-3476 *)
Definition halfnorm : dist := mk (Some 0) None (fun x => sqrt (2 / PI) * exp (- x * x / 2)) (fun x => norm_cdf x * 2 - 1) (fun q => ndtri ((1 + q) / 2)) None None (Some (fun x => / 2 * ln (2 / PI) - x * x / 2)) None None.
(* cd:4157-4169 *)
Definition johnsonsb (a b : R) : dist := mk (Some 0) (Some 1) (fun x => b * 1 / (x * (1 - x)) * norm_pdf (a + b * ln (x / (1 - x)))) (fun x => norm_cdf (a + b * ln (x / (1 - x)))) (fun q => 1 / (1 + exp (- 1 / b * (norm_ppf q - a)))) None None None None None.
(* cd:4201-4216 *)
Definition johnsonsu (a b : R) : dist := mk None None (fun x => let x2 := x * x in b * 1 / sqrt (x2 + 1) * norm_pdf (a + b * ln (x + sqrt (x2 + 1)))) (fun x => norm_cdf (a + b * ln (x + sqrt (x * x + 1)))) (fun q => sinh ((norm_ppf q - a) / b)) None None None None None.
(* cd:4294-4305 *)
Definition levy : dist := mk (Some 0) None (fun x => 1 / sqrt (2 * PI * x) / x * exp (- 1 / (2 * x))) (fun x => erfc (sqrt (/ 2 / x))) (fun q => let val := - ndtri (q / 2) in 1 / (val * val)) None None None None None.
(* cd:4342-4353 *)
Definition levy_l : dist := mk None (Some 0) (fun x => let ax := Rabs x in 1 / sqrt (2 * PI * ax) / ax * exp (- 1 / (2 * ax))) (fun x => 2 * norm_cdf (1 / sqrt (Rabs x)) - 1) (fun q => let val := norm_ppf ((q + 1) / 2) in - 1 / (val * val)) None None None None None.
(* cd:4998-5001; the branch for x = 0 is left out *)
Definition lognorm_logpdf (x s : R) : R := - ln x ^ 2 / (2 * s ^ 2) - ln (s * x * sqrt (2 * PI)).
(* cd:5038-5058 *)
Definition lognorm (s : R) : dist := mk (Some 0) None (fun x => exp (lognorm_logpdf x s)) (fun x => norm_cdf (ln x / s)) (fun q => exp (s * norm_ppf q))
  (Some (fun x => norm_sf (ln x / s))) None (Some (fun x => lognorm_logpdf x s)) (Some (fun x => norm_logcdf (ln x / s))) (Some (fun x => norm_logsf (ln x / s))).
(* cd:5174-5185 *)
Definition gilbrat : dist := mk (Some 0) None (fun x => exp (lognorm_logpdf x 1)) (fun x => norm_cdf (ln x)) (fun q => exp (norm_ppf q)) None None (Some (fun x => lognorm_logpdf x 1)) None None.
(* cd:6468-6478 *)
Definition powerlognorm (c s : R) : dist := mk (Some 0) None (fun x => c / (x * s) * norm_pdf (ln x / s) * norm_cdf (- ln x / s) ^^ (c * 1 - 1)) (fun x => 1 - norm_cdf (- ln x / s) ^^ (c * 1)) (fun q => exp (- s * norm_ppf ((1 - q) ^^ (1 / c)))) None None None None None.
(* cd:6507-6518 *)
Definition powernorm (c : R) : dist := mk None None (fun x => c * norm_pdf x * norm_cdf (- x) ^^ (c - 1)) (fun x => 1 - norm_cdf (- x) ^^ (c * 1)) (fun q => - norm_ppf ((1 - q) ^^ (1 / c)))
  None None (Some (fun x => ln c + norm_logpdf x + (c - 1) * norm_logcdf (- x))) None None.

(* cd:7241, 7256-7264 *)
Definition TAIL_X : R := 30.
Definition truncnorm_delta (a b : R) : R :=
  if Rlt_dec TAIL_X a then 0 else if Rlt_dec b (- TAIL_X) then 0 else
  let delta := if Rlt_dec 0 a then norm_cdf b - norm_cdf a else norm_sf a - norm_sf b in Rmax delta 0.
(* cd:7267-7286 *)
Definition truncnorm_logdelta (a b : R) : R :=
  let tail := if Rlt_dec b 0 then let nla := norm_logcdf a in let nlb := norm_logcdf b in nlb + log1p (- exp (nla - nlb))
    else if Rle_dec (Rabs b) (Rabs a) then let nla := norm_logcdf a in let nlb := norm_logcdf b in nlb + log1p (- exp (nla - nlb))
    else let sla := norm_logsf a in let slb := norm_logsf b in sla + log1p (- exp (slb - sla)) in
  if Rle_dec a TAIL_X then if Rle_dec (- TAIL_X) b then
    let delta := Rmax (if Rlt_dec 0 a then norm_cdf b - norm_cdf a else norm_sf a - norm_sf b) 0 in
    if Rlt_dec 0 delta then ln delta else tail
  else tail else tail.
(* cd:7289-7301 *)
Definition truncnorm_logpdf (a b x : R) : R := norm_logpdf x - truncnorm_logdelta a b.
Definition truncnorm_pdf (a b x : R) : R := let delta := truncnorm_delta a b in if Rlt_dec 0 delta then norm_pdf x / delta else exp (truncnorm_logpdf a b x).
(* cd:7304-7333, for a < x < b *)
Definition truncnorm_logcdf (a b x : R) : R :=
  let delta := truncnorm_delta a b in
  if Rlt_dec 0 delta then ln ((norm_cdf x - norm_cdf a) / delta)
  else if Rlt_dec a 0 then
    let nla := norm_logcdf a in let nlb := norm_logcdf b in let tab := log1p (- exp (nla - nlb)) in let nlx := norm_logcdf x in let tax := log1p (- exp (nla - nlx)) in nlx + tax - (nlb + tab)
  else let sla := norm_logsf a in let slb := norm_logsf b in log1p (- exp (norm_logsf x - sla)) - log1p (- exp (slb - sla)).
Definition truncnorm_cdf (a b x : R) : R := let delta := truncnorm_delta a b in if Rlt_dec 0 delta then (norm_cdf x - norm_cdf a) / delta else exp (truncnorm_logcdf a b x).
(* cd:7336-7365, for a < x < b *)
Definition truncnorm_logsf (a b x : R) : R :=
  let delta := truncnorm_delta a b in
  if Rlt_dec 0 delta then ln ((norm_sf x - norm_sf b) / delta)
  else if Rlt_dec b 0 then let nla := norm_logcdf a in let nlb := norm_logcdf b in log1p (- exp (norm_logcdf x - nlb)) - log1p (- exp (nla - nlb))
  else let sla := norm_logsf a in let slb := norm_logsf b in let tab := log1p (- exp (slb - sla)) in let slx := norm_logsf x in let tax := log1p (- exp (slb - slx)) in slx + tax - (sla + tab).
Definition truncnorm_sf (a b x : R) : R := let delta := truncnorm_delta a b in if Rlt_dec 0 delta then (norm_sf x - norm_sf b) / delta else exp (truncnorm_logsf a b x).
(* cd:7393-7407, for 0 < q < 1 and finite a < b; tail is the numerical solution (Newton or brentq) of the far tails *)
Definition truncnorm_ppf (tail : R -> R) (a b q : R) : R :=
  if Rlt_dec 0 (truncnorm_delta a b) then
    if Rlt_dec 0 a then let sa := norm_sf a in let sb := norm_sf b in norm_isf (q * sb + sa * (1 - q))
    else let na := norm_cdf a in let nb := norm_cdf b in norm_ppf (q * nb + na * (1 - q))
  else tail q.
Definition truncnorm (tail : R -> R) (a b : R) : dist := mk (Some a) (Some b) (truncnorm_pdf a b) (truncnorm_cdf a b) (truncnorm_ppf tail a b) (Some (truncnorm_sf a b)) None (Some (truncnorm_logpdf a b)) (Some (truncnorm_logcdf a b)) (Some (truncnorm_logsf a b)).

(* cd:8107-8183 *)
Definition crystal_N (beta m : R) : R := 1 / (m / beta / (m - 1) * exp (- beta ^ 2 / 2) + norm_pdf_C * norm_cdf beta).
Definition crystal_lhs (beta m x : R) : R := (m / beta) ^^ m * exp (- beta ^ 2 / 2) * (m / beta - beta - x) ^^ (- m).
Definition crystal_cdf_lhs (beta m x : R) : R := (m / beta) ^^ m * exp (- beta ^ 2 / 2) * (m / beta - beta - x) ^^ (- m + 1) / (m - 1).
Definition crystal_cdf_rhs (beta m x : R) : R := m / beta * exp (- beta ^ 2 / 2) / (m - 1) + norm_pdf_C * (norm_cdf x - norm_cdf (- beta)).
Definition crystal_ppf_less (beta m p : R) : R :=
  let eb2 := exp (- beta ^ 2 / 2) in let C := m / beta * eb2 / (m - 1) in let N := 1 / (C + norm_pdf_C * norm_cdf beta) in
  m / beta - beta - ((m - 1) * (m / beta) ^^ (- m) / eb2 * p / N) ^^ (1 / (1 - m)).
Definition crystal_ppf_greater (beta m p : R) : R :=
  let eb2 := exp (- beta ^ 2 / 2) in let C := m / beta * eb2 / (m - 1) in let N := 1 / (C + norm_pdf_C * norm_cdf beta) in
  norm_ppf (norm_cdf (- beta) + 1 / norm_pdf_C * (p / N - C)).
Definition crystalball (beta m : R) : dist := mk None None
  (fun x => crystal_N beta m * (if Rlt_dec (- beta) x then exp (- x ^ 2 / 2) else crystal_lhs beta m x))
  (fun x => crystal_N beta m * (if Rlt_dec (- beta) x then crystal_cdf_rhs beta m x else crystal_cdf_lhs beta m x))
  (fun p => let pbeta := crystal_N beta m * (m / beta) * exp (- beta ^ 2 / 2) / (m - 1) in if Rlt_dec p pbeta then crystal_ppf_less beta m p else crystal_ppf_greater beta m p)
  None None (Some (fun x => ln (crystal_N beta m) + (if Rlt_dec (- beta) x then - x ^ 2 / 2 else m * ln (m / beta) - beta ^ 2 / 2 - m * ln (m / beta - beta - x)))) None None.

(* the classes without a quantile function of their own *)
(* cd:2023-2028 *)
Definition foldnorm_pdf (c x : R) : R := norm_pdf (x + c) + norm_pdf (x - c).
Definition foldnorm_cdf (c x : R) : R := norm_cdf (x - c) + norm_cdf (x + c) - 1.
(* cd:1632-1656; the guard against overflow of the exponential is left out *)
Definition exponnorm_pdf (K x : R) : R := let invK := 1 / K in let exparg := / 2 * invK ^ 2 - invK * x in / 2 * invK * (exp exparg * erfc (- (x - invK) / sqrt 2)).
Definition exponnorm_logpdf (K x : R) : R := let invK := 1 / K in let exparg := / 2 * invK ^ 2 - invK * x in exparg + ln (/ 2 * invK * erfc (- (x - invK) / sqrt 2)).
Definition exponnorm_cdf (K x : R) : R := let invK := 1 / K in let expval := invK * (/ 2 * invK - x) in norm_cdf x - exp expval * norm_cdf (x - invK).
Definition exponnorm_sf (K x : R) : R := let invK := 1 / K in let expval := invK * (/ 2 * invK - x) in norm_cdf (- x) + exp expval * norm_cdf (x - invK).
(* cd:3677-3691 *)
Definition invgauss_pdf (mu x : R) : R := 1 / sqrt (2 * PI * x ^^ 3) * exp (- 1 / (2 * x) * ((x - mu) / mu) ^ 2).
Definition invgauss_logpdf (mu x : R) : R := - / 2 * ln (2 * PI) - 3 / 2 * ln x - ((x - mu) / mu) ^ 2 / (2 * x).
Definition invgauss_cdf (mu x : R) : R := let fac := sqrt (1 / x) in norm_cdf (fac * (x - mu) / mu) + exp (1 / mu) * norm_cdf (- fac * (x + mu) / mu) * exp (1 / mu).
(* cd:6894-6906 *)
Definition recipinvgauss_pdf (mu x : R) : R := 1 / sqrt (2 * PI * x) * exp (- (1 - mu * x) ^ 2 / (2 * x * mu ^ 2)).
Definition recipinvgauss_logpdf (mu x : R) : R := - (1 - mu * x) ^ 2 / (2 * x * mu ^ 2) - / 2 * ln (2 * PI * x).
Definition recipinvgauss_cdf (mu x : R) : R := let trm1 := 1 / mu - x in let trm2 := 1 / mu + x in let isqx := 1 / sqrt x in 1 - norm_cdf (isqx * trm1) - exp (2 / mu) * norm_cdf (- isqx * trm2).
