(* Model of the Poisson binomial distribution (src/wafo/stats/distributions.py:233-354). *)
From Coq Require Import Reals Lra.
From Coquelicot Require Import Complex.
From Verif Require Import Base DftModel GeomModel.
Local Open Scope R_scope.

(* the sum of the logarithms of absolute values: None is -inf, the logarithm of 0 (347) *)
Definition log_abs (z : C) : option R := let r := sqrt (fst z * fst z + snd z * snd z) in if Rlt_dec 0 r then Some (ln r) else None.
Definition add_log (a b : option R) : option R := match a, b with Some x, Some y => Some (x + y) | _, _ => None end.
Definition exp_log (a : option R) : R := match a with Some x => exp x | None => 0 end.

(* 331-354 _chi for one index *)
Definition pb_chi (probs : list R) (n i : nat) : C :=
  let omega := 2 * PI / INR (n + 1) in
  let xy := map (fun p => (1 - p + p * cos (omega * INR i), p * sin (omega * INR i)) : C) probs in
  let argz_sum := fold_right Rplus 0 (map (fun z => arctan2 (snd z) (fst z)) xy) in
  let exparg := fold_right add_log (Some 0) (map log_abs xy) in
  Cmult (RtoC (exp_log exparg)) (cis argz_sum).

(* 305-329 _fft_pmf; [eps] is the machine epsilon.  An entry that was never set would be arbitrary; here it is 0 *)
Definition chi_values (probs : list R) (n : nat) : list C :=
  let half := (n / 2 + n mod 2)%nat in
  let first := RtoC 1 :: map (pb_chi probs n) (seq 1 half) in
  (first ++ map Cconj (rev (slice 1 (n - half + 1) first)))%list.
Definition fft_pmf (eps : R) (probs : list R) (n : nat) : list R :=
  let chi := map (fun z => Cdiv z (RtoC (INR (n + 1)))) (chi_values probs n) in
  map (fun k => fst (fft (n + 1) (fun j => nth j chi (RtoC 0)) k) + eps) (seq 0 (n + 1)).

(* np.cumsum *)
Fixpoint cumsum_from (s : R) (l : list R) : list R := match l with [] => [] | a :: l' => (s + a) :: cumsum_from (s + a) l' end.
Definition cumsum (l : list R) : list R := cumsum_from 0 l.

(* 258-269 __init__ *)
Record pbinom := Pbinom { pb_n : nat; pb_probs : list R; pmf_values : list R; cdf_values : list R; sf_values : list R }.
Definition make_pbinom (eps : R) (probs : list R) : res pbinom :=
  if forallb (fun p => (if Rle_dec p 1 then true else false) && (if Rle_dec 0 p then true else false))%bool probs then
    let n := List.length probs in
    let pmf := fft_pmf eps probs n in
    Ok (Pbinom n probs pmf (cumsum pmf) (rev (cumsum (rev pmf))))
  else Err ValueError.

(* 276-284 _pmf, _sf, _cdf *)
Definition pb_pmf0 (d : pbinom) (x : nat) : res R := geti (pmf_values d) x.
Definition pb_sf0 (d : pbinom) (x : nat) : res R := geti (sf_values d) (x + 1).
Definition pb_cdf0 (d : pbinom) (x : nat) : res R := geti (cdf_values d) x.

(* scipy's rv_discrete.pmf, cdf and sf at an integer with support {0, ..., n}, loc = 0: the values of the methods above are clipped to [0, 1] *)
Definition clip (x : R) : R := Rmin (Rmax x 0) 1.
Definition pb_pmf (d : pbinom) (k : Z) : res R :=
  if ((k <? 0) || (Z.of_nat (pb_n d) <? k))%Z%bool then Ok 0 else let* v := pb_pmf0 d (Z.to_nat k) in Ok (clip v).
Definition pb_cdf (d : pbinom) (k : Z) : res R :=
  if (k <? 0)%Z then Ok 0 else if (Z.of_nat (pb_n d) <=? k)%Z then Ok 1 else let* v := pb_cdf0 d (Z.to_nat k) in Ok (clip v).
Definition pb_sf (d : pbinom) (k : Z) : res R :=
  if (k <? 0)%Z then Ok 1 else if (Z.of_nat (pb_n d) <=? k)%Z then Ok 0 else let* v := pb_sf0 d (Z.to_nat k) in Ok (clip v).

(* 286-293 _stats: mean, var, g1, g2; None for the nan or inf of a division by a standard deviation of 0 *)
Definition rtotal (l : list R) : R := fold_right Rplus 0 l.
Definition pb_stats (probs : list R) : R * R * option R * option R :=
  let mean := rtotal probs in
  let var := rtotal (map (fun p => p * (1 - p)) probs) in
  let sigma := sqrt var in
  let g1 := rtotal (map (fun p => (1 - 2 * p) * (1 - p) * p) probs) in
  let g2 := rtotal (map (fun p => (1 - 6 * (1 - p) * p) * (1 - p) * p) probs) in
  if Req_EM_T sigma 0 then (mean, var, None, None) else (mean, var, Some (g1 / sigma ^ 3), Some (g2 / sigma ^ 4)).

(* 295-305 _local_pmf; the integer powers of C = exp(2j pi / (n+1)) are exp of the multiples *)
Definition local_pmf (probs : list R) (x : nat) : R :=
  let n := List.length probs in
  let Cp (m : Z) := cis (2 * PI * IZR m / INR (n + 1)) in
  1 / INR (n + 1) * fst (csum (n + 1) (fun l =>
    Cmult (Cp (- (Z.of_nat l * Z.of_nat x))%Z) (fold_left (fun product p => Cmult product (Cplus (RtoC 1) (Cmult (Cminus (Cp (Z.of_nat l)) (RtoC 1)) (RtoC p)))) probs (RtoC 1)))).
