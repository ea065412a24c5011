(* From spectrum to covariance function and back: SpecData1D.tocovdata in spectrum/core.py and CovData1D.tospecdata in covariance/core.py,
   with the units of a spectrum.  Arithmetic is exact; a division by zero is excluded by the hypotheses of the theorems. *)
From Coq Require Import Reals Lra.
From Coquelicot Require Import Complex.
From Verif Require Import Base PolyModel KdeModel FilterModel GridModel DftModel CovModel.
Local Open Scope R_scope.

(* the letters 'w', 'f' and 'k' of freqtype *)
Inductive ftype := Omega | Hertz | Wavenumber.
Record spectrum := Spectrum { sdata : list R; sargs : list R; freqtype : ftype }.
(* 't' or 'x' *)
Inductive ltype := Time | Space.
Record covariance := Covariance { cdata : list R; cargs : list R; lagtype : ltype; derivatives : list (list R) }.

(* spectrum/core.py:725-738 the setter of freqtype; other assignments do nothing *)
Definition set_freqtype (t : ftype) (s : spectrum) : spectrum :=
  match t, freqtype s with
  | Omega, Hertz => Spectrum (map (fun v => v / (2 * PI)) (sdata s)) (map (fun v => v * (2 * PI)) (sargs s)) Omega
  | Hertz, Omega => Spectrum (map (fun v => v * (2 * PI)) (sdata s)) (map (fun v => v / (2 * PI)) (sargs s)) Hertz
  | _, _ => s
  end.
(* spectrum/core.py:772-776 *)
Definition lag_type (s : spectrum) : ltype := match freqtype s with Wavenumber => Space | _ => Time end.
(* spectrum/core.py:3370-3418 nyquist_freq and sampling_period *)
Definition nyquist_freq (s : spectrum) : res R := getz (sargs s) (-1).
Definition sampling_period (s : spectrum) : res R :=
  let* wm := nyquist_freq s in Ok ((match freqtype s with Hertz => 1 / 2 | _ => PI end) / wm).

(* the interpolation rate: spectrum/core.py:928-933 and covariance/core.py:222-225 (without the upper limit) *)
Definition spec_rate (r : option nat) : nat := match r with None => 1%nat | Some r => if (16 <? r)%nat then 16%nat else pow2_above r end.
Definition cov_rate (r : option nat) : nat := match r with None => 1%nat | Some r => pow2_above r end.
(* r_[x, zeros(nfft - 2n + 2), y[n - 2:0:-1]] for x, y of n >= 1 values *)
Definition embed (nfft : nat) (x y : list R) : list R :=
  let n := List.length x in x ++ repeat 0 (nfft + 2 - 2 * n) ++ rev (slice 1 (n - 1) y).

(* one transform: fft(rper, nfft).real / (2n - 2) at 0..nt *)
Definition transformed (nfft n nt : nat) (rper : nat -> C) : list R := map (fun k => fst (fft nfft rper k) / INR (2 * n - 2)) (seq 0 (S nt)).
(* spectrum/core.py:961-969 the derivatives *)
Fixpoint cov_derivatives (nr nfft n nt : nat) (w : list R) (rper : nat -> C) : list (list R) :=
  match nr with
  | O => []
  | S nr' => let rper := fun j => Cmult (Cmult (Copp Ci) (RtoC (at_R w j))) (rper j) in
             transformed nfft n nt rper :: cov_derivatives nr' nfft n nt w rper
  end.
(* spectrum/core.py:844-970 SpecData1D.tocovdata *)
Definition tocovdata (nr : nat) (nt rate : option nat) (s : spectrum) : res covariance :=
  let freq := sargs s in
  let n := List.length freq in
  let* f0 := geti freq 0 in
  if Rlt_dec 0 f0 then Err ValueError
  else if existsb (fun d => if Rlt_dec (1 / 10 ^ 8) (Rabs d) then true else false) (diffR (diffR freq)) then Err ValueError
  else
    let rate := spec_rate rate in
    let nt := match nt with None => (rate * (n - 1))%nat | Some k => Nat.min k (rate * (n - 1)) end in
    let* d_t := sampling_period s in
    let* wm := nyquist_freq s in
    let specn := map (fun v => v * wm) (sdata s) in
    let w := match freqtype s with Hertz => map (fun v => v * 2 * PI) freq | _ => freq end in
    let nfft := (rate * pow2_above (2 * n - 2))%nat in
    let rper := embed nfft specn specn in
    let time := map (fun k => INR k * d_t * INR (2 * n - 2) / INR nfft) (seq 0 (S nt)) in
    let wx := embed nfft w (map Ropp w) in
    Ok (Covariance (transformed nfft n nt (padded rper)) time (lag_type s) (cov_derivatives nr nfft n nt wx (padded rper))).

(* covariance/core.py:260-274 sampling_period *)
Definition cov_sampling_period (c : covariance) : res R :=
  let* t1 := geti (cargs c) 1 in
  let* t0 := geti (cargs c) 0 in
  let* te := getz (cargs c) (-1) in
  Ok ((te - t0) / INR (List.length (cargs c) - 1)).
(* covariance/core.py:162-258 CovData1D.tospecdata with method 'fft'.  The second result is the object itself afterwards: the nugget
   is added to its first value in place, when data is an array. *)
Definition tospecdata (rate : option nat) (nugget tr : R) (fast : bool) (c : covariance) : res (spectrum * covariance) :=
  let* dt := cov_sampling_period c in
  let ft := match lagtype c with Time => Omega | Space => Wavenumber end in
  let rate := cov_rate rate in
  let* a0 := geti (cdata c) 0 in
  let acf := upd (cdata c) 0 (a0 + nugget) in
  let n := List.length acf in
  let nfft := (rate * (if fast then pow2_above (2 * n - 2) else 2 * n - 2))%nat in
  let nf := (nfft / 2)%nat in
  let x := embed nfft acf acf in
  let r_per := map (fun k => Rmax (fst (fft nfft (padded x) k)) 0) (seq 0 nfft) in
  let r_max := maxR r_per in
  let r_per := map (fun v => if Rlt_dec v (tr * r_max) then 0 else v) r_per in
  let spec := map (fun v => Rabs v * dt / PI) (firstn (S nf) r_per) in
  Ok (Spectrum spec (linspace 0 (PI / dt) (S nf)) ft, Covariance acf (cargs c) (lagtype c) (derivatives c)).
