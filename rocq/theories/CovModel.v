(* Estimation of the autocovariance function of a series: covariance/estimation.py.  Arithmetic is exact.  A float that is not a number is
   [None]; an infinite quotient is represented by [None] as well.  The transformation [tr] is left out: the series is what dat2gauss gave. *)
From Coq Require Import Reals Lra.
From Coquelicot Require Import Complex.
From Verif Require Import Base PolyModel KdeModel DftModel.
Local Open Scope R_scope.

Definition num := option R.
Definition is_nan (v : num) : bool := match v with None => true | Some _ => false end.
Definition nmap (f : R -> R) (v : num) : num := match v with Some a => Some (f a) | None => None end.
Definition nop (f : R -> R -> R) (a b : num) : num := match a, b with Some x, Some y => Some (f x y) | _, _ => None end.
Definition ndiv (a b : num) : num := match a, b with Some x, Some y => if Req_EM_T y 0 then None else Some (x / y) | _, _ => None end.
Fixpoint numbers (l : list num) : option (list R) :=
  match l with
  | [] => Some []
  | v :: l' => match v, numbers l' with Some a, Some r => Some (a :: r) | _, _ => None end
  end.
Definition average (l : list R) : R := npsum l / INR (List.length l).
(* numpy's mean of an array that is not empty *)
Definition mean (l : list num) : num := match numbers l with Some r => Some (average r) | None => None end.

(* estimation.py:118-127 remove the mean; x[1 - indnan] indexes with the integers 0 and 1, not with a mask.  Returns x and Ncens. *)
Definition centre (x : list num) : list num * nat :=
  if existsb is_nan x
  then let m := mean (map (fun v => nth (if is_nan v then 0%nat else 1%nat) x None) x) in
       (map (fun v => if is_nan v then Some 0 else nop Rminus v m) x, (List.length x - List.length (filter is_nan x))%nat)
  else (map (fun v => nop Rminus v (mean x)) x, List.length x).

(* 2 ** nextpow2(n), misc.py:2170-2190, for an integer (see c44 for nextpow2 itself): the least power of two that is not less than n *)
Definition pow2_above (n : nat) : nat := (2 ^ Nat.log2_up n)%nat.
(* estimation.py:132 abs(fft(x, nfft)) ** 2 / Ncens *)
Definition periodogram (nfft : nat) (x : list R) (ncens : nat) (j : nat) : R := Cmod (fft nfft (padded x) j) ^ 2 / INR ncens.
(* estimation.py:131-134 of a series of n values; a value that is not a number spoils every coefficient *)
Definition raw_cov (n : nat) (x : list num) (ncens : nat) : list num :=
  let nfft := pow2_above n in
  match numbers x, ncens with
  | Some r, S _ => map (fun k => Some (fst (fft nfft (fun j => RtoC (periodogram nfft r ncens j)) k) / INR nfft)) (seq 0 nfft)
  | _, _ => repeat None nfft
  end.

(* numpy's broadcasting of two one dimensional arrays *)
Definition broadcast (f : num -> num -> num) (a b : list num) : res (list num) :=
  if (List.length a =? List.length b)%nat then Ok (map2 f a b)
  else match a, b with
       | _, [v] => Ok (map (fun u => f u v) a)
       | [u], _ => Ok (map (f u) b)
       | _, _ => Err ValueError
       end.
(* estimation.py:136-138 auto_cov[:Ncens] * Ncens / np.arange(Ncens, 1, -1) *)
Definition unbias (acov : list num) (ncens : nat) : res (list num) :=
  broadcast ndiv (map (nmap (fun v => v * INR ncens)) (firstn ncens acov)) (map (fun i => Some (INR (ncens - i))) (seq 0 (ncens - 1))).
(* estimation.py:140-141 *)
Definition normalized (acov : list num) : res (list num) :=
  match acov with [] => Err IndexError | a0 :: _ => Ok (map (fun v => ndiv v a0) acov) end.

(* np.cumsum *)
Fixpoint cumsum (acc : num) (l : list num) : list num :=
  match l with [] => [] | v :: l' => let s := nop Rplus acc v in s :: cumsum s l' end.
Definition nsqr (v : num) : num := nop Rmult v v.
(* estimation.py:78-79 and 156-157 np.sqrt(np.r_[0, R[0] ** 2, R[0] ** 2 + 2 * np.cumsum(R[1:] ** 2)] / Ncens) *)
Definition large_lag_sigma (acov : list num) (ncens : nat) : res (list num) :=
  match acov with
  | [] => Err IndexError
  | a0 :: rest =>
      let v := Some 0 :: nsqr a0 :: map (fun c => nop Rplus (nsqr a0) (nmap (Rmult 2) c)) (cumsum (Some 0) (map nsqr rest)) in
      Ok (map (fun u => nmap sqrt (ndiv u (Some (INR ncens)))) v)
  end.

(* numpy's argmax of booleans: the first True, or 0 *)
Fixpoint first_true (l : list bool) : option nat :=
  match l with [] => None | b :: l' => if b then Some 0%nat else option_map S (first_true l') end.
Definition exceeds (a s : num) : bool := match a, s with Some r, Some t => if Rlt_dec (2 * t) (Rabs r) then true else false | _, _ => false end.
(* estimation.py:74-85 _estimate_lag *)
Definition estimate_lag (parzen : bool) (acov : list num) (ncens : nat) : res nat :=
  let lmax := Nat.min 300 (List.length acov - 1) in
  let* sigma := large_lag_sigma acov ncens in
  let flags := map2 exceeds (rev (firstn (S lmax) acov)) (rev (firstn (S lmax) sigma)) in
  let lag := (lmax + 2 - match first_true flags with Some i => i | None => 0 end)%nat in
  Ok (if parzen then (4 * lag / 3)%nat else lag).

(* the window: the name of a library window (get_window of the library), or an array *)
Inductive window := Named (get_window : nat -> list R) (is_parzen : bool) | Array (w : list R).
Record options := Options { lag : option nat; window_ : window; unbiased : bool; norm : bool; detrend : option (list num -> list num) }.
Record covdata := CovData { data : list num; args : list R; sigma : list num }.

(* estimation.py:145-151: the window is applied to the first lag values, then the value at lag is set to 0.  A named window of negative length raises. *)
Definition windowed (w : window) (lag : nat) (acov : list num) : res (list num) :=
  let* acov :=
    match lag with
    | O => match w with Named _ _ => Err ValueError | Array _ => Ok acov end
    | S lag1 =>
        let win := match w with Named get _ => get (2 * lag - 1)%nat | Array w => w end in
        let head := firstn lag acov in
        let* p := broadcast (nop Rmult) head (map Some (skipn lag1 win)) in
        if (List.length p =? List.length head)%nat then Ok (p ++ skipn lag acov) else Err ValueError
    end in
  if (lag <? List.length acov)%nat then Ok (upd acov lag (Some 0)) else Err IndexError.

(* estimation.py:87-166 CovarianceEstimator.tocovdata of the values x sampled dt apart.  A lag given by the caller is not negative.
   For fewer than two values min(lag, n - 2) is negative; a named window then raises, which is what is modelled. *)
Definition tocovdata (o : options) (dt : R) (x : list num) : res covdata :=
  let n := List.length x in
  let '(xc, ncens) := centre x in
  let xc := match detrend o with Some f => f xc | None => xc end in
  let acov := raw_cov n xc ncens in
  let* acov := if unbiased o then unbias acov ncens else Ok acov in
  let* acov := if norm o then normalized acov else Ok acov in
  let parzen := match window_ o with Named _ p => p | Array _ => false end in
  let* l := match lag o with Some l => Ok l | None => estimate_lag parzen acov ncens end in
  if (n <? 2)%nat then Err ValueError else
  let l := Nat.min l (n - 2) in
  let* acov := windowed (window_ o) l acov in
  let* s := large_lag_sigma acov ncens in
  Ok (CovData (firstn (S l) acov) (linspace 0 (INR l * dt) (S l)) s).
