(* C64, C65: estimation of the autocovariance function from a series *)
From Coq Require Import Reals.
From Verif Require Import Base PolyModel GridSpec CovModel CovSpec CovProofs3 CovProofs4 CovProofs5 CovProofs6.
Local Open Scope R_scope.

(* what is returned for a series without missing values, with any window of the right length: lag + 1 values at the times k dt, the last of
   them 0; the others are the window times the covariance of the series continued periodically with the period N, the next power of two *)
Theorem c64_estimate : forall get p L dt x N, sized get -> (0 < L)%nat -> (3 <= List.length x)%nat -> least_pow2 (List.length x) N ->
  let l := Nat.min L (List.length x - 2) in
  exists c, tocovdata (Options (Some L) (Named get p) false false None) dt (values x) = Ok c
    /\ List.length (data c) = S l /\ List.length (args c) = S l
    /\ (forall k, (k <= l)%nat -> at_R (args c) k = INR k * dt)
    /\ nth l (data c) None = Some 0
    /\ (forall k, (k < l)%nat -> nth k (data c) None = Some (at_R (get (2 * l - 1)%nat) (l - 1 + k) * wrapped x N k)).
Proof. exact estimate. Qed.
Print Assumptions c64_estimate.

(* lags that do not wrap around: exactly the biased estimate *)
Theorem c64_biased : forall L dt x N, (0 < L)%nat -> (3 <= List.length x)%nat -> least_pow2 (List.length x) N ->
  exists c, tocovdata (plain L) dt (values x) = Ok c
    /\ forall k, (k < Nat.min L (List.length x - 2))%nat -> (k + List.length x <= N)%nat -> nth k (data c) None = Some (biased x k).
Proof. exact estimate_biased. Qed.
Print Assumptions c64_biased.

Theorem c64_variance : forall L dt x, (0 < L)%nat -> (3 <= List.length x)%nat ->
  exists c, tocovdata (plain L) dt (values x) = Ok c /\ nth 0 (data c) None = Some (sumR (map (fun v => (v - mean_of x) ^ 2) x) / INR (List.length x)).
Proof. exact estimate_variance. Qed.
Print Assumptions c64_variance.

(* the claim "the value at lag k is the biased estimate" fails for every length that is a power of two, already at lag 1 *)
Theorem c64_biased_refuted : forall e dt L, (2 <= e)%nat -> (2 <= L)%nat ->
  exists x c v, List.length x = (2 ^ e)%nat /\ tocovdata (plain L) dt (values x) = Ok c /\ nth 1 (data c) None = Some v /\ v <> biased x 1.
Proof. exact refuted_pow2. Qed.
Print Assumptions c64_biased_refuted.

(* the estimate is largest, in absolute value, at lag 0 *)
Theorem c64_largest_at_zero : forall L dt x, (0 < L)%nat -> (3 <= List.length x)%nat ->
  exists c, tocovdata (plain L) dt (values x) = Ok c /\ forall k, (k < List.length (data c))%nat -> Rabs (number (data c) k) <= number (data c) 0.
Proof. exact estimate_bound. Qed.
Print Assumptions c64_largest_at_zero.

(* adding a constant to the series changes nothing, with any options, missing values or not *)
Theorem c64_shift_invariant : forall o dt c x, tocovdata o dt (map (nmap (Rplus c)) x) = tocovdata o dt x.
Proof. exact shift_invariant. Qed.
Print Assumptions c64_shift_invariant.

Theorem c64_scale_squared : forall L dt c x, (0 < L)%nat -> (3 <= List.length x)%nat ->
  exists d e, tocovdata (plain L) dt (values x) = Ok d /\ tocovdata (plain L) dt (values (map (Rmult c) x)) = Ok e
    /\ args e = args d /\ data e = map (nmap (Rmult (c ^ 2))) (data d).
Proof. exact scale_squared. Qed.
Print Assumptions c64_scale_squared.

(* Bartlett's deviations, of the returned values *)
Theorem c64_deviations : forall L dt x, (0 < L)%nat -> (3 <= List.length x)%nat ->
  exists c, tocovdata (plain L) dt (values x) = Ok c /\
    forall k, (k <= List.length (data c))%nat -> nth k (sigma c) None = Some (deviation (number (data c)) (List.length x) k).
Proof. exact estimate_sigma. Qed.
Print Assumptions c64_deviations.

(* the lag chosen when none is given: two more than the last lag, up to 300, where the estimate exceeds two deviations *)
Theorem c64_default_lag : forall get p dt x N, sized get -> (3 <= List.length x)%nat -> least_pow2 (List.length x) N ->
  let lmax := Nat.min 300 (N - 1) in let a := wrapped x N in let n := List.length x in
  exists k0, (k0 <= lmax)%nat /\ (forall k, (k0 < k <= lmax)%nat -> Rabs (a k) <= 2 * deviation a n k)
    /\ (k0 = lmax /\ a 0%nat = 0 \/ 2 * deviation a n k0 < Rabs (a k0))
    /\ tocovdata (Options None (Named get p) false false None) dt (values x)
       = tocovdata (Options (Some (if p then (4 * (k0 + 2) / 3)%nat else (k0 + 2)%nat)) (Named get p) false false None) dt (values x).
Proof. exact default_lag. Qed.
Print Assumptions c64_default_lag.

Theorem c64_normalized : forall L dt x N, (0 < L)%nat -> (3 <= List.length x)%nat -> least_pow2 (List.length x) N -> wrapped x N 0 <> 0 ->
  exists c, tocovdata (Options (Some L) (Named boxcar false) false true None) dt (values x) = Ok c
    /\ nth 0 (data c) None = Some 1
    /\ (forall k, (k < Nat.min L (List.length x - 2))%nat -> nth k (data c) None = Some (wrapped x N k / wrapped x N 0)).
Proof. exact estimate_normalized. Qed.
Print Assumptions c64_normalized.

(* a record without variation has no normalized covariance: every value is nan *)
Theorem c64_normalized_constant_refuted : forall get p L dt v n, sized get -> (0 < L)%nat -> (3 <= n)%nat ->
  exists c, tocovdata (Options (Some L) (Named get p) false true None) dt (values (repeat v n)) = Ok c
    /\ (forall k, (k < Nat.min L (n - 2))%nat -> nth_error (data c) k = Some None).
Proof. exact estimate_normalized_constant. Qed.
Print Assumptions c64_normalized_constant_refuted.

(* missing values: the series is centred at a mixture of its first two values, not at its mean *)
Theorem c64_missing_values : forall L dt (x : list num) x0 x1 N, existsb is_nan x = true -> nth 0 x None = Some x0 -> nth 1 x None = Some x1 ->
  (0 < L)%nat -> (3 <= List.length x)%nat -> least_pow2 (List.length x) N ->
  let y := map (fun v => match v with Some a => a - off_centre x0 x1 x | None => 0 end) x in
  exists c, tocovdata (plain L) dt x = Ok c
    /\ forall k, (k < Nat.min L (List.length x - 2))%nat -> nth k (data c) None = Some ((lagged y k + lagged y (N - k)) / INR (List.length x - missing x)).
Proof. exact estimate_missing. Qed.
Print Assumptions c64_missing_values.
Theorem c64_missing_values_refuted : forall L dt v, (0 < L)%nat -> v <> 0 ->
  exists c w, tocovdata (plain L) dt [Some 0; Some 0; Some v; None] = Ok c /\ nth 0 (data c) None = Some w
    /\ w <> sumR (map (fun a => (a - mean_of [0; 0; v]) ^ 2) [0; 0; v]) / 3.
Proof. exact missing_refuted. Qed.
Print Assumptions c64_missing_values_refuted.
Theorem c64_missing_first_refuted : forall L dt (x : list num), nth 0 x None = None -> (0 < L)%nat -> (3 <= List.length x)%nat ->
  exists c, tocovdata (plain L) dt x = Ok c /\ data c = repeat None (Nat.min L (List.length x - 2)) ++ [Some 0].
Proof. exact first_missing. Qed.
Print Assumptions c64_missing_first_refuted.

(* C65: the claim "the unbiased flag returns an estimate" fails for every series of at least three values, with any window ... *)
Theorem c65_unbiased_refuted : forall o dt x, unbiased o = true -> (3 <= List.length x)%nat -> tocovdata o dt (values x) = Err ValueError.
Proof. exact unbiased_fails. Qed.
Print Assumptions c65_unbiased_refuted.
(* ... and, with a named window, for every series *)
Theorem c65_unbiased_named_refuted : forall o get p dt x, unbiased o = true -> window_ o = Named get p -> exists e, tocovdata o dt (values x) = Err e.
Proof. exact unbiased_named_fails. Qed.
Print Assumptions c65_unbiased_named_refuted.

Example c64_case : exists c, tocovdata (plain 3) 2 (values [1; -1; 1; -1; 0]) = Ok c
  /\ data c = [Some (4 / 5); Some (- 3 / 5); Some (2 / 5); Some 0] /\ args c = [0; 2; 4; 6].
Proof. exact case_five. Qed.
Example c64_case_length : least_pow2 5 8.
Proof. apply (least_pow2_intro 5 2); cbn; apply Nat.leb_le; reflexivity. Qed.
Example c64_case_window : sized boxcar.
Proof. exact boxcar_sized. Qed.
Example c65_case : unbiased (Options None (Named boxcar false) true false None) = true /\ (3 <= List.length [1; 2; 4])%nat.
Proof. split; [reflexivity|apply Nat.leb_le; reflexivity]. Qed.
