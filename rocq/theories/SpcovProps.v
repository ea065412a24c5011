From Coq Require Import Reals.
From Coquelicot Require Import Coquelicot.
From Verif Require Import Base PolyModel GridSpec ProcSpec CovModel CovSpec SpcovModel SpcovSpec SpcovProofs3 SpcovProofs4 SpcovProofs5 SpcovProofs6 SpcovProofs7.
Local Open Scope R_scope.

(* C105: the covariance function of a spectrum, and its derivatives *)
Theorem c105_covariance nr nt rate s h n r p : even_grid s h n -> rate_used rate r -> least_pow2 (2 * n - 2) p ->
  let N := (r * p)%nat in let K := match nt with None => (r * (n - 1))%nat | Some q => Nat.min q (r * (n - 1)) end in
  let t := fun k => INR k * (2 * PI / angular (freqtype s) h / INR N) in
  exists c, tocovdata nr nt rate s = Ok c /\ lagtype c = (match freqtype s with Wavenumber => Space | _ => Time end)
    /\ List.length (cdata c) = S K /\ List.length (cargs c) = S K /\ List.length (derivatives c) = nr
    /\ forall k, (k <= K)%nat -> at_R (cargs c) k = t k /\ at_R (cdata c) k = covariance_at s h (t k)
       /\ forall i, (i < nr)%nat -> List.length (nth i (derivatives c) []) = S K
            /\ is_derive_n (covariance_at s h) (S i) (t k) (at_R (nth i (derivatives c) []) k).
Proof. exact (covariance_of_spectrum nr nt rate s h n r p). Qed.
Print Assumptions c105_covariance.

Theorem c105_variance nr nt rate s h n : even_grid s h n -> exists c, tocovdata nr nt rate s = Ok c /\ at_R (cdata c) 0 = trapezoid h n (at_R (sdata s)).
Proof. exact (variance_first nr nt rate s h n). Qed.
Print Assumptions c105_variance.

Theorem c105_variance_largest nr nt rate s h n c : even_grid s h n -> (forall v, In v (sdata s) -> 0 <= v) -> tocovdata nr nt rate s = Ok c ->
  forall k, (k < List.length (cdata c))%nat -> Rabs (at_R (cdata c) k) <= at_R (cdata c) 0.
Proof. exact (variance_largest nr nt rate s h n c). Qed.
Print Assumptions c105_variance_largest.

Theorem c105_from_zero nr nt rate s f0 : geti (sargs s) 0 = Ok f0 -> 0 < f0 -> tocovdata nr nt rate s = Err ValueError.
Proof. exact (not_from_zero nr nt rate s f0). Qed.
Print Assumptions c105_from_zero.

Theorem c105_uneven nr nt rate s i : (2 + i < List.length (sargs s))%nat -> 1 / 10 ^ 8 < Rabs (at_R (sargs s) (2 + i) - 2 * at_R (sargs s) (1 + i) + at_R (sargs s) i) ->
  tocovdata nr nt rate s = Err ValueError.
Proof. exact (uneven_rejected nr nt rate s i). Qed.
Print Assumptions c105_uneven.

(* C106: the spectrum of a covariance function; round trips *)
Theorem c106_spectrum rate nugget tr (fast : bool) c dt n r p : sampled c dt n -> upsampling rate r -> least_pow2 (2 * n - 2) p ->
  let N := (r * (if fast then p else 2 * n - 2))%nat in
  let a := (at_R (cdata c) 0 + nugget) :: tl (cdata c) in
  let w := fun l => INR l * (2 * PI / (INR N * dt)) in
  let v := fun l => clipped (density_at a dt (w l)) in
  exists s, tospecdata rate nugget tr fast c = Ok (s, Covariance a (cargs c) (lagtype c) (derivatives c))
    /\ freqtype s = (match lagtype c with Time => Omega | Space => Wavenumber end) /\ N = (2 * (N / 2))%nat /\ List.length (sargs s) = S (N / 2) /\ List.length (sdata s) = S (N / 2)
    /\ exists M, (exists l, (l <= N / 2)%nat /\ v l = M) /\ (forall l, (l <= N / 2)%nat -> v l <= M)
       /\ forall l, (l <= N / 2)%nat -> at_R (sargs s) l = w l /\ at_R (sdata s) l = (if Rlt_dec (v l) (tr * M) then 0 else v l).
Proof. exact (spectrum_of_covariance rate nugget tr fast c dt n r p). Qed.
Print Assumptions c106_spectrum.

Theorem c106_roundtrip tr s h e : even_grid s h (2 ^ e + 1) -> (forall v, In v (sdata s) -> 0 <= v) ->
  (forall v, In v (sdata s) -> v = 0 \/ forall u, In u (sdata s) -> tr * u <= v) ->
  exists c, tocovdata 0 None None s = Ok c /\ tospecdata None 0 tr true c = Ok (set_freqtype Omega s, c).
Proof. exact (roundtrip_spectrum tr s h e). Qed.
Print Assumptions c106_roundtrip.

Theorem c106_roundtrip_back tr c dt e : sampled c dt (2 ^ e + 1) -> derivatives c = [] ->
  let d := fun l => density_at (cdata c) dt (INR l * (PI / (INR (2 ^ e) * dt))) in
  (forall l, (l <= 2 ^ e)%nat -> 0 <= d l /\ (d l = 0 \/ forall m, (m <= 2 ^ e)%nat -> tr * d m <= d l)) ->
  exists s, tospecdata None 0 tr true c = Ok (s, c) /\ tocovdata 0 None None s = Ok c.
Proof. exact (roundtrip_covariance tr c dt e). Qed.
Print Assumptions c106_roundtrip_back.

(* for every other number of frequencies the spectrum that comes back has more frequencies *)
Theorem c106_roundtrip_refuted tr s h n : even_grid s h n -> (forall e, n <> 2 ^ e + 1)%nat -> exists c s' c', tocovdata 0 None None s = Ok c /\ tospecdata None 0 tr true c = Ok (s', c')
  /\ List.length (cdata c) = n /\ (n < List.length (sargs s') < 2 * n)%nat.
Proof. exact (grid_changes tr s h n). Qed.
Print Assumptions c106_roundtrip_refuted.

(* C107: the units of the frequency axis *)
Theorem c107_units_back s : freqtype s <> Wavenumber -> set_freqtype (freqtype s) (set_freqtype Hertz s) = s /\ set_freqtype (freqtype s) (set_freqtype Omega s) = s.
Proof. exact (set_freqtype_back s). Qed.
Print Assumptions c107_units_back.

Theorem c107_units_covariance nr nt rate t s h n : even_grid s h n -> tocovdata nr nt rate (set_freqtype t s) = tocovdata nr nt rate s.
Proof. exact (units_irrelevant nr nt rate t s h n). Qed.
Print Assumptions c107_units_covariance.

Theorem c107_units_power t s h n : even_grid s h n -> exists h', even_grid (set_freqtype t s) h' n /\ angular (freqtype (set_freqtype t s)) h' = angular (freqtype s) h
  /\ (forall i, at_R (sdata (set_freqtype t s)) i * h' = at_R (sdata s) i * h) /\ List.length (sdata (set_freqtype t s)) = List.length (sdata s) /\ lag_type (set_freqtype t s) = lag_type s.
Proof. exact (even_grid_units t s h n). Qed.
Print Assumptions c107_units_power.

(* C76: the nugget is added to the object itself, again at every call *)
Theorem c76_tospecdata_refuted rate nugget tr fast c dt n : sampled c dt n -> exists s c', tospecdata rate nugget tr fast c = Ok (s, c') /\ at_R (cdata c') 0 = at_R (cdata c) 0 + nugget
  /\ exists s2 c2, tospecdata rate nugget tr fast c' = Ok (s2, c2) /\ at_R (cdata c2) 0 = at_R (cdata c) 0 + 2 * nugget.
Proof. exact (nugget_stays rate nugget tr fast c dt n). Qed.
Print Assumptions c76_tospecdata_refuted.

Theorem c76_tospecdata_default rate tr fast c dt n : sampled c dt n -> exists s, tospecdata rate 0 tr fast c = Ok (s, c).
Proof. exact (without_nugget rate tr fast c dt n). Qed.
Print Assumptions c76_tospecdata_default.

(* the hypotheses are met *)
Example c105_case : even_grid flat3 1 3. Proof. exact flat3_even. Qed.
Example c105_case_rate : rate_used (Some 3%nat) 4 /\ least_pow2 (2 * 3 - 2) 4 /\ upsampling (Some 3%nat) 4. Proof. exact flat3_rate. Qed.
Example c105_case_uneven : (2 + 0 < List.length (sargs bent3))%nat
  /\ 1 / 10 ^ 8 < Rabs (at_R (sargs bent3) (2 + 0) - 2 * at_R (sargs bent3) (1 + 0) + at_R (sargs bent3) 0).
Proof. exact bent. Qed.
Example c106_case : (forall v, In v (sdata flat3) -> 0 <= v) /\ (forall v, In v (sdata flat3) -> v = 0 \/ forall u, In u (sdata flat3) -> 1 / 100000 * u <= v). Proof. exact flat3_trunc. Qed.
Example c106_case_back : sampled tri 1 (2 ^ 1 + 1) /\ derivatives tri = []
  /\ (let d := fun l => density_at (cdata tri) 1 (INR l * (PI / (INR (2 ^ 1) * 1))) in
      forall l, (l <= 2 ^ 1)%nat -> 0 <= d l /\ (d l = 0 \/ forall m, (m <= 2 ^ 1)%nat -> 1 / 100000 * d m <= d l)).
Proof. exact tri_case. Qed.
Example c106_case_grid : even_grid flat4 1 4 /\ forall e, (4 <> 2 ^ e + 1)%nat. Proof. exact flat4_even. Qed.
