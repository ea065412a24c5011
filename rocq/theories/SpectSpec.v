(* Simpson's rule, spectral moments and the delta method *)
From Coq Require Import Reals Lra String.
From Coquelicot Require Import Coquelicot.
From Verif Require Import Base PolyModel GridSpec ProcSpec CovModel SpcovModel SpcovSpec SpectModel.
Local Open Scope R_scope.

(* Simpson's rule for the points X i, X (i + 1), X (i + 2): the integral of the parabola through the three values *)
Definition parabola (X Y : nat -> R) (i : nat) : R :=
  let h0 := X (S i) - X i in let h1 := X (S (S i)) - X (S i) in
  (h0 + h1) / 6 * (Y i * (2 - h1 / h0) + Y (S i) * ((h0 + h1) ^ 2 / (h0 * h1)) + Y (S (S i)) * (2 - h0 / h1)).
Definition parabolas (X Y : nat -> R) (from k : nat) : R := sumR (map (fun i => parabola X Y (from + 2 * i)) (seq 0 k)).
Definition trapezium_at (X Y : nat -> R) (i : nat) : R := (X (S i) - X i) * (Y i + Y (S i)) / 2.
(* for n points: with an even number the mean of the rules that use a trapezium for the last or for the first interval *)
Definition simpson (n : nat) (X Y : nat -> R) : R :=
  if Nat.odd n then parabolas X Y 0 ((n - 1) / 2)
  else ((parabolas X Y 0 ((n - 2) / 2) + trapezium_at X Y (n - 2)) + (trapezium_at X Y 0 + parabolas X Y 1 ((n - 2) / 2))) / 2.

Definition rising (n : nat) (X : nat -> R) : Prop := forall i, (S i < n)%nat -> X i < X (S i).
Definition even_axis (n : nat) (X : nat -> R) : Prop := exists h, 0 < h /\ forall i, (S i < n)%nat -> X (S i) - X i = h.
(* one value for each of the n frequencies, which increase *)
Definition spectrum_on (n : nat) (s : spectrum) : Prop :=
  (1 <= n)%nat /\ List.length (sargs s) = n /\ List.length (sdata s) = n /\ rising n (at_R (sargs s)).
(* angular frequency (or wave number) and density per unit of it *)
Definition omega (s : spectrum) (i : nat) : R := angular (freqtype s) (at_R (sargs s) i).
Definition density (s : spectrum) (i : nat) : R := match freqtype s with Hertz => at_R (sdata s) i / (2 * PI) | _ => at_R (sdata s) i end.
(* the moment of order i of |S|^(j+1) *)
Definition moment_of (s : spectrum) (j i : nat) : R :=
  simpson (List.length (sargs s)) (omega s) (fun l => Rabs (density s l) ^ (j + 1) * omega s l ^ i).
(* the spectrum with all values multiplied by c *)
Definition amplified (c : R) (s : spectrum) : spectrum := Spectrum (map (fun v => c * v) (sdata s)) (sargs s) (freqtype s).

(* The delta method: g and h are functions of the random moments mu(-1), mu(0), ..., mu(4) with covariances sigma(a + b); the covariance of
   g and h to first order is v.  [change mu a x] is mu with the value x at a. *)
Definition change (mu : Z -> R) (a : Z) (x : R) : Z -> R := fun b => if Z.eq_dec b a then x else mu b.
Definition orders : list Z := [-1; 0; 1; 2; 3; 4]%Z.
Definition delta_covariance (mu sigma : Z -> R) (g h : (Z -> R) -> R) (v : R) : Prop :=
  exists G H : Z -> R, (forall a, In a orders -> is_derive (fun x => g (change mu a x)) (mu a) (G a) /\ is_derive (fun x => h (change mu a x)) (mu a) (H a))
    /\ v = sumR (map (fun a => sumR (map (fun b => G a * H b * sigma (a + b)%Z) orders)) orders).
(* the characteristics as functions of the moments in Hz *)
Definition Hm0 (mu : Z -> R) : R := 4 * sqrt (mu 0%Z).
Definition Tm01 (mu : Z -> R) : R := mu 0%Z / mu 1%Z.
Definition Tm02 (mu : Z -> R) : R := sqrt (mu 0%Z / mu 2%Z).
Definition Tm24 (mu : Z -> R) : R := sqrt (mu 2%Z / mu 4%Z).
Definition Tm_10 (mu : Z -> R) : R := mu (-1)%Z / mu 0%Z.
Definition steepness (g : R) (mu : Z -> R) : R := 2 * PI * Hm0 mu / (g * Tm02 mu ^ 2).
Definition irregularity (mu : Z -> R) : R := mu 2%Z / sqrt (mu 0%Z * mu 4%Z).
Definition narrowness (mu : Z -> R) : R := sqrt (mu 0%Z * mu 2%Z / mu 1%Z ^ 2 - 1).
Definition broadness (mu : Z -> R) : R := sqrt (1 - mu 2%Z ^ 2 / (mu 0%Z * mu 4%Z)).

(* moments of the density per Hz of a spectrum: of order k >= 0, and of order -1 over the positive frequencies *)
Definition reciprocal (s : spectrum) (j i : nat) : R :=
  let p := positive_part s in simpson (List.length (sargs p)) (omega p) (fun l => density p l ^ (j + 1) / omega p l ^ i).
Definition hz_moment (s : spectrum) (k : Z) : R :=
  match k with Zneg _ => reciprocal s 0 1 * (2 * PI) | _ => moment_of s 0 (Z.to_nat k) / (2 * PI) ^ Z.to_nat k end.
(* covariance of the moments of orders a and b with a + b = k for a record of length T: the integral of f^k S(f)^2 / T *)
Definition hz_covariance (s : spectrum) (T : R) (k : Z) : R :=
  match k with
  | Zneg xH => reciprocal s 1 1 * (2 * PI) ^ 2 / T
  | Zneg _ => reciprocal s 1 2 * (2 * PI) ^ 3 / T
  | _ => moment_of s 1 (Z.to_nat k) * (2 * PI) / (2 * PI) ^ Z.to_nat k / T
  end.
(* the names of the fifteen characteristics *)
Definition names : list string := ["Hm0"; "Tm01"; "Tm02"; "Tm24"; "Tm_10"; "Tp"; "Ss"; "Sp"; "Ka"; "Rs"; "Tp1"; "alpha"; "eps2"; "eps4"; "Qp"]%string.
(* the position of the first largest value of the density *)
Definition peak_at (s : spectrum) (i : nat) : Prop :=
  (i < List.length (sdata s))%nat /\ (forall k, (k < List.length (sdata s))%nat -> density s k <= density s i) /\ (forall k, (k < i)%nat -> density s k < density s i).
(* all characteristics in the order of the documentation, and what is returned for all of them *)
Definition everything : list factor := map (fun i => Index (Z.of_nat i)) (seq 0 15).
(* two texts that differ only in the case of the letters *)
Definition same_letters (a b : string) : Prop := lower a = lower b.
(* the moments are positive: the characteristics divide by them *)
Definition positive_moments (s : spectrum) : Prop := forall k, (k <= 4)%nat -> 0 < moment_of s 0 k.
(* the position of a characteristic in the results and its value as a function of the moments *)
Definition functions (g : R) : list (nat * ((Z -> R) -> R)) :=
  [(0%nat, Hm0); (1%nat, Tm01); (2%nat, Tm02); (3%nat, Tm24); (4%nat, Tm_10); (6%nat, steepness g); (11%nat, irregularity); (12%nat, narrowness); (13%nat, broadness)].
(* entry (i, k) of a table *)
Definition entry (r : list (list num)) (i k : nat) : num := nth k (nth i r []) None.
