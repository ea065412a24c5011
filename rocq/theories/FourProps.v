(* Theorems about the Fourier coefficients of sampled signals (C139). *)
From Coq Require Import Reals List ZArith Lra Lia.
From Verif Require Import Base PolyModel TransModel FourModel FourSpec FourProofs FourProofs2.
Import ListNotations.
Local Open Scope R_scope.

(* A signal that is a trigonometric sum with K harmonics, sampled at N + 1 equally spaced times over q whole periods: every coefficient is L / (2 pi) times the coefficient of the sum, L being the length of the sampled stretch. *)

Theorem c139_coefficients : forall (rows : list ((nat -> R) * (nat -> R))) K q N T t0 m, 0 < T -> (0 < q)%nat -> (1 <= m)%nat -> (q * (K + (m - 1)) < N)%nat ->
  let t := sampled t0 T q N in let L := INR q * T in
  let upto (c : nat -> R) i := if (i <=? K)%nat then c i else 0 in
  fourier (map (fun cs => map (series (fst cs) (snd cs) K T) t) rows) (N + 1) (Some (Flat t)) (Some T) (Some (Z.of_nat m)) =
  Ok (map (fun i => map (fun cs => Some (L / (2 * PI) * upto (fst cs) i)) rows) (seq 0 m),
      map (fun i => map (fun cs => Some (if (i =? 0)%nat then 0 else L / (2 * PI) * upto (snd cs) i)) rows) (seq 0 m),
      Some (Row t)).
Proof. exact (fourier_coefficients). Qed.
Print Assumptions c139_coefficients.

(* Without a period the signal is taken to have been sampled over one period; without m there are n coefficients. *)

Theorem c139_default_period : forall x n t0 T N m, (0 < N)%nat -> fourier x n (Some (Flat (sampled t0 T 1 N))) None m = fourier x n (Some (Flat (sampled t0 T 1 N))) (Some T) m.
Proof. exact (fourier_default). Qed.
Print Assumptions c139_default_period.

Theorem c139_default_m : forall x n t T, fourier x n t T None = fourier x n t T (Some (Z.of_nat n)).
Proof. exact (fourier_default_m). Qed.
Print Assumptions c139_default_m.

(* The documented series of the coefficients is L / (2 pi) times the signal; it is the signal if L is 2 pi. *)

Theorem c139_estimate : forall rows K q N T t0 m a b t' r u, 0 < T -> (0 < q)%nat -> (1 <= m)%nat -> (q * (K + (m - 1)) < N)%nat -> (K < m)%nat -> (r < List.length rows)%nat ->
  let t := sampled t0 T q N in let cs := nth r rows (fun _ => 0, fun _ => 0) in
  fourier (map (fun cs => map (series (fst cs) (snd cs) K T) t) rows) (N + 1) (Some (Flat t)) (Some T) (Some (Z.of_nat m)) = Ok (a, b, t') ->
  series (entry a r) (entry b r) (m - 1) T u = INR q * T / (2 * PI) * series (fst cs) (snd cs) K T u.
Proof. exact (fourier_estimate). Qed.
Print Assumptions c139_estimate.

Theorem c139_recovers : forall rows K q N T t0 m a b t' r u, 0 < T -> (0 < q)%nat -> (1 <= m)%nat -> (q * (K + (m - 1)) < N)%nat -> (K < m)%nat -> (r < List.length rows)%nat -> INR q * T = 2 * PI ->
  let t := sampled t0 T q N in let cs := nth r rows (fun _ => 0, fun _ => 0) in
  fourier (map (fun cs => map (series (fst cs) (snd cs) K T) t) rows) (N + 1) (Some (Flat t)) (Some T) (Some (Z.of_nat m)) = Ok (a, b, t') ->
  series (entry a r) (entry b r) (m - 1) T u = series (fst cs) (snd cs) K T u.
Proof. exact (fourier_recovers). Qed.
Print Assumptions c139_recovers.

(* For other lengths the documented series is not the signal. *)

Theorem c139_scale_refuted : exists t a b t', fourier [map (fun _ => 1) t] 5 (Some (Flat t)) (Some 1) (Some 2%Z) = Ok (a, b, t') /\ t = sampled 0 1 1 4 /\ forall u, series (entry a 0) (entry b 0) 1 1 u = 1 / (2 * PI) /\ 1 / (2 * PI) < 1.
Proof. exact (fourier_scale). Qed.
Print Assumptions c139_scale_refuted.

(* The caller's array of times becomes a row; the same call with it then gives nan. *)

Theorem c139_twice_refuted : forall x t m a b t' i r, (2 <= List.length t)%nat -> (1 <= i)%nat -> (i < Z.to_nat m)%nat -> (r < List.length x)%nat -> fourier x (List.length t) (Some (Flat t)) None (Some m) = Ok (a, b, t') ->
  t' = Some (Row t) /\ exists a' b', fourier x (List.length t) t' None (Some m) = Ok (a', b', t') /\ nth r (nth i a' []) (Some 0) = None /\ nth r (nth i b' []) (Some 0) = None.
Proof. exact (fourier_twice). Qed.
Print Assumptions c139_twice_refuted.

Theorem c139_errors : forall x n t T, (forall m, (m < 0)%Z -> fourier x n t (Some T) (Some m) = Err ValueError) /\ (fourier x n None (Some T) (Some 0%Z) = Err IndexError) /\ fourier x 0 None None None = Err IndexError /\ (forall u m, List.length (values u) <> n -> fourier x n (Some u) (Some T) m = Err ValueError).
Proof. exact (fourier_errors). Qed.
Print Assumptions c139_errors.

Example c139_case : let t := sampled 0 (2 * PI) 1 5 in fourier [map cos t] 6 (Some (Flat t)) (Some (2 * PI)) (Some 3%Z) = Ok ([[Some 0]; [Some 1]; [Some 0]], [[Some 0]; [Some 0]; [Some 0]], Some (Row t)).
Proof. exact (fourier_case). Qed.
