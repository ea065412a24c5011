(* C134: the Poisson binomial distribution. *)
From Coq Require Import Reals List.
From Verif Require Import Base PbinModel PbinSpec PbinProofs3 PbinCases.
Import ListNotations.
Local Open Scope R_scope.

(* the constructor accepts exactly the lists of probabilities *)

Theorem c134_constructor : forall eps probs, (probabilities probs -> exists d, make_pbinom eps probs = Ok d) /\ (~ probabilities probs -> make_pbinom eps probs = Err ValueError).
Proof. exact (make_iff). Qed.
Print Assumptions c134_constructor.

Example c134_constructor_case : make_pbinom (1/1024) [1/2; 3/2] = Err ValueError.
Proof. exact (bad_case). Qed.

(* pmf, cdf and sf at every integer: the probability plus the stabilising epsilon for each added value, at most 1 *)

Theorem c134_pmf : forall eps probs d k, 0 <= eps -> make_pbinom eps probs = Ok d ->
  pb_pmf d k = Ok (if (0 <=? k)%Z && (k <=? Z.of_nat (List.length probs))%Z then Rmin (prob probs (Nat.eqb (Z.to_nat k)) + eps) 1 else 0)%bool.
Proof. exact (pmf_method). Qed.
Print Assumptions c134_pmf.

Theorem c134_cdf : forall eps probs d k, 0 <= eps -> make_pbinom eps probs = Ok d ->
  pb_cdf d k = Ok (if (k <? 0)%Z then 0 else if (Z.of_nat (List.length probs) <=? k)%Z then 1 else Rmin (prob probs (fun i => Nat.leb i (Z.to_nat k)) + IZR (k + 1) * eps) 1).
Proof. exact (cdf_method). Qed.
Print Assumptions c134_cdf.

Theorem c134_sf : forall eps probs d k, 0 <= eps -> make_pbinom eps probs = Ok d ->
  pb_sf d k = Ok (if (k <? 0)%Z then 1 else if (Z.of_nat (List.length probs) <=? k)%Z then 0 else Rmin (prob probs (fun i => Nat.ltb (Z.to_nat k) i) + IZR (Z.of_nat (List.length probs) - k) * eps) 1).
Proof. exact (sf_method). Qed.
Print Assumptions c134_sf.

Theorem c134_close : forall eps probs d k v w u, 0 <= eps -> make_pbinom eps probs = Ok d -> (0 <= k <= Z.of_nat (List.length probs))%Z ->
  pb_pmf d k = Ok v -> pb_cdf d k = Ok w -> pb_sf d k = Ok u -> let n := INR (List.length probs) in
  Rabs (v - prob probs (Nat.eqb (Z.to_nat k))) <= eps /\ Rabs (w - prob probs (fun i => Nat.leb i (Z.to_nat k))) <= n * eps /\ Rabs (u - prob probs (fun i => Nat.ltb (Z.to_nat k) i)) <= n * eps.
Proof. exact (close). Qed.
Print Assumptions c134_close.

Theorem c134_cdf_monotone : forall eps probs d j k v w, 0 <= eps -> make_pbinom eps probs = Ok d -> (j <= k)%Z -> pb_cdf d j = Ok v -> pb_cdf d k = Ok w -> 0 <= v <= w /\ w <= 1.
Proof. exact (cdf_monotone). Qed.
Print Assumptions c134_cdf_monotone.

Example c134_methods_case : exists d, make_pbinom (1/1024) [1/2; 1/3; 1] = Ok d /\ pb_pmf d 2 = Ok (1/2 + 1/1024) /\ pb_cdf d 1 = Ok (1/3 + 2/1024) /\ pb_cdf d 7 = Ok 1
  /\ pb_sf d 1 = Ok (2/3 + 2/1024) /\ pb_sf d 3 = Ok 0 /\ pb_sf0 d 3 = Err IndexError.
Proof. exact (methods_case). Qed.

(* what is not true: the stored probabilities add up to 1; the survival function at the end of the support can be looked up *)

Theorem c134_total : forall eps probs d, make_pbinom eps probs = Ok d -> fold_right Rplus 0 (pmf_values d) = 1 + INR (List.length probs + 1) * eps.
Proof. exact (values_total). Qed.
Print Assumptions c134_total.

Theorem c134_total_refuted : ~ (forall eps probs d, 0 < eps -> make_pbinom eps probs = Ok d -> fold_right Rplus 0 (pmf_values d) = 1).
Proof. exact (total_refuted). Qed.
Print Assumptions c134_total_refuted.

Theorem c134_sf_entry : forall eps probs d x, make_pbinom eps probs = Ok d -> (x <= List.length probs)%nat ->
  pb_sf0 d x = if Nat.eqb x (List.length probs) then Err IndexError else Ok (prob probs (fun i => Nat.ltb x i) + INR (List.length probs - x) * eps).
Proof. exact (sf_entry). Qed.
Print Assumptions c134_sf_entry.

Theorem c134_sf_entry_refuted : ~ (forall eps probs d x, make_pbinom eps probs = Ok d -> (x <= List.length probs)%nat -> exists v, pb_sf0 d x = Ok v).
Proof. exact (entry_refuted). Qed.
Print Assumptions c134_sf_entry_refuted.

(* mean, variance, skewness and kurtosis *)

Theorem c134_stats : forall probs mean var g1 g2, probabilities probs -> pb_stats probs = (mean, var, g1, g2) ->
  let moment j := expect probs (fun k => (INR k - mean) ^ j) in
  mean = expect probs INR /\ var = moment 2%nat /\ (var = 0 -> g1 = None /\ g2 = None) /\
  (var <> 0 -> g1 = Some (moment 3%nat / sqrt var ^ 3) /\ g2 = Some (moment 4%nat / sqrt var ^ 4 - 3)).
Proof. exact (stats_moments). Qed.
Print Assumptions c134_stats.

Example c134_stats_case : exists g1 g2, pb_stats [1/2; 1/3; 1] = (11/6, 17/36, Some g1, Some g2).
Proof. exact (stats_case). Qed.

Example c134_stats_constant_case : pb_stats [0; 1] = (1, 0, None, None).
Proof. exact (constant_case). Qed.

(* the other formula for the probabilities *)

Theorem c134_local : forall probs k, (k <= List.length probs)%nat -> local_pmf probs k = prob probs (Nat.eqb k).
Proof. exact (local_method). Qed.
Print Assumptions c134_local.

Example c134_local_case : local_pmf [1/2; 1/3; 1] 2 = 1/2.
Proof. exact (local_case). Qed.
