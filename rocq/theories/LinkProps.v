(* Theorems about the links of the profiles of quantiles and probabilities (C148). *)
From Coq Require Import Reals List String.
From Verif Require Import Base RvModel RvSpec LinkModel LinkSpec LinkProofs LinkProofs2 LinkProofs3.
Import ListNotations.
Local Open Scope R_scope.

(* The link gives the parameter from a quantile, its log probability and the other parameters. *)

Theorem c148_expon : forall loc scale x l i, exceeds expon loc scale x l -> (i < 2)%nat -> recovers "expon" x l [loc; scale] i.
Proof. exact (expon_recovers). Qed.
Print Assumptions c148_expon.

Theorem c148_weibull : forall name c loc scale x l i, name = "weibull_min"%string \/ name = "frechet_r"%string -> 0 < c -> exceeds (weibull_min c) loc scale x l ->
  i = 0%nat /\ x - loc <> scale \/ i = 1%nat \/ i = 2%nat -> recovers name x l [c; loc; scale] i.
Proof. exact (weibull_recovers). Qed.
Print Assumptions c148_weibull.

Theorem c148_burr : forall c d loc scale x l, 0 < c -> 0 < d -> exceeds (burr c d) loc scale x l -> recovers "burr" x l [c; d; loc; scale] 1.
Proof. exact (burr_recovers). Qed.
Print Assumptions c148_burr.

Theorem c148_exponweib : forall a c loc scale x l, 0 < a -> 0 < c -> exceeds (exponweib a c) loc scale x l -> recovers "exponweib" x l [a; c; loc; scale] 0.
Proof. exact (exponweib_recovers). Qed.
Print Assumptions c148_exponweib.

Theorem c148_genpareto : forall c loc scale x l, exceeds (genpareto c) loc scale x l -> recovers "genpareto" x l [c; loc; scale] 2 /\ (c = 0 -> recovers "genpareto" x l [c; loc; scale] 1).
Proof. exact (genpareto_recovers). Qed.
Print Assumptions c148_genpareto.

Theorem c148_gumbel : forall loc scale x l, exceeds gumbel_r loc scale x l -> x <> loc -> recovers "gumbel_r" x l [loc; scale] 1.
Proof. exact (gumbel_recovers). Qed.
Print Assumptions c148_gumbel.

Theorem c148_genextreme : forall c loc scale x l, exceeds (genextreme c) loc scale x l -> x <> loc -> recovers "genextreme" x l [c; loc; scale] 2.
Proof. exact (genextreme_recovers). Qed.
Print Assumptions c148_genextreme.

Theorem c148_rayleigh : forall loc scale x l, exceeds rayleigh loc scale x l -> recovers "rayleigh" x l [loc; scale] 0.
Proof. exact (rayleigh_recovers). Qed.
Print Assumptions c148_rayleigh.

Theorem c148_truncrayleigh : forall c loc scale x l, 0 <= c -> exceeds (truncrayleigh c) loc scale x l -> recovers "trunclayleigh" x l [c; loc; scale] 1.
Proof. exact (trunc_recovers). Qed.
Print Assumptions c148_truncrayleigh.

(* With that parameter the distribution has this probability of exceeding the quantile. *)

Theorem c148_expon_exceeds : forall loc scale x l q, l < 0 ->
  (answers "expon" x l [q; scale] 0 (Ok (Some loc)) -> 0 < scale -> exceeds expon loc scale x l) /\
  (answers "expon" x l [loc; q] 1 (Ok (Some scale)) -> loc < x -> exceeds expon loc scale x l).
Proof. exact (expon_exceeds). Qed.
Print Assumptions c148_expon_exceeds.

Theorem c148_weibull_exceeds : forall c loc scale x l q, l < 0 ->
  (answers "weibull_min" x l [q; loc; scale] 0 (Ok (Some c)) -> 0 < scale -> loc < x -> exceeds (weibull_min c) loc scale x l) /\
  (answers "weibull_min" x l [c; q; scale] 1 (Ok (Some loc)) -> 0 < c -> 0 < scale -> exceeds (weibull_min c) loc scale x l) /\
  (answers "weibull_min" x l [c; loc; q] 2 (Ok (Some scale)) -> 0 < c -> loc < x -> exceeds (weibull_min c) loc scale x l).
Proof. exact (weibull_exceeds). Qed.
Print Assumptions c148_weibull_exceeds.

Theorem c148_burr_exceeds : forall c d loc scale x l q, l < 0 -> answers "burr" x l [c; q; loc; scale] 1 (Ok (Some d)) -> 0 < scale -> loc < x -> 0 < d /\ exceeds (burr c d) loc scale x l.
Proof. exact (burr_exceeds). Qed.
Print Assumptions c148_burr_exceeds.

Theorem c148_exponweib_exceeds : forall a c loc scale x l q, l < 0 -> answers "exponweib" x l [q; c; loc; scale] 0 (Ok (Some a)) -> 0 < scale -> loc < x -> 0 < a /\ exceeds (exponweib a c) loc scale x l.
Proof. exact (exponweib_exceeds). Qed.
Print Assumptions c148_exponweib_exceeds.

Theorem c148_genpareto_exceeds : forall c loc scale x l q, l < 0 -> answers "genpareto" x l [c; loc; q] 2 (Ok (Some scale)) -> loc < x -> exceeds (genpareto c) loc scale x l.
Proof. exact (genpareto_exceeds). Qed.
Print Assumptions c148_genpareto_exceeds.

Theorem c148_gumbel_exceeds : forall loc scale x l q, l < 0 -> answers "gumbel_r" x l [loc; q] 1 (Ok (Some scale)) -> 0 < scale -> exceeds gumbel_r loc scale x l.
Proof. exact (gumbel_exceeds). Qed.
Print Assumptions c148_gumbel_exceeds.

Theorem c148_genextreme_exceeds : forall c loc scale x l q, l < 0 -> answers "genextreme" x l [c; loc; q] 2 (Ok (Some scale)) -> 0 < scale -> exceeds (genextreme c) loc scale x l.
Proof. exact (genextreme_exceeds). Qed.
Print Assumptions c148_genextreme_exceeds.

Theorem c148_rayleigh_exceeds : forall loc scale x l q, l < 0 -> answers "rayleigh" x l [q; scale] 0 (Ok (Some loc)) -> 0 < scale -> exceeds rayleigh loc scale x l.
Proof. exact (rayleigh_exceeds). Qed.
Print Assumptions c148_rayleigh_exceeds.

Theorem c148_truncrayleigh_exceeds : forall c loc scale x l q, l < 0 -> answers "trunclayleigh" x l [c; q; scale] 1 (Ok (Some loc)) -> 0 <= c -> 0 < scale -> exceeds (truncrayleigh c) loc scale x l.
Proof. exact (trunc_exceeds). Qed.
Print Assumptions c148_truncrayleigh_exceeds.

(* The other links of the table are wrong. *)

Theorem c148_burr_nan : forall c d loc scale x l i, l < 0 -> 0 < d -> In i [0; 2; 3]%nat -> answers "burr" x l [c; d; loc; scale] i (Ok None).
Proof. exact (burr_nan). Qed.
Print Assumptions c148_burr_nan.

Theorem c148_burr_refuted : exists c d loc scale x l, 0 < c /\ 0 < d /\ exceeds (burr c d) loc scale x l /\ forall i, In i [0; 2; 3]%nat -> ~ recovers "burr" x l [c; d; loc; scale] i.
Proof. exact (burr_refuted). Qed.
Print Assumptions c148_burr_refuted.

Theorem c148_exponweib_nan : forall a c loc scale x l i, l < 0 -> 0 < a -> 1 - exp l <= exp (- 1) -> In i [1; 2; 3]%nat -> answers "exponweib" x l [a; c; loc; scale] i (Ok None).
Proof. exact (exponweib_nan). Qed.
Print Assumptions c148_exponweib_nan.

Theorem c148_exponweib_refuted : exists a c loc scale x l, 0 < a /\ 0 < c /\ exceeds (exponweib a c) loc scale x l /\ forall i, In i [1; 2; 3]%nat -> ~ recovers "exponweib" x l [a; c; loc; scale] i.
Proof. exact (exponweib_refuted). Qed.
Print Assumptions c148_exponweib_refuted.

Theorem c148_genpareto_location_refuted : forall c loc scale x l, c <> 0 -> exceeds (genpareto c) loc scale x l -> exists v, answers "genpareto" x l [c; loc; scale] 1 (Ok (Some v)) /\ v <> loc.
Proof. exact (genpareto_loc). Qed.
Print Assumptions c148_genpareto_location_refuted.

Theorem c148_gumbel_location_refuted : forall loc scale x l, answers "gumbel_r" x l [loc; scale] 0 (Err IndexError).
Proof. exact (gumbel_loc). Qed.
Print Assumptions c148_gumbel_location_refuted.

Theorem c148_genextreme_location_refuted : forall c loc scale x l, exceeds (genextreme c) loc scale x l ->
  (c = 0 -> answers "genextreme" x l [c; loc; scale] 1 (Err IndexError)) /\
  (c <> 0 -> x <> loc -> exists v, answers "genextreme" x l [c; loc; scale] 1 (Ok (Some v)) /\ v <> loc).
Proof. exact (genextreme_loc). Qed.
Print Assumptions c148_genextreme_location_refuted.

Theorem c148_genexpon_refuted : forall a b c loc scale x l, 0 < a -> 0 < b -> 0 < c -> 0 < scale -> loc < x -> 1 - genexpon_cdf a b c ((x - loc) / scale) = exp l ->
  (exists v, answers "genexpon" x l [a; b; c; loc; scale] 0 (Ok (Some v)) /\ v = - a * ((x - loc) / scale) /\ v < 0) /\
  (exists v, answers "genexpon" x l [a; b; c; loc; scale] 1 (Ok (Some v)) /\ b < v).
Proof. exact (genexpon_wrong). Qed.
Print Assumptions c148_genexpon_refuted.

Theorem c148_rayleigh_scale_refuted : forall loc scale x l, exceeds rayleigh loc scale x l -> let z := (x - loc) / scale in answers "rayleigh" x l [loc; scale] 1 (Ok (Some (scale + (z - 1) * x / z))).
Proof. exact (rayleigh_scale). Qed.
Print Assumptions c148_rayleigh_scale_refuted.

Theorem c148_truncrayleigh_refuted : forall c loc scale x l, 0 <= c -> exceeds (truncrayleigh c) loc scale x l -> let z := (x - loc) / scale in
  answers "trunclayleigh" x l [c; loc; scale] 0 (Ok (Some (c + (c + z / 2)))) /\ answers "trunclayleigh" x l [c; loc; scale] 2 (Ok (Some (scale + (z - 1) * x / z))).
Proof. exact (trunc_wrong). Qed.
Print Assumptions c148_truncrayleigh_refuted.

(* Which distributions and parameters there is a link for. *)

Theorem c148_names : LINKS "truncrayleigh" = None /\ forall name, LINKS name <> None <-> In name ["expon"; "weibull_min"; "frechet_r"; "genpareto"; "genexpon"; "gumbel_r"; "rayleigh"; "trunclayleigh"; "genextreme"; "exponweib"; "burr"]%string.
Proof. exact (names). Qed.
Print Assumptions c148_names.

Theorem c148_not_implemented : forall x l c loc scale a b i, answers "genpareto" x l [c; loc; scale] 0 (Err NotImplementedError) /\ answers "genextreme" x l [c; loc; scale] 0 (Err NotImplementedError) /\
  (In i [2; 3; 4]%nat -> answers "genexpon" x l [a; b; c; loc; scale] i (Err NotImplementedError)).
Proof. exact (not_implemented). Qed.
Print Assumptions c148_not_implemented.

Example c148_case : exceeds (weibull_min 2) 1 2 5 (- 4) /\ answers "weibull_min" 5 (- 4) [2; 7; 2] 1 (Ok (Some 1)).
Proof. exact (link_case). Qed.
