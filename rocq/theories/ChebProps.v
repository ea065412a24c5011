(* Properties C35 to C40 and C80: the Chebyshev functions of polynomial.py. *)
From Coq Require Import Reals Lra Lia.
From Verif Require Import Base PolyModel PolySpec ChebModel ChebSpec ChebProofs ChebProofs2 ChebProofs3.
Local Open Scope R_scope.

(* ---- C35 -------------------------------------------------------------------------- *)
(* c_0 V_n + ... + c_n V_0 at the point mapped from [a, b] to [-1, 1] *)
Theorem c35_chebval : forall x ck a b kind, ck <> [] ->
  chebval x ck a b kind = Ok (series kind ck (map_from_interval x a b)).
Proof. exact chebval_spec. Qed.
Print Assumptions c35_chebval.

Theorem c35_empty : forall x a b kind, chebval x [] a b kind = Err IndexError.
Proof. exact chebval_empty. Qed.
Print Assumptions c35_empty.

Theorem c35_first_kind : forall k t, chebT k (cos t) = cos (INR k * t).
Proof. exact T_cos. Qed.
Print Assumptions c35_first_kind.

Theorem c35_second_kind : forall k t, chebU k (cos t) * sin t = sin (INR (S k) * t).
Proof. exact U_sin. Qed.
Print Assumptions c35_second_kind.

Theorem c35_chebpoly : forall n x kind, chebpoly_at n x kind = Ok (chebV kind n x).
Proof. exact chebpoly_at_spec. Qed.
Print Assumptions c35_chebpoly.

Theorem c35_fill : forall x ck a b kind fill, ck <> [] -> a < b ->
  chebval_fill x ck a b kind fill
  = Ok (if Rle_dec a x then if Rle_dec x b then series kind ck (map_from_interval x a b) else fill else fill).
Proof. exact chebval_fill_spec. Qed.
Print Assumptions c35_fill.

(* with an integer fill value the results inside the interval are truncated *)
Theorem c35_integer_fill_refuted : chebval_fill_int (1/2) [1; 0] (-1) 1 1 0 = Ok 0 /\
  chebval (1/2) [1; 0] (-1) 1 1 = Ok (1/2).
Proof. exact chebval_fill_int_wrong. Qed.
Print Assumptions c35_integer_fill_refuted.

Example c35_case : chebval (1/2) [1; 0; 3] (-1) 1 1 = Ok (2 * (1/2) * (1/2) - 1 + 3).
Proof.
  rewrite c35_chebval by discriminate. f_equal. unfold map_from_interval. unfold series, chebV. cbn. field.
Qed.

(* ---- C36 -------------------------------------------------------------------------- *)
Theorem c36_cheb2poly : forall ck a b, ck <> [] -> a <> b ->
  exists p, cheb2poly ck a b = Ok p /\ (forall x, chebval x ck a b 1 = Ok (peval p x)) /\
  (p = [] \/ hd 0 p <> 0).
Proof. exact cheb2poly_spec. Qed.
Print Assumptions c36_cheb2poly.

Theorem c36_poly2cheb : forall p a b, a <> b ->
  exists ck, poly2cheb p a b = Ok ck /\ (List.length ck <= Nat.max 1 (List.length p))%nat /\
  forall x, chebval x ck a b 1 = Ok (peval p x).
Proof. exact poly2cheb_spec. Qed.
Print Assumptions c36_poly2cheb.

Theorem c36_round_trip : forall p a b, a <> b ->
  exists ck q, poly2cheb p a b = Ok ck /\ cheb2poly ck a b = Ok q /\ forall x, peval q x = peval p x.
Proof. exact cheb2poly_poly2cheb. Qed.
Print Assumptions c36_round_trip.

Example c36_case : [1; 2; 3] <> [] /\ 0 <> 4.
Proof. split; [discriminate|lra]. Qed.

(* ---- C37 -------------------------------------------------------------------------- *)
(* for every series of at least three terms the result is off by exactly half the last
   coefficient of the returned series: the constant term is never halved *)
Theorem c37_chebder_error_term : forall ck a b, (3 <= List.length ck)%nat -> a <> b ->
  exists cder, chebder ck a b = Ok cder /\ List.length cder = (List.length ck - 1)%nat /\
  forall x d v, derivable_pt_lim (fun y => series 1 ck (map_from_interval y a b)) x d ->
    chebval x cder a b 1 = Ok v -> v = d + last cder 0 / 2.
Proof. exact chebder_error_term. Qed.
Print Assumptions c37_chebder_error_term.

Theorem c37_chebder_refuted : exists ck cder, chebder ck (-1) 1 = Ok cder /\
  derivable_pt_lim (fun y => series 1 ck (map_from_interval y (-1) 1)) 0 1 /\ chebval 0 cder (-1) 1 1 = Ok 2.
Proof. exact chebder_wrong. Qed.
Print Assumptions c37_chebder_refuted.

Theorem c37_short_refuted : forall ck a b, (1 <= List.length ck <= 2)%nat -> chebder ck a b = Err IndexError.
Proof. exact chebder_short. Qed.
Print Assumptions c37_short_refuted.

Example c37_case : (3 <= List.length [1; 2; 3])%nat /\ (1 <= List.length [1; 2] <= 2)%nat.
Proof. cbn. lia. Qed.

(* ---- C38 -------------------------------------------------------------------------- *)
Theorem c38_chebint_refuted : forall c1 c0 a b, a <> b -> (c1 <> 0 \/ c0 <> 0) ->
  exists ci, chebint [c1; c0] a b = Ok ci /\
  ~ forall x, derivable_pt_lim (fun y => series 1 ci (map_from_interval y a b)) x
      (series 1 [c1; c0] (map_from_interval x a b)).
Proof. exact chebint_never. Qed.
Print Assumptions c38_chebint_refuted.

(* ---- C39 -------------------------------------------------------------------------- *)
Theorem c39_chebroot_first : forall n, exists l, chebroot n 1 = Ok l /\ zeros_in_order 1 n l.
Proof. exact chebroot_1. Qed.
Print Assumptions c39_chebroot_first.

Theorem c39_chebroot_second : forall n, exists l, chebroot n 2 = Ok l /\ zeros_in_order 2 n l.
Proof. exact chebroot_2. Qed.
Print Assumptions c39_chebroot_second.

Theorem c39_other_kinds : forall n kind, kind <> 1%Z -> kind <> 2%Z -> chebroot n kind = Err ValueError.
Proof. exact chebroot_other. Qed.
Print Assumptions c39_other_kinds.

Theorem c39_chebextr : forall n, (0 < n)%nat ->
  List.length (chebextr n) = S n /\
  (forall i j, (i < j)%nat -> (j <= n)%nat -> at_R (chebextr n) i < at_R (chebextr n) j) /\
  at_R (chebextr n) 0 = -1 /\ at_R (chebextr n) n = 1 /\
  (forall i, (i <= n)%nat -> chebT n (at_R (chebextr n) i) = (-1) ^ (n - i)).
Proof. exact chebextr_spec. Qed.
Print Assumptions c39_chebextr.

Example c39_case : chebT 2 0 = -1 /\ chebT 3 0 = 0.
Proof. split; unfold chebT, chebV; cbn; ring. Qed.

(* ---- C40 -------------------------------------------------------------------------- *)
Theorem c40_samples : forall f i, (i < List.length f)%nat ->
  exists x, chebroot (List.length f) 1 = Ok x /\ chebval0 (at_R x i) (chebfit f) 1 = Ok (at_R f i).
Proof. exact chebfit_interpolates. Qed.
Print Assumptions c40_samples.

Theorem c40_callable : forall g n a b i, (i < n)%nat -> a <> b ->
  exists x ck, chebroot n 1 = Ok x /\ chebfit_fun g n a b = Ok ck /\ List.length ck = n /\
  let xi := map_to_interval (at_R x i) a b in chebval xi ck a b 1 = Ok (g xi).
Proof. exact chebfit_fun_interpolates. Qed.
Print Assumptions c40_callable.

Theorem c40_chebinterpolate : forall g deg i, (i <= deg)%nat ->
  let xi := at_R (chebpts1 (S deg)) i in series_low (chebinterpolate g deg) xi = g xi.
Proof. exact chebinterpolate_spec. Qed.
Print Assumptions c40_chebinterpolate.

Example c40_case : (1 < List.length [5; 7; 9])%nat.
Proof. cbn. lia. Qed.

(* ---- C80 -------------------------------------------------------------------------- *)
Theorem c80_call : forall ck a b kind x, last ck 0 <> 0 ->
  cheb1d_call (cheb1d_init ck a b kind) x = chebval x ck a b kind.
Proof. exact cheb1d_call_ok. Qed.
Print Assumptions c80_call.

(* Cheb1d([1, 0]) is the function x, the object evaluates to 1 *)
Theorem c80_trailing_zero_refuted : forall x,
  cheb1d_call (cheb1d_init [1; 0] (-1) 1 1) x = Ok 1 /\ chebval x [1; 0] (-1) 1 1 = Ok x.
Proof. exact cheb1d_trim_wrong. Qed.
Print Assumptions c80_trailing_zero_refuted.

Theorem c80_arithmetic_refuted : forall c d,
  cheb1d_neg c = Err ValueError /\ cheb1d_add c d = Err ValueError /\ cheb1d_sub c d = Err ValueError /\
  (exists e, cheb1d_integ c = Err e) /\ (exists e, cheb1d_deriv c = Err e).
Proof. exact cheb1d_arithmetic_raises. Qed.
Print Assumptions c80_arithmetic_refuted.

Example c80_case : last [1; 2; 3] 0 <> 0.
Proof. cbn. lra. Qed.
