(* Wilson score interval *)
From Coq Require Import Reals Lra Lia Psatz.
From Verif Require Import Base PolyModel KdeModel.
Local Open Scope R_scope.

Definition wils (m p : R) : R := sqrt (m * p * (1 - p) + 1 / 4).
Lemma wilson_arg m p : 0 <= m -> 0 <= p <= 1 -> 0 <= m * p * (1 - p) + 1 / 4.
Proof. intros Hm Hp. assert (0 <= m * p) by (apply Rmult_le_pos; lra). nra. Qed.
Lemma wilson_s2 m p : 0 <= m -> 0 <= p <= 1 -> wils m p * wils m p = m * p * (1 - p) + 1 / 4.
Proof. intros. unfold wils. apply sqrt_sqrt. now apply wilson_arg. Qed.
Lemma wilson_small m p : 0 <= m -> 0 <= p <= 1 -> wils m p / (1 + m) <= 1.
Proof.
  intros Hm Hp. pose proof (wilson_s2 m p Hm Hp) as E. pose proof (sqrt_pos (m * p * (1 - p) + 1 / 4)) as P. fold (wils m p) in P. set (s := wils m p) in *.
  apply Rmult_le_reg_r with (1 + m); [lra|]. unfold Rdiv. rewrite Rmult_assoc, Rinv_l by lra.
  assert (p * (1 - p) <= 1 / 4) by (pose proof (Rle_0_sqr (p - 1 / 2)) as Q; unfold Rsqr in Q; lra). assert (m * (p * (1 - p)) <= m * (1 / 4)) by (apply Rmult_le_compat_l; lra). nra.
Qed.
Lemma wilson_iff m p t : 0 <= m -> 0 <= p <= 1 ->
  (p * m + 1 / 2) / (1 + m) - wils m p / (1 + m) <= t <= (p * m + 1 / 2) / (1 + m) + wils m p / (1 + m) <-> m * (p - t) ^ 2 <= t * (1 - t).
Proof.
  intros Hm Hp. pose proof (wilson_s2 m p Hm Hp) as E. pose proof (sqrt_pos (m * p * (1 - p) + 1 / 4)) as P. fold (wils m p) in P. set (s := wils m p) in *.
  set (D := 1 + m) in *. assert (HD : 0 < D) by (unfold D; lra).
  set (u := t * D - (p * m + 1 / 2)).
  assert (K : u * u - s * s = D * (m * (p - t) ^ 2 - t * (1 - t))) by (rewrite E; unfold u, D; field).
  assert (Q : (p * m + 1 / 2) / D - s / D <= t <= (p * m + 1 / 2) / D + s / D <-> - s <= u <= s).
  { unfold u. split; intros [A B]; split.
    - apply (Rmult_le_compat_r D) in A; [|lra]. replace (((p * m + 1 / 2) / D - s / D) * D) with (p * m + 1 / 2 - s) in A by (field; lra). lra.
    - apply (Rmult_le_compat_r D) in B; [|lra]. replace (((p * m + 1 / 2) / D + s / D) * D) with (p * m + 1 / 2 + s) in B by (field; lra). lra.
    - apply Rmult_le_reg_r with D; [lra|]. replace (((p * m + 1 / 2) / D - s / D) * D) with (p * m + 1 / 2 - s) by (field; lra). lra.
    - apply Rmult_le_reg_r with D; [lra|]. replace (((p * m + 1 / 2) / D + s / D) * D) with (p * m + 1 / 2 + s) by (field; lra). lra. }
  rewrite Q. split.
  - intros [A B]. assert (u * u <= s * s) by nra. assert (D * (m * (p - t) ^ 2 - t * (1 - t)) <= 0) by lra. nra.
  - intros H. assert (D * (m * (p - t) ^ 2 - t * (1 - t)) <= 0) by nra. assert (u * u <= s * s) by lra. split; nra.
Qed.

Lemma wilson_score_iff invnorm n p alpha t : 0 <= n -> 0 <= p <= 1 -> invnorm (alpha / 2) <> 0 ->
  fst (wilson_score invnorm n p alpha) <= t <= snd (wilson_score invnorm n p alpha) <-> n * (p - t) ^ 2 <= (invnorm (alpha / 2)) ^ 2 * (t * (1 - t)).
Proof.
  intros Hn Hp Hz. unfold wilson_score. cbn [fst snd]. set (z := invnorm (alpha / 2)) in *.
  replace ((- z) ^ 2) with (z ^ 2) by ring. assert (Hz2 : 0 < z ^ 2) by (rewrite <- Rsqr_pow2; apply Rsqr_pos_lt; exact Hz).
  set (m := n / z ^ 2). assert (Hm : 0 <= m) by (unfold m; apply Rmult_le_pos; [lra|left; apply Rinv_0_lt_compat; lra]).
  rewrite Rmin_left by now apply wilson_small. rewrite wilson_iff by easy.
  assert (E : n = m * z ^ 2) by (unfold m; field; nra). rewrite E. split; intros H; nra.
Qed.
Lemma wilson_score_ordered invnorm n p alpha : 0 <= n -> 0 <= p <= 1 -> invnorm (alpha / 2) <> 0 ->
  fst (wilson_score invnorm n p alpha) <= snd (wilson_score invnorm n p alpha).
Proof.
  intros Hn Hp Hz. pose proof (proj2 (wilson_score_iff invnorm n p alpha p Hn Hp Hz)). assert (0 <= (invnorm (alpha / 2)) ^ 2) by apply pow2_ge_0.
  assert (0 <= p * (1 - p)) by nra. assert (n * (p - p) ^ 2 = 0) by ring. nra.
Qed.
Lemma wilson_score_bounds invnorm n p alpha : 0 <= n -> 0 <= p <= 1 -> invnorm (alpha / 2) <> 0 ->
  let (lo, up) := wilson_score invnorm n p alpha in 0 <= lo <= p /\ p <= up <= 1.
Proof.
  intros Hn Hp Hz. assert (I := wilson_score_iff invnorm n p alpha). assert (O := wilson_score_ordered invnorm n p alpha Hn Hp Hz).
  destruct (wilson_score invnorm n p alpha) as [lo up]. cbn [fst snd] in *.
  assert (Hz2 : 0 < (invnorm (alpha / 2)) ^ 2) by (rewrite <- Rsqr_pow2; apply Rsqr_pos_lt; exact Hz).
  assert (Pp : lo <= p <= up). { apply I; auto. assert (0 <= p * (1 - p)) by nra. assert (n * (p - p) ^ 2 = 0) by ring. nra. }
  assert (V : forall t, lo <= t <= up -> 0 <= t <= 1).
  { intros t Ht. apply I in Ht; auto. assert (0 <= n * (p - t) ^ 2) by (apply Rmult_le_pos; [lra|apply pow2_ge_0]). assert (0 <= t * (1 - t)) by nra. nra. }
  pose proof (V lo ltac:(lra)). pose proof (V up ltac:(lra)). lra.
Qed.
Lemma wilson_score_nested invnorm n n' p alpha alpha' : 0 <= n <= n' -> 0 <= p <= 1 -> invnorm (alpha / 2) <> 0 -> invnorm (alpha' / 2) <> 0 ->
  Rabs (invnorm (alpha' / 2)) <= Rabs (invnorm (alpha / 2)) ->
  fst (wilson_score invnorm n p alpha) <= fst (wilson_score invnorm n' p alpha') /\ snd (wilson_score invnorm n' p alpha') <= snd (wilson_score invnorm n p alpha).
Proof.
  intros Hn Hp Hz Hz' Habs.
  assert (O := wilson_score_ordered invnorm n' p alpha' ltac:(lra) Hp Hz').
  assert (V : forall t, fst (wilson_score invnorm n' p alpha') <= t <= snd (wilson_score invnorm n' p alpha') -> fst (wilson_score invnorm n p alpha) <= t <= snd (wilson_score invnorm n p alpha)).
  { intros t Ht. apply wilson_score_iff in Ht; [|lra|easy|easy]. apply wilson_score_iff; [lra|easy|easy|].
    set (q := (p - t) ^ 2) in *. assert (Hq : 0 <= q) by (unfold q; apply pow2_ge_0).
    assert (Hz2 : 0 < (invnorm (alpha' / 2)) ^ 2) by (rewrite <- Rsqr_pow2; apply Rsqr_pos_lt; exact Hz').
    assert (Hsq : (invnorm (alpha' / 2)) ^ 2 <= (invnorm (alpha / 2)) ^ 2) by (rewrite <- (pow2_abs (invnorm (alpha' / 2))), <- (pow2_abs (invnorm (alpha / 2))); apply pow_incr; split; [apply Rabs_pos|easy]).
    assert (0 <= n' * q) by (apply Rmult_le_pos; lra). assert (n * q <= n' * q) by (apply Rmult_le_compat_r; lra).
    assert (0 <= t * (1 - t)) by nra. nra. }
  split; [apply (V (fst (wilson_score invnorm n' p alpha')))|apply (V (snd (wilson_score invnorm n' p alpha')))]; lra.
Qed.
Lemma wilson_score_reflect invnorm n p alpha : 
  wilson_score invnorm n (1 - p) alpha = (1 - snd (wilson_score invnorm n p alpha), 1 - fst (wilson_score invnorm n p alpha)) \/ 1 + n / (invnorm (alpha / 2)) ^ 2 = 0.
Proof.
  unfold wilson_score. cbn [fst snd]. replace ((- invnorm (alpha / 2)) ^ 2) with ((invnorm (alpha / 2)) ^ 2) by ring. set (m := n / invnorm (alpha / 2) ^ 2).
  destruct (Req_dec (1 + m) 0) as [E|E]; [now right|left].
  replace (m * (1 - p) * (1 - (1 - p)) + 1 / 4) with (m * p * (1 - p) + 1 / 4) by ring.
  f_equal; [|]; replace (((1 - p) * m + 1 / 2) / (1 + m)) with (1 - (p * m + 1 / 2) / (1 + m)) by (field; easy); ring.
Qed.
Lemma credible_bounds isf a b n p alpha : (forall q a b, 0 < a -> 0 < b -> 0 <= q <= 1 -> 0 <= isf q a b <= 1) ->
  (forall q q' a b, 0 < a -> 0 < b -> 0 <= q <= q' -> q' <= 1 -> isf q' a b <= isf q a b) ->
  0 < a -> 0 < b -> 0 <= n -> 0 <= p <= 1 -> 0 <= alpha <= 1 ->
  let (lo, up) := credible_interval isf a b n p alpha in 0 <= lo <= up /\ up <= 1.
Proof.
  intros Hr Hd Ha Hb Hn Hp Hal. unfold credible_interval.
  assert (0 < n * p + a) by nra. assert (0 < n * (1 - p) + b) by nra.
  assert (A := Hr (1 - alpha / 2) (n * p + a) (n * (1 - p) + b)). assert (B := Hr (alpha / 2) (n * p + a) (n * (1 - p) + b)).
  assert (Cc := Hd (alpha / 2) (1 - alpha / 2) (n * p + a) (n * (1 - p) + b)).
  destruct (Req_EM_T p 0), (Req_EM_T p 1); lra.
Qed.
