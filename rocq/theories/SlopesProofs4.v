From Coq Require Import Reals Lra Lia Sorted.
From Verif Require Import Base PolyModel PolySpec PolyProofs PolyProofs2 PPModel PPSpec PPProofs PPProofs2
  SplineModel SplineProofs SlopesModel SlopesSpec SlopesProofs SlopesProofs2 SlopesProofs3.
Local Open Scope R_scope.

(* ---- Stineman interpolation --------------------------------------------------------------------- *)
Definition spiece (x y yp : list R) (i : nat) (t : R) : R :=
  let s := secant x y i in
  let yo := at_R y i + s * (t - at_R x i) in
  let dy1 := (at_R yp i - s) * (t - at_R x i) in
  let dy2 := (at_R yp (S i) - s) * (t - at_R x (S i)) in
  let dd := dy1 * dy2 in
  yo + dd * (if Rlt_dec dd 0 then (2 * t - at_R x i - at_R x (S i)) / ((dy1 - dy2) * (at_R x (S i) - at_R x i))
             else if Rlt_dec 0 dd then 1 / (dy1 + dy2) else 0).
Lemma spiece_left x y yp i : spiece x y yp i (nth i x 0) = nth i y 0.
Proof.
  unfold spiece, at_R. cbv zeta. replace (nth i x 0 - nth i x 0) with 0 by ring. rewrite !Rmult_0_r, !Rmult_0_l. ring.
Qed.
Lemma spiece_right x y yp i : gap x i <> 0 -> spiece x y yp i (nth (S i) x 0) = nth (S i) y 0.
Proof.
  intros G. unfold spiece, secant, gap, at_R in *. cbv zeta. replace (nth (S i) x 0 - nth (S i) x 0) with 0 by ring.
  rewrite !Rmult_0_r, !Rmult_0_l. field. exact G.
Qed.
(* on a closed segment the segment's own formula gives the value *)
Lemma sinterp_piece x y yp i t : StronglySorted Rlt x -> (S i < List.length x)%nat -> nth i x 0 <= t <= nth (S i) x 0 ->
  stineman_interp x y yp t = spiece x y yp i t.
Proof.
  intros H Hi Ht. assert (Hn : (2 <= List.length x)%nat) by lia. destruct (interval_below x t H Hn) as [A [B C]].
  unfold stineman_interp. set (k := count_below (removelast (tl x)) t) in *. cbv zeta.
  change (spiece x y yp k t = spiece x y yp i t).
  destruct (Nat.lt_trichotomy k i) as [L|[->|L]]; [|reflexivity|].
  - destruct C as [C|C]; [lia|].
    assert (nth (S k) x 0 <= nth i x 0). { destruct (Nat.eq_dec (S k) i) as [->|]; [lra|]. left. apply (sorted_nth x H); lia. }
    assert (t = nth i x 0) by lra. assert (EI : S k = i).
    { destruct (Nat.eq_dec (S k) i); [assumption|]. pose proof (sorted_nth x H (S k) i ltac:(lia) ltac:(lia)). lra. }
    subst t. rewrite spiece_left. rewrite <- EI. apply spiece_right. pose proof (gap_pos x k H ltac:(lia)). lra.
  - destruct B as [B|B]; [lia|].
    assert (nth (S i) x 0 <= nth k x 0). { destruct (Nat.eq_dec (S i) k) as [->|]; [lra|]. left. apply (sorted_nth x H); lia. }
    lra.
Qed.
Lemma stineman_knots x y yp i : StronglySorted Rlt x -> (2 <= List.length x)%nat -> (i < List.length x)%nat ->
  stineman_interp x y yp (nth i x 0) = nth i y 0.
Proof.
  intros H Hn Hi. destruct (knot_in_piece x i H Hn Hi) as [[-> K]|[k [-> K]]].
  - rewrite (sinterp_piece x y yp 0%nat) by (auto; lia). apply spiece_left.
  - rewrite (sinterp_piece x y yp k) by (auto; lia). apply spiece_right. pose proof (gap_pos x k H ltac:(lia)). lra.
Qed.
Lemma abs_quot_bound a b k : a * b < 0 -> Rabs k <= 1 -> Rabs (a * b * (k / (a - b))) <= Rmin (Rabs a) (Rabs b).
Proof.
  intros D K. assert (a - b <> 0) by nra. assert (AB : Rabs (a - b) = Rabs a + Rabs b).
  { unfold Rabs. destruct (Rcase_abs a), (Rcase_abs b), (Rcase_abs (a - b)); try lra; nra. }
  replace (a * b * (k / (a - b))) with (a * b * k / (a - b)) by (field; assumption).
  unfold Rdiv. rewrite Rabs_mult, Rabs_inv, AB, !Rabs_mult.
  assert (PA : 0 < Rabs a) by (apply Rabs_pos_lt; nra). assert (PB : 0 < Rabs b) by (apply Rabs_pos_lt; nra).
  pose proof (Rabs_pos k) as PK. set (pa := Rabs a) in *. set (pb := Rabs b) in *. set (pk := Rabs k) in *. clearbody pa pb pk.
  assert (PP : 0 < pa * pb) by now apply Rmult_lt_0_compat. assert (PPK : pa * pb * pk <= pa * pb * 1) by (apply Rmult_le_compat_l; lra).
  apply Rmin_glb; apply (Rmult_le_reg_r (pa + pb)); try lra; rewrite Rmult_assoc, Rinv_l by lra; nra.
Qed.
Lemma abs_harmonic_bound a b : 0 < a * b -> Rabs (a * b * (1 / (a + b))) <= Rmin (Rabs a) (Rabs b).
Proof.
  intros D. assert (a + b <> 0) by nra. assert (AB : Rabs (a + b) = Rabs a + Rabs b).
  { unfold Rabs. destruct (Rcase_abs a), (Rcase_abs b), (Rcase_abs (a + b)); try lra; nra. }
  replace (a * b * (1 / (a + b))) with (a * b / (a + b)) by (field; assumption).
  unfold Rdiv. rewrite Rabs_mult, Rabs_inv, AB, !Rabs_mult.
  assert (PA : 0 < Rabs a) by (apply Rabs_pos_lt; nra). assert (PB : 0 < Rabs b) by (apply Rabs_pos_lt; nra).
  apply Rmin_glb; apply (Rmult_le_reg_r (Rabs a + Rabs b)); try lra; rewrite Rmult_assoc, Rinv_l by lra; nra.
Qed.
Lemma stineman_bound x y yp i t : StronglySorted Rlt x -> (S i < List.length x)%nat -> nth i x 0 <= t <= nth (S i) x 0 ->
  Rabs (stineman_interp x y yp t - (nth i y 0 + chord x y i * (t - nth i x 0)))
  <= Rmin (Rabs ((nth i yp 0 - chord x y i) * (t - nth i x 0))) (Rabs ((nth (S i) yp 0 - chord x y i) * (t - nth (S i) x 0))).
Proof.
  intros H Hi Ht. rewrite (sinterp_piece x y yp i) by assumption. unfold spiece. cbv zeta. unfold at_R.
  change (secant x y i) with (chord x y i). set (s := chord x y i).
  set (a := (nth i yp 0 - s) * (t - nth i x 0)). set (b := (nth (S i) yp 0 - s) * (t - nth (S i) x 0)).
  replace (nth i y 0 + s * (t - nth i x 0) + _ - (nth i y 0 + s * (t - nth i x 0))) with
    (a * b * (if Rlt_dec (a * b) 0 then (2 * t - nth i x 0 - nth (S i) x 0) / ((a - b) * (nth (S i) x 0 - nth i x 0)) else if Rlt_dec 0 (a * b) then 1 / (a + b) else 0)) by ring.
  pose proof (gap_pos x i H Hi) as G. unfold gap, at_R in G.
  destruct (Rlt_dec (a * b) 0) as [L|NL]; [|destruct (Rlt_dec 0 (a * b)) as [L|NL']].
  - replace ((2 * t - nth i x 0 - nth (S i) x 0) / ((a - b) * (nth (S i) x 0 - nth i x 0)))
      with ((2 * t - nth i x 0 - nth (S i) x 0) / (nth (S i) x 0 - nth i x 0) / (a - b)) by (field; split; nra).
    apply abs_quot_bound; [exact L|]. apply Rabs_le. split; apply (Rmult_le_reg_r (nth (S i) x 0 - nth i x 0)); auto;
      unfold Rdiv; rewrite Rmult_assoc, Rinv_l by lra; lra.
  - now apply abs_harmonic_bound.
  - rewrite Rmult_0_r, Rabs_R0. apply Rmin_glb; apply Rabs_pos.
Qed.

(* convex pieces: A = s - yp_i > 0 and B = yp_(i+1) - s > 0 *)
Definition cpiece (s A B h u : R) : R := s * u - A * B * u * (h - u) / (A * u + B * (h - u)).
Definition cslope (s A B h u : R) : R := s - A * B * (B * (h - u) ^ 2 - A * u ^ 2) / (A * u + B * (h - u)) ^ 2.
Lemma cden A B h u : 0 < A -> 0 < B -> 0 < h -> 0 <= u <= h -> 0 < A * u + B * (h - u).
Proof. intros. destruct (Req_dec u 0) as [->|]; [nra|]. assert (0 < A * u) by (apply Rmult_lt_0_compat; lra). nra. Qed.
Lemma spiece_convex x y yp i t : gap x i > 0 -> nth i yp 0 < secant x y i -> secant x y i < nth (S i) yp 0 ->
  nth i x 0 <= t <= nth (S i) x 0 ->
  spiece x y yp i t = nth i y 0 + cpiece (secant x y i) (secant x y i - nth i yp 0) (nth (S i) yp 0 - secant x y i) (gap x i) (t - nth i x 0).
Proof.
  intros G Hl Hr Ht. unfold spiece, cpiece. cbv zeta. unfold at_R. set (s := secant x y i) in *.
  set (A := s - nth i yp 0). set (B := nth (S i) yp 0 - s). set (u := t - nth i x 0).
  assert (U : 0 <= u <= gap x i) by (unfold u, gap, at_R; lra).
  assert (E1 : (nth i yp 0 - s) * u = - (A * u)) by (unfold A; ring).
  assert (E2 : B * (t - nth (S i) x 0) = - (B * (gap x i - u))) by (unfold B, u, gap, at_R; ring).
  rewrite E1, E2. pose proof (cden A B (gap x i) u ltac:(unfold A; lra) ltac:(unfold B; lra) ltac:(lra) U) as W.
  assert (PA : 0 <= A * u) by (apply Rmult_le_pos; unfold A; lra). assert (PB : 0 <= B * (gap x i - u)) by (apply Rmult_le_pos; unfold B; lra).
  assert (PP : 0 <= (A * u) * (B * (gap x i - u))) by now apply Rmult_le_pos.
  destruct (Rlt_dec (- (A * u) * - (B * (gap x i - u))) 0) as [L|NL]; [lra|].
  destruct (Rlt_dec 0 (- (A * u) * - (B * (gap x i - u)))) as [L|NL'].
  - field. lra.
  - replace (- (A * u) * - (B * (gap x i - u))) with 0 by lra. replace (A * B * u * (gap x i - u)) with 0 by lra. unfold Rdiv. ring.
Qed.
Lemma cpiece_support s A B h p t : 0 < A -> 0 < B -> 0 < h -> 0 <= p <= h -> 0 <= t <= h ->
  cpiece s A B h p + cslope s A B h p * (t - p) <= cpiece s A B h t.
Proof.
  intros HA HB Hh Hp Ht. pose proof (cden A B h p HA HB Hh Hp) as Wp. pose proof (cden A B h t HA HB Hh Ht) as Wt.
  unfold cpiece, cslope. set (vp := h - p) in *. set (vt := h - t) in *.
  assert (E : s * t - A * B * t * vt / (A * t + B * vt)
    - (s * p - A * B * p * vp / (A * p + B * vp) + (s - A * B * (B * vp ^ 2 - A * p ^ 2) / (A * p + B * vp) ^ 2) * (t - p))
    = A * B * (A * B * (vp * t - p * vt) ^ 2) / ((A * p + B * vp) ^ 2 * (A * t + B * vt))).
  { unfold vp, vt in *. field. split; lra. }
  assert (0 <= A * B * (A * B * (vp * t - p * vt) ^ 2) / ((A * p + B * vp) ^ 2 * (A * t + B * vt))); [|lra].
  pose proof (pow2_ge_0 (vp * t - p * vt)). assert (0 < A * B) by now apply Rmult_lt_0_compat.
  apply Rmult_le_pos; [apply Rmult_le_pos; [lra|apply Rmult_le_pos; lra]|]. left. apply Rinv_0_lt_compat. apply Rmult_lt_0_compat; [apply pow_lt|]; lra.
Qed.
Lemma cslope_range s A B h u : 0 < A -> 0 < B -> 0 < h -> 0 <= u <= h -> s - A <= cslope s A B h u <= s + B.
Proof.
  intros HA HB Hh Hu. pose proof (cden A B h u HA HB Hh Hu) as W. unfold cslope. set (v := h - u) in *. assert (V : 0 <= v) by (unfold v; lra).
  assert (UV : 0 <= u * v) by (apply Rmult_le_pos; lra). assert (AB : 0 < A * B) by now apply Rmult_lt_0_compat.
  assert (ABU : 0 <= A * B * (u * v)) by (apply Rmult_le_pos; lra).
  pose proof (pow2_ge_0 u). pose proof (pow2_ge_0 v). pose proof (pow2_ge_0 A). pose proof (pow2_ge_0 B).
  assert (AU : 0 <= A ^ 2 * u ^ 2) by now apply Rmult_le_pos. assert (BV : 0 <= B ^ 2 * v ^ 2) by now apply Rmult_le_pos.
  assert (ABu : 0 <= A * B * u ^ 2) by (apply Rmult_le_pos; lra). assert (ABv : 0 <= A * B * v ^ 2) by (apply Rmult_le_pos; lra).
  assert (W2 : 0 < (A * u + B * v) ^ 2) by (apply pow_lt; lra).
  split.
  - assert (A * B * (B * v ^ 2 - A * u ^ 2) / (A * u + B * v) ^ 2 <= A); [|lra].
    apply (Rmult_le_reg_r ((A * u + B * v) ^ 2)); [lra|]. unfold Rdiv. rewrite Rmult_assoc, Rinv_l by lra.
    assert (0 <= A * (A ^ 2 * u ^ 2 + 2 * (A * B * (u * v)) + A * B * u ^ 2)) by (apply Rmult_le_pos; lra). nra.
  - assert (- B <= A * B * (B * v ^ 2 - A * u ^ 2) / (A * u + B * v) ^ 2); [|lra].
    apply (Rmult_le_reg_r ((A * u + B * v) ^ 2)); [lra|]. unfold Rdiv. rewrite Rmult_assoc, Rinv_l by lra.
    assert (0 <= B * (B ^ 2 * v ^ 2 + 2 * (A * B * (u * v)) + A * B * v ^ 2)) by (apply Rmult_le_pos; lra). nra.
Qed.

(* a list of slopes that brackets the chords strictly from both sides *)
Definition brackets (x y yp : list R) : Prop :=
  forall i, (S i < List.length x)%nat -> nth i yp 0 < secant x y i < nth (S i) yp 0.
Lemma brackets_mono x y yp i j : brackets x y yp -> (i <= j)%nat -> (j < List.length x)%nat -> nth i yp 0 <= nth j yp 0.
Proof.
  intros B L Hj. induction L as [|j L IH]; [lra|]. specialize (IH ltac:(lia)). destruct (B j ltac:(lia)). lra.
Qed.
Lemma locate x t : StronglySorted Rlt x -> (2 <= List.length x)%nat -> nth 0 x 0 <= t <= nth (List.length x - 1) x 0 ->
  exists i, (S i < List.length x)%nat /\ nth i x 0 <= t <= nth (S i) x 0.
Proof.
  intros H Hn Ht. destruct (interval_below x t H Hn) as [A [B C]]. exists (count_below (removelast (tl x)) t). split; [lia|].
  set (k := count_below (removelast (tl x)) t) in *. split.
  - destruct B as [->|]; lra.
  - destruct C as [->|]; [|lra]. replace (S (List.length x - 2)) with (List.length x - 1)%nat by lia. lra.
Qed.
Definition sder (x y yp : list R) (i : nat) (t : R) : R :=
  cslope (secant x y i) (secant x y i - nth i yp 0) (nth (S i) yp 0 - secant x y i) (gap x i) (t - nth i x 0).
Lemma sder_range x y yp i t : StronglySorted Rlt x -> brackets x y yp -> (S i < List.length x)%nat -> nth i x 0 <= t <= nth (S i) x 0 ->
  nth i yp 0 <= sder x y yp i t <= nth (S i) yp 0.
Proof.
  intros H B Hi Ht. destruct (B i Hi). pose proof (gap_pos x i H Hi) as G. unfold sder.
  destruct (cslope_range (secant x y i) (secant x y i - nth i yp 0) (nth (S i) yp 0 - secant x y i) (gap x i) (t - nth i x 0)); try lra.
  unfold gap, at_R; lra.
Qed.
Lemma support_same x y yp i p t : StronglySorted Rlt x -> brackets x y yp -> (S i < List.length x)%nat ->
  nth i x 0 <= p <= nth (S i) x 0 -> nth i x 0 <= t <= nth (S i) x 0 ->
  stineman_interp x y yp p + sder x y yp i p * (t - p) <= stineman_interp x y yp t.
Proof.
  intros H B Hi Hp Ht. destruct (B i Hi). pose proof (gap_pos x i H Hi) as G. rewrite !(sinterp_piece x y yp i) by assumption.
  rewrite !spiece_convex by assumption. unfold sder.
  pose proof (cpiece_support (secant x y i) (secant x y i - nth i yp 0) (nth (S i) yp 0 - secant x y i) (gap x i) (p - nth i x 0) (t - nth i x 0)
    ltac:(lra) ltac:(lra) G ltac:(unfold gap, at_R in *; lra) ltac:(unfold gap, at_R in *; lra)).
  replace (t - nth i x 0 - (p - nth i x 0)) with (t - p) in H2 by ring. lra.
Qed.
Lemma support_right x y yp i p k : StronglySorted Rlt x -> brackets x y yp -> (S i < List.length x)%nat ->
  nth i x 0 <= p <= nth (S i) x 0 -> (S i + k < List.length x)%nat ->
  stineman_interp x y yp p + sder x y yp i p * (nth (S i + k) x 0 - p) <= nth (S i + k) y 0.
Proof.
  intros H B Hi Hp. induction k as [|k IH]; intros Hk.
  - rewrite Nat.add_0_r. rewrite <- (stineman_knots x y yp (S i)) by (auto; lia). apply support_same; auto. lra.
  - specialize (IH ltac:(lia)). replace (S i + S k)%nat with (S (S i + k)) by lia. set (j := (S i + k)%nat) in *.
    destruct (B j ltac:(lia)) as [B1 B2]. pose proof (sder_range x y yp i p H B Hi Hp). pose proof (brackets_mono x y yp (S i) j B ltac:(lia) ltac:(lia)).
    pose proof (gap_pos x j H ltac:(lia)) as G. assert (ES : secant x y j * gap x j = nth (S j) y 0 - nth j y 0) by (unfold secant, at_R in *; field; lra).
    unfold gap, at_R in *. nra.
Qed.
Lemma support_left x y yp i p k : StronglySorted Rlt x -> brackets x y yp -> (S i < List.length x)%nat ->
  nth i x 0 <= p <= nth (S i) x 0 -> (k <= i)%nat ->
  stineman_interp x y yp p + sder x y yp i p * (nth (i - k) x 0 - p) <= nth (i - k) y 0.
Proof.
  intros H B Hi Hp. induction k as [|k IH]; intros Hk.
  - rewrite Nat.sub_0_r. rewrite <- (stineman_knots x y yp i) by (auto; lia). apply support_same; auto. lra.
  - specialize (IH ltac:(lia)). set (j := (i - S k)%nat) in *. replace (i - k)%nat with (S j) in IH by lia.
    destruct (B j ltac:(lia)) as [B1 B2]. pose proof (sder_range x y yp i p H B Hi Hp). pose proof (brackets_mono x y yp (S j) i B ltac:(lia) ltac:(lia)).
    pose proof (gap_pos x j H ltac:(lia)) as G. assert (ES : secant x y j * gap x j = nth (S j) y 0 - nth j y 0) by (unfold secant, at_R in *; field; lra).
    unfold gap, at_R in *. nra.
Qed.
Lemma support_all x y yp i p t : StronglySorted Rlt x -> brackets x y yp -> (S i < List.length x)%nat ->
  nth i x 0 <= p <= nth (S i) x 0 -> nth 0 x 0 <= t <= nth (List.length x - 1) x 0 ->
  stineman_interp x y yp p + sder x y yp i p * (t - p) <= stineman_interp x y yp t.
Proof.
  intros H B Hi Hp Ht. destruct (locate x t H ltac:(lia) Ht) as [j [Hj Tj]].
  pose proof (sder_range x y yp i p H B Hi Hp) as DR.
  destruct (Nat.lt_trichotomy j i) as [L|[->|L]]; [|now apply support_same|].
  - pose proof (support_left x y yp i p (i - S j) H B Hi Hp ltac:(lia)) as SL. replace (i - (i - S j))%nat with (S j) in SL by lia.
    pose proof (support_same x y yp j (nth (S j) x 0) t H B Hj ltac:(lra) Tj) as SS. rewrite stineman_knots in SS by (auto; lia).
    pose proof (sder_range x y yp j (nth (S j) x 0) H B Hj ltac:(lra)) as DR'. pose proof (brackets_mono x y yp (S j) i B ltac:(lia) ltac:(lia)). nra.
  - pose proof (support_right x y yp i p (j - S i) H B Hi Hp ltac:(lia)) as SL. replace (S i + (j - S i))%nat with j in SL by lia.
    pose proof (support_same x y yp j (nth j x 0) t H B Hj ltac:(lra) Tj) as SS. rewrite stineman_knots in SS by (auto; lia).
    pose proof (sder_range x y yp j (nth j x 0) H B Hj ltac:(lra)) as DR'. pose proof (brackets_mono x y yp (S i) j B ltac:(lia) ltac:(lia)). nra.
Qed.
Lemma bracket_convex x y yp : StronglySorted Rlt x -> (2 <= List.length x)%nat -> brackets x y yp ->
  convex_on (nth 0 x 0) (nth (List.length x - 1) x 0) (stineman_interp x y yp).
Proof.
  intros H Hn B s t l Hs Ht Hl. set (p := l * s + (1 - l) * t).
  assert (Hp : nth 0 x 0 <= p <= nth (List.length x - 1) x 0) by (unfold p; nra).
  destruct (locate x p H Hn Hp) as [i [Hi Pi]].
  pose proof (support_all x y yp i p s H B Hi Pi Hs) as A1. pose proof (support_all x y yp i p t H B Hi Pi Ht) as A2.
  set (D := sder x y yp i p) in *. set (F := stineman_interp x y yp) in *.
  assert (l * (F p + D * (s - p)) <= l * F s) by (apply Rmult_le_compat_l; lra).
  assert ((1 - l) * (F p + D * (t - p)) <= (1 - l) * F t) by (apply Rmult_le_compat_l; lra).
  assert (l * (F p + D * (s - p)) + (1 - l) * (F p + D * (t - p)) = F p) by (unfold p; ring). lra.
Qed.
Lemma bracket_increasing x y yp s t : StronglySorted Rlt x -> (2 <= List.length x)%nat -> brackets x y yp -> 0 < nth 0 yp 0 ->
  nth 0 x 0 <= s -> s < t -> t <= nth (List.length x - 1) x 0 -> stineman_interp x y yp s < stineman_interp x y yp t.
Proof.
  intros H Hn B P Hs Hst Ht. destruct (locate x s H Hn ltac:(lra)) as [i [Hi Pi]].
  pose proof (support_all x y yp i s t H B Hi Pi ltac:(lra)) as A. pose proof (sder_range x y yp i s H B Hi Pi).
  pose proof (brackets_mono x y yp 0 i B ltac:(lia) ltac:(lia)). nra.
Qed.
Lemma bracket_decreasing x y yp s t : StronglySorted Rlt x -> (2 <= List.length x)%nat -> brackets x y yp -> nth (List.length x - 1) yp 0 < 0 ->
  nth 0 x 0 <= s -> s < t -> t <= nth (List.length x - 1) x 0 -> stineman_interp x y yp t < stineman_interp x y yp s.
Proof.
  intros H Hn B P Hs Hst Ht. destruct (locate x t H Hn ltac:(lra)) as [i [Hi Pi]].
  pose proof (support_all x y yp i t s H B Hi Pi ltac:(lra)) as A. pose proof (sder_range x y yp i t H B Hi Pi).
  pose proof (brackets_mono x y yp (S i) (List.length x - 1) B ltac:(lia) ltac:(lia)). nra.
Qed.

(* Stineman's slopes for convex data *)
Lemma stineman_inner_between x y i : StronglySorted Rlt x -> (1 <= i)%nat -> (S i < List.length x)%nat ->
  secant x y (i - 1) < secant x y i -> secant x y (i - 1) < stineman_inner x y i < secant x y i.
Proof.
  intros H H1 Hi C. pose proof (gap_pos x i H ltac:(lia)) as G1. pose proof (gap_pos x (i - 1) H ltac:(lia)) as G0.
  destruct (stineman_den _ _ (secant x y (i - 1)) (secant x y i) G0 G1) as [D1 D0]. unfold stineman_inner. cbv zeta.
  set (p := gap x (i - 1) * gap x i ^ 2 * (1 + secant x y i ^ 2)) in *.
  set (q := gap x i * gap x (i - 1) ^ 2 * (1 + secant x y (i - 1) ^ 2)) in *.
  replace (gap x (i - 1) * secant x y (i - 1) * gap x i ^ 2 * (1 + secant x y i ^ 2) + gap x i * secant x y i * gap x (i - 1) ^ 2 * (1 + secant x y (i - 1) ^ 2))
    with (p * secant x y (i - 1) + q * secant x y i) by (unfold p, q; ring).
  clearbody p q. split; apply (Rmult_lt_reg_r (p + q)); try lra; unfold Rdiv; rewrite ?Rmult_assoc, ?Rinv_l by lra; nra.
Qed.
Lemma stineman_end_below m d yp : d < 0 -> yp = m + d -> (stineman_end m d yp < m) /\ (0 < m -> 0 < stineman_end m d yp).
Proof.
  intros D ->. unfold stineman_end. rcase m.
  - rewrite sgn_neg by assumption. destruct (Rle_dec 0 (-1 * d)); lra.
  - subst. rewrite sgn_zero. destruct (Rle_dec 0 (0 * d)); [|lra]. lra.
  - rewrite sgn_pos by assumption. destruct (Rle_dec 0 (1 * d)); [lra|]. rewrite Rabs_right, Rabs_left by lra.
    replace (m + m * d / (m + - d)) with (m * m / (m + - d)) by (field; lra). split.
    + apply (Rmult_lt_reg_r (m + - d)); [lra|]. unfold Rdiv. rewrite Rmult_assoc, Rinv_l by lra. nra.
    + intros _. apply Rmult_lt_0_compat; [nra|]. apply Rinv_0_lt_compat. lra.
Qed.
Lemma stineman_end_above m d yp : 0 < d -> yp = m + d -> (m < stineman_end m d yp) /\ (m < 0 -> stineman_end m d yp < 0).
Proof.
  intros D ->. unfold stineman_end. rcase m.
  - rewrite sgn_neg by assumption. destruct (Rle_dec 0 (-1 * d)); [lra|]. rewrite Rabs_left, Rabs_right by lra.
    assert (0 < - m * d / (- m + d)) by (apply Rdiv_lt_0_compat; nra). split; [lra|]. intros _.
    replace (m + - m * d / (- m + d)) with (- (m * m / (- m + d))) by (field; lra).
    assert (0 < m * m / (- m + d)) by (apply Rdiv_lt_0_compat; nra). lra.
  - subst. rewrite sgn_zero. destruct (Rle_dec 0 (0 * d)); lra.
  - rewrite sgn_pos by assumption. destruct (Rle_dec 0 (1 * d)); lra.
Qed.
Lemma stineman_brackets x y : StronglySorted Rlt x -> (3 <= List.length x)%nat -> convex_data x y ->
  exists yp, slopes Stineman false x y = Ok yp /\ brackets x y yp /\ (0 < secant x y 0 -> 0 < nth 0 yp 0) /\
   (secant x y (List.length x - 2) < 0 -> nth (List.length x - 1) yp 0 < 0).
Proof.
  intros H Hn C. eexists. split; [apply slopes_ok; auto; lia|]. cbv zeta.
  assert (CS : forall i, (1 <= i)%nat -> (S i < List.length x)%nat -> secant x y (i - 1) < secant x y i).
  { intros i H1 Hi. specialize (C (i - 1)%nat ltac:(lia)). replace (S (i - 1)) with i in C by lia.
    change (chord x y (i - 1)) with (secant x y (i - 1)) in C. exact C. }
  set (inner := stineman_inner x y).
  assert (IN : forall i, (1 <= i)%nat -> (S i < List.length x)%nat -> secant x y (i - 1) < inner i < secant x y i) by (intros; apply stineman_inner_between; auto).
  assert (RE : forall i, (1 <= i)%nat -> (S i < List.length x)%nat -> reflected_ends x y inner i = inner i).
  { intros i H1 Hi. unfold reflected_ends, npts. destruct (Nat.eqb_spec i 0); [lia|]. destruct (Nat.eqb_spec i (List.length x - 1)); [lia|reflexivity]. }
  assert (IL : forall i, (1 <= i)%nat -> (S i < List.length x)%nat -> stineman_at x y i = inner i).
  { intros i H1 Hi. unfold stineman_at, npts. fold inner. destruct (Nat.eqb_spec i 0); [lia|]. destruct (Nat.eqb_spec i (List.length x - 1)); [lia|]. now apply RE. }
  assert (E0 : stineman_at x y 0 = stineman_end (secant x y 0) (secant x y 0 - inner 1%nat) (secant x y 0 + (secant x y 0 - inner 1%nat))).
  { unfold stineman_at, npts. fold inner. cbn [Nat.eqb]. rewrite RE by lia. f_equal. unfold reflected_ends, npts. cbn [Nat.eqb].
    destruct (Nat.eqb_spec (List.length x) 2); [lia|]. ring. }
  assert (EN : stineman_at x y (List.length x - 1) = stineman_end (secant x y (List.length x - 2)) (secant x y (List.length x - 2) - inner (List.length x - 2)%nat)
      (secant x y (List.length x - 2) + (secant x y (List.length x - 2) - inner (List.length x - 2)%nat))).
  { unfold stineman_at, npts. fold inner. destruct (Nat.eqb_spec (List.length x - 1) 0); [lia|]. rewrite Nat.eqb_refl. rewrite RE by lia. f_equal.
    unfold reflected_ends, npts. destruct (Nat.eqb_spec (List.length x - 1) 0); [lia|]. rewrite Nat.eqb_refl.
    destruct (Nat.eqb_spec (List.length x) 2); [lia|]. ring. }
  destruct (IN 1%nat ltac:(lia) ltac:(lia)) as [I0 _]. cbn [Nat.sub] in I0.
  destruct (IN (List.length x - 2)%nat ltac:(lia) ltac:(lia)) as [_ I1].
  destruct (stineman_end_below (secant x y 0) (secant x y 0 - inner 1%nat) _ ltac:(lra) eq_refl) as [B0 P0].
  destruct (stineman_end_above (secant x y (List.length x - 2)) (secant x y (List.length x - 2) - inner (List.length x - 2)%nat) _ ltac:(lra) eq_refl) as [B1 P1].
  split; [|split].
  - intros i Hi. rewrite !map_seq_nth by lia. cbn [slope_at]. split.
    + destruct (Nat.eq_dec i 0) as [->|]; [now rewrite E0|]. rewrite IL by lia. apply IN; lia.
    + destruct (Nat.eq_dec (S i) (List.length x - 1)) as [E|].
      * rewrite E, EN. replace i with (List.length x - 2)%nat by lia. exact B1.
      * rewrite IL by lia. destruct (IN (S i) ltac:(lia) ltac:(lia)) as [K _]. replace (S i - 1)%nat with i in K by lia. exact K.
  - intros P. rewrite map_seq_nth by lia. cbn [slope_at]. rewrite E0. auto.
  - intros P. rewrite map_seq_nth by lia. cbn [slope_at]. rewrite EN. auto.
Qed.
