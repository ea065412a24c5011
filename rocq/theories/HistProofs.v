(* Lemmas on good_bins. *)
From Coq Require Import Reals List ZArith Lra Lia Bool.
From Verif Require Import Base KdeModel ProcModel ProcProofs HistModel HistSpec.
Import ListNotations.
Local Open Scope R_scope.

Lemma ln10 : 0 < ln 10. Proof. rewrite <- ln_1. apply ln_increasing; lra. Qed.
Lemma p10 k : 0 < powerRZ 10 k. Proof. apply powerRZ_lt. lra. Qed.
Lemma powerRZ_exp k : powerRZ 10 k = exp (IZR k * ln 10).
Proof. rewrite powerRZ_Rpower by lra. reflexivity. Qed.
Lemma decade d : 0 < d -> let e := floor (ln d / ln 10) in powerRZ 10 e <= d < 10 * powerRZ 10 e.
Proof.
  intros P e. pose proof (floor_spec (ln d / ln 10)) as F. fold e in F. pose proof ln10 as L.
  assert (Q : ln d = ln d / ln 10 * ln 10) by (field; lra).
  assert (A : IZR e * ln 10 <= ln d) by (rewrite Q; apply Rmult_le_compat_r; lra).
  assert (B : ln d < (IZR e + 1) * ln 10) by (rewrite Q at 1; apply Rmult_lt_compat_r; lra).
  rewrite powerRZ_exp. split.
  - rewrite <- (exp_ln d P). destruct A as [A|A]; [left; apply exp_increasing; exact A|right; rewrite A; reflexivity].
  - apply exp_increasing in B. rewrite exp_ln in B by exact P. rewrite Rmult_plus_distr_r, exp_plus, Rmult_1_l, exp_ln in B by lra. lra.
Qed.
Lemma p10_lt a b : (a < b)%Z -> 10 * powerRZ 10 a <= powerRZ 10 b.
Proof.
  intros H. replace b with ((b - a - 1) + 1 + a)%Z by lia. rewrite !powerRZ_add by lra. rewrite powerRZ_1. pose proof (p10 a).
  assert (1 <= powerRZ 10 (b - a - 1)). { replace (b - a - 1)%Z with (Z.of_nat (Z.to_nat (b - a - 1))) by lia. rewrite <- pow_powerRZ. apply pow_R1_Rle. lra. }
  nra.
Qed.
Lemma step_good mn mx k : mn < mx -> (0 < k)%Z -> let w := 2 * (mx - mn) / IZR k in
  exists s, default_step mn mx k = Ok (Some s) /\ nice s /\ 0 < s /\ s <= w < 5 / 2 * s /\ (forall t, nice t -> t <= w -> t <= s).
Proof.
  intros L K w. unfold default_step. destruct (Z.eqb_spec k 0); [lia|]. assert (PK : 0 < IZR k) by (apply IZR_lt; lia).
  replace ((mx - mn) / IZR k * 2) with w by (unfold w; field; lra). cbv zeta. assert (PW : 0 < w) by (unfold w; apply Rdiv_lt_0_compat; lra).
  destruct (Rlt_dec 0 w); [|lra]. destruct (decade w PW) as [A B]. set (e := floor (ln w / ln 10)) in *. pose proof (p10 e) as PE.
  set (q := w / powerRZ 10 e). assert (Q : w = q * powerRZ 10 e) by (unfold q; field; lra). assert (Q1 : 1 <= q < 10) by (split; [apply Rmult_le_reg_r with (powerRZ 10 e)|apply Rmult_lt_reg_r with (powerRZ 10 e)]; lra).
  pose proof (floor_spec q) as F. set (m0 := floor q) in *. assert (M1 : (1 <= m0)%Z) by (apply Z.lt_succ_r, lt_IZR; rewrite succ_IZR; lra).
  set (m := if ((2 <? Z.max 0 (Z.min 5 m0)) && (Z.max 0 (Z.min 5 m0) <? 5))%Z%bool then 2%Z else Z.max 0 (Z.min 5 m0)).
  assert (HM : (m = 1 /\ m0 = 1 \/ m = 2 /\ 2 <= m0 <= 4 \/ m = 5 /\ 5 <= m0)%Z).
  { unfold m. destruct (Z.ltb_spec 2 (Z.max 0 (Z.min 5 m0))), (Z.ltb_spec (Z.max 0 (Z.min 5 m0)) 5); cbn [andb]; lia. }
  assert (BM : (m = 1 \/ m = 2 \/ m = 5)%Z) by lia.
  assert (QM : IZR m <= q < 5 / 2 * IZR m /\ (m = 1%Z -> q < 2) /\ (m = 2%Z -> q < 5)).
  { destruct HM as [[M E]|[[M E]|[M E]]]; rewrite M; (split; [split|split]); try (intros; lia); try (rewrite E in F; lra); try lra;
      try (assert (2 <= IZR m0 <= 4) by (split; apply IZR_le; lia); lra); try (assert (5 <= IZR m0) by (apply IZR_le; lia); lra);
      try (intros _; rewrite E in F; lra); intros _; assert (IZR m0 <= 4) by (apply IZR_le; lia); lra. }
  exists (IZR m * powerRZ 10 e). assert (PM : 0 < IZR m) by (apply IZR_lt; lia). split; [reflexivity|]. split; [exists m, e; tauto|]. split; [nra|]. split; [rewrite Q; nra|].
  intros t [m' [k' [Hm' ->]]] HT. destruct (Z_lt_le_dec k' e) as [C|C].
  - apply p10_lt in C. assert (IZR m' <= 10) by (apply IZR_le; lia). pose proof (p10 k'). assert (1 <= IZR m) by (apply IZR_le; lia). nra.
  - destruct (Z.eq_dec k' e) as [->|N].
    + rewrite Q in HT. apply Rmult_le_reg_r in HT; [|exact PE]. apply Rmult_le_compat_r; [lra|]. apply IZR_le.
      destruct QM as [_ [Q2 Q3]]. destruct BM as [M|[M|M]]; [|destruct Hm' as [->|[->| ->]]; try lia; specialize (Q3 M); lra|lia].
      specialize (Q2 M). destruct Hm' as [->|[->| ->]]; [lia|lra|lra].
    + assert (C' : (e < k')%Z) by lia. apply p10_lt in C'. assert (1 <= IZR m') by (apply IZR_le; lia). nra.
Qed.
Lemma arange_half lo d K : 0 < d -> arange lo (lo + INR K * d + d / 2) d = Ok (ladder lo d K).
Proof.
  intros P. unfold arange. destruct (Req_EM_T d 0); [lra|]. replace ((lo + INR K * d + d / 2 - lo) / d) with (INR K + 1 / 2) by (field; lra).
  rewrite (ceil_unique _ (Z.of_nat K + 1)); [|rewrite plus_IZR, <- INR_IZR_INZ; lra]. replace (Z.to_nat (Z.of_nat K + 1)) with (K + 1)%nat by lia. reflexivity.
Qed.
Lemma one_if_b b : b2r b = one_if b. Proof. reflexivity. Qed.
Lemma bins_good mn mx k odd loose : mn < mx -> (0 < k)%Z -> let w := 2 * (mx - mn) / IZR k in let g := one_if loose + one_if odd / 2 in
  exists s lo K z, good_bins None (Some (mn, mx)) (Some k) odd loose = Ok (ladder lo s K) /\
   nice s /\ s <= w < 5 / 2 * s /\ (forall t, nice t -> t <= w -> t <= s) /\ lo = (IZR z - one_if odd / 2) * s /\
   lo + g * s <= mn < lo + (g + 1) * s /\ lo + (INR K - g - 1) * s < mx <= lo + (INR K - g) * s.
Proof.
  intros L P w g. destruct (step_good mn mx k L P) as [s [E [NS [PS [W MX]]]]]. fold w in W, MX.
  pose proof (floor_spec (mn / s)) as F. pose proof (ceil_spec (mx / s)) as C. set (a := floor (mn / s)) in *. set (b := ceil (mx / s)) in *.
  assert (Qn : mn = mn / s * s) by (field; lra). assert (Qx : mx = mx / s * s) by (field; lra).
  assert (AB : (a < b)%Z). { apply lt_IZR. assert (mn / s < mx / s) by (apply Rmult_lt_compat_r; [apply Rinv_0_lt_compat|]; lra). lra. }
  set (l := if loose then 1%Z else 0%Z). set (o := if odd then 1%Z else 0%Z). assert (Hl : IZR l = one_if loose) by (unfold l; destruct loose; reflexivity). assert (Ho : IZR o = one_if odd) by (unfold o; destruct odd; reflexivity).
  assert (0 <= l <= 1)%Z by (unfold l; destruct loose; lia). assert (0 <= o <= 1)%Z by (unfold o; destruct odd; lia).
  set (K := Z.to_nat (b - a + 2 * l + o)). assert (HK : INR K = IZR b - IZR a + 2 * one_if loose + one_if odd). { unfold K. rewrite INR_IZR_INZ, Z2Nat.id by lia. rewrite !plus_IZR, minus_IZR, mult_IZR, Hl, Ho. ring. }
  exists s, ((IZR (a - l) - one_if odd / 2) * s), K, (a - l)%Z. split; [|split; [exact NS|split; [exact W|split; [exact MX|split; [reflexivity|]]]]].
  - unfold good_bins. cbn [default_range default_bins bind fst snd]. rewrite E. cbn [bind]. fold a b. rewrite !one_if_b, minus_IZR, Hl.
    rewrite <- arange_half by exact PS. rewrite HK. change b2r with one_if. f_equal; field.
  - rewrite minus_IZR, Hl, HK. unfold g. split; split.
    + replace ((IZR a - one_if loose - one_if odd / 2) * s + (one_if loose + one_if odd / 2) * s) with (IZR a * s) by field. rewrite Qn at 1. apply Rmult_le_compat_r; lra.
    + replace ((IZR a - one_if loose - one_if odd / 2) * s + (one_if loose + one_if odd / 2 + 1) * s) with ((IZR a + 1) * s) by field. rewrite Qn at 1. apply Rmult_lt_compat_r; lra.
    + match goal with |- ?t < _ => replace t with ((IZR b - 1) * s) by field end. rewrite Qx at 1. apply Rmult_lt_compat_r; lra.
    + match goal with |- _ <= ?t => replace t with (IZR b * s) by field end. rewrite Qx at 1. apply Rmult_le_compat_r; lra.
Qed.
Lemma bins_number mn mx k odd loose L : mn < mx -> (0 < k)%Z -> good_bins None (Some (mn, mx)) (Some k) odd loose = Ok L ->
  let g := 2 * one_if loose + one_if odd in let K := INR (List.length L) - 1 in IZR k / 2 + g <= K < 5 / 4 * IZR k + 2 + g.
Proof.
  intros H P E g K. destruct (bins_good mn mx k odd loose H P) as [s [lo [K0 [z [E' [NS [W [_ [_ [A B]]]]]]]]]]. rewrite E in E'.
  assert (Q : forall a b : list R, Ok a = Ok b -> a = b) by congruence. apply Q in E'. unfold K. rewrite E'. unfold ladder. rewrite map_length, seq_length, plus_INR. change (INR 1) with 1.
  replace (INR K0 + 1 - 1) with (INR K0) by ring. assert (PK : 0 < IZR k) by (apply IZR_lt; lia). set (gg := one_if loose + one_if odd / 2) in *. replace g with (2 * gg) by (unfold g, gg; field).
  set (w := 2 * (mx - mn) / IZR k) in *. assert (D : mx - mn = w * IZR k / 2) by (unfold w; field; lra). assert (PS : 0 < s) by lra.
  assert (U : mx - mn <= (INR K0 - 2 * gg) * s) by lra. assert (V : (INR K0 - 2 * gg - 2) * s < mx - mn) by lra.
  rewrite D in U, V. split.
  - apply Rplus_le_reg_r with (- (2 * gg)). apply Rmult_le_reg_r with s; [exact PS|]. nra.
  - apply Rplus_lt_reg_r with (- (2 * gg) - 2). apply Rmult_lt_reg_r with s; [exact PS|]. nra.
Qed.
Lemma bins_data x range k odd loose : good_bins (Some x) range k odd loose =
  match range, x with None, [] => Err ValueError | _, _ => good_bins None (Some (match range with Some r => r | None => (minR x, maxR x) end)) (Some (match k with Some k => k | None => ceil (4 * sqrt (sqrt (INR (List.length x)))) end)) odd loose end.
Proof. unfold good_bins, default_range, default_bins, number_of_bins. destruct range as [r|], x as [|a x], k; reflexivity. Qed.
Lemma bins_cover x k odd loose : (exists a b, In a x /\ In b x /\ a < b) -> match k with Some k => (0 < k)%Z | None => True end ->
  exists s lo K, good_bins (Some x) None k odd loose = Ok (ladder lo s K) /\ nice s /\ forall v, In v x -> lo <= v <= lo + INR K * s.
Proof.
  intros [a [b [Ia [Ib AB]]]] HK. destruct x as [|x0 x]; [destruct Ia|]. rewrite bins_data. cbn [List.length]. set (X := x0 :: x) in *.
  destruct (minR_spec X) as [_ MN]; [discriminate|]. destruct (maxR_spec X) as [_ MX]; [discriminate|].
  assert (L : minR X < maxR X) by (specialize (MN a Ia); specialize (MX b Ib); lra).
  set (kk := match k with Some k => k | None => ceil (4 * sqrt (sqrt (INR (S (List.length x))))) end).
  assert (PK : (0 < kk)%Z). { unfold kk. destruct k as [k|]; [exact HK|]. apply lt_IZR. pose proof (ceil_spec (4 * sqrt (sqrt (INR (S (List.length x)))))) as C. assert (0 < sqrt (sqrt (INR (S (List.length x))))) by (apply sqrt_lt_R0, sqrt_lt_R0, lt_0_INR; lia). lra. }
  destruct (bins_good (minR X) (maxR X) kk odd loose L PK) as [s [lo [K [z [E [NS [W [_ [_ [A B]]]]]]]]]]. exists s, lo, K. split; [exact E|]. split; [exact NS|].
  assert (PS : 0 < s) by lra. assert (G : 0 <= one_if loose + one_if odd / 2) by (destruct loose, odd; cbn; lra). intros v Iv. specialize (MN v Iv). specialize (MX v Iv). nra.
Qed.
Lemma bins_constant x c k odd loose : x <> [] -> (forall v, In v x -> v = c) -> (k <> Some 0)%Z -> good_bins (Some x) None k odd loose = Err ValueError.
Proof.
  intros N C K. rewrite bins_data. destruct x as [|x0 x]; [contradiction|]. set (X := x0 :: x) in *. destruct (minR_spec X N) as [I1 _]. destruct (maxR_spec X N) as [I2 _]. rewrite (C _ I1), (C _ I2).
  unfold good_bins. cbn [default_range default_bins bind fst snd]. unfold default_step.
  set (kk := match k with Some k => k | None => _ end). assert (KK : kk <> 0%Z). { unfold kk. destruct k as [k|]; [congruence|]. intros Z. pose proof (ceil_spec (4 * sqrt (sqrt (INR (List.length X))))) as Q. rewrite Z in Q. assert (0 < sqrt (sqrt (INR (List.length X)))) by (apply sqrt_lt_R0, sqrt_lt_R0, lt_0_INR; cbn [X List.length]; lia). lra. }
  destruct (Z.eqb_spec kk 0); [contradiction|]. cbv zeta. replace ((c - c) / IZR kk * 2) with 0 by (field; apply not_0_IZR; exact KK). destruct (Rlt_dec 0 0); [lra|]. reflexivity.
Qed.
Lemma bins_errors k r odd loose : good_bins None None k odd loose = Err AttributeError /\ good_bins None (Some r) None odd loose = Err TypeError /\ good_bins (Some []) None k odd loose = Err ValueError /\ good_bins None (Some r) (Some 0%Z) odd loose = Err ZeroDivision.
Proof. unfold good_bins. repeat split. Qed.
