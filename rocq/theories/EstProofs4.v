From Coq Require Import Reals List ZArith Bool Lia Lra Arith.
From Verif Require Import Base KdeModel KdeProofs ProcModel ProcProofs PolyModel SlopesProofs3 HistModel HistSpec HistProofs HistProofs2 HistProofs3 ArSpec EstModel EstSpec EstProofs EstProofs2 EstProofs3.
Import ListNotations.
Local Open Scope R_scope.

(* confidence intervals *)
Lemma map2_nth {A B C} (g : A -> B -> C) da db dc : forall a b i, (i < List.length a)%nat -> (i < List.length b)%nat -> nth i (map2 g a b) dc = g (nth i a da) (nth i b db).
Proof. induction a as [|x a IH]; intros [|y b] [|i] A1 B1; cbn in *; try lia; auto. apply IH; lia. Qed.
Lemma interval_nth ppf alpha par cov i : List.length cov = List.length par -> (i < List.length par)%nat ->
  let v := nth i (nth i cov []) 0 in let (lo, hi) := confidence_interval ppf alpha par cov in
  nth i lo None = (if Rle_dec 0 v then Some (nth i par 0 - - ppf (alpha / 2) * sqrt v) else None) /\
  nth i hi None = (if Rle_dec 0 v then Some (nth i par 0 + - ppf (alpha / 2) * sqrt v) else None).
Proof.
  intros L I v. unfold confidence_interval.
  assert (LD : List.length (diag cov) = List.length par) by (unfold diag; rewrite map_length, seq_length; exact L).
  assert (DN : nth i (diag cov) 0 = v) by (unfold diag; rewrite (nth_mapseq (fun i => cell cov i i)) by lia; reflexivity).
  assert (ZN : nth i (map (fun v => match sqrt_ v with Some s => Some (- ppf (alpha / 2) * s) | None => None end) (diag cov)) None = if Rle_dec 0 v then Some (- ppf (alpha / 2) * sqrt v) else None).
  { rewrite (nth_indep _ None ((fun v => match sqrt_ v with Some s => Some (- ppf (alpha / 2) * s) | None => None end) 0)) by (rewrite map_length; lia).
    rewrite (map_nth (fun v => match sqrt_ v with Some s => Some (- ppf (alpha / 2) * s) | None => None end)). rewrite DN. unfold sqrt_. destruct (Rle_dec 0 v); reflexivity. }
  split; rewrite (map2_nth _ 0 None) by (rewrite ?map_length; lia); rewrite ZN; destruct (Rle_dec 0 v); reflexivity.
Qed.
Lemma quantile_facts Phi ppf : quantiles Phi ppf -> (forall p, 0 < p < 1 / 2 -> ppf p < 0) /\ forall p q, 0 < p -> p < q -> q < 1 -> ppf p < ppf q.
Proof.
  intros [M [S V]]. assert (P0 : Phi 0 = 1 / 2) by (pose proof (S 0) as S0; rewrite Ropp_0 in S0; lra). split.
  - intros p P. destruct (Rlt_le_dec (ppf p) 0) as [H|H]; [exact H|]. pose proof (V p ltac:(lra)) as E. destruct H as [H|H]; [apply M in H; lra|]. rewrite <- H in E. lra.
  - intros p q P PQ Q. destruct (Rlt_le_dec (ppf p) (ppf q)) as [H|H]; [exact H|]. pose proof (V p ltac:(lra)) as E. pose proof (V q ltac:(lra)) as F.
    destruct H as [H|H]; [apply M in H; lra|]. rewrite H in F. lra.
Qed.
Lemma interval_ok : forall Phi ppf alpha par cov i, quantiles Phi ppf -> 0 < alpha < 1 -> List.length cov = List.length par -> (i < List.length par)%nat ->
  let v := nth i (nth i cov []) 0 in let m := nth i par 0 in
  0 <= v -> exists lo hi, nth i (fst (confidence_interval ppf alpha par cov)) None = Some lo /\ nth i (snd (confidence_interval ppf alpha par cov)) None = Some hi /\
    m - lo = hi - m /\ (v = 0 -> lo = m /\ hi = m) /\ (0 < v -> lo < m < hi /\ Phi ((hi - m) / sqrt v) - Phi ((lo - m) / sqrt v) = 1 - alpha).
Proof.
  intros Phi ppf alpha par cov i Q A L I v m V. pose proof (interval_nth ppf alpha par cov i L I) as N. cbv zeta in N. fold v m in N.
  destruct (confidence_interval ppf alpha par cov) as [lo hi]. destruct N as [N1 N2]. cbn [fst snd]. destruct (Rle_dec 0 v); [|lra].
  exists (m - - ppf (alpha / 2) * sqrt v), (m + - ppf (alpha / 2) * sqrt v). split; [exact N1|split; [exact N2|]].
  destruct (quantile_facts Phi ppf Q) as [NG _]. pose proof (NG (alpha / 2) ltac:(lra)) as P. destruct Q as [_ [S W]].
  split; [ring|]. split; [intros Z; rewrite Z, sqrt_0; split; ring|]. intros PV. pose proof (sqrt_lt_R0 v PV) as SV. split; [split; nra|].
  replace ((m + - ppf (alpha / 2) * sqrt v - m) / sqrt v) with (- ppf (alpha / 2)) by (field; lra). replace ((m - - ppf (alpha / 2) * sqrt v - m) / sqrt v) with (ppf (alpha / 2)) by (field; lra).
  rewrite S, W by lra. lra.
Qed.
Lemma interval_nan : forall ppf alpha par cov i, List.length cov = List.length par -> (i < List.length par)%nat -> nth i (nth i cov []) 0 < 0 ->
  nth i (fst (confidence_interval ppf alpha par cov)) None = None /\ nth i (snd (confidence_interval ppf alpha par cov)) None = None.
Proof.
  intros ppf alpha par cov i L I V. pose proof (interval_nth ppf alpha par cov i L I) as N. cbv zeta in N. destruct (confidence_interval ppf alpha par cov) as [lo hi]. cbn [fst snd].
  destruct (Rle_dec 0 (nth i (nth i cov []) 0)); [lra|exact N].
Qed.
Lemma interval_nested : forall Phi ppf a1 a2 par cov i lo1 hi1 lo2 hi2, quantiles Phi ppf -> 0 < a1 -> a1 < a2 -> a2 < 1 -> List.length cov = List.length par -> (i < List.length par)%nat ->
  nth i (fst (confidence_interval ppf a1 par cov)) None = Some lo1 -> nth i (snd (confidence_interval ppf a1 par cov)) None = Some hi1 ->
  nth i (fst (confidence_interval ppf a2 par cov)) None = Some lo2 -> nth i (snd (confidence_interval ppf a2 par cov)) None = Some hi2 -> lo1 <= lo2 /\ hi2 <= hi1.
Proof.
  intros Phi ppf a1 a2 par cov i lo1 hi1 lo2 hi2 Q A1 A12 A2 L I E1 E2 E3 E4. destruct (quantile_facts Phi ppf Q) as [_ M]. pose proof (M (a1 / 2) (a2 / 2) ltac:(lra) ltac:(lra) ltac:(lra)) as P.
  pose proof (interval_nth ppf a1 par cov i L I) as N1. pose proof (interval_nth ppf a2 par cov i L I) as N2. cbv zeta in N1, N2.
  destruct (confidence_interval ppf a1 par cov) as [l1 h1]. destruct (confidence_interval ppf a2 par cov) as [l2 h2]. cbn [fst snd] in *. destruct N1 as [X1 X2], N2 as [X3 X4].
  rewrite E1 in X1. rewrite E2 in X2. rewrite E3 in X3. rewrite E4 in X4. set (v := nth i (nth i cov []) 0) in *. pose proof (sqrt_pos v) as SV.
  destruct (Rle_dec 0 v); [|discriminate]. apply (f_equal (fun o => match o with Some z => z | None => 0 end)) in X1, X2, X3, X4. cbn in X1, X2, X3, X4. subst. split; nra.
Qed.
Lemma fixed_interval : forall pinv f ppf alpha par fixedn i, (forall k, In k fixedn -> (k < List.length par)%nat) -> In i fixedn ->
  exists cov, compute_cov pinv f par (Some fixedn) = Ok cov /\ (List.length cov = List.length par ->
    nth i (fst (confidence_interval ppf alpha par cov)) None = Some (nth i par 0) /\ nth i (snd (confidence_interval ppf alpha par cov)) None = Some (nth i par 0)).
Proof.
  intros pinv f ppf alpha par fx i F I. set (n := List.length par).
  set (free := filter (fun k => if in_dec Nat.eq_dec k fx then false else true) (seq 0 n)).
  assert (FR : free_of n fx free).
  { split.
    - intros k. unfold free. rewrite filter_In, in_seq. destruct (in_dec Nat.eq_dec k fx); split; intros Q; try (destruct Q as [_ Q]; discriminate); try tauto; split; try lia; auto.
    - assert (SS : Sorted.StronglySorted lt free) by (apply filter_sorted, seq_sorted). clear - SS. induction SS as [|x l SS IH FA]; intros a b [A B]; [cbn in B; lia|].
      destruct a as [|a], b as [|b]; cbn [nth List.length] in *; try lia; [rewrite Forall_forall in FA; apply FA, nth_In; lia|apply IH; lia]. }
  destruct (covariance_ok pinv f par fx free F FR) as [H [cov [_ [E [Z _]]]]]. exists cov. split; [exact E|]. intros L.
  pose proof (interval_nth ppf alpha par cov i L (F i I)) as N. cbv zeta in N. rewrite (Z i i (F i I) (F i I) (or_introl I)) in N. destruct (confidence_interval ppf alpha par cov) as [lo hi]. cbn [fst snd].
  destruct (Rle_dec 0 0); [|lra]. rewrite sqrt_0 in N. destruct N as [-> ->]. split; f_equal; ring.
Qed.

(* p-values *)
Lemma var_pos n : (1 <= n)%nat -> 0 < moran_var n.
Proof.
  intros N. unfold moran_var. assert (P : 3 < PI) by (pose proof PI_RGT_0; pose proof PI2_3_2; unfold PI2 in *; lra).
  assert (H : 1 <= INR n) by (apply (le_INR 1); exact N). assert (Q : 1 / (6 * (INR n + 1)) <= 1 / 12).
  { apply Rmult_le_compat_l; [lra|]. apply Rinv_le_contravar; lra. }
  assert (3 / 2 < PI ^ 2 / 6) by nra. nra.
Qed.
Lemma chi2_shape t n k : (1 <= n)%nat -> moran_chi2 t n k = Ok (INR n + sqrt (2 * INR n) * ((t - (moran_mean n - INR k / 2)) / sqrt (moran_var n))).
Proof.
  intros N. unfold moran_chi2. destruct (Nat.eqb_spec n 0); [lia|]. f_equal. pose proof (var_pos n N) as V. assert (H : 1 <= INR n) by (apply (le_INR 1); exact N).
  pose proof (sqrt_lt_R0 _ V) as SV. set (s := sqrt (moran_var n)) in *. set (r := sqrt (2 * INR n)). assert (PR : 0 < r) by (apply sqrt_lt_R0; lra).
  assert (RR : r * r = 2 * INR n) by (unfold r; apply sqrt_sqrt; lra). assert (SS : s * s = moran_var n) by (unfold s; apply sqrt_sqrt; lra).
  assert (E1 : sqrt (1 / 2 * INR n * moran_var n) = r * s / 2).
  { rewrite <- (sqrt_Rsqr (r * s / 2)) by nra. f_equal. unfold Rsqr. replace (r * s / 2 * (r * s / 2)) with ((r * r) * (s * s) / 4) by field. rewrite RR, SS. field. }
  assert (E2 : sqrt (moran_var n / (2 * INR n)) = s / r).
  { rewrite <- (sqrt_Rsqr (s / r)) by (apply Rlt_le, Rdiv_lt_0_compat; lra). f_equal. unfold Rsqr. replace (s / r * (s / r)) with ((s * s) / (r * r)) by (field; lra). rewrite RR, SS. reflexivity. }
  cbv zeta. rewrite E1, E2. replace (INR n) with (r * r / 2) by lra. field. split; lra.
Qed.
Lemma pvalue_standard : forall chi2sf n k z theta, (1 <= n)%nat ->
  pvalue chi2sf (moran_mean n - INR k / 2 + z * sqrt (moran_var n)) n theta (Some k) = Ok (chi2sf (INR n + z * sqrt (2 * INR n)) n).
Proof.
  intros sf n k z th N. unfold pvalue. rewrite chi2_shape by exact N. cbn [bind]. do 2 f_equal. pose proof (sqrt_lt_R0 _ (var_pos n N)) as SV. field. lra.
Qed.
Lemma pvalue_moments : forall chi2sf n k z theta, (1 <= n)%nat ->
  pvalue chi2sf (spacings_mean (n + 1) - INR k / 2 + z * sqrt (spacings_var (n + 1))) n theta (Some k) = Ok (chi2sf (INR n + z * sqrt (2 * INR n)) n).
Proof.
  intros sf n k z th N. replace (spacings_mean (n + 1)) with (moran_mean n) by (unfold moran_mean, spacings_mean; rewrite plus_INR; reflexivity).
  replace (spacings_var (n + 1)) with (moran_var n) by (unfold moran_var, spacings_var; rewrite plus_INR; reflexivity). now apply pvalue_standard.
Qed.
Lemma pvalue_monotone : forall chi2sf t1 t2 n k1 k2 theta, (1 <= n)%nat -> (forall x y m, x <= y -> chi2sf y m <= chi2sf x m) -> t1 <= t2 -> (k1 <= k2)%nat ->
  exists p1 p2, pvalue chi2sf t1 n theta (Some k1) = Ok p1 /\ pvalue chi2sf t2 n theta (Some k2) = Ok p2 /\ p2 <= p1.
Proof.
  intros sf t1 t2 n k1 k2 th N M T K. unfold pvalue. rewrite !chi2_shape by exact N. cbn [bind]. do 2 eexists. split; [reflexivity|split; [reflexivity|]]. apply M.
  pose proof (sqrt_lt_R0 _ (var_pos n N)) as SV. pose proof (sqrt_pos (2 * INR n)) as RP. apply le_INR in K. apply Rplus_le_compat_l, Rmult_le_compat_l; [exact RP|]. apply Rmult_le_compat_r; [left; apply Rinv_0_lt_compat; exact SV|lra].
Qed.
Lemma pvalue_default : forall chi2sf t n theta, pvalue chi2sf t n theta None = pvalue chi2sf t n theta (Some (List.length theta)) /\ pvalue chi2sf t 0 theta None = Err ZeroDivision.
Proof. intros. split; reflexivity. Qed.

(* the grid *)
Lemma step_nice w : 0 < w -> nice (grid_step w) /\ 0 < grid_step w /\ grid_step w <= w < 3 * grid_step w.
Proof.
  intros PW. unfold grid_step. cbv zeta. destruct (decade w PW) as [A B]. set (e := floor (ln w / ln 10)) in *. pose proof (p10 e) as PE.
  set (q := w / powerRZ 10 e). assert (Q : w = q * powerRZ 10 e) by (unfold q; field; lra). assert (Q1 : 1 <= q < 10) by (split; [apply Rmult_le_reg_r with (powerRZ 10 e)|apply Rmult_lt_reg_r with (powerRZ 10 e)]; lra).
  pose proof (floor_spec q) as F. set (m0 := floor q) in *. assert (M1 : (1 <= m0)%Z) by (apply Z.lt_succ_r, lt_IZR; rewrite succ_IZR; lra). assert (M9 : (m0 <= 9)%Z) by (apply Z.lt_succ_r, lt_IZR; rewrite succ_IZR; apply (Rle_lt_trans _ q); lra).
  set (m := if (5 <? m0)%Z then 5%Z else if (2 <? m0)%Z then 2%Z else m0).
  assert (HM : (m = 1 /\ m0 = 1 \/ m = 2 /\ 2 <= m0 <= 5 \/ m = 5 /\ 6 <= m0 <= 9)%Z) by (unfold m; destruct (Z.ltb_spec 5 m0); [lia|]; destruct (Z.ltb_spec 2 m0); lia).
  assert (PM : IZR m <= q < 3 * IZR m).
  { destruct HM as [[-> E]|[[-> E]|[-> E]]].
    - rewrite E in F. lra.
    - assert (2 <= IZR m0 <= 5) by (split; apply IZR_le; lia). lra.
    - assert (6 <= IZR m0 <= 9) by (split; apply IZR_le; lia). lra. }
  assert (P1 : 1 <= IZR m) by (apply IZR_le; lia).
  split; [exists m, e; split; [lia|reflexivity]|]. split; [nra|]. rewrite Q. split; nra.
Qed.
Lemma arange_whole lo d K : 0 < d -> arange lo (lo + INR (K + 1) * d) d = Ok (ladder lo d K).
Proof.
  intros P. unfold arange. destruct (Req_EM_T d 0); [lra|]. replace ((lo + INR (K + 1) * d - lo) / d) with (INR (K + 1)) by (field; lra).
  rewrite (ceil_unique _ (Z.of_nat (K + 1))); [|rewrite <- INR_IZR_INZ; lra]. rewrite Nat2Z.id. reflexivity.
Qed.
Lemma grid_ok : forall x odd, (exists a b, In a x /\ In b x /\ a < b) ->
  let w := 2 * (maxR x - minR x) / IZR (ceil (4 * sqrt (sqrt (INR (List.length x))))) in let g := one_if odd / 2 in
  exists lo s K, get_grid x odd = Ok (ladder lo s K) /\ nice s /\ s <= w < 3 * s /\
    lo + (1 + g) * s <= minR x < lo + (2 + g) * s /\ lo + (INR K - g - 1) * s < maxR x <= lo + (INR K - g) * s.
Proof.
  intros x odd [a [b [Ia [Ib AB]]]] w g. destruct x as [|x0 x]; [destruct Ia|]. set (X := x0 :: x) in *.
  destruct (minR_spec X) as [_ MN]; [discriminate|]. destruct (maxR_spec X) as [_ MX]; [discriminate|].
  assert (L : minR X < maxR X) by (specialize (MN a Ia); specialize (MX b Ib); lra).
  set (n := ceil (4 * sqrt (sqrt (INR (List.length X))))) in *.
  assert (PN : 0 < IZR n). { pose proof (ceil_spec (4 * sqrt (sqrt (INR (List.length X))))) as C. fold n in C. assert (0 < sqrt (sqrt (INR (List.length X)))) by (apply sqrt_lt_R0, sqrt_lt_R0, lt_0_INR; cbn [X List.length]; lia). lra. }
  assert (PW : 0 < w) by (unfold w; apply Rdiv_lt_0_compat; lra).
  destruct (step_nice w PW) as [NS [PS W]]. set (s := grid_step w) in *.
  pose proof (floor_spec (minR X / s)) as F. pose proof (ceil_spec (maxR X / s)) as C. set (u := floor (minR X / s)) in *. set (v := ceil (maxR X / s)) in *.
  assert (Qn : minR X = minR X / s * s) by (field; lra). assert (Qx : maxR X = maxR X / s * s) by (field; lra).
  assert (UV : (u < v)%Z). { apply lt_IZR. assert (minR X / s < maxR X / s) by (apply Rmult_lt_compat_r; [apply Rinv_0_lt_compat|]; lra). lra. }
  set (o := if odd then 1%Z else 0%Z). assert (Ho : IZR o = one_if odd) by (unfold o; destruct odd; reflexivity). assert (0 <= o <= 1)%Z by (unfold o; destruct odd; lia).
  set (K := Z.to_nat (v - u + 1 + o)). assert (HK : INR K = IZR v - IZR u + 1 + one_if odd). { unfold K. rewrite INR_IZR_INZ, Z2Nat.id by lia. rewrite !plus_IZR, minus_IZR, Ho. ring. }
  exists ((IZR u - 1 - one_if odd / 2) * s), s, K. split; [|split; [exact NS|split; [exact W|]]].
  - unfold get_grid. change (x0 :: x) with X. cbn [X]. change (x0 :: x) with X. cbv zeta. fold n. replace ((maxR X - minR X) / IZR n * 2) with w by (unfold w; field; lra). destruct (Rlt_dec 0 w); [|lra].
    fold s. fold u v. rewrite <- arange_whole by exact PS. rewrite plus_INR, HK. change b2r with one_if. f_equal; cbn [INR]; field.
  - rewrite HK. unfold g. split; split.
    + match goal with |- ?t <= _ => replace t with (IZR u * s) by field end. rewrite Qn at 1. apply Rmult_le_compat_r; lra.
    + match goal with |- _ < ?t => replace t with ((IZR u + 1) * s) by field end. rewrite Qn at 1. apply Rmult_lt_compat_r; lra.
    + match goal with |- ?t < _ => replace t with ((IZR v - 1) * s) by field end. rewrite Qx at 1. apply Rmult_lt_compat_r; lra.
    + match goal with |- _ <= ?t => replace t with (IZR v * s) by field end. rewrite Qx at 1. apply Rmult_le_compat_r; lra.
Qed.
Lemma grid_errors : forall odd x c, get_grid [] odd = Err ValueError /\ (x <> [] -> (forall v, In v x -> v = c) -> get_grid x odd = Err ValueError).
Proof.
  intros odd x c. split; [reflexivity|]. intros N E. destruct x as [|x0 x]; [contradiction|]. set (X := x0 :: x) in *. destruct (minR_spec X N) as [I1 _]. destruct (maxR_spec X N) as [I2 _].
  unfold get_grid. cbn [X]. change (x0 :: x) with X. cbv zeta. rewrite (E _ I1), (E _ I2). replace ((c - c) / IZR (ceil (4 * sqrt (sqrt (INR (List.length X))))) * 2) with 0 by (unfold Rdiv; ring). destruct (Rlt_dec 0 0); [lra|reflexivity].
Qed.
Lemma ladder_length lo s K : List.length (ladder lo s K) = (K + 1)%nat. Proof. unfold ladder. rewrite map_length, seq_length. reflexivity. Qed.
Lemma ladder_nth lo s K i : (i <= K)%nat -> nth i (ladder lo s K) 0 = lo + INR i * s.
Proof. intros H. unfold ladder. apply (nth_mapseq (fun i => lo + INR i * s)). lia. Qed.
Lemma ladder_last lo s K : last (ladder lo s K) 0 = lo + INR K * s.
Proof. unfold ladder. rewrite Nat.add_comm. cbn [Nat.add]. rewrite seq_S, map_app. cbn [map Nat.add]. apply last_last. Qed.
Lemma pdf_ok : forall x, (exists a b, In a x /\ In b x /\ a < b) ->
  exists e h xx y, empirical_pdf x = Ok (xx, map Some y) /\ get_grid x false = Ok e /\ polygon e h xx (map Some y) /\ area xx y = 1 /\
    forall i, (i < List.length h)%nat -> weight_of (in_bin e i) x (repeat 1 (List.length x)) (nth i h 0 * (nth (i + 1) e 0 - nth i e 0) * INR (List.length x)).
Proof.
  intros x NC. destruct (grid_ok x false NC) as [lo [s [K [G [NS [W [A B]]]]]]]. cbv zeta in *. cbn [one_if] in *.
  destruct NC as [a [b [Ia [Ib AB]]]]. assert (XN : x <> []) by (intros ->; destruct Ia). destruct (minR_spec x XN) as [_ MN]. destruct (maxR_spec x XN) as [_ MX].
  assert (PS : 0 < s) by lra. assert (L : minR x < maxR x) by (specialize (MN a Ia); specialize (MX b Ib); lra).
  set (e := ladder lo s K) in *.
  assert (SE : strictly e). { intros i H. unfold e in H. rewrite ladder_length in H. unfold e. rewrite !ladder_nth by lia. rewrite plus_INR. cbn [INR]. nra. }
  assert (KP : 0 < INR K) by nra. assert (K1 : (1 <= K)%nat) by (destruct K; [cbn in KP; lra|lia]).
  assert (L2 : (2 <= List.length e)%nat) by (unfold e; rewrite ladder_length; lia).
  assert (E0 : nth 0 e 0 = lo) by (unfold e; rewrite ladder_nth by lia; cbn [INR]; ring). assert (EL : last e 0 = lo + INR K * s) by apply ladder_last.
  assert (WA : weight_of (fun v => nth 0 e 0 <= v <= last e 0) x (repeat 1 (List.length x)) (INR (List.length x))).
  { apply weight_all. intros v Iv. rewrite E0, EL. specialize (MN v Iv). specialize (MX v Iv). nra. }
  assert (N0 : INR (List.length x) <> 0) by (destruct x; [contradiction|]; apply not_0_INR; discriminate).
  destruct (histogram x (Sequence e) None true None) as [[[[xx yy] e'] b']|er] eqn:H.
  - pose proof (histogram_ok _ _ _ _ _ _ _ _ _ H) as [EE _]. cbn [plain edges] in EE. destruct (monotonic e) eqn:MO; [|discriminate]. assert (e' = e) by congruence. subst e'.
    destruct (histogram_density _ _ _ _ _ _ _ _ (INR (List.length x)) H SE L2 WA N0) as [h [y [PG [-> [AR WT]]]]].
    exists e, h, xx, y. split; [|split; [exact G|split; [exact PG|split; [exact AR|exact WT]]]].
    unfold empirical_pdf. rewrite G. cbn [bind]. unfold histogram in H. destruct (np_histogram x (Sequence e) None None true) as [[pdf e2]|]; [|discriminate]. cbn [bind] in H |- *.
    change (staircase e2 pdf) with (make_bars e2 pdf). destruct (make_bars e2 pdf) as [x1 y1]. congruence.
  - exfalso. unfold histogram, np_histogram in H. rewrite repeat_length, Nat.eqb_refl in H. cbn [negb edges] in H. rewrite (proj2 (monotonic_spec e)) in H by (apply strictly_ascending; exact SE). cbn [bind] in H.
    destruct (make_bars e _) in H. discriminate.
Qed.
