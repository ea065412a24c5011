From Coq Require Import Reals Lra Lia Psatz Permutation.
From Coquelicot Require Import Coquelicot.
From Verif Require Import Base PolyModel FilterModel GridModel WaveModel KdeModel ProcModel ProcSpec ProcProofs ProcProofs2 ProcProofs3 ProcProofs4 ProcProofs5.
Local Open Scope R_scope.

Lemma map_uniform : forall (g : R -> R) b h n i, (i < n)%nat -> at_ (map g (uniform b h n)) i = g (b + INR i * h).
Proof.
  intros g b h n i H. unfold at_. rewrite (nth_indep _ 0 (g 0)) by (rewrite map_length, uniform_length; exact H). rewrite map_nth.
  fold (at_ (uniform b h n) i). rewrite uniform_at by exact H. reflexivity.
Qed.
Lemma uniform_app : forall b h n k, uniform b h n ++ uniform (b + INR n * h) h k = uniform b h (n + k).
Proof.
  intros b h n k. unfold uniform. rewrite seq_app, map_app. f_equal. cbn [plus]. apply at_ext; [rewrite !map_length, !seq_length; reflexivity|].
  intros i Hi. rewrite map_length, seq_length in Hi. unfold at_. rewrite (nth_indep _ 0 ((fun i => b + INR n * h + INR i * h) 0%nat)) by (rewrite map_length, seq_length; lia).
  rewrite (map_nth (fun i => b + INR n * h + INR i * h)), seq_nth by lia.
  rewrite (nth_indep (map _ (seq n k)) 0 ((fun i => b + INR i * h) 0%nat)) by (rewrite map_length, seq_length; lia).
  rewrite (map_nth (fun i => b + INR i * h)), seq_nth by lia. rewrite (plus_INR n i). change (0 + i)%nat with i. ring.
Qed.
Lemma uniform_coarse : forall nd b h n, (2 <= n)%nat -> 1 < h * Rpower 10 (7 / INR (Nat.max nd 1)) -> coarse nd (uniform b h n).
Proof.
  intros nd b h n N K. unfold coarse. rewrite uniform_length, !uniform_at by lia. rewrite minus_INR by lia. cbn [INR].
  assert (N1 : 1 <= INR n - 1) by (assert (2 <= INR n) by (apply (le_INR 2); lia); lra).
  replace (b + (INR n - 1) * h - (b + 0 * h)) with ((INR n - 1) * h) by ring. rewrite Rmult_assoc. rewrite <- (Rmult_1_r (INR n - 1)) at 1. apply Rmult_lt_compat_l; lra.
Qed.
Lemma coarse7 : forall h, 1 < h * 10 ^ 7 -> 1 < h * Rpower 10 (7 / INR (Nat.max 0 1)).
Proof. intros h K. change (INR (Nat.max 0 1)) with 1. replace (7 / 1) with (INR 7) by (rewrite (INR_IZR_INZ 7); cbn; lra). rewrite Rpower_pow by lra. exact K. Qed.

(* trangood on a uniform table *)
Lemma good_uniform : forall eps b h n f x0, 0 <= eps -> 0 < h -> 1 < h * 10 ^ 7 -> (2 <= n)%nat -> length f = n -> x0 <> [] ->
  good eps 0 (uniform b h n) f x0 =
  let q := extend_below (uniform b h n) f (minR x0) in extend_above h f (fst q) (snd q) (maxR x0).
Proof.
  intros eps b h n f x0 E H K N L N0. set (x := uniform b h n).
  assert (Lx : length x = n) by apply uniform_length. assert (Ix : increasing x) by (apply uniform_increasing; exact H). assert (Nx : x <> []) by (intros Z; rewrite Z in Lx; cbn in Lx; lia).
  assert (SD : spacing_differs eps x = false) by (apply uniform_spacing; auto).
  pose proof (nmax_coarse 0 x Ix Nx (uniform_coarse 0 b h n N (coarse7 h K))) as M.
  assert (G : good eps 0 x f x0 = trangood eps x f None (Some (minR x0)) (Some (maxR x0)) (Some (nmax 0 x))).
  { unfold good. destruct x; [congruence|]. destruct x0; [congruence|]. reflexivity. }
  rewrite G. clear G. unfold trangood. rewrite Lx in *. rewrite L. destruct (n <? n)%nat eqn:E0; [apply Nat.ltb_lt in E0; lia|]. clear E0.
  rewrite sort_rows_sorted by (rewrite map_fst_combine by lia; exact Ix). rewrite map_fst_combine, map_snd_combine by lia. rewrite (no_duplicates x Ix).
  rewrite from_end_nth by lia. cbn [bind]. unfold first. rewrite geti_nth by lia. cbn [bind]. rewrite L.
  destruct (Z.of_nat n <? Z.max (Z.of_nat n) 2)%Z eqn:E1; [lia|]. destruct (Z.max (nmax 0 x) 2 <? Z.of_nat n)%Z eqn:E2; [lia|]. cbn [orb]. rewrite SD.
  cbn [bind fst snd]. rewrite geti_nth by lia. cbn [bind]. change (at_R x 1) with (at_ x 1). change (at_R x 0) with (at_ x 0). unfold x at 1 2. rewrite !uniform_at by lia.
  replace (b + INR 1 * h - (b + INR 0 * h)) with h by (cbn [INR]; ring). reflexivity.
Qed.

(* ---- above the table: every value is taken at the wrong place ---- *)
Lemma tranproc_above : forall eps b h n a c x0, 0 <= eps -> 0 < h -> 1 < h * 10 ^ 7 -> (2 <= n)%nat -> x0 <> [] ->
  (forall t, In t x0 -> b <= t) -> (exists t, In t x0 /\ b + (INR n - 1) * h < t) ->
  exists k, (1 <= k)%nat /\ tranproc eps (uniform b h n) (map (fun t => a * t + c) (uniform b h n)) x0 [] =
    Ok [map (fun t => a * (b + (t - b) * (INR n - 1) / (INR n - 1 + INR k)) + c) x0].
Proof.
  intros eps b h n a c x0 E H K N N0 Lo (t1 & Ht1 & Hi1). set (x := uniform b h n). set (g := fun t => a * t + c). set (f := map g x).
  assert (Lx : length x = n) by apply uniform_length. assert (Lf : length f = n) by (unfold f; rewrite map_length; exact Lx).
  assert (N1 : 1 <= INR n - 1) by (assert (2 <= INR n) by (apply (le_INR 2); lia); lra).
  destruct (minR_spec x0 N0) as [M1 M2]. destruct (maxR_spec x0 N0) as [M3 M4].
  assert (X0 : at_ x 0 = b) by (unfold x; rewrite uniform_at by lia; cbn [INR]; ring).
  assert (X1 : at_ x (n - 1) = b + (INR n - 1) * h) by (unfold x; rewrite uniform_at by lia; rewrite minus_INR by lia; cbn [INR]; ring).
  assert (X2 : at_ x (n - 2) = b + (INR n - 2) * h) by (unfold x; rewrite uniform_at by lia; rewrite minus_INR by lia; cbn [INR]; ring).
  assert (Q : b + (INR n - 1) * h < maxR x0) by (pose proof (M4 t1 Ht1); lra).
  set (q := (maxR x0 - (b + (INR n - 1) * h)) / h). assert (q0 : 0 < q) by (apply Rdiv_lt_0_compat; lra). pose proof (ceil_spec q) as Cq.
  assert (Z1 : (0 < ceil q)%Z) by (apply lt_IZR; lra). set (k := Z.to_nat (ceil q)).
  assert (Ik : INR k = IZR (ceil q)) by (unfold k; rewrite INR_IZR_INZ, Z2Nat.id by lia; reflexivity).
  assert (G : good eps 0 x f x0 = Ok (uniform b h (n + k), map g (uniform b h (n + k)))).
  { unfold x. rewrite good_uniform; auto. fold x.
    assert (EB : extend_below x f (minR x0) = (x, f)).
    { unfold extend_below. change (at_R x 0) with (at_ x 0). rewrite X0. pose proof (Lo _ M1). destruct (Rlt_dec (minR x0) b); [lra|reflexivity]. }
    rewrite EB. cbv zeta. cbn [fst snd]. unfold extend_above. rewrite from_end_nth by lia. cbn [bind]. rewrite Lx, X1.
    destruct (Rlt_dec (b + (INR n - 1) * h) (maxR x0)); [|lra]. rewrite !from_end_nth by lia. cbn [bind]. rewrite Lf, Lx, X2. fold q.
    assert (ZR : forall p : R -> R, map p (zrange 1 (ceil q + 1)) = map (fun i => p (1 + INR i)) (seq 0 k)).
    { intros p. unfold zrange. rewrite map_map. replace (Z.to_nat (ceil q + 1 - 1)) with k by (unfold k; f_equal; lia). apply map_ext. intros i. rewrite plus_IZR, <- INR_IZR_INZ. reflexivity. }
    rewrite !map_map, !ZR. f_equal. f_equal.
    - unfold x. rewrite <- uniform_app. f_equal. unfold uniform. apply map_ext. intros i. ring.
    - unfold f, x. rewrite <- uniform_app, map_app. f_equal. transitivity (map (fun i => g (b + INR n * h + INR i * h)) (seq 0 k)); [|unfold uniform; rewrite map_map; reflexivity]. apply map_ext. intros i.
      rewrite !map_uniform by lia. rewrite !minus_INR by lia. cbn [INR]. unfold g. field. lra. }
  exists k. split; [unfold k; lia|]. rewrite tranproc_plain. unfold tranproc0. rewrite G. cbn [bind fst snd]. unfold values. rewrite Lf.
  assert (Pk : 0 < INR k) by (rewrite Ik; apply (IZR_lt 0); exact Z1).
  assert (HH : hd 0 (uniform b h (n + k)) = b) by (rewrite hd_at, uniform_at by lia; cbn [INR]; ring).
  assert (HL : last (uniform b h (n + k)) 0 = b + (INR n - 1 + INR k) * h) by (rewrite last_at, uniform_length, uniform_at by lia; rewrite minus_INR, plus_INR by lia; cbn [INR]; ring).
  rewrite (mapM_ok _ (fun t => a * (b + (t - b) * (INR n - 1) / (INR n - 1 + INR k)) + c)); [reflexivity|].
  intros t Ht. unfold position. rewrite HH, HL. set (u := (INR n - 1) * (t - b) / (b + (INR n - 1 + INR k) * h - b)).
  assert (W : 0 < (INR n - 1 + INR k) * h) by (apply Rmult_lt_0_compat; lra).
  assert (Uu : u * ((INR n - 1 + INR k) * h) = (INR n - 1) * (t - b)) by (unfold u; replace (b + (INR n - 1 + INR k) * h - b) with ((INR n - 1 + INR k) * h) by ring; field; lra).
  assert (TT : t - b <= (INR n - 1 + INR k) * h). { pose proof (M4 t Ht). assert (maxR x0 = b + (INR n - 1) * h + q * h) as Hq by (unfold q; field; lra). assert (q * h <= INR k * h) by (apply Rmult_le_compat_r; lra). lra. }
  pose proof (Lo t Ht) as Lt.
  assert (U0 : 0 <= u). { apply Rmult_le_reg_r with ((INR n - 1 + INR k) * h); [lra|]. rewrite Uu, Rmult_0_l. apply Rmult_le_pos; lra. }
  assert (U1 : u <= INR n - 1). { apply Rmult_le_reg_r with ((INR n - 1 + INR k) * h); [lra|]. rewrite Uu. apply Rmult_le_compat_l; lra. }
  destruct (by_position_spec n (map g (uniform b h (n + k))) u) as (y & Y & i & Hi & B & Ey); [rewrite map_length, uniform_length; lia|exact N|lra|].
  rewrite Y. f_equal. rewrite map_length, uniform_length in Hi. rewrite Ey. rewrite !map_uniform by lia. unfold g. rewrite S_INR.
  replace ((t - b) * (INR n - 1) / (INR n - 1 + INR k)) with (u * h). 2:{ apply Rmult_eq_reg_r with (INR n - 1 + INR k); [|lra]. replace (u * h * (INR n - 1 + INR k)) with (u * ((INR n - 1 + INR k) * h)) by ring. rewrite Uu. field. lra. }
  ring.
Qed.

(* ---- less than one step below the table: between the last and the first value ---- *)
Lemma tranproc_below : forall eps b h n f x0, 0 <= eps -> 0 < h -> 1 < h * 10 ^ 7 -> (2 <= n)%nat -> length f = n -> x0 <> [] ->
  (forall t, In t x0 -> b - h <= t < b) ->
  tranproc eps (uniform b h n) f x0 [] = Ok [map (fun t => at_ f (n - 1) + (at_ f 0 - at_ f (n - 1)) * (1 + (t - b) / h)) x0].
Proof.
  intros eps b h n f x0 E H K N L N0 C. set (x := uniform b h n).
  assert (Lx : length x = n) by apply uniform_length. assert (N1 : 1 <= INR n - 1) by (assert (2 <= INR n) by (apply (le_INR 2); lia); lra).
  destruct (minR_spec x0 N0) as [M1 M2]. destruct (maxR_spec x0 N0) as [M3 M4].
  assert (X0 : at_ x 0 = b) by (unfold x; rewrite uniform_at by lia; cbn [INR]; ring).
  assert (X1 : at_ x 1 = b + h) by (unfold x; rewrite uniform_at by lia; cbn [INR]; ring).
  assert (Xn : at_ x (n - 1) = b + (INR n - 1) * h) by (unfold x; rewrite uniform_at by lia; rewrite minus_INR by lia; cbn [INR]; ring).
  assert (NH : h <= (INR n - 1) * h) by (rewrite <- (Rmult_1_l h) at 1; apply Rmult_le_compat_r; lra).
  assert (FL : forall t, b - h <= t < b -> floor ((t - b) / h) = (-1)%Z).
  { intros t Ht. apply floor_unique. split; [apply Rmult_le_reg_r with h|apply Rmult_lt_reg_r with h]; try lra; unfold Rdiv; rewrite Rmult_assoc, Rinv_l by lra; lra. }
  assert (G : good eps 0 x f x0 = Ok (x, f)).
  { unfold x. rewrite good_uniform; auto. fold x.
    assert (EB : extend_below x f (minR x0) = (x, f)).
    { unfold extend_below. change (at_R x 0) with (at_ x 0). change (at_R x 1) with (at_ x 1). rewrite X0, X1. replace (b + h - b) with h by ring. destruct (Rlt_dec (minR x0) b); [|reflexivity].
      rewrite (FL (minR x0) (C _ M1)). reflexivity. }
    rewrite EB. cbv zeta. cbn [fst snd]. unfold extend_above. rewrite from_end_nth by lia. cbn [bind]. rewrite Lx, Xn.
    pose proof (C _ M3). destruct (Rlt_dec (b + (INR n - 1) * h) (maxR x0)); [lra|]. reflexivity. }
  rewrite tranproc_plain. unfold tranproc0. rewrite G. cbn [bind fst snd]. unfold values. rewrite L.
  rewrite (mapM_ok _ (fun t => at_ f (n - 1) + (at_ f 0 - at_ f (n - 1)) * (1 + (t - b) / h))); [reflexivity|].
  intros t Ht. unfold position. rewrite hd_at, last_at, Lx, X0, Xn.
  replace ((INR n - 1) * (t - b) / (b + (INR n - 1) * h - b)) with ((t - b) / h) by (field; split; [lra|]; replace (b + (INR n - 1) * h - b) with ((INR n - 1) * h) by ring; lra).
  unfold by_position. rewrite (FL t (C t Ht)). destruct (Z.eqb_spec (-1) (Z.of_nat n - 1)) as [Z|Z]; [lia|].
  unfold getz. rewrite L. change (0 <=? -1)%Z with false. change (-1 + 1)%Z with 0%Z. change (0 <=? 0)%Z with true. cbn [Z.to_nat].
  destruct (- Z.of_nat n <=? -1)%Z eqn:E1; [|lia]. replace (Z.to_nat (Z.of_nat n + -1)) with (n - 1)%nat by lia.
  rewrite !geti_nth by lia. cbn [bind]. f_equal. ring.
Qed.

(* ---- a point of an unevenly spaced table is not given its own value ---- *)
Lemma tranproc_node : forall eps, 0 <= eps < 1 / 100 -> tranproc eps [0; 1; 4] [0; 1; 2] [1] [] = Ok [[2 / 3]].
Proof.
  intros eps E. assert (I : increasing [0; 1; 4]) by (intros i Hi; cbn in Hi; destruct i as [|[|i]]; [| |lia]; unfold at_; cbn; lra).
  destruct (tranproc_resampled eps [0; 1; 4] [0; 1; 2] [1] ltac:(lra) I eq_refl ltac:(cbn; lia) ltac:(discriminate)) as (y & v & Y & Lv & P & Q).
  - intros t [<-|[]]. unfold at_. cbn. lra.
  - unfold coarse, at_. cbn [length nth Nat.sub]. change (Nat.max 0 1) with 1%nat. cbn [INR]. replace (7 / 1) with (INR 7) by (rewrite (INR_IZR_INZ 7); cbn; lra). rewrite Rpower_pow by lra. cbn [pow]. lra.
  - right. exists 0%nat. split; [cbn; lia|]. unfold bend, at_. cbn [length nth Nat.sub]. rewrite Rabs_right by lra. lra.
  - rewrite Y. cbn [map]. do 3 f_equal. cbv zeta in P, Q. unfold at_ in P, Q. cbn [length nth Nat.sub INR] in P, Q. fold (at_ v) in *.
    replace ((4 - 0) / (1 + 1 + 1 - 1)) with 2 in P, Q by lra.
    assert (U : uniform 0 2 3 = [0; 2; 4]) by (unfold uniform; cbn [seq map INR]; repeat f_equal; lra). rewrite U in P, Q.
    destruct (P 0%nat ltac:(lia)) as (i & Hi & B & V0). destruct (P 1%nat ltac:(lia)) as (j & Hj & B1 & V1).
    destruct (Q 1 ltac:(left; reflexivity)) as (l & Hl & B2 & V2). cbn [length] in Hi, Hj, Hl. unfold at_ in *.
    destruct i as [|[|i]]; [|cbn in B; lra|lia]. destruct j as [|[|j]]; [cbn in B1; lra| |lia]. destruct l as [|[|l]]; [|cbn in B2; lra|lia].
    cbn [nth] in *. change (nth 0 v 0 = 0 + (1 - 0) * ((0 - 0) / (1 - 0))) in V0. change (nth 1 v 0 = 1 + (2 - 1) * ((2 - 1) / (4 - 1))) in V1.
    rewrite V2, V0, V1. lra.
Qed.

(* ---- TrData ---- *)
Lemma gauss2dat1_line : forall eps b h n a c y, 0 <= eps -> 0 < h -> 1 < h * 10 ^ 7 -> (2 <= n)%nat -> b <= y <= b + (INR n - 1) * h ->
  gauss2dat1 eps (uniform b h n) (map (fun t => a * t + c) (uniform b h n)) y = Ok (a * y + c).
Proof.
  intros eps b h n a c y E H K N B. unfold gauss2dat1, gauss2dat. rewrite (tranproc_line eps (uniform b h n) _ [y] a c); auto.
  - apply uniform_increasing; exact H.
  - rewrite map_length. reflexivity.
  - rewrite uniform_length. exact N.
  - discriminate.
  - apply covers_uniform; [lia|]. intros t [<-|[]]. exact B.
  - apply uniform_coarse; [exact N|apply coarse7; exact K].
  - left. exists b, h. rewrite uniform_length. reflexivity.
  - intros i Hi. rewrite uniform_length in Hi. rewrite map_uniform, uniform_at by exact Hi. reflexivity.
Qed.
Lemma TrData_line : forall eps b h n m s ym ys, 0 <= eps -> 0 < h -> 1 < h * 10 ^ 7 -> (2 <= n)%nat ->
  b <= ym <= b + (INR n - 1) * h -> b <= ym + ys <= b + (INR n - 1) * h -> b <= ym - ys <= b + (INR n - 1) * h ->
  TrData_init eps (uniform b h n) (map (fun u => s * u + m) (uniform b h n)) ym ys None None =
    Ok (TrData (uniform b h n) (map (fun u => s * u + m) (uniform b h n)) ym ys (s * ym + m) (s * ys)).
Proof.
  intros eps b h n m s ym ys E H K N B0 B1 B2. unfold TrData_init. rewrite !gauss2dat1_line by auto. cbn [bind]. do 2 f_equal. field.
Qed.
Lemma line_uniform : forall b h n s m, map (fun u => s * u + m) (uniform b h n) = uniform (s * b + m) (s * h) n.
Proof. intros. unfold uniform. rewrite map_map. apply map_ext. intros i. ring. Qed.
Lemma TrData_roundtrip : forall eps b h n m s x, 0 <= eps -> 0 < h -> 0 < s -> 1 < h * 10 ^ 7 -> 1 < s * h * 10 ^ 7 -> (2 <= n)%nat -> x <> [] ->
  let data := uniform b h n in let args := map (fun u => s * u + m) data in
  covers args x ->
  dat2gauss eps data args x [] = Ok [map (fun v => (v - m) / s) x] /\ gauss2dat eps data args (map (fun v => (v - m) / s) x) [] = Ok [x].
Proof.
  intros eps b h n m s x E H Hs K K2 N N0 data args C.
  assert (A : args = uniform (s * b + m) (s * h) n) by apply line_uniform.
  assert (Sh : 0 < s * h) by (apply Rmult_lt_0_compat; lra).
  assert (C' : forall t, In t x -> s * b + m <= t <= s * b + m + (INR n - 1) * (s * h)) by (rewrite A in C; exact (proj1 (covers_uniform (s * b + m) (s * h) n x ltac:(lia)) C)).
  split.
  - unfold dat2gauss. rewrite (tranproc_line eps args data x (/ s) (- m / s)); auto.
    + f_equal. f_equal. apply map_ext. intros v. field. lra.
    + rewrite A. apply uniform_increasing. exact Sh.
    + rewrite A. unfold data. rewrite !uniform_length. reflexivity.
    + rewrite A, uniform_length. exact N.
    + rewrite A. apply uniform_coarse; [exact N|apply coarse7; exact K2].
    + left. exists (s * b + m), (s * h). rewrite A, uniform_length. reflexivity.
    + intros i Hi. rewrite A, uniform_length in Hi. rewrite A. unfold data. rewrite !uniform_at by exact Hi. field. lra.
  - unfold gauss2dat. rewrite (tranproc_line eps data args _ s m); auto.
    + f_equal. f_equal. rewrite map_map. rewrite <- (map_id x) at 2. apply map_ext. intros v. field. lra.
    + apply uniform_increasing. exact H.
    + rewrite A. unfold data. rewrite !uniform_length. reflexivity.
    + unfold data. rewrite uniform_length. exact N.
    + destruct x; [congruence|discriminate].
    + apply covers_uniform; [lia|]. intros t Ht. apply in_map_iff in Ht as (v & <- & Hv). specialize (C' v Hv).
      split; [apply Rmult_le_reg_r with s|apply Rmult_le_reg_r with s]; try lra; unfold Rdiv; rewrite Rmult_assoc, Rinv_l by lra; lra.
    + apply uniform_coarse; [exact N|apply coarse7; exact K].
    + left. exists b, h. unfold data. rewrite uniform_length. reflexivity.
    + intros i Hi. unfold data in Hi. rewrite uniform_length in Hi. rewrite A. unfold data. rewrite !uniform_at by exact Hi. ring.
Qed.

Lemma derivatives_documented : forall eps a h n f x0 xi, 0 <= eps -> 0 < h -> length f = n -> x0 <> [] -> (1 <= length xi <= 3)%nat -> (length xi + 2 <= n)%nat ->
  (forall l, In l xi -> length l = length x0) -> 1 < h * Rpower 10 (7 / INR (length xi)) ->
  (forall t, In t x0 -> a + INR (length xi) * h / 2 <= t <= a + (INR n - 1) * h - INR (length xi) * h / 2) ->
  exists ys D, tranproc eps (uniform a h n) f x0 xi = Ok ys /\ length ys = S (length xi) /\
    (forall t k, In t x0 -> (k <= length xi)%nat -> interpolated (uniform (a + INR k * h / 2) h (n - k)) (quotient_table h k n f) t (D k t)) /\
    forall k i, (k <= length xi)%nat -> (i < length x0)%nat ->
      nth i (nth k ys []) 0 = chain_rule (fun j => D j (at_ x0 i)) (fun j => nth i (nth (j - 1) xi []) 0) k.
Proof.
  intros eps a h n f x0 xi E H L N0 ND N LX K C. destruct (tranproc_derivatives eps a h n f x0 xi E H L N0 ltac:(lia) N LX K C) as (ys & D & Y & Ly & P & Q).
  exists ys, D. split; [exact Y|]. split; [exact Ly|]. split; [exact P|]. intros k i Hk Hi. rewrite (Q k i Hk Hi). unfold computed. destruct k as [|[|[|[|[|k]]]]]; try reflexivity. lia.
Qed.
Lemma fourth_wrong : forall eps a h n f x0 xi, 0 <= eps -> 0 < h -> length f = n -> x0 <> [] -> length xi = 4%nat -> (6 <= n)%nat ->
  (forall l, In l xi -> length l = length x0) -> 1 < h * Rpower 10 (7 / 4) ->
  (forall t, In t x0 -> a + 2 * h <= t <= a + (INR n - 1) * h - 2 * h) ->
  exists ys D, tranproc eps (uniform a h n) f x0 xi = Ok ys /\
    (forall t k, In t x0 -> (k <= 4)%nat -> interpolated (uniform (a + INR k * h / 2) h (n - k)) (quotient_table h k n f) t (D k t)) /\
    forall i, (i < length x0)%nat -> let F j := D j (at_ x0 i) in let X j := nth i (nth (j - 1) xi []) 0 in
      nth i (nth 4 ys []) 0 = chain_rule F X 4 + 4 * F 2%nat * X 1%nat * (X 2%nat - X 3%nat).
Proof.
  intros eps a h n f x0 xi E H L N0 ND N LX K C.
  assert (I4 : INR (length xi) = 4) by (rewrite ND; cbn [INR]; lra).
  destruct (tranproc_derivatives eps a h n f x0 xi E H L N0 ltac:(lia) ltac:(lia) LX ltac:(rewrite I4; exact K)) as (ys & D & Y & Ly & P & Q).
  { intros t Ht. specialize (C t Ht). rewrite I4. lra. }
  exists ys, D. split; [exact Y|]. split; [intros t k Ht Hk; apply P; [exact Ht|lia]|]. intros i Hi F X. apply (Q 4%nat i ltac:(lia) Hi).
Qed.
