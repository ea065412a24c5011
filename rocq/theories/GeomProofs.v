From Coq Require Import Reals Lra Psatz.
From Verif Require Import Base PolyModel GeomModel GeomSpec.
Local Open Scope R_scope.

(* ---- rotation ----------------------------------------------------------------------------------- *)
Lemma nonzero_false x : nonzero x = false -> x = 0.
Proof. unfold nonzero. destruct (Req_EM_T x 0); [auto|discriminate]. Qed.
Lemma rotation_entries h p r : rotation_matrix h p r = rot_entries (rad h) (rad p) (rad r).
Proof.
  unfold rotation_matrix. destruct (nonzero h || nonzero p || nonzero r) eqn:E.
  - unfold rad. replace (h * PI / 180) with (h * (PI / 180)) by field. replace (p * PI / 180) with (p * (PI / 180)) by field.
    replace (r * PI / 180) with (r * (PI / 180)) by field. reflexivity.
  - apply orb_false_iff in E. destruct E as [E E3]. apply orb_false_iff in E. destruct E as [E1 E2].
    apply nonzero_false in E1, E2, E3. subst. unfold rad, rot_entries. replace (0 * PI / 180) with 0 by field.
    rewrite cos_0, sin_0. repeat (f_equal; try ring).
Qed.
Lemma cs a : cos a * cos a = 1 - sin a * sin a.
Proof. pose proof (sin2_cos2 a) as H. unfold Rsqr in H. lra. Qed.
Lemma rot_orthogonal h p r : orthogonal3 (rot_entries h p r).
Proof.
  intros i j Hi Hj. pose proof (cs h) as H1. pose proof (cs p) as H2. pose proof (cs r) as H3.
  unfold sum3, m3, rot_entries.
  set (ch := cos h) in *. set (sh := sin h) in *. set (cp := cos p) in *. set (sp := sin p) in *. set (cr := cos r) in *. set (sr := sin r) in *.
  clearbody ch sh cp sp cr sr.
  destruct i as [|[|[|i]]]; try lia; destruct j as [|[|[|j]]]; try lia; cbn [nth Nat.mul Nat.add Nat.eqb]; split; ring [H1 H2 H3].
Qed.
Lemma rot_det h p r : det3 (rot_entries h p r) = 1.
Proof.
  pose proof (cs h) as H1. pose proof (cs p) as H2. pose proof (cs r) as H3. unfold det3, m3, rot_entries. cbn [nth Nat.mul Nat.add].
  set (ch := cos h) in *. set (sh := sin h) in *. set (cp := cos p) in *. set (sp := sin p) in *. set (cr := cos r) in *. set (sr := sin r) in *.
  clearbody ch sh cp sp cr sr. ring [H1 H2 H3].
Qed.
Lemma rotation_orthogonal h p r : orthogonal3 (rotation_matrix h p r) /\ det3 (rotation_matrix h p r) = 1.
Proof. rewrite rotation_entries. split; [apply rot_orthogonal|apply rot_det]. Qed.
Lemma rotate_composed x y z h p r : rotate x y z h p r = about_z (about_y (about_x (x, y, z) (rad r)) (rad p)) (rad h).
Proof.
  unfold rotate. rewrite rotation_entries. unfold rot_entries, about_x, about_y, about_z. cbn [nth]. f_equal; [f_equal|]; ring.
Qed.
Lemma rotate_dot u v h p r : let '(a, b, c) := u in let '(x, y, z) := v in
  dot (rotate a b c h p r) (rotate x y z h p r) = dot u v.
Proof.
  destruct u as [[a b] c], v as [[x y] z]. rewrite !rotate_composed. unfold about_x, about_y, about_z, dot.
  pose proof (cs (rad h)) as H1. pose proof (cs (rad p)) as H2. pose proof (cs (rad r)) as H3.
  set (ch := cos (rad h)) in *. set (sh := sin (rad h)) in *. set (cp := cos (rad p)) in *. set (sp := sin (rad p)) in *. set (cr := cos (rad r)) in *. set (sr := sin (rad r)) in *.
  clearbody ch sh cp sp cr sr. ring [H1 H2 H3].
Qed.
Lemma rotate_heading x y z a : rotate x y z a 0 0 = (fst (rotate_2d x y a), snd (rotate_2d x y a), z).
Proof.
  rewrite rotate_composed. unfold rad, about_x, about_y, about_z, rotate_2d. replace (0 * PI / 180) with 0 by field.
  rewrite cos_0, sin_0. cbn [fst snd]. f_equal; [f_equal|]; ring.
Qed.
Lemma rotate_2d_length x y a : let '(u, v) := rotate_2d x y a in u * u + v * v = x * x + y * y.
Proof.
  unfold rotate_2d. pose proof (cs (a * PI / 180)) as H. set (c := cos (a * PI / 180)) in *. set (s := sin (a * PI / 180)) in *.
  clearbody c s. ring [H].
Qed.
Lemma rotate_2d_add x y a b : let '(u, v) := rotate_2d x y a in rotate_2d u v b = rotate_2d x y (a + b).
Proof.
  unfold rotate_2d. replace ((a + b) * PI / 180) with (a * PI / 180 + b * PI / 180) by field.
  rewrite cos_plus, sin_plus. f_equal; ring.
Qed.
Lemma rotate_2d_zero x y : rotate_2d x y 0 = (x, y).
Proof. unfold rotate_2d. replace (0 * PI / 180) with 0 by field. rewrite cos_0, sin_0. f_equal; ring. Qed.
Lemma rotate_2d_turn x y : rotate_2d x y 360 = (x, y) /\ rotate_2d x y 90 = (- y, x).
Proof.
  unfold rotate_2d. replace (360 * PI / 180) with (2 * PI) by field. replace (90 * PI / 180) with (PI / 2) by field.
  rewrite cos_2PI, sin_2PI, cos_PI2, sin_PI2. split; f_equal; ring.
Qed.

(* ---- polar coordinates -------------------------------------------------------------------------- *)
Lemma hyp_pos x y : x <> 0 -> sqrt (x * x + y * y) = Rabs x * sqrt (1 + (y / x)²).
Proof.
  intros H. rewrite <- (sqrt_Rsqr_abs x). rewrite <- sqrt_mult.
  - f_equal. unfold Rsqr. field. exact H.
  - apply Rle_0_sqr.
  - pose proof (Rle_0_sqr (y / x)). lra.
Qed.
Lemma one_plus_pos t : 0 < sqrt (1 + t²).
Proof. apply sqrt_lt_R0. pose proof (Rle_0_sqr t). lra. Qed.
Lemma arctan2_spec x y : let r := sqrt (x * x + y * y) in
  r * cos (arctan2 y x) = x /\ r * sin (arctan2 y x) = y /\ - PI < arctan2 y x <= PI.
Proof.
  cbv zeta. pose proof PI_RGT_0 as PP. unfold arctan2. destruct (Rlt_dec 0 x) as [X|X].
  - rewrite hyp_pos by lra. rewrite Rabs_right by lra. rewrite cos_atan, sin_atan. pose proof (one_plus_pos (y / x)) as Q.
    pose proof (atan_bound (y / x)) as B. repeat split; try lra; set (q := sqrt (1 + (y / x)²)) in *; clearbody q; field; lra.
  - destruct (Rlt_dec x 0) as [X'|X'].
    + rewrite hyp_pos by lra. rewrite Rabs_left by lra. pose proof (one_plus_pos (y / x)) as Q. pose proof (atan_bound (y / x)) as B.
      destruct (Rle_dec 0 y) as [Y|Y].
      * rewrite neg_cos, neg_sin, cos_atan, sin_atan. split; [|split].
        -- set (q := sqrt (1 + (y / x)²)) in *; clearbody q; field; lra.
        -- set (q := sqrt (1 + (y / x)²)) in *; clearbody q; field; lra.
        -- split; [lra|]. destruct (Req_dec y 0) as [->|NY]; [unfold Rdiv; rewrite Rmult_0_l, atan_0; lra|].
           assert (y / x < 0) by (unfold Rdiv; assert (/ x < 0) by (apply Rinv_lt_0_compat; exact X'); nra).
           assert (atan (y / x) < 0) by (rewrite <- atan_0; apply atan_increasing; assumption). lra.
      * replace (atan (y / x) - PI) with (- (PI - atan (y / x))) by ring. rewrite cos_neg, sin_neg, Rtrigo_facts.cos_pi_minus, Rtrigo_facts.sin_pi_minus, cos_atan, sin_atan.
        split; [|split].
        -- set (q := sqrt (1 + (y / x)²)) in *; clearbody q; field; lra.
        -- set (q := sqrt (1 + (y / x)²)) in *; clearbody q; field; lra.
        -- assert (0 < y / x) by (unfold Rdiv; assert (/ x < 0) by (apply Rinv_lt_0_compat; exact X'); nra).
           assert (0 < atan (y / x)) by (rewrite <- atan_0; apply atan_increasing; assumption). lra.
    + assert (x = 0) by lra. subst x. replace (0 * 0 + y * y) with (y²) by (unfold Rsqr; ring). rewrite sqrt_Rsqr_abs.
      destruct (Rlt_dec 0 y) as [Y|Y]; [|destruct (Rlt_dec y 0) as [Y'|Y']].
      * rewrite Rabs_right by lra. rewrite cos_PI2, sin_PI2. repeat split; lra.
      * rewrite Rabs_left by lra. rewrite cos_neg, sin_neg, cos_PI2, sin_PI2. repeat split; lra.
      * assert (y = 0) by lra. subst y. rewrite Rabs_R0, cos_0, sin_0. repeat split; lra.
Qed.
Lemma cart_polar_cart x y : polar2cart (fst (cart2polar x y)) (snd (cart2polar x y)) = (x, y) /\
  0 <= snd (cart2polar x y) /\ - PI < fst (cart2polar x y) <= PI.
Proof.
  destruct (arctan2_spec x y) as (H1 & H2 & H3). unfold polar2cart, cart2polar. cbn [fst snd]. rewrite H1, H2.
  split; [reflexivity|]. split; [apply sqrt_pos|exact H3].
Qed.
Lemma cos_one t : -2 * PI < t < 2 * PI -> cos t = 1 -> t = 0.
Proof.
  intros B C. replace t with (2 * (t / 2)) in C by field. rewrite cos_2a_sin in C.
  assert (S0 : sin (t / 2) = 0) by nra. apply sin_eq_0_0 in S0. destruct S0 as [k Hk]. pose proof PI_RGT_0 as PP.
  assert (K1 : IZR k * PI < 1 * PI) by lra. assert (K2 : (-1) * PI < IZR k * PI) by lra.
  apply Rmult_lt_reg_r in K1; [|exact PP]. apply Rmult_lt_reg_r in K2; [|exact PP].
  change 1 with (IZR 1) in K1. change (-1) with (IZR (-1)) in K2. apply lt_IZR in K1, K2. assert (k = 0%Z) by lia. subst k. lra.
Qed.
Lemma polar_cart_polar theta rho : 0 < rho -> - PI < theta <= PI ->
  let c := polar2cart theta rho in cart2polar (fst c) (snd c) = (theta, rho).
Proof.
  intros Hr Ht. cbv zeta. unfold polar2cart, cart2polar. cbn [fst snd].
  pose proof (arctan2_spec (rho * cos theta) (rho * sin theta)) as S. cbv zeta in S.
  assert (E : sqrt (rho * cos theta * (rho * cos theta) + rho * sin theta * (rho * sin theta)) = rho).
  { replace (rho * cos theta * (rho * cos theta) + rho * sin theta * (rho * sin theta)) with (rho * rho).
    - apply sqrt_square. lra.
    - pose proof (cs theta) as C. ring [C]. }
  rewrite E in *. destruct S as (S1 & S2 & S3). f_equal.
  apply Rmult_eq_reg_l in S1; [|lra]. apply Rmult_eq_reg_l in S2; [|lra].
  set (a := arctan2 (rho * sin theta) (rho * cos theta)) in *. clearbody a.
  assert (Z : a - theta = 0).
  { apply cos_one; [lra|]. rewrite cos_minus, S1, S2. pose proof (cs theta) as C. ring [C]. }
  lra.
Qed.

(* ---- points on a line --------------------------------------------------------------------------- *)
Lemma pmap2_length f a b : List.length a = List.length b -> List.length (pmap2 f a b) = List.length a.
Proof. revert b. induction a; intros [|y b] H; try discriminate; [reflexivity|]. cbn in *. rewrite IHa; lia. Qed.
Lemma pmap2_nth f a b i : List.length a = List.length b -> (i < List.length a)%nat -> nth i (pmap2 f a b) 0 = f (nth i a 0) (nth i b 0).
Proof. revert b i. induction a; intros [|y b] i H Hi; try discriminate; [cbn in Hi; lia|]. cbn in *. destruct i; [reflexivity|]. apply IHa; lia. Qed.
Lemma spaceline_ok start stop num : List.length start = List.length stop -> (1 < num)%Z ->
  List.length (spaceline start stop num) = Z.to_nat num /\
  forall n i, (n < Z.to_nat num)%nat -> (i < List.length start)%nat ->
    List.length (nth n (spaceline start stop num) []) = List.length start /\
    nth i (nth n (spaceline start stop num) []) 0 = nth i start 0 + INR n / IZR (num - 1) * (nth i stop 0 - nth i start 0).
Proof.
  intros HL Hn. unfold spaceline. replace (1 <? num)%Z with true by (symmetry; apply Z.ltb_lt; lia).
  rewrite map_length, seq_length. split; [reflexivity|]. intros n i H Hi.
  set (delta := pmap2 (fun s t => (t - s) / IZR (num - 1)) start stop).
  assert (DL : List.length delta = List.length start) by (apply pmap2_length; exact HL).
  set (f := fun n0 => pmap2 (fun s d => s + INR n0 * d) start delta).
  rewrite (nth_indep _ [] (f 0%nat)) by (rewrite map_length, seq_length; exact H). rewrite map_nth. rewrite seq_nth by exact H.
  unfold f. cbn [Nat.add]. split; [apply pmap2_length; congruence|]. rewrite pmap2_nth by congruence. unfold delta. rewrite pmap2_nth by congruence.
  field. apply not_0_IZR. lia.
Qed.
Lemma list_nth_ext (a b : list R) : List.length a = List.length b -> (forall i, (i < List.length a)%nat -> nth i a 0 = nth i b 0) -> a = b.
Proof. intros H1 H2. apply (nth_ext a b 0 0 H1 H2). Qed.
Lemma spaceline_ends start stop num : List.length start = List.length stop -> (1 < num)%Z -> start <> [] ->
  nth 0 (spaceline start stop num) [] = start /\ nth (Z.to_nat num - 1) (spaceline start stop num) [] = stop.
Proof.
  intros HL Hn NE. destruct (spaceline_ok start stop num HL Hn) as [_ H]. assert (P : (0 < List.length start)%nat) by (destruct start; [congruence|cbn; lia]).
  assert (NZ : IZR (num - 1) <> 0) by (apply not_0_IZR; lia). split.
  - destruct (H 0%nat 0%nat ltac:(lia) P) as [L _]. apply list_nth_ext; [exact L|]. rewrite L. intros i Hi.
    destruct (H 0%nat i ltac:(lia) Hi) as [_ ->]. cbn [INR]. field. exact NZ.
  - destruct (H (Z.to_nat num - 1)%nat 0%nat ltac:(lia) P) as [L _]. apply list_nth_ext; [congruence|]. rewrite L. intros i Hi.
    destruct (H (Z.to_nat num - 1)%nat i ltac:(lia) Hi) as [_ ->].
    replace (INR (Z.to_nat num - 1)) with (IZR (num - 1)) by (rewrite INR_IZR_INZ; f_equal; lia). field. exact NZ.
Qed.
Lemma spaceline_mid start stop num : List.length start = List.length stop -> (num <= 1)%Z ->
  exists p, spaceline start stop num = [p] /\ List.length p = List.length start /\
    forall i, (i < List.length start)%nat -> nth i p 0 = (nth i start 0 + nth i stop 0) / 2.
Proof.
  intros HL Hn. unfold spaceline. replace (1 <? num)%Z with false by (symmetry; apply Z.ltb_ge; lia).
  eexists. split; [reflexivity|]. assert (DL : List.length (pmap2 (fun s t => (t - s) / 2) start stop) = List.length start) by (apply pmap2_length; exact HL).
  split; [apply pmap2_length; congruence|]. intros i Hi. rewrite pmap2_nth by congruence. rewrite pmap2_nth by congruence. field.
Qed.

(* ---- nextpow2 ----------------------------------------------------------------------------------- *)
Lemma pow2_pos k : 0 < powerRZ 2 k.
Proof. apply powerRZ_lt. lra. Qed.
Lemma pow2_S k : powerRZ 2 (k + 1) = 2 * powerRZ 2 k.
Proof. rewrite powerRZ_add by lra. change (powerRZ 2 1) with (2 * 1). ring. Qed.
Lemma pow2_mono_lt j k : (j < k)%Z -> powerRZ 2 j < powerRZ 2 k.
Proof.
  intros H. assert (G : forall n, powerRZ 2 j < powerRZ 2 (j + 1 + Z.of_nat n)).
  { induction n as [|n IH].
    - rewrite Z.add_0_r, pow2_S. pose proof (pow2_pos j). lra.
    - replace (j + 1 + Z.of_nat (S n))%Z with (j + 1 + Z.of_nat n + 1)%Z by lia. rewrite pow2_S. pose proof (pow2_pos (j + 1 + Z.of_nat n)). lra. }
  specialize (G (Z.to_nat (k - j - 1))). replace (j + 1 + Z.of_nat (Z.to_nat (k - j - 1)))%Z with k in G by lia. exact G.
Qed.
Lemma pow2_lt_inv j k : powerRZ 2 j < powerRZ 2 k -> (j < k)%Z.
Proof.
  intros H. destruct (Z_lt_le_dec j k) as [|L]; [assumption|]. destruct (Z.eq_dec j k) as [->|N]; [lra|].
  pose proof (pow2_mono_lt k j ltac:(lia)). lra.
Qed.
Lemma pick_ok x f n : x = f * powerRZ 2 n -> 1 / 2 <= f < 1 ->
  let m := if Req_EM_T f (1 / 2) then (n - 1)%Z else n in
  x <= powerRZ 2 m /\ forall k, x <= powerRZ 2 k -> (m <= k)%Z.
Proof.
  intros E B. pose proof (pow2_pos n) as P. assert (P1 : powerRZ 2 n = 2 * powerRZ 2 (n - 1)) by (rewrite <- pow2_S; f_equal; lia).
  destruct (Req_EM_T f (1 / 2)) as [Q|Q]; cbv zeta.
  - subst f. split; [lra|]. intros k Hk. assert (G : powerRZ 2 (n - 2) < powerRZ 2 k).
    { pose proof (pow2_mono_lt (n - 2) (n - 1) ltac:(lia)). lra. }
    apply pow2_lt_inv in G. lia.
  - split; [nra|]. intros k Hk. assert (G : powerRZ 2 (n - 1) < powerRZ 2 k) by nra. apply pow2_lt_inv in G. lia.
Qed.
Lemma nextpow2_scalar frexp x : is_frexp frexp -> x <> 0 ->
  exists m, nextpow2 frexp (Scalar x) = Ok m /\ nextpow2 frexp (Vector [x]) = Ok m /\
    Rabs x <= powerRZ 2 m /\ forall k, Rabs x <= powerRZ 2 k -> (m <= k)%Z.
Proof.
  intros F N. destruct (F (Rabs x) (Rabs_pos x)) as [[E _]|(P & E & B)]; [exfalso; revert E; apply Rabs_no_R0; exact N|].
  eexists. split; [reflexivity|]. split; [reflexivity|]. apply (pick_ok _ _ _ E B).
Qed.
Lemma nextpow2_zero frexp : is_frexp frexp -> nextpow2 frexp (Scalar 0) = Ok 0%Z.
Proof.
  intros F. destruct (F (Rabs 0) (Rabs_pos 0)) as [[_ E]|(P & _)]; [|rewrite Rabs_R0 in P; lra].
  unfold nextpow2. rewrite E. cbn [fst snd]. destruct (Req_EM_T 0 (1 / 2)); [lra|reflexivity].
Qed.
Lemma nextpow2_vector frexp l : is_frexp frexp -> (2 <= List.length l)%nat ->
  exists m, nextpow2 frexp (Vector l) = Ok m /\ INR (List.length l) <= powerRZ 2 m /\
    forall k, INR (List.length l) <= powerRZ 2 k -> (m <= k)%Z.
Proof.
  intros F N. assert (P : 0 < INR (List.length l)) by (apply lt_0_INR; lia).
  destruct (F (INR (List.length l)) ltac:(lra)) as [[E _]|(_ & E & B)]; [lra|].
  destruct l as [|a [|b l]]; try (cbn in N; lia). eexists. split; [reflexivity|]. apply (pick_ok _ _ _ E B).
Qed.

(* ---- moving average ----------------------------------------------------------------------------- *)
Definition wsum (x : list R) (a m : nat) : R := rsum (map (fun k => nth k x 0) (seq a m)).
Lemma wsum_S x a m : wsum x a (S m) = nth a x 0 + wsum x (S a) m.
Proof. reflexivity. Qed.
Lemma rsum_app a b : rsum (a ++ b) = rsum a + rsum b.
Proof. induction a as [|r a IH]; [unfold rsum; cbn [app fold_right]; ring|]. change (r + rsum (a ++ b) = r + rsum a + rsum b). rewrite IH. ring. Qed.
Lemma wsum_r x a m : wsum x a (S m) = wsum x a m + nth (a + m) x 0.
Proof. unfold wsum. rewrite seq_S, map_app, rsum_app. unfold rsum. cbn [map fold_right]. ring. Qed.
Lemma slice_wsum (x : list R) a m : (a + m <= List.length x)%nat -> rsum (skipn a (firstn (a + m) x)) = wsum x a m.
Proof.
  revert x. induction a as [|a IH]; intros x H.
  - cbn [Nat.add skipn]. clear -H. cbn [Nat.add] in H. revert x H. induction m as [|m IH]; intros x H; [reflexivity|].
    destruct x as [|r x]; [cbn in H; lia|]. cbn [firstn]. rewrite wsum_S. change (rsum (r :: firstn m x)) with (r + rsum (firstn m x)).
    cbn [nth]. f_equal. cbn [List.length] in H. rewrite IH by lia. unfold wsum. rewrite <- seq_shift, map_map. reflexivity.
  - destruct x as [|r x]; [cbn in H; lia|]. cbn [Nat.add firstn skipn]. cbn [List.length] in H. rewrite IH by lia.
    unfold wsum. rewrite <- seq_shift, map_map. reflexivity.
Qed.
Lemma window_mean_wsum (x : list R) a b : (a <= b)%nat -> (b <= List.length x)%nat -> window_mean x a b = wsum x a (b - a) / INR (b - a).
Proof.
  intros H1 H2. unfold window_mean, mean. replace (firstn b x) with (firstn (a + (b - a)) x) by (f_equal; lia).
  rewrite slice_wsum by lia. do 2 f_equal. rewrite skipn_length, firstn_length. lia.
Qed.
Lemma cumsum_length s l : List.length (cumsum_from s l) = List.length l.
Proof. revert s. induction l; intros s; cbn; [reflexivity|]. rewrite IHl. reflexivity. Qed.
Lemma cumsum_nth s l k : (k < List.length l)%nat -> nth k (cumsum_from s l) 0 = s + rsum (firstn (S k) l).
Proof.
  revert s k. induction l as [|a l IH]; intros s k H; [cbn in H; lia|]. cbn [cumsum_from]. destruct k as [|k].
  - cbn [nth firstn rsum fold_right]. unfold rsum. cbn [fold_right]. ring.
  - cbn [nth]. cbn [List.length] in H. rewrite IH by lia. change (firstn (S (S k)) (a :: l)) with (a :: firstn (S k) l).
    change (rsum (a :: firstn (S k) l)) with (a + rsum (firstn (S k) l)). ring.
Qed.
Lemma telescoped x l k : (0 < l)%nat ->
  rsum (map (fun i => (nth (i + l) x 0 - nth (i - l) x 0) / (2 * INR l)) (seq (l + 1) k)) = (wsum x (k + 1) (2 * l) - wsum x 1 (2 * l)) / (2 * INR l).
Proof.
  intros Hl. assert (P : 0 < INR l) by (apply lt_0_INR; exact Hl). induction k as [|k IH].
  - cbn [seq map rsum fold_right Nat.add]. field. lra.
  - rewrite seq_S, map_app, rsum_app, IH. cbn [map rsum fold_right]. replace (l + 1 + k + l)%nat with (k + 1 + 2 * l)%nat by lia.
    replace (l + 1 + k - l)%nat with (k + 1)%nat by lia.
    assert (E : wsum x (S k + 1) (2 * l) = wsum x (k + 1) (2 * l) + nth (k + 1 + 2 * l) x 0 - nth (k + 1) x 0).
    { pose proof (wsum_S x (k + 1) (2 * l)) as A1. pose proof (wsum_r x (k + 1) (2 * l)) as A2. replace (S k + 1)%nat with (S (k + 1)) by lia. lra. }
    rewrite E. field. lra.
Qed.
Lemma moving_average_shape x L : (0 < L)%Z -> (2 * Z.to_nat L + 1 <= List.length x)%nat ->
  let l := Z.to_nat L in let n := List.length x in
  exists y, moving_average (fun v => v) x L = Ok y /\ List.length y = n /\
    (forall i, (i <= l)%nat -> nth i y 0 = window_mean x 0 (2 * l + 1)) /\
    (forall i, (l < i < n - l)%nat -> nth i y 0 =
       window_mean x (i - l + 1) (i + l + 1) + (window_mean x 0 (2 * l + 1) - window_mean x 1 (2 * l + 1))) /\
    (forall i, (n - l <= i < n)%nat -> nth i y 0 = nth (n - l - 1) y 0).
Proof.
  intros HL Hn l n. assert (Hl : (0 < l)%nat) by (unfold l; lia). unfold moving_average. fold l. fold n.
  replace (L <=? 0)%Z with false by (symmetry; apply Z.leb_gt; lia).
  replace (n <? 2 * l + 1)%nat with false by (symmetry; apply Nat.ltb_ge; unfold n, l; lia).
  replace (IZR L) with (INR l) by (unfold l; rewrite INR_IZR_INZ; f_equal; lia).
  set (mn := mean (firstn (2 * l + 1) x)). assert (MN : mn = window_mean x 0 (2 * l + 1)) by reflexivity.
  set (dl := map (fun i => (nth (i + l) x 0 - nth (i - l) x 0) / (2 * INR l)) (seq (l + 1) (n - l - (l + 1)))).
  assert (DL : List.length dl = (n - l - (l + 1))%nat) by (unfold dl; rewrite map_length, seq_length; reflexivity).
  set (inner := map (fun c => c + mn) (cumsum_from 0 dl)).
  assert (IL : List.length inner = (n - l - (l + 1))%nat) by (unfold inner; rewrite map_length, cumsum_length; exact DL).
  set (y := repeat mn (l + 1) ++ inner). assert (YL : List.length y = (n - l)%nat) by (unfold y; rewrite app_length, repeat_length, IL; unfold n, l in *; lia).
  eexists. split; [reflexivity|]. split; [rewrite app_length, YL, repeat_length; unfold n, l in *; lia|].
  assert (N0 : (2 * l + 1 <= n)%nat) by (unfold n, l; exact Hn). split; [|split].
  - intros i Hi. rewrite app_nth1 by lia. unfold y. rewrite app_nth1 by (rewrite repeat_length; lia).
    rewrite (nth_indep _ 0 mn) by (rewrite repeat_length; lia). rewrite nth_repeat. exact MN.
  - intros i Hi. rewrite app_nth1 by lia. unfold y. rewrite app_nth2 by (rewrite repeat_length; lia). rewrite repeat_length.
    unfold inner. rewrite (nth_indep _ 0 (0 + mn)) by (fold inner; rewrite IL; lia). rewrite (map_nth (fun c => c + mn) (cumsum_from 0 dl) 0).
    rewrite cumsum_nth by (rewrite DL; lia). rewrite Rplus_0_l.
    assert (F : firstn (S (i - (l + 1))) dl = map (fun i => (nth (i + l) x 0 - nth (i - l) x 0) / (2 * INR l)) (seq (l + 1) (i - l))).
    { unfold dl. rewrite firstn_map. f_equal. replace (n - l - (l + 1))%nat with ((i - l) + (n - l - 1 - i))%nat by lia.
      rewrite seq_app. replace (S (i - (l + 1))) with (List.length (seq (l + 1) (i - l))) by (rewrite seq_length; lia).
      rewrite firstn_app, Nat.sub_diag, firstn_all. cbn [firstn]. apply app_nil_r. }
    rewrite F, telescoped by exact Hl. rewrite MN. rewrite (window_mean_wsum x (i - l + 1) (i + l + 1)) by (unfold n in *; lia).
    rewrite (window_mean_wsum x 1 (2 * l + 1)) by (unfold n in *; lia).
    replace (i + l + 1 - (i - l + 1))%nat with (2 * l)%nat by lia. replace (2 * l + 1 - 1)%nat with (2 * l)%nat by lia.
    rewrite mult_INR. change (INR 2) with 2. assert (P : 0 < INR l) by (apply lt_0_INR; exact Hl). field. lra.
  - intros i Hi. rewrite app_nth2 by lia. rewrite (app_nth1 y) by lia. rewrite YL.
    rewrite (nth_indep _ 0 (nth (n - l - 1) y 0)) by (rewrite repeat_length; lia). apply nth_repeat.
Qed.
Lemma moving_average_short x L : (0 < L)%Z -> (List.length x < 2 * Z.to_nat L + 1)%nat ->
  moving_average (fun v => v) x L = Ok (repeat (mean x) (List.length x)).
Proof.
  intros H1 H2. unfold moving_average. replace (L <=? 0)%Z with false by (symmetry; apply Z.leb_gt; lia).
  replace (List.length x <? 2 * Z.to_nat L + 1)%nat with true by (symmetry; apply Nat.ltb_lt; exact H2). reflexivity.
Qed.
Lemma moving_average_bad store x L : (L <= 0)%Z -> moving_average store x L = Err ValueError.
Proof. intros H. unfold moving_average. replace (L <=? 0)%Z with true by (symmetry; apply Z.leb_le; lia). reflexivity. Qed.
Lemma wsum_line x a b s m : (forall i, (i < List.length x)%nat -> nth i x 0 = a + b * INR i) -> (s + m <= List.length x)%nat ->
  wsum x s m = INR m * (a + b * (INR s + (INR m - 1) / 2)).
Proof.
  intros H. induction m as [|m IH]; intros Hm; [unfold wsum, rsum; cbn [seq map fold_right INR]; ring|]. rewrite wsum_r, IH, H by lia. rewrite plus_INR, S_INR. field.
Qed.
Lemma window_mean_line x a b s e : (forall i, (i < List.length x)%nat -> nth i x 0 = a + b * INR i) -> (s < e)%nat -> (e <= List.length x)%nat ->
  window_mean x s e = a + b * (INR s + INR e - 1) / 2.
Proof.
  intros H H1 H2. rewrite window_mean_wsum by lia. rewrite (wsum_line x a b) by (exact H || lia). rewrite minus_INR by lia.
  assert (INR s < INR e) by (apply lt_INR; exact H1). field. lra.
Qed.
Lemma moving_average_line x L a b : (0 < L)%Z -> (2 * Z.to_nat L + 1 <= List.length x)%nat ->
  (forall i, (i < List.length x)%nat -> nth i x 0 = a + b * INR i) ->
  exists y, moving_average (fun v => v) x L = Ok y /\ List.length y = List.length x /\
    forall i, (Z.to_nat L <= i < List.length x - Z.to_nat L)%nat ->
      nth i y 0 = nth i x 0 /\ window_mean x (i - Z.to_nat L) (i + Z.to_nat L + 1) = nth i x 0.
Proof.
  intros HL Hn H. destruct (moving_average_shape x L HL Hn) as (y & E & YL & Y1 & Y2 & _). exists y. split; [exact E|]. split; [exact YL|].
  intros i Hi. assert (Hl : (0 < Z.to_nat L)%nat) by lia. set (l := Z.to_nat L) in *. rewrite (H i) by lia. split.
  - destruct (Nat.eq_dec i l) as [->|N].
    + rewrite Y1 by lia. rewrite (window_mean_line x a b) by (exact H || lia). rewrite plus_INR, mult_INR. change (INR 2) with 2. change (INR 1) with 1. change (INR 0) with 0. field.
    + rewrite Y2 by lia. rewrite !(window_mean_line x a b) by (exact H || lia). rewrite !plus_INR, minus_INR, mult_INR by lia.
      change (INR 2) with 2. change (INR 1) with 1. change (INR 0) with 0. field.
  - rewrite (window_mean_line x a b) by (exact H || lia). rewrite !plus_INR, minus_INR by lia. change (INR 1) with 1. field.
Qed.
Lemma first_sample_shift : exists y, moving_average (fun v => v) [3; 0; 0; 0; 0] 1 = Ok y /\
  nth 2 y 0 = 1 /\ nth 3 y 0 = 1 /\ window_mean [3; 0; 0; 0; 0] 1 4 = 0 /\ window_mean [3; 0; 0; 0; 0] 2 5 = 0.
Proof.
  assert (HL : (0 < 1)%Z) by lia. assert (Hn : (2 * Z.to_nat 1 + 1 <= List.length [3; 0; 0; 0; 0]%R)%nat) by (cbn; lia).
  destruct (moving_average_shape [3; 0; 0; 0; 0] 1 HL Hn) as (y & E & _ & _ & Y & _). exists y. split; [exact E|].
  cbv zeta in Y. change (Z.to_nat 1) with 1%nat in Y. change (List.length [3; 0; 0; 0; 0]) with 5%nat in Y.
  rewrite (Y 2%nat) by lia. rewrite (Y 3%nat) by lia. unfold window_mean, mean.
  cbn [Nat.sub Nat.add Nat.mul firstn skipn rsum fold_right List.length INR]. repeat split; field.
Qed.
From Flocq Require Import Core.Raux Core.Zaux.
Definition frexp_of (x : R) : R * Z :=
  if Req_EM_T x 0 then (0, 0%Z) else (x * powerRZ 2 (- mag radix2 x), (mag radix2 x : Z)).
Lemma frexp_exists : is_frexp frexp_of.
Proof.
  intros x H. unfold frexp_of. destruct (Req_EM_T x 0) as [->|N]; [left; auto|right]. cbn [fst snd].
  split; [lra|]. destruct (mag radix2 x) as [e He]. cbn [mag_val]. specialize (He N). rewrite Rabs_right in He by lra.
  rewrite !bpow_powerRZ in He. change (IZR radix2) with 2 in He.
  assert (I : powerRZ 2 e * powerRZ 2 (- e) = 1) by (rewrite <- powerRZ_add by lra; rewrite Z.add_opp_diag_r; reflexivity).
  assert (P : 0 < powerRZ 2 (- e)) by apply pow2_pos.
  assert (H2 : powerRZ 2 e = 2 * powerRZ 2 (e - 1)) by (rewrite <- pow2_S; f_equal; lia).
  split; [rewrite Rmult_assoc, (Rmult_comm _ (powerRZ 2 e)), I; ring|]. split; nra.
Qed.

Lemma trunc_two_thirds : trunc (2 / 3) = 0.
Proof.
  unfold trunc. destruct (Rle_dec 0 (2 / 3)) as [H|H]; [|lra].
  assert (E : up (2 / 3) = 1%Z) by (symmetry; apply tech_up; lra). unfold Int_part. rewrite E. reflexivity.
Qed.
Lemma integer_truncated : exists x L y, (0 < L)%Z /\ Forall (fun v => exists k, v = IZR k) x /\
  moving_average trunc x L = Ok y /\ nth 1 y 0 <> window_mean x 0 3 /\ List.length x = 3%nat /\ L = 1%Z.
Proof.
  exists [0; 1; 1], 1%Z, (repeat (trunc (2 / 3)) 2 ++ [trunc (2 / 3)]). split; [lia|]. split.
  { repeat constructor; [exists 0%Z|exists 1%Z|exists 1%Z]; reflexivity. }
  assert (M : mean (firstn (2 * 1 + 1) [0; 1; 1]) = 2 / 3) by (unfold mean, rsum; cbn [Nat.mul Nat.add firstn fold_right List.length INR]; field).
  split.
  { unfold moving_average. change (1 <=? 0)%Z with false. cbv iota. change (Z.to_nat 1) with 1%nat. change (List.length [0; 1; 1]) with 3%nat.
    change (3 <? 2 * 1 + 1)%nat with false. cbv iota zeta. rewrite M. reflexivity. }
  split; [|split; reflexivity]. change (window_mean [0; 1; 1] 0 3) with (mean (firstn (2 * 1 + 1) [0; 1; 1])). rewrite M.
  cbn [repeat app nth]. rewrite trunc_two_thirds. lra.
Qed.
Lemma moving_average_length store x L t : moving_average store x L = Ok t -> List.length t = List.length x.
Proof.
  unfold moving_average. destruct (L <=? 0)%Z eqn:E0; [discriminate|]. apply Z.leb_gt in E0.
  destruct (List.length x <? 2 * Z.to_nat L + 1)%nat eqn:E; [intros H; inversion H; apply repeat_length|]. apply Nat.ltb_ge in E.
  intros H. inversion H. rewrite !app_length, !repeat_length, map_length, cumsum_length, map_length, seq_length. lia.
Qed.
Lemma detrendma_sum store x L t : moving_average store x L = Ok t ->
  exists y, detrendma store x L = Ok y /\ List.length y = List.length x /\ List.length t = List.length x /\
    forall i, (i < List.length x)%nat -> nth i y 0 + nth i t 0 = nth i x 0.
Proof.
  intros E. pose proof (moving_average_length store x L t E) as TL. unfold detrendma. rewrite E. cbn [bind]. eexists. split; [reflexivity|].
  split; [apply pmap2_length; congruence|]. split; [exact TL|]. intros i Hi. rewrite pmap2_nth by congruence. ring.
Qed.
Lemma detrendma_line x L a b : (0 < L)%Z -> (2 * Z.to_nat L + 1 <= List.length x)%nat ->
  (forall i, (i < List.length x)%nat -> nth i x 0 = a + b * INR i) ->
  exists y, detrendma (fun v => v) x L = Ok y /\ List.length y = List.length x /\
    forall i, (Z.to_nat L <= i < List.length x - Z.to_nat L)%nat -> nth i y 0 = 0.
Proof.
  intros H1 H2 H3. destruct (moving_average_line x L a b H1 H2 H3) as (y & E & YL & Y). unfold detrendma. rewrite E. cbn [bind].
  eexists. split; [reflexivity|]. split; [apply pmap2_length; congruence|]. intros i Hi. rewrite pmap2_nth by (congruence || lia).
  rewrite (proj1 (Y i Hi)). ring.
Qed.
