From Coq Require Import Reals Lra Lia Psatz Permutation.
From Coquelicot Require Import Coquelicot.
From Verif Require Import Base PolyModel FilterModel GridModel WaveModel KdeModel ProcModel ProcSpec ProcProofs ProcProofs2 ProcProofs3 ProcProofs4.
Local Open Scope R_scope.

(* ---- constant tables, up to two steps outside their range ---- *)
Lemma repeat_at : forall (c : R) n i, (i < n)%nat -> at_ (repeat c n) i = c.
Proof. intros c n. induction n as [|n IH]; intros [|i] H; try lia; [reflexivity|]. unfold at_. cbn [repeat nth]. apply IH. lia. Qed.
Lemma zrange_length : forall a b, length (zrange a b) = Z.to_nat (b - a).
Proof. intros. unfold zrange. rewrite map_length, seq_length. reflexivity. Qed.
Lemma zrange_at : forall a b i, (i < Z.to_nat (b - a))%nat -> at_ (zrange a b) i = IZR (a + Z.of_nat i).
Proof.
  intros a b i H. unfold zrange, at_. rewrite (nth_indep _ 0 ((fun i => IZR (a + Z.of_nat i)) 0%nat)) by (rewrite map_length, seq_length; lia).
  rewrite (map_nth (fun i => IZR (a + Z.of_nat i))), seq_nth by lia. reflexivity.
Qed.
Lemma last_app : forall (l l' : list R), l' <> [] -> last (l ++ l') 0 = last l' 0.
Proof.
  intros l l' N. induction l as [|a l IH]; auto. cbn [app]. destruct (l ++ l') as [|b m] eqn:E.
  - apply app_eq_nil in E as [_ ->]. congruence.
  - rewrite <- IH. reflexivity.
Qed.
Lemma map_const : forall {A} (l : list A) (g : A -> R) c, (forall a, In a l -> g a = c) -> map g l = repeat c (length l).
Proof. intros A l g c. induction l as [|a l IH]; intros H; auto. cbn [map length repeat]. rewrite (H a) by (left; reflexivity). f_equal. apply IH. intros b Hb. apply H. right. exact Hb. Qed.
Lemma getz_repeat : forall (c : R) n i, (- Z.of_nat n <= i < Z.of_nat n)%Z -> getz (repeat c n) i = Ok c.
Proof.
  intros c n i H. unfold getz. rewrite repeat_length. destruct (0 <=? i)%Z eqn:E.
  - rewrite geti_nth by (rewrite repeat_length; lia). rewrite repeat_at by lia. reflexivity.
  - destruct (- Z.of_nat n <=? i)%Z eqn:E2; [|lia]. rewrite geti_nth by (rewrite repeat_length; lia). rewrite repeat_at by lia. reflexivity.
Qed.

Lemma tranproc0_constant : forall eps b h m c x0, 0 <= eps -> 0 < h -> 1 < h * 10 ^ 7 -> (2 <= m)%nat -> x0 <> [] ->
  (forall t, In t x0 -> b - 2 * h <= t <= b + (INR m - 1) * h + 2 * h) ->
  tranproc0 eps (uniform b h m) (repeat c m) x0 = Ok (map (fun _ => c) x0).
Proof.
  intros eps b h m c x0 E H K N N0 C. set (x := uniform b h m). set (f := repeat c m).
  assert (Lx : length x = m) by apply uniform_length. assert (Lf : length f = m) by apply repeat_length.
  assert (Ix : increasing x) by (apply uniform_increasing; exact H). assert (Nx : x <> []) by (intros Z; rewrite Z in Lx; cbn in Lx; lia).
  assert (N1 : 1 <= INR m - 1) by (assert (2 <= INR m) by (apply (le_INR 2); lia); lra).
  assert (X0 : at_ x 0 = b) by (unfold x; rewrite uniform_at by lia; cbn [INR]; ring).
  assert (X1 : at_ x (m - 1) = b + (INR m - 1) * h) by (unfold x; rewrite uniform_at by lia; rewrite minus_INR by lia; cbn [INR]; ring).
  assert (X2 : at_ x 1 = b + h) by (unfold x; rewrite uniform_at by lia; cbn [INR]; ring).
  assert (Kc : coarse 0 x). { unfold coarse. rewrite Lx, X0, X1. change (INR (Nat.max 0 1)) with 1. replace (7 / 1) with (INR 7) by (rewrite (INR_IZR_INZ 7); cbn; lra). rewrite Rpower_pow by lra.
    replace (b + (INR m - 1) * h - b) with ((INR m - 1) * h) by ring. rewrite Rmult_assoc. rewrite <- (Rmult_1_r (INR m - 1)) at 1. apply Rmult_lt_compat_l; lra. }
  assert (SD : spacing_differs eps x = false) by (apply uniform_spacing; auto).
  pose proof (nmax_coarse 0 x Ix Nx Kc) as M.
  destruct (minR_spec x0 N0) as [M1 M2]. destruct (maxR_spec x0 N0) as [M3 M4]. pose proof (C _ M1) as C1. pose proof (C _ M3) as C3.
  (* what trangood makes of it *)
  assert (G : exists xo k, good eps 0 x f x0 = Ok (xo, repeat c (m + k)) /\ hd 0 xo = b /\ last xo 0 = b + (INR m - 1) * h + INR k * h /\ maxR x0 <= last xo 0).
  { assert (G : good eps 0 x f x0 = trangood eps x f None (Some (minR x0)) (Some (maxR x0)) (Some (nmax 0 x))).
    { unfold good. destruct x; [congruence|]. destruct x0; [congruence|]. reflexivity. }
    rewrite G. clear G. unfold trangood. rewrite Lx, Lf. destruct (m <? m)%nat eqn:E0; [apply Nat.ltb_lt in E0; lia|]. clear E0.
    rewrite sort_rows_sorted by (rewrite map_fst_combine by lia; exact Ix). rewrite map_fst_combine, map_snd_combine by lia. rewrite (no_duplicates x Ix).
    rewrite from_end_nth by lia. cbn [bind]. unfold first. rewrite geti_nth by lia. cbn [bind]. rewrite Lx, Lf in *.
    destruct (Z.of_nat m <? Z.max (Z.of_nat m) 2)%Z eqn:E1; [lia|]. destruct (Z.max (nmax 0 x) 2 <? Z.of_nat m)%Z eqn:E2; [lia|]. cbn [orb]. rewrite SD.
    cbn [bind fst snd]. rewrite geti_nth by lia. cbn [bind]. change (at_R x 1) with (at_ x 1). change (at_R x 0) with (at_ x 0). rewrite X0, X2. replace (b + h - b) with h by ring.
    assert (EB : extend_below x f (minR x0) = (x, f)).
    { unfold extend_below. change (at_R x 1) with (at_ x 1). change (at_R x 0) with (at_ x 0). rewrite X0, X2. replace (b + h - b) with h by ring. destruct (Rlt_dec (minR x0) b) as [Q|Q]; [|reflexivity].
      replace (zrange (floor ((minR x0 - b) / h)) (-2)) with (@nil R); [reflexivity|].
      assert (-2 <= floor ((minR x0 - b) / h))%Z.
      { pose proof (floor_spec ((minR x0 - b) / h)) as F. assert (-2 <= (minR x0 - b) / h). { apply Rmult_le_reg_r with h; [lra|]. unfold Rdiv. rewrite Rmult_assoc, Rinv_l by lra. lra. }
        assert (-3 < floor ((minR x0 - b) / h))%Z; [apply lt_IZR; lra|lia]. }
      unfold zrange. replace (Z.to_nat (-2 - floor ((minR x0 - b) / h))) with 0%nat by lia. reflexivity. }
    rewrite EB. cbn [fst snd]. unfold extend_above. rewrite from_end_nth by lia. cbn [bind]. rewrite Lx, X1.
    destruct (Rlt_dec (b + (INR m - 1) * h) (maxR x0)) as [Q|Q].
    - rewrite !from_end_nth by lia. cbn [bind]. rewrite Lf. unfold f at 1 2 3 4. rewrite !repeat_at by lia.
      set (q := (maxR x0 - (b + (INR m - 1) * h)) / h). assert (q0 : 0 < q) by (apply Rdiv_lt_0_compat; lra). pose proof (ceil_spec q) as Cq.
      assert (Z1 : (0 < ceil q)%Z) by (apply lt_IZR; lra). set (k := Z.to_nat (ceil q)).
      assert (Zk : length (zrange 1 (ceil q + 1)) = k) by (rewrite zrange_length; unfold k; f_equal; lia).
      assert (Ik : INR k = IZR (ceil q)) by (unfold k; rewrite INR_IZR_INZ, Z2Nat.id by lia; reflexivity).
      eexists _, k. split; [f_equal; f_equal|].
      + rewrite (map_const _ _ c), map_length, Zk; [|intros v _; unfold Rdiv; ring]. unfold f. symmetry. apply repeat_app.
      + split. { rewrite hd_at. unfold at_. rewrite app_nth1 by lia. exact X0. }
        assert (LA : last (x ++ map (fun v => v + (b + (INR m - 1) * h)) (map (fun k0 => h * k0) (zrange 1 (ceil q + 1)))) 0 = b + (INR m - 1) * h + INR k * h).
        { rewrite last_app. 2:{ intros Z. apply (f_equal (@length R)) in Z. rewrite !map_length, Zk in Z. cbn in Z. unfold k in Z. lia. }
          rewrite last_at, !map_length, Zk. rewrite map_map. unfold at_. rewrite (nth_indep _ 0 ((fun v => h * v + (b + (INR m - 1) * h)) 0)) by (rewrite map_length, Zk; unfold k; lia).
          rewrite (map_nth (fun v => h * v + (b + (INR m - 1) * h))). fold (at_ (zrange 1 (ceil q + 1)) (k - 1)). rewrite zrange_at by (unfold k; lia).
          replace (1 + Z.of_nat (k - 1))%Z with (ceil q) by (unfold k; lia). rewrite Ik. ring. }
        rewrite LA. split; [reflexivity|]. rewrite Ik. assert (maxR x0 = b + (INR m - 1) * h + q * h) as -> by (unfold q; field; lra).
        apply Rplus_le_compat_l, Rmult_le_compat_r; lra.
    - exists x, 0%nat. rewrite Nat.add_0_r. split; [reflexivity|]. rewrite hd_at, last_at, Lx, X0, X1. cbn [INR]. split; [reflexivity|]. split; lra. }
  destruct G as (xo & k & G & Hh & Hl & Hm). unfold tranproc0. rewrite G. cbn [bind fst snd]. unfold values. rewrite Lf. apply mapM_ok. intros t Ht.
  pose proof (C t Ht) as Ct. pose proof (M4 t Ht) as Mt. unfold position. rewrite Hh. set (w := last xo 0) in *.
  assert (Pk : 0 <= INR k * h) by (apply Rmult_le_pos; [apply pos_INR|lra]).
  assert (W : (INR m - 1) * h <= w - b) by lra. assert (W0 : 0 < (INR m - 1) * h) by (apply Rmult_lt_0_compat; lra).
  set (u := (INR m - 1) * (t - b) / (w - b)).
  assert (Uu : u * (w - b) = (INR m - 1) * (t - b)) by (unfold u; field; lra).
  assert (U1 : u <= INR m - 1). { apply Rmult_le_reg_r with (w - b); [lra|]. rewrite Uu. apply Rmult_le_compat_l; lra. }
  assert (U0 : -2 <= u). { apply Rmult_le_reg_r with (w - b); [lra|]. rewrite Uu. apply Rle_trans with (-2 * ((INR m - 1) * h)); [lra|]. replace (-2 * ((INR m - 1) * h)) with ((INR m - 1) * (-2 * h)) by ring. apply Rmult_le_compat_l; lra. }
  pose proof (floor_spec u) as F. unfold by_position. set (kk := floor u) in *.
  assert (B0 : (-3 < kk)%Z) by (apply lt_IZR; lra). assert (B1 : (kk < Z.of_nat m)%Z) by (apply lt_IZR; rewrite <- INR_IZR_INZ; lra).
  destruct (Z.eqb_spec kk (Z.of_nat m - 1)) as [Z|Z].
  - rewrite getz_repeat by lia. cbn [bind]. rewrite getz_repeat by lia. cbn [bind]. f_equal. ring.
  - rewrite getz_repeat by lia. cbn [bind]. rewrite getz_repeat by lia. cbn [bind]. f_equal. ring.
Qed.

(* derivatives of a constant table and of the table of a line *)
Lemma slopes1_line : forall h b m a c, 0 < h -> slopes1 h (map (fun t => a * t + c) (uniform b h m)) = repeat a (m - 1).
Proof.
  intros h b m a c H. apply at_ext; [rewrite slopes1_length, map_length, uniform_length, repeat_length; reflexivity|].
  intros i Hi. rewrite slopes1_length, map_length, uniform_length in Hi. rewrite repeat_at by lia.
  rewrite slopes1_at by (rewrite map_length, uniform_length; lia). unfold at_.
  rewrite !(nth_indep _ 0 ((fun t => a * t + c) 0)) by (rewrite map_length, uniform_length; lia). rewrite !(map_nth (fun t => a * t + c)).
  fold (at_ (uniform b h m) (S i)). fold (at_ (uniform b h m) i). rewrite !uniform_at by lia. rewrite S_INR. field. lra.
Qed.
Lemma repeat_line : forall b h m c, repeat c m = map (fun t => 0 * t + c) (uniform b h m).
Proof. intros. rewrite (map_const _ _ c), uniform_length; [reflexivity|]. intros t _. ring. Qed.
Lemma derivatives_line : forall eps h x0 num j b m fo a c, 0 <= eps -> 0 < h -> 1 < h * 10 ^ 7 -> x0 <> [] -> (2 + num <= m)%nat -> (j + num <= 4)%nat ->
  fo = map (fun t => a * t + c) (uniform b h m) ->
  (forall t, In t x0 -> b - INR j * h / 2 <= t <= b + (INR m - 1) * h + INR j * h / 2) ->
  derivatives eps h num (uniform b h m) fo x0 = Ok (map (fun k => map (fun _ => if (k =? 0)%nat then a else 0) x0) (seq 0 num)).
Proof.
  intros eps h x0 num. induction num as [|num IH]; intros j b m fo a c E H K N0 N J F C; [reflexivity|].
  cbn [derivatives]. rewrite midpoints_uniform. fold (slopes1 h fo). rewrite F, slopes1_line by exact H.
  assert (M1 : INR (m - 1) = INR m - 1) by (rewrite minus_INR by lia; reflexivity).
  assert (J3 : INR j <= 3) by (replace 3 with (INR 3) by (cbn; lra); apply le_INR; lia).
  assert (JJ : INR j * h <= 3 * h) by (apply Rmult_le_compat_r; lra).
  rewrite tranproc0_constant; auto; [|lia|intros t Ht; specialize (C t Ht); rewrite M1; lra]. cbn [bind].
  rewrite (IH (S j) (b + h / 2) (m - 1)%nat (repeat a (m - 1)) 0 a E H K N0 ltac:(lia) ltac:(lia)).
  - cbn [bind]. f_equal. cbn [seq map]. f_equal. rewrite <- seq_shift, map_map. apply map_ext. intros k. destruct (k =? 0)%nat; reflexivity.
  - apply repeat_line.
  - intros t Ht. specialize (C t Ht). rewrite M1, S_INR. lra.
Qed.
Lemma tranproc_line_derivatives : forall eps b h n a c x0 xi, 0 <= eps -> 0 < h -> x0 <> [] -> (1 <= length xi <= 4)%nat -> (length xi + 2 <= n)%nat ->
  (forall l, In l xi -> length l = length x0) -> 1 < h * Rpower 10 (7 / INR (length xi)) -> covers (uniform b h n) x0 ->
  tranproc eps (uniform b h n) (map (fun t => a * t + c) (uniform b h n)) x0 xi = Ok (map (fun t => a * t + c) x0 :: map (map (fun v => a * v)) xi).
Proof.
  intros eps b h n a c x0 xi E H N0 ND N LX K Cx. set (nd := length xi) in *. set (x := uniform b h n) in *. set (f := map (fun t => a * t + c) x).
  assert (Nd : 1 <= INR nd) by (apply (le_INR 1); lia). assert (N1 : 1 < INR n - 1) by (assert (2 < INR n) by (apply (lt_INR 2); lia); lra).
  assert (K7 : Rpower 10 (7 / INR nd) <= 10 ^ 7).
  { replace (10 ^ 7) with (Rpower 10 (INR 7)) by (apply Rpower_pow; lra). apply Rle_Rpower; [lra|]. replace (INR 7) with 7 by (rewrite (INR_IZR_INZ 7); reflexivity).
    apply Rmult_le_reg_r with (INR nd); [lra|]. unfold Rdiv. rewrite Rmult_assoc, Rinv_l by lra. lra. }
  assert (K' : 1 < h * 10 ^ 7) by (apply Rlt_le_trans with (1 := K); apply Rmult_le_compat_l; lra).
  assert (Lx : length x = n) by apply uniform_length. assert (Lf : length f = n) by (unfold f; rewrite map_length; exact Lx). assert (Ix : increasing x) by (apply uniform_increasing; exact H).
  assert (X0 : at_ x 0 = b) by (unfold x; rewrite uniform_at by lia; cbn [INR]; ring).
  assert (X1 : at_ x (n - 1) = b + (INR n - 1) * h) by (unfold x; rewrite uniform_at by lia; rewrite minus_INR by lia; cbn [INR]; ring).
  assert (Kc : coarse nd x). { unfold coarse. rewrite Lx, X0, X1. replace (Nat.max nd 1) with nd by lia.
    replace (b + (INR n - 1) * h - b) with ((INR n - 1) * h) by ring. rewrite Rmult_assoc. rewrite <- (Rmult_1_r (INR n - 1)) at 1. apply Rmult_lt_compat_l; lra. }
  assert (SD : spacing_differs eps x = false) by (apply uniform_spacing; auto).
  destruct (values_inside eps nd x f x0 Ix ltac:(lia) ltac:(lia) N0 Cx Kc) as (g & G & _ & _ & _ & Gx & y & Y & P). specialize (Gx SD). subst g. cbn [fst snd] in *.
  assert (Yt : map y x0 = map (fun t => a * t + c) x0).
  { apply map_ext_in. intros t Ht. specialize (P t Ht). unfold good_values in P. rewrite SD in P. unfold scaled in P. rewrite Lx, X0, X1 in P.
    apply (interpolated_line x f a c t (y t) Ix ltac:(lia)).
    - intros i Hi. unfold f, at_. rewrite (nth_indep _ 0 ((fun t => a * t + c) 0)) by (rewrite map_length; exact Hi). rewrite (map_nth (fun t => a * t + c)). reflexivity.
    - apply positioned_interpolated; auto; [lia|]. replace ((t - b) / h) with ((INR n - 1) * (t - b) / (b + (INR n - 1) * h - b)) by (field; split; [lra|]; replace (b + (INR n - 1) * h - b) with ((INR n - 1) * h) by ring; nra). exact P. }
  unfold tranproc. fold nd. rewrite G. cbn [bind fst snd]. rewrite Y, Yt. cbn [bind]. replace (Nat.min nd 4) with nd by lia.
  destruct (nd =? 0)%nat eqn:Z; [apply Nat.eqb_eq in Z; lia|]. clear Z.
  assert (HN : at_R x 1 - at_R x 0 = h). { change (at_ x 1 - at_ x 0 = h). unfold x. rewrite !uniform_at by lia. cbn [INR]. ring. }
  rewrite HN. unfold x at 1. rewrite (derivatives_line eps h x0 nd 0 b n f a c E H K' N0 ltac:(lia) ltac:(lia) eq_refl).
  2:{ pose proof (proj1 (covers_uniform b h n x0 ltac:(lia)) Cx) as Cy. intros t Ht. specialize (Cy t Ht). cbn [INR]. lra. }
  cbn [bind].
  replace (forallb _ (firstn nd xi)) with true.
  2:{ symmetry. apply forallb_forall. intros l Hl. apply Nat.eqb_eq. apply LX. unfold nd in Hl. rewrite firstn_all in Hl. exact Hl. }
  f_equal. f_equal. apply (nth_ext _ _ [] []); [rewrite !map_length, seq_length; reflexivity|].
  intros k Hk. rewrite map_length, seq_length in Hk. set (F := fun k => map (der (map (fun k => map (fun _ => if (k =? 0)%nat then a else 0) x0) (seq 0 nd)) xi k) (seq 0 (length x0))).
  rewrite (nth_indep _ [] (F 0%nat)) by (rewrite map_length, seq_length; lia). rewrite map_nth, seq_nth by lia. cbn [plus]. unfold F.
  change (@nil R) with (map (fun v => a * v) []). rewrite map_nth. assert (Lk : length (nth k xi []) = length x0) by (apply LX, nth_In; unfold nd in Hk; exact Hk).
  apply (nth_ext _ _ 0 0); [rewrite !map_length, seq_length; symmetry; exact Lk|].
  intros i Hi. rewrite map_length, seq_length in Hi.
  set (fx := map (fun k => map (fun _ => if (k =? 0)%nat then a else 0) x0) (seq 0 nd)).
  rewrite (nth_indep _ 0 (der fx xi k 0%nat)) by (rewrite map_length, seq_length; lia). rewrite map_nth, seq_nth by lia. cbn [plus].
  rewrite (nth_indep _ 0 ((fun v => a * v) 0)) by (rewrite map_length; lia). rewrite (map_nth (fun v => a * v)). change (der fx xi k i = a * entry xi k i).
  assert (EF : forall j, (j <= k)%nat -> entry fx j i = if (j =? 0)%nat then a else 0) by (intros j Hj; unfold fx; rewrite entry_map by lia; reflexivity).
  destruct k as [|[|[|[|k]]]]; [| | | |lia]; unfold der, der_1, der_2, der_3, der_4; rewrite !EF by lia; cbn [Nat.eqb]; ring.
Qed.
