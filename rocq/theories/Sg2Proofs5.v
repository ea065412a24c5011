From Coq Require Import Reals List Lra Lia Bool Arith.
From Verif Require Import Base ArSpec ArProofs2 CsimProofs PolySpec Sg2Model Sg2Spec Sg2Proofs Sg2Proofs2 Sg2Proofs3 Sg2Proofs4.
Import ListNotations.
Local Open Scope R_scope.
Set Bullet Behavior "Strict Subproofs".

(* ---- planes ---- *)
Definition plane_coef (p0 p1 p2 : R) (u v : nat) : R := match u, v with O, O => p0 | S O, O => p1 | O, S O => p2 | _, _ => 0 end.
Lemma surface_plane order p0 p1 p2 x y : (1 <= order)%nat -> surface order (plane_coef p0 p1 p2) x y = p0 + p1 * x + p2 * y.
Proof.
  induction order as [|order IH]; intros H; [lia|]. destruct order as [|order]; [cbn; ring|].
  change (surface (S order) (plane_coef p0 p1 p2) x y + sum_to (S (S order) + 1) (fun n => plane_coef p0 p1 p2 (S (S order) - n) n * x ^ (S (S order) - n) * y ^ n) = p0 + p1 * x + p2 * y).
  rewrite IH by lia. rewrite (sum_ext _ _ (fun _ => 0)); [rewrite sum_0; ring|]. intros n Hn.
  assert (E : plane_coef p0 p1 p2 (S (S order) - n) n = 0).
  { destruct n as [|[|n]]; [reflexivity| |]; [replace (S (S order) - 1)%nat with (S order) by lia; destruct order; reflexivity|]. unfold plane_coef. destruct (S (S order) - S (S n))%nat as [|[|k]]; reflexivity. }
  rewrite E. ring.
Qed.
Lemma surface_const order p0 x y : surface order (plane_coef p0 0 0) x y = p0.
Proof. destruct order; [cbn; ring|]. rewrite surface_plane by lia. ring. Qed.
Ltac inr := rewrite ?minus_INR, ?plus_INR by lia.
Lemma right_plane z a b c r q : plane (px z) a b c -> 0 <= c -> (q + 2 <= cols z)%nat -> right z r q = a + b * INR r + c * INR (cols z + q).
Proof.
  intros P Hc Hq. unfold right. cbv zeta. rewrite !P. replace (cols z - 2 - q)%nat with (cols z - 1 - (q + 1))%nat by lia.
  replace (a + b * INR r + c * INR (cols z - 1 - (q + 1)) - (a + b * INR r + c * INR (cols z - 1))) with (- (c * INR (q + 1))) by (rewrite (minus_INR (cols z - 1)) by lia; ring).
  rewrite Rabs_Ropp, Rabs_pos_eq by (apply Rmult_le_pos; [exact Hc|apply pos_INR]). inr. cbn. ring.
Qed.
Lemma bottom_plane z a b c p k : plane (px z) a b c -> 0 <= b -> (p + 2 <= rows z)%nat -> bottom z p k = a + b * INR (rows z + p) + c * INR k.
Proof.
  intros P Hb Hp. unfold bottom. cbv zeta. rewrite !P. replace (rows z - 2 - p)%nat with (rows z - 1 - (p + 1))%nat by lia.
  replace (a + b * INR (rows z - 1 - (p + 1)) + c * INR k - (a + b * INR (rows z - 1) + c * INR k)) with (- (b * INR (p + 1))) by (rewrite (minus_INR (rows z - 1)) by lia; ring).
  rewrite Rabs_Ropp, Rabs_pos_eq by (apply Rmult_le_pos; [exact Hb|apply pos_INR]). inr. cbn. ring.
Qed.
Lemma plane_pad z s a b c i j : plane (px z) a b c -> 0 <= b -> 0 <= c -> (s < rows z)%nat -> (s < cols z)%nat -> (i < rows z + 2 * s)%nat -> (j < cols z + 2 * s)%nat ->
  pad z s i j = a + b * (INR i - INR s) + c * (INR j - INR s).
Proof.
  intros P Hb Hc Sr Sc Hi Hj.
  assert (PB : forall n, 0 <= b * INR n) by (intros; apply Rmult_le_pos; [exact Hb|apply pos_INR]). assert (PC : forall n, 0 <= c * INR n) by (intros; apply Rmult_le_pos; [exact Hc|apply pos_INR]).
  unfold pad. cbv zeta. destruct (Nat.ltb_spec i s) as [I1|I1].
  - destruct (Nat.ltb_spec j s) as [J1|J1].
    + rewrite !P. replace (a + b * INR (s - i) + c * INR (s - j) - (a + b * INR 0 + c * INR 0)) with (b * INR (s - i) + c * INR (s - j)) by (cbn; ring).
      rewrite Rabs_pos_eq by (pose proof (PB (s - i)%nat); pose proof (PC (s - j)%nat); lra). inr. cbn. ring.
    + destruct (Nat.ltb_spec j (s + cols z)) as [J2|J2].
      * unfold top. rewrite !P. replace (a + b * INR (s - i) + c * INR (j - s) - (a + b * INR 0 + c * INR (j - s))) with (b * INR (s - i)) by (cbn; ring). rewrite Rabs_pos_eq by apply PB. inr. cbn. ring.
      * rewrite !(right_plane z a b c) by (exact P || exact Hc || lia). match goal with |- context [Rabs ?e] => replace e with (b * INR (s - i)) by (cbn; ring) end. rewrite Rabs_pos_eq by apply PB. replace (cols z + (j - s - cols z))%nat with (j - s)%nat by lia. inr. cbn. ring.
  - destruct (Nat.ltb_spec i (s + rows z)) as [I2|I2].
    + destruct (Nat.ltb_spec j s) as [J1|J1]; [|destruct (Nat.ltb_spec j (s + cols z)) as [J2|J2]].
      * unfold left. rewrite !P. replace (a + b * INR (i - s) + c * INR (s - j) - (a + b * INR (i - s) + c * INR 0)) with (c * INR (s - j)) by (cbn; ring). rewrite Rabs_pos_eq by apply PC. inr. cbn. ring.
      * rewrite P. inr. ring.
      * rewrite (right_plane z a b c) by (exact P || exact Hc || lia). replace (cols z + (j - s - cols z))%nat with (j - s)%nat by lia. inr. ring.
    + destruct (Nat.ltb_spec j s) as [J1|J1]; [|destruct (Nat.ltb_spec j (s + cols z)) as [J2|J2]].
      * rewrite !(bottom_plane z a b c) by (exact P || exact Hb || lia). match goal with |- context [Rabs ?e] => replace e with (c * INR (s - j)) by (cbn; ring) end. rewrite Rabs_pos_eq by apply PC. replace (rows z + (i - s - rows z))%nat with (i - s)%nat by lia. inr. cbn. ring.
      * rewrite (bottom_plane z a b c) by (exact P || exact Hb || lia). replace (rows z + (i - s - rows z))%nat with (i - s)%nat by lia. inr. ring.
      * rewrite !P. set (p := (i - s - rows z)%nat) in *. set (q := (j - s - cols z)%nat) in *. replace (rows z - 2 - p)%nat with (rows z - 1 - (p + 1))%nat by (unfold p; lia). replace (cols z - 2 - q)%nat with (cols z - 1 - (q + 1))%nat by (unfold q; lia).
        match goal with |- context [Rabs ?e] => replace e with (- (b * INR (p + 1) + c * INR (q + 1))) by (rewrite (minus_INR (rows z - 1)), (minus_INR (cols z - 1)) by (unfold p, q; lia); ring) end.
        rewrite Rabs_Ropp, Rabs_pos_eq by (pose proof (PB (p + 1)%nat); pose proof (PC (q + 1)%nat); lra).
        replace (INR i) with (INR s + INR (rows z) + INR p) by (unfold p; inr; ring). replace (INR j) with (INR s + INR (cols z) + INR q) by (unfold q; inr; ring). inr. cbn. ring.
Qed.
Lemma plane_padded z s order a b c i j : plane (px z) a b c -> 0 <= b -> 0 <= c -> (1 <= order)%nat \/ b = 0 /\ c = 0 -> (s < rows z)%nat -> (s < cols z)%nat -> (i < rows z)%nat -> (j < cols z)%nat ->
  padded z s i j order (plane_coef (px z i j) b c).
Proof.
  intros P Hb Hc O Sr Sc Hi Hj k l Hk Hl. rewrite (plane_pad z s a b c) by (assumption || lia). rewrite P, !plus_INR. destruct O as [O|[-> ->]].
  - rewrite surface_plane by exact O. ring.
  - rewrite surface_const. ring.
Qed.
(* rising planes are kept up to the border *)
Lemma rising_plane pinv z w order out a b c : is_inverse pinv -> (1 <= order)%nat -> plane (px z) a b c -> 0 <= b -> 0 <= c -> sgolay2d pinv z w order NoDeriv = Ok out ->
  exists y, out = [y] /\ forall i j, (i < rows z)%nat -> (j < cols z)%nat -> px y i j = px z i j.
Proof.
  intros MP O P Hb Hc H. pose proof (call_spec _ _ _ _ _ _ H) as K. cbv zeta in K. destruct K as (_ & _ & Sr & Sc & _ & _ & E). cbn [map] in E. subst out. eexists. split; [reflexivity|]. intros i j Hi Hj.
  destruct (smooth_value pinv z w order _ i j _ MP H (plane_padded z (w / 2) order a b c i j P Hb Hc (or_introl O) Sr Sc Hi Hj)) as [y [E V]]. injection E as <-. exact V.
Qed.
Lemma rising_slopes pinv z w order out a b c : is_inverse pinv -> (order < w)%nat -> plane (px z) a b c -> 0 <= b -> 0 <= c -> sgolay2d pinv z w order Both = Ok out ->
  exists y y', out = [y; y'] /\ forall i j, (i < rows z)%nat -> (j < cols z)%nat -> px y i j = b /\ px y' i j = c.
Proof.
  intros MP O P Hb Hc H. pose proof (call_spec _ _ _ _ _ _ H) as K. cbv zeta in K. destruct K as (_ & _ & Sr & Sc & _ & _ & E). cbn [map] in E. subst out. eexists. eexists. split; [reflexivity|]. intros i j Hi Hj.
  pose proof (deriv_order _ _ _ _ _ _ H ltac:(discriminate)) as O1.
  pose proof (slope_value pinv z w order Both _ i j _ MP O H (plane_padded z (w / 2) order a b c i j P Hb Hc (or_introl O1) Sr Sc Hi Hj) ltac:(discriminate)) as E. cbn [map] in E. injection E as E1 E2. split; assumption.
Qed.
(* constant images *)
Lemma constant_kept pinv z w order out a : is_inverse pinv -> (forall i j, px z i j = a) -> sgolay2d pinv z w order NoDeriv = Ok out ->
  exists y, out = [y] /\ forall i j, (i < rows z)%nat -> (j < cols z)%nat -> px y i j = a.
Proof.
  intros MP P H. pose proof (call_spec _ _ _ _ _ _ H) as K. cbv zeta in K. destruct K as (_ & _ & Sr & Sc & _ & _ & E). cbn [map] in E. subst out. eexists. split; [reflexivity|]. intros i j Hi Hj.
  assert (P' : plane (px z) a 0 0) by (intros i' j'; rewrite P; ring).
  destruct (smooth_value pinv z w order _ i j _ MP H (plane_padded z (w / 2) order a 0 0 i j P' (Rle_refl 0) (Rle_refl 0) (or_intror (conj eq_refl eq_refl)) Sr Sc Hi Hj)) as [y [E V]]. injection E as <-. transitivity (px z i j); [exact V|apply P].
Qed.

(* ---- degrees as large as the window ---- *)
Lemma product_coefs roots : exists f : nat -> R, forall x, sum_to (List.length roots + 1) (fun u => f u * x ^ u) = fold_right (fun r t => (x - r) * t) 1 roots.
Proof.
  induction roots as [|r roots [f F]]; [exists (fun _ => 1); intros x; cbn; ring|].
  exists (fun u => (match u with O => 0 | S k => f k end) - r * (if (u <=? List.length roots)%nat then f u else 0)). intros x. cbn [fold_right List.length]. rewrite <- F. set (n := (List.length roots + 1)%nat).
  replace (S (List.length roots) + 1)%nat with (S n) by (unfold n; lia).
  rewrite (sum_ext (S n) _ (fun u => (match u with O => 0 | S k => f k end) * x ^ u - r * ((if (u <=? List.length roots)%nat then f u else 0) * x ^ u))) by (intros; ring).
  rewrite sum_minus, sum_scal. rewrite Rmult_minus_distr_r. f_equal.
  - rewrite (sum_first (S n)) by lia. replace (S n - 1)%nat with n by lia. rewrite Rmult_0_l, Rplus_0_l, <- sum_scal. apply sum_ext. intros. cbn [pow]. ring.
  - f_equal. cbn [sum_to]. replace (n <=? List.length roots)%nat with false by (symmetry; apply Nat.leb_gt; unfold n; lia). rewrite Rmult_0_l, Rplus_0_r. apply sum_ext. intros u Hu. replace (u <=? List.length roots)%nat with true by (symmetry; apply Nat.leb_le; unfold n in Hu; lia). reflexivity.
Qed.
Lemma product_nonzero roots x : (forall r, In r roots -> x <> r) -> fold_right (fun r t => (x - r) * t) 1 roots <> 0.
Proof. induction roots as [|r roots IH]; cbn; intros H; [lra|]. apply Rmult_integral_contrapositive_currified; [pose proof (H r (or_introl eq_refl)); lra|]. apply IH. intros. apply H. now right. Qed.
Lemma product_zero roots x : In x roots -> fold_right (fun r t => (x - r) * t) 1 roots = 0.
Proof. induction roots as [|r roots IH]; cbn; intros H; [contradiction|]. destruct H as [->|H]; [rewrite Rminus_diag_eq by reflexivity; ring|rewrite IH by exact H; ring]. Qed.
(* a polynomial in x of degree w that vanishes on the window and has a linear term *)
Lemma window_polynomial s : exists f : nat -> R, f 1%nat <> 0 /\ forall a, (a < 2 * s + 1)%nat -> sum_to (2 * s + 2) (fun u => f u * (INR a - INR s) ^ u) = 0.
Proof.
  set (roots := map (fun a => INR a - INR s) (filter (fun a => negb (a =? s)%nat) (seq 0 (2 * s + 1)))).
  assert (L : List.length roots = (2 * s)%nat).
  { unfold roots. rewrite map_length. replace (seq 0 (2 * s + 1)) with (seq 0 s ++ [s] ++ seq (s + 1) s).
    - rewrite !filter_app, !app_length. cbn [filter List.length]. rewrite Nat.eqb_refl. cbn [negb List.length].
      assert (F : forall l, (forall a, In a l -> a <> s) -> List.length (filter (fun a => negb (a =? s)%nat) l) = List.length l).
      { induction l as [|a l IH]; intros N; [reflexivity|]. cbn. destruct (Nat.eqb_spec a s) as [E|E]; [exfalso; exact (N a (or_introl eq_refl) E)|]. cbn. f_equal. apply IH. intros. apply N. now right. }
      rewrite !F, !seq_length; [lia| |]; intros a Ha; apply in_seq in Ha; lia.
    - replace (2 * s + 1)%nat with (s + (1 + s))%nat by lia. rewrite seq_app. f_equal. cbn [Nat.add]. replace (s + 1)%nat with (S s) by lia. reflexivity. }
  destruct (product_coefs roots) as [f F]. rewrite L in F. exists (fun u => match u with O => 0 | S k => f k end). split.
  - assert (F0 : f 0%nat = fold_right (fun r t => (0 - r) * t) 1 roots).
    { rewrite <- F. rewrite (sum_first (2 * s + 1)) by lia. rewrite (sum_ext _ _ (fun _ => 0)) by (intros; cbn [pow]; ring). rewrite sum_0. cbn [pow]. ring. }
    rewrite F0. apply product_nonzero. intros r Hr. apply in_map_iff in Hr. destruct Hr as [a [<- Ha]]. apply filter_In in Ha. destruct Ha as [_ Ha]. apply negb_true_iff, Nat.eqb_neq in Ha. intros E. apply Ha. apply INR_eq. lra.
  - intros a Ha. rewrite (sum_first (2 * s + 2)) by lia. rewrite Rmult_0_l, Rplus_0_l. replace (2 * s + 2 - 1)%nat with (2 * s + 1)%nat by lia.
    rewrite (sum_ext _ _ (fun u => (INR a - INR s) * (f u * (INR a - INR s) ^ u))) by (intros; cbn [pow]; ring). rewrite sum_scal, F.
    destruct (Nat.eq_dec a s) as [->|N]; [rewrite Rminus_diag_eq by reflexivity; ring|]. rewrite product_zero; [ring|]. unfold roots. apply in_map_iff. exists a. split; [reflexivity|]. apply filter_In. split; [apply in_seq; lia|]. apply negb_true_iff, Nat.eqb_neq. exact N.
Qed.
Lemma sum_embed d h : sum_over (exps d) (fun e => if (snd e =? 0)%nat then h (fst e) else 0) = sum_to (d + 1) h.
Proof.
  induction d as [|d IH].
  - unfold exps, sum_over. cbn. ring.
  - rewrite exps_S, over_app, over_map, IH. rewrite (sum_pick (S d + 1) 0); [|lia|intros i Hi Ni; cbn [snd]; destruct (Nat.eqb_spec i 0); [contradiction|reflexivity]].
    cbn [fst snd Nat.eqb]. rewrite Nat.sub_0_r. replace (S d + 1)%nat with (S (d + 1)) by lia. cbn [sum_to]. do 2 f_equal; lia.
Qed.
Lemma sum_cut n m g : (n <= m)%nat -> sum_to m (fun u => if (u <? n)%nat then g u else 0) = sum_to n g.
Proof.
  intros H. replace m with (n + (m - n))%nat by lia. rewrite sum_split. rewrite (sum_ext (m - n) _ (fun _ => 0)), sum_0.
  - rewrite Rplus_0_r. apply sum_ext. intros u Hu. apply Nat.ltb_lt in Hu. now rewrite Hu.
  - intros u _. destruct (Nat.ltb_spec (n + u) n); [lia|reflexivity].
Qed.
Lemma high_entry s order P : let w := (2 * s + 1)%nat in let q := List.length (exps order) in (w <= order)%nat -> moore_penrose (w * w) q (design w s order) P -> times (w * w) P (design w s order) 1 1 <> 1.
Proof.
  intros w q Ho MP E11. destruct (window_polynomial s) as [f [F1 F]]. set (A := design w s order) in *. set (M := times (w * w) P A) in *.
  assert (O1 : (1 <= order)%nat) by (unfold w in Ho; lia).
  assert (L1 : (1 < q)%nat) by (unfold q; destruct (exps_prefix order O1) as [L ->]; cbn; lia). destruct (exps_12 order L1) as (E1 & _).
  set (v := fun l => let e := nth l (exps order) (0, 0)%nat in if (snd e =? 0)%nat then (if (fst e <? 2 * s + 2)%nat then f (fst e) else 0) else 0).
  assert (Av : forall r, (r < w * w)%nat -> sum_to q (fun l => A r l * v l) = 0).
  { intros r Hr. rewrite <- (F (r / w)%nat) by (fold w; apply Nat.div_lt_upper_bound; unfold w in *; lia).
    rewrite <- (sum_cut (2 * s + 2) (order + 1)) by (unfold w in Ho; lia). rewrite <- sum_embed. unfold sum_over. fold q. apply sum_ext. intros l Hl. unfold v, A, design. cbv zeta.
    destruct (Nat.eqb_spec (snd (nth l (exps order) (0, 0)%nat)) 0) as [Z|Z]; [|ring]. rewrite Z. destruct (fst (nth l (exps order) (0, 0)%nat) <? 2 * s + 2)%nat; cbn [pow]; ring. }
  (* M v = 0 *)
  assert (Mv : forall k, sum_to q (fun l => M k l * v l) = 0).
  { intros k. unfold M, times. rewrite (sum_ext q _ (fun l => sum_to (w * w) (fun r => P k r * (A r l * v l)))) by (intros; rewrite <- sum_scal_r; apply sum_ext; intros; ring).
    rewrite sum_swap. rewrite (sum_ext _ _ (fun _ => 0)); [apply sum_0|]. intros r Hr. rewrite sum_scal, (Av r Hr). ring. }
  (* M is symmetric and M M = M *)
  assert (MM : sum_to q (fun k => M 1%nat k * M k 1%nat) = M 1%nat 1%nat).
  { unfold M at 2. unfold times. rewrite (sum_ext q _ (fun k => sum_to (w * w) (fun r => M 1%nat k * P k r * A r 1%nat))) by (intros; rewrite <- sum_scal; apply sum_ext; intros; ring).
    rewrite sum_swap. unfold M at 2. unfold times. apply sum_ext. intros r Hr. rewrite sum_scal_r. f_equal. destruct MP as (_ & H2 & _ & _). exact (H2 1%nat r L1 Hr). }
  assert (Z : forall k, (k < q)%nat -> k <> 1%nat -> M 1%nat k = 0).
  { assert (S0 : sum_to q (fun k => (M 1%nat k - unit_m k 1) * (M 1%nat k - unit_m k 1)) = 0).
    { rewrite (sum_ext q _ (fun k => M 1%nat k * M k 1%nat - unit_m k 1 * (2 * M 1%nat k - unit_m k 1))).
      - rewrite sum_minus, MM, sum_unit by exact L1. rewrite unit_same, E11. ring.
      - intros k Hk. destruct MP as (_ & _ & _ & H4). rewrite (H4 k 1%nat Hk L1 : M k 1%nat = M 1%nat k). ring. }
    intros k Hk N. pose proof (sum_squares0 q (fun k => M 1%nat k - unit_m k 1) S0 k Hk) as K. cbn beta in K. rewrite unit_other in K by exact N. lra. }
  pose proof (Mv 1%nat) as K. rewrite (sum_pick q 1) in K; [|exact L1|intros i Hi N; rewrite (Z i Hi N); ring].
  rewrite E11 in K. unfold v in K. rewrite E1 in K. cbn [fst snd Nat.eqb] in K. replace (1 <? 2 * s + 2)%nat with true in K by (symmetry; apply Nat.ltb_lt; lia). lra.
Qed.
Lemma high_order pinv z w order out i j : is_inverse pinv -> (w <= order)%nat -> plane (px z) 0 1 0 -> sgolay2d pinv z w order Col = Ok out -> (i < rows z)%nat -> (j < cols z)%nat ->
  exists y, out = [y] /\ px y i j <> 1.
Proof.
  intros MP Ho P H Hi Hj. pose proof (deriv_order _ _ _ _ _ _ H ltac:(discriminate)) as O1. apply call_spec in H. cbv zeta in H. remember (w / 2)%nat as s eqn:Es. destruct H as (Ew & Hs & Sr & Sc & _ & Hd & ->). eexists. split; [reflexivity|]. clear Es. subst w.
  rewrite (filter_surface z s order _ i j (fun r => _) (plane_padded z s order 0 1 0 i j P Rle_0_1 (Rle_refl 0) (or_introl O1) Sr Sc Hi Hj)).
  assert (L1 : (1 < List.length (exps order))%nat) by (apply Hd; now left). destruct (exps_12 order L1) as (E1 & E2 & L2 & _). destruct (exps_0 order) as [E0 L0].
  pose proof (MP ((2 * s + 1) * (2 * s + 1))%nat (List.length (exps order)) (design (2 * s + 1) s order)) as Q. set (Pm := pinv _ _ _) in *.
  assert (M10 : times ((2 * s + 1) * (2 * s + 1)) Pm (design (2 * s + 1) s order) 1 0 = 0).
  { pose proof Q as (_ & _ & _ & Q4). rewrite (Q4 1%nat 0%nat L1 L0). rewrite (row_zero s order Pm 1 Q L1). reflexivity. }
  rewrite (sum_pick _ 1); [|exact L1|].
  - rewrite kernel_sum. unfold flipped. rewrite E1. cbn [fst snd Nat.add plane_coef pow]. pose proof (high_entry s order Pm Ho Q). lra.
  - intros l Hl N. rewrite kernel_sum. destruct (Nat.eq_dec l 0) as [->|N0]; [rewrite M10; ring|]. unfold flipped. cbv zeta. destruct (nth l (exps order) (0, 0)%nat) as [u v] eqn:E. cbn [fst snd].
    assert (Z : plane_coef (px z i j) 1 0 u v = 0); [|rewrite Z; ring]. destruct u as [|[|u]]; destruct v as [|[|v]]; try reflexivity; exfalso.
    + apply N0. apply (exps_nth_inj order); auto. congruence.
    + apply N. apply (exps_nth_inj order); auto. congruence.
Qed.
