From Coq Require Import Reals Lra Lia Psatz Permutation.
From Coquelicot Require Import Coquelicot.
From Verif Require Import Base PolyModel FilterModel GridModel WaveModel KdeModel ProcModel ProcSpec ProcProofs.
Local Open Scope R_scope.

(* ---- np.interp ---- *)
Lemma interp_step : forall x0 x1 x f0 f1 f t, interp (x0 :: x1 :: x) (f0 :: f1 :: f) t =
  if Rle_dec t x0 then f0 else if Rle_dec t x1 then f0 + (f1 - f0) / (x1 - x0) * (t - x0) else interp (x1 :: x) (f1 :: f) t.
Proof. reflexivity. Qed.
Lemma interp_spec : forall x f t, increasing x -> length f = length x -> (2 <= length x)%nat -> at_ x 0 <= t <= at_ x (length x - 1) ->
  interpolated x f t (interp x f t).
Proof.
  induction x as [|x0 x IH]; intros f t H L N B; [cbn in N; lia|].
  destruct x as [|x1 x]; [cbn in N; lia|]. destruct f as [|f0 [|f1 f]]; try discriminate L.
  rewrite interp_step. pose proof (H 0%nat ltac:(cbn [length]; lia)) as H0. unfold at_ in H0. cbn [nth] in H0.
  unfold at_ in B at 1. cbn [nth] in B.
  destruct (Rle_dec t x0) as [T|T].
  { exists 0%nat. split; [cbn [length]; lia|]. unfold at_. cbn [nth]. split; [lra|]. replace t with x0 by lra. field. lra. }
  destruct (Rle_dec t x1) as [T1|T1].
  { exists 0%nat. split; [cbn [length]; lia|]. unfold at_. cbn [nth]. split; [lra|]. field. lra. }
  destruct x as [|x2 x]. { exfalso. unfold at_ in B. cbn in B. lra. }
  destruct (IH (f1 :: f) t (increasing_tl _ _ H) ltac:(cbn [length] in *; lia) ltac:(cbn [length]; lia)) as (i & Hi & A & E).
  { split; [unfold at_; cbn [nth]; lra|]. destruct B as [_ B]. exact B. }
  exists (S i). split; [cbn [length] in *; lia|]. split; [exact A|]. exact E.
Qed.

(* ---- linear interpolation by position ---- *)
Definition positioned (fo : list R) (u y : R) : Prop :=
  exists i, (S i < length fo)%nat /\ INR i <= u <= INR i + 1 /\ y = at_ fo i + (at_ fo (S i) - at_ fo i) * (u - INR i).
Lemma by_position_spec : forall n fo u, (n <= length fo)%nat -> (2 <= n)%nat -> 0 <= u <= INR n - 1 ->
  exists y, by_position n fo u = Ok y /\ positioned fo u y.
Proof.
  intros n fo u L N B. pose proof (floor_spec u) as F. unfold by_position.
  assert (K0 : (-1 < floor u)%Z) by (apply lt_IZR; lra).
  assert (K1 : (floor u < Z.of_nat n)%Z) by (apply lt_IZR; rewrite <- INR_IZR_INZ; lra).
  set (fi := if (floor u =? Z.of_nat n - 1)%Z then (floor u - 1)%Z else floor u).
  assert (P : (0 <= fi)%Z /\ (fi + 1 < Z.of_nat n)%Z /\ IZR fi <= u <= IZR fi + 1).
  { unfold fi. destruct (Z.eqb_spec (floor u) (Z.of_nat n - 1)) as [E|E].
    - split; [lia|]. split; [lia|]. rewrite E in F. rewrite E. rewrite !minus_IZR in *. rewrite <- INR_IZR_INZ in *. lra.
    - split; [lia|]. split; [lia|]. lra. }
  destruct P as (P0 & P1 & P2).
  rewrite (getz_nth fo fi P0) by lia. cbn [bind]. rewrite (getz_nth fo (fi + 1)) by lia. cbn [bind].
  eexists. split; [reflexivity|]. exists (Z.to_nat fi). split; [lia|].
  rewrite !INR_IZR_INZ, !Z2Nat.id by lia. split; [exact P2|].
  replace (Z.to_nat (fi + 1)) with (S (Z.to_nat fi)) by lia. reflexivity.
Qed.
Lemma positioned_unique : forall fo u y y', positioned fo u y -> positioned fo u y' -> y = y'.
Proof.
  intros fo u y y' (i & Hi & A & E) (j & Hj & B & E'). subst.
  destruct (Nat.lt_trichotomy i j) as [C|[C|C]].
  - assert (INR i + 1 <= INR j) by (rewrite <- S_INR; apply le_INR; lia).
    assert (INR j = INR (S i)) as Q by (rewrite S_INR; lra). apply INR_eq in Q. subst j. rewrite S_INR in *. replace u with (INR i + 1) by lra. ring.
  - subst. reflexivity.
  - assert (INR j + 1 <= INR i) by (rewrite <- S_INR; apply le_INR; lia).
    assert (INR i = INR (S j)) as Q by (rewrite S_INR; lra). apply INR_eq in Q. subst i. rewrite S_INR in *. replace u with (INR j + 1) by lra. ring.
Qed.

Lemma mapM_ok : forall {A B} (f : A -> res B) (g : A -> B) l, (forall a, In a l -> f a = Ok (g a)) -> mapM f l = Ok (map g l).
Proof. intros A B f g l. induction l as [|a l IH]; intros H; auto. cbn [mapM map]. rewrite (H a) by (left; reflexivity). cbn [bind]. rewrite IH by (intros b Hb; apply H; right; exact Hb). reflexivity. Qed.

(* ---- the good transformation, for points inside the table ---- *)
Definition grid (x : list R) : list R :=
  let n := length x in uniform (at_ x 0) ((at_ x (n - 1) - at_ x 0) / (INR n - 1)) n.

Lemma covers_bounds : forall x x0, covers x x0 -> x0 <> [] -> at_ x 0 <= minR x0 /\ maxR x0 <= at_ x (length x - 1).
Proof.
  intros x x0 C N. destruct (minR_spec x0 N) as [A _]. destruct (maxR_spec x0 N) as [B _]. split; [apply (C _ A)|apply (C _ B)].
Qed.
Lemma nmax_coarse : forall nd x, increasing x -> x <> [] -> coarse nd x -> (Z.of_nat (length x) <= nmax nd x)%Z.
Proof.
  intros nd x H N C. unfold nmax. rewrite (minR_increasing x H N), (maxR_increasing x H N). unfold coarse in C.
  match goal with |- (_ <= ceil ?v)%Z => pose proof (ceil_spec v) as Q; set (w := v) in * end.
  assert (Z.of_nat (length x) < ceil w + 1)%Z; [|lia]. apply lt_IZR. rewrite plus_IZR, <- INR_IZR_INZ. lra.
Qed.

Lemma arange_grid : forall a b n, a < b -> (2 <= n)%nat ->
  let d := (b - a) / (INR n - 1) + 2 - 2 in
  arange a (b + d / 2) d = Ok (uniform a ((b - a) / (INR n - 1)) n).
Proof.
  intros a b n H N d. assert (N1 : 1 < INR n) by (apply (lt_INR 1); lia).
  assert (D : d = (b - a) / (INR n - 1)) by (unfold d; ring).
  assert (D0 : 0 < d) by (rewrite D; apply Rdiv_lt_0_compat; lra).
  unfold arange. destruct (Req_EM_T d 0) as [E|E]; [lra|].
  replace ((b + d / 2 - a) / d) with (INR n - 1 + / 2).
  2:{ rewrite D. field. split; lra. }
  replace (ceil (INR n - 1 + / 2)) with (Z.of_nat n).
  2:{ symmetry. apply ceil_unique. rewrite <- INR_IZR_INZ. lra. }
  rewrite Nat2Z.id. rewrite D. reflexivity.
Qed.

Lemma perm_minR : forall l l', Permutation l l' -> l <> [] -> minR l = minR l'.
Proof.
  intros l l' P N. destruct (minR_spec l N) as [A B]. symmetry. apply minR_unique; [apply (Permutation_in _ P A)|].
  intros t Ht. apply B. apply (Permutation_in _ (Permutation_sym P) Ht).
Qed.
Lemma perm_maxR : forall l l', Permutation l l' -> l <> [] -> maxR l = maxR l'.
Proof.
  intros l l' P N. destruct (maxR_spec l N) as [A B]. symmetry. apply maxR_unique; [apply (Permutation_in _ P A)|].
  intros t Ht. apply B. apply (Permutation_in _ (Permutation_sym P) Ht).
Qed.
Lemma good_rows : forall eps nd x f x' f' x0, increasing x -> length f = length x -> length f' = length x' -> (2 <= length x)%nat -> x0 <> [] -> covers x x0 -> coarse nd x ->
  Permutation (combine x f) (combine x' f') ->
  good eps nd x' f' x0 = Ok (if spacing_differs eps x then (grid x, map (interp x f) (grid x)) else (x, f)).
Proof.
  intros eps nd x f x' f' x0 H L L' N N0 C K P. assert (Nx : x <> []) by (destruct x; [cbn in N; lia|discriminate]).
  assert (Px : Permutation x x'). { rewrite <- (map_fst_combine x f), <- (map_fst_combine x' f') by lia. apply Permutation_map. exact P. }
  assert (Lx : length x' = length x) by (symmetry; apply Permutation_length; exact Px).
  assert (D : NoDup (map fst (combine x f))).
  { rewrite map_fst_combine by lia. apply (NoDup_nth x 0). intros i j Hi Hj E. destruct (Nat.lt_trichotomy i j) as [Q|[Q|Q]]; auto;
    [pose proof (increasing_lt x i j H Q Hj)|pose proof (increasing_lt x j i H Q Hi)]; unfold at_ in *; lra. }
  assert (G : good eps nd x' f' x0 = trangood eps x' f' None (Some (minR x0)) (Some (maxR x0)) (Some (nmax nd x))).
  { unfold good. replace (nmax nd x) with (nmax nd x') by (unfold nmax; rewrite (perm_minR x x' Px Nx), (perm_maxR x x' Px Nx); reflexivity).
    destruct x'; [destruct x; [congruence|discriminate Lx]|]. destruct x0; [congruence|]. reflexivity. }
  rewrite G. clear G. unfold trangood. rewrite <- (sort_rows_perm _ _ P D).
  destruct (length f' <? length x')%nat eqn:E; [apply Nat.ltb_lt in E; lia|]. clear E.
  rewrite sort_rows_sorted by (rewrite map_fst_combine by lia; exact H).
  rewrite map_fst_combine, map_snd_combine by lia. rewrite (no_duplicates x H).
  rewrite from_end_nth by lia. cbn [bind]. unfold first. rewrite geti_nth by lia. cbn [bind].
  pose proof (nmax_coarse nd x H Nx K) as M. destruct (covers_bounds x x0 C N0) as [B1 B2].
  rewrite L. destruct (Z.of_nat (length x) <? Z.max (Z.of_nat (length x)) 2)%Z eqn:E1; [lia|].
  destruct (Z.max (nmax nd x) 2 <? Z.of_nat (length x))%Z eqn:E2; [lia|]. cbn [orb].
  replace (Z.min (Z.max (Z.of_nat (length x)) 2) (Z.max (nmax nd x) 2)) with (Z.of_nat (length x)) by lia.
  assert (B : at_ x 0 < at_ x (length x - 1)) by (apply increasing_lt; [exact H|lia|lia]).
  assert (N1 : 1 < INR (length x)) by (apply (lt_INR 1); lia).
  destruct (spacing_differs eps x) eqn:SD.
  - rewrite <- INR_IZR_INZ. rewrite (arange_grid (at_ x 0) (at_ x (length x - 1)) (length x) B N). cbn [bind].
    fold (grid x). cbn [fst snd]. rewrite geti_nth by (unfold grid; rewrite uniform_length; lia). cbn [bind].
    unfold extend_below. change (at_R (grid x) 0) with (at_ (grid x) 0).
    assert (G0 : at_ (grid x) 0 = at_ x 0) by (unfold grid; rewrite uniform_at by lia; cbn [INR]; ring).
    rewrite G0. destruct (Rlt_dec (minR x0) (at_ x 0)); [lra|]. cbn [fst snd].
    unfold extend_above. rewrite from_end_nth by (unfold grid; rewrite ?uniform_length; lia). cbn [bind].
    assert (G1 : at_ (grid x) (length (grid x) - 1) = at_ x (length x - 1)).
    { unfold grid. rewrite uniform_length. rewrite uniform_at by lia. rewrite minus_INR by lia. cbn [INR]. field. lra. }
    rewrite G1. destruct (Rlt_dec (at_ x (length x - 1)) (maxR x0)); [lra|]. reflexivity.
  - cbn [bind fst snd]. rewrite geti_nth by lia. cbn [bind]. unfold extend_below. change (at_R x 0) with (at_ x 0).
    destruct (Rlt_dec (minR x0) (at_ x 0)); [lra|]. cbn [fst snd]. unfold extend_above. rewrite from_end_nth by lia. cbn [bind].
    destruct (Rlt_dec (at_ x (length x - 1)) (maxR x0)); [lra|]. reflexivity.
Qed.

Lemma good_inside : forall eps nd x f x0, increasing x -> length f = length x -> (2 <= length x)%nat -> x0 <> [] -> covers x x0 -> coarse nd x ->
  good eps nd x f x0 = Ok (if spacing_differs eps x then (grid x, map (interp x f) (grid x)) else (x, f)).
Proof. intros eps nd x f x0 H L N N0 C K. apply good_rows; auto. Qed.

(* the values that tranproc0 interpolates in, and where *)
Definition good_values (eps : R) (x f : list R) : list R := if spacing_differs eps x then map (interp x f) (grid x) else f.
Definition scaled (x : list R) (t : R) : R := (INR (length x) - 1) * (t - at_ x 0) / (at_ x (length x - 1) - at_ x 0).
Lemma grid_length : forall x, length (grid x) = length x.
Proof. intros x. unfold grid. apply uniform_length. Qed.
Lemma good_values_length : forall eps x f, length f = length x -> length (good_values eps x f) = length x.
Proof. intros eps x f L. unfold good_values. destruct (spacing_differs eps x); [rewrite map_length; apply grid_length|exact L]. Qed.
Lemma scaled_range : forall x t, increasing x -> (2 <= length x)%nat -> at_ x 0 <= t <= at_ x (length x - 1) -> 0 <= scaled x t <= INR (length x) - 1.
Proof.
  intros x t H N B. assert (D : at_ x 0 < at_ x (length x - 1)) by (apply increasing_lt; [exact H|lia|lia]).
  assert (N1 : 1 < INR (length x)) by (apply (lt_INR 1); lia). unfold scaled.
  assert (Q : 0 < / (at_ x (length x - 1) - at_ x 0)) by (apply Rinv_0_lt_compat; lra). unfold Rdiv. split.
  - apply Rmult_le_pos; [|lra]. apply Rmult_le_pos; lra.
  - apply Rmult_le_reg_r with (at_ x (length x - 1) - at_ x 0); [lra|].
    rewrite Rmult_assoc, Rinv_l by lra. rewrite Rmult_1_r. apply Rmult_le_compat_l; lra.
Qed.
Lemma grid_first : forall x, (2 <= length x)%nat -> at_ (grid x) 0 = at_ x 0.
Proof. intros x N. unfold grid. rewrite uniform_at by lia. cbn [INR]. ring. Qed.
Lemma grid_last : forall x, (2 <= length x)%nat -> at_ (grid x) (length x - 1) = at_ x (length x - 1).
Proof.
  intros x N. assert (N1 : 1 < INR (length x)) by (apply (lt_INR 1); lia).
  unfold grid. rewrite uniform_at by lia. rewrite minus_INR by lia. cbn [INR]. field. lra.
Qed.
Lemma values_inside : forall eps nd x f x0, increasing x -> length f = length x -> (2 <= length x)%nat -> x0 <> [] -> covers x x0 -> coarse nd x ->
  exists g, good eps nd x f x0 = Ok g /\ at_ (fst g) 0 = at_ x 0 /\ length (fst g) = length x /\
    (fst g = x \/ fst g = grid x) /\ (spacing_differs eps x = false -> g = (x, f)) /\
    exists y, values f (fst g) (snd g) x0 = Ok (map y x0) /\ forall t, In t x0 -> positioned (good_values eps x f) (scaled x t) (y t).
Proof.
  intros eps nd x f x0 H L N N0 C K. eexists. split; [apply good_inside; auto|].
  assert (S0 : forall t, In t x0 -> exists y, by_position (length x) (good_values eps x f) (scaled x t) = Ok y /\ positioned (good_values eps x f) (scaled x t) y).
  { intros t Ht. apply by_position_spec; [rewrite good_values_length; [lia|exact L]|exact N|apply scaled_range; auto]. }
  assert (Y : exists y, forall t, In t x0 -> by_position (length x) (good_values eps x f) (scaled x t) = Ok (y t) /\ positioned (good_values eps x f) (scaled x t) (y t)).
  { exists (fun t => match by_position (length x) (good_values eps x f) (scaled x t) with Ok v => v | Err _ => 0 end).
    intros t Ht. destruct (S0 t Ht) as (v & E & P). rewrite E. split; [reflexivity|exact P]. }
  destruct Y as (y & Hy). unfold values, position. rewrite L.
  set (g := if spacing_differs eps x then (grid x, map (interp x f) (grid x)) else (x, f)).
  assert (Gs : snd g = good_values eps x f) by (unfold g, good_values; destruct (spacing_differs eps x); reflexivity).
  assert (G0 : hd 0 (fst g) = at_ x 0) by (unfold g; destruct (spacing_differs eps x); cbn [fst]; rewrite hd_at; [apply grid_first; exact N|reflexivity]).
  assert (G1 : last (fst g) 0 = at_ x (length x - 1)) by (unfold g; destruct (spacing_differs eps x); cbn [fst]; rewrite last_at; [rewrite grid_length; apply grid_last; exact N|reflexivity]).
  rewrite hd_at in G0.
  split; [exact G0|]. split; [unfold g; destruct (spacing_differs eps x); cbn [fst]; [apply grid_length|reflexivity]|].
  split; [unfold g; destruct (spacing_differs eps x); cbn [fst]; auto|]. split; [unfold g; intros ->; reflexivity|].
  exists y. split; [|intros t Ht; apply (Hy t Ht)].
  rewrite Gs, G1, hd_at, G0. apply mapM_ok. intros t Ht. destruct (Hy t Ht) as [E _]. exact E.
Qed.
