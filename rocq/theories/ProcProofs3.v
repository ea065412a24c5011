From Coq Require Import Reals Lra Lia Psatz Permutation.
From Coquelicot Require Import Coquelicot.
From Verif Require Import Base PolyModel FilterModel GridModel WaveModel KdeModel ProcModel ProcSpec ProcProofs ProcProofs2.
Local Open Scope R_scope.

Lemma diff2_length : forall x, length (diffR (diffR x)) = (length x - 2)%nat.
Proof. intros x. rewrite !diffR_length. lia. Qed.
Lemma diff2_nth : forall x i, (S (S i) < length x)%nat -> nth i (diffR (diffR x)) 0 = bend x i.
Proof.
  intros x i H. rewrite diffR_nth by (rewrite diffR_length; lia). unfold at_ at 1 2. rewrite !diffR_nth by lia. unfold bend. ring.
Qed.
Lemma uniform_spacing : forall eps a h n, 0 <= eps -> 0 < h -> spacing_differs eps (uniform a h n) = false.
Proof.
  intros eps a h n E H. apply Bool.not_true_is_false. intros D. unfold spacing_differs in D. apply existsb_exists in D as (v & Hv & D).
  destruct (In_nth _ _ 0 Hv) as (i & Hi & <-). rewrite diff2_length, uniform_length in Hi. rewrite diff2_nth in D by (rewrite uniform_length; lia).
  unfold bend in D. rewrite !uniform_at in D by lia. rewrite !S_INR in D.
  replace (a + (INR i + 1 + 1) * h - 2 * (a + (INR i + 1) * h) + (a + INR i * h)) with 0 in D by ring. rewrite Rabs_R0 in D.
  destruct (Rlt_dec _ 0) as [Q|Q] in D; [|discriminate]. rewrite hd_at, last_at, uniform_length in Q. rewrite !uniform_at in Q by lia.
  assert (0 <= INR (n - 1) - INR 0) by (apply Rge_le, Rge_minus, Rle_ge, le_INR; lia).
  assert (0 <= (INR (n - 1) - INR 0) * h) by (apply Rmult_le_pos; lra).
  assert (0 <= eps * ((INR (n - 1) - INR 0) * h)) by (apply Rmult_le_pos; lra). lra.
Qed.
Lemma clear_cases : forall eps x, 0 <= eps -> increasing x -> (2 <= length x)%nat -> clear_spacing eps x ->
  (spacing_differs eps x = false /\ x = grid x) \/ spacing_differs eps x = true.
Proof.
  intros eps x E H N [(a & h & U)|(i & Hi & B)].
  - left. assert (h0 : 0 < h). { pose proof (H 0%nat ltac:(lia)) as Q. rewrite U in Q. rewrite !uniform_at in Q by lia. rewrite S_INR in Q. cbn [INR] in Q. lra. }
    split. { rewrite U. apply uniform_spacing; auto. }
    unfold grid. assert (N1 : 1 < INR (length x)) by (apply (lt_INR 1); lia).
    rewrite U at 1. assert (X0 : at_ x 0 = a) by (rewrite U, uniform_at by lia; cbn [INR]; ring).
    assert (X1 : at_ x (length x - 1) = a + (INR (length x) - 1) * h) by (rewrite U at 1; rewrite uniform_at by lia; rewrite minus_INR by lia; cbn [INR]; ring).
    rewrite X0, X1. f_equal. field. lra.
  - right. unfold spacing_differs. apply existsb_exists. exists (bend x i). split.
    + rewrite <- diff2_nth by exact Hi. apply nth_In. rewrite diff2_length. lia.
    + rewrite hd_at, last_at. destruct (Rlt_dec _ (Rabs (bend x i))); [reflexivity|contradiction].
Qed.

(* positions on a uniform table *)
Lemma positioned_interpolated : forall a h n f t y, 0 < h -> (2 <= n)%nat -> length f = n ->
  positioned f ((t - a) / h) y -> interpolated (uniform a h n) f t y.
Proof.
  intros a h n f t y H N L (i & Hi & B & E). exists i. rewrite uniform_length. split; [lia|]. rewrite !uniform_at by lia. rewrite !S_INR.
  assert (B1 : INR i * h <= t - a) by (replace (t - a) with ((t - a) / h * h) by (field; lra); apply Rmult_le_compat_r; lra).
  assert (B2 : t - a <= (INR i + 1) * h) by (replace (t - a) with ((t - a) / h * h) by (field; lra); apply Rmult_le_compat_r; lra).
  split; [lra|]. rewrite E. f_equal. f_equal. field. lra.
Qed.
Lemma scaled_grid : forall x t, increasing x -> (2 <= length x)%nat ->
  scaled x t = (t - at_ x 0) / ((at_ x (length x - 1) - at_ x 0) / (INR (length x) - 1)).
Proof.
  intros x t H N. assert (D : at_ x 0 < at_ x (length x - 1)) by (apply increasing_lt; [exact H|lia|lia]).
  assert (N1 : 1 < INR (length x)) by (apply (lt_INR 1); lia). unfold scaled. field. lra.
Qed.
Lemma grid_step : forall x, increasing x -> (2 <= length x)%nat -> 0 < (at_ x (length x - 1) - at_ x 0) / (INR (length x) - 1).
Proof.
  intros x H N. assert (D : at_ x 0 < at_ x (length x - 1)) by (apply increasing_lt; [exact H|lia|lia]).
  assert (N1 : 1 < INR (length x)) by (apply (lt_INR 1); lia). apply Rdiv_lt_0_compat; lra.
Qed.
Lemma grid_inside : forall x i, increasing x -> (2 <= length x)%nat -> (i < length x)%nat -> at_ x 0 <= at_ (grid x) i <= at_ x (length x - 1).
Proof.
  intros x i H N Hi. assert (G : increasing (grid x)) by (apply uniform_increasing, grid_step; auto).
  rewrite <- (grid_first x N) at 1. rewrite <- (grid_last x N).
  split; apply increasing_le; auto; rewrite ?grid_length; lia.
Qed.
Lemma interpolated_node : forall x f i, increasing x -> length f = length x -> (2 <= length x)%nat -> (i < length x)%nat -> interpolated x f (at_ x i) (at_ f i).
Proof.
  intros x f i H L N Hi. destruct i as [|i].
  - exists 0%nat. pose proof (H 0%nat ltac:(lia)). split; [lia|]. split; [lra|]. field. lra.
  - exists i. pose proof (H i ltac:(lia)). split; [lia|]. split; [lra|]. field. lra.
Qed.

Lemma tranproc_plain : forall eps x f x0, tranproc eps x f x0 [] = let* y := tranproc0 eps x f x0 in Ok [y].
Proof. intros. unfold tranproc, tranproc0. cbn [length Nat.min Nat.eqb]. destruct (good eps 0 x f x0) as [g|e]; reflexivity. Qed.

Lemma tranproc0_inside : forall eps x f x0, increasing x -> length f = length x -> (2 <= length x)%nat -> x0 <> [] -> covers x x0 -> coarse 0 x ->
  exists y, tranproc0 eps x f x0 = Ok (map y x0) /\ forall t, In t x0 -> positioned (good_values eps x f) (scaled x t) (y t).
Proof.
  intros eps x f x0 H L N N0 C K. destruct (values_inside eps 0 x f x0 H L N N0 C K) as (g & G & _ & _ & _ & _ & y & Y & P).
  exists y. split; [|exact P]. unfold tranproc0. rewrite G. cbn [bind]. exact Y.
Qed.

Lemma tranproc_resampled : forall eps x f x0, 0 <= eps -> increasing x -> length f = length x -> (2 <= length x)%nat -> x0 <> [] -> covers x x0 -> coarse 0 x ->
  clear_spacing eps x ->
  exists y v, tranproc eps x f x0 [] = Ok [map y x0] /\ length v = length x /\
    let g := uniform (at_ x 0) ((at_ x (length x - 1) - at_ x 0) / (INR (length x) - 1)) (length x) in
    (forall i, (i < length x)%nat -> interpolated x f (at_ g i) (at_ v i)) /\ forall t, In t x0 -> interpolated g v t (y t).
Proof.
  intros eps x f x0 E H L N N0 C K CS. destruct (tranproc0_inside eps x f x0 H L N N0 C K) as (y & Y & P).
  exists y, (good_values eps x f). split; [rewrite tranproc_plain, Y; reflexivity|]. split; [apply good_values_length; exact L|].
  cbv zeta. change (uniform (at_ x 0) ((at_ x (length x - 1) - at_ x 0) / (INR (length x) - 1)) (length x)) with (grid x). split.
  - intros i Hi. destruct (clear_cases eps x E H N CS) as [[D G]|D].
    + unfold good_values. rewrite D. rewrite <- G. apply interpolated_node; auto.
    + unfold good_values. rewrite D. unfold at_ at 2. rewrite (nth_indep _ 0 (interp x f 0)) by (rewrite map_length, grid_length; exact Hi).
      rewrite map_nth. apply interp_spec; auto. apply grid_inside; auto.
  - intros t Ht. apply positioned_interpolated; [apply grid_step; auto|exact N|apply good_values_length; exact L|].
    rewrite <- scaled_grid by auto. apply P. exact Ht.
Qed.

Lemma tranproc_interpolates : forall eps a h n f x0, 0 <= eps -> 0 < h -> (2 <= n)%nat -> length f = n -> x0 <> [] -> covers (uniform a h n) x0 -> 1 < h * 10 ^ 7 ->
  exists y, tranproc eps (uniform a h n) f x0 [] = Ok [map y x0] /\ forall t, In t x0 -> interpolated (uniform a h n) f t (y t).
Proof.
  intros eps a h n f x0 E H N L N0 C K. set (x := uniform a h n).
  assert (Lx : length x = n) by apply uniform_length. assert (Ix : increasing x) by (apply uniform_increasing; exact H).
  assert (N1 : 1 < INR n) by (apply (lt_INR 1); lia).
  assert (X0 : at_ x 0 = a) by (unfold x; rewrite uniform_at by lia; cbn [INR]; ring).
  assert (X1 : at_ x (n - 1) = a + (INR n - 1) * h) by (unfold x; rewrite uniform_at by lia; rewrite minus_INR by lia; cbn [INR]; ring).
  destruct (tranproc0_inside eps x f x0 Ix ltac:(lia) ltac:(lia) N0 C) as (y & Y & P).
  { unfold coarse. rewrite Lx, X0, X1. change (INR (Nat.max 0 1)) with 1. replace (7 / 1) with (INR 7) by (rewrite (INR_IZR_INZ 7); cbn; lra). rewrite Rpower_pow by lra. nra. }
  exists y. split; [rewrite tranproc_plain, Y; reflexivity|]. intros t Ht. apply positioned_interpolated; auto.
  specialize (P t Ht). unfold good_values in P. assert (SD : spacing_differs eps x = false) by (apply uniform_spacing; auto). rewrite SD in P.
  unfold scaled in P. rewrite Lx, X0, X1 in P. replace ((t - a) / h) with ((INR n - 1) * (t - a) / (a + (INR n - 1) * h - a)) by (field; split; [lra|]; replace (a + (INR n - 1) * h - a) with ((INR n - 1) * h) by ring; nra). exact P.
Qed.

(* ---- order and range ---- *)
Lemma interp_bounds : forall x f t lo hi, increasing x -> length f = length x -> (2 <= length x)%nat -> at_ x 0 <= t <= at_ x (length x - 1) ->
  (forall v, In v f -> lo <= v <= hi) -> lo <= interp x f t <= hi.
Proof.
  intros x f t lo hi H L N B V. destruct (interp_spec x f t H L N B) as (i & Hi & A & ->).
  pose proof (H i Hi) as D. assert (F0 : lo <= at_ f i <= hi) by (apply V, nth_In; lia). assert (F1 : lo <= at_ f (S i) <= hi) by (apply V, nth_In; lia).
  set (w := (t - at_ x i) / (at_ x (S i) - at_ x i)).
  assert (W : 0 <= w <= 1). { unfold w. split; [apply Rdiv_le_0_compat; lra|]. apply Rmult_le_reg_r with (at_ x (S i) - at_ x i); [lra|]. unfold Rdiv. rewrite Rmult_assoc, Rinv_l by lra. lra. }
  nra.
Qed.
Lemma interp_mono : forall x f s t, increasing x -> length f = length x -> nondecreasing f -> (2 <= length x)%nat -> at_ x 0 <= s -> s <= t -> t <= at_ x (length x - 1) ->
  interp x f s <= interp x f t.
Proof.
  intros x f s t H L F N B1 B2 B3. destruct (interp_spec x f s H L N ltac:(lra)) as (i & Hi & A & ->). destruct (interp_spec x f t H L N ltac:(lra)) as (j & Hj & A' & ->).
  pose proof (H i Hi) as Di. pose proof (H j Hj) as Dj. pose proof (F i ltac:(lia)) as Fi. pose proof (F j ltac:(lia)) as Fj.
  assert (W : forall u k, at_ x k <= u <= at_ x (S k) -> at_ x k < at_ x (S k) -> 0 <= (u - at_ x k) / (at_ x (S k) - at_ x k) <= 1).
  { intros u k Hu Hk. split; [apply Rdiv_le_0_compat; lra|]. apply Rmult_le_reg_r with (at_ x (S k) - at_ x k); [lra|]. unfold Rdiv. rewrite Rmult_assoc, Rinv_l by lra. lra. }
  pose proof (W s i A Di) as Wi. pose proof (W t j A' Dj) as Wj.
  destruct (Nat.lt_trichotomy i j) as [Q|[Q|Q]].
  - pose proof (nondecreasing_le f (S i) j F ltac:(lia) ltac:(lia)). nra.
  - subst j. assert ((s - at_ x i) / (at_ x (S i) - at_ x i) <= (t - at_ x i) / (at_ x (S i) - at_ x i)) by (apply Rmult_le_compat_r; [left; apply Rinv_0_lt_compat; lra|lra]). nra.
  - pose proof (increasing_le x (S j) i H ltac:(lia) ltac:(lia)). assert (s = at_ x i) by lra. assert (t = at_ x (S j)) by lra.
    pose proof (nondecreasing_le f (S j) i F ltac:(lia) ltac:(lia)). assert (at_ x (S j) = at_ x i) by lra.
    assert (S j = i). { destruct (Nat.eq_dec (S j) i) as [|Z]; auto. pose proof (increasing_lt x (S j) i H ltac:(lia) ltac:(lia)). lra. }
    subst i. subst s t. replace ((at_ x (S j) - at_ x (S j)) / (at_ x (S (S j)) - at_ x (S j))) with 0 by (field; lra).
    replace ((at_ x (S j) - at_ x j) / (at_ x (S j) - at_ x j)) with 1 by (field; lra). lra.
Qed.
Lemma positioned_bounds : forall fo u y lo hi, positioned fo u y -> (forall v, In v fo -> lo <= v <= hi) -> lo <= y <= hi.
Proof.
  intros fo u y lo hi (i & Hi & B & ->) V. assert (F0 : lo <= at_ fo i <= hi) by (apply V, nth_In; lia). assert (F1 : lo <= at_ fo (S i) <= hi) by (apply V, nth_In; lia). nra.
Qed.
Lemma positioned_mono : forall fo u v y z, nondecreasing fo -> positioned fo u y -> positioned fo v z -> u <= v -> y <= z.
Proof.
  intros fo u v y z F (i & Hi & B & ->) (j & Hj & B' & ->) Q. pose proof (F i Hi) as Fi. pose proof (F j Hj) as Fj.
  destruct (Nat.lt_trichotomy i j) as [D|[D|D]].
  - pose proof (nondecreasing_le fo (S i) j F ltac:(lia) ltac:(lia)). nra.
  - subst j. nra.
  - assert (INR j + 1 <= INR i) by (rewrite <- S_INR; apply le_INR; lia). assert (u = INR i) by lra. assert (v = INR j + 1) by lra.
    assert (INR i = INR (S j)) as Z by (rewrite S_INR; lra). apply INR_eq in Z. subst i. rewrite S_INR in *. subst u v.
    replace (INR j + 1 - (INR j + 1)) with 0 by ring. replace (INR j + 1 - INR j) with 1 by ring. lra.
Qed.
Lemma good_values_bounds : forall eps x f lo hi, increasing x -> length f = length x -> (2 <= length x)%nat -> (forall v, In v f -> lo <= v <= hi) ->
  forall v, In v (good_values eps x f) -> lo <= v <= hi.
Proof.
  intros eps x f lo hi H L N V v Hv. unfold good_values in Hv. destruct (spacing_differs eps x); [|apply V; exact Hv].
  apply in_map_iff in Hv as (t & <- & Ht). apply interp_bounds; auto. destruct (In_nth _ _ 0 Ht) as (i & Hi & <-). rewrite grid_length in Hi. apply grid_inside; auto.
Qed.
Lemma good_values_mono : forall eps x f, increasing x -> length f = length x -> (2 <= length x)%nat -> nondecreasing f -> nondecreasing (good_values eps x f).
Proof.
  intros eps x f H L N F. unfold good_values. destruct (spacing_differs eps x); [|exact F].
  intros i Hi. rewrite map_length, grid_length in Hi. unfold at_. rewrite !(nth_indep _ 0 (interp x f 0)) by (rewrite map_length, grid_length; lia).
  rewrite !map_nth. change (interp x f (at_ (grid x) i) <= interp x f (at_ (grid x) (S i))).
  pose proof (grid_inside x i H N ltac:(lia)). pose proof (grid_inside x (S i) H N ltac:(lia)).
  apply interp_mono; auto; try lra. left. apply (uniform_increasing (at_ x 0) ((at_ x (length x - 1) - at_ x 0) / (INR (length x) - 1)) (length x) (grid_step x H N)). rewrite uniform_length. lia.
Qed.
Lemma scaled_mono : forall x s t, increasing x -> (2 <= length x)%nat -> s <= t -> scaled x s <= scaled x t.
Proof.
  intros x s t H N Q. rewrite !scaled_grid by auto. pose proof (grid_step x H N). apply Rmult_le_compat_r; [left; apply Rinv_0_lt_compat; assumption|lra].
Qed.
Lemma tranproc_order : forall eps x f x0, increasing x -> length f = length x -> (2 <= length x)%nat -> x0 <> [] -> covers x x0 -> coarse 0 x ->
  exists y, tranproc eps x f x0 [] = Ok [map y x0] /\
    (forall lo hi t, (forall v, In v f -> lo <= v <= hi) -> In t x0 -> lo <= y t <= hi) /\
    (nondecreasing f -> forall s t, In s x0 -> In t x0 -> s <= t -> y s <= y t).
Proof.
  intros eps x f x0 H L N N0 C K. destruct (tranproc0_inside eps x f x0 H L N N0 C K) as (y & Y & P).
  exists y. split; [rewrite tranproc_plain, Y; reflexivity|]. split.
  - intros lo hi t V Ht. apply (positioned_bounds _ _ _ lo hi (P t Ht)). apply good_values_bounds; auto.
  - intros F s t Hs Ht Q. apply (positioned_mono (good_values eps x f) (scaled x s) (scaled x t)); auto. + apply good_values_mono; auto. + apply scaled_mono; auto.
Qed.

(* ---- tables of a line ---- *)
Lemma interpolated_line : forall x f a b t y, increasing x -> length f = length x -> (forall i, (i < length x)%nat -> at_ f i = a * at_ x i + b) -> interpolated x f t y -> y = a * t + b.
Proof. intros x f a b t y H L E (i & Hi & B & ->). pose proof (H i Hi). rewrite !E by lia. field. lra. Qed.
Lemma tranproc_line : forall eps x f x0 a b, 0 <= eps -> increasing x -> length f = length x -> (2 <= length x)%nat -> x0 <> [] -> covers x x0 -> coarse 0 x -> clear_spacing eps x ->
  (forall i, (i < length x)%nat -> at_ f i = a * at_ x i + b) -> tranproc eps x f x0 [] = Ok [map (fun t => a * t + b) x0].
Proof.
  intros eps x f x0 a b E H L N N0 C K CS F. destruct (tranproc_resampled eps x f x0 E H L N N0 C K CS) as (y & v & Y & Lv & P & Q).
  rewrite Y. do 2 f_equal. apply map_ext_in. intros t Ht.
  refine (interpolated_line _ v a b t (y t) _ _ _ (Q t Ht)).
  - apply uniform_increasing, grid_step; auto.
  - rewrite uniform_length. exact Lv.
  - intros i Hi. rewrite uniform_length in Hi. apply (interpolated_line x f a b _ _ H L F (P i Hi)).
Qed.

(* ---- the order of the rows of the table does not matter ---- *)
Lemma tranproc_rows : forall eps x f x' f' x0, increasing x -> length f = length x -> length f' = length x' -> (2 <= length x)%nat -> x0 <> [] -> covers x x0 -> coarse 0 x ->
  Permutation (combine x f) (combine x' f') -> tranproc eps x' f' x0 [] = tranproc eps x f x0 [].
Proof.
  intros eps x f x' f' x0 H L L' N N0 C K P. rewrite !tranproc_plain. unfold tranproc0.
  rewrite (good_rows eps 0 x f x' f' x0 H L L' N N0 C K P), (good_inside eps 0 x f x0 H L N N0 C K). cbn [bind].
  assert (Lx : length x' = length x). { apply Permutation_length in P. rewrite !combine_length in P. lia. }
  unfold values. rewrite L', Lx, <- L. reflexivity.
Qed.
