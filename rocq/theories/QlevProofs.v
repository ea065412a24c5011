From Coq Require Import Reals ZArith Lra Lia List Bool Psatz Permutation Sorted.
From Verif Require Import Base PolyModel FilterModel GridModel WaveModel KdeModel ProcModel ProcSpec ProcProofs ProcProofs2 ProcProofs3 KernelModel TkdeModel QlevModel QlevSpec.
Import ListNotations.
Local Open Scope R_scope.

(* ---- tables with values that do not increase ---- *)
Definition nonincreasing (f : list R) : Prop := forall i, (S i < List.length f)%nat -> at_ f (S i) <= at_ f i.
Lemma at_opp f i : at_ (map Ropp f) i = - at_ f i.
Proof. unfold at_. rewrite <- Ropp_0 at 1. now rewrite map_nth. Qed.
Lemma opp_nondecreasing f : nonincreasing f -> nondecreasing (map Ropp f).
Proof. intros H i Hi. rewrite map_length in Hi. rewrite !at_opp. specialize (H i Hi). lra. Qed.
Lemma nonincreasing_opp f : nondecreasing (map Ropp f) -> nonincreasing f.
Proof. intros H i Hi. specialize (H i). rewrite map_length, !at_opp in H. specialize (H Hi). lra. Qed.
Lemma interp_opp : forall x f t, List.length f = List.length x -> interp x (map Ropp f) t = - interp x f t.
Proof.
  induction x as [|x0 x IH]; intros f t L. { destruct f; [cbn; ring|discriminate]. } destruct f as [|f0 f]; [discriminate|]. destruct x as [|x1 x]. { reflexivity. } destruct f as [|f1 f]; [discriminate|]. cbn [map]. rewrite !interp_step. destruct (Rle_dec t x0); [reflexivity|]. destruct (Rle_dec t x1); [unfold Rdiv; ring|].
  apply (IH (f1 :: f)). cbn in L |- *. lia.
Qed.
Lemma good_values_opp eps x f : List.length f = List.length x -> good_values eps x (map Ropp f) = map Ropp (good_values eps x f).
Proof. intros L. unfold good_values. destruct (spacing_differs eps x); [|reflexivity]. rewrite map_map. apply map_ext. intros t. now apply interp_opp. Qed.
Lemma good_values_down eps x f : increasing x -> List.length f = List.length x -> (2 <= List.length x)%nat -> nonincreasing f -> nonincreasing (good_values eps x f).
Proof. intros H L N F. apply nonincreasing_opp. rewrite <- good_values_opp by easy. apply good_values_mono; auto; [now rewrite map_length|now apply opp_nondecreasing]. Qed.
Lemma positioned_between fo u y : nonincreasing fo -> positioned fo u y -> exists i, (S i < List.length fo)%nat /\ INR i <= u <= INR i + 1 /\ at_ fo (S i) <= y <= at_ fo i.
Proof. intros F (i & Hi & B & ->). exists i. split; [exact Hi|]. split; [exact B|]. specialize (F i Hi). nra. Qed.
Lemma interpolated_between x f t y : increasing x -> List.length f = List.length x -> nonincreasing f -> interpolated x f t y -> exists i, (S i < List.length x)%nat /\ at_ x i <= t <= at_ x (S i) /\ at_ f (S i) <= y <= at_ f i.
Proof.
  intros H L F (i & Hi & B & ->). exists i. split; [exact Hi|]. split; [exact B|]. specialize (F i ltac:(lia)). specialize (H i Hi).
  assert (U : 0 <= (t - at_ x i) / (at_ x (S i) - at_ x i) <= 1). { split; [apply Rmult_le_pos; [lra|left; apply Rinv_0_lt_compat; lra]|]. apply Rmult_le_reg_r with (at_ x (S i) - at_ x i); [lra|]. unfold Rdiv. rewrite Rmult_assoc, Rinv_l by lra. lra. } nra.
Qed.
Lemma positioned_down fo u v y z : nonincreasing fo -> positioned fo u y -> positioned fo v z -> u <= v -> z <= y.
Proof.
  intros F P Q H. assert (O : forall a b, positioned fo a b -> positioned (map Ropp fo) a (- b)). { intros a b (i & Hi & B & ->). exists i. rewrite map_length, !at_opp. split; [exact Hi|]. split; [exact B|]. ring. }
  pose proof (positioned_mono (map Ropp fo) u v (- y) (- z) (opp_nondecreasing _ F) (O _ _ P) (O _ _ Q) H). lra.
Qed.

(* ---- sequences with small second differences are close to a line ---- *)
Lemma convex_below (u : nat -> R) m : u 0%nat <= 0 -> u m <= 0 -> (forall i, (S (S i) <= m)%nat -> 0 <= u (S (S i)) - 2 * u (S i) + u i) -> forall i, (i <= m)%nat -> u i <= 0.
Proof.
  intros H0 Hm C. assert (R : forall i, (i <= m)%nat -> 0 < u i -> exists j, (S j <= i)%nat /\ 0 < u (S j) /\ u j < u (S j)).
  { induction i as [|i IH]; intros Hi P; [lra|]. destruct (Rlt_dec (u i) (u (S i))) as [L|L]; [exists i; split; [lia|easy]|]. destruct IH as (j & A & B); [lia|lra|]. exists j. split; [lia|easy]. }
  intros i Hi. destruct (Rle_dec (u i) 0) as [L|L]; [exact L|]. exfalso. destruct (R i Hi ltac:(lra)) as (j & A & B & D).
  assert (G : forall k, (S j + k <= m)%nat -> 0 < u (S j + k)%nat /\ u (j + k)%nat < u (S j + k)%nat).
  { induction k as [|k IH]; intros Hk; [rewrite !Nat.add_0_r; easy|]. destruct IH as (X & Y); [lia|]. specialize (C (j + k)%nat ltac:(lia)). cbn [plus] in *. rewrite Nat.add_succ_r. lra. }
  destruct (G (m - S j)%nat ltac:(lia)) as (X & _). replace (S j + (m - S j))%nat with m in X by lia. lra.
Qed.
Lemma near_line (e : nat -> R) m B : e 0%nat = 0 -> e m = 0 -> (forall i, (S (S i) <= m)%nat -> Rabs (e (S (S i)) - 2 * e (S i) + e i) <= B) -> forall i, (i <= m)%nat -> Rabs (e i) <= B * (INR i * (INR m - INR i) / 2).
Proof.
  intros H0 Hm C i Hi. apply Rabs_le.
  assert (Q : forall k, INR (S k) = INR k + 1) by apply S_INR.
  assert (E : forall k, (S (S k) <= m)%nat -> INR (S (S k)) * (INR m - INR (S (S k))) / 2 - 2 * (INR (S k) * (INR m - INR (S k)) / 2) + INR k * (INR m - INR k) / 2 = -1) by (intros; rewrite !Q; field).
  pose proof (convex_below (fun k => e k - B * (INR k * (INR m - INR k) / 2)) m) as P. pose proof (convex_below (fun k => - e k - B * (INR k * (INR m - INR k) / 2)) m) as N. cbn beta in P, N.
  split.
  - apply Rminus_le. apply Rle_trans with (- e i - B * (INR i * (INR m - INR i) / 2)); [lra|]. apply N; [cbn [INR]; lra|lra| |exact Hi]. intros k Hk. specialize (C k Hk). pose proof (Rle_abs (e (S (S k)) - 2 * e (S k) + e k)). specialize (E k Hk). apply (f_equal (Rmult B)) in E. lra.
  - apply Rminus_le. apply P; [cbn [INR]; lra|lra| |exact Hi]. intros k Hk. specialize (C k Hk). pose proof (Rle_abs (e (S (S k)) - 2 * e (S k) + e k)). pose proof (Rle_abs (- (e (S (S k)) - 2 * e (S k) + e k))) as N2. rewrite Rabs_Ropp in N2. specialize (E k Hk). apply (f_equal (Rmult B)) in E. lra.
Qed.

(* ---- levels found in a table ---- *)
Definition step (x : list R) : R := (at_ x (List.length x - 1) - at_ x 0) / (INR (List.length x) - 1).
Lemma grid_at x i : (i < List.length x)%nat -> at_ (grid x) i = at_ x 0 + INR i * step x.
Proof. intros H. unfold grid, step. now rewrite uniform_at. Qed.
Lemma no_bend eps x i : spacing_differs eps x = false -> (S (S i) < List.length x)%nat -> Rabs (bend x i) <= 10 * eps * (at_ x (List.length x - 1) - at_ x 0).
Proof.
  intros H Hi. unfold spacing_differs in H. destruct (Rle_dec (Rabs (bend x i)) (10 * eps * (at_ x (List.length x - 1) - at_ x 0))) as [L|L]; [exact L|]. exfalso. rewrite <- Bool.not_true_iff_false in H. apply H. apply existsb_exists. exists (bend x i). split.
  - rewrite <- (diff2_nth x i Hi). apply nth_In. rewrite diff2_length. lia.
  - rewrite hd_at, last_at. destruct (Rlt_dec _ _); [reflexivity|lra].
Qed.
Lemma table_near eps x i : 0 <= eps -> increasing x -> (2 <= List.length x)%nat -> spacing_differs eps x = false -> (i < List.length x)%nat ->
  Rabs (at_ x i - (at_ x 0 + INR i * step x)) <= 10 * eps * (at_ x (List.length x - 1) - at_ x 0) * INR (List.length x) ^ 2.
Proof.
  intros He H N S Hi. set (m := (List.length x - 1)%nat). set (B := 10 * eps * (at_ x (List.length x - 1) - at_ x 0)).
  assert (D : at_ x 0 < at_ x (List.length x - 1)) by (apply increasing_lt; [exact H|lia|lia]). assert (B0 : 0 <= B) by (unfold B; apply Rmult_le_pos; lra).
  assert (Lm : INR (List.length x) = INR m + 1) by (unfold m; rewrite minus_INR by lia; cbn; ring). assert (M1 : 1 <= INR m) by (apply (le_INR 1); unfold m; lia).
  assert (St : step x = (at_ x m - at_ x 0) / INR m) by (unfold step; rewrite Lm; f_equal; ring).
  apply Rle_trans with (B * (INR i * (INR m - INR i) / 2)).
  - apply (near_line (fun k => at_ x k - (at_ x 0 + INR k * step x)) m B); [cbn [INR]; ring|rewrite St; field; lra| |unfold m; lia]. intros k Hk. replace (_ - _ + _) with (bend x k); [apply no_bend; [exact S|unfold m in Hk; lia]|]. unfold bend. rewrite !S_INR. ring.
  - apply Rmult_le_compat_l; [exact B0|]. rewrite Lm. assert (INR i <= INR m) by (apply le_INR; unfold m; lia). pose proof (pos_INR i). nra.
Qed.
Lemma table_levels eps x f x0 : 0 <= eps -> increasing x -> List.length f = List.length x -> (2 <= List.length x)%nat -> nonincreasing f -> x0 <> [] -> covers x x0 -> coarse 0 x ->
  exists y, tranproc eps x f x0 [] = Ok [map y x0] /\ (forall lo hi t, (forall v, In v f -> lo <= v <= hi) -> In t x0 -> lo <= y t <= hi) /\ (forall s t, In s x0 -> In t x0 -> s <= t -> y t <= y s) /\
   forall (U V : R -> R) w d, (forall a b, a <= b -> U b <= U a) -> (forall a b, a <= b -> V b <= V a) -> 0 <= w -> (forall k, (k < List.length x)%nat -> at_ x k <= U (at_ f k)) -> (forall k, (k < List.length x)%nat -> V (at_ f k) <= at_ x k + d) ->
     (forall k, (S k < List.length x)%nat -> at_ x (S k) - at_ x k <= w) ->
     forall t, In t x0 -> let e := step x + w + 10 * eps * (at_ x (List.length x - 1) - at_ x 0) * INR (List.length x) ^ 2 in t <= U (y t) + e /\ V (y t) <= t + e + d.
Proof.
  intros He H L N F N0 C K. destruct (tranproc0_inside eps x f x0 H L N N0 C K) as (y & Y & P). exists y. split; [rewrite tranproc_plain, Y; reflexivity|]. split; [|split].
  - intros lo hi t Hv Ht. apply (positioned_bounds _ _ _ lo hi (P t Ht)). apply good_values_bounds; auto.
  - intros s t Hs Ht Q. apply (positioned_down (good_values eps x f) (scaled x s) (scaled x t)); auto. + apply good_values_down; auto. + apply scaled_mono; auto.
  - intros U V w d HU HV Hw A1 A2 W t Ht e. pose proof (grid_step x H N) as Hs. fold (step x) in Hs.
    destruct (positioned_between _ _ _ (good_values_down eps x f H L N F) (P t Ht)) as (i & Hi & Bu & By). rewrite good_values_length in Hi by easy. rewrite scaled_grid in Bu by auto. fold (step x) in Bu.
    assert (T1 : at_ x 0 + INR i * step x <= t). { assert (INR i * step x <= t - at_ x 0); [|lra]. replace (t - at_ x 0) with ((t - at_ x 0) / step x * step x) by (field; lra). apply Rmult_le_compat_r; lra. }
    assert (T2 : t <= at_ x 0 + INR (S i) * step x). { rewrite S_INR. assert (t - at_ x 0 <= (INR i + 1) * step x); [|lra]. replace (t - at_ x 0) with ((t - at_ x 0) / step x * step x) by (field; lra). apply Rmult_le_compat_r; lra. }
    rewrite S_INR in T2. set (B := 10 * eps * (at_ x (List.length x - 1) - at_ x 0) * INR (List.length x) ^ 2) in *.
    assert (B0 : 0 <= B). { assert (D : at_ x 0 < at_ x (List.length x - 1)) by (apply increasing_lt; [exact H|lia|lia]). unfold B. apply Rmult_le_pos; [|apply pow2_ge_0]. apply Rmult_le_pos; lra. }
    assert (G : forall k, (k < List.length x)%nat -> at_ x 0 + INR k * step x - w - B <= U (at_ (good_values eps x f) k) /\ V (at_ (good_values eps x f) k) <= at_ x 0 + INR k * step x + w + B + d).
    { intros k Hk. unfold good_values. destruct (spacing_differs eps x) eqn:SD.
      - assert (E : at_ (map (interp x f) (grid x)) k = interp x f (at_ (grid x) k)). { unfold at_. rewrite (nth_indep _ 0 (interp x f 0)) by (rewrite map_length, grid_length; lia). now rewrite map_nth. } rewrite E. rewrite <- grid_at by easy. pose proof (grid_inside x k H N Hk) as GI. destruct (interpolated_between x f _ _ H L F (interp_spec x f (at_ (grid x) k) H L N GI)) as (j & Hj & Bj & Fj).
        pose proof (A1 j ltac:(lia)). pose proof (A2 (S j) Hj). pose proof (W j Hj). pose proof (HU _ _ (proj2 Fj)). pose proof (HV _ _ (proj1 Fj)). lra.
      - pose proof (table_near eps x k He H N SD Hk) as NE. fold B in NE. pose proof (Rle_abs (at_ x k - (at_ x 0 + INR k * step x))) as R1. pose proof (Rle_abs (- (at_ x k - (at_ x 0 + INR k * step x)))) as R2. rewrite Rabs_Ropp in R2. pose proof (A1 k Hk). pose proof (A2 k Hk). lra. }
    destruct (G i ltac:(lia)) as (G1 & _). destruct (G (S i) Hi) as (_ & G2). rewrite S_INR in G2. pose proof (HU _ _ (proj2 By)). pose proof (HV _ _ (proj1 By)). unfold e. split; lra.
Qed.
