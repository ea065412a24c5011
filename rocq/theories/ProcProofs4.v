From Coq Require Import Reals Lra Lia Psatz Permutation.
From Coquelicot Require Import Coquelicot.
From Verif Require Import Base PolyModel FilterModel GridModel WaveModel KdeModel ProcModel ProcSpec ProcProofs ProcProofs2 ProcProofs3.
Local Open Scope R_scope.

Lemma map2_nth : forall (f : R -> R -> R) a b i, (i < length a)%nat -> (i < length b)%nat -> nth i (map2 f a b) 0 = f (nth i a 0) (nth i b 0).
Proof. intros f a. induction a as [|x a IH]; intros [|y b] [|i] Ha Hb; cbn [length] in *; try lia; [reflexivity|]. cbn [map2 nth]. apply IH; lia. Qed.
Lemma map2_length : forall (f : R -> R -> R) a b, length (map2 f a b) = Nat.min (length a) (length b).
Proof. intros f a. induction a as [|x a IH]; intros [|y b]; cbn [length map2]; try reflexivity. rewrite IH. reflexivity. Qed.
Lemma tl_length : forall (l : list R), length (tl l) = (length l - 1)%nat.
Proof. intros [|a l]; cbn; lia. Qed.
Lemma tl_at : forall (l : list R) i, at_ (tl l) i = at_ l (S i).
Proof. intros [|a l] i; [destruct i; reflexivity|reflexivity]. Qed.
Lemma midpoints_uniform : forall b h m, midpoints (uniform b h m) = uniform (b + h / 2) h (m - 1).
Proof.
  intros b h m. apply at_ext.
  - unfold midpoints. rewrite map2_length, tl_length, !uniform_length. lia.
  - intros i Hi. unfold midpoints in *. rewrite map2_length, tl_length, uniform_length in Hi. unfold at_ at 1. rewrite map2_nth by (rewrite ?tl_length, uniform_length; lia).
    fold (at_ (uniform b h m) i). fold (at_ (tl (uniform b h m)) i). rewrite tl_at. rewrite !uniform_at by lia. rewrite S_INR. field.
Qed.
Definition slopes1 (h : R) (f : list R) : list R := map (fun d => d / h) (diffR f).
Lemma slopes1_length : forall h f, length (slopes1 h f) = (length f - 1)%nat.
Proof. intros. unfold slopes1. rewrite map_length. apply diffR_length. Qed.
Lemma slopes1_at : forall h f i, (S i < length f)%nat -> at_ (slopes1 h f) i = (at_ f (S i) - at_ f i) / h.
Proof.
  intros h f i H. unfold slopes1, at_ at 1. rewrite (nth_indep _ 0 ((fun d => d / h) 0)) by (rewrite map_length, diffR_length; lia).
  rewrite (map_nth (fun d => d / h)). rewrite diffR_nth by exact H. reflexivity.
Qed.
Lemma quotients_shift : forall h k f i, (S i + k < length f)%nat -> quotients h (S k) f i = quotients h k (slopes1 h f) i.
Proof.
  intros h k. induction k as [|k IH]; intros f i H.
  - cbn [quotients]. symmetry. apply slopes1_at. lia.
  - change (quotients h (S (S k)) f i) with ((quotients h (S k) f (S i) - quotients h (S k) f i) / h).
    change (quotients h (S k) (slopes1 h f) i) with ((quotients h k (slopes1 h f) (S i) - quotients h k (slopes1 h f) i) / h).
    rewrite !IH by lia. reflexivity.
Qed.
Lemma quotient_table_shift : forall h k m f, length f = m -> quotient_table h (S k) m f = quotient_table h k (m - 1) (slopes1 h f).
Proof.
  intros h k m f L. unfold quotient_table. replace (m - S k)%nat with (m - 1 - k)%nat by lia. apply map_ext_in. intros i Hi. apply in_seq in Hi. apply quotients_shift. lia.
Qed.
Lemma quotient_table_0 : forall h m f, length f = m -> quotient_table h 0 m f = f.
Proof.
  intros h m f L. unfold quotient_table. rewrite Nat.sub_0_r. apply at_ext; [rewrite map_length, seq_length; lia|].
  intros i Hi. rewrite map_length, seq_length in Hi. unfold at_ at 1. rewrite (nth_indep _ 0 (quotients h 0 f 0%nat)) by (rewrite map_length, seq_length; lia).
  rewrite (map_nth (quotients h 0 f)), seq_nth by lia. reflexivity.
Qed.

Lemma tranproc0_interpolates : forall eps a h n f x0, 0 <= eps -> 0 < h -> (2 <= n)%nat -> length f = n -> x0 <> [] -> covers (uniform a h n) x0 -> 1 < h * 10 ^ 7 ->
  exists y, tranproc0 eps (uniform a h n) f x0 = Ok (map y x0) /\ forall t, In t x0 -> interpolated (uniform a h n) f t (y t).
Proof.
  intros eps a h n f x0 E H N L N0 C K. destruct (tranproc_interpolates eps a h n f x0 E H N L N0 C K) as (y & Y & P). exists y. split; [|exact P].
  rewrite tranproc_plain in Y. destruct (tranproc0 eps (uniform a h n) f x0) as [z|e]; [|discriminate]. injection Y as ->. reflexivity.
Qed.

Lemma covers_uniform : forall a h n x0, (1 <= n)%nat -> covers (uniform a h n) x0 <-> (forall t, In t x0 -> a <= t <= a + (INR n - 1) * h).
Proof.
  intros a h n x0 N. unfold covers. rewrite uniform_length, !uniform_at by lia. rewrite minus_INR by lia. cbn [INR].
  replace (a + 0 * h) with a by ring. tauto.
Qed.

Lemma derivatives_inside : forall eps h x0 num b m fo, 0 <= eps -> 0 < h -> 1 < h * 10 ^ 7 -> x0 <> [] -> (2 + num <= m)%nat -> length fo = m ->
  (forall t, In t x0 -> b + INR num * h / 2 <= t <= b + (INR m - 1) * h - INR num * h / 2) ->
  exists D, derivatives eps h num (uniform b h m) fo x0 = Ok (map (fun k => map (D k) x0) (seq 1 num)) /\
    forall t k, In t x0 -> (1 <= k <= num)%nat -> interpolated (uniform (b + INR k * h / 2) h (m - k)) (quotient_table h k m fo) t (D k t).
Proof.
  intros eps h x0 num. induction num as [|num IH]; intros b m fo E H K N0 N L C.
  { exists (fun _ _ => 0). split; [reflexivity|]. intros; lia. }
  assert (Q : 0 <= INR num * h / 2) by (pose proof (pos_INR num); apply Rmult_le_pos; [apply Rmult_le_pos; lra|lra]).
  cbn [derivatives]. rewrite midpoints_uniform. fold (slopes1 h fo).
  assert (Lm : length (slopes1 h fo) = (m - 1)%nat) by (rewrite slopes1_length; lia).
  assert (M1 : INR (m - 1) = INR m - 1) by (rewrite minus_INR by lia; reflexivity).
  destruct (tranproc0_interpolates eps (b + h / 2) h (m - 1) (slopes1 h fo) x0 E H ltac:(lia) Lm N0) as (y & Y & P); [|exact K|].
  { apply covers_uniform; [lia|]. intros t Ht. specialize (C t Ht). rewrite S_INR in C. rewrite M1. lra. }
  rewrite Y. cbn [bind].
  destruct (IH (b + h / 2) (m - 1)%nat (slopes1 h fo) E H K N0 ltac:(lia) Lm) as (D & ED & PD).
  { intros t Ht. specialize (C t Ht). rewrite S_INR in C. rewrite M1. lra. }
  rewrite ED. cbn [bind]. exists (fun k => match k with 1%nat => y | _ => D (k - 1)%nat end). split.
  - f_equal. change (seq 1 (S num)) with (1%nat :: seq 2 num). cbn [map]. f_equal. rewrite <- (seq_shift num 1), map_map. apply map_ext_in.
    intros k Hk. apply in_seq in Hk. destruct k as [|k]; [lia|]. replace (S (S k) - 1)%nat with (S k) by lia. reflexivity.
  - intros t k Ht Hk. destruct k as [|k]; [lia|]. rewrite quotient_table_shift by exact L.
    destruct k as [|k].
    + rewrite quotient_table_0 by exact Lm. replace (b + INR 1 * h / 2) with (b + h / 2) by (cbn [INR]; field). apply P. exact Ht.
    + replace (S (S k) - 1)%nat with (S k) by lia. specialize (PD t (S k) Ht ltac:(lia)).
      replace (m - S (S k))%nat with (m - 1 - S k)%nat by lia. replace (b + INR (S (S k)) * h / 2) with (b + h / 2 + INR (S k) * h / 2) by (rewrite (S_INR (S k)); field). exact PD.
Qed.

(* a list of equally long rows given by functions *)
Lemma entry_map : forall (D : nat -> R -> R) x0 s num k i, (k < num)%nat -> (i < length x0)%nat -> entry (map (fun k => map (D k) x0) (seq s num)) k i = D (s + k)%nat (at_ x0 i).
Proof.
  intros D x0 s num k i Hk Hi. unfold entry, at_. rewrite (nth_indep _ [] ((fun k => map (D k) x0) 0%nat)) by (rewrite map_length, seq_length; lia).
  rewrite (map_nth (fun k => map (D k) x0)), seq_nth by lia. rewrite (nth_indep _ 0 (D (s + k)%nat 0)) by (rewrite map_length; lia). apply map_nth.
Qed.

(* what der computes, k = 0..3 *)
Definition computed (F X : nat -> R) (k : nat) : R :=
  match k with 4%nat => chain_rule F X 4 + 4 * F 2%nat * X 1%nat * (X 2%nat - X 3%nat) | _ => chain_rule F X k end.
Lemma der_computed : forall fx xi k i F X, (k < 4)%nat -> (forall j, (j <= k)%nat -> entry fx j i = F (S j)) -> (forall j, (j <= k)%nat -> entry xi j i = X (S j)) ->
  der fx xi k i = computed F X (S k).
Proof.
  intros fx xi k i F X Hk HF HX. destruct k as [|[|[|[|k]]]]; [| | | |lia]; unfold der, der_1, der_2, der_3, der_4, computed, chain_rule; rewrite !HF, !HX by lia; ring.
Qed.

Lemma tranproc_derivatives : forall eps a h n f x0 xi, 0 <= eps -> 0 < h -> length f = n -> x0 <> [] -> (1 <= length xi <= 4)%nat -> (length xi + 2 <= n)%nat ->
  (forall l, In l xi -> length l = length x0) -> 1 < h * Rpower 10 (7 / INR (length xi)) ->
  (forall t, In t x0 -> a + INR (length xi) * h / 2 <= t <= a + (INR n - 1) * h - INR (length xi) * h / 2) ->
  exists ys D, tranproc eps (uniform a h n) f x0 xi = Ok ys /\ length ys = S (length xi) /\
    (forall t k, In t x0 -> (k <= length xi)%nat -> interpolated (uniform (a + INR k * h / 2) h (n - k)) (quotient_table h k n f) t (D k t)) /\
    forall k i, (k <= length xi)%nat -> (i < length x0)%nat ->
      nth i (nth k ys []) 0 = computed (fun j => D j (at_ x0 i)) (fun j => nth i (nth (j - 1) xi []) 0) k.
Proof.
  intros eps a h n f x0 xi E H L N0 ND N LX K C. set (nd := length xi) in *. set (x := uniform a h n).
  assert (Nd : 1 <= INR nd) by (apply (le_INR 1); lia). assert (N1 : 1 < INR n - 1) by (assert (2 < INR n) by (apply (lt_INR 2); lia); lra).
  assert (Q : 0 <= INR nd * h / 2) by (apply Rmult_le_pos; [apply Rmult_le_pos; lra|lra]).
  assert (K7 : Rpower 10 (7 / INR nd) <= 10 ^ 7).
  { replace (10 ^ 7) with (Rpower 10 (INR 7)) by (apply Rpower_pow; lra). apply Rle_Rpower; [lra|]. replace (INR 7) with 7 by (rewrite (INR_IZR_INZ 7); reflexivity). apply Rmult_le_reg_r with (INR nd); [lra|]. unfold Rdiv. rewrite Rmult_assoc, Rinv_l by lra. lra. }
  assert (K' : 1 < h * 10 ^ 7) by (apply Rlt_le_trans with (1 := K); apply Rmult_le_compat_l; lra).
  assert (Cx : covers x x0). { apply covers_uniform; [lia|]. intros t Ht. specialize (C t Ht). lra. }
  assert (Lx : length x = n) by apply uniform_length. assert (Ix : increasing x) by (apply uniform_increasing; exact H).
  assert (X0 : at_ x 0 = a) by (unfold x; rewrite uniform_at by lia; cbn [INR]; ring).
  assert (X1 : at_ x (n - 1) = a + (INR n - 1) * h) by (unfold x; rewrite uniform_at by lia; rewrite minus_INR by lia; cbn [INR]; ring).
  assert (Kc : coarse nd x). { unfold coarse. rewrite Lx, X0, X1. replace (Nat.max nd 1) with nd by lia.
    replace (a + (INR n - 1) * h - a) with ((INR n - 1) * h) by ring. rewrite Rmult_assoc. rewrite <- (Rmult_1_r (INR n - 1)) at 1. apply Rmult_lt_compat_l; lra. }
  assert (SD : spacing_differs eps x = false) by (apply uniform_spacing; auto).
  destruct (values_inside eps nd x f x0 Ix ltac:(lia) ltac:(lia) N0 Cx Kc) as (g & G & _ & _ & _ & Gx & y & Y & P). specialize (Gx SD). subst g. cbn [fst snd] in *.
  unfold tranproc. fold nd. rewrite G. cbn [bind fst snd]. rewrite Y. cbn [bind]. replace (Nat.min nd 4) with nd by lia.
  destruct (nd =? 0)%nat eqn:Z; [apply Nat.eqb_eq in Z; lia|]. clear Z.
  assert (HN : at_R x 1 - at_R x 0 = h). { change (at_ x 1 - at_ x 0 = h). unfold x. rewrite !uniform_at by lia. cbn [INR]. ring. }
  rewrite HN. destruct (derivatives_inside eps h x0 nd a n f E H K' N0 ltac:(lia) L C) as (D & ED & PD).
  unfold x at 1. rewrite ED. cbn [bind].
  replace (forallb _ (firstn nd xi)) with true.
  2:{ symmetry. apply forallb_forall. intros l Hl. apply Nat.eqb_eq. apply LX. unfold nd in Hl. rewrite firstn_all in Hl. exact Hl. }
  eexists. exists (fun k => match k with O => y | _ => D k end). split; [reflexivity|]. split; [cbn [length]; rewrite map_length, seq_length; reflexivity|]. split.
  - intros t k Ht Hk. destruct k as [|k].
    + rewrite quotient_table_0 by exact L. replace (a + INR 0 * h / 2) with a by (cbn [INR]; field). rewrite Nat.sub_0_r.
      apply positioned_interpolated; auto; [lia|]. specialize (P t Ht). unfold good_values in P. rewrite SD in P. unfold scaled in P. rewrite Lx, X0, X1 in P.
      replace ((t - a) / h) with ((INR n - 1) * (t - a) / (a + (INR n - 1) * h - a)) by (field; split; [lra|]; replace (a + (INR n - 1) * h - a) with ((INR n - 1) * h) by ring; nra). exact P.
    + apply PD; [exact Ht|lia].
  - intros k i Hk Hi. destruct k as [|k].
    + cbn [nth]. rewrite (nth_indep _ 0 (y 0)) by (rewrite map_length; exact Hi). rewrite map_nth. reflexivity.
    + cbn [nth]. set (F := fun k => map (der (map (fun k0 => map (D k0) x0) (seq 1 nd)) xi k) (seq 0 (length x0))).
      rewrite (nth_indep _ [] (F 0%nat)) by (rewrite map_length, seq_length; lia). rewrite map_nth, seq_nth by lia. unfold F.
      rewrite (nth_indep _ 0 (der (map (fun k0 => map (D k0) x0) (seq 1 nd)) xi (0 + k) 0%nat)) by (rewrite map_length, seq_length; lia).
      rewrite map_nth, seq_nth by lia. cbn [plus]. apply der_computed; [lia| |].
      * intros j Hj. rewrite entry_map by lia. reflexivity.
      * intros j Hj. cbn [Nat.sub]. rewrite Nat.sub_0_r. reflexivity.
Qed.
