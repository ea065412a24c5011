From Coq Require Import Reals List Lra Lia Bool Arith.
From Verif Require Import Base ArSpec ArProofs2 CsimProofs PolySpec OrthoProofs Sg2Model Sg2Spec Sg2Proofs.
Import ListNotations.
Local Open Scope R_scope.
Set Bullet Behavior "Strict Subproofs".

(* ---- polynomials with many roots ---- *)
Lemma peval_sum n f t : peval (rev (map f (seq 0 n))) t = sum_to n (fun u => f u * t ^ u).
Proof.
  induction n as [|n IH]; [reflexivity|]. rewrite seq_S, map_app, rev_app_distr. cbn [map rev app Nat.add sum_to peval]. rewrite IH, rev_length, map_length, seq_length. ring.
Qed.
Lemma many_roots n f l : NoDup l -> (n <= List.length l)%nat -> (forall t, In t l -> sum_to n (fun u => f u * t ^ u) = 0) -> forall t, sum_to n (fun u => f u * t ^ u) = 0.
Proof.
  intros N L H t. rewrite <- peval_sum. apply (too_many_roots _ l); auto.
  - rewrite rev_length, map_length, seq_length. exact L.
  - intros r Hr. rewrite peval_sum. now apply H.
Qed.
Lemma nodup_map_seq (g : nat -> R) n : (forall i j, g i = g j -> i = j) -> NoDup (map g (seq 0 n)).
Proof. intros H. apply FinFun.Injective_map_NoDup; [exact H|apply seq_NoDup]. Qed.
Lemma zero_coefs : forall n f, (forall t, sum_to n (fun u => f u * t ^ u) = 0) -> forall u, (u < n)%nat -> f u = 0.
Proof.
  induction n as [|n IH]; intros f H u Hu; [lia|].
  assert (F : forall t, f 0%nat + t * sum_to n (fun k => f (S k) * t ^ k) = 0).
  { intros t. rewrite <- (H t). rewrite (sum_first (S n)) by lia. replace (S n - 1)%nat with n by lia. cbn [pow]. rewrite <- sum_scal. f_equal; [ring|]. apply sum_ext. intros; ring. }
  assert (F0 : f 0%nat = 0) by (pose proof (F 0); lra).
  destruct u as [|u]; [exact F0|]. apply (IH (fun k => f (S k))); [|lia].
  apply (many_roots n _ (map (fun i => INR (S i)) (seq 0 n))).
  - apply nodup_map_seq. intros i j E. apply INR_eq in E. lia.
  - rewrite map_length, seq_length. lia.
  - intros t Ht. apply in_map_iff in Ht. destruct Ht as [i [<- _]]. pose proof (F (INR (S i))) as E. rewrite F0 in E. assert (0 < INR (S i)) by (apply lt_0_INR; lia).
    assert (P : INR (S i) * sum_to n (fun k => f (S k) * INR (S i) ^ k) = 0) by lra. apply Rmult_integral in P. destruct P; [lra|assumption].
Qed.
Lemma grid_roots n f c : (forall a, (a < n)%nat -> sum_to n (fun u => f u * (INR a - c) ^ u) = 0) -> forall u, (u < n)%nat -> f u = 0.
Proof.
  intros H. apply zero_coefs. apply (many_roots n _ (map (fun a => INR a - c) (seq 0 n))).
  - apply nodup_map_seq. intros i j E. apply INR_eq. lra.
  - rewrite map_length, seq_length. lia.
  - intros t Ht. apply in_map_iff in Ht. destruct Ht as [a [<- Ha]]. apply in_seq in Ha. apply H. lia.
Qed.

(* ---- sums over lists ---- *)
Definition sum_over (L : list (nat * nat)) (g : nat * nat -> R) : R := sum_to (List.length L) (fun l => g (nth l L (0, 0)%nat)).
Lemma over_app L L' g : sum_over (L ++ L') g = sum_over L g + sum_over L' g.
Proof.
  unfold sum_over. rewrite app_length, sum_split. f_equal; apply sum_ext; intros l Hl.
  - now rewrite app_nth1.
  - rewrite app_nth2 by lia. now replace (List.length L + l - List.length L)%nat with l by lia.
Qed.
Lemma over_map (h : nat -> nat * nat) n g : sum_over (map h (seq 0 n)) g = sum_to n (fun i => g (h i)).
Proof.
  unfold sum_over. rewrite map_length, seq_length. apply sum_ext. intros i Hi. f_equal. rewrite (nth_indep _ (0, 0)%nat (h 0%nat)) by (rewrite map_length, seq_length; exact Hi). rewrite map_nth, seq_nth by exact Hi. reflexivity.
Qed.
Lemma exps_S d : exps (S d) = exps d ++ map (fun n => (S d - n, n)%nat) (seq 0 (S d + 1)).
Proof.
  unfold exps. assert (E : seq 0 (S d + 1) = seq 0 (d + 1) ++ [S d]) by (replace (S d + 1)%nat with (S (d + 1)) by lia; rewrite seq_S; do 2 f_equal; lia).
  rewrite E at 1. rewrite flat_map_app. cbn [flat_map]. now rewrite app_nil_r.
Qed.
Lemma surface_list d c x y : surface d c x y = sum_over (exps d) (fun e => c (fst e) (snd e) * x ^ fst e * y ^ snd e).
Proof.
  induction d as [|d IH].
  - unfold exps, sum_over. cbn. ring.
  - rewrite exps_S, over_app, over_map, <- IH. reflexivity.
Qed.
Lemma exps_in d e : In e (exps d) <-> (fst e + snd e <= d)%nat.
Proof.
  unfold exps. rewrite in_flat_map. split.
  - intros [k [Hk H]]. apply in_seq in Hk. apply in_map_iff in H. destruct H as [n [<- Hn]]. apply in_seq in Hn. cbn. lia.
  - intros H. exists (fst e + snd e)%nat. split; [apply in_seq; lia|]. apply in_map_iff. exists (snd e). split; [destruct e as [u v]; cbn; f_equal; lia|]. apply in_seq. lia.
Qed.
Lemma nodup_app3 {A} (r s : list A) : (forall x, In x r -> ~ In x s) -> NoDup r -> NoDup s -> NoDup (r ++ s).
Proof.
  induction r as [|a r IH]; intros H Nr Ns; [exact Ns|]. cbn. inversion Nr; subst. constructor.
  - rewrite in_app_iff. intros [I|I]; [contradiction|]. exact (H a (or_introl eq_refl) I).
  - apply IH; auto. intros x Hx. apply H. now right.
Qed.
Lemma exps_nodup d : NoDup (exps d).
Proof.
  induction d as [|d IH]; [cbn; constructor; [intros []|constructor]|]. rewrite exps_S. apply nodup_app3; [|exact IH|].
  - intros e He Hm. apply exps_in in He. apply in_map_iff in Hm. destruct Hm as [n [<- Hn]]. apply in_seq in Hn. cbn [fst snd] in He. lia.
  - apply FinFun.Injective_map_NoDup; [|apply seq_NoDup]. intros n m E. now injection E.
Qed.
Lemma exps_prefix d : (1 <= d)%nat -> exists L, exps d = (0, 0)%nat :: (1, 0)%nat :: (0, 1)%nat :: L.
Proof.
  induction d as [|d IH]; intros H; [lia|]. destruct d as [|d]; [exists []; reflexivity|]. destruct (IH ltac:(lia)) as [L E]. rewrite exps_S, E. eexists. reflexivity.
Qed.
Lemma exps_zero d : exists L, exps d = (0, 0)%nat :: L.
Proof. destruct d as [|d]; [exists []; reflexivity|]. destruct (exps_prefix (S d) ltac:(lia)) as [L E]. eexists. exact E. Qed.
Lemma exps_length d : (2 * List.length (exps d) = (d + 1) * (d + 2))%nat.
Proof. induction d as [|d IH]; [reflexivity|]. rewrite exps_S, app_length, map_length, seq_length, Nat.mul_add_distr_l, IH. nia. Qed.

(* ---- the window ---- *)
Lemma sum_square w f : sum_to (w * w) f = sum_to w (fun a => sum_to w (fun b => f (a * w + b)%nat)).
Proof.
  enough (K : forall k, sum_to (k * w) f = sum_to k (fun a => sum_to w (fun b => f (a * w + b)%nat))) by apply K.
  induction k as [|k IH]; [reflexivity|]. cbn [sum_to]. rewrite <- IH. replace (S k * w)%nat with (k * w + w)%nat by lia. apply sum_split.
Qed.
Lemma div_mod w a b : (b < w)%nat -> ((a * w + b) / w = a /\ (a * w + b) mod w = b)%nat.
Proof. intros H. split; [rewrite Nat.div_add_l by lia; rewrite Nat.div_small by exact H; lia|]. rewrite Nat.add_comm, Nat.mod_add by lia. now apply Nat.mod_small. Qed.
Lemma neg_pow2 x u : (- x) ^ u = (-1) ^ u * x ^ u.
Proof. rewrite <- Rpow_mult_distr. f_equal. ring. Qed.
(* the coefficients of a flipped surface *)
Definition flipped (c : nat -> nat -> R) (order l : nat) : R := let e := nth l (exps order) (0, 0)%nat in (-1) ^ (fst e + snd e) * c (fst e) (snd e).
Lemma flipped_surface c order x y : surface order c (- x) (- y) = sum_to (List.length (exps order)) (fun l => x ^ fst (nth l (exps order) (0, 0)%nat) * y ^ snd (nth l (exps order) (0, 0)%nat) * flipped c order l).
Proof.
  rewrite surface_list. unfold sum_over. apply sum_ext. intros l Hl. unfold flipped. cbv zeta. rewrite (neg_pow2 x), (neg_pow2 y), pow_add. ring.
Qed.
Lemma pad_inside z s i j a b : (s <= i)%nat -> (i + s < rows z)%nat -> (s <= j)%nat -> (j + s < cols z)%nat -> (a <= 2 * s)%nat -> (b <= 2 * s)%nat ->
  pad z s (i + 2 * s - a) (j + 2 * s - b) = px z (i + (2 * s - a) - s)%nat (j + (2 * s - b) - s)%nat.
Proof.
  intros. unfold pad. cbv zeta. destruct (Nat.ltb_spec (i + 2 * s - a) s); [lia|]. destruct (Nat.ltb_spec (i + 2 * s - a) (s + rows z)); [|lia].
  destruct (Nat.ltb_spec (j + 2 * s - b) s); [lia|]. destruct (Nat.ltb_spec (j + 2 * s - b) (s + cols z)); [|lia]. f_equal; lia.
Qed.
(* the padded pixels around (i, j) are those of a surface *)
Definition padded (z : image) (s i j order : nat) (c : nat -> nat -> R) : Prop :=
  forall a b, (a <= 2 * s)%nat -> (b <= 2 * s)%nat -> pad z s (i + a) (j + b) = surface order c (INR a - INR s) (INR b - INR s).
Lemma inside_padded z s i j order c : (s <= i)%nat -> (i + s < rows z)%nat -> (s <= j)%nat -> (j + s < cols z)%nat -> looks_like (px z) i j s order c -> padded z s i j order c.
Proof.
  intros H1 H2 H3 H4 Lk a b Ha Hb. rewrite <- (Lk a b Ha Hb). replace (i + a)%nat with (i + 2 * s - (2 * s - a))%nat by lia. replace (j + b)%nat with (j + 2 * s - (2 * s - b))%nat by lia. rewrite pad_inside by lia. f_equal; lia.
Qed.
(* the filter on a surface: row [dim] of (P A) applied to the flipped coefficients *)
Lemma filter_surface z s order c i j k : let w := (2 * s + 1)%nat in padded z s i j order c ->
  px (convolved z s w k) i j = sum_to (List.length (exps order)) (fun l => sum_to (w * w) (fun r => k r * design w s order r l) * flipped c order l).
Proof.
  intros w Lk. cbn [convolved px].
  rewrite (sum_ext w _ (fun a => sum_to w (fun b => k (a * w + b)%nat * sum_to (List.length (exps order)) (fun l => design w s order (a * w + b)%nat l * flipped c order l)))).
  - rewrite <- (sum_square w (fun r => k r * sum_to (List.length (exps order)) (fun l => design w s order r l * flipped c order l))).
    rewrite (sum_ext (w * w) _ (fun r => sum_to (List.length (exps order)) (fun l => k r * design w s order r l * flipped c order l))).
    + rewrite sum_swap. apply sum_ext. intros l Hl. apply sum_scal_r.
    + intros r Hr. rewrite <- sum_scal. apply sum_ext. intros; ring.
  - intros a Ha. apply sum_ext. intros b Hb. f_equal. unfold w in Ha, Hb. replace (i + 2 * s - a)%nat with (i + (2 * s - a))%nat by lia. replace (j + 2 * s - b)%nat with (j + (2 * s - b))%nat by lia. rewrite (Lk (2 * s - a)%nat (2 * s - b)%nat) by lia.
    replace (INR (2 * s - a) - INR s) with (- (INR a - INR s)) by (rewrite minus_INR, mult_INR by lia; cbn; ring).
    replace (INR (2 * s - b) - INR s) with (- (INR b - INR s)) by (rewrite minus_INR, mult_INR by lia; cbn; ring).
    rewrite flipped_surface. apply sum_ext. intros l Hl. unfold design. cbv zeta. destruct (div_mod w a b ltac:(unfold w; lia)) as [-> ->]. reflexivity.
Qed.
