From Coq Require Import Reals List ZArith Lra Lia Permutation.
From Verif Require Import Base CyclesModel DamModel DamSpec.
Import ListNotations.
Local Open Scope R_scope.

Lemma power_nonneg a b : 0 <= power a b.
Proof. unfold power. destruct (Req_EM_T a 0); [destruct (Req_EM_T b 0); lra|]. left. apply exp_pos. Qed.
Lemma power_mult f a b : 0 < f -> 0 <= a -> power (f * a) b = Rpower f b * power a b.
Proof.
  intros F A. unfold power. destruct (Req_EM_T a 0) as [->|N].
  - rewrite Rmult_0_r. destruct (Req_EM_T 0 0); [|lra]. destruct (Req_EM_T b 0) as [->|]; [rewrite Rpower_O by exact F; lra|lra].
  - destruct (Req_EM_T (f * a) 0) as [E|_]; [apply Rmult_integral in E; lra|]. symmetry. apply Rpower_mult_distr; lra.
Qed.
Lemma power_mono a a' b : 0 < b -> 0 <= a <= a' -> power a b <= power a' b.
Proof.
  intros B A. unfold power at 1. destruct (Req_EM_T a 0) as [->|N]; [destruct (Req_EM_T b 0); [lra|apply power_nonneg]|].
  unfold power. destruct (Req_EM_T a' 0); [lra|]. apply Rle_Rpower_l; lra.
Qed.
Lemma power_strict a a' b : 0 < b -> 0 <= a < a' -> power a b < power a' b.
Proof.
  intros B A. unfold power. destruct (Req_EM_T a' 0); [lra|]. destruct (Req_EM_T a 0) as [->|N].
  - destruct (Req_EM_T b 0); [lra|]. apply exp_pos.
  - apply Rlt_Rpower_l; lra.
Qed.
(* one term *)
Definition term (c : R * R) (b : R) : R := power (range c / 2) b.
Lemma amp_range c : Rabs ((snd c - fst c) / 2) = range c / 2.
Proof. unfold range, Rdiv. rewrite Rabs_mult, (Rabs_pos_eq (/ 2)) by lra. reflexivity. Qed.
Lemma damage_terms cp beta K : damage cp beta K = map (fun b => K * total (map (fun c => term c b) cp)) beta.
Proof.
  unfold damage, amplitudes. apply map_ext. intros b. do 2 f_equal. rewrite !map_map. apply map_ext. intros c. unfold term. rewrite amp_range. reflexivity.
Qed.
Lemma total_app l1 l2 : total (l1 ++ l2) = total l1 + total l2.
Proof. induction l1 as [|a l1 IH]; cbn; [lra|rewrite IH; lra]. Qed.

Lemma damage_one : forall m M beta K, m <> M -> damage [(m, M)] beta K = map (fun b => K * Rpower (Rabs (M - m) / 2) b) beta.
Proof.
  intros m M beta K N. rewrite damage_terms. apply map_ext. intros b. cbn. unfold term, range, power. cbn [fst snd].
  pose proof (Rabs_pos_lt (M - m) ltac:(lra)). destruct (Req_EM_T (Rabs (M - m) / 2) 0); lra.
Qed.
Lemma damage_flat : forall m beta K, (forall b, In b beta -> 0 < b) -> damage [(m, m)] beta K = map (fun _ => 0) beta.
Proof.
  intros m beta K H. rewrite damage_terms. apply map_ext_in. intros b I. specialize (H b I). cbn. unfold term, range, power. cbn [fst snd].
  rewrite Rminus_diag_eq, Rabs_R0 by reflexivity. destruct (Req_EM_T (0 / 2) 0); [|lra]. destruct (Req_EM_T b 0); lra.
Qed.
Lemma damage_pow : forall cp n K, damage cp [INR n] K = [K * fold_right Rplus 0 (map (fun c => (range c / 2) ^ n) cp)].
Proof.
  intros cp n K. rewrite damage_terms. cbn [map]. do 2 f_equal. induction cp as [|c cp IH]; [reflexivity|]. cbn [map total fold_right]. rewrite IH. f_equal.
  unfold term, power. pose proof (Rabs_pos (snd c - fst c)). destruct (Req_EM_T (range c / 2) 0) as [E|E].
  - rewrite E. destruct n as [|n]; [destruct (Req_EM_T (INR 0) 0); [reflexivity|exfalso; apply n; reflexivity]|].
    destruct (Req_EM_T (INR (S n)) 0) as [B|_]; [pose proof (lt_0_INR (S n) ltac:(lia)); lra|]. cbn. lra.
  - apply Rpower_pow. unfold range in *. lra.
Qed.
Lemma damage_none : forall beta K, damage [] beta K = map (fun _ => 0) beta.
Proof. intros. apply map_ext. intros b. cbn. lra. Qed.
Lemma damage_sum : forall c1 c2 beta K, added (damage c1 beta K) (damage c2 beta K) (damage (c1 ++ c2) beta K).
Proof.
  intros c1 c2 beta K. rewrite !damage_terms. induction beta as [|b beta IH]; [constructor|]. cbn [map]. rewrite map_app, total_app, Rmult_plus_distr_l.
  constructor. exact IH.
Qed.
Lemma damage_perm : forall c1 c2 beta K, Permutation c1 c2 -> damage c1 beta K = damage c2 beta K.
Proof.
  intros c1 c2 beta K P. rewrite !damage_terms. apply map_ext. intros b. f_equal. apply (Permutation_map (fun c => term c b)) in P.
  induction P; cbn; lra.
Qed.
Lemma damage_map f cp beta K : (forall c, In c cp -> range (f c) = range c) -> damage (map f cp) beta K = damage cp beta K.
Proof.
  intros H. rewrite !damage_terms. apply map_ext. intros b. do 2 f_equal. rewrite map_map. apply map_ext_in. intros c I. unfold term. rewrite (H c I). reflexivity.
Qed.
Lemma damage_turned : forall cp beta K, damage (map turned cp) beta K = damage cp beta K.
Proof. intros. apply damage_map. intros c _. unfold range, turned. cbn. rewrite Rabs_minus_sym. reflexivity. Qed.
Lemma damage_moved : forall s cp beta K, damage (map (moved s) cp) beta K = damage cp beta K.
Proof. intros. apply damage_map. intros c _. unfold range, moved. cbn. f_equal. lra. Qed.
Lemma damage_enlarged : forall f cp beta K i, f <> 0 -> (i < List.length beta)%nat ->
  nth i (damage (map (enlarged f) cp) beta K) 0 = Rpower (Rabs f) (nth i beta 0) * nth i (damage cp beta K) 0.
Proof.
  intros f cp beta K i F I. rewrite !damage_terms.
  set (g := fun b => K * total (map (fun c => term c b) (map (enlarged f) cp))). set (h := fun b => K * total (map (fun c => term c b) cp)).
  rewrite (nth_indep (map g beta) 0 (g 0)), (nth_indep (map h beta) 0 (h 0)) by (rewrite map_length; exact I). rewrite !map_nth. unfold g, h.
  set (b := nth i beta 0). assert (E : total (map (fun c => term c b) (map (enlarged f) cp)) = Rpower (Rabs f) b * total (map (fun c => term c b) cp)).
  { rewrite map_map. clear -F. induction cp as [|c cp IH]; cbn; [lra|]. rewrite IH. unfold term at 1. unfold range, enlarged. cbn [fst snd].
    replace (f * snd c - f * fst c) with (f * (snd c - fst c)) by lra. rewrite Rabs_mult. unfold Rdiv. rewrite Rmult_assoc.
    rewrite power_mult; [|apply Rabs_pos_lt; exact F|apply Rmult_le_pos; [apply Rabs_pos|lra]]. unfold term, range, Rdiv. lra. }
  rewrite E. lra.
Qed.
Lemma damage_order : forall c1 c2 beta K i, Forall2 (fun a b => range a <= range b) c1 c2 -> 0 <= K -> 0 < nth i beta 0 -> (i < List.length beta)%nat ->
  0 <= nth i (damage c1 beta K) 0 <= nth i (damage c2 beta K) 0.
Proof.
  intros c1 c2 beta K i H KP B I. rewrite !damage_terms.
  set (g := fun b => K * total (map (fun c => term c b) c1)). set (h := fun b => K * total (map (fun c => term c b) c2)).
  rewrite (nth_indep (map g beta) 0 (g 0)), (nth_indep (map h beta) 0 (h 0)) by (rewrite map_length; exact I). rewrite !map_nth. unfold g, h.
  set (b := nth i beta 0) in *. assert (E : 0 <= total (map (fun c => term c b) c1) <= total (map (fun c => term c b) c2)).
  { clear -H B. induction H as [|a c l1 l2 R H IH]; cbn; [lra|]. unfold term at 1 3 5.
    pose proof (power_nonneg (range a / 2) b). pose proof (power_mono (range a / 2) (range c / 2) b B ltac:(pose proof (Rabs_pos (snd a - fst a)); unfold range in *; lra)). lra. }
  split; [apply Rmult_le_pos; lra|apply Rmult_le_compat_l; lra].
Qed.

Lemma damage_entries : forall cp beta K, List.length (damage cp beta K) = List.length beta.
Proof. intros. apply map_length. Qed.
Lemma damage_case : damage [(0, 2); (5, 1)] [1; 2] 3 = [9; 15].
Proof.
  change 1 with (INR 1) at 2. change 2 with (INR 2) at 2.
  assert (E : forall a b, damage [(0, 2); (5, 1)] [a; b] 3 = damage [(0, 2); (5, 1)] [a] 3 ++ damage [(0, 2); (5, 1)] [b] 3) by reflexivity.
  rewrite E, !damage_pow. cbn [map fold_right app range fst snd]. unfold range. cbn [fst snd]. rewrite (Rabs_pos_eq (2 - 0)), (Rabs_left (1 - 5)) by lra.
  f_equal; [lra|f_equal; lra].
Qed.
(* get_minima_and_maxima *)
Local Open Scope Z_scope.
Lemma ends_up : forall cp, cp <> [] -> (forall c, In c cp -> fst c <= snd c) -> minima_and_maxima cp = map low_high cp.
Proof.
  intros cp N H. unfold minima_and_maxima. assert (E : filter (fun c => fst c <=? snd c) cp = cp).
  { clear N. induction cp as [|c cp IH]; [reflexivity|]. cbn. destruct (Z.leb_spec (fst c) (snd c)); [|specialize (H c (or_introl eq_refl)); lia].
    rewrite IH by (intros d D; apply H; right; exact D). reflexivity. }
  rewrite E. destruct cp as [|c cp]; [congruence|]. clear N E. revert H. generalize (c :: cp). intros l H. induction l as [|d l IH]; [reflexivity|].
  cbn. rewrite <- IH by (intros e E; apply H; right; exact E). specialize (H d (or_introl eq_refl)). unfold low_high. rewrite Z.min_l, Z.max_r by lia.
  destruct d; reflexivity.
Qed.
Lemma ends_down : forall cp, (forall c, In c cp -> snd c < fst c) -> minima_and_maxima cp = map low_high cp.
Proof.
  intros cp H. unfold minima_and_maxima. assert (E : filter (fun c => fst c <=? snd c) cp = []).
  { induction cp as [|c cp IH]; [reflexivity|]. cbn. destruct (Z.leb_spec (fst c) (snd c)); [specialize (H c (or_introl eq_refl)); lia|].
    apply IH. intros d D. apply H. right. exact D. }
  rewrite E. clear E. induction cp as [|c cp IH]; [reflexivity|]. pose proof (H c (or_introl eq_refl)). cbn. rewrite Z.geb_leb. destruct (Z.leb_spec (snd c) (fst c)); [|lia].
  cbn. rewrite IH by (intros d D; apply H; right; exact D). unfold low_high. rewrite Z.min_r, Z.max_l by lia. reflexivity.
Qed.
Lemma ends_mixed : forall cp, (exists c, In c cp /\ fst c <= snd c) -> minima_and_maxima cp = map low_high (filter (fun c => fst c <=? snd c) cp).
Proof.
  intros cp [c [I L]]. rewrite <- ends_up.
  - unfold minima_and_maxima. set (l := filter (fun c => fst c <=? snd c) cp). assert (E : filter (fun c => fst c <=? snd c) l = l).
    { unfold l. clear. induction cp as [|c cp IH]; [reflexivity|]. cbn. destruct (fst c <=? snd c) eqn:E; [cbn; rewrite E, IH; reflexivity|exact IH]. }
    rewrite E. assert (In c l) by (apply filter_In; split; [exact I|apply Z.leb_le; exact L]). destruct l; [contradiction|reflexivity].
  - intros E. assert (J : In c (filter (fun c => fst c <=? snd c) cp)) by (apply filter_In; split; [exact I|apply Z.leb_le; exact L]). rewrite E in J. exact J.
  - intros d D. apply filter_In in D. apply Z.leb_le. apply D.
Qed.
Lemma ends_lost : ~ (forall cp, minima_and_maxima cp = map low_high cp).
Proof. intros H. specialize (H [(0, 2); (5, 1)]). discriminate H. Qed.
