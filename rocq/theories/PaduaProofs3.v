From Coq Require Import Reals Lra Lia Psatz.
From Coquelicot Require Import Complex.
From Verif Require Import Base PolyModel KdeModel OrthoModel OrthoProofs ChebSpec ChebProofs ChebProofs2 ChebProofs3 DftModel DftProofs ProcModel PaduaModel PaduaSpec PaduaProofs PaduaProofs2.
Local Open Scope R_scope.

Definition first (k : nat) : R := if (k =? 0)%nat then / sqrt 2 else 1.
(* the coefficient (k, l) of the values F j i *)
Definition coef (n : nat) (F : nat -> nat -> R) (k l : nat) : R :=
  4 / (INR n * (INR n + 1)) * first k * first l * (if (k =? n)%nat then / 2 else 1) * over n (fun j i => F j i * (cos (INR k * theta n j) * cos (INR l * theta (n + 1) i))).
Definition coefs (n : nat) (F : nat -> nat -> R) (k l : nat) : R := if (k + l <=? n)%nat then coef n F k l else 0.
Definition matrix (n : nat) (c : nat -> nat -> R) : list (list R) := map (fun k => map (c k) (seq 0 (n + 1))) (seq 0 (n + 1)).
Definition at_node (n : nat) (dom : domain) (f : R -> R -> R) (j i : nat) : R := let (x, y) := padua_node n dom j i in f x y.

Lemma in_places n j i : (j <= n)%nat -> (i <= n + 1)%nat -> existsb (Nat.eqb (j * (n + 2) + i)) (find_m n) = Nat.odd (i + j).
Proof.
  intros Hj Hi. rewrite find_m_grid. destruct (Nat.odd (i + j)) eqn:O.
  - apply existsb_exists. exists (place n (j, i)). split; [apply in_map, in_grid; easy|apply Nat.eqb_refl].
  - apply Bool.not_true_is_false. intros E. apply existsb_exists in E as (x & I & E). apply in_map_iff in I as ((j', i') & <- & I). apply in_grid in I as (A & B & C). apply Nat.eqb_eq in E. unfold place in E. cbn [fst snd] in E.
    assert (j = j') by nia. subst j'. assert (i = i') by lia. subst i'. congruence.
Qed.
Lemma place_bound n p : In p (find_m n) -> (p < (n + 2) * (n + 1))%nat.
Proof. rewrite find_m_grid. intros I. apply in_map_iff in I as ((j, i) & <- & I). apply in_grid in I as (A & B & C). unfold place. cbn [fst snd]. nia. Qed.
Lemma place_div n j i : (i <= n + 1)%nat -> ((j * (n + 2) + i) / (n + 2) = j /\ (j * (n + 2) + i) mod (n + 2) = i)%nat.
Proof.
  intros Hi. split.
  - symmetry. apply (Nat.div_unique _ _ _ i); lia.
  - symmetry. apply (Nat.mod_unique _ _ j); lia.
Qed.
Lemma matrix_ext n c d : (forall k l, (k <= n)%nat -> (l <= n)%nat -> c k l = d k l) -> matrix n c = matrix n d.
Proof. intros H. apply map_ext_in. intros k K. apply in_seq in K. apply map_ext_in. intros l L. apply in_seq in L. apply H; lia. Qed.
Lemma fit_value n dom f : (1 <= n)%nat -> let m := matrix n (coefs n (at_node n dom f)) in padua_fit (padua_points n dom) f = Ok (m, error_estimate m).
Proof.
  intros Hn m. unfold padua_fit. rewrite points_length, degree_points. assert ((0 <? n)%nat = true) as -> by (apply Nat.ltb_lt; lia).
  rewrite map_length, points_length, find_m_length, Nat.eqb_refl. cbn [negb].
  set (F := at_node n dom f).
  set (g := fun p => F (p / (n + 2))%nat (p mod (n + 2))%nat * 2 / (INR n * (INR n + 1))).
  assert (V : map (fun y => y * 2 / (INR n * (INR n + 1))) (map (fun p => f (fst p) (snd p)) (padua_points n dom)) = map g (find_m n)).
  { rewrite points_grid by easy. rewrite find_m_grid, !map_map. apply map_ext_in. intros (j, i) I. apply in_grid in I as (A & B & _). unfold g, place. cbn [fst snd].
    destruct (place_div n j i B) as (-> & ->). unfold F, at_node. destruct (padua_node n dom j i); reflexivity. }
  rewrite V. clear V.
  match goal with |- Ok (?a, _) = _ => assert (E : a = m); [|now rewrite E] end.
  apply matrix_ext. intros k l Hk Hl. unfold coefs, coef.
  assert (Hnp : 0 < INR n) by (apply lt_0_INR; lia). assert (Hn1 : 0 < INR n * (INR n + 1)) by nra.
  assert (Q : real_fft (2 * (n + 1)) (n + 2) (fun i => real_fft (2 * n) (n + 1) (fun j => halve_col n (halve_col 0 (halve_row (n + 1) (halve_row 0 (fun i j => at_R (scatter (repeat 0 ((n + 2) * (n + 1))) (find_m n) (map g (find_m n))) (j * (n + 2) + i))))) i j) k) l
    = 2 / (INR n * (INR n + 1)) * over n (fun j i => F j i * (cos (INR k * theta n j) * cos (INR l * theta (n + 1) i)))).
  { rewrite real_fft_value by lia. rewrite (vsum_ext _ _ (fun i => vsum (n + 1) (fun j => 2 / (INR n * (INR n + 1)) * (parity i j * (edge n j * edge (n + 1) i) * (F j i * (cos (INR k * theta n j) * cos (INR l * theta (n + 1) i))))))).
    - rewrite vsum_swap. unfold over. rewrite <- vsum_scal. apply vsum_ext. intros j _. now rewrite <- vsum_scal.
    - intros i Hi. rewrite real_fft_value by lia. rewrite Rmult_comm, <- vsum_scal. apply vsum_ext. intros j Hj.
      assert (S1 : at_R (scatter (repeat 0 ((n + 2) * (n + 1))) (find_m n) (map g (find_m n))) (j * (n + 2) + i) = parity i j * (F j i * 2 / (INR n * (INR n + 1)))).
      { rewrite scatter_at by (intros p I; rewrite repeat_length; now apply place_bound). rewrite in_places by lia. unfold parity. destruct (Nat.odd (i + j)).
        - unfold g. destruct (place_div n j i ltac:(lia)) as (-> & ->). ring.
        - unfold at_R. rewrite nth_repeat. ring. }
      unfold halve_col, halve_row. rewrite S1. unfold edge.
      destruct (Nat.eqb_spec j n); destruct (Nat.eqb_spec j 0); destruct (Nat.eqb_spec i (n + 1)); destruct (Nat.eqb_spec i 0); try lia; field; lra. }
  destruct sqrt2 as (W & W2).
  replace (k <=? n - l)%nat with (k + l <=? n)%nat by (destruct (Nat.leb_spec (k + l) n), (Nat.leb_spec k (n - l)); lia || reflexivity).
  destruct (Nat.leb_spec (k + l) n) as [L|L]; [|destruct (k =? n)%nat; field].
  cbv zeta. rewrite Q. unfold first. fold F. destruct (k =? 0)%nat, (l =? 0)%nat, (k =? n)%nat; field; lra.
Qed.

Definition scal (k : nat) : R := if (k =? 0)%nat then 1 else sqrt 2.
Lemma that_node n a b j k : (1 <= n)%nat -> a < b -> that k (map_to_interval (cos (INR j * PI / INR n)) a b) a b = scal k * cos (INR k * theta n j).
Proof.
  intros Hn H. assert (E : map_from_interval (map_to_interval (cos (INR j * PI / INR n)) a b) a b = cos (theta n j)) by (unfold map_from_interval, map_to_interval, theta; field; lra).
  unfold that, scal. destruct k; cbn [Nat.eqb INR]; [rewrite Rmult_0_l, cos_0; ring|]. rewrite E, T_cos. reflexivity.
Qed.
Lemma coef_basis n k l k' l' : (1 <= n)%nat -> (k + l <= n)%nat -> (k' + l' <= n)%nat ->
  coef n (fun j i => scal k' * cos (INR k' * theta n j) * (scal l' * cos (INR l' * theta (n + 1) i))) k l = same k k' * same l l'.
Proof.
  intros Hn H H'. unfold coef.
  assert (E : over n (fun j i => scal k' * cos (INR k' * theta n j) * (scal l' * cos (INR l' * theta (n + 1) i)) * (cos (INR k * theta n j) * cos (INR l * theta (n + 1) i)))
    = scal k' * scal l' * (INR n * (INR n + 1) / 8 * (same k k' * (1 + same k 0 + same k n)) * (same l l' * (1 + same l 0)))).
  { rewrite <- (orthogonality n k l k' l') by easy. rewrite <- over_scal. apply over_ext. intros; ring. }
  rewrite E. assert (0 < INR n) by (apply lt_0_INR; lia). destruct sqrt2 as (W & W2).
  unfold same. destruct (Nat.eqb_spec k k') as [->|]; [|field; split; nra]. destruct (Nat.eqb_spec l l') as [->|]; [|field; split; nra].
  unfold scal, first. destruct (Nat.eqb_spec k' n); destruct (Nat.eqb_spec k' 0); destruct (Nat.eqb_spec l' 0); subst; try lia; field_simplify_eq; try (split; nra || lra); try nra; try lra.
Qed.
Lemma coefs_add n F G k l : coefs n (fun j i => F j i + G j i) k l = coefs n F k l + coefs n G k l.
Proof. unfold coefs, coef. destruct (k + l <=? n)%nat; [|ring]. rewrite (over_ext n _ (fun j i => F j i * (cos (INR k * theta n j) * cos (INR l * theta (n + 1) i)) + G j i * (cos (INR k * theta n j) * cos (INR l * theta (n + 1) i)))) by (intros; ring). rewrite over_add. ring. Qed.
Lemma coefs_scal n c F k l : coefs n (fun j i => c * F j i) k l = c * coefs n F k l.
Proof. unfold coefs, coef. destruct (k + l <=? n)%nat; [|ring]. rewrite (over_ext n _ (fun j i => c * (F j i * (cos (INR k * theta n j) * cos (INR l * theta (n + 1) i))))) by (intros; ring). rewrite over_scal. ring. Qed.
Lemma coefs_ext n F G k l : (forall j i, (j <= n)%nat -> (i <= n + 1)%nat -> Nat.odd (i + j) = true -> F j i = G j i) -> coefs n F k l = coefs n G k l.
Proof. intros H. unfold coefs, coef. destruct (k + l <=? n)%nat; [|reflexivity]. f_equal. apply over_ext. intros j i A B C. now rewrite H. Qed.
Lemma coefs_zero n k l : coefs n (fun _ _ => 0) k l = 0.
Proof. rewrite (coefs_ext n _ (fun j i => 0 * 0)) by (intros; ring). rewrite coefs_scal. ring. Qed.
Lemma coefs_sum n N (F : nat -> nat -> nat -> R) k l : coefs n (fun j i => vsum N (fun q => F q j i)) k l = vsum N (fun q => coefs n (F q) k l).
Proof. induction N; cbn [vsum]; [apply coefs_zero|]. now rewrite coefs_add, IHN. Qed.

(* ---- evaluation ---- *)
Lemma npsum_vsum n f : npsum (map f (seq 0 n)) = vsum n f.
Proof.
  induction n; [reflexivity|]. rewrite seq_S, map_app. cbn [vsum map Nat.add]. rewrite <- IHn. unfold npsum. rewrite fold_right_app. cbn [fold_right]. rewrite Rplus_0_r.
  generalize (map f (seq 0 n)) as u. intros u. generalize (f n) as v. induction u; intros v; cbn [fold_right]; [ring|]. rewrite IHu. ring.
Qed.
Lemma matrix_width n c : List.length (hd [] (matrix n c)) = (n + 1)%nat.
Proof. unfold matrix. rewrite Nat.add_1_r. cbn [seq map hd]. now rewrite map_length, <- Nat.add_1_r, seq_length || (cbn; now rewrite map_length, seq_length). Qed.
Lemma matrix_at n c k l : (k <= n)%nat -> (l <= n)%nat -> at_M (matrix n c) k l = c k l.
Proof.
  intros Hk Hl. unfold at_M, matrix, at_R. rewrite (nth_indep _ [] (map (c 0%nat) (seq 0 (n + 1)))) by (rewrite map_length, seq_length; lia). rewrite (map_nth (fun k => map (c k) (seq 0 (n + 1)))), seq_nth by lia. cbn [Nat.add].
  rewrite (nth_indep _ 0 (c k 0%nat)) by (rewrite map_length, seq_length; lia). now rewrite (map_nth (c k)), seq_nth by lia.
Qed.
Lemma clip_in x : -1 <= x <= 1 -> clip x = x.
Proof. intros H. unfold clip. rewrite Rmax_left, Rmin_left by lra. reflexivity. Qed.
Lemma from_range x a b : a < b -> a <= x <= b -> -1 <= map_from_interval x a b <= 1.
Proof.
  intros H Hx. unfold map_from_interval. replace ((x - (b + a) / 2) * (2 / (b - a))) with ((2 * x - (b + a)) / (b - a)) by (field; lra). split; [apply Rmult_le_reg_r with (b - a)|apply Rmult_le_reg_r with (b - a)]; try lra; unfold Rdiv; rewrite Rmult_assoc, Rinv_l; lra.
Qed.
Lemma transform_that k x a b : a < b -> a <= x <= b -> transform k x a b = that k x a b.
Proof.
  intros H Hx. unfold transform, that. destruct k; [reflexivity|]. cbn [Nat.eqb]. pose proof (from_range x a b H Hx) as B. rewrite clip_in by easy. rewrite <- (cos_acos (map_from_interval x a b)) at 2 by easy. rewrite T_cos. ring.
Qed.
Lemma val_series n c dom x y : rectangle dom -> inside dom x y -> padua_val x y (matrix n c) dom = cheb_series n c dom x y.
Proof.
  intros Rd In_. destruct dom as [[[a b] c1] d]. destruct Rd as (A & B). destruct In_ as (X & Y). unfold padua_val, cheb_series. rewrite matrix_width. rewrite npsum_vsum. rewrite vsum_swap. apply vsum_ext. intros l Hl. rewrite npsum_vsum, Rmult_comm, <- vsum_scal. apply vsum_ext. intros k Hk.
  rewrite matrix_at by lia. rewrite !transform_that by easy. ring.
Qed.
