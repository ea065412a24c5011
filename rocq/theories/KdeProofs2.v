(* evaluation at points *)
From Coq Require Import Reals Lra Lia.
From Verif Require Import Base PolyModel FilterProofs3 GridSpec GridModel GridProofs GridProofs3 GridProofs4 GridProofs5 GridProofs6 KdeModel KdeSpec.
Local Open Scope R_scope.

Lemma vec_sub_minus x : forall X, vec_sub x X = minus_vec x X.
Proof. induction x as [|a x IH]; intros [|b X]; try reflexivity. cbn. f_equal. apply IH. Qed.
Lemma dot_inner a : forall x, dot a x = inner a x.
Proof. induction a as [|u a IH]; intros [|v x]; try reflexivity. unfold dot, npsum. cbn. f_equal. apply IH. Qed.
Lemma mat_vec_apply m x : mat_vec m x = apply_matrix m x.
Proof. apply map_ext. intros row. apply dot_inner. Qed.
Lemma inner_scaled l a : forall x, inner (map (fun v => v / l) a) x = inner a (map (fun v => v / l) x).
Proof. induction a as [|u a IH]; intros [|v x]; try reflexivity. cbn. rewrite IH. unfold Rdiv. ring. Qed.
Lemma mat_vec_scaled m l x : mat_vec (map (map (fun v => v / l)) m) x = apply_matrix m (map (fun v => v / l) x).
Proof. unfold mat_vec, apply_matrix. rewrite map_map. apply map_ext. intros row. rewrite dot_inner. apply inner_scaled. Qed.
Lemma moment_power r x : moment_fun r x = power_sum r x.
Proof. destruct r; reflexivity. Qed.
Lemma nth_combine_div y lam d i : List.length y = List.length lam -> (i < List.length y)%nat ->
  at_R (map (fun p => fst p / snd p ^ d) (combine y lam)) i = nth i y 0 / nth i lam 0 ^ d.
Proof.
  intros HL Hi. unfold at_R. transitivity ((fun p : R * R => fst p / snd p ^ d) (nth i (combine y lam) (0, 0))).
  - rewrite <- (map_nth (fun p : R * R => fst p / snd p ^ d)). apply nth_indep. rewrite map_length, combine_length. lia.
  - rewrite combine_nth by easy. reflexivity.
Qed.
Lemma loop_fold {A} (f : nat -> A -> R) points : forall is g,
  fold_left (fun result i => map (fun q => snd q + f i (fst q)) (combine points result)) is (map g points) =
  map (fun p => g p + sumR (map (fun i => f i p) is)) points.
Proof.
  induction is as [|i is IH]; intros g; cbn [fold_left map sumR fold_right].
  - apply map_ext. intros p. unfold sumR. cbn. lra.
  - rewrite combine_map_r_self, map_map. cbn [fst snd]. rewrite (IH (fun p => g p + f i p)). apply map_ext. intros p. unfold sumR. cbn [fold_right]. lra.
Qed.
Lemma eval_points_value k points y r : List.length y = List.length (dataset k) -> List.length (lambda_ k) = List.length (dataset k) ->
  (forall p, In p points -> List.length p = List.length (inv_hs k)) -> eval_points k points y r = Ok (map (estimate k y r) points).
Proof.
  intros Hy Hl Hp. unfold eval_points. rewrite (proj2 (forallb_forall _ _)) by (intros p Hin; apply Nat.eqb_eq; now apply Hp).
  destruct (_ <=? _)%nat; f_equal.
  - unfold loop_over_data. unfold y_d_lambda.
    set (f := fun i (p : list R) => moment_fun r (vec_sub p (nth i (dataset k) [])) * kernel k (mat_vec (map (map (fun v => v / at_R (lambda_ k) i)) (inv_hs k)) (vec_sub p (nth i (dataset k) []))) * at_R (map (fun p => fst p / snd p ^ List.length (inv_hs k)) (combine y (lambda_ k))) i).
    replace (repeat 0 (List.length points)) with (map (fun _ : list R => 0) points) by (clear; induction points; cbn; congruence).
    pose proof (loop_fold f points (seq 0 (List.length (dataset k))) (fun _ => 0)) as L. unfold f in L at 1.
    cbv zeta. rewrite L, map_map. apply map_ext. intros p. unfold estimate. f_equal. rewrite Rplus_0_l. apply sumR_ext. intros i Hi. apply in_seq in Hi.
    unfold f. rewrite nth_combine_div by lia. rewrite moment_power, mat_vec_scaled, vec_sub_minus. unfold at_R. ring.
  - unfold loop_over_points, y_d_lambda. rewrite map_map. apply map_ext. intros p. unfold estimate. f_equal. change npsum with sumR. apply sumR_ext. intros i Hi. apply in_seq in Hi.
    cbv zeta. rewrite nth_combine_div by lia. rewrite moment_power, mat_vec_apply, vec_sub_minus. unfold at_R. ring.
Qed.
Lemma eval_points_error k points y r p : In p points -> List.length p <> List.length (inv_hs k) -> eval_points k points y r = Err ValueError.
Proof.
  intros Hin Hne. unfold eval_points. destruct (forallb _ _) eqn:E; [|reflexivity]. rewrite forallb_forall in E. apply E in Hin. apply Nat.eqb_eq in Hin. easy.
Qed.
Lemma power_sum_one r v : power_sum r [v] = v ^ r.
Proof. destruct r; unfold power_sum, sumR; cbn; ring. Qed.
Lemma sumR_combine3 (f : R -> R -> R -> R) X : forall lam y, List.length lam = List.length X -> List.length y = List.length X ->
  sumR (map (fun i => f (nth i X 0) (nth i lam 0) (nth i y 0)) (seq 0 (List.length X))) =
  sumR (map (fun p => let '(Xi, (l, yi)) := p in f Xi l yi) (combine X (combine lam y))).
Proof.
  induction X as [|a X IH]; intros [|l lam] [|b y] H1 H2; try discriminate; [reflexivity|]. cbn [List.length seq map combine]. unfold sumR. cbn [fold_right nth].
  f_equal. rewrite <- seq_shift, map_map. apply IH; cbn in *; lia.
Qed.
Lemma estimate_1d_spec kern c h X lam y r x : h <> 0 -> c <> 0 -> X <> [] -> List.length lam = List.length X -> List.length y = List.length X -> (forall l, In l lam -> l <> 0) ->
  estimate (kde_1d kern c h X lam) y r [x] = estimate_1d kern c h X lam y r x.
Proof.
  intros Hh Hc HX Hl Hy Hn0. unfold estimate, estimate_1d, kde_1d. cbn [dataset inv_hs lambda_ kernel norm_factor]. rewrite map_length. cbn [List.length].
  rewrite <- (sumR_combine3 (fun Xi l yi => yi * (x - Xi) ^ r * (/ (h * l) * kern ((x - Xi) / (h * l))))) by easy.
  assert (HN : INR (List.length X) <> 0) by (destruct X; [easy|apply not_0_INR; discriminate]).
  match goal with |- ?A / _ = ?B / _ => cut (A = h * B); [intros ->; field; auto|] end. rewrite <- sumR_map_scal. apply sumR_ext. intros i Hi. apply in_seq in Hi.
  assert (Hli : nth i lam 0 <> 0) by (apply Hn0, nth_In; lia).
  replace (nth i (map (fun v => [v]) X) []) with [nth i X 0] by (rewrite <- (map_nth (fun v => [v])); apply nth_indep; rewrite map_length; lia). cbn [minus_vec map apply_matrix inner hd].
  rewrite power_sum_one. replace (/ h * ((x - nth i X 0) / nth i lam 0) + 0) with ((x - nth i X 0) / (h * nth i lam 0)) by (field; auto). field. auto.
Qed.
