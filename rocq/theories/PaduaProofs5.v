From Coq Require Import Reals Lra Lia Psatz.
From Coquelicot Require Import Coquelicot.
From Verif Require Import Base PolyModel KdeModel OrthoModel OrthoProofs ChebSpec ChebProofs ChebProofs2 ChebProofs3 SplineSpec SplineProofs LinAlg ProcModel QuadProofs QuadProofs2 QuadProofs4 PaduaModel PaduaSpec PaduaProofs PaduaProofs2 PaduaProofs3 PaduaProofs4.
Local Open Scope R_scope.
Local Notation is_int := (@is_RInt R_NormedModule).

Lemma sum_abs_seq n g : sum_abs (map g (seq 0 n)) = vsum n (fun k => Rabs (g k)).
Proof. unfold sum_abs. rewrite map_map. apply npsum_vsum. Qed.
Lemma estimate_matrix n c : (forall k l, (n < k + l)%nat -> c k l = 0) -> error_estimate (matrix n c) = 2 * vsum (n + 1) (fun k => Rabs (c k (n - k)%nat)).
Proof.
  intros Z. unfold error_estimate. rewrite matrix_width. unfold antidiagonal. rewrite !sum_abs_seq.
  assert (A : forall p, (1 <= p)%nat -> vsum (n + 1 - p) (fun k => Rabs (at_M (matrix n c) (k + p) (n + 1 - 1 - k))) = 0).
  { intros p P. apply vsum_0. intros k K. rewrite matrix_at by lia. rewrite Z by lia. apply Rabs_R0. }
  rewrite (A 1%nat), (A 2%nat) by lia. rewrite Nat.sub_0_r.
  rewrite (vsum_ext _ (fun k => Rabs (at_M (matrix n c) (k + 0) (n + 1 - 1 - k))) (fun k => Rabs (c k (n - k)%nat))).
  - destruct (1 <=? n + 1)%nat, (2 <=? n + 1)%nat; ring.
  - intros k K. rewrite matrix_at by lia. do 2 f_equal; lia.
Qed.
Lemma coefs_high n F k l : (n < k + l)%nat -> coefs n F k l = 0.
Proof. intros H. unfold coefs. apply Nat.leb_gt in H. now rewrite H. Qed.
Lemma matrix_square n c : square_matrix (n + 1) (matrix n c).
Proof. split; [unfold matrix; now rewrite map_length, seq_length|]. intros r I. apply in_map_iff in I as (k & <- & _). now rewrite map_length, seq_length. Qed.
Lemma at_M_row c k l : (List.length c <= k)%nat -> at_M c k l = 0.
Proof. intros H. unfold at_M. rewrite nth_overflow by easy. unfold at_R. now destruct l. Qed.
Lemma at_M_col c k l m : square_matrix m c -> (m <= l)%nat -> at_M c k l = 0.
Proof.
  intros (A & B) H. unfold at_M. destruct (Nat.lt_ge_cases k (List.length c)) as [K|K].
  - unfold at_R. apply nth_overflow. rewrite (B (nth k c [])); [easy|now apply nth_In].
  - rewrite nth_overflow by easy. unfold at_R. now destruct l.
Qed.
(* ---- the fit ---- *)
Lemma fit_shape n dom f : (1 <= n)%nat -> exists m, padua_fit (padua_points n dom) f = Ok (m, 2 * vsum (n + 1) (fun k => Rabs (at_M m k (n - k)))) /\ square_matrix (n + 1) m /\ forall k l, (n < k + l)%nat -> at_M m k l = 0.
Proof.
  intros Hn. exists (matrix n (coefs n (at_node n dom f))). split; [|split].
  - rewrite fit_value by easy. do 2 f_equal. rewrite estimate_matrix by (intros; now apply coefs_high). f_equal. apply vsum_ext. intros k K. now rewrite matrix_at by lia.
  - apply matrix_square.
  - intros k l H. destruct (Nat.lt_ge_cases n k); [apply at_M_row; pose proof (proj1 (matrix_square n (coefs n (at_node n dom f)))); lia|].
    destruct (Nat.lt_ge_cases n l); [apply (at_M_col _ _ _ (n + 1)); [apply matrix_square|lia]|]. rewrite matrix_at by easy. now apply coefs_high.
Qed.
Lemma fit_onto n dom c : (1 <= n)%nat -> rectangle dom ->
  exists f m e, padua_fit (padua_points n dom) f = Ok (m, e) /\ forall k l, at_M m k l = if (k + l <=? n)%nat then c k l else 0.
Proof.
  intros Hn Rd. exists (cheb_series n (mask n c) dom). destruct (fit_shape n dom (cheb_series n (mask n c) dom) Hn) as (m & E & S1 & Z). exists m. eexists. split; [exact E|].
  intros k l. destruct (Nat.leb_spec (k + l) n) as [L|L]; [|now apply Z]. rewrite fit_value in E by easy. injection E as <- _. rewrite matrix_at by lia. rewrite coefs_series by (easy || lia). unfold mask. apply Nat.leb_le in L. now rewrite L.
Qed.
Lemma fit_depends n dom f g : (1 <= n)%nat -> (forall x y, In (x, y) (padua_points n dom) -> f x y = g x y) -> padua_fit (padua_points n dom) f = padua_fit (padua_points n dom) g.
Proof.
  intros Hn H. rewrite !fit_value by easy. assert (E : matrix n (coefs n (at_node n dom f)) = matrix n (coefs n (at_node n dom g))); [|now rewrite E].
  apply matrix_ext. intros k l _ _. apply coefs_ext. intros j i J I O. unfold at_node. destruct (padua_node n dom j i) as (u, v) eqn:E. apply H, points_in; [easy|]. exists j, i. now rewrite E.
Qed.
Lemma fit_determines n dom f g : (1 <= n)%nat -> rectangle dom -> padua_fit (padua_points n dom) f = padua_fit (padua_points n dom) g -> forall x y, In (x, y) (padua_points n dom) -> f x y = g x y.
Proof.
  intros Hn Rd E x y I. destruct (interpolates n dom f Hn Rd) as (m & e & F & V). destruct (interpolates n dom g Hn Rd) as (m' & e' & G & V'). rewrite <- V, <- V' by easy. rewrite F, G in E. now injection E as -> _.
Qed.
Lemma fit_linear n dom f g s t : (1 <= n)%nat -> exists mf mg m ef eg e,
  padua_fit (padua_points n dom) f = Ok (mf, ef) /\ padua_fit (padua_points n dom) g = Ok (mg, eg) /\ padua_fit (padua_points n dom) (fun x y => s * f x y + t * g x y) = Ok (m, e)
  /\ forall k l, at_M m k l = s * at_M mf k l + t * at_M mg k l.
Proof.
  intros Hn. destruct (fit_shape n dom f Hn) as (mf & F & Sf & Zf). destruct (fit_shape n dom g Hn) as (mg & G & Sg & Zg). destruct (fit_shape n dom (fun x y => s * f x y + t * g x y) Hn) as (m & E & S1 & Z).
  do 6 eexists. split; [exact F|]. split; [exact G|]. split; [exact E|]. intros k l. destruct (Nat.lt_ge_cases n (k + l)) as [L|L]; [rewrite Z, Zf, Zg by easy; ring|].
  rewrite fit_value in F, G, E by easy. injection F as <- _. injection G as <- _. injection E as <- _. rewrite !matrix_at by lia.
  rewrite <- !coefs_scal, <- coefs_add. apply coefs_ext. intros j i _ _ _. unfold at_node. now destruct (padua_node n dom j i).
Qed.
(* the estimate of a polynomial of lower degree *)
Lemma poly2_weaken n m f : (n <= m)%nat -> poly2 n f -> poly2 m f.
Proof.
  intros H (d & D). exists (fun k l => if (k + l <=? n)%nat then d k l else 0). intros x y. rewrite D.
  replace (m + 1)%nat with ((n + 1) + (m - n))%nat at 1 by lia. rewrite (vsum_app (n + 1) (m - n)). rewrite (vsum_0 (m - n)).
  2:{ intros k K. apply vsum_0. intros l L. assert ((n + 1 + k + l <=? n)%nat = false) as -> by (apply Nat.leb_gt; lia). ring. }
  rewrite Rplus_0_r. apply vsum_ext. intros k K. replace (m + 1 - k)%nat with ((n + 1 - k) + (m - n))%nat by lia. rewrite (vsum_app (n + 1 - k) (m - n)). rewrite (vsum_0 (m - n)).
  2:{ intros l L. assert ((k + (n + 1 - k + l) <=? n)%nat = false) as -> by (apply Nat.leb_gt; lia). ring. }
  rewrite Rplus_0_r. apply vsum_ext. intros l L. now assert ((k + l <=? n)%nat = true) as -> by (apply Nat.leb_le; lia).
Qed.
Lemma spanned_lower n m c dom x y : (n <= m)%nat -> cheb_series n (mask n c) dom x y = cheb_series m (mask m (mask n c)) dom x y.
Proof.
  intros H. destruct dom as [[[a b] c1] e]. unfold cheb_series.
  assert (E : forall k l, mask m (mask n c) k l = mask n c k l). { intros k l. unfold mask. destruct (Nat.leb_spec (k + l) m); [reflexivity|]. now assert ((k + l <=? n)%nat = false) as -> by (apply Nat.leb_gt; lia). }
  replace (m + 1)%nat with ((n + 1) + (m - n))%nat by lia. rewrite (vsum_app (n + 1) (m - n)). rewrite (vsum_0 (m - n)).
  2:{ intros k K. apply vsum_0. intros l L. rewrite E. unfold mask. assert ((n + 1 + k + l <=? n)%nat = false) as -> by (apply Nat.leb_gt; lia). ring. }
  rewrite Rplus_0_r. apply vsum_ext. intros k K. rewrite (vsum_app (n + 1) (m - n)). rewrite (vsum_0 (m - n)).
  2:{ intros l L. rewrite E. unfold mask. assert ((k + (n + 1 + l) <=? n)%nat = false) as -> by (apply Nat.leb_gt; lia). ring. }
  rewrite Rplus_0_r. apply vsum_ext. intros l L. now rewrite E.
Qed.
Lemma estimate_lower n dom f : rectangle dom -> poly2 n f -> exists m, padua_fit (padua_points (n + 1) dom) f = Ok (m, 0).
Proof.
  intros Rd P. assert (Hn : (1 <= n + 1)%nat) by lia. destruct (poly_spanned n dom f Rd P) as (c & C). destruct (fit_shape (n + 1) dom f Hn) as (m & E & S1 & Z). exists m. rewrite E. do 2 f_equal.
  rewrite vsum_0; [ring|]. intros k K. rewrite fit_value in E by easy. injection E as <- _. rewrite matrix_at by lia.
  rewrite (coefs_ext _ _ (at_node (n + 1) dom (cheb_series (n + 1) (mask (n + 1) (mask n c)) dom))).
  - rewrite coefs_series by (easy || lia). unfold mask. assert ((k + (n + 1 - k) <=? n)%nat = false) as -> by (apply Nat.leb_gt; lia). destruct (_ <=? _)%nat; apply Rabs_R0.
  - intros j i _ _ _. apply at_node_ext. intros x y. rewrite C. apply spanned_lower. lia.
Qed.
(* ---- evaluation ---- *)
Lemma mesh_value X Y c dom : padua_val_mesh X Y c dom = map (fun y => map (fun x => padua_val x y c dom) X) Y.
Proof.
  destruct dom as [[[a b] c1] d]. unfold padua_val_mesh, padua_val. apply map_ext. intros y. apply map_ext. intros x. rewrite !npsum_vsum.
  set (N := List.length (hd [] c)).
  rewrite (vsum_ext N _ (fun k => vsum N (fun l => transform k x a b * at_M c k l * transform l y c1 d))).
  - rewrite vsum_swap. apply vsum_ext. intros l _. rewrite npsum_vsum, Rmult_comm, <- vsum_scal. apply vsum_ext. intros; ring.
  - intros k _. rewrite npsum_vsum, <- vsum_scal. apply vsum_ext. intros; ring.
Qed.
Lemma clip_into x a b : a < b -> clip (map_from_interval x a b) = clip (map_from_interval (into x a b) a b).
Proof.
  intros H. assert (E : forall z, map_from_interval z a b = (2 * z - (b + a)) / (b - a)) by (intros; unfold map_from_interval; field; lra). unfold into.
  destruct (Rlt_dec x a); [|destruct (Rlt_dec b x); [|reflexivity]]; unfold clip; rewrite !E.
  - assert ((2 * x - (b + a)) / (b - a) <= -1) by (apply Rmult_le_reg_r with (b - a); [lra|]; unfold Rdiv; rewrite Rmult_assoc, Rinv_l; lra). replace ((2 * a - (b + a)) / (b - a)) with (-1) by (field; lra). rewrite !Rmax_right by lra. reflexivity.
  - assert (1 <= (2 * x - (b + a)) / (b - a)) by (apply Rmult_le_reg_r with (b - a); [lra|]; unfold Rdiv; rewrite Rmult_assoc, Rinv_l; lra). replace ((2 * b - (b + a)) / (b - a)) with 1 by (field; lra). rewrite !Rmax_left by lra. rewrite !Rmin_right by lra. reflexivity.
Qed.
Lemma val_outside x y m a b c d : a < b -> c < d -> padua_val x y m (a, b, c, d) = padua_val (into x a b) (into y c d) m (a, b, c, d).
Proof.
  intros A B. assert (T : forall k, transform k x a b = transform k (into x a b) a b) by (intros; unfold transform; now rewrite <- clip_into).
  assert (T2 : forall k, transform k y c d = transform k (into y c d) c d) by (intros; unfold transform; now rewrite <- clip_into).
  unfold padua_val. f_equal. apply map_ext. intros l. rewrite <- T2. do 2 f_equal. apply map_ext. intros k. now rewrite <- T.
Qed.
(* ---- cubature ---- *)
Lemma int_that k a b : a < b -> is_int (fun x => that k x a b) a b ((b - a) / 2 * (if Nat.even k then if (k =? 0)%nat then 2 else 2 * sqrt 2 / (1 - INR k ^ 2) else 0)).
Proof.
  intros H. destruct k.
  - cbn [that Nat.even Nat.eqb]. eapply is_int_val; [apply is_int_const|]. field.
  - set (u := 2 / (b - a)). set (v := - (b + a) / (b - a)).
    assert (G : is_int (chebT (S k)) (u * a + v) (u * b + v) (if Nat.even (S k) then 2 / (1 - INR (S k) ^ 2) else 0)).
    { replace (u * a + v) with (-1) by (unfold u, v; field; lra). replace (u * b + v) with 1 by (unfold u, v; field; lra). apply int_T. }
    apply (is_RInt_comp_lin (V := R_NormedModule)) in G. apply (is_RInt_scal (V := R_NormedModule) _ _ _ (sqrt 2 * ((b - a) / 2))) in G.
    eapply is_int_val; [refine (is_int_ext _ _ _ _ _ _ G)|].
    + intros x. change (sqrt 2 * ((b - a) / 2) * (u * chebT (S k) (u * x + v)) = sqrt 2 * chebT (S k) (map_from_interval x a b)). replace (map_from_interval x a b) with (u * x + v) by (unfold u, v, map_from_interval; field; lra). unfold u. field. lra.
    + cbn [Nat.eqb]. destruct (Nat.even (S k)) eqn:Ev; [|change (sqrt 2 * ((b - a) / 2) * 0 = (b - a) / 2 * 0); ring].
      change (sqrt 2 * ((b - a) / 2) * (2 / (1 - INR (S k) ^ 2)) = (b - a) / 2 * (2 * sqrt 2 / (1 - INR (S k) ^ 2))). field. destruct k; [discriminate|]. rewrite !S_INR. pose proof (pos_INR k). nra.
Qed.
Definition momentum (k : nat) : R := if Nat.even k then if (k =? 0)%nat then 2 else 2 * sqrt 2 / (1 - INR k ^ 2) else 0.
Lemma is_int_sum N (f : nat -> R -> R) a b (I : nat -> R) : (forall q, (q < N)%nat -> is_int (f q) a b (I q)) -> is_int (fun x => vsum N (fun q => f q x)) a b (vsum N I).
Proof.
  induction N; intros H; cbn [vsum].
  - eapply is_int_val; [apply is_int_const|]. ring.
  - apply (is_RInt_plus (V := R_NormedModule)); [apply IHN; intros; apply H; lia|apply H; lia].
Qed.
Lemma is_int_scal (f : R -> R) a b I s : is_int f a b I -> is_int (fun x => s * f x) a b (s * I).
Proof. intros H. exact (is_RInt_scal (V := R_NormedModule) f a b s I H). Qed.
Lemma vsum_plus1 h g : vsum (h + 1) g = vsum h g + g h.
Proof. rewrite Nat.add_1_r. reflexivity. Qed.
Lemma vsum_double n g : vsum n g = vsum ((n + 1) / 2) (fun i => g (2 * i)%nat) + vsum (n / 2) (fun i => g (2 * i + 1)%nat).
Proof.
  induction n using (well_founded_induction lt_wf). destruct n as [|[|n]]; [cbn; ring|cbn; ring|]. cbn [vsum]. rewrite (H n) by lia.
  replace (S (S n) + 1)%nat with ((n + 1) + 1 * 2)%nat by lia. replace (S (S n)) with (n + 1 * 2)%nat at 1 by lia. rewrite !Nat.div_add by lia. rewrite !vsum_plus1.
  destruct (Nat.Even_or_Odd n) as [(r & ->)|(r & ->)].
  - replace ((2 * r + 1) / 2)%nat with r by (apply (Nat.div_unique _ 2 _ 1); lia). replace (2 * r / 2)%nat with r by (apply (Nat.div_unique _ 2 _ 0); lia). replace (2 * r + 1)%nat with (S (2 * r)) by lia. ring.
  - replace ((2 * r + 1 + 1) / 2)%nat with (r + 1)%nat by (apply (Nat.div_unique _ 2 _ 0); lia). replace ((2 * r + 1) / 2)%nat with r by (apply (Nat.div_unique _ 2 _ 1); lia). replace (2 * (r + 1))%nat with (S (2 * r + 1)) by lia. ring.
Qed.
Lemma half_pos n : (1 <= n)%nat -> (0 < (n + 1) / 2)%nat.
Proof. intros H. apply Nat.div_str_pos. lia. Qed.
Lemma moments_length n : (1 <= n)%nat -> List.length (cub_moments n) = ((n + 1) / 2)%nat.
Proof. intros H. unfold cub_moments. apply half_pos in H. now rewrite upd_length; rewrite map_length, seq_length. Qed.
Lemma moments_at n i : (i < (n + 1) / 2)%nat -> at_R (cub_moments n) i = momentum (2 * i).
Proof.
  intros H. unfold cub_moments. rewrite upd_at by (rewrite map_length, seq_length; lia). unfold momentum. replace (Nat.even (2 * i)) with true by (symmetry; apply Nat.even_spec; now exists i).
  destruct i; [reflexivity|]. cbn [Nat.eqb]. replace (2 * S i =? 0)%nat with false by (symmetry; apply Nat.eqb_neq; lia).
  unfold at_R. rewrite (nth_indep _ 0 (2 * sqrt 2 / (1 - INR (2 * 0) ^ 2))) by (rewrite map_length, seq_length; easy). rewrite (map_nth (fun i => 2 * sqrt 2 / (1 - INR (2 * i) ^ 2))), seq_nth by easy. reflexivity.
Qed.
Lemma npsum_flat {A} (f : A -> list R) l : npsum (flat_map f l) = npsum (map (fun a => npsum (f a)) l).
Proof.
  induction l; [reflexivity|]. cbn [flat_map map]. unfold npsum at 2. cbn [fold_right]. fold (npsum (map (fun a => npsum (f a)) l)). rewrite <- IHl. unfold npsum. rewrite fold_right_app.
  generalize (fold_right Rplus 0 (flat_map f l)) as v. intros v. induction (f a); cbn [fold_right]; [ring|]. rewrite IHl0. ring.
Qed.
Lemma cubature_sum m N a b c d : List.length (hd [] m) = N -> (1 <= N)%nat -> padua_cubature m (a, b, c, d) = (b - a) * (d - c) / 4 * vsum N (fun k => vsum N (fun l => at_M m k l * (momentum k * momentum l))).
Proof.
  intros HN H1. unfold padua_cubature. rewrite HN, moments_length, npsum_flat, npsum_vsum by easy.
  rewrite (vsum_double N). rewrite (vsum_0 (N / 2)), Rplus_0_r.
  2:{ intros k _. apply vsum_0. intros l _. unfold momentum at 1. rewrite Nat.add_1_r, Nat.even_succ. replace (Nat.odd (2 * k)) with false. ring. symmetry. apply Bool.not_true_is_false. rewrite Nat.odd_spec. intros (z & Z). lia. }
  unfold Rdiv. rewrite !Rmult_assoc. do 2 f_equal. rewrite Rmult_comm. f_equal. apply vsum_ext. intros i Hi. rewrite npsum_vsum.
  rewrite (vsum_double N). rewrite (vsum_0 (N / 2)), Rplus_0_r.
  2:{ intros k _. unfold momentum at 2. rewrite Nat.add_1_r, Nat.even_succ. replace (Nat.odd (2 * k)) with false. ring. symmetry. apply Bool.not_true_is_false. rewrite Nat.odd_spec. intros (z & Z). lia. }
  apply vsum_ext. intros j Hj. rewrite !moments_at by easy. ring.
Qed.
Lemma val_sum n m a b c d x y : List.length (hd [] m) = n -> a < b -> c < d -> a <= x <= b -> c <= y <= d ->
  padua_val x y m (a, b, c, d) = vsum n (fun l => vsum n (fun k => at_M m k l * that k x a b) * that l y c d).
Proof.
  intros HN A B X Y. unfold padua_val. rewrite HN, npsum_vsum. apply vsum_ext. intros l _. rewrite npsum_vsum, transform_that by easy. f_equal. apply vsum_ext. intros k _. rewrite transform_that by easy. ring.
Qed.
Lemma cubature_integral m a b c d : (1 <= List.length (hd [] m))%nat -> a < b -> c < d ->
  exists G : R -> R, (forall y, c <= y <= d -> is_RInt (fun x => padua_val x y m (a, b, c, d)) a b (G y)) /\ is_RInt G c d (padua_cubature m (a, b, c, d)).
Proof.
  intros H1 A B. set (n := List.length (hd [] m)) in *.
  exists (fun y => vsum n (fun l => vsum n (fun k => at_M m k l * ((b - a) / 2 * momentum k)) * that l y c d)). split.
  - intros y Y. apply (is_RInt_ext (V := R_NormedModule) (fun x => vsum n (fun l => vsum n (fun k => at_M m k l * that k x a b) * that l y c d))).
    + intros x X. rewrite Rmin_left, Rmax_right in X by lra. symmetry. apply val_sum; easy || lra.
    + apply is_int_sum. intros l _. eapply is_int_ext; [intros x; apply Rmult_comm|]. rewrite (Rmult_comm (vsum n _)). apply is_int_scal. apply is_int_sum. intros k _. apply is_int_scal. now apply int_that.
  - rewrite (cubature_sum m n) by easy.
    eapply is_int_val; [apply is_int_sum; intros l _; apply is_int_scal; now apply int_that|]. fold (momentum) in *.
    rewrite vsum_swap. rewrite <- vsum_scal. apply vsum_ext. intros l _. fold (momentum l). rewrite <- vsum_scal. rewrite Rmult_comm, <- vsum_scal. apply vsum_ext. intros k _. field.
Qed.
Lemma cubature_exact n dom f : (1 <= n)%nat -> rectangle dom -> poly2 n f ->
  exists m e, padua_fit (padua_points n dom) f = Ok (m, e) /\
  let '(a, b, c, d) := dom in exists G : R -> R, (forall y, c <= y <= d -> is_RInt (fun x => f x y) a b (G y)) /\ is_RInt G c d (padua_cubature m dom).
Proof.
  intros Hn Rd P. destruct (fit_reproduces n dom f Hn Rd P) as (m & e & E & V). exists m, e. split; [exact E|]. destruct dom as [[[a b] c] d]. destruct Rd as (A & B).
  assert (W : (1 <= List.length (hd [] m))%nat) by (rewrite fit_value in E by easy; injection E as <- _; rewrite matrix_width; lia).
  destruct (cubature_integral m a b c d W A B) as (G & G1 & G2). exists G. split; [|exact G2]. intros y Y. apply (is_RInt_ext (V := R_NormedModule) (fun x => padua_val x y m (a, b, c, d))); [|now apply G1].
  intros x X. rewrite Rmin_left, Rmax_right in X by lra. apply V. cbn. lra.
Qed.
(* ---- degree 0 ---- *)
Lemma fit_degree_0 dom f : padua_fit (padua_points 0 dom) f = Err IndexError.
Proof. unfold padua_fit. rewrite points_length, degree_points. reflexivity. Qed.
