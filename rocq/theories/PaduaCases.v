From Coq Require Import Reals Lra Lia Psatz.
From Coquelicot Require Import Coquelicot.
From Verif Require Import Base PolyModel KdeModel OrthoModel OrthoProofs ChebSpec ChebProofs ChebProofs2 ChebProofs3 SplineSpec SplineProofs LinAlg ProcModel QuadProofs QuadProofs2 QuadProofs4 PaduaModel PaduaSpec PaduaProofs PaduaProofs2 PaduaProofs3 PaduaProofs4 PaduaProofs5.
Local Open Scope R_scope.

Lemma points_inside n dom x y : (1 <= n)%nat -> rectangle dom -> In (x, y) (padua_points n dom) -> inside dom x y.
Proof. intros Hn Rd I. apply points_in in I as (j & i & J & Hi & _ & E); [|easy]. pose proof (node_inside n dom j i Hn Rd J Hi) as Q. rewrite <- E in Q. exact Q. Qed.
Lemma fit_mask n dom f : (1 <= n)%nat -> exists m e, padua_fit (padua_points n dom) f = Ok (m, e) /\ square_matrix (n + 1) m /\ forall k l, (n < k + l)%nat -> at_M m k l = 0.
Proof. intros Hn. destruct (fit_shape n dom f Hn) as (m & E & A). exists m. eexists. split; [exact E|exact A]. Qed.
Lemma tri_count n : exists l : list (nat * nat), (List.length l = (n + 1) * (n + 2) / 2)%nat /\ NoDup l /\ forall k l', In (k, l') l <-> (k + l' <= n)%nat.
Proof. exists (tri n). split; [apply tri_length|]. split; [apply tri_NoDup|]. intros; apply in_tri. Qed.
Lemma val_coefficients m a b c d x y : a < b -> c < d -> a <= x <= b -> c <= y <= d -> let n := List.length (hd [] m) in padua_val x y m (a, b, c, d) = vsum n (fun k => vsum n (fun l => at_M m k l * (that k x a b * that l y c d))).
Proof.
  intros A B X Y n. rewrite (val_sum n) by easy. rewrite vsum_swap. apply vsum_ext. intros l _. rewrite Rmult_comm, <- vsum_scal. apply vsum_ext. intros; ring.
Qed.
(* polynomials form a space containing the basis *)
Definition monomial (k l : nat) (x y : R) : R := x ^ k * y ^ l.
Lemma poly2_ext n f g : (forall x y, f x y = g x y) -> poly2 n g -> poly2 n f.
Proof. intros H (d & D). exists d. intros. now rewrite H. Qed.
Lemma poly2_add n f g : poly2 n f -> poly2 n g -> poly2 n (fun x y => f x y + g x y).
Proof. intros (d & D) (e & E). exists (fun k l => d k l + e k l). intros x y. rewrite D, E, <- vsum_add. apply vsum_ext. intros k _. rewrite <- vsum_add. apply vsum_ext. intros; ring. Qed.
Lemma poly2_scal n s f : poly2 n f -> poly2 n (fun x y => s * f x y).
Proof. intros (d & D). exists (fun k l => s * d k l). intros x y. rewrite D, <- vsum_scal. apply vsum_ext. intros k _. rewrite <- vsum_scal. apply vsum_ext. intros; ring. Qed.
Lemma poly2_zero n : poly2 n (fun _ _ => 0).
Proof. exists (fun _ _ => 0). intros. symmetry. apply vsum_0. intros. apply vsum_0. intros; ring. Qed.
Lemma poly2_sum n N (f : nat -> R -> R -> R) : (forall q, (q < N)%nat -> poly2 n (f q)) -> poly2 n (fun x y => vsum N (fun q => f q x y)).
Proof. induction N; intros H; cbn [vsum]; [apply poly2_zero|]. apply poly2_add; [apply IHN; intros|]; apply H; lia. Qed.
Lemma poly2_mono n k l : (k + l <= n)%nat -> poly2 n (fun x y => x ^ k * y ^ l).
Proof.
  intros H. exists (fun k' l' => same k k' * same l l'). intros x y.
  rewrite (vsum_ext _ _ (fun k' => vsum (n + 1 - k') (fun l' => x ^ k' * y ^ l' * same l l') * same k k')) by (intros k' _; rewrite Rmult_comm, <- vsum_scal; apply vsum_ext; intros; ring).
  rewrite (pick1 (n + 1) k (fun k' => vsum (n + 1 - k') (fun l' => x ^ k' * y ^ l' * same l l'))) by lia. rewrite (pick1 (n + 1 - k) l (fun l' => x ^ k * y ^ l')) by lia. reflexivity.
Qed.
(* one variable: T_k of an affine function of x is a combination of powers *)
Definition pol1 (k : nat) (g : R -> R) : Prop := exists e : nat -> R, forall x, g x = vsum (k + 1) (fun j => e j * x ^ j).
Lemma pol1_ext k f g : (forall x, f x = g x) -> pol1 k g -> pol1 k f.
Proof. intros H (e & E). exists e. intros. now rewrite H. Qed.
Lemma pol1_add k f g : pol1 k f -> pol1 k g -> pol1 k (fun x => f x + g x).
Proof. intros (e & E) (h & Q). exists (fun j => e j + h j). intros x. rewrite E, Q, <- vsum_add. apply vsum_ext. intros; ring. Qed.
Lemma pol1_scal k s f : pol1 k f -> pol1 k (fun x => s * f x).
Proof. intros (e & E). exists (fun j => s * e j). intros x. rewrite E, <- vsum_scal. apply vsum_ext. intros; ring. Qed.
Lemma pol1_weaken k k' f : (k <= k')%nat -> pol1 k f -> pol1 k' f.
Proof.
  intros H (e & E). exists (fun j => if (j <=? k)%nat then e j else 0). intros x. rewrite E. replace (k' + 1)%nat with (k + 1 + (k' - k))%nat by lia. rewrite (vsum_app (k + 1) (k' - k)). rewrite (vsum_0 (k' - k)).
  - rewrite Rplus_0_r. apply vsum_ext. intros j J. now rewrite (proj2 (Nat.leb_le j k)) by lia.
  - intros j J. rewrite (proj2 (Nat.leb_gt (k + 1 + j) k)) by lia. ring.
Qed.
Lemma pol1_x k f : pol1 k f -> pol1 (S k) (fun x => x * f x).
Proof.
  intros (e & E). exists (fun j => match j with O => 0 | S j' => e j' end). intros x. rewrite E. replace (S k + 1)%nat with (S (k + 1)) by lia. rewrite vsum_first, <- vsum_scal. rewrite Rmult_0_l, Rplus_0_l. apply vsum_ext. intros. cbn [pow]. ring.
Qed.
Lemma pol1_T a b : a < b -> forall k, pol1 k (fun x => chebT k (map_from_interval x a b)) /\ pol1 (S k) (fun x => chebT (S k) (map_from_interval x a b)).
Proof.
  intros H. assert (X : forall x, map_from_interval x a b = 2 / (b - a) * x + - (b + a) / (b - a)) by (intros; unfold map_from_interval; field; lra).
  assert (M : forall k f, pol1 k f -> pol1 (S k) (fun x => map_from_interval x a b * f x)).
  { intros k f P. apply (pol1_ext _ _ (fun x => 2 / (b - a) * (x * f x) + - (b + a) / (b - a) * f x)). { intros x. rewrite X. ring. }
    apply pol1_add; apply pol1_scal; [now apply pol1_x|]. now apply (pol1_weaken k); [lia|]. }
  assert (P0 : pol1 0 (fun _ => 1)) by (exists (fun _ => 1); intros; cbn; ring).
  induction k as [|k (IH1 & IH2)].
  - split; [exact P0|]. apply (pol1_ext _ _ (fun x => map_from_interval x a b * 1)); [intros; unfold chebT, chebV; cbn; ring|]. now apply (M 0%nat (fun _ => 1)).
  - split; [exact IH2|]. apply (pol1_ext _ _ (fun x => 2 * (map_from_interval x a b * chebT (S k) (map_from_interval x a b)) + -1 * chebT k (map_from_interval x a b))).
    { intros x. unfold chebT. rewrite V_SS. ring. }
    apply pol1_add; apply pol1_scal; [now apply M|]. apply (pol1_weaken k); [lia|exact IH1].
Qed.
Lemma pol1_that k a b : a < b -> pol1 k (fun x => that k x a b).
Proof. intros H. destruct k; [exists (fun _ => 1); intros; cbn; ring|]. apply pol1_scal. exact (proj1 (pol1_T a b H (S k))). Qed.
Lemma series_poly n c dom : rectangle dom -> (forall k l, (n < k + l)%nat -> c k l = 0) -> poly2 n (cheb_series n c dom).
Proof.
  intros Rd Z. destruct dom as [[[a b] c1] d]. destruct Rd as (A & B). unfold cheb_series.
  apply (poly2_sum n (n + 1) (fun k x y => vsum (n + 1) (fun l => c k l * (that k x a b * that l y c1 d)))). intros k Hk.
  apply (poly2_sum n (n + 1) (fun l x y => c k l * (that k x a b * that l y c1 d))). intros l Hl.
  destruct (Nat.lt_ge_cases n (k + l)) as [L|L].
  - apply (poly2_ext _ _ (fun _ _ => 0)); [|apply poly2_zero]. intros. rewrite Z by easy. ring.
  - apply poly2_scal. destruct (pol1_that k a b A) as (u & U). destruct (pol1_that l c1 d B) as (v & V).
    apply (poly2_ext _ _ (fun x y => vsum (k + 1) (fun i => vsum (l + 1) (fun j => u i * v j * (x ^ i * y ^ j))))).
    + intros x y. rewrite U, V. rewrite Rmult_comm, <- vsum_scal. apply vsum_ext. intros i _. rewrite Rmult_comm, <- vsum_scal. apply vsum_ext. intros; ring.
    + apply (poly2_sum n (k + 1) (fun i x y => vsum (l + 1) (fun j => u i * v j * (x ^ i * y ^ j)))). intros i Hi. apply (poly2_sum n (l + 1) (fun j x y => u i * v j * (x ^ i * y ^ j))). intros j Hj. apply poly2_scal, poly2_mono. lia.
Qed.
Lemma fit_polynomial n dom f : (1 <= n)%nat -> rectangle dom -> exists m e p, padua_fit (padua_points n dom) f = Ok (m, e) /\ poly2 n p /\ forall x y, inside dom x y -> padua_val x y m dom = p x y.
Proof.
  intros Hn Rd. do 3 eexists. split; [now apply fit_value|]. split; [|intros x y I; now apply val_series]. apply series_poly; [easy|]. intros; now apply coefs_high.
Qed.
Lemma cubature_constant n a b c d s : (1 <= n)%nat -> a < b -> c < d -> exists m e, padua_fit (padua_points n (a, b, c, d)) (fun _ _ => s) = Ok (m, e) /\ padua_cubature m (a, b, c, d) = s * ((b - a) * (d - c)).
Proof.
  intros Hn A B. assert (P : poly2 n (fun _ _ => s)). { apply (poly2_ext _ _ (fun x y => s * (x ^ 0 * y ^ 0))); [intros; cbn; ring|]. apply poly2_scal, poly2_mono. lia. }
  destruct (cubature_exact n (a, b, c, d) _ Hn (conj A B) P) as (m & e & E & G & G1 & G2). exists m, e. split; [exact E|].
  assert (GV : forall y, c <= y <= d -> G y = (b - a) * s). { intros y Y. rewrite <- (is_RInt_unique (V := R_CompleteNormedModule) _ _ _ _ (G1 y Y)). apply (is_RInt_unique (V := R_CompleteNormedModule)). apply is_int_const. }
  assert (K : is_RInt (fun _ : R => (b - a) * s) c d (padua_cubature m (a, b, c, d))).
  { apply (is_RInt_ext (V := R_NormedModule) G); [|exact G2]. intros y Y. rewrite Rmin_left, Rmax_right in Y by lra. apply GV. lra. }
  rewrite <- (is_RInt_unique (V := R_CompleteNormedModule) _ _ _ _ K). rewrite (is_RInt_unique (V := R_CompleteNormedModule) _ _ _ _ (is_int_const c d ((b - a) * s))). ring.
Qed.
(* cases *)
Lemma estimate_zero_degree n dom f m : rectangle dom -> padua_fit (padua_points (n + 1) dom) f = Ok (m, 0) -> exists p, poly2 n p /\ forall x y, inside dom x y -> padua_val x y m dom = p x y.
Proof.
  intros Rd E. assert (Hn : (1 <= n + 1)%nat) by lia. destruct (fit_shape (n + 1) dom f Hn) as (m' & E' & _ & _). rewrite E in E'. injection E' as <- Z.
  rewrite fit_value in E by easy. injection E as M _. set (c := coefs (n + 1) (at_node (n + 1) dom f)) in *.
  assert (T : forall k l, (k + l = n + 1)%nat -> c k l = 0).
  { intros k l H. assert (S0 : vsum (n + 1 + 1) (fun k => Rabs (at_M m k (n + 1 - k))) = 0) by lra. pose proof (vsum_zero_all _ _ (fun k _ => Rabs_pos _) S0 k ltac:(lia)) as Q. cbv beta in Q. rewrite <- M in Q. rewrite matrix_at in Q by lia. replace (n + 1 - k)%nat with l in Q by lia.
    destruct (Req_dec (c k l) 0) as [e|e]; [exact e|]. now apply Rabs_no_R0 in e. }
  assert (C : forall k l, (n < k + l)%nat -> c k l = 0). { intros k l H. destruct (Nat.eq_dec (k + l) (n + 1)) as [e|e]; [now apply T|]. apply coefs_high. lia. }
  exists (cheb_series n c dom). split; [now apply series_poly|]. intros x y I. rewrite <- M, val_series by easy.
  transitivity (cheb_series (n + 1) (mask (n + 1) (mask n c)) dom x y).
  - apply series_ext. intros k l _ _. unfold mask. destruct (Nat.leb_spec (k + l) (n + 1)); [destruct (Nat.leb_spec (k + l) n); [reflexivity|now apply C]|now apply coefs_high].
  - rewrite <- spanned_lower by lia. apply series_ext. intros k l _ _. unfold mask. destruct (Nat.leb_spec (k + l) n); [reflexivity|]. symmetry. now apply C.
Qed.
(* cases *)
Lemma case_points : rectangle (0, 1, 0, 2) /\ List.length (padua_points 3 (0, 1, 0, 2)) = 10%nat /\ In (0, 2) (padua_points 1 (0, 1, 0, 2)).
Proof.
  split; [cbn; lra|]. split; [now rewrite points_length|]. apply points_in; [lia|]. exists 1%nat, 0%nat. repeat split; try lia.
  unfold padua_node, map_to_interval. replace (INR 1 * PI / INR 1) with PI by (cbn; field). replace (INR 0 * PI / INR (1 + 1)) with 0 by (cbn; field). rewrite cos_0, cos_PI. f_equal; field.
Qed.
Lemma case_xy : poly2 2 (fun x y => x * y + 3).
Proof.
  apply (poly2_ext _ _ (fun x y => x ^ 1 * y ^ 1 + 3 * (x ^ 0 * y ^ 0))); [intros; cbn; ring|]. apply poly2_add; [apply poly2_mono; lia|]. apply poly2_scal, poly2_mono. lia.
Qed.
Lemma case_poly : rectangle (0, 1, 0, 2) /\ poly2 2 (fun x y => x * y + 3) /\ ~ (forall x y : R, x * y + 3 = 0).
Proof. split; [cbn; lra|]. split; [exact case_xy|]. intros H. specialize (H 0 0). lra. Qed.
Lemma case_cubature : rectangle (0, 1, 0, 2) /\ poly2 2 (fun x y => x * y + 3) /\ (1 <= List.length (hd [] [[2%R]]))%nat /\ padua_cubature [[2]] (0, 1, 0, 2) = 4.
Proof. split; [cbn; lra|]. split; [exact case_xy|]. split; [cbn; lia|]. rewrite (cubature_sum _ 1) by (reflexivity || lia). cbn. unfold at_M, at_R, momentum. cbn. field. Qed.
Lemma points_zero a b c d : padua_points 0 (a, b, c, d) = [(a, c)].
Proof.
  unfold padua_points, linspace, map_to_interval. cbn -[cos PI]. unfold at_R. cbn -[cos PI]. replace (0 + 1 * ((PI - 0) / 1)) with PI by field. rewrite cos_PI. f_equal. f_equal; field.
Qed.
