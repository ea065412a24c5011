From Coq Require Import Reals Lra Lia.
From Coquelicot Require Import RInt RInt_analysis Hierarchy Continuity Derive AutoDerive Rbar.
From Verif Require Import Base PolyModel PolySpec PolyProofs PolyProofs2 OrthoModel OrthoProofs
  ChebModel ChebSpec ChebProofs ChebProofs2 ChebProofs3 QuadModel QuadSpec QuadProofs.
Local Open Scope R_scope.

Local Notation is_int := (@is_RInt R_NormedModule).

(* ---- helpers ------------------------------------------------------------------------------- *)
Lemma cont_of (f : R -> R) : continuity f -> forall t, continuous f t.
Proof. intros H t. apply continuity_pt_filterlim, H. Qed.
Lemma peval_cont p : continuity (peval p).
Proof.
  induction p as [|c p IH]; cbn [peval].
  - apply continuity_const. intros x y. reflexivity.
  - apply (continuity_plus (fun x => c * x ^ List.length p) (peval p)); [|exact IH].
    apply derivable_continuous. reg.
Qed.
Lemma vsum_app a b f : vsum (a + b) f = vsum a f + vsum b (fun j => f (a + j)%nat).
Proof.
  induction b as [|b IH]; [rewrite Nat.add_0_r; cbn; ring|]. rewrite Nat.add_succ_r. cbn [vsum]. rewrite IH. ring.
Qed.
Lemma vsum_first n g : vsum (S n) g = g 0%nat + vsum n (fun k => g (S k)).
Proof. change (S n) with (1 + n)%nat. rewrite vsum_app. cbn [vsum Nat.add]. ring. Qed.
Lemma vsum_sym n g : (forall j, (j < n)%nat -> g (2 * n - j)%nat = g j) -> vsum (2 * n + 1) g = 2 * vsum n g + g n.
Proof.
  intros H. replace (2 * n + 1)%nat with (n + S n)%nat by lia. rewrite vsum_app, vsum_first.
  replace (n + 0)%nat with n by lia.
  replace (vsum n (fun k => g (n + S k)%nat)) with (vsum n g); [ring|].
  rewrite <- (vsum_flip n g). apply vsum_ext. intros j Hj. rewrite <- H by lia. f_equal. lia.
Qed.
Lemma repeat_seq (c : R) s n : repeat c n = map (fun _ => c) (seq s n).
Proof. revert s. induction n as [|n IH]; intros s; cbn; [reflexivity|]. f_equal. apply IH. Qed.

(* ---- trigonometric sums ------------------------------------------------------------------- *)
Lemma mid_tel n phi : 2 * sin phi * vsum n (fun j => cos ((2 * INR j + 1) * phi)) = sin (2 * INR n * phi).
Proof.
  induction n as [|n IH]; cbn [vsum].
  - cbn [INR]. replace (2 * 0 * phi) with 0 by ring. rewrite sin_0. ring.
  - rewrite Rmult_plus_distr_l, IH, S_INR. set (a := 2 * INR n * phi).
    replace ((2 * INR n + 1) * phi) with (a + phi) by (unfold a; ring).
    replace (2 * (INR n + 1) * phi) with (a + phi + phi) by (unfold a; ring).
    rewrite (sin_plus (a + phi)). replace a with (a + phi - phi) at 1 by ring. rewrite (sin_minus (a + phi)). ring.
Qed.
Lemma mid_sum n m : (0 < m)%nat -> (m < 2 * n)%nat -> vsum n (fun j => cos ((2 * INR j + 1) * (PI * INR m / (2 * INR n)))) = 0.
Proof.
  intros H1 H2. assert (P : 0 < INR n) by (apply lt_0_INR; lia). pose proof PI_RGT_0.
  set (phi := PI * INR m / (2 * INR n)).
  pose proof (mid_tel n phi) as E. replace (2 * INR n * phi) with (INR m * PI) in E by (unfold phi; field; lra). rewrite sin_int in E.
  assert (0 < sin phi).
  { assert (0 < INR m) by (apply lt_0_INR; lia). assert (INR m < 2 * INR n) by (rewrite <- (mult_INR 2); apply lt_INR; lia).
    assert (phi * (2 * INR n) = PI * INR m) by (unfold phi; field; lra). apply sin_gt_0; nra. }
  apply Rmult_integral in E. destruct E; [lra|assumption].
Qed.
Lemma trap_sum N m : (0 < m)%nat -> (m < 2 * N)%nat -> vsum N (fun j => cos (INR j * (PI * INR m / INR N))) = (1 - (-1) ^ m) / 2.
Proof.
  intros H1 H2. pose proof (D_node N m H1 H2) as E. unfold D in E. destruct N as [|N]; [lia|].
  rewrite vsum_first in *. cbn [w] in E. rewrite (vsum_ext N _ (fun k => 1 * cos (INR (S k) * (PI * INR m / INR (S N))))) by (intros; ring).
  change (INR 0) with 0 in *. rewrite Rmult_0_l, cos_0 in *. lra.
Qed.

(* ---- q5 ------------------------------------------------------------------------------------ *)
Lemma sin_cos_sq t : (cos t - -1) * (1 - cos t) = sin t * sin t.
Proof. pose proof (sin2_cos2 t) as H. unfold Rsqr in H. lra. Qed.
Lemma q5_integral n p : (0 < n)%nat -> (List.length p <= 2 * n)%nat ->
  is_int (fun t => 1 * peval p (cos t)) 0 PI (rule_sum (fst (q5_roots n)) (snd (q5_roots n)) (peval p)).
Proof.
  intros Hn. apply exact_cheb; [lia|apply rule_sum_linear|]. intros j Hj.
  apply (is_int_ext (fun t => cos (INR j * t))); [intros; rewrite T_cos; ring|].
  eapply is_int_val; [apply is_int_cos|]. unfold q5_roots. cbn [fst snd]. rewrite (repeat_seq _ 1), rule_sum_seq.
  assert (P : 0 < INR n) by (apply lt_0_INR; lia).
  rewrite (vsum_ext n _ (fun k => PI / INR n * cos ((2 * INR k + 1) * (PI * INR j / (2 * INR n))))).
  2:{ intros k _. rewrite T_cos. do 2 f_equal. rewrite plus_INR. cbn [INR]. field. lra. }
  rewrite vsum_scal. destruct (Nat.eq_dec j 0) as [->|H0].
  - rewrite (vsum_ext n _ (fun _ => 1)), vsum_one; [field; lra|]. intros k _. cbn [INR]. rewrite <- cos_0. f_equal. field. lra.
  - rewrite mid_sum by lia. ring.
Qed.
Lemma improper_ext (f : R -> R) a b I J : I = J -> improper_integral f a b I -> improper_integral f a b J.
Proof. now intros <-. Qed.
Lemma cont_weighted (wt : R -> R) p u : continuity_pt wt u -> continuous (fun x => wt x * peval p x) u.
Proof. intros H. apply continuity_pt_filterlim. apply (continuity_pt_mult wt (peval p)); [exact H|apply peval_cont]. Qed.
Lemma sqrt_cont (g : R -> R) u : derivable g -> 0 <= g u -> continuity_pt (fun x => sqrt (g x)) u.
Proof.
  intros H H0. apply (continuity_pt_comp g sqrt); [apply derivable_continuous_pt, H|now apply continuity_pt_sqrt].
Qed.
Lemma q5_exact n : (0 < n)%nat -> exact_for (2 * n) (fun x => / sqrt ((x - -1) * (1 - x))) (-1) 1 (q5_roots n).
Proof.
  intros Hn p Hp. pose proof PI_RGT_0.
  apply (improper_sub _ (fun t => 1 * peval p (cos t)) cos (fun t => - sin t) (-1) 1 0 PI).
  - lra.
  - apply cos_0.
  - apply cos_PI.
  - intros t. auto_derive; [exact Logic.I|ring].
  - intros t. apply cont_of. reg.
  - intros t Ht. pose proof (sin_gt_0 t). lra.
  - intros u Hu. apply cont_weighted. apply continuity_pt_inv.
    + apply sqrt_cont; [reg|]. nra.
    + apply Rgt_not_eq, sqrt_lt_R0. nra.
  - intros t. apply cont_of. apply (continuity_mult (fun _ => 1) (fun t => peval p (cos t))).
    + apply continuity_const. intros x y. reflexivity.
    + apply (continuity_comp cos (peval p)); [apply continuity_cos|apply peval_cont].
  - intros t Ht. rewrite sin_cos_sq. pose proof (sin_gt_0 t ltac:(lra) ltac:(lra)). rewrite sqrt_square by lra. field. lra.
  - apply q5_integral; assumption.
Qed.

(* ---- q6 ------------------------------------------------------------------------------------ *)
Lemma q6_prod k t : sin t ^ 2 * cos (INR k * t) =
  match k with O => 1/2 - cos (INR 2 * t) / 2 | 1%nat => cos (INR 1 * t) / 4 - cos (INR 3 * t) / 4
  | S (S k') => cos (INR k * t) / 2 - cos (INR (k + 2) * t) / 4 - cos (INR k' * t) / 4 end.
Proof.
  assert (E2 : sin t * sin t = (1 - cos (2 * t)) / 2). { rewrite cos_2a_sin. field. }
  destruct k as [|[|k]].
  - cbn [INR]. rewrite Rmult_0_l, cos_0. replace ((1 + 1) * t) with (2 * t) by ring. rewrite <- Rsqr_pow2. unfold Rsqr. rewrite E2. field.
  - cbn [INR]. rewrite Rmult_1_l. replace ((1 + 1 + 1) * t) with (2 * t + t) by ring. replace t with (2 * t - t) at 3 by ring.
    replace (cos (2 * t - t)) with (cos t) by (f_equal; ring).
    assert (G : cos (2 * t + t) = cos (2 * t) * cos t - sin (2 * t) * sin t) by apply cos_plus.
    rewrite G, sin_2a, cos_2a_sin. pose proof (sin2_cos2 t) as Q. unfold Rsqr in Q. nra.
  - rewrite plus_INR, !S_INR. change (INR 0) with 0. set (a := (INR k + 1 + 1) * t).
    replace ((INR k + 1 + 1 + (0 + 1 + 1)) * t) with (a + 2 * t) by (unfold a; ring).
    replace (INR k * t) with (a - 2 * t) by (unfold a; ring).
    rewrite cos_plus, cos_minus. replace (sin t ^ 2) with (sin t * sin t) by ring. rewrite E2. field.
Qed.
Lemma is_int_lin (f g : R -> R) a b I J c d : is_int f a b I -> is_int g a b J -> is_int (fun t => c * f t + d * g t) a b (c * I + d * J).
Proof.
  intros H K. exact (is_RInt_plus (V := R_NormedModule) _ _ _ _ _ _ (is_RInt_scal (V := R_NormedModule) f a b c I H)
                                  (is_RInt_scal (V := R_NormedModule) g a b d J K)).
Qed.
Lemma trap_sum' N m : (m < 2 * N)%nat -> vsum N (fun j => cos (INR m * (INR j * PI / INR N))) = if Nat.eq_dec m 0 then INR N else (1 - (-1) ^ m) / 2.
Proof.
  intros H. assert (P : 0 < INR N) by (apply lt_0_INR; lia). destruct (Nat.eq_dec m 0) as [->|H0].
  - rewrite (vsum_ext N _ (fun _ => 1)), vsum_one; [reflexivity|]. intros. cbn [INR]. now rewrite Rmult_0_l, cos_0.
  - rewrite <- (trap_sum N m) by lia. apply vsum_ext. intros j _. f_equal. field. lra.
Qed.
Lemma q6_integral n p : (0 < n)%nat -> (List.length p <= 2 * n)%nat ->
  is_int (fun t => sin t ^ 2 * peval p (cos t)) 0 PI (rule_sum (fst (q6_roots n)) (snd (q6_roots n)) (peval p)).
Proof.
  intros Hn. apply exact_cheb; [lia|apply rule_sum_linear|]. intros k Hk.
  unfold q6_roots. cbn [fst snd]. rewrite rule_sum_seq.
  set (x := fun j => INR j * PI / INR (S n)).
  assert (P : 0 < INR (S n)) by (apply lt_0_INR; lia).
  assert (V : vsum n (fun j => PI / (INR n + 1) * sin (INR (1 + j) * PI / (INR n + 1)) ^ 2 * chebT k (cos (INR (1 + j) * PI / (INR n + 1))))
    = PI / INR (S n) * vsum (S n) (fun j => sin (x j) ^ 2 * cos (INR k * x j))).
  { assert (X0 : sin (x 0%nat) = 0) by (unfold x; change (INR 0) with 0; replace (0 * PI / INR (S n)) with 0 by (field; lra); apply sin_0).
    rewrite vsum_first, Rmult_plus_distr_l, <- vsum_scal, X0. rewrite pow_i, Rmult_0_l, Rmult_0_r, Rplus_0_l by lia.
    apply vsum_ext. intros j _. rewrite T_cos. unfold x. change (1 + j)%nat with (S j). rewrite <- (S_INR n). ring. }
  rewrite V. clear V.
  rewrite (vsum_ext _ _ _ (fun j _ => q6_prod k (x j))).
  apply (is_int_ext (fun t => sin t ^ 2 * cos (INR k * t))); [intros; now rewrite T_cos|].
  apply (is_int_ext (fun t => match k with O => 1/2 - cos (INR 2 * t) / 2 | 1%nat => cos (INR 1 * t) / 4 - cos (INR 3 * t) / 4
    | S (S k') => cos (INR k * t) / 2 - cos (INR (k + 2) * t) / 4 - cos (INR k' * t) / 4 end)); [intros; now rewrite q6_prod|].
  destruct k as [|[|k]].
  - apply (is_int_ext (fun t => 1/2 * cos (INR 0 * t) + - (1/2) * cos (INR 2 * t))); [intros; cbn [INR]; rewrite Rmult_0_l, cos_0; field|].
    eapply is_int_val; [apply is_int_lin; apply is_int_cos|].
    rewrite (vsum_ext _ _ (fun j => 1/2 * cos (INR 0 * x j) + - (1/2) * cos (INR 2 * x j))) by (intros; cbn [INR]; rewrite Rmult_0_l, cos_0; field).
    rewrite vsum_add, !vsum_scal. unfold x. rewrite !trap_sum' by lia. cbn [Nat.eq_dec]. repeat destruct (Nat.eq_dec _ _); try lia. field. lra.
  - apply (is_int_ext (fun t => 1/4 * cos (INR 1 * t) + - (1/4) * cos (INR 3 * t))); [intros; field|].
    eapply is_int_val; [apply is_int_lin; apply is_int_cos|].
    rewrite (vsum_ext _ _ (fun j => 1/4 * cos (INR 1 * x j) + - (1/4) * cos (INR 3 * x j))) by (intros; field).
    rewrite vsum_add, !vsum_scal. unfold x. rewrite !trap_sum' by lia. repeat destruct (Nat.eq_dec _ _); try lia. field. lra.
  - apply (is_int_ext (fun t => 1 * (1/2 * cos (INR (S (S k)) * t) + - (1/4) * cos (INR (S (S k) + 2) * t)) + - (1/4) * cos (INR k * t))); [intros; field|].
    eapply is_int_val; [apply is_int_lin; [apply is_int_lin|]; apply is_int_cos|].
    rewrite (vsum_ext _ _ (fun j => (1/2 * cos (INR (S (S k)) * x j) + - (1/4) * cos (INR (S (S k) + 2) * x j)) + - (1/4) * cos (INR k * x j))) by (intros; field).
    rewrite !vsum_add, !vsum_scal. unfold x. rewrite !trap_sum' by lia. repeat destruct (Nat.eq_dec _ _); try lia.
    + subst k. cbn [pow Nat.add]. field. lra.
    + replace (S (S k) + 2)%nat with (S (S (S (S k)))) by lia. cbn [pow]. field. lra.
Qed.
Lemma q6_exact n : (0 < n)%nat -> exact_for (2 * n) (fun x => sqrt ((x - -1) * (1 - x))) (-1) 1 (q6_roots n).
Proof.
  intros Hn p Hp. pose proof PI_RGT_0.
  apply (improper_sub _ (fun t => sin t ^ 2 * peval p (cos t)) cos (fun t => - sin t) (-1) 1 0 PI).
  - lra.
  - apply cos_0.
  - apply cos_PI.
  - intros t. auto_derive; [exact Logic.I|ring].
  - intros t. apply cont_of. reg.
  - intros t Ht. pose proof (sin_gt_0 t). lra.
  - intros u Hu. apply cont_weighted. apply sqrt_cont; [reg|]. nra.
  - intros t. apply cont_of. apply (continuity_mult (fun t => sin t ^ 2) (fun t => peval p (cos t))); [reg|].
    apply (continuity_comp cos (peval p)); [apply continuity_cos|apply peval_cont].
  - intros t Ht. rewrite sin_cos_sq. pose proof (sin_gt_0 t ltac:(lra) ltac:(lra)). rewrite sqrt_square by lra. ring.
  - apply q6_integral; assumption.
Qed.
