From Coq Require Import Reals Lra Lia.
From Coquelicot Require Import RInt Hierarchy Derive Continuity RInt_analysis AutoDerive.
From Verif Require Import Base PolyModel PolySpec OrthoModel QuadModel QuadSpec QuadProofs QuadProofs2 QuadProofs3 QuadProofs4 QuadProofs6 ChebProofs3 AdaptModel AdaptSpec AdaptProofs.
Local Open Scope R_scope.

(* ---- richardson ---- *)
Lemma richardson_geometric (q : nat -> option R) L C r k : (2 <= k)%nat -> C <> 0 -> 0 < r <= 100 / 107 ->
  (forall j, q j = Some (L + C * r ^ j)) -> richardson q k = Some L.
Proof.
  intros Hk HC Hr Hq. unfold richardson. rewrite !Hq. destruct k as [|[|k]]; try lia.
  replace (S (S k) - 1)%nat with (S k) by lia. replace (S (S k) - 2)%nat with k by lia.
  assert (P : 0 < r ^ k) by (apply pow_lt; lra). set (u := r ^ k) in *.
  assert (N : C * u <> 0) by (apply Rmult_integral_contrapositive; lra).
  assert (E0 : L + C * r ^ S (S k) - (L + C * r ^ S k) = C * u * (r * (r - 1))) by (unfold u; cbn [pow]; ring).
  assert (E1 : L + C * r ^ S k - (L + C * u) = C * u * (r - 1)) by (unfold u; cbn [pow]; ring).
  assert (NZ : C * u * (r * (r - 1)) <> 0).
  { repeat (apply Rmult_integral_contrapositive; split); try lra; try nra. }
  destruct (Req_EM_T _ _) as [E|_]; [exfalso; lra|]. rewrite E0, E1. f_equal.
  replace (C * u * (r - 1) / (C * u * (r * (r - 1))) - 1) with ((1 - r) / r).
  2:{ field. repeat split; try lra; try (intros ->; apply N; ring). }
  rewrite Rmax_left.
  - replace (L + C * r ^ S (S k)) with (L + C * u * (r * r)) by (unfold u; cbn [pow]; ring). field. lra.
  - apply Rmult_le_reg_r with r; [lra|]. replace ((1 - r) / r * r) with (1 - r) by (field; lra). lra.
Qed.
Lemma richardson_bounded (q : nat -> option R) k v x y : richardson q k = Some v -> q k = Some x -> q (k - 1)%nat = Some y ->
  Rabs (v - x) <= 100 / 7 * Rabs (x - y).
Proof.
  unfold richardson. intros H Hx Hy. rewrite Hx, Hy in H. destruct (q (k - 2)%nat) as [z|]; [|discriminate].
  destruct (Req_EM_T x y) as [E|N].
  - destruct (Req_EM_T y z); [discriminate|]. injection H as <-. rewrite Rminus_diag_eq by reflexivity. rewrite Rabs_R0. pose proof (Rabs_pos (x - y)). lra.
  - injection H as <-. set (c := Rmax _ _). assert (Hc : 7 / 100 <= c) by apply Rmax_r.
    replace (x + (x - y) / c - x) with (/ c * (x - y)) by (field; lra). rewrite Rabs_mult.
    apply Rmult_le_compat_r; [apply Rabs_pos|]. assert (0 < / c) by (apply Rinv_0_lt_compat; lra). rewrite Rabs_right by lra.
    replace (100 / 7) with (/ (7 / 100)) by field. apply Rinv_le_contravar; lra.
Qed.

(* ---- the nodes of quadgr ---- *)
Lemma pow2_INR k : INR (2 ^ k) = 2 ^ k.
Proof. rewrite pow_INR. reflexivity. Qed.
Lemma qg_dx_eq a b k : qg_dx a b k = (b - a) / (2 * 2 ^ k).
Proof. induction k as [|k IH]; cbn [qg_dx pow]; [field|]. rewrite IH. field. apply pow_nonzero; lra. Qed.
Lemma seq_shift_map s n : seq s n = map (fun j => (s + j)%nat) (seq 0 n).
Proof. induction s as [|s IH]; [rewrite map_id; reflexivity|]. rewrite <- seq_shift, IH, map_map. reflexivity. Qed.
Lemma map_flat_map {A B C} (g : B -> C) (h : A -> list B) l : map g (flat_map h l) = flat_map (fun x => map g (h x)) l.
Proof. induction l as [|x l IH]; cbn; [reflexivity|]. rewrite map_app, IH. reflexivity. Qed.
Lemma flat_map_map {A B C} (g : A -> B) (h : B -> list C) l : flat_map h (map g l) = flat_map (fun x => h (g x)) l.
Proof. induction l as [|x l IH]; cbn; [reflexivity|]. rewrite IH. reflexivity. Qed.
Lemma flat_map_ext' {A B} (g h : A -> list B) l : (forall x, g x = h x) -> flat_map g l = flat_map h l.
Proof. intros E. induction l as [|x l IH]; cbn; [reflexivity|]. rewrite IH, E. reflexivity. Qed.
Lemma flat_map_app' {A B} (g : A -> list B) l m : flat_map g (l ++ m) = flat_map g l ++ flat_map g m.
Proof. induction l as [|x l IH]; cbn; [reflexivity|]. rewrite IH, app_assoc. reflexivity. Qed.
Lemma qg_nodes_eq xn a b k : let d := (b - a) / (2 * 2 ^ k) in
  qg_nodes xn a b k = flat_map (fun j => map (fun t => a + (2 * INR j + 1) * d + d * t) xn) (seq 0 (2 ^ k)).
Proof.
  induction k as [|k IH]; cbv zeta in *.
  - cbn [qg_nodes Nat.pow seq flat_map]. rewrite app_nil_r. apply map_ext. intros t. cbn. field.
  - cbn [qg_nodes]. cbv zeta. rewrite IH. set (d := (b - a) / (2 * 2 ^ k)).
    assert (P : 2 ^ k <> 0) by (apply pow_nonzero; lra).
    assert (Ed : (b - a) / (2 * 2 ^ S k) = d / 2) by (unfold d; cbn [pow]; field; exact P). rewrite Ed.
    replace (2 ^ S k)%nat with (2 ^ k + 2 ^ k)%nat by (cbn; lia). rewrite seq_app, flat_map_app'. f_equal.
    + rewrite map_flat_map. apply flat_map_ext'. intros j. rewrite map_map. apply map_ext. intros t. field.
    + change (0 + 2 ^ k)%nat with (2 ^ k)%nat. rewrite (seq_shift_map (2 ^ k)), flat_map_map, map_flat_map. apply flat_map_ext'. intros j. rewrite map_map. apply map_ext. intros t.
      rewrite plus_INR, pow2_INR. assert (B : b = a + 2 * 2 ^ k * d) by (unfold d; field; exact P). rewrite B at 1. field.
Qed.

(* ---- the sum ---- *)
Lemma map2g_map2 {X} (f : R -> R -> R) (g h : X -> R) l : map2g f (map g l) (map h l) = map (fun x => f (g x) (h x)) l.
Proof. induction l as [|x l IH]; cbn; [reflexivity|]. rewrite IH. reflexivity. Qed.
Lemma rows_sum_eq nodes (g : nat -> R -> R) js : forall fuel, (List.length js <= fuel)%nat -> nodes <> [] ->
  rows_sum fuel (List.length nodes) (flat_map (fun j => map (g j) nodes) js) = map (fun t => sumR (map (fun j => g j t) js)) nodes.
Proof.
  assert (Z : repeat 0 (List.length nodes) = map (fun t => 0) nodes).
  { induction nodes as [|x nodes IH]; cbn; [reflexivity|]. rewrite IH. reflexivity. }
  induction js as [|j js IH]; intros fuel Hf Hn.
  - cbn [flat_map map]. destruct fuel; cbn [rows_sum]; exact Z.
  - destruct fuel as [|fuel]; [cbn in Hf; lia|]. cbn [flat_map]. cbn [List.length] in Hf.
    destruct (map (g j) nodes ++ flat_map (fun j0 => map (g j0) nodes) js) eqn:E.
    { destruct nodes; [congruence|discriminate E]. }
    cbn [rows_sum]. rewrite <- E.
    rewrite firstn_app, skipn_app, map_length, Nat.sub_diag. cbn [firstn skipn].
    rewrite firstn_all2, skipn_all2 by (rewrite map_length; lia). cbn [app]. rewrite app_nil_r.
    rewrite IH by (auto; lia). rewrite map2g_map2. reflexivity.
Qed.
Lemma rule_sum_map2 nodes weights (G : R -> R) : sumR (map2g Rmult (map G nodes) weights) = rule_sum nodes weights G.
Proof. revert weights. induction nodes as [|x nodes IH]; intros [|w weights]; cbn; auto. rewrite <- IH. unfold sumR. ring. Qed.
Lemma rule_sum_sum nodes weights (g : nat -> R -> R) js : rule_sum nodes weights (fun t => sumR (map (fun j => g j t) js)) = sumR (map (fun j => rule_sum nodes weights (g j)) js).
Proof.
  induction js as [|j js IH].
  - cbn [map]. change (sumR []) with 0. rewrite (rule_sum_ext_in nodes weights _ (fun t => 0 * 1)) by (intros; cbn; ring). rewrite rule_sum_mult. ring.
  - cbn [map]. change (sumR (rule_sum nodes weights (g j) :: ?l)) with (rule_sum nodes weights (g j) + sumR l). rewrite <- IH.
    change (rule_sum nodes weights (fun t => g j t + sumR (map (fun j0 => g j0 t) js)) = rule_sum nodes weights (g j) + rule_sum nodes weights (fun t => sumR (map (fun j0 => g j0 t) js))).
    clear IH. revert weights. induction nodes as [|x nodes IHn]; intros [|w weights]; cbn [rule_sum]; try ring. rewrite IHn. ring.
Qed.
Lemma sumR_scal d l : sumR l * d = sumR (map (Rmult d) l).
Proof. induction l as [|x l IH]; cbn; [unfold sumR; cbn; ring|]. unfold sumR in *. cbn. rewrite <- IH. ring. Qed.
Lemma val0_composite nodes weights f a b k : nodes <> [] -> qg_val0 nodes weights f a b k = composite nodes weights f a b (2 ^ k).
Proof.
  intros Hn. unfold qg_val0. cbv zeta. rewrite qg_nodes_eq, map_flat_map. rewrite qg_dx_eq.
  set (d := (b - a) / (2 * 2 ^ k)).
  rewrite (flat_map_ext' _ (fun j => map (fun t => f (a + (2 * INR j + 1) * d + d * t)) nodes)) by (intros; apply map_map).
  rewrite (rows_sum_eq nodes (fun j t => f (a + (2 * INR j + 1) * d + d * t))); [|..].
  - rewrite rule_sum_map2, rule_sum_sum, sumR_scal, map_map. unfold composite. cbv zeta. rewrite pow2_INR. reflexivity.
  - assert (L : forall (g : nat -> R -> R) js, (List.length js <= List.length (flat_map (fun j => map (g j) nodes) js))%nat).
    { intros g. induction js as [|j js IH]; cbn [flat_map List.length]; [lia|]. rewrite app_length, map_length. destruct nodes; [congruence|]. cbn [List.length]. lia. }
    apply (L (fun j t => f (a + (2 * INR j + 1) * d + d * t))).
  - exact Hn.
Qed.
Lemma composite_exact nodes weights M p a b N : (0 < N)%nat -> plain_exact_for M (-1) 1 (nodes, weights) -> (List.length p <= M)%nat ->
  integral (peval p) a b (composite nodes weights (peval p) a b N).
Proof.
  intros HN HE Lp. unfold composite. cbv zeta. assert (PN : INR N <> 0) by (apply not_0_INR; lia).
  set (d := (b - a) / (2 * INR N)).
  assert (G : forall m s, integral (peval p) (a + 2 * INR s * d) (a + 2 * INR (s + m) * d)
     (fold_right Rplus 0 (map (fun j => d * rule_sum nodes weights (fun t => peval p (a + (2 * INR j + 1) * d + d * t))) (seq s m)))).
  { induction m as [|m IH]; intros s.
    - rewrite Nat.add_0_r. cbn [seq map fold_right]. apply (is_RInt_point (V := R_NormedModule)).
    - cbn [seq map fold_right]. replace (s + S m)%nat with (S s + m)%nat by lia.
      apply (is_RInt_Chasles (V := R_NormedModule) _ _ (a + 2 * INR (S s) * d)); [|apply IH].
      set (a' := a + 2 * INR s * d). set (b' := a + 2 * INR (S s) * d).
      destruct (compose_affine p a' b') as (q & Lq & Hq).
      assert (EB : b' - a' = 2 * d) by (unfold a', b'; rewrite S_INR; ring).
      assert (EM : forall y, map_to_interval y a' b' = a + (2 * INR s + 1) * d + d * y).
      { intros y. unfold map_to_interval, a', b'. rewrite S_INR. field. }
      eapply is_int_val; [apply (int_affine p q a' b' _ Hq (HE q ltac:(lia)))|].
      rewrite EB. cbn [fst snd]. f_equal; [field|]. apply rule_sum_ext_in. intros t _. rewrite Hq, EM. reflexivity. }
  specialize (G N 0%nat). replace (a + 2 * INR 0 * d) with a in G by (cbn; ring). replace (a + 2 * INR (0 + N) * d) with b in G; [exact G|].
  change (0 + N)%nat with N. unfold d. field. exact PN.
Qed.

(* ---- quadgr ---- *)
Lemma qg_integrate_few eps nodes weights f a b abseps n q e : nodes <> [] -> (n <= 4)%nat ->
  qg_integrate false eps nodes weights f a b abseps n = Ok (Some q, Some e) ->
  exists k, (1 <= k < n)%nat /\ q = composite nodes weights f a b (2 ^ k) /\
    e = Rabs (composite nodes weights f a b (2 ^ k) - composite nodes weights f a b (2 ^ (k - 1))) + 2 * eps /\
    ((k < n - 1)%nat -> e - 2 * eps < abseps).
Proof.
  intros Hn Ln. unfold qg_integrate.
  set (v0 := fun k => Some (qg_val0 nodes weights f a b k)).
  assert (B : forall k, (k < 4)%nat -> qg_best v0 k = (Some (composite nodes weights f a b (2 ^ k)), Some (Rabs (composite nodes weights f a b (2 ^ k) - composite nodes weights f a b (2 ^ (k - 1)))))).
  { intros k Hk. unfold qg_best. replace (6 <=? k)%nat with false by (symmetry; apply Nat.leb_gt; lia).
    replace (4 <=? k)%nat with false by (symmetry; apply Nat.leb_gt; lia). unfold v0. cbn [oabsdiff]. rewrite !val0_composite by exact Hn. reflexivity. }
  set (c := fun k => composite nodes weights f a b (2 ^ k)) in *. cbv beta in *.
  assert (G : forall m k last, (1 <= k)%nat -> (k + m = n)%nat -> forall qe, qg_loop v0 abseps m k last = Ok qe ->
     (last = Ok qe /\ m = 0%nat) \/ exists j, (k <= j < n)%nat /\ qe = (Some (c j), Some (Rabs (c j - c (j - 1)%nat))) /\ ((j < n - 1)%nat -> Rabs (c j - c (j - 1)%nat) < abseps)).
  { induction m as [|m IH]; intros k last Hk Hm qe H; cbn [qg_loop] in H; [left; auto|]. right. rewrite B in H by lia. cbn [qg_converged] in H.
    destruct (Rlt_dec _ _) as [L|L].
    - injection H as <-. exists k. split; [lia|]. split; [reflexivity|]. intros _. exact L.
    - destruct (IH (S k) _ ltac:(lia) ltac:(lia) qe H) as [[E ->]|(j & Hj & E)].
      + injection E as <-. exists k. split; [lia|]. split; [reflexivity|]. intros; lia.
      + exists j. split; [lia|exact E]. }
  destruct n as [|n]; [cbn; discriminate|]. replace (S n - 1)%nat with n by lia.
  destruct (qg_loop v0 abseps n 1 (Err UnboundLocal)) as [qe|ex] eqn:E; cbn [bind]; [|discriminate].
  intros H. injection H as Hq He.
  destruct (G n 1%nat _ ltac:(lia) ltac:(lia) qe E) as [[C _]|(j & Hj & -> & Hc)]; [discriminate C|].
  cbn [fst snd oadd] in Hq, He. injection Hq as <-. injection He as <-. exists j. split; [lia|]. split; [reflexivity|]. split; [reflexivity|]. intros Hlt. specialize (Hc ltac:(lia)). fold (c j). fold (c (j - 1)%nat). lra.
Qed.
Lemma qg_integrate_const eps nodes weights f a b abseps n I : nodes <> [] -> (2 <= n)%nat -> 0 < abseps ->
  (forall k, composite nodes weights f a b (2 ^ k) = I) ->
  qg_integrate false eps nodes weights f a b abseps n = Ok (Some I, Some (2 * eps)).
Proof.
  intros Hn Ln Ha HI. unfold qg_integrate. destruct n as [|[|n]]; try lia. replace (S (S n) - 1)%nat with (S n) by lia. cbn [qg_loop].
  unfold qg_best. cbn [Nat.leb]. cbn [oabsdiff]. rewrite !val0_composite by exact Hn. rewrite !HI. cbn [qg_converged].
  replace (Rabs (I - I)) with 0 by (rewrite Rminus_diag_eq by reflexivity; symmetry; apply Rabs_R0).
  destruct (Rlt_dec 0 abseps) as [_|C]; [|lra]. cbn [bind fst snd oadd]. rewrite Rplus_0_l. reflexivity.
Qed.
Lemma pow2_pos k : (0 < 2 ^ k)%nat.
Proof. apply Nat.neq_0_lt_0, Nat.pow_nonzero. lia. Qed.
Lemma composite_ext nodes weights f g a b N : (forall j t, In t nodes -> (j < N)%nat -> f (a + (2 * INR j + 1) * ((b - a) / (2 * INR N)) + (b - a) / (2 * INR N) * t) = g (a + (2 * INR j + 1) * ((b - a) / (2 * INR N)) + (b - a) / (2 * INR N) * t)) ->
  composite nodes weights f a b N = composite nodes weights g a b N.
Proof.
  intros H. unfold composite. cbv zeta. f_equal. apply map_ext_in. intros j Hj. apply in_seq in Hj. f_equal. apply rule_sum_ext_in. intros t Ht. apply H; auto. lia.
Qed.
Lemma rule_nonempty M (nodes weights : list R) : (0 < M)%nat -> plain_exact_for M (-1) 1 (nodes, weights) -> nodes <> [].
Proof.
  intros HM H ->. pose proof (H [1] ltac:(cbn; lia)) as G. cbn [fst snd rule_sum] in G.
  pose proof (int_unique _ _ _ _ _ G (int_one (-1) 1)). lra.
Qed.
Lemma quadgr_exact_ordered eps nodes weights M p a b abseps n : (0 < M)%nat -> plain_exact_for M (-1) 1 (nodes, weights) -> (List.length p <= M)%nat ->
  (2 <= n)%nat -> 0 < abseps -> exists I, qg_integrate false eps nodes weights (peval p) a b abseps n = Ok (Some I, Some (2 * eps)) /\ integral (peval p) a b I.
Proof.
  intros HM HE Lp Ln Ha. pose proof (rule_nonempty _ _ _ HM HE) as Hn.
  exists (composite nodes weights (peval p) a b 1). split; [|apply (composite_exact _ _ M); auto].
  apply qg_integrate_const; auto. intros k.
  apply (int_unique (peval p) a b); [apply (composite_exact _ _ M); auto using pow2_pos|apply (composite_exact _ _ M); auto].
Qed.
Lemma quadgr_exact eps nodes weights M p a b abseps n : (0 < M)%nat -> plain_exact_for M (-1) 1 (nodes, weights) -> (List.length p <= M)%nat ->
  (2 <= n)%nat -> 0 < abseps -> a <> b ->
  exists I, quadgr false eps nodes weights (peval p) (Fin a) (Fin b) abseps n = Ok (Some I, Some (2 * eps)) /\ integral (peval p) a b I.
Proof.
  intros HM HE Lp Ln Ha N. unfold quadgr. cbn [lim_eqb lim_gtb]. destruct (Req_EM_T a b) as [E|_]; [contradiction|].
  destruct (Rlt_dec b a) as [L|L]; cbn [qg_ordered].
  - destruct (quadgr_exact_ordered eps nodes weights M p b a abseps n) as (I & EQ & HI); auto. rewrite EQ. cbn [bind fst snd option_map].
    exists (- I). split; [reflexivity|]. apply (is_RInt_swap (V := R_NormedModule) (peval p) a b I). exact HI.
  - apply (quadgr_exact_ordered eps nodes weights M p a b abseps n); auto.
Qed.
Lemma quadgr_reverse int_dtype eps nodes weights f a b abseps n :
  quadgr int_dtype eps nodes weights f b a abseps n = neg_result (quadgr int_dtype eps nodes weights f a b abseps n).
Proof.
  assert (O : forall x : option R, option_map Ropp (option_map Ropp x) = x) by (intros [x|]; cbn; [rewrite Ropp_involutive|]; reflexivity).
  assert (D : forall X : res (option R * option R), X = (let* p := (let* p := X in Ok (option_map Ropp (fst p), snd p)) in Ok (option_map Ropp (fst p), snd p))).
  { intros [[u v]|ex]; cbn [bind fst snd]; rewrite ?O; reflexivity. }
  unfold quadgr, neg_result. destruct a as [|a|], b as [|b|]; cbn [lim_eqb lim_gtb]; try reflexivity; try apply D.
  destruct (Req_EM_T b a) as [->|N].
  - destruct (Req_EM_T a a) as [_|C]; [|contradiction]. cbn [bind fst snd option_map]. do 3 f_equal. ring.
  - destruct (Req_EM_T a b) as [E|_]; [congruence|]. destruct (Rlt_dec a b), (Rlt_dec b a); try lra; [reflexivity|apply D].
Qed.
Lemma quadgr_one_iteration int_dtype eps nodes weights f a b abseps : lim_eqb a b = false -> quadgr int_dtype eps nodes weights f a b abseps 1 = Err UnboundLocal.
Proof. intros H. unfold quadgr. rewrite H. destruct a, b; cbn [lim_gtb]; try discriminate H; try reflexivity. destruct (Rlt_dec _ _); reflexivity. Qed.
Lemma quadgr_int_raises eps nodes weights f a b abseps n : a <> b -> (2 <= n)%nat -> quadgr true eps nodes weights f (Fin a) (Fin b) abseps n = Err ValueError.
Proof.
  intros N Ln. unfold quadgr. cbn [lim_eqb lim_gtb]. destruct (Req_EM_T a b); [contradiction|].
  assert (G : forall a b, qg_integrate true eps nodes weights f a b abseps n = Err ValueError).
  { intros x y. unfold qg_integrate. set (v0 := fun k => _).
    assert (X : forall m k qe, exists qe', qg_loop v0 abseps m k (Ok qe) = Ok qe').
    { induction m as [|m IH]; intros k qe; cbn [qg_loop]; [eauto|]. destruct (qg_converged _ _); eauto. }
    destruct n as [|[|n']]; try lia. replace (S (S n') - 1)%nat with (S n') by lia. cbn [qg_loop].
    destruct (qg_converged _ _); [reflexivity|]. destruct (X n' 2%nat (qg_best v0 1)) as [qe' ->]. reflexivity. }
  cbn [qg_ordered]. rewrite !G. destruct (Rlt_dec b a); reflexivity.
Qed.
(* zero tolerance: the fourth step is NaN as soon as the estimates agree *)
Lemma qg_zero_tol eps nodes weights M p a b n : (0 < M)%nat -> plain_exact_for M (-1) 1 (nodes, weights) -> (List.length p <= M)%nat -> (5 <= n)%nat ->
  a < b -> quadgr false eps nodes weights (peval p) (Fin a) (Fin b) 0 n = Ok (None, None).
Proof.
  intros HM HE Lp Ln Hab. pose proof (rule_nonempty _ _ _ HM HE) as Hn. unfold quadgr. cbn [lim_eqb lim_gtb].
  destruct (Req_EM_T a b); [lra|]. destruct (Rlt_dec b a); [lra|]. cbn [qg_ordered]. unfold qg_integrate.
  set (v0 := fun k => _). set (I := composite nodes weights (peval p) a b 1).
  assert (V : forall k, v0 k = Some I).
  { intros k. unfold v0. rewrite val0_composite by exact Hn. f_equal.
    apply (int_unique (peval p) a b); [apply (composite_exact _ _ M); auto using pow2_pos|apply (composite_exact _ _ M); auto]. }
  assert (R0 : forall k, richardson v0 k = None).
  { intros k. unfold richardson. rewrite !V. destruct (Req_EM_T I I) as [_|C]; [reflexivity|contradiction]. }
  assert (D : oabsdiff (Some I) (Some I) = Some 0).
  { cbn. f_equal. rewrite Rminus_diag_eq by reflexivity. apply Rabs_R0. }
  assert (B : forall k, (k < 4)%nat -> qg_best v0 k = (Some I, Some 0)).
  { intros k Hk. unfold qg_best. replace (6 <=? k)%nat with false by (symmetry; apply Nat.leb_gt; lia).
    replace (4 <=? k)%nat with false by (symmetry; apply Nat.leb_gt; lia). rewrite !V, D. reflexivity. }
  assert (B4 : qg_best v0 4 = (None, None)).
  { unfold qg_best. cbn [Nat.leb Nat.sub]. rewrite !V, D. unfold qg_val1. cbn [Nat.leb]. rewrite !R0. reflexivity. }
  destruct n as [|[|[|[|[|n']]]]]; try lia. replace (S (S (S (S (S n')))) - 1)%nat with (S (S (S (S n')))) by lia.
  cbn [qg_loop]. rewrite !B by lia. rewrite B4. cbn [qg_converged]. destruct (Rlt_dec 0 0); [lra|]. reflexivity.
Qed.
Lemma quadgr_composite eps nodes weights f a b abseps n q e : nodes <> [] -> (n <= 4)%nat -> a < b ->
  quadgr false eps nodes weights f (Fin a) (Fin b) abseps n = Ok (Some q, Some e) ->
  exists k, (1 <= k < n)%nat /\ q = composite nodes weights f a b (2 ^ k) /\
    e = Rabs (composite nodes weights f a b (2 ^ k) - composite nodes weights f a b (2 ^ (k - 1))) + 2 * eps /\
    ((k < n - 1)%nat -> e - 2 * eps < abseps).
Proof.
  intros Hn Ln Hab. unfold quadgr. cbn [lim_eqb lim_gtb]. destruct (Req_EM_T a b); [lra|]. destruct (Rlt_dec b a); [lra|].
  apply qg_integrate_few; assumption.
Qed.
