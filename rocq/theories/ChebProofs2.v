From Coq Require Import Reals Lra Lia.
From Verif Require Import Base PolyModel PolySpec PolyProofs PolyProofs2 OrthoModel OrthoProofs ChebModel ChebSpec ChebProofs.
Local Open Scope R_scope.

(* ---- cheb2poly: shapes --------------------------------------------------------------- *)
Lemma sub_tail_ok p q : (List.length q <= List.length p)%nat -> exists r, sub_tail p q = Ok r /\
  List.length r = List.length p /\ (forall x, peval r x = peval p x - peval q x) /\
  r = map2 Rminus p (pad_left (List.length p) q).
Proof.
  intros H. unfold sub_tail. apply Nat.leb_le in H as H'. rewrite H'. eexists; split; [reflexivity|].
  split; [rewrite map2_length, pad_left_length; lia|]. split; [|reflexivity].
  intros x. rewrite peval_map2_minus by (rewrite pad_left_length; lia). now rewrite peval_pad.
Qed.
Lemma sub_last_eval q c x : q <> [] -> peval (sub_last q c) x = peval q x - c.
Proof.
  intros H. unfold sub_last. rewrite peval_snoc. rewrite (removelast_last_app q 0 H) at 3. rewrite peval_snoc. ring.
Qed.
Lemma sub_last_length q c : q <> [] -> List.length (sub_last q c) = List.length q.
Proof.
  intros H. unfold sub_last. rewrite app_length, removelast_length. cbn.
  destruct q; [congruence|cbn; lia].
Qed.
Lemma drop_short_hd l : (List.length (drop_zeros l) < List.length l)%nat -> hd 0 l = 0.
Proof.
  destruct l as [|c l]; [cbn; lia|]. cbn [drop_zeros hd]. destruct (nonzero c) eqn:E; [lia|]. intros _. now apply nonzero_false.
Qed.
Lemma drop_hd l : hd 0 l <> 0 -> drop_zeros l = l.
Proof. destruct l as [|c l]; cbn; [congruence|]. intros H. apply nonzero_true in H. now rewrite H. Qed.
Lemma drop_hd_nonzero l : drop_zeros l <> [] -> hd 0 (drop_zeros l) <> 0.
Proof.
  induction l as [|c l IH]; cbn [drop_zeros]; [congruence|]. destruct (nonzero c) eqn:E; [|exact IH].
  intros _. cbn. now apply nonzero_true.
Qed.
Lemma hd_convolve a b c d : hd 0 (convolve (c :: a) (d :: b)) = c * d.
Proof. cbn. destruct (map (Rmult c) b ++ repeat 0 (List.length a)); cbn; ring. Qed.
Lemma hd_map2 p q : List.length p = List.length q -> hd 0 (map2 Rminus p q) = hd 0 p - hd 0 q.
Proof. destruct p, q; cbn; intros; try discriminate; ring. Qed.
Lemma hd_pad n q : (List.length q < n)%nat -> hd 0 (pad_left n q) = 0.
Proof. intros H. unfold pad_left. destruct (n - List.length q)%nat eqn:E; [lia|]. reflexivity. Qed.
Lemma hd_sub_last q c : (2 <= List.length q)%nat -> hd 0 (sub_last q c) = hd 0 q.
Proof. intros H. destruct q as [|a [|b q]]; cbn in H; try lia. reflexivity. Qed.
Lemma all_zero_drop l : drop_zeros l = [] -> l = repeat 0 (List.length l).
Proof.
  induction l as [|c l IH]; [reflexivity|]. cbn [drop_zeros]. destruct (nonzero c) eqn:E; [discriminate|].
  intros H. apply nonzero_false in E. subst c. cbn. now rewrite <- IH.
Qed.
Lemma drop_repeat n : drop_zeros (repeat 0 n) = [].
Proof. induction n as [|n IH]; [reflexivity|]. cbn. unfold nonzero. destruct (Req_EM_T 0 0); [exact IH|congruence]. Qed.

Definition shape (b b1 : list R) : Prop :=
  b <> [] /\ b1 <> [] /\
  ((drop_zeros b = [] /\ drop_zeros b1 = [] /\ (List.length b <= 2)%nat /\ (List.length b1 <= 2)%nat) \/
   ((List.length (drop_zeros b1) < List.length (drop_zeros b))%nat /\
    (List.length b1 <= List.length (drop_zeros b) + 1)%nat /\ (List.length b <= List.length (drop_zeros b) + 1)%nat)).

Lemma poly1d_two y0 y1 : y0 <> 0 -> poly1d [y0; y1] = [y0; y1].
Proof. intros H. unfold poly1d. rewrite drop_hd by exact H. reflexivity. Qed.
Lemma polymul_len y0 y1 b : y0 <> 0 -> 
  List.length (polymul [y0; y1] b) = (match drop_zeros b with [] => 2 | d => List.length d + 1 end)%nat.
Proof.
  intros H. unfold polymul. rewrite convolve_length by apply poly1d_nonempty. rewrite poly1d_two by exact H.
  unfold poly1d. destruct (drop_zeros b); cbn [List.length]; lia.
Qed.
Lemma shape_len y0 y1 b b1 c : y0 <> 0 -> shape b b1 ->
  (List.length (sub_last b1 c) <= List.length (polymul [y0; y1] b))%nat.
Proof.
  intros H [Hb [Hb1 S]]. rewrite sub_last_length by exact Hb1. rewrite polymul_len by exact H.
  destruct S as [[E1 [E2 [L1 L2]]]|[L0 [L1 L2]]].
  - rewrite E1. lia.
  - destruct (drop_zeros b); cbn [List.length] in *; lia.
Qed.
Lemma shape_step y0 y1 b b1 c r : y0 <> 0 -> shape b b1 ->
  sub_tail (polymul [y0; y1] b) (sub_last b1 c) = Ok r -> shape r b.
Proof.
  intros H S E. pose proof (shape_len y0 y1 b b1 c H S) as L.
  destruct (sub_tail_ok _ _ L) as [r' [E' [Lr [Pr Er]]]]. rewrite E in E'. injection E' as <-.
  destruct S as [Hb [Hb1 S]].
  assert (Hr : r <> []).
  { intros ->. rewrite polymul_len in Lr by exact H. destruct (drop_zeros b); cbn in Lr; lia. }
  split; [exact Hr|]. split; [exact Hb|].
  destruct S as [[Z1 [Z2 [L1 L2]]]|[L0 [L1 L2]]].
  - (* both zero *)
    assert (Er2 : r = [0; c]).
    { rewrite Er. apply all_zero_drop in Z1, Z2. rewrite Z2. rewrite Z1 at 1.
      assert (P : polymul [y0; y1] (repeat 0 (List.length b)) = [0; 0]).
      { unfold polymul, poly1d at 2. rewrite drop_repeat, poly1d_two by exact H. cbn. f_equal; [ring|f_equal; ring]. }
      rewrite Z1 in *. rewrite !repeat_length in *. rewrite P.
      destruct b1 as [|u [|v [|w b1]]]; [congruence| | |cbn in L2; lia]; cbn; f_equal; try ring; f_equal; ring. }
    destruct (Req_EM_T c 0) as [->|Hc].
    + left. rewrite Er2. split; [apply (drop_repeat 2)|]. split; [exact Z1|]. split; [cbn; lia|exact L1].
    + right. rewrite Er2, Z1. cbn [drop_zeros]. unfold nonzero.
      destruct (Req_EM_T 0 0); [|congruence]. destruct (Req_EM_T c 0); [congruence|]. cbn [List.length]. lia.
  - right. assert (Hd : drop_zeros b <> []) by (destruct (drop_zeros b); [cbn in L0; lia|discriminate]).
    assert (Lp : List.length (polymul [y0; y1] b) = (List.length (drop_zeros b) + 1)%nat).
    { rewrite polymul_len by exact H. destruct (drop_zeros b); [congruence|reflexivity]. }
    assert (Hhd : hd 0 r <> 0).
    { rewrite Er, hd_map2 by (rewrite pad_left_length; lia).
      assert (hd 0 (pad_left (List.length (polymul [y0; y1] b)) (sub_last b1 c)) = 0) as ->.
      { destruct (Nat.eq_dec (List.length b1) (List.length (drop_zeros b) + 1)) as [El|Nl].
        - unfold pad_left. rewrite sub_last_length, Lp, El by exact Hb1. rewrite Nat.sub_diag. cbn [repeat app].
          rewrite hd_sub_last by (destruct (drop_zeros b); [congruence|cbn [List.length] in El; lia]).
          apply drop_short_hd. lia.
        - apply hd_pad. rewrite sub_last_length by exact Hb1. lia. }
      rewrite Rminus_0_r. unfold polymul. rewrite poly1d_two by exact H.
      unfold poly1d. pose proof (drop_hd_nonzero b Hd) as Hn. destruct (drop_zeros b) as [|d l]; [congruence|].
      rewrite hd_convolve. cbn in Hn. now apply Rmult_integral_contrapositive_currified. }
    rewrite (drop_hd r Hhd), Lr, Lp. lia.
Qed.

Lemma cheb2poly_loop_spec y0 y1 ck : y0 <> 0 -> ck <> [] -> forall b b1, shape b b1 ->
  exists p, cheb2poly_loop [y0; y1] b b1 ck = Ok p /\
  (forall x, peval p x = series 1 ck (peval [y0; y1] x) + peval b x * chebT (List.length ck) (peval [y0; y1] x)
              - peval b1 x * chebT (List.length ck - 1) (peval [y0; y1] x)).
Proof.
  intros H. induction ck as [|c ck IH]; intros Hc b b1 Sh; [congruence|]. destruct ck as [|d ck].
  - cbn [cheb2poly_loop]. destruct (sub_tail_ok _ _ (shape_len y0 y1 b b1 c H Sh)) as [p [E [_ [P _]]]].
    exists p. split; [exact E|]. intros z. rewrite P, peval_polymul, sub_last_eval by apply Sh.
    cbn [series List.length]. change (1 - 1)%nat with 0%nat. unfold chebT. rewrite V_1, V_0. ring.
  - change (cheb2poly_loop [y0; y1] b b1 (c :: d :: ck)) with
      (let* bn := sub_tail (polymul (map (Rmult 2) [y0; y1]) b) (sub_last b1 c) in cheb2poly_loop [y0; y1] bn b (d :: ck)).
    cbn [map].
    assert (H2 : 2 * y0 <> 0) by lra.
    destruct (sub_tail_ok _ _ (shape_len (2 * y0) (2 * y1) b b1 c H2 Sh)) as [bn [E [_ [P _]]]].
    rewrite E. cbn [bind].
    destruct (IH ltac:(discriminate) bn b (shape_step _ _ _ _ _ _ H2 Sh E)) as [p [Ep Pp]].
    exists p. split; [exact Ep|]. intros z. rewrite Pp, P, peval_polymul, sub_last_eval by apply Sh.
    change (series 1 (c :: d :: ck) (peval [y0; y1] z)) with
      (c * chebV 1 (List.length (d :: ck)) (peval [y0; y1] z) + series 1 (d :: ck) (peval [y0; y1] z)).
    cbn [List.length]. replace (S (S (List.length ck)) - 1)%nat with (S (List.length ck)) by lia.
    replace (S (List.length ck) - 1)%nat with (List.length ck) by lia. unfold chebT.
    rewrite (V_SS 1 (List.length ck)).
    replace (peval [2 * y0; 2 * y1] z) with (2 * peval [y0; y1] z) by (cbn; ring).
    ring.
Qed.
Lemma cheb2poly_spec ck a b : ck <> [] -> a <> b -> exists p, cheb2poly ck a b = Ok p /\
  (forall x, chebval x ck a b 1 = Ok (peval p x)) /\ (p = [] \/ hd 0 p <> 0).
Proof.
  intros H Hab. unfold cheb2poly.
  assert (H0 : 2 / (b - a) <> 0).
  { unfold Rdiv. apply Rmult_integral_contrapositive_currified; [lra|]. apply Rinv_neq_0_compat. lra. }
  destruct (cheb2poly_loop_spec (2 / (b - a)) (- (a + b) / (b - a)) ck H0 H [0] [0]) as [p [E P]].
  { split; [discriminate|]. split; [discriminate|]. left. pose proof (drop_repeat 1) as Z. cbn [repeat] in Z. rewrite Z. repeat split; cbn; lia. }
  rewrite E. cbn [bind]. eexists; split; [reflexivity|]. split.
  - intros x. rewrite chebval_spec by exact H. f_equal. rewrite polytrim_value, P.
    replace (peval [2 / (b - a); - (a + b) / (b - a)] x) with (map_from_interval x a b).
    2:{ cbn. unfold map_from_interval. field. lra. }
    cbn [peval List.length pow]. ring.
  - destruct (polytrim_spec p) as [z [_ [_ [G|[c [q [G Hc]]]]]]]; [left; exact G|right; rewrite G; exact Hc].
Qed.

(* ---- polynomial form of a series ------------------------------------------------------- *)
Lemma V_poly kind k : exists p, (List.length p <= S k)%nat /\ forall x, chebV kind k x = peval p x.
Proof.
  revert k. apply two_step.
  - exists [1]. split; [cbn; lia|]. intros x. cbn. ring.
  - exists [kind; 0]. split; [cbn; lia|]. intros x. rewrite V_1. cbn. ring.
  - intros k [p [L1 P1]] [q [L2 P2]].
    exists (polyadd (map (Rmult 2) q ++ [0]) (map (Rmult (-1)) p)). split.
    + rewrite polyadd_length, app_length, !map_length. cbn [List.length]. lia.
    + intros x. rewrite peval_polyadd, peval_snoc, !peval_scale, <- P1, <- P2. rewrite V_SS. ring.
Qed.
Lemma series_poly kind ck : exists p, (List.length p <= List.length ck)%nat /\ forall x, series kind ck x = peval p x.
Proof.
  induction ck as [|c ck [p [L P]]].
  - exists []. split; [cbn; lia|reflexivity].
  - destruct (V_poly kind (List.length ck)) as [q [Lq Pq]]. exists (polyadd (map (Rmult c) q) p). split.
    + rewrite polyadd_length, map_length. cbn [List.length]. lia.
    + intros x. rewrite peval_polyadd, peval_scale, <- Pq, <- P. reflexivity.
Qed.

(* ---- nodes -------------------------------------------------------------------------------- *)
Lemma neg_cos t : - cos t = cos (PI - t).
Proof. rewrite cos_minus, cos_PI, sin_PI. ring. Qed.
Definition node (N i : nat) : R := PI * (2 * INR i + 1) / (2 * INR N).
Lemma INR_pos N : (0 < N)%nat -> 0 < INR N.
Proof. intros. now apply lt_0_INR. Qed.
Lemma chebroot_node N i : (i < N)%nat -> - cos (PI * (INR i + 1/2 * IZR 1) / (INR N + IZR 1 - 1)) = cos (node N (N - 1 - i)).
Proof.
  intros H. rewrite neg_cos. f_equal. unfold node. rewrite !minus_INR by lia. cbn [INR].
  pose proof (INR_pos N ltac:(lia)). field. lra.
Qed.
Lemma chebroot_list N : chebroot N 1 = Ok (map (fun i => cos (node N (N - 1 - i))) (seq 0 N)).
Proof.
  unfold chebroot. cbn [Z.eqb Pos.eqb orb]. f_equal. apply map_ext_in. intros i Hi. apply in_seq in Hi.
  apply chebroot_node. lia.
Qed.
Lemma node_range N i : (i < N)%nat -> 0 < node N i < PI.
Proof.
  intros H. unfold node. pose proof (INR_pos N ltac:(lia)) as HN. pose proof (pos_INR i).
  assert (INR i + 1 <= INR N) by (rewrite <- S_INR; apply le_INR; lia).
  pose proof PI_RGT_0. split.
  - apply Rmult_lt_0_compat; [nra|]. apply Rinv_0_lt_compat. lra.
  - apply (Rmult_lt_reg_r (2 * INR N)); [lra|]. replace (PI * (2 * INR i + 1) / (2 * INR N) * (2 * INR N)) with (PI * (2 * INR i + 1)) by (field; lra). nra.
Qed.
Lemma node_inc N i j : (i < j)%nat -> (j < N)%nat -> node N i < node N j.
Proof.
  intros H1 H2. unfold node. pose proof (INR_pos N ltac:(lia)). pose proof (lt_INR _ _ H1). pose proof PI_RGT_0.
  apply Rmult_lt_compat_r; [apply Rinv_0_lt_compat; lra|]. nra.
Qed.
Lemma cos_node_dec N i j : (i < j)%nat -> (j < N)%nat -> cos (node N j) < cos (node N i).
Proof.
  intros H1 H2. pose proof (node_range N i ltac:(lia)). pose proof (node_range N j ltac:(lia)).
  pose proof (node_inc N i j H1 H2). apply cos_decreasing_1; lra.
Qed.
Lemma neg_cos_shift t : cos (t + PI) = - cos t.
Proof. rewrite cos_plus, cos_PI, sin_PI. ring. Qed.
Lemma cos_odd_half k : cos (PI * (2 * INR k + 1) / 2) = 0.
Proof.
  induction k as [|k IH].
  - cbn [INR]. replace (PI * (2 * 0 + 1) / 2) with (PI / 2) by field. apply cos_PI2.
  - rewrite S_INR. replace (PI * (2 * (INR k + 1) + 1) / 2) with (PI * (2 * INR k + 1) / 2 + PI) by field.
    rewrite neg_cos_shift, IH. ring.
Qed.
