From Coq Require Import Reals Lra Lia.
From Verif Require Import Base PolyModel PolySpec PolyProofs PolyProofs2 OrthoModel OrthoProofs
  ChebModel ChebSpec ChebProofs ChebProofs2.
Local Open Scope R_scope.

(* ---- zeros and extrema ------------------------------------------------------------------- *)
Lemma cos_int k : cos (INR k * PI) = (-1) ^ k.
Proof.
  induction k as [|k IH]; [cbn [INR pow]; rewrite Rmult_0_l; apply cos_0|].
  rewrite S_INR. replace ((INR k + 1) * PI) with (INR k * PI + PI) by ring. rewrite neg_cos_shift, IH. cbn. ring.
Qed.
Lemma sin_int k : sin (INR k * PI) = 0.
Proof.
  induction k as [|k IH]; [cbn [INR]; rewrite Rmult_0_l; apply sin_0|].
  rewrite S_INR. replace ((INR k + 1) * PI) with (INR k * PI + PI) by ring. rewrite neg_sin, IH. ring.
Qed.
Lemma at_map' (f : nat -> R) n i : (i < n)%nat -> at_R (map f (seq 0 n)) i = f i.
Proof. apply at_map. Qed.
Lemma increasing_NoDup l : (forall i j, (i < j)%nat -> (j < List.length l)%nat -> at_R l i < at_R l j) -> NoDup l.
Proof.
  intros H. apply (NoDup_nth l 0). intros i j Hi Hj E.
  destruct (Nat.lt_total i j) as [L|[L|L]]; [|exact L|].
  - specialize (H i j L Hj). unfold at_R in H. lra.
  - specialize (H j i L Hi). unfold at_R in H. lra.
Qed.
Lemma zeros_complete kind n l : NoDup l -> List.length l = n -> (forall r, In r l -> chebV kind n r = 0) ->
  chebV kind n 1 <> 0 -> forall r, chebV kind n r = 0 -> In r l.
Proof.
  intros Hl Hn Hz H1 r Hr. destruct (in_dec Req_EM_T r l) as [G|G]; [exact G|].
  exfalso. destruct (V_poly kind n) as [p [Lp Pp]]. apply H1. rewrite Pp.
  apply (too_many_roots p (r :: l)); [constructor; assumption|cbn; lia|].
  intros s [<-|Hs]; rewrite <- Pp; auto.
Qed.
Lemma T_at_1 n : chebT n 1 = 1.
Proof. rewrite <- cos_0 at 1. rewrite T_cos, Rmult_0_r. apply cos_0. Qed.
Lemma U_at_1 n : chebU n 1 = INR (S n).
Proof.
  unfold chebU. revert n. apply two_step.
  - rewrite V_0. cbn. ring.
  - rewrite V_1. cbn. ring.
  - intros k H1 H2. rewrite V_SS, H1, H2, !S_INR. ring.
Qed.
Lemma chebroot_1 n : exists l, chebroot n 1 = Ok l /\ zeros_in_order 1 n l.
Proof.
  rewrite chebroot_list. eexists; split; [reflexivity|].
  set (l := map _ _).
  assert (L : List.length l = n) by (unfold l; now rewrite map_length, seq_length).
  assert (Inc : forall i j, (i < j)%nat -> (j < n)%nat -> at_R l i < at_R l j).
  { intros i j H1 H2. unfold l. rewrite !at_map by lia. apply cos_node_dec; lia. }
  assert (Z : forall r, In r l -> chebV 1 n r = 0).
  { intros r Hr. apply in_map_iff in Hr as [i [<- Hi]]. apply in_seq in Hi.
    change (chebV 1 n) with (chebT n). rewrite T_cos. unfold node. pose proof (INR_pos n ltac:(lia)).
    replace (INR n * (PI * (2 * INR (n - 1 - i) + 1) / (2 * INR n))) with (PI * (2 * INR (n - 1 - i) + 1) / 2) by (field; lra).
    apply cos_odd_half. }
  split; [exact L|]. split; [exact Inc|]. split.
  - intros r Hr. apply in_map_iff in Hr as [i [<- Hi]]. apply in_seq in Hi.
    pose proof (node_range n (n - 1 - i) ltac:(lia)). pose proof PI_RGT_0. split.
    + rewrite <- cos_PI. apply cos_decreasing_1; lra.
    + rewrite <- cos_0. apply cos_decreasing_1; lra.
  - intros r. split; [apply Z|]. apply (zeros_complete 1 n l).
    + apply increasing_NoDup. rewrite L. exact Inc.
    + exact L.
    + exact Z.
    + change (chebV 1 n 1) with (chebT n 1). rewrite T_at_1. lra.
Qed.
Lemma chebroot_2 n : exists l, chebroot n 2 = Ok l /\ zeros_in_order 2 n l.
Proof.
  unfold chebroot. cbn [Z.eqb Pos.eqb orb]. eexists; split; [reflexivity|].
  set (t := fun i : nat => PI * (INR (n - i)) / (INR n + 1)).
  assert (E : map (fun i => - cos (PI * (INR i + 1 / 2 * 2) / (INR n + 2 - 1))) (seq 0 n) = map (fun i => cos (t i)) (seq 0 n)).
  { apply map_ext_in. intros i Hi. apply in_seq in Hi. rewrite neg_cos. f_equal. unfold t. rewrite minus_INR by lia.
    pose proof (pos_INR n). field. lra. }
  rewrite E. clear E. set (l := map _ _).
  pose proof PI_RGT_0 as HPI. pose proof (pos_INR n) as Hn.
  assert (Et : forall i, t i * (INR n + 1) = PI * INR (n - i)) by (intros i; unfold t; field; lra).
  assert (Rt : forall i, (i < n)%nat -> 0 < t i < PI).
  { intros i Hi. specialize (Et i). pose proof (INR_pos (n - i) ltac:(lia)).
    assert (INR (n - i) <= INR n) by (apply le_INR; lia). split; nra. }
  assert (L : List.length l = n) by (unfold l; now rewrite map_length, seq_length).
  assert (Inc : forall i j, (i < j)%nat -> (j < n)%nat -> at_R l i < at_R l j).
  { intros i j H1 H2. unfold l. rewrite !at_map by lia.
    pose proof (Rt i ltac:(lia)). pose proof (Rt j ltac:(lia)).
    apply cos_decreasing_1; try lra. pose proof (Et i). pose proof (Et j).
    assert (INR (n - j) < INR (n - i)) by (apply lt_INR; lia). nra. }
  assert (Z : forall r, In r l -> chebV 2 n r = 0).
  { intros r Hr. apply in_map_iff in Hr as [i [<- Hi]]. apply in_seq in Hi.
    pose proof (Rt i ltac:(lia)) as R0.
    assert (S0 : sin (t i) <> 0) by (pose proof (sin_gt_0 (t i)); lra).
    pose proof (U_sin n (t i)) as G. rewrite S_INR, Rmult_comm in G.
    replace ((INR n + 1) * t i) with (INR (n - i) * PI) in G by (rewrite Rmult_comm, <- Et; ring).
    rewrite sin_int in G. apply Rmult_integral in G. unfold chebU in G. tauto. }
  split; [exact L|]. split; [exact Inc|]. split.
  - intros r Hr. apply in_map_iff in Hr as [i [<- Hi]]. apply in_seq in Hi.
    pose proof (Rt i ltac:(lia)). split.
    + rewrite <- cos_PI. apply cos_decreasing_1; lra.
    + rewrite <- cos_0. apply cos_decreasing_1; lra.
  - intros r. split; [apply Z|]. apply (zeros_complete 2 n l).
    + apply increasing_NoDup. rewrite L. exact Inc.
    + exact L.
    + exact Z.
    + change (chebV 2 n 1) with (chebU n 1). rewrite U_at_1. apply not_0_INR. lia.
Qed.
Lemma chebextr_spec n : (0 < n)%nat ->
  List.length (chebextr n) = S n /\
  (forall i j, (i < j)%nat -> (j <= n)%nat -> at_R (chebextr n) i < at_R (chebextr n) j) /\
  at_R (chebextr n) 0 = -1 /\ at_R (chebextr n) n = 1 /\
  (forall i, (i <= n)%nat -> chebT n (at_R (chebextr n) i) = (-1) ^ (n - i)).
Proof.
  intros H. unfold chebextr. rewrite Nat.add_1_r. pose proof (INR_pos n H) as Hn. pose proof PI_RGT_0 as HPI.
  set (t := fun i : nat => PI * INR (n - i) / INR n).
  assert (Et : forall i, t i * INR n = PI * INR (n - i)) by (intros i; unfold t; field; lra).
  assert (E : forall i, (i <= n)%nat -> at_R (map (fun i => - cos (PI * INR i / INR n)) (seq 0 (S n))) i = cos (t i)).
  { intros i Hi. rewrite at_map by lia. rewrite neg_cos. f_equal. unfold t. rewrite minus_INR by lia. field. lra. }
  assert (Rt : forall i, 0 <= t i <= PI).
  { intros i. specialize (Et i). pose proof (pos_INR (n - i)).
    assert (INR (n - i) <= INR n) by (apply le_INR; lia). split; nra. }
  split; [now rewrite map_length, seq_length|]. split; [|split; [|split]].
  - intros i j H1 H2. rewrite !E by lia. pose proof (Rt i). pose proof (Rt j).
    apply cos_decreasing_1; try lra. pose proof (Et i). pose proof (Et j).
    assert (INR (n - j) < INR (n - i)) by (apply lt_INR; lia). nra.
  - rewrite E by lia. unfold t. rewrite Nat.sub_0_r. replace (PI * INR n / INR n) with PI by (field; lra). apply cos_PI.
  - rewrite E by lia. unfold t. rewrite Nat.sub_diag. cbn [INR]. replace (PI * 0 / INR n) with 0 by (field; lra). apply cos_0.
  - intros i Hi. rewrite E by lia. rewrite T_cos, Rmult_comm, Et, Rmult_comm. apply cos_int.
Qed.

(* ---- discrete orthogonality ------------------------------------------------------------------ *)
Definition w (k : nat) : R := match k with O => 1/2 | _ => 1 end.
Definition D (N : nat) (th : R) : R := vsum N (fun k => w k * cos (INR k * th)).
Lemma dirichlet N th : (0 < N)%nat -> 2 * sin (th / 2) * D N th = sin ((INR N - 1/2) * th).
Proof.
  intros H. destruct N as [|N]; [lia|]. clear H. induction N as [|N IH].
  - unfold D. cbn [vsum w INR]. rewrite Rmult_0_l, cos_0. replace ((1 - 1 / 2) * th) with (th / 2) by field. field.
  - unfold D in *. cbn [vsum] in *. rewrite Rmult_plus_distr_l, IH. cbn [w].
    rewrite !S_INR. set (m := INR N + 1).
    replace ((m - 1 / 2) * th) with (m * th - th / 2) by field.
    replace ((m + 1 - 1 / 2) * th) with (m * th + th / 2) by field.
    rewrite sin_plus, sin_minus. ring.
Qed.
Lemma D_0 N : (0 < N)%nat -> D N 0 = INR N - 1/2.
Proof.
  intros H. destruct N as [|N]; [lia|]. clear H. induction N as [|N IH].
  - unfold D. cbn [vsum w INR]. rewrite Rmult_0_l, cos_0. field.
  - unfold D in *. cbn [vsum] in *. rewrite IH. cbn [w]. rewrite Rmult_0_r, cos_0, !S_INR. ring.
Qed.
Lemma D_even N th : D N (- th) = D N th.
Proof. apply vsum_ext. intros k _. f_equal. rewrite <- cos_neg. f_equal. ring. Qed.
Lemma D_node N m : (0 < m)%nat -> (m < 2 * N)%nat -> D N (PI * INR m / INR N) = - (-1) ^ m / 2.
Proof.
  intros H1 H2. assert (HN : (0 < N)%nat) by lia. pose proof (INR_pos N HN). pose proof (INR_pos m H1). pose proof PI_RGT_0.
  set (th := PI * INR m / INR N).
  assert (Eth : th * INR N = PI * INR m) by (unfold th; field; lra).
  assert (Hm : INR m < 2 * INR N) by (replace 2 with (INR 2) by reflexivity; rewrite <- mult_INR; apply lt_INR; exact H2).
  assert (S0 : sin (th / 2) > 0) by (apply sin_gt_0; nra).
  pose proof (dirichlet N th HN) as G.
  replace ((INR N - 1/2) * th) with (INR m * PI - th / 2) in G by (rewrite Rmult_comm, <- Eth; field).
  rewrite sin_minus, sin_int, cos_int in G.
  apply (Rmult_eq_reg_l (2 * sin (th / 2))); [|lra]. rewrite G. field.
Qed.
Lemma cos_cos N i j : (i < N)%nat -> (j < N)%nat ->
  vsum N (fun k => w k * (cos (INR k * node N i) * cos (INR k * node N j))) = if Nat.eq_dec i j then INR N / 2 else 0.
Proof.
  intros Hi Hj. assert (HN : (0 < N)%nat) by lia. pose proof (INR_pos N HN) as HNp.
  assert (E : vsum N (fun k => w k * (cos (INR k * node N i) * cos (INR k * node N j)))
    = / 2 * (D N (node N i - node N j) + D N (node N i + node N j))).
  { unfold D. rewrite <- vsum_add, <- vsum_scal. apply vsum_ext. intros k _.
    rewrite (Rmult_minus_distr_l (INR k)), (Rmult_plus_distr_l (INR k)), cos_minus, cos_plus. field. }
  rewrite E.
  assert (Ep : node N i + node N j = PI * INR (i + j + 1) / INR N).
  { unfold node. rewrite !plus_INR. cbn [INR]. field. lra. }
  rewrite Ep, D_node by lia.
  destruct (Nat.eq_dec i j) as [->|Hne].
  - rewrite Rminus_diag_eq, D_0 by (reflexivity || lia).
    replace (j + j + 1)%nat with (S (2 * j)) by lia. rewrite pow_1_odd. field.
  - assert (P : forall a b, (b < a)%nat -> (a < N)%nat -> D N (node N a - node N b) = - (-1) ^ (a - b) / 2).
    { intros a b H1 H2. replace (node N a - node N b) with (PI * INR (a - b) / INR N).
      - apply D_node; lia.
      - unfold node. rewrite minus_INR by lia. field. lra. }
    assert (Q : forall a b, (b < a)%nat -> (-1) ^ (a + b + 1) = - (-1) ^ (a - b)).
    { intros a b H1. replace (a + b + 1)%nat with ((a - b) + S (2 * b))%nat by lia. rewrite pow_add, pow_1_odd. ring. }
    destruct (Nat.lt_total i j) as [L|[L|L]]; [|contradiction|].
    + replace (node N i - node N j) with (- (node N j - node N i)) by ring. rewrite D_even, P by lia.
      rewrite (Nat.add_comm i j), Q by exact L. field.
    + rewrite P, Q by lia. field.
Qed.

(* ---- chebfit ---------------------------------------------------------------------------------- *)
Lemma vsum_swap N M f : vsum N (fun i => vsum M (fun j => f i j)) = vsum M (fun j => vsum N (fun i => f i j)).
Proof.
  induction N as [|N IH]; cbn [vsum]; [symmetry; apply vsum_0; reflexivity|].
  rewrite IH, <- vsum_add. reflexivity.
Qed.
Lemma vsum_pick N i g : (i < N)%nat -> vsum N (fun j => if Nat.eq_dec i j then g j else 0) = g i.
Proof.
  induction N as [|N IH]; intros H; [lia|]. cbn [vsum]. destruct (Nat.eq_dec i N) as [->|Hne].
  - rewrite vsum_0; [ring|]. intros k Hk. destruct (Nat.eq_dec N k); [lia|reflexivity].
  - rewrite IH by lia. ring.
Qed.
Lemma series_rev kind (c : nat -> R) N x : series kind (rev (map c (seq 0 N))) x = vsum N (fun k => c k * chebV kind k x).
Proof.
  induction N as [|N IH]; [reflexivity|]. rewrite seq_S, map_app, rev_app_distr. cbn [map rev app series vsum Nat.add].
  rewrite rev_length, map_length, seq_length, IH. ring.
Qed.
Lemma halve_map (c : nat -> R) N : halve_first (map c (seq 0 N)) = map (fun k => w k * c k) (seq 0 N).
Proof.
  destruct N as [|N]; [reflexivity|]. cbn [seq map halve_first w]. f_equal; [field|].
  rewrite <- seq_shift, !map_map. apply map_ext. intros k. cbn [w]. ring.
Qed.
Lemma rev_nth_R (f : list R) i : (i < List.length f)%nat -> at_R (rev f) i = at_R f (List.length f - 1 - i).
Proof. intros H. unfold at_R. rewrite rev_nth by exact H. f_equal. lia. Qed.
Lemma chebfit_coef f : chebfit f = rev (map (fun k => w k * (2 / INR (List.length f)
   * vsum (List.length f) (fun n => at_R (rev f) n * cos (INR k * node (List.length f) n)))) (seq 0 (List.length f))).
Proof.
  unfold chebfit, dct. rewrite rev_length, map_map, halve_map. f_equal. apply map_ext_in. intros k Hk. apply in_seq in Hk.
  f_equal. unfold Rdiv. rewrite !Rmult_assoc. f_equal. rewrite Rmult_comm. f_equal.
  apply vsum_ext. intros n _. f_equal. f_equal. unfold node. pose proof (INR_pos (List.length f) ltac:(lia)). field. lra.
Qed.
Lemma interpolation_core N g i : (i < N)%nat ->
  vsum N (fun k => w k * (2 / INR N * vsum N (fun n => g n * cos (INR k * node N n))) * cos (INR k * node N i)) = g i.
Proof.
  intros H. pose proof (INR_pos N ltac:(lia)) as HN.
  rewrite (vsum_ext N _ (fun k => vsum N (fun n => 2 / INR N * g n * (w k * (cos (INR k * node N i) * cos (INR k * node N n)))))).
  2:{ intros k _. rewrite <- !vsum_scal, Rmult_comm, <- vsum_scal. apply vsum_ext. intros n _. ring. }
  rewrite vsum_swap.
  rewrite (vsum_ext N _ (fun n => if Nat.eq_dec i n then g n else 0)).
  2:{ intros n Hn. rewrite vsum_scal, cos_cos by assumption. destruct (Nat.eq_dec i n); [field; lra|ring]. }
  apply vsum_pick. exact H.
Qed.
Lemma chebfit_length f : List.length (chebfit f) = List.length f.
Proof. rewrite chebfit_coef, rev_length, map_length, seq_length. reflexivity. Qed.
Lemma chebfit_interpolates f i : (i < List.length f)%nat ->
  exists x, chebroot (List.length f) 1 = Ok x /\ chebval0 (at_R x i) (chebfit f) 1 = Ok (at_R f i).
Proof.
  intros H. rewrite chebroot_list. eexists; split; [reflexivity|]. rewrite at_map by exact H.
  rewrite chebval0_spec.
  2:{ intros G. pose proof (chebfit_length f) as G'. rewrite G in G'. cbn in G'. lia. }
  f_equal. rewrite chebfit_coef, series_rev.
  set (N := List.length f) in *. set (m := (N - 1 - i)%nat).
  rewrite (vsum_ext N _ (fun k => w k * (2 / INR N * vsum N (fun n => at_R (rev f) n * cos (INR k * node N n))) * cos (INR k * node N m))).
  2:{ intros k _. f_equal. apply T_cos. }
  rewrite interpolation_core by (unfold m; lia). rewrite rev_nth_R by (unfold m; fold N; lia). f_equal. fold N. unfold m. lia.
Qed.
Lemma chebfit_fun_interpolates g n a b i : (i < n)%nat -> a <> b ->
  exists x ck, chebroot n 1 = Ok x /\ chebfit_fun g n a b = Ok ck /\ List.length ck = n /\
   let xi := map_to_interval (at_R x i) a b in chebval xi ck a b 1 = Ok (g xi).
Proof.
  intros H Hab. pose proof (chebroot_list n) as E.
  set (x := map (fun i => cos (node n (n - 1 - i))) (seq 0 n)) in *.
  exists x. unfold chebfit_fun. rewrite E. cbn [bind].
  set (f := map (fun t => g (map_to_interval t a b)) x).
  assert (Lx : List.length x = n) by (unfold x; now rewrite map_length, seq_length).
  assert (Lf : List.length f = n) by (unfold f; now rewrite map_length).
  exists (chebfit f). split; [reflexivity|]. split; [reflexivity|]. split; [now rewrite chebfit_length|]. cbv zeta.
  unfold chebval. replace (map_from_interval (map_to_interval (at_R x i) a b) a b) with (at_R x i).
  2:{ symmetry. apply (interval_maps a b Hab). }
  destruct (chebfit_interpolates f i) as [x' [E' V]]; [lia|]. rewrite Lf, E in E'. injection E' as <-.
  rewrite V. f_equal. unfold f, at_R. rewrite (nth_indep _ 0 (g (map_to_interval 0 a b))) by (rewrite map_length; lia).
  rewrite (map_nth (fun t => g (map_to_interval t a b))). reflexivity.
Qed.

(* ---- poly2cheb ------------------------------------------------------------------------------ *)
Lemma horner_spec p x : horner p x = peval p x.
Proof.
  unfold horner. assert (G : forall p v, fold_left (fun v c => v * x + c) p v = v * x ^ List.length p + peval p x).
  { clear. induction p as [|c p IH]; intros v; cbn [fold_left peval List.length pow]; [ring|]. rewrite IH. ring. }
  rewrite G. ring.
Qed.
Lemma compose_affine p a b : exists q, (List.length q <= List.length p)%nat /\ forall y, peval q y = peval p (map_to_interval y a b).
Proof.
  induction p as [|c p [q [L H]]] using rev_ind.
  - exists []. split; [cbn; lia|reflexivity].
  - set (h := (b - a) / 2). set (m := (b + a) / 2).
    exists (polyadd (polyadd (map (Rmult h) q ++ [0]) (map (Rmult m) q)) [c]). split.
    + rewrite !polyadd_length, !app_length, !map_length. cbn [List.length]. lia.
    + intros y. rewrite !peval_polyadd, peval_snoc, !peval_scale, peval_snoc, H. cbn [peval List.length pow].
      unfold h, m, map_to_interval. field.
Qed.
Lemma poly2cheb_spec p a b : a <> b -> exists ck, poly2cheb p a b = Ok ck /\ (List.length ck <= Nat.max 1 (List.length p))%nat /\
  forall x, chebval x ck a b 1 = Ok (peval p x).
Proof.
  intros Hab. unfold poly2cheb. cbv zeta. set (f := poly1d p). set (n := List.length f).
  assert (Hn : (0 < n)%nat) by (unfold n, f; pose proof (poly1d_nonempty p); destruct (poly1d p); [congruence|cbn; lia]).
  destruct (chebfit_fun_interpolates (horner f) n a b 0 Hn Hab) as [x [ck [Ex [Ec [Lc _]]]]].
  exists ck. split; [exact Ec|]. split; [rewrite Lc; apply poly1d_length|].
  assert (Hck : ck <> []) by (intros ->; cbn in Lc; lia).
  destruct (series_poly 1 ck) as [s [Ls Ps]]. destruct (compose_affine f a b) as [q [Lq Pq]].
  destruct (chebroot_1 n) as [x' [Ex' [Lx [Inc _]]]]. rewrite Ex in Ex'. injection Ex' as <-.
  assert (Z : forall t, peval (polyadd s (map (Rmult (-1)) q)) t = 0).
  { apply (too_many_roots _ x).
    - apply increasing_NoDup. rewrite Lx. exact Inc.
    - rewrite polyadd_length, map_length, Lx. unfold n in *. lia.
    - intros r Hr. apply In_nth with (d := 0) in Hr as [i [Hi <-]]. rewrite Lx in Hi.
      destruct (chebfit_fun_interpolates (horner f) n a b i Hi Hab) as [x2 [ck2 [Ex2 [Ec2 [_ V]]]]].
      rewrite Ex in Ex2. injection Ex2 as <-. rewrite Ec in Ec2. injection Ec2 as <-. cbv zeta in V.
      rewrite chebval_spec in V by exact Hck. injection V as V.
      replace (map_from_interval (map_to_interval (at_R x i) a b) a b) with (at_R x i) in V by (symmetry; apply (interval_maps a b Hab)).
      rewrite horner_spec in V. rewrite peval_polyadd, peval_scale, <- Ps, Pq. unfold at_R in V. rewrite V. ring. }
  intros t. rewrite chebval_spec by exact Hck. f_equal.
  specialize (Z (map_from_interval t a b)). rewrite peval_polyadd, peval_scale, <- Ps, Pq in Z.
  replace (map_to_interval (map_from_interval t a b) a b) with t in Z by (symmetry; apply (interval_maps a b Hab)).
  unfold f in Z. rewrite peval_poly1d in Z. lra.
Qed.
Lemma cheb2poly_poly2cheb p a b : a <> b -> exists ck q, poly2cheb p a b = Ok ck /\ cheb2poly ck a b = Ok q /\
  forall x, peval q x = peval p x.
Proof.
  intros Hab. destruct (poly2cheb_spec p a b Hab) as [ck [E [_ V]]].
  assert (Hck : ck <> []) by (intros ->; specialize (V 0); discriminate).
  destruct (cheb2poly_spec ck a b Hck Hab) as [q [Eq [Vq _]]]. exists ck, q. split; [exact E|]. split; [exact Eq|].
  intros x. specialize (V x). rewrite Vq in V. now injection V.
Qed.

(* ---- chebinterpolate ------------------------------------------------------------------------ *)
Lemma chebvander_T x k : fst (chebvander_row x k) = chebT k x /\ (0 < k -> snd (chebvander_row x k) = chebT (k - 1) x)%nat.
Proof.
  induction k as [|k [I1 I2]]; [split; [reflexivity|lia]|]. destruct k as [|k].
  - split; [|reflexivity]. unfold chebT. rewrite V_1. cbn. ring.
  - change (chebvander_row x (S (S k))) with (let (u, v) := chebvander_row x (S k) in (u * (2 * x) - v, u)).
    specialize (I2 ltac:(lia)). destruct (chebvander_row x (S k)) as [u v]. cbn [fst snd] in *. subst u v.
    replace (S k - 1)%nat with k by lia. replace (S (S k) - 1)%nat with (S k) by lia. split; [|reflexivity].
    unfold chebT. rewrite V_SS. ring.
Qed.
Lemma chebpts1_node N j : (j < N)%nat -> sin (1/2 * PI / INR N * (- INR N + 1 + 2 * INR j)) = cos (node N (N - 1 - j)).
Proof.
  intros H. pose proof (INR_pos N ltac:(lia)). rewrite <- cos_shift. f_equal. unfold node.
  rewrite !minus_INR by lia. cbn [INR]. field. lra.
Qed.
Lemma at_chebpts1 N j : (j < N)%nat -> at_R (chebpts1 N) j = cos (node N (N - 1 - j)).
Proof. intros H. unfold chebpts1. rewrite at_map by exact H. now apply chebpts1_node. Qed.
Lemma vsum_flip N f : vsum N (fun j => f (N - 1 - j)%nat) = vsum N f.
Proof.
  assert (G : forall N g, vsum (S N) g = g 0%nat + vsum N (fun k => g (S k))).
  { clear. induction N as [|N IHN]; intros g; [cbn; ring|]. cbn [vsum] in *. rewrite IHN. ring. }
  revert f. induction N as [|N IH]; intros f; [reflexivity|]. rewrite G. replace (S N - 1 - 0)%nat with N by lia.
  cbn [vsum]. rewrite <- IH. rewrite Rplus_comm. f_equal. apply vsum_ext. intros k Hk. f_equal. lia.
Qed.
Lemma chebinterpolate_spec g deg i : (i <= deg)%nat ->
  let xi := at_R (chebpts1 (S deg)) i in series_low (chebinterpolate g deg) xi = g xi.
Proof.
  intros Hi. cbv zeta. set (N := S deg). unfold series_low, chebinterpolate. fold N.
  pose proof (INR_pos N ltac:(unfold N; lia)) as HN.
  set (c := fun k => vsum N (fun j => fst (chebvander_row (at_R (chebpts1 N) j) k) * g (at_R (chebpts1 N) j))).
  assert (Ec : match map c (seq 0 N) with [] => [] | c0 :: c' => c0 / INR N :: map (fun v => v / (1/2 * INR N)) c' end
    = map (fun k => w k * (2 / INR N * c k)) (seq 0 N)).
  { unfold N. cbn [seq map]. fold N. f_equal.
    - cbn [w]. field. lra.
    - rewrite map_map. rewrite <- seq_shift, !map_map. apply map_ext. intros k. cbn [w]. field. lra. }
  rewrite Ec, series_rev. clear Ec.
  rewrite at_chebpts1 by (unfold N; lia). set (m := (N - 1 - i)%nat).
  set (h := fun n => g (cos (node N n))).
  rewrite (vsum_ext N _ (fun k => w k * (2 / INR N * vsum N (fun n => h n * cos (INR k * node N n))) * cos (INR k * node N m))).
  2:{ intros k _. f_equal; [|apply T_cos]. f_equal. f_equal. unfold c.
      rewrite <- (vsum_flip N (fun n => h n * cos (INR k * node N n))). apply vsum_ext. intros j Hj.
      rewrite at_chebpts1 by exact Hj. rewrite (proj1 (chebvander_T _ k)), T_cos. unfold h. ring. }
  rewrite interpolation_core by (unfold m, N; lia). reflexivity.
Qed.
Lemma chebroot_other n kind : kind <> 1%Z -> kind <> 2%Z -> chebroot n kind = Err ValueError.
Proof.
  intros H1 H2. unfold chebroot. apply Z.eqb_neq in H1, H2. now rewrite H1, H2.
Qed.
