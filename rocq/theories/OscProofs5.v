From Coq Require Import Reals List Lra Lia Bool Arith ZArith.
From Coquelicot Require Import Coquelicot.
From Verif Require Import Base ArSpec PolyModel DftModel DftProofs CsimProofs ArProofs2 PadeProofs Sg2Proofs2 OscModel OscSpec OscProofs OscProofs2 OscProofs3 OscProofs4.
Import ListNotations.
Local Open Scope R_scope.
Set Bullet Behavior "Strict Subproofs".

(* ---- intervals ---- *)
Definition flat (l : list (R * R)) : list R := flat_map (fun p => [fst p; snd p]) l.
Definition all_nodes x (l : list (R * R)) : list R := flat_map (fun p => nodes (fst p) (snd p) x) l.
Definition half (c : R) (p : R * R) := ((fst p + c) / 2, (snd p + c) / 2).
Definition halves2 a b l := map (half a) l ++ map (half b) l.
Lemma map_flat c l : map (fun v => (v + c) / 2) (flat l) = flat (map (half c) l).
Proof. induction l as [|[u v] l IH]; [reflexivity|]. unfold flat in *. cbn [flat_map map app fst snd half]. now rewrite IH. Qed.
Lemma halves_flat a b l : halves a b (flat l) = flat (halves2 a b l).
Proof. unfold halves, halves2, flat. rewrite flat_map_app. f_equal; apply map_flat. Qed.
Lemma nodes_half c u v x : map (fun t => (t + c) / 2) (nodes u v x) = nodes ((u + c) / 2) ((v + c) / 2) x.
Proof. unfold nodes. rewrite map_map. apply map_ext. intros t. field. Qed.
Lemma map_nodes c x l : map (fun v => (v + c) / 2) (all_nodes x l) = all_nodes x (map (half c) l).
Proof. induction l as [|[u v] l IH]; [reflexivity|]. unfold all_nodes in *. cbn [flat_map map fst snd half]. rewrite map_app, IH, nodes_half. reflexivity. Qed.
Lemma halves_nodes a b x l : halves a b (all_nodes x l) = all_nodes x (halves2 a b l).
Proof. unfold halves, halves2, all_nodes. rewrite flat_map_app. f_equal; apply map_nodes. Qed.
Lemma pairs_flat l : pairs (flat l) = l.
Proof. induction l as [|[u v] l IH]; [reflexivity|]. unfold flat in *. cbn [flat_map app fst snd pairs]. now rewrite IH. Qed.
(* the intervals follow each other from a to b and have the length h *)
Definition ladder a h n : list (R * R) := map (fun i => (a + INR i * h, a + INR (S i) * h)) (seq 0 n).
Lemma ladder_halves a b n h : b = a + INR n * h -> halves2 a b (ladder a h n) = ladder a (h / 2) (2 * n).
Proof.
  intros ->. unfold halves2, ladder. rewrite !map_map. replace (2 * n)%nat with (n + n)%nat by lia. rewrite seq_app, map_app. f_equal.
  - apply map_ext. intros i. unfold half. cbn [fst snd]. f_equal; field.
  - rewrite Nat.add_0_l. replace (seq n n) with (map (fun i => (n + i)%nat) (seq 0 n)).
    + rewrite map_map. apply map_ext. intros i. unfold half. cbn [fst snd]. replace (S (n + i)) with (n + S i)%nat by lia. rewrite !plus_INR. f_equal; field.
    + clear. generalize n at 2 4 as m. intros m. induction m as [|m IH]; [reflexivity|]. rewrite !seq_S, map_app, IH. cbn. reflexivity.
Qed.
Definition weights_of ls B om g dg x (l : list (R * R)) := flat_map (fun p => piece ls B om g dg x (fst p) (snd p)) l.
Lemma osc_weights_flat ls B om g dg x l : osc_weights ls B om g dg x (flat l) = weights_of ls B om g dg x l.
Proof. unfold osc_weights. rewrite pairs_flat. unfold weights_of. induction l as [|[u v] l IH]; [reflexivity|]. cbn [flat_map fst snd]. now rewrite IH. Qed.
Lemma combine_app {A B : Type} (l1 l1' : list A) (l2 l2' : list B) : List.length l1 = List.length l2 -> combine (l1 ++ l1') (l2 ++ l2') = combine l1 l2 ++ combine l1' l2'.
Proof. revert l2. induction l1 as [|u l1 IH]; intros [|v l2] H; try discriminate; [reflexivity|]. cbn. f_equal. apply IH. cbn in H; lia. Qed.
Lemma weighted_app hh w w' f x x' : List.length w = List.length x -> weighted hh (w ++ w') f (x ++ x') = Cplus (weighted hh w f x) (weighted hh w' f x').
Proof.
  intros L. unfold weighted. rewrite combine_app, map_app, fold_right_app by exact L.
  assert (E : forall l (z : C), fold_right Cplus z l = Cplus (fold_right Cplus (RtoC 0) l) z) by (intros l z; induction l as [|u l IH]; cbn [fold_right]; [ring|rewrite IH; ring]).
  rewrite E. ring.
Qed.
Lemma piece_length ls B om g dg x u v : List.length (piece ls B om g dg x u v) = List.length (nodes u v x).
Proof. unfold piece, nodes. now rewrite weights_length, map_length. Qed.
Lemma csum_S n h : csum (S n) h = Cplus (h 0%nat) (csum n (fun i => h (S i))).
Proof. induction n as [|n IH]; [cbn [csum]; apply Cplus_comm|]. cbn [csum] in *. rewrite IH. ring. Qed.
Lemma ladder_value ls B om f g dg x h n : forall a, weighted (h / 2) (weights_of ls B om g dg x (ladder a h n)) f (all_nodes x (ladder a h n)) = csum n (fun i => piece_value ls B om f g dg x (a + INR i * h) (a + INR (S i) * h)).
Proof.
  unfold ladder. assert (K : forall n m a, weighted (h / 2) (weights_of ls B om g dg x (map (fun i => (a + INR i * h, a + INR (S i) * h)) (seq m n))) f (all_nodes x (map (fun i => (a + INR i * h, a + INR (S i) * h)) (seq m n))) = csum n (fun i => piece_value ls B om f g dg x (a + INR (m + i) * h) (a + INR (S (m + i)) * h))).
  { clear n. induction n as [|n IH]; intros m a; [cbn; unfold weighted; cbn; apply C_ext; cbn; ring|]. cbn [seq map]. unfold weights_of, all_nodes. cbn [flat_map]. rewrite weighted_app by apply piece_length. rewrite csum_S. f_equal.
    - cbn [fst snd]. rewrite Nat.add_0_r. unfold piece_value. f_equal. rewrite S_INR. field.
    - fold (weights_of ls B om g dg x (map (fun i => (a + INR i * h, a + INR (S i) * h)) (seq (S m) n))). fold (all_nodes x (map (fun i => (a + INR i * h, a + INR (S i) * h)) (seq (S m) n))). rewrite IH. apply csum_ext. intros i _. replace (S m + i)%nat with (m + S i)%nat by lia. reflexivity. }
  intros a. apply (K n 0%nat a).
Qed.

(* ---- the levels ---- *)
Lemma smallest_spec l : forall best, (smallest l best = best \/ In (smallest l best) l) /\ snd (smallest l best) <= snd best /\ forall e, In e l -> snd (smallest l best) <= snd e.
Proof.
  induction l as [|e l IH]; intros best; cbn [smallest]; [repeat split; [now left|lra|contradiction]|].
  destruct (Rlt_dec (snd e) (snd best)) as [L|L].
  - destruct (IH e) as (A & B & C). split; [destruct A as [->|A]; [right; now left|right; now right]|]. split; [lra|]. intros e' [<-|H]; [exact B|now apply C].
  - destruct (IH best) as (A & B & C). split; [destruct A as [A|A]; [now left|right; now right]|]. split; [exact B|]. intros e' [<-|H]; [lra|now apply C].
Qed.
Definition inv (dea3 : C -> C -> C -> C) (e : nat -> C) k (q0 q1 q2 : nat -> C) : Prop :=
  (forall j, (j < k)%nat -> q0 j = e j) /\ (forall j, (2 <= j < k)%nat -> q1 j = row1 dea3 e j) /\ (forall j, (4 <= j < k)%nat -> q2 j = row1 dea3 (row1 dea3 e) j).
Lemma set_same q k v : set_ q k v k = v. Proof. unfold set_. now rewrite Nat.eqb_refl. Qed.
Lemma set_other q k v j : j <> k -> set_ q k v j = q j. Proof. intros H. unfold set_. now destruct (Nat.eqb_spec j k). Qed.
Lemma extrapolate_inv dea3 e k q0 q1 q2 q1' q2' q err : (1 <= k)%nat -> inv dea3 e k q0 q1 q2 -> extrapolate dea3 k (set_ q0 k (e k)) q1 q2 = (q1', q2', (q, err)) ->
  inv dea3 e (S k) (set_ q0 k (e k)) q1' q2' /\ candidates dea3 e k q err /\ forall q' d', candidates dea3 e k q' d' -> err <= d'.
Proof.
  intros Hk (I0 & I1 & I2) H. set (p0 := set_ q0 k (e k)) in *.
  assert (J0 : forall j, (j < S k)%nat -> p0 j = e j) by (intros j Hj; unfold p0; destruct (Nat.eq_dec j k) as [->|N]; [apply set_same|rewrite set_other by exact N; apply I0; lia]).
  set (p1 := if (2 <=? k)%nat then set_ q1 k (dea3 (p0 (k - 2)%nat) (p0 (k - 1)%nat) (p0 k)) else q1).
  assert (J1 : forall j, (2 <= j < S k)%nat -> p1 j = row1 dea3 e j).
  { intros j Hj. unfold p1. destruct (Nat.leb_spec 2 k); [|lia]. destruct (Nat.eq_dec j k) as [->|N]; [rewrite set_same; unfold row1; rewrite !J0 by lia; reflexivity|rewrite set_other by exact N; apply I1; lia]. }
  set (p2 := if (4 <=? k)%nat then set_ q2 k (dea3 (p1 (k - 2)%nat) (p1 (k - 1)%nat) (p1 k)) else q2).
  assert (J2 : forall j, (4 <= j < S k)%nat -> p2 j = row1 dea3 (row1 dea3 e) j).
  { intros j Hj. unfold p2. destruct (Nat.leb_spec 4 k); [|lia]. destruct (Nat.eq_dec j k) as [->|N]; [rewrite set_same; unfold row1 at 1; rewrite !J1 by lia; reflexivity|rewrite set_other by exact N; apply I2; lia]. }
  assert (E : extrapolate dea3 k p0 q1 q2 = (p1, p2, best_estimate k p0 p1 p2)) by reflexivity. rewrite E in H. injection H as <- <- H.
  split; [now split; [|split]|]. unfold best_estimate in H. rewrite (J0 k), (J0 (k - 1)%nat) in H by lia.
  match type of H with smallest ?l ?b = _ => pose proof (smallest_spec l b) as S; rewrite H in S end. cbn [snd] in S. destruct S as (S1 & S2 & S3). split.
  - destruct S1 as [S1|S1]; [left; injection S1 as -> ->; tauto|]. apply in_app_iff in S1. destruct S1 as [S1|S1].
    + destruct (Nat.leb_spec 3 k); [|contradiction]. destruct S1 as [S1|[]]. rewrite !J1 in S1 by lia. injection S1 as <- <-. right. left. tauto.
    + destruct (Nat.leb_spec 5 k); [|contradiction]. destruct S1 as [S1|[]]. rewrite !J2 in S1 by lia. injection S1 as <- <-. right. right. tauto.
  - intros q' d' [[-> ->]|[(L & -> & ->)|(L & -> & ->)]]; [exact S2| |].
    + specialize (S3 (row1 dea3 e k, Cmod (Cminus (row1 dea3 e k) (row1 dea3 e (k - 1))))). apply S3. apply in_app_iff. left. destruct (Nat.leb_spec 3 k); [|lia]. left. rewrite !J1 by lia. reflexivity.
    + specialize (S3 (row1 dea3 (row1 dea3 e) k, Cmod (Cminus (row1 dea3 (row1 dea3 e) k) (row1 dea3 (row1 dea3 e) (k - 1))))). apply S3. apply in_app_iff. right. destruct (Nat.leb_spec 5 k); [|lia]. left. rewrite !J2 by lia. reflexivity.
Qed.
Definition found dea3 e abseps k fuel (r : C * R * nat) s : Prop :=
  let '(q, err, n) := r in exists j, (k <= j < k + fuel)%nat /\ candidates dea3 e j q err /\ (forall q' d', candidates dea3 e j q' d' -> err <= d') /\ n = (s * (2 ^ S j - 1))%nat /\
    (err <= abseps \/ j = (k + fuel - 1)%nat) /\ forall i q' d', (k <= i < j)%nat -> candidates dea3 e i q' d' -> abseps < d'.
Lemma pow2_ne k : 2 ^ k <> 0. Proof. apply pow_nonzero. lra. Qed.
Lemma bisections_spec ls B dea3 abseps f g dg om x_n a b : forall fuel k q0 q1 q2 last, (1 <= k)%nat -> (fuel = 0%nat -> exists q err, last = Some (q, err)) -> 
  inv dea3 (level ls B om f g dg x_n a b) k q0 q1 q2 -> 
  (forall q err, last = Some (q, err) -> (2 <= k)%nat /\ candidates dea3 (level ls B om f g dg x_n a b) (k - 1) q err /\ forall q' d', candidates dea3 (level ls B om f g dg x_n a b) (k - 1) q' d' -> err <= d') ->
  exists r, bisections fuel ls B dea3 abseps f g dg om x_n a b k ((b - a) / 2 / 2 ^ (k - 1)) (all_nodes x_n (ladder a ((b - a) / 2 ^ (k - 1)) (2 ^ (k - 1)))) (flat (ladder a ((b - a) / 2 ^ (k - 1)) (2 ^ (k - 1)))) q0 q1 q2 (List.length x_n * (2 ^ k - 1)) last = Ok r /\
    ((fuel = 0%nat /\ last = Some (fst r) /\ snd r = (List.length x_n * (2 ^ k - 1))%nat) \/ ((0 < fuel)%nat /\ found dea3 (level ls B om f g dg x_n a b) abseps k fuel r (List.length x_n))).
Proof.
  set (e := level ls B om f g dg x_n a b). induction fuel as [|fuel IH]; intros k q0 q1 q2 last Hk HL I L.
  - destruct (HL eq_refl) as [q [err ->]]. exists (q, err, (List.length x_n * (2 ^ k - 1))%nat). split; [reflexivity|]. left. repeat split.
  - cbn [bisections]. cbv zeta. set (h := (b - a) / 2 ^ (k - 1)).
    assert (Hb : b = a + INR (2 ^ (k - 1)) * h) by (rewrite pow_INR; change (INR 2) with 2; unfold h; field; apply pow2_ne).
    rewrite halves_nodes, halves_flat, (ladder_halves a b _ h Hb). replace (2 * 2 ^ (k - 1))%nat with (2 ^ k)%nat by (destruct k; [lia|]; replace (S k - 1)%nat with k by lia; reflexivity).
    assert (Eh : h / 2 = (b - a) / 2 ^ k) by (unfold h; destruct k; [lia|]; replace (S k - 1)%nat with k by lia; cbn [pow]; field; apply pow2_ne). rewrite Eh.
    assert (Ehh : (b - a) / 2 / 2 ^ (k - 1) / 2 = (b - a) / 2 ^ k / 2) by (rewrite <- Eh; unfold h; field; apply pow2_ne). rewrite Ehh.
    rewrite osc_weights_flat, ladder_value. fold (level ls B om f g dg x_n a b k). fold (e k).
    destruct (extrapolate dea3 k (set_ q0 k (e k)) q1 q2) as [[q1' q2'] [q err]] eqn:X. destruct (extrapolate_inv dea3 e k q0 q1 q2 q1' q2' q err Hk I X) as (I' & Cd & Mn).
    assert (En : (List.length x_n * (2 ^ k - 1) + List.length x_n * 2 ^ k = List.length x_n * (2 ^ S k - 1))%nat) by (cbn [Nat.pow]; pose proof (Nat.pow_nonzero 2 k); nia).
    rewrite En. destruct (Rle_dec err abseps) as [Le|Gt].
    + exists (q, err, (List.length x_n * (2 ^ S k - 1))%nat). split; [reflexivity|]. right. split; [lia|]. exists k. split; [lia|]. split; [exact Cd|]. split; [exact Mn|]. split; [reflexivity|]. split; [now left|]. intros; lia.
    + specialize (IH (S k) (set_ q0 k (e k)) q1' q2' (Some (q, err)) ltac:(lia)). replace (S k - 1)%nat with k in IH by lia. replace ((b - a) / 2 / 2 ^ k) with ((b - a) / 2 ^ k / 2) in IH by (field; apply pow2_ne).
      destruct IH as [r [E F]]; [intros _; eauto|exact I'|intros q' d' Eq; injection Eq as <- <-; split; [lia|]; split; [exact Cd|exact Mn]|]. exists r. split; [exact E|]. right. split; [lia|]. destruct F as [(F0 & F1 & F2)|[F0 F]].
      * destruct r as [[q' err'] n']. cbn [fst snd] in F1, F2. injection F1 as <- <-. subst n'. exists k. split; [lia|]. split; [exact Cd|]. split; [exact Mn|]. split; [reflexivity|]. split; [right; lia|]. intros; lia.
      * destruct r as [[q' err'] n']. destruct F as (j & F1 & F2 & F3 & F4 & F5 & F6). exists j. split; [lia|]. split; [exact F2|]. split; [exact F3|]. split; [exact F4|]. split; [destruct F5; [now left|right; lia]|].
        intros i q'' d'' Hi Hc. destruct (Nat.eq_dec i k) as [->|N]; [specialize (Mn _ _ Hc); lra|apply (F6 i q'' d''); [lia|exact Hc]].
Qed.
Definition the_points (endpoints : bool) s := if endpoints then chebyshev_extrema s else chebyshev_roots s.
Lemma points_length endpoints s : List.length (the_points endpoints s) = s.
Proof. destruct endpoints; unfold the_points, chebyshev_extrema, chebyshev_roots; now rewrite map_length, seq_length. Qed.
Lemma quad_found ls B dea3 eps prec maxiter s endpoints f g dg a b om : a <> b -> (2 <= maxiter)%nat ->
  exists q err n, quad_osc ls B dea3 eps prec maxiter s endpoints f g dg a b om = Ok (q, err + 2 * eps, Some n) /\ found dea3 (level ls B om f g dg (the_points endpoints s) a b) (Rpower 10 (- prec)) 1 (maxiter - 1) (q, err, n) s.
Proof.
  intros N M. unfold quad_osc. destruct (Req_EM_T a b) as [E|_]; [contradiction|]. cbv zeta. fold (the_points endpoints s). set (x_n := the_points endpoints s). destruct maxiter as [|fuel]; [lia|]. replace (S fuel - 1)%nat with fuel by lia.
  assert (L0 : ladder a (b - a) 1 = [(a, b)]) by (unfold ladder; cbn [seq map]; f_equal; f_equal; cbn; ring).
  assert (X : map (fun v => (a + b) / 2 + (b - a) / 2 * v) x_n = all_nodes x_n (ladder a (b - a) 1)) by (rewrite L0; unfold all_nodes, nodes; cbn; rewrite app_nil_r; apply map_ext; intros; ring).
  assert (Y : [a; b] = flat (ladder a (b - a) 1)) by (rewrite L0; reflexivity).
  rewrite X, Y. rewrite osc_weights_flat. rewrite ladder_value. 
  assert (Q0 : csum 1 (fun i => piece_value ls B om f g dg x_n (a + INR i * (b - a)) (a + INR (S i) * (b - a))) = level ls B om f g dg x_n a b 0) by (unfold level; cbn [pow Nat.pow]; now rewrite Rdiv_1).
  rewrite Q0. destruct (bisections_spec ls B dea3 (Rpower 10 (- prec)) f g dg om x_n a b fuel 1 (set_ (fun _ => RtoC 0) 0 (level ls B om f g dg x_n a b 0)) (fun _ => RtoC 0) (fun _ => RtoC 0) None ltac:(lia)) as [r [E F]]; [lia| |discriminate|].
  - split; [|split]; intros j Hj; [|lia|lia]. replace j with 0%nat by lia. apply set_same.
  - change (1 - 1)%nat with 0%nat in E. change (2 ^ 1 - 1)%nat with 1%nat in E. rewrite Nat.mul_1_r in E. cbn [pow Nat.pow] in E. rewrite !Rdiv_1 in E. rewrite E. cbn [bind]. destruct F as [[F _]|[_ F]]; [lia|]. destruct r as [[q err] n]. exists q, err, n. split; [reflexivity|]. unfold x_n in F. rewrite points_length in F. exact F.
Qed.
