From Coq Require Import Reals List Lra Lia Bool Arith ZArith.
From Coquelicot Require Import Coquelicot.
From Verif Require Import Base ArSpec PolyModel DftModel DftProofs CsimProofs ArProofs2 PadeProofs OscModel OscSpec OscProofs OscProofs2.
Import ListNotations.
Local Open Scope R_scope.
Set Bullet Behavior "Strict Subproofs".

(* ---- polynomials in two bases ---- *)
Definition bsum (B : basis) n (d : nat -> C) t : C := csum n (fun k => Cmult (d k) (RtoC (fst B k t))).
Definition dbsum (B : basis) n (d : nat -> C) t : C := csum n (fun k => Cmult (d k) (RtoC (snd B k t))).
Lemma bsum_fst B n d t : fst (bsum B n d t) = sum_to n (fun k => fst (d k) * fst B k t).
Proof. unfold bsum. rewrite csum_fst. apply sum_ext. intros k _. cbn. ring. Qed.
Lemma bsum_snd B n d t : snd (bsum B n d t) = sum_to n (fun k => snd (d k) * fst B k t).
Proof. unfold bsum. rewrite csum_snd. apply sum_ext. intros k _. cbn. ring. Qed.
Lemma dbsum_fst B n d t : fst (dbsum B n d t) = sum_to n (fun k => fst (d k) * snd B k t).
Proof. unfold dbsum. rewrite csum_fst. apply sum_ext. intros k _. cbn. ring. Qed.
Lemma dbsum_snd B n d t : snd (dbsum B n d t) = sum_to n (fun k => snd (d k) * snd B k t).
Proof. unfold dbsum. rewrite csum_snd. apply sum_ext. intros k _. cbn. ring. Qed.
Lemma bsum_derive B n (r : nat -> R) t : is_basis B -> is_derive (fun u => sum_to n (fun k => r k * fst B k u)) t (sum_to n (fun k => r k * snd B k t)).
Proof. intros [D _]. apply (sum_derive n (fun k u => r k * fst B k u) (fun k u => r k * snd B k u)). intros k _. apply is_derive_scal, D. Qed.
(* two real functions that agree have the same derivatives *)
Lemma same_derive (f g : R -> R) t x y : (forall u, f u = g u) -> is_derive f t x -> is_derive g t y -> x = y.
Proof. intros E F G. rewrite <- (is_derive_unique _ _ _ F), <- (is_derive_unique _ _ _ G). now apply Derive_ext. Qed.
Lemma to_powers B n d : is_basis B -> exists c, forall t, cpoly n c t = bsum B n d t /\ dpoly n c t = dbsum B n d t.
Proof.
  intros HB. destruct HB as [D [P Q]] eqn:E. clear E.
  assert (S1 : forall r : nat -> R, exists p, forall t, sum_to n (fun k => r k * fst B k t) = poly n p t).
  { intros r. destruct (span_sum powers n n (fst B) r) as [p Hp]; [|now exists p]. intros k Hk. destruct (P n k Hk) as [p Hp]. now exists p. }
  destruct (S1 (fun k => fst (d k))) as [p Hp]. destruct (S1 (fun k => snd (d k))) as [q Hq]. exists (fun k => (p k, q k)). intros t. split; apply C_ext.
  - rewrite cpoly_fst, bsum_fst. symmetry. apply Hp.
  - rewrite cpoly_snd, bsum_snd. symmetry. apply Hq.
  - rewrite dpoly_fst, dbsum_fst. apply (same_derive (poly n p) (fun u => sum_to n (fun k => fst (d k) * fst B k u)) t); [intros; symmetry; apply Hp|apply poly_derive|]. now apply bsum_derive.
  - rewrite dpoly_snd, dbsum_snd. apply (same_derive (poly n q) (fun u => sum_to n (fun k => snd (d k) * fst B k u)) t); [intros; symmetry; apply Hq|apply poly_derive|]. now apply bsum_derive.
Qed.
Lemma from_powers B n c : is_basis B -> exists d, forall t, cpoly n c t = bsum B n d t /\ dpoly n c t = dbsum B n d t.
Proof.
  intros HB. destruct HB as [D [P Q]] eqn:E. clear E.
  assert (S1 : forall r : nat -> R, exists p, forall t, poly n r t = sum_to n (fun k => p k * fst B k t)).
  { intros r. destruct (span_sum (fst B) n n powers r) as [p Hp]; [|now exists p]. intros k Hk. destruct (Q n k Hk) as [p Hp]. now exists p. }
  destruct (S1 (fun k => fst (c k))) as [p Hp]. destruct (S1 (fun k => snd (c k))) as [q Hq]. exists (fun k => (p k, q k)). intros t. split; apply C_ext.
  - rewrite cpoly_fst, bsum_fst. apply Hp.
  - rewrite cpoly_snd, bsum_snd. apply Hq.
  - rewrite dpoly_fst, dbsum_fst. apply (same_derive (poly n (fun k => fst (c k))) (fun u => sum_to n (fun k => p k * fst B k u)) t); [exact Hp|apply poly_derive|]. now apply bsum_derive.
  - rewrite dpoly_snd, dbsum_snd. apply (same_derive (poly n (fun k => snd (c k))) (fun u => sum_to n (fun k => q k * fst B k u)) t); [exact Hq|apply poly_derive|]. now apply bsum_derive.
Qed.
Lemma operator_sum B om dg n d t : csum n (fun k => Cmult (d k) (operator B om dg k t)) = Cplus (dbsum B n d t) (Cmult (0, om * dg t) (bsum B n d t)).
Proof.
  unfold dbsum, bsum. rewrite <- csum_mul, <- csum_add. apply csum_ext. intros k _. unfold operator. apply C_ext; cbn; ring.
Qed.
Lemma boundary_sum om g a b (B : basis) n d : csum n (fun k => Cmult (d k) (Cminus (Cmult (RtoC (fst B k b)) (cis (om * g b))) (Cmult (RtoC (fst B k a)) (cis (om * g a))))) = Cminus (oscillating om g (bsum B n d) b) (oscillating om g (bsum B n d) a).
Proof.
  unfold oscillating, bsum. rewrite <- !csum_mul_r. unfold Cminus at 2. replace (Copp (csum n (fun i => Cmult (Cmult (d i) (RtoC (fst B i a))) (cis (om * g a))))) with (csum n (fun i => Cmult (RtoC (-1)) (Cmult (Cmult (d i) (RtoC (fst B i a))) (cis (om * g a))))).
  2:{ rewrite csum_mul. apply C_ext; cbn; ring. }
  rewrite <- csum_add. apply csum_ext. intros k _. apply C_ext; cbn; ring.
Qed.
Definition cunit (k j : nat) : C := RtoC (unit_ k j).
Lemma cunit_sum n k f : (k < n)%nat -> csum n (fun j => Cmult (cunit k j) (f j)) = f k.
Proof.
  intros H. rewrite (csum_pick n _ k H).
  - unfold cunit, unit_. rewrite Nat.eqb_refl. apply C_ext; cbn; ring.
  - intros i _ N. unfold cunit, unit_. destruct (Nat.eqb_spec i k); [lia|]. apply C_ext; cbn; ring.
Qed.
(* the rows of the system *)
Lemma rows B om g dg x w k : is_basis B -> (k < List.length x)%nat -> (forall c, rule_value w x (amplitude om dg (List.length x) c) = boundary om g (List.length x) c (-1) 1) ->
  csum (List.length x) (fun i => Cmult (w i) (operator B om dg k (at_R x i))) = Cminus (Cmult (RtoC (fst B k 1)) (cis (om * g 1))) (Cmult (RtoC (fst B k (-1))) (cis (om * g (-1)))).
Proof.
  intros HB Hk H. destruct (to_powers B (List.length x) (cunit k) HB) as [c Hc]. specialize (H c). unfold rule_value, boundary in H.
  rewrite <- (cunit_sum (List.length x) k (fun k => Cminus (Cmult (RtoC (fst B k 1)) (cis (om * g 1))) (Cmult (RtoC (fst B k (-1))) (cis (om * g (-1)))))) by exact Hk.
  rewrite boundary_sum. unfold oscillating in H |- *. rewrite !(proj1 (Hc _)) in H. rewrite <- H. apply csum_ext. intros i _. f_equal. unfold amplitude. rewrite (proj1 (Hc _)), (proj2 (Hc _)), <- operator_sum. symmetry. apply (cunit_sum _ k (fun k => operator B om dg k (at_R x i))). exact Hk.
Qed.
(* weights for which the rows hold integrate everything *)
Lemma rows_exact B om g dg x w c : is_basis B ->
  (forall k, (k < List.length x)%nat -> csum (List.length x) (fun i => Cmult (w i) (operator B om dg k (at_R x i))) = Cminus (Cmult (RtoC (fst B k 1)) (cis (om * g 1))) (Cmult (RtoC (fst B k (-1))) (cis (om * g (-1))))) ->
  rule_value w x (amplitude om dg (List.length x) c) = boundary om g (List.length x) c (-1) 1.
Proof.
  intros HB H. destruct (from_powers B (List.length x) c HB) as [d Hd]. unfold boundary, oscillating. rewrite !(proj1 (Hd _)). transitivity (Cminus (oscillating om g (bsum B (List.length x) d) 1) (oscillating om g (bsum B (List.length x) d) (-1))); [|reflexivity]. rewrite <- (boundary_sum om g (-1) 1 B _ d). unfold rule_value.
  rewrite (csum_ext _ _ (fun i => csum (List.length x) (fun k => Cmult (w i) (Cmult (d k) (operator B om dg k (at_R x i)))))).
  - rewrite csum_swap. apply csum_ext. intros k Hk. rewrite <- H by exact Hk. rewrite <- csum_mul. apply csum_ext. intros i _. apply C_ext; cbn; ring.
  - intros i _. rewrite csum_mul. f_equal. rewrite operator_sum. unfold amplitude. now rewrite (proj1 (Hd _)), (proj2 (Hd _)).
Qed.
Lemma weights_length ls B om g dg x : List.length (evans_webster_weights ls B om g dg x) = List.length x.
Proof. unfold evans_webster_weights. now rewrite map_length, seq_length. Qed.
Lemma weights_nth ls B om g dg x i : (i < List.length x)%nat -> nth i (evans_webster_weights ls B om g dg x) (RtoC 0) =
  ls (List.length x) (fun k i => operator B om dg k (at_R x i)) (fun k => Cminus (Cmult (RtoC (fst B k 1)) (cis (om * g 1))) (Cmult (RtoC (fst B k (-1))) (cis (om * g (-1))))) i.
Proof.
  intros H. unfold evans_webster_weights. cbv zeta. match goal with |- nth i (map ?f _) _ = _ => rewrite (nth_indep (map f (seq 0 (List.length x))) (RtoC 0) (f 0%nat)) by (rewrite map_length, seq_length; exact H) end. rewrite map_nth, seq_nth by exact H. reflexivity.
Qed.
Lemma weights_exact ls B om g dg x c : solves_systems ls -> is_basis B -> has_rule om g dg (-1) 1 x ->
  rule_value (fun i => nth i (evans_webster_weights ls B om g dg x) (RtoC 0)) x (amplitude om dg (List.length x) c) = boundary om g (List.length x) c (-1) 1.
Proof.
  intros LS HB [w Hw]. apply (rows_exact B); [exact HB|]. intros k Hk.
  rewrite (csum_ext _ _ (fun i => Cmult (operator B om dg k (at_R x i)) (ls (List.length x) (fun k i => operator B om dg k (at_R x i)) (fun k => Cminus (Cmult (RtoC (fst B k 1)) (cis (om * g 1))) (Cmult (RtoC (fst B k (-1))) (cis (om * g (-1))))) i))) by (intros i Hi; rewrite weights_nth by exact Hi; apply Cmult_comm).
  apply (LS (List.length x) (fun k i => operator B om dg k (at_R x i)) (fun k => Cminus (Cmult (RtoC (fst B k 1)) (cis (om * g 1))) (Cmult (RtoC (fst B k (-1))) (cis (om * g (-1))))) w); [|exact Hk]. intros r Hr. rewrite <- (rows B om g dg x w r HB Hr Hw). apply csum_ext. intros i _. apply Cmult_comm.
Qed.
Lemma list_sum (w : list C) (f : R -> C) : forall x, List.length w = List.length x -> fold_right Cplus (RtoC 0) (map (fun p => Cmult (fst p) (f (snd p))) (combine w x)) = rule_value (fun i => nth i w (RtoC 0)) x f.
Proof.
  assert (S1 : forall n h, csum (S n) h = Cplus (h 0%nat) (csum n (fun i => h (S i)))).
  { induction n as [|n IH]; intros h; [cbn [csum]; apply Cplus_comm|]. cbn [csum] in *. rewrite IH. ring. }
  unfold rule_value. induction w as [|v w IH]; intros [|t x] E; try discriminate; [reflexivity|]. cbn [combine map fold_right fst snd List.length]. rewrite S1. cbn [nth]. unfold at_R at 1. cbn [nth]. rewrite IH by (injection E as E; exact E). reflexivity.
Qed.
Lemma weighted_rule hh w f x : List.length w = List.length x -> weighted hh w f x = Cmult (RtoC hh) (rule_value (fun i => nth i w (RtoC 0)) x f).
Proof. intros E. unfold weighted. now rewrite list_sum. Qed.
(* Evans and Webster, and Levin *)
Lemma evans_exact ls B om f g dg x c : solves_systems ls -> is_basis B -> has_rule om g dg (-1) 1 x -> (forall i, (i < List.length x)%nat -> RtoC (f (at_R x i)) = amplitude om dg (List.length x) c (at_R x i)) ->
  evans_webster ls B om f g dg x = boundary om g (List.length x) c (-1) 1.
Proof.
  intros LS HB HR F. unfold evans_webster. rewrite weighted_rule by apply weights_length. rewrite <- (weights_exact ls B om g dg x c LS HB HR). rewrite Cmult_1_l. unfold rule_value. apply csum_ext. intros i Hi. now rewrite F.
Qed.
Lemma levin_exact ls B om f g dg x c : solves_systems ls -> is_basis B -> has_rule om g dg (-1) 1 x -> (forall i, (i < List.length x)%nat -> RtoC (f (at_R x i)) = amplitude om dg (List.length x) c (at_R x i)) ->
  a_levin ls B om f g dg x = boundary om g (List.length x) c (-1) 1.
Proof.
  intros LS HB [w Hw] F. unfold a_levin. cbv zeta. set (n := List.length x) in *. set (s := ls n (fun j k => operator B om dg k (at_R x j)) (fun j => RtoC (f (at_R x j)))).
  assert (K : forall r, (r < n)%nat -> csum n (fun j => Cmult (operator B om dg j (at_R x r)) (s j)) = RtoC (f (at_R x r))).
  { destruct (from_powers B n c HB) as [d Hd]. apply (LS n (fun j k => operator B om dg k (at_R x j)) (fun j => RtoC (f (at_R x j))) d). intros r Hr. rewrite F by exact Hr. unfold amplitude. rewrite (proj1 (Hd _)), (proj2 (Hd _)), <- operator_sum. apply csum_ext. intros; apply Cmult_comm. }
  destruct (to_powers B n s HB) as [c' Hc]. change (Cminus (oscillating om g (bsum B n s) 1) (oscillating om g (bsum B n s) (-1)) = boundary om g n c (-1) 1).
  unfold oscillating. rewrite <- !(proj1 (Hc _)). change (boundary om g n c' (-1) 1 = boundary om g n c (-1) 1). rewrite <- !Hw. unfold rule_value. apply csum_ext. intros i Hi. f_equal. rewrite <- F by exact Hi. rewrite <- K by exact Hi.
  unfold amplitude. rewrite (proj1 (Hc _)), (proj2 (Hc _)), <- operator_sum. apply csum_ext. intros; apply Cmult_comm.
Qed.

(* ---- other intervals ---- *)
Lemma span_affine al be k : spanned powers (S k) (fun t => (al * t + be) ^ k).
Proof.
  induction k as [|k IH].
  - apply (span_ext powers 1 (powers 0)); [intros; unfold powers; reflexivity|apply span_one; lia].
  - apply (span_ext _ _ (fun t => al * (t * (al * t + be) ^ k) + be * (al * t + be) ^ k)); [intros t; cbn [pow]; ring|].
    apply (span_plus _ _ (fun t => t * (al * t + be) ^ k) (fun t => (al * t + be) ^ k)); [apply span_times_t; exact IH|apply (span_more _ (S k)); [lia|exact IH]].
Qed.
Lemma affine_poly n (r : nat -> R) al be : exists p, forall t, poly n p t = poly n r (al * t + be) /\ poly' n p t = al * poly' n r (al * t + be).
Proof.
  destruct (span_sum powers n n (fun k t => (al * t + be) ^ k) r) as [p Hp].
  { intros k Hk. apply (span_more _ (S k)); [lia|apply span_affine]. }
  exists p. intros t. split; [symmetry; apply Hp|]. apply (same_derive (poly n p) (fun u => poly n r (al * u + be)) t); [intros; symmetry; apply Hp|apply poly_derive|].
  apply (is_derive_comp (poly n r) (fun u => al * u + be)); [apply poly_derive|]. auto_derive; [exact I|ring].
Qed.
Lemma affine_cpoly n c al be : exists c', forall t, cpoly n c' t = cpoly n c (al * t + be) /\ dpoly n c' t = Cmult (RtoC al) (dpoly n c (al * t + be)).
Proof.
  destruct (affine_poly n (fun k => fst (c k)) al be) as [p Hp]. destruct (affine_poly n (fun k => snd (c k)) al be) as [q Hq]. exists (fun k => (p k, q k)). intros t. destruct (Hp t) as [P1 P2], (Hq t) as [Q1 Q2]. split; apply C_ext.
  - rewrite !cpoly_fst. exact P1.
  - rewrite !cpoly_snd. exact Q1.
  - unfold Cmult. cbn [fst snd RtoC]. rewrite !dpoly_fst, dpoly_snd. etransitivity; [exact P2|]. ring.
  - unfold Cmult. cbn [fst snd RtoC]. rewrite !dpoly_snd, dpoly_fst. etransitivity; [exact Q2|]. ring.
Qed.
Lemma affine_amplitude om dg n c al be : exists c', forall g t, amplitude om (fun t => al * dg (al * t + be)) n c' t = Cmult (RtoC al) (amplitude om dg n c (al * t + be)) /\ oscillating om (fun t => g (al * t + be)) (cpoly n c') t = oscillating om g (cpoly n c) (al * t + be).
Proof.
  destruct (affine_cpoly n c al be) as [c' H]. exists c'. intros g t. destruct (H t) as [H1 H2]. unfold amplitude, oscillating. rewrite H1, H2. split; [|reflexivity]. apply C_ext; cbn; ring.
Qed.
Lemma at_map (h : R -> R) x i : (i < List.length x)%nat -> at_R (map h x) i = h (at_R x i).
Proof. intros H. unfold at_R. rewrite (nth_indep _ 0 (h 0)) by (rewrite map_length; exact H). apply map_nth. Qed.
Lemma rule_scaled om g dg a b x : a <> b -> has_rule om g dg a b (map (fun t => (b - a) / 2 * t + (a + b) / 2) x) ->
  has_rule om (fun t => g ((b - a) / 2 * t + (a + b) / 2)) (fun t => (b - a) / 2 * dg ((b - a) / 2 * t + (a + b) / 2)) (-1) 1 x.
Proof.
  intros N [w Hw]. set (al := (b - a) / 2) in *. set (be := (a + b) / 2) in *. assert (Al : al <> 0) by (unfold al; lra). rewrite map_length in Hw.
  exists (fun i => Cmult (RtoC (/ al)) (w i)). intros c.
  (* the polynomial in the other variable *)
  destruct (affine_amplitude om (fun t => al * dg (al * t + be)) (List.length x) c (/ al) (- be / al)) as [c' H].
  assert (Ha : forall t, amplitude om dg (List.length x) c' (al * t + be) = Cmult (RtoC (/ al)) (amplitude om (fun t => al * dg (al * t + be)) (List.length x) c t)).
  { intros t. destruct (H g (al * t + be)) as [H1 _]. replace (/ al * (al * t + be) + - be / al) with t in H1 by (field; exact Al). rewrite <- H1. unfold amplitude. do 2 f_equal. f_equal. f_equal.
    replace (al * (/ al * (al * t + be) + - be / al) + be) with (al * t + be) by (field; exact Al). field. exact Al. }
  assert (Hb : forall t, oscillating om (fun t => g (al * t + be)) (cpoly (List.length x) c) t = oscillating om g (cpoly (List.length x) c') (al * t + be)).
  { intros t. destruct (H (fun t => g (al * t + be)) (al * t + be)) as [_ H2]. replace (/ al * (al * t + be) + - be / al) with t in H2 by (field; exact Al). rewrite <- H2. unfold oscillating. do 4 f_equal. field. exact Al. }
  unfold boundary. rewrite !Hb. replace (al * 1 + be) with b by (unfold al, be; field). replace (al * -1 + be) with a by (unfold al, be; field). fold (boundary om g (List.length x) c' a b). rewrite <- Hw. unfold rule_value. rewrite map_length. apply csum_ext. intros i Hi. rewrite at_map by exact Hi. rewrite Ha. apply C_ext; cbn; ring.
Qed.
(* one piece of a composite rule *)
Lemma piece_exact ls B om f g dg x a b c : solves_systems ls -> is_basis B -> a <> b -> has_rule om g dg a b (nodes a b x) -> (forall t, f t = amplitude om dg (List.length x) c t) ->
  weighted ((b - a) / 2) (piece ls B om g dg x a b) f (nodes a b x) = boundary om g (List.length x) c a b.
Proof.
  intros LS HB N HR F. unfold piece. rewrite weighted_rule by (unfold nodes; rewrite weights_length, map_length; reflexivity). set (al := (b - a) / 2). set (be := (a + b) / 2).
  destruct (affine_amplitude om dg (List.length x) c al be) as [c' H].
  pose proof (weights_exact ls B om (fun t => g (al * t + be)) (fun t => al * dg (al * t + be)) x c' LS HB (rule_scaled om g dg a b x N HR)) as E. unfold boundary in E. rewrite !(proj2 (H g _)) in E.
  replace (al * 1 + be) with b in E by (unfold al, be; field). replace (al * -1 + be) with a in E by (unfold al, be; field). fold (boundary om g (List.length x) c a b) in E. rewrite <- E.
  unfold rule_value, nodes. rewrite map_length, <- csum_mul. apply csum_ext. intros i Hi. rewrite at_map by exact Hi. fold al be. rewrite F. rewrite (proj1 (H g _)). apply C_ext; cbn; ring.
Qed.
