From Coq Require Import Reals List ZArith Lra Lia Bool.
From Verif Require Import Base PolyModel OrthoModel OrthoProofs ChebModel ChebSpec ChebProofs ChebProofs2 ChebProofs3 ChndModel ChndSpec ChndProofs.
Import ListNotations.
Local Open Scope R_scope.
Set Bullet Behavior "Strict Subproofs".

(* ---- least squares ---- *)
Lemma size_Z : forall deg, Forall (fun d => (0 <= d)%Z) deg -> forall a, (0 <= a)%Z ->
  fold_left Z.mul (map (fun d => (d + 1)%Z) deg) a = (a * Z.of_nat (fold_right Nat.mul 1%nat (map (fun d => Z.to_nat (d + 1)) deg)))%Z.
Proof.
  induction 1 as [|d deg H D IH]; intros a Ha; [cbn; lia|]. cbn [map fold_left fold_right]. rewrite IH by nia. rewrite Nat2Z.inj_mul, Z2Nat.id by lia. ring.
Qed.
Lemma sized_columns : forall (V : list (list R)) P n, List.length V = P -> (0 < P)%nat -> (forall p, (p < P)%nat -> List.length (nth p V []) = n) -> columns V = n.
Proof. intros V P n L H K. pose proof (K O H) as K0. destruct V; [cbn in L; lia|exact K0]. Qed.
Lemma fit_checks : forall N (xs : list (nat * list R)) P (z : nat * list R), N = List.length xs -> Forall (fun x => fst x = N /\ List.length (snd x) = P) xs -> (0 < P)%nat -> fst z = N ->
  negb (forallb (fun x => (fst x =? List.length xs)%nat) xs) || negb (fst z =? List.length xs)%nat = false /\ existsb (fun x : nat * list R => (List.length (snd x) =? 0)%nat) xs = false.
Proof.
  intros N xs P z -> F HP Z0. split.
  - rewrite Z0, Nat.eqb_refl, orb_false_r. apply negb_false_iff, forallb_forall. intros x Hx. apply Nat.eqb_eq. rewrite Forall_forall in F. exact (proj1 (F x Hx)).
  - destruct (existsb _ xs) eqn:E; [|reflexivity]. apply existsb_exists in E. destruct E as [x [Hx E]]. apply Nat.eqb_eq in E. rewrite Forall_forall in F. destruct (F x Hx). lia.
Qed.
Lemma vander_of : forall deg (xs : list (nat * list R)) N P, xs <> [] -> List.length deg = List.length xs -> Forall (fun d => (0 <= d)%Z) deg -> Forall (fun x => fst x = N /\ List.length (snd x) = P) xs ->
  exists V, chebvandernd deg (map snd xs) = Ok V /\ List.length V = P /\
   (forall p, (p < P)%nat -> List.length (nth p V []) = fold_right Nat.mul 1%nat (map (fun d => Z.to_nat (d + 1)) deg)).
Proof.
  intros deg xs N P N0 L D F. destruct (vander_value deg (map snd xs) P) as [V [E [LV [K _]]]].
  - destruct xs; [congruence|discriminate].
  - rewrite map_length. exact L.
  - exact D.
  - rewrite Forall_map. eapply Forall_impl; [|exact F]. intros a [_ H]. exact H.
  - exists V. repeat split; assumption.
Qed.
(* nothing but a square system is accepted *)
Lemma fit_fails : forall lstsq xs z deg P, xs <> [] -> List.length deg = List.length xs -> Forall (fun d => (0 <= d)%Z) deg ->
  Forall (fun x => fst x = List.length xs /\ List.length (snd x) = P) xs -> (0 < P)%nat -> fst z = List.length xs -> List.length (snd z) = P ->
  P <> fold_right Nat.mul 1%nat (map (fun d => Z.to_nat (d + 1)) deg) -> chebfitnd lstsq xs z deg None = Err ValueError.
Proof.
  intros lstsq xs z deg P N0 L D F HP Z0 LZ NP. unfold chebfitnd. cbv zeta.
  destruct (fit_checks _ xs P z eq_refl F HP Z0) as [C1 C2]. rewrite C1, C2.
  destruct (vander_of deg xs _ P N0 L D F) as [V [E [LV K]]]. rewrite E. cbn [bind fst snd].
  set (n := fold_right Nat.mul 1%nat (map (fun d => Z.to_nat (d + 1)) deg)) in *. pose proof (sized_columns V P n LV HP K) as CV.
  assert (List.length (norms V) = n) as LN by (unfold norms; rewrite map_length, seq_length; exact CV).
  unfold broadcast. rewrite CV, LZ. destruct (Nat.eqb_spec P n) as [Q|_]; [congruence|].
  destruct (P =? 1)%nat; cbn [bind].
  - rewrite map_length, LV, LN. destruct (Nat.eqb_spec P n) as [Q|_]; [congruence|reflexivity].
  - destruct (n =? 1)%nat; cbn [bind]; [|reflexivity]. rewrite map_length, LV, LN. destruct (Nat.eqb_spec P n) as [Q|_]; [congruence|reflexivity].
Qed.
Lemma map2_len {A B C} (f : A -> B -> C) : forall l m, List.length l = List.length m -> List.length (map2 f l m) = List.length l.
Proof. induction l as [|a l IH]; intros [|b m] H; try discriminate; [reflexivity|]. cbn. rewrite IH by (cbn in H; lia). reflexivity. Qed.
Lemma map2_at (f : R -> R -> R) : forall l m i, List.length l = List.length m -> (i < List.length l)%nat -> nth i (map2 f l m) 0 = f (nth i l 0) (nth i m 0).
Proof. induction l as [|a l IH]; intros [|b m] i H Hi; try discriminate; cbn in Hi; [lia|]. destruct i; [reflexivity|]. cbn. apply IH; cbn in H; lia. Qed.
Lemma map2_combine : forall l m, map (fun p => fst p / snd p) (combine l m) = map2 Rdiv l m.
Proof. induction l as [|a l IH]; intros [|b m]; try reflexivity. cbn. rewrite IH. reflexivity. Qed.
(* for a square system the result does not depend on the data *)
Lemma fit_square : forall lstsq xs z deg P, xs <> [] -> List.length deg = List.length xs -> Forall (fun d => (0 <= d)%Z) deg ->
  Forall (fun x => fst x = List.length xs /\ List.length (snd x) = P) xs -> (0 < P)%nat -> fst z = List.length xs -> List.length (snd z) = P ->
  P = fold_right Nat.mul 1%nat (map (fun d => Z.to_nat (d + 1)) deg) -> Forall (fun v => v <> 0) (snd z) ->
  forall V, chebvandernd deg (map snd xs) = Ok V -> solves lstsq (divided V (snd z)) ->
  exists c, chebfitnd lstsq xs z deg None = Ok c /\
    forall i, (i < P)%nat -> let s := sqrt (vsum P (fun j => nth i (nth j V []) 0 ^ 2)) in dot (nth i V []) c = if Req_EM_T s 0 then 1 else s.
Proof.
  intros lstsq xs z deg P N0 L D F HP Z0 LZ NP NZ V0 EV0 SOLVE. unfold chebfitnd. cbv zeta.
  destruct (fit_checks _ xs P z eq_refl F HP Z0) as [C1 C2]. rewrite C1, C2.
  destruct (vander_of deg xs _ P N0 L D F) as [V [E [LV K]]]. rewrite E. rewrite E in EV0. injection EV0 as <-. cbn [bind fst snd].
  set (n := fold_right Nat.mul 1%nat (map (fun d => Z.to_nat (d + 1)) deg)) in *. pose proof (sized_columns V P n LV HP K) as CV.
  assert (List.length (norms V) = n) as LN by (unfold norms; rewrite map_length, seq_length; exact CV).
  unfold broadcast. rewrite CV, LZ, NP, Nat.eqb_refl. cbn [bind]. rewrite map_length, LV, LN, NP, Nat.eqb_refl. cbn [negb].
  set (a := map (fun r => map2 Rdiv r (snd z)) V).
  assert (divided V (snd z) = a) as EA by (unfold divided, a; apply map_ext; intros r; apply map2_combine). rewrite EA in SOLVE.
  assert (List.length a = P) as LA by (unfold a; rewrite map_length; exact LV).
  destruct (SOLVE (norms V)) as [LS S]; [lia|]. rewrite LA in LS, S.
  unfold vec_div. rewrite LZ, LS, Nat.eqb_refl. cbn [bind]. rewrite map2_len by lia. rewrite LS.
  rewrite size_Z by (try exact D; lia). replace (1 * Z.of_nat _)%Z with (Z.of_nat n) by (fold n; lia). rewrite NP, Z.eqb_refl.
  eexists. split; [reflexivity|]. intros i Hi. cbv zeta. rewrite <- NP in Hi.
  assert (nth i (norms V) 0 = (if Req_EM_T (sqrt (vsum P (fun j => nth i (nth j V []) 0 ^ 2))) 0 then 1 else sqrt (vsum P (fun j => nth i (nth j V []) 0 ^ 2)))) as N1.
  { unfold norms. rewrite CV, LV. set (h := fun k => _). rewrite (nth_indep _ 0 (h O)) by (rewrite map_length, seq_length; lia). rewrite map_nth, seq_nth by lia. reflexivity. }
  rewrite <- NP, <- N1, <- (S i Hi). unfold dot. rewrite K by exact Hi.
  assert (nth i a [] = map2 Rdiv (nth i V []) (snd z)) as A.
  { unfold a. rewrite (nth_indep _ [] ((fun r => map2 Rdiv r (snd z)) [])) by (rewrite map_length; lia). apply (map_nth (fun r => map2 Rdiv r (snd z))). }
  rewrite A, map2_len by (rewrite K by exact Hi; lia). rewrite K by exact Hi. apply vsum_ext. intros k Hk.
  rewrite !map2_at by (rewrite ?K by exact Hi; lia). rewrite Forall_forall in NZ. assert (nth k (snd z) 0 <> 0) by (apply NZ, nth_In; lia). field. assumption.
Qed.
Lemma fit_refuted : ~ (forall lstsq x z c, solves_one lstsq -> chebfitnd lstsq [(1%nat, [x])] (1%nat, [z]) [0%Z] None = Ok c -> c = [z]).
Proof.
  intros H. set (lst := fun (a : list (list R)) (b : list R) => match a, b with [[u]], [v] => [v / u] | _, _ => [] end).
  assert (chebfitnd lst [(1%nat, [0])] (1%nat, [2]) [0%Z] None = Ok [1 / (1 * 1 / 2) / 2]) as E.
  { unfold chebfitnd. cbn -[sqrt]. unfold columns. cbn -[sqrt]. unfold norms, columns. cbn -[sqrt]. 
    replace (0 + 1 * 1 * (1 * 1 * 1)) with 1 by ring. rewrite sqrt_1. destruct (Req_EM_T 1 0); [lra|]. reflexivity. }
  pose proof (H lst 0 2 _ (fun a b _ => eq_refl) E) as K. injection K as K. lra.
Qed.

(* ---- interpolation on Chebyshev points ---- *)
Definition L (n : nat) (g : nat -> R) (k : nat) : R := at_R (halve_first (dct (rev (fibre n g)))) k.
Lemma L_value n g k : (k < n)%nat -> L n g k = w k * (2 * vsum n (fun m => g (n - 1 - m)%nat * cos (INR k * node n m))).
Proof.
  intros H. unfold L, dct, fibre. rewrite rev_length, map_length, seq_length, halve_map, at_map' by exact H.
  do 2 f_equal. apply vsum_ext. intros m Hm. f_equal.
  - rewrite rev_nth_R by (rewrite map_length, seq_length; exact Hm). rewrite map_length, seq_length. rewrite at_map' by lia. reflexivity.
  - f_equal. unfold node. pose proof (INR_pos n ltac:(lia)). field. lra.
Qed.
Definition root (n i : nat) : R := cos (node n (n - 1 - i)).
Lemma L_interp n g i : (i < n)%nat -> vsum n (fun k => L n g k * chebT k (root n i)) = INR n * g i.
Proof.
  intros H. pose proof (INR_pos n ltac:(lia)) as HN.
  pose proof (interpolation_core n (fun m => g (n - 1 - m)%nat) (n - 1 - i)%nat ltac:(lia)) as K.
  cbn beta in K. replace (n - 1 - (n - 1 - i))%nat with i in K by lia. rewrite <- K, <- vsum_scal. apply vsum_ext. intros k Hk. rewrite L_value by exact Hk.
  unfold root. rewrite T_cos. field. lra.
Qed.
