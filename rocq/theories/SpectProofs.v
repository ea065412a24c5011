From Coq Require Import Reals Lra Lia Psatz.
From Coquelicot Require Import Coquelicot.
From Verif Require Import Base PolyModel KdeModel GridSpec ProcSpec ProcProofs CovSpec CovProofs CovProofs2 CovProofs3 SpcovModel SpcovSpec SpcovProofs3 SpectModel SpectSpec.
Local Open Scope R_scope.

(* ---- the rule by functions ---- *)
Lemma parabolas_Sum X Y o k : parabolas X Y o k = Sum k (fun i => parabola X Y (o + 2 * i)). Proof. reflexivity. Qed.
Lemma basic_step y0 y1 y2 y x0 x1 x2 x : basic_simpson (y0 :: y1 :: y2 :: y) (x0 :: x1 :: x2 :: x) = panel (x1 - x0) (x2 - x1) y0 y1 y2 + basic_simpson (y2 :: y) (x2 :: x).
Proof. reflexivity. Qed.
Lemma basic_value : forall n y x, (List.length y <= n)%nat -> List.length x = List.length y -> basic_simpson y x = parabolas (at_R x) (at_R y) 0 ((List.length y - 1) / 2).
Proof.
  induction n as [|n IH]; intros y x H L.
  - destruct y; [|cbn in H; lia]. destruct x; reflexivity.
  - destruct y as [|y0 [|y1 [|y2 y]]]; destruct x as [|x0 [|x1 [|x2 x]]]; cbn in L; try lia; try reflexivity.
    rewrite basic_step, IH by (cbn in *; lia). rewrite !parabolas_Sum.
    replace (List.length (y0 :: y1 :: y2 :: y) - 1)%nat with (1 * 2 + (List.length (y2 :: y) - 1))%nat by (cbn; lia). rewrite Nat.div_add_l by lia.
    rewrite Sum_split. rewrite Sum_S, Sum_0, Rplus_0_l. f_equal. apply Sum_ext. intros i Hi. replace (0 + 2 * (1 + i))%nat with (S (S (0 + 2 * i))) by lia. reflexivity.
Qed.
Lemma at_R_tl l i : at_R (tl l) i = at_R l (S i). Proof. destruct l; [destruct i; reflexivity|reflexivity]. Qed.
Lemma at_R_removelast l i : (S i < List.length l)%nat -> at_R (removelast l) i = at_R l i.
Proof.
  revert i. induction l as [|a [|b l] IH]; intros i H; cbn in H; try lia. cbn [removelast]. destruct i; [reflexivity|]. change (at_R (removelast (b :: l)) i = at_R (b :: l) i). apply IH. cbn. lia.
Qed.
Lemma removelast_length (l : list R) : List.length (removelast l) = (List.length l - 1)%nat.
Proof. induction l as [|a [|b l] IH]; [reflexivity..|]. change (S (List.length (removelast (b :: l))) = (List.length (a :: b :: l) - 1)%nat). rewrite IH. cbn. lia. Qed.
Lemma parabola_ext X X' Y Y' i : (forall k, (i <= k <= S (S i))%nat -> X k = X' k) -> (forall k, (i <= k <= S (S i))%nat -> Y k = Y' k) -> parabola X Y i = parabola X' Y' i.
Proof. intros HX HY. unfold parabola. rewrite !HX, !HY by lia. reflexivity. Qed.
Lemma parabolas_ext n X X' Y Y' o k : (o + 2 * k < n)%nat -> (forall i, (i < n)%nat -> X i = X' i) -> (forall i, (i < n)%nat -> Y i = Y' i) -> parabolas X Y o k = parabolas X' Y' o k.
Proof. intros H HX HY. rewrite !parabolas_Sum. apply Sum_ext. intros i Hi. apply parabola_ext; intros; [apply HX|apply HY]; lia. Qed.
Lemma even_half n : Nat.odd n = false -> (n = 2 * (n / 2))%nat.
Proof. intros H. rewrite <- Nat.negb_even in H. apply Bool.negb_false_iff in H. apply Nat.even_spec in H as [m ->]. rewrite (Nat.mul_comm 2 m), Nat.div_mul by lia. lia. Qed.
Lemma odd_half n : Nat.odd n = true -> (n - 1 = 2 * ((n - 1) / 2))%nat.
Proof. intros H. apply Nat.odd_spec in H as [m ->]. replace (2 * m + 1 - 1)%nat with (m * 2)%nat by lia. rewrite Nat.div_mul by lia. lia. Qed.
Lemma half_2 n : (2 <= n)%nat -> Nat.odd n = false -> (n - 2 = 2 * ((n - 2) / 2))%nat.
Proof. intros H1 H. apply even_half in H. set (m := (n / 2)%nat) in H. clearbody m. subst n. replace (2 * m - 2)%nat with ((m - 1) * 2)%nat by lia. rewrite Nat.div_mul by lia. lia. Qed.
Lemma simps_value y x n : List.length y = n -> List.length x = n -> (1 <= n)%nat -> simps y x = simpson n (at_R x) (at_R y).
Proof.
  intros Hy Hx Hn. unfold simps, simpson. rewrite Hy. destruct (Nat.odd n) eqn:E.
  - rewrite (basic_value n) by lia. now rewrite Hy.
  - assert (Hn2 : (2 <= n)%nat) by (destruct n as [|[|n]]; cbn in *; try lia; discriminate). pose proof (half_2 n Hn2 E) as Hh.
    rewrite (basic_value n (removelast y)), (basic_value n (tl y)) by (rewrite ?removelast_length; destruct x, y; cbn in *; lia).
    rewrite removelast_length, Hy. replace (List.length (tl y)) with (n - 1)%nat by (destruct y; cbn in *; lia). replace (n - 1 - 1)%nat with (n - 2)%nat by lia.
    f_equal. rewrite (Rplus_comm (trapezium y x (n - 2))). f_equal; f_equal.
    + apply (parabolas_ext (n - 1)); [lia| |]; intros i Hi; apply at_R_removelast; lia.
    + rewrite !parabolas_Sum. apply Sum_ext. intros i Hi. unfold parabola. rewrite !at_R_tl. replace (1 + 2 * i)%nat with (S (0 + 2 * i)) by lia. reflexivity.
Qed.
Lemma simpson_ext n X X' Y Y' : (1 <= n)%nat -> (forall i, (i < n)%nat -> X i = X' i) -> (forall i, (i < n)%nat -> Y i = Y' i) -> simpson n X Y = simpson n X' Y'.
Proof.
  intros Hn HX HY. unfold simpson. destruct (Nat.odd n) eqn:E.
  - pose proof (odd_half n E). apply (parabolas_ext n); easy || lia.
  - assert (Hn2 : (2 <= n)%nat) by (destruct n as [|[|n]]; cbn in *; try lia; discriminate). pose proof (half_2 n Hn2 E).
    rewrite (parabolas_ext n X X' Y Y' 0), (parabolas_ext n X X' Y Y' 1) by (easy || lia). unfold trapezium_at. rewrite !HX, !HY by lia. reflexivity.
Qed.

(* ---- linear in the values ---- *)
Lemma parabola_linear X Y Z p q i : parabola X (fun i => p * Y i + q * Z i) i = p * parabola X Y i + q * parabola X Z i.
Proof. unfold parabola. unfold Rdiv. ring. Qed.
Lemma parabolas_linear X Y Z p q o k : parabolas X (fun i => p * Y i + q * Z i) o k = p * parabolas X Y o k + q * parabolas X Z o k.
Proof.
  rewrite !parabolas_Sum. rewrite (Sum_ext k _ (fun i => p * parabola X Y (o + 2 * i) + q * parabola X Z (o + 2 * i))) by (intros; apply parabola_linear).
  now rewrite Sum_plus, !Sum_mul.
Qed.
Lemma simpson_linear n X Y Z p q : simpson n X (fun i => p * Y i + q * Z i) = p * simpson n X Y + q * simpson n X Z.
Proof. unfold simpson. destruct (Nat.odd n); rewrite !parabolas_linear; [reflexivity|]. unfold trapezium_at. field. Qed.
Lemma simpson_scale n X Y p : simpson n X (fun i => p * Y i) = p * simpson n X Y.
Proof.
  unfold simpson. assert (P : forall o k, parabolas X (fun i => p * Y i) o k = p * parabolas X Y o k).
  { intros o k. rewrite !parabolas_Sum, <- Sum_mul. apply Sum_ext. intros i _. unfold parabola, Rdiv. ring. }
  rewrite !P. destruct (Nat.odd n); [reflexivity|]. unfold trapezium_at, Rdiv. ring.
Qed.
(* ---- stretching the axis ---- *)
Lemma parabola_stretch X Y c i : 0 < c -> X i < X (S i) -> X (S i) < X (S (S i)) -> parabola (fun i => c * X i) Y i = c * parabola X Y i.
Proof. intros Hc H0 H1. unfold parabola. field. repeat split; nra. Qed.
Lemma parabolas_stretch n X Y c o k : 0 < c -> rising n X -> (o + 2 * k < n)%nat -> parabolas (fun i => c * X i) Y o k = c * parabolas X Y o k.
Proof. intros Hc HX H. rewrite !parabolas_Sum, <- Sum_mul. apply Sum_ext. intros i Hi. apply parabola_stretch; [easy|apply HX; lia|apply HX; lia]. Qed.
Lemma simpson_stretch n X Y c : (1 <= n)%nat -> 0 < c -> rising n X -> simpson n (fun i => c * X i) Y = c * simpson n X Y.
Proof.
  intros Hn Hc HX. unfold simpson. destruct (Nat.odd n) eqn:E.
  - pose proof (odd_half n E). apply (parabolas_stretch n); easy || lia.
  - assert (Hn2 : (2 <= n)%nat) by (destruct n as [|[|n]]; cbn in *; try lia; discriminate). pose proof (half_2 n Hn2 E).
    rewrite !(parabolas_stretch n) by (easy || lia). unfold trapezium_at. field.
Qed.

(* ---- exactness ---- *)
Definition quad (a b c x : R) : R := a * x ^ 2 + b * x + c.
Definition prim (a b c x : R) : R := a * x ^ 3 / 3 + b * x ^ 2 / 2 + c * x.
Lemma parabola_exact X a b c i : X i < X (S i) -> X (S i) < X (S (S i)) -> parabola X (fun i => quad a b c (X i)) i = prim a b c (X (S (S i))) - prim a b c (X i).
Proof. intros H0 H1. unfold parabola, quad, prim. field. lra. Qed.
Lemma parabolas_exact n X a b c o k : rising n X -> (o + 2 * k < n)%nat -> parabolas X (fun i => quad a b c (X i)) o k = prim a b c (X (o + 2 * k)%nat) - prim a b c (X o).
Proof.
  intros HX. induction k as [|k IH]; intros H; rewrite !parabolas_Sum in *; [rewrite Sum_0; replace (o + 2 * 0)%nat with o by lia; ring|].
  rewrite Sum_S, IH by lia. rewrite parabola_exact by (apply HX; lia). replace (o + 2 * S k)%nat with (S (S (o + 2 * k))) by lia. ring.
Qed.
Lemma prim_RInt a b c u v : is_RInt (quad a b c) u v (prim a b c v - prim a b c u).
Proof.
  apply (is_RInt_derive (prim a b c) (quad a b c)).
  - intros x _. unfold prim, quad. auto_derive; [easy|]. field.
  - intros x _. unfold quad. apply (ex_derive_continuous (fun x => a * x ^ 2 + b * x + c)). auto_derive. easy.
Qed.
Lemma simpson_parabola n X a b c : Nat.odd n = true -> rising n X -> is_RInt (fun x => a * x ^ 2 + b * x + c) (X 0%nat) (X (n - 1)%nat) (simpson n X (fun i => a * X i ^ 2 + b * X i + c)).
Proof.
  intros E HX. unfold simpson. rewrite E. pose proof (odd_half n E) as H. assert (0 < n)%nat by (destruct n; [discriminate|lia]).
  change (fun i => a * X i ^ 2 + b * X i + c) with (fun i => quad a b c (X i)). rewrite (parabolas_exact n) by (easy || lia). replace (0 + 2 * ((n - 1) / 2))%nat with (n - 1)%nat by lia. apply prim_RInt.
Qed.
Lemma simpson_line n X b c : (1 <= n)%nat -> rising n X -> is_RInt (fun x => b * x + c) (X 0%nat) (X (n - 1)%nat) (simpson n X (fun i => b * X i + c)).
Proof.
  intros Hn HX. apply (is_RInt_ext (quad 0 b c)); [intros; unfold quad; match goal with |- ?u = ?v => change (@eq R u v) end; ring|].
  replace (simpson n X (fun i => b * X i + c)) with (prim 0 b c (X (n - 1)%nat) - prim 0 b c (X 0%nat)); [apply prim_RInt|].
  rewrite (simpson_ext n X X (fun i => b * X i + c) (fun i => quad 0 b c (X i))) by (intros; try easy; unfold quad; ring).
  unfold simpson. destruct (Nat.odd n) eqn:E.
  - pose proof (odd_half n E). rewrite (parabolas_exact n) by (easy || lia). replace (0 + 2 * ((n - 1) / 2))%nat with (n - 1)%nat by lia. reflexivity.
  - assert (Hn2 : (2 <= n)%nat) by (destruct n as [|[|n]]; cbn in *; try lia; discriminate). pose proof (half_2 n Hn2 E).
    rewrite !(parabolas_exact n) by (easy || lia). replace (0 + 2 * ((n - 2) / 2))%nat with (n - 2)%nat by lia. replace (1 + 2 * ((n - 2) / 2))%nat with (n - 1)%nat by lia.
    unfold trapezium_at, quad, prim. replace (S (n - 2)) with (n - 1)%nat by lia. field.
Qed.

(* ---- even spacing: positive weights ---- *)
Lemma even_rising n X : even_axis n X -> rising n X. Proof. intros (h & Hh & H) i Hi. specialize (H i Hi). lra. Qed.
Lemma parabola_even X Y i h : 0 < h -> X (S i) - X i = h -> X (S (S i)) - X (S i) = h -> parabola X Y i = h / 3 * (Y i + 4 * Y (S i) + Y (S (S i))).
Proof. intros Hh E0 E1. unfold parabola. rewrite E0, E1. field. lra. Qed.
Lemma parabolas_pos n X Y o k : even_axis n X -> (forall i, (i < n)%nat -> 0 <= Y i) -> (o + 2 * k < n)%nat -> 0 <= parabolas X Y o k.
Proof.
  intros (h & Hh & HX) HY H. rewrite parabolas_Sum, <- (Sum_zero k). apply Sum_le. intros i Hi. rewrite (parabola_even X Y _ h) by (try easy; apply HX; lia).
  pose proof (HY (o + 2 * i)%nat ltac:(lia)). pose proof (HY (S (o + 2 * i)) ltac:(lia)). pose proof (HY (S (S (o + 2 * i))) ltac:(lia)). apply Rmult_le_pos; lra.
Qed.
Lemma simpson_pos n X Y : (1 <= n)%nat -> even_axis n X -> (forall i, (i < n)%nat -> 0 <= Y i) -> 0 <= simpson n X Y.
Proof.
  intros Hn HX HY. unfold simpson. destruct (Nat.odd n) eqn:E.
  - pose proof (odd_half n E). apply (parabolas_pos n); easy || lia.
  - assert (Hn2 : (2 <= n)%nat) by (destruct n as [|[|n]]; cbn in *; try lia; discriminate). pose proof (half_2 n Hn2 E).
    pose proof (parabolas_pos n X Y 0 ((n - 2) / 2) HX HY ltac:(lia)). pose proof (parabolas_pos n X Y 1 ((n - 2) / 2) HX HY ltac:(lia)).
    destruct HX as (h & Hh & HX). assert (T : forall i, (S i < n)%nat -> 0 <= trapezium_at X Y i).
    { intros i Hi. unfold trapezium_at. rewrite HX by easy. pose proof (HY i ltac:(lia)). pose proof (HY (S i) Hi). nra. }
    pose proof (T (n - 2)%nat ltac:(lia)). pose proof (T 0%nat ltac:(lia)). lra.
Qed.
(* Cauchy-Schwarz *)
Lemma discriminant a b c : (forall t, 0 <= a + 2 * t * b + t ^ 2 * c) -> 0 <= c -> b ^ 2 <= a * c.
Proof.
  intros H Hc. destruct (Rle_lt_or_eq_dec 0 c Hc) as [P|<-].
  - specialize (H (- b / c)). assert (E : a + 2 * (- b / c) * b + (- b / c) ^ 2 * c = (a * c - b ^ 2) / c) by (field; lra). rewrite E in H.
    assert (0 <= (a * c - b ^ 2) / c * c) by nra. replace ((a * c - b ^ 2) / c * c) with (a * c - b ^ 2) in H0 by (field; lra). lra.
  - assert (b = 0); [|subst; nra]. destruct (Req_dec b 0) as [->|Hb]; [reflexivity|]. exfalso. specialize (H ((- a - 1) / (2 * b))).
    replace (a + 2 * ((- a - 1) / (2 * b)) * b + ((- a - 1) / (2 * b)) ^ 2 * 0) with (-1) in H by (field; easy). lra.
Qed.
Lemma cauchy_schwarz n X S U V : (1 <= n)%nat -> even_axis n X -> (forall i, (i < n)%nat -> 0 <= S i) ->
  simpson n X (fun i => S i * (U i * V i)) ^ 2 <= simpson n X (fun i => S i * U i ^ 2) * simpson n X (fun i => S i * V i ^ 2).
Proof.
  intros Hn HX HS. apply discriminant.
  - intros t. pose proof (simpson_pos n X (fun i => S i * (U i + t * V i) ^ 2) Hn HX) as P.
    assert (E : simpson n X (fun i => S i * (U i + t * V i) ^ 2) = simpson n X (fun i => S i * U i ^ 2) + 2 * t * simpson n X (fun i => S i * (U i * V i)) + t ^ 2 * simpson n X (fun i => S i * V i ^ 2)).
    { rewrite (simpson_ext n X X _ (fun i => 1 * (1 * (S i * U i ^ 2) + (2 * t) * (S i * (U i * V i))) + t ^ 2 * (S i * V i ^ 2))) by (intros; try easy; ring).
      rewrite simpson_linear, simpson_linear. ring. }
    rewrite <- E. apply P. intros i Hi. apply Rmult_le_pos; [now apply HS|apply pow2_ge_0].
  - apply simpson_pos; try easy. intros i Hi. apply Rmult_le_pos; [now apply HS|apply pow2_ge_0].
Qed.
