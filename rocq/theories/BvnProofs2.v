From Coq Require Import Reals List ZArith Bool Lra Lia Psatz.
From Coquelicot Require Import Coquelicot.
From Verif Require Import RvModel RvnModel RvnProofs PolyModel BvnModel BvnSpec BvnProofs.
Import ListNotations.
Local Open Scope R_scope.

(* arrays *)
Definition neg_ (t : triple) : triple := let '(b1, b2, r) := t in (- b1, - b2, r).
Definition step_ (t : triple) (v : option R) : option R := if lt_ (Rabs (snd t)) 1 && is_near t then option_map (fun v => - v / (2 * PI)) v else v.
Lemma one_value t : (let '(b1, b2, r) := t in cdfnorm2 b1 b2 r) = finish (neg_ t) (step_ (neg_ t) (start (neg_ t))).
Proof.
  destruct t as [[b1 b2] r]. unfold cdfnorm2, cdfnorm2d, neg_, step_. cbn [map]. set (t := (- b1, - b2, r)). unfold rescaled. cbn [filter map List.length seq]. change (snd t) with r.
  destruct (is_near t) eqn:N; unfold where_; cbn [combine seq List.length filter map existsb snd fst]; try (change (snd t) with r; destruct (lt_ (Rabs r) 1)); cbn [andb filter map existsb fst snd Nat.eqb orb nth map2]; reflexivity.
Qed.
Lemma where_in {A} (p : A -> bool) (l : list A) d i : existsb (Nat.eqb i) (where_ p l) = ((i <? List.length l)%nat && p (nth i l d)).
Proof.
  unfold where_. assert (G : forall s, existsb (Nat.eqb i) (map fst (filter (fun q => p (snd q)) (combine (seq s (List.length l)) l))) = ((s <=? i)%nat && (i <? s + List.length l)%nat && p (nth (i - s) l d))).
  { induction l as [|a l IH]; intros s.
    - change (false = (s <=? i)%nat && (i <? s + 0)%nat && p (nth (i - s) [] d)). symmetry. destruct (Nat.leb_spec s i) as [E1|E1]; [|reflexivity]. destruct (Nat.ltb_spec i (s + 0)) as [E2|E2]; [lia|reflexivity].
    - cbn [List.length seq combine filter map]. cbn [snd]. destruct (Nat.eq_dec i s) as [->|N].
      + replace (s <=? s)%nat with true by (symmetry; apply Nat.leb_le; lia). replace (s <? s + S (List.length l))%nat with true by (symmetry; apply Nat.ltb_lt; lia). rewrite Nat.sub_diag. cbn [nth andb]. destruct (p a) eqn:P.
        * cbn [map existsb fst]. now rewrite Nat.eqb_refl.
        * rewrite IH. replace (S s <=? s)%nat with false by (symmetry; apply Nat.leb_gt; lia). reflexivity.
      + assert (T : existsb (Nat.eqb i) (map fst (filter (fun q => p (snd q)) (combine (seq (S s) (List.length l)) l))) = ((s <=? i)%nat && (i <? s + S (List.length l))%nat && p (nth (i - s) (a :: l) d))).
        { rewrite IH. destruct (le_lt_dec s i) as [Q|Q].
          - replace (i - s)%nat with (S (i - S s)) by lia. cbn [nth]. replace (s <=? i)%nat with true by (symmetry; apply Nat.leb_le; lia). replace (S s <=? i)%nat with true by (symmetry; apply Nat.leb_le; lia). replace (S s + List.length l)%nat with (s + S (List.length l))%nat by lia. reflexivity.
          - replace (s <=? i)%nat with false by (symmetry; apply Nat.leb_gt; lia). replace (S s <=? i)%nat with false by (symmetry; apply Nat.leb_gt; lia). reflexivity. }
        destruct (p a); [|exact T]. cbn [map existsb fst]. replace (i =? s)%nat with false by (symmetry; now apply Nat.eqb_neq). exact T. }
  rewrite (G 0%nat). rewrite Nat.sub_0_r. reflexivity.
Qed.
Lemma map2_ext_nth {A B C} (f : A -> B -> C) (g : A -> C) (l : list A) (v : list B) d : List.length v = List.length l ->
  (forall i a, nth_error l i = Some a -> f a (nth i v d) = g a) -> map2 f l v = map g l.
Proof.
  revert v. induction l as [|a l IH]; intros [|b v] L H; cbn in *; try lia; [reflexivity|]. f_equal; [exact (H 0%nat a eq_refl)|]. apply IH; [lia|]. intros i x E. exact (H (S i) x E).
Qed.
Lemma nth_seq_map {A} (f : nat -> A) n d i : (i < n)%nat -> nth i (map f (seq 0 n)) d = f i.
Proof. intros H. rewrite (nth_indep _ d (f 0%nat)) by now rewrite map_length, seq_length. rewrite map_nth, seq_nth by exact H. reflexivity. Qed.
Lemma near_iff t : is_near t = true <-> 925 / 1000 <= Rabs (snd t) <= 1.
Proof. destruct t as [[h k] r]. unfold is_near, le_. cbn [snd]. destruct (Rle_dec _ (Rabs r)), (Rle_dec (Rabs r) 1); cbn; split; try easy; lra. Qed.
Lemma filter_all {A} (p : A -> bool) l : (forall x, In x l -> p x = true) -> filter p l = l.
Proof. induction l as [|a l IH]; intros H; cbn; [reflexivity|]. rewrite (H a) by now left. f_equal. apply IH. intros x I. apply H. now right. Qed.
Lemma elementwise bs : (forall q, In q bs -> ~ near_one (snd q)) \/ (forall q, In q bs -> 925 / 1000 <= Rabs (snd q) <= 1) ->
  cdfnorm2d bs = map (fun q : R * R * R => let '(b1, b2, r) := q in cdfnorm2 b1 b2 r) bs.
Proof.
  intros H. unfold cdfnorm2d. change (fun q : R * R * R => let '(b1, b2, r) := q in (- b1, - b2, r)) with neg_. set (ts := map neg_ bs).
  assert (E : map (fun q : R * R * R => let '(b1, b2, r) := q in cdfnorm2 b1 b2 r) bs = map (fun t => finish t (step_ t (start t))) ts). { unfold ts. rewrite map_map. apply map_ext. apply one_value. }
  rewrite E. apply (map2_ext_nth _ _ _ _ None). { unfold rescaled. rewrite map_length, seq_length, map_length. reflexivity. }
  intros i t Ht. f_equal. unfold rescaled. change (nth_error ts i = Some t) in Ht. assert (Li : (i < List.length ts)%nat) by (apply (proj1 (nth_error_Some ts i)); rewrite Ht; discriminate).
  assert (Ei : nth i (map start ts) None = start t). { rewrite (nth_indep _ None (start (0, 0, 0))) by (rewrite map_length; exact Li). rewrite map_nth. f_equal. now apply nth_error_nth. }
  rewrite (nth_seq_map _ _ None) by (rewrite map_length; exact Li). cbv beta. change (map neg_ bs) with ts. rewrite Ei. unfold step_.
  assert (I : In t ts) by (eapply nth_error_In; exact Ht). assert (J : exists q, In q bs /\ t = neg_ q). { unfold ts in I. apply in_map_iff in I. destruct I as (q & <- & I). now exists q. }
  rewrite (where_in _ _ (0, 0, 0)). destruct H as [H|H].
  - assert (N : forall u, In u ts -> is_near u = true -> lt_ (Rabs (snd u)) 1 = false).
    { intros u U V. apply near_iff in V. unfold ts in U. apply in_map_iff in U. destruct U as (q & <- & U). specialize (H q U). destruct q as [[b1 b2] r]. cbn [snd neg_] in *. unfold near_one in H. apply lt_false. lra. }
    destruct (i <? List.length (filter is_near ts))%nat eqn:Q.
    + apply Nat.ltb_lt in Q. pose proof (nth_In _ (0, 0, 0) Q) as W. apply filter_In in W. destruct W as [W1 W2]. rewrite (N _ W1 W2), andb_false_r. destruct (is_near t) eqn:T; [rewrite (N t I T)|rewrite andb_false_r]; reflexivity.
    + assert (Q' : (i <? List.length (filter is_near ts))%nat = false) by exact Q. match goal with |- (if ?a && _ then _ else _) = _ => change a with (i <? List.length (filter is_near ts))%nat end. rewrite Q'. cbn [andb]. destruct (is_near t) eqn:T; [rewrite (N t I T)|rewrite andb_false_r]; reflexivity.
  - rewrite filter_all. 2: { intros u U. apply near_iff. unfold ts in U. apply in_map_iff in U. destruct U as (q & <- & U). specialize (H q U). destruct q as [[b1 b2] r]. exact H. }
    assert (Q' : (i <? List.length ts)%nat = true) by (now apply Nat.ltb_lt). match goal with |- (if ?a && _ then _ else _) = _ => change a with (i <? List.length ts)%nat end. rewrite Q', (nth_error_nth _ _ _ Ht). cbn [andb].
    assert (T : is_near t = true). { apply near_iff. destruct J as (q & U & ->). specialize (H q U). destruct q as [[b1 b2] r]. exact H. }
    rewrite T, andb_true_r. reflexivity.
Qed.
(* the number at index 0 is changed because of the number at index 1 *)
Lemma mixed : exists v, cdfnorm2d [(0, 0, 0); (0, 0, 95 / 100)] = [Some (- (1 / 4) / (2 * PI)); v].
Proof.
  assert (Q0 : Rabs 0 = 0) by apply Rabs_R0. assert (Q1 : Rabs (95 / 100) = 95 / 100) by (apply Rabs_right; lra).
  unfold cdfnorm2d. cbn [map]. unfold rescaled. assert (N0 : is_near (- 0, - 0, 0) = false). { unfold is_near. rewrite Q0, (le_false (925 / 1000) 0) by lra. reflexivity. }
  assert (N1 : is_near (- 0, - 0, 95 / 100) = true). { unfold is_near. rewrite Q1, (le_true (925 / 1000) _), (le_true _ 1) by lra. reflexivity. }
  cbn [filter]. rewrite N0, N1. unfold where_. cbn [combine seq List.length filter snd map fst]. rewrite Q1, (lt_true (95 / 100) 1) by lra. cbn [map fst existsb Nat.eqb orb nth option_map map2].
  assert (S0 : start (- 0, - 0, 0) = Some (1 / 4)).
  { unfold start, is_moderate. rewrite Q0, (lt_false 1 0), (lt_true 0) by lra. f_equal. pose proof (at_zero 0 0) as E. rewrite at_moderate in E by (rewrite Q0; lra). injection E as E. rewrite E, ndtr_0. lra. }
  rewrite S0. eexists. cbn [map seq option_map]. cbn [map2]. f_equal. unfold finish. rewrite N0. reflexivity.
Qed.

(* rectangles *)
Lemma rect_value F r a0 a1 b0 b1 : marginals F r -> ~ (everything a0 b0 \/ everything a1 b1) -> a0 < b0 -> a1 < b1 ->
  ~ (a0 <= - 37 /\ 37 <= b0 /\ a1 <= - 37 /\ 37 <= b1) ->
  prbnorm2d (fun x y r => Some (F x y r)) a0 a1 b0 b1 r = Some (rectangle (fun x y => F x y r) (lower a0) (upper b0) (lower a1) (upper b1)).
Proof.
  intros M N A B Z. unfold prbnorm2d, bvd.
  assert (C0 : le_ a0 (- 37) && le_ 37 b0 && (le_ a1 (- 37) && le_ 37 b1) = false). { unfold le_. destruct (Rle_dec a0 _), (Rle_dec 37 b0), (Rle_dec a1 _), (Rle_dec 37 b1); try reflexivity. exfalso. apply Z. tauto. }
  rewrite C0. rewrite (le_false b0 a0), (le_false b1 a1) by assumption. cbn [orb]. unfold infin, lower, upper, everything in *.
  assert (R1 : forall x y, F (- x) (- y) r = 1 - ndtr x - ndtr y + F x y r). { intros x y. destruct (M (- x) (- y)) as [E1 _]. destruct (M x y) as [_ E2]. rewrite Ropp_involutive in E1. rewrite ndtr_neg in E1. lra. }
  assert (R2 : forall x y, F (- x) y (- r) = ndtr y - F x y r). { intros x y. destruct (M x y) as [_ E2]. lra. }
  assert (R3 : forall x y, F x (- y) (- r) = ndtr x - F x y r). { intros x y. destruct (M x y) as [E2 _]. lra. }
  destruct (Rlt_dec 37 b0), (Rlt_dec a0 (- 37)), (Rlt_dec 37 b1), (Rlt_dec a1 (- 37)); try (exfalso; apply N; tauto); cbn; unfold rectangle, below; cbn; rewrite ?Ropp_involutive, ?R1, ?R2, ?R3; f_equal; lra.
Qed.
Lemma rect_empty cdf r a0 a1 b0 b1 : b0 <= a0 \/ b1 <= a1 -> prbnorm2d cdf a0 a1 b0 b1 r = Some 0.
Proof.
  intros H. unfold prbnorm2d. assert (C0 : le_ a0 (- 37) && le_ 37 b0 && (le_ a1 (- 37) && le_ 37 b1) = false). { unfold le_. destruct (Rle_dec a0 _), (Rle_dec 37 b0), (Rle_dec a1 _), (Rle_dec 37 b1); try reflexivity. exfalso. lra. }
  rewrite C0. unfold le_. destruct (Rle_dec b0 a0), (Rle_dec b1 a1); cbn; try reflexivity. exfalso. tauto.
Qed.
Lemma rect_all cdf r a0 a1 b0 b1 : everything a0 b0 -> everything a1 b1 -> prbnorm2d cdf a0 a1 b0 b1 r = Some 1.
Proof. intros [A1 A2] [B1 B2]. unfold prbnorm2d. rewrite (le_true a0), (le_true 37 b0), (le_true a1), (le_true 37 b1) by lra. reflexivity. Qed.
Lemma same_results c c' r a0 a1 b0 b1 : (forall x y, c x y r = c' x y r) -> (forall x y, c x y (- r) = c' x y (- r)) -> prbnorm2d c a0 a1 b0 b1 r = prbnorm2d c' a0 a1 b0 b1 r.
Proof. intros H1 H2. unfold prbnorm2d, bvd. rewrite !H1, !H2. reflexivity. Qed.
Lemma rect_own r a0 a1 b0 b1 : covered r -> ~ (everything a0 b0 \/ everything a1 b1) -> a0 < b0 -> a1 < b1 ->
  ~ (a0 <= - 37 /\ 37 <= b0 /\ a1 <= - 37 /\ 37 <= b1) ->
  prbnorm2d cdfnorm2 a0 a1 b0 b1 r = Some (rectangle (fun x y => value (cdfnorm2 x y r)) (lower a0) (upper b0) (lower a1) (upper b1)).
Proof.
  intros C N A B Z. rewrite <- (rect_value (fun x y r => value (cdfnorm2 x y r)) r) by (auto using split_both).
  assert (L : Rabs r <= 1) by (destruct C; lra). apply same_results; intros x y; apply defined; rewrite ?Rabs_Ropp; exact L.
Qed.
(* one coordinate unbounded *)
Lemma rect_strip : prbnorm2d cdfnorm2 (-40) 0 40 1 0 = Some 1 /\ ndtr 1 - ndtr 0 < 1.
Proof.
  split. 2: { pose proof (ndtr_values 1). pose proof (ndtr_values 0). lra. }
  unfold prbnorm2d, infin. rewrite (le_true (-40)), (le_true 37 40), (le_false 0 (- 37)) by lra. rewrite (le_false 40), (le_false 1 0) by lra. cbn [andb orb].
  destruct (Rlt_dec 37 40); [|lra]. destruct (Rlt_dec (-40) (- 37)); [|lra]. destruct (Rlt_dec 37 1); [lra|]. destruct (Rlt_dec 0 (- 37)); [lra|]. reflexivity.
Qed.
