From Coq Require Import Reals List ZArith Bool Lra Lia Psatz.
From Coquelicot Require Import Coquelicot.
From Verif Require Import RvModel RvnModel RvnProofs PolyModel BvnModel BvnSpec.
Import ListNotations.
Local Open Scope R_scope.

Lemma fi_ndtr x : fi x = ndtr x.
Proof. unfold fi. replace (- x / sqrt 2) with ((- x) / sqrt 2) by reflexivity. rewrite erfc_ndtr. rewrite Ropp_involutive. field. Qed.
Lemma lt_true x y : x < y -> lt_ x y = true. Proof. intros. unfold lt_. destruct (Rlt_dec x y); [reflexivity|lra]. Qed.
Lemma lt_false x y : y <= x -> lt_ x y = false. Proof. intros. unfold lt_. destruct (Rlt_dec x y); [lra|reflexivity]. Qed.
Lemma le_true x y : x <= y -> le_ x y = true. Proof. intros. unfold le_. destruct (Rle_dec x y); [reflexivity|lra]. Qed.
Lemma le_false x y : y < x -> le_ x y = false. Proof. intros. unfold le_. destruct (Rle_dec x y); [lra|reflexivity]. Qed.
(* the value for numbers *)
Lemma at_invalid b1 b2 r : 1 < Rabs r -> cdfnorm2 b1 b2 r = None.
Proof.
  intros H. unfold cdfnorm2, cdfnorm2d. cbn [map nth]. cbv [rescaled]. cbn [map filter List.length seq nth].
  unfold is_near, start, finish, is_near. rewrite (lt_true 1) by lra. rewrite (le_false (Rabs r) 1) by lra. rewrite ?andb_false_r. cbn. repeat match goal with |- context [if ?b then _ else _] => destruct b end; reflexivity.
Qed.
Lemma at_moderate b1 b2 r : Rabs r < 925 / 1000 -> cdfnorm2 b1 b2 r = Some (moderate (- b1) (- b2) r).
Proof.
  intros H. unfold cdfnorm2, cdfnorm2d. cbn [map nth]. cbv [rescaled]. cbn [map filter List.length seq nth].
  unfold is_near, start, finish, is_near, is_moderate. rewrite (lt_false 1) by lra. rewrite (le_false (925 / 1000) (Rabs r)) by lra. rewrite (lt_true (Rabs r) (925 / 1000)) by lra. cbn [andb]. cbn. rewrite (le_false (925 / 1000) (Rabs r)) by lra. reflexivity.
Qed.
Lemma at_near b1 b2 r : 925 / 1000 <= Rabs r <= 1 ->
  cdfnorm2 b1 b2 r = Some (let t := (- b1, - b2, r) in
    let v := if lt_ (Rabs r) 1 then - raw (- b1) (turned t) r / (2 * PI) else 0 in
    if lt_ 0 r then v + fi (- Rmax (- b1) (- b2)) else - v + Rmax 0 (fi (- - b1) - fi (- turned t))).
Proof.
  intros H. unfold cdfnorm2, cdfnorm2d. cbn [map nth]. cbv [rescaled]. cbn [map filter List.length seq nth].
  unfold is_near, start, finish, is_near, is_moderate. rewrite (lt_false 1) by lra. rewrite (le_true (925 / 1000) (Rabs r)) by lra. rewrite (lt_false (Rabs r) (925 / 1000)) by lra. rewrite (le_true (Rabs r) 1) by lra. cbn [andb].
  unfold where_. cbn [map filter combine seq List.length existsb map2 nth snd fst]. cbn zeta.
  destruct (Rlt_dec (Rabs r) 1) as [A|A].
  - rewrite (lt_true (Rabs r) 1) by exact A. cbn [filter map existsb Nat.eqb orb fst snd map2 nth option_map]. rewrite (le_true (925 / 1000) (Rabs r)), (le_true (Rabs r) 1) by lra. cbn [andb]. destruct (lt_ 0 r); reflexivity.
  - rewrite (lt_false (Rabs r) 1) by lra. cbn [filter map existsb Nat.eqb orb fst snd map2 nth option_map]. rewrite (le_true (925 / 1000) (Rabs r)), (le_true (Rabs r) 1) by lra. cbn [andb]. destruct (lt_ 0 r); reflexivity.
Qed.
Lemma defined b1 b2 r : Rabs r <= 1 -> cdfnorm2 b1 b2 r = Some (value (cdfnorm2 b1 b2 r)).
Proof.
  intros H. destruct (Rlt_dec (Rabs r) (925 / 1000)) as [A|A]; [rewrite at_moderate by exact A; reflexivity|rewrite at_near by lra; reflexivity].
Qed.

(* independent variables *)
Lemma at_zero b1 b2 : cdfnorm2 b1 b2 0 = Some (ndtr b1 * ndtr b2).
Proof. rewrite at_moderate by (rewrite Rabs_R0; lra). unfold moderate. rewrite asin_0. destruct (rule 0) as [X W]. rewrite !fi_ndtr, !Ropp_involutive. f_equal. unfold Rdiv. rewrite Rmult_0_l, Rmult_0_r. ring. Qed.
Lemma max_neg x y : - Rmax (- x) (- y) = Rmin x y.
Proof. unfold Rmax, Rmin. destruct (Rle_dec (- x) (- y)), (Rle_dec x y); lra. Qed.
Lemma at_one b1 b2 : cdfnorm2 b1 b2 1 = Some (ndtr (Rmin b1 b2)).
Proof. rewrite at_near by (rewrite Rabs_R1; lra). rewrite Rabs_R1. rewrite (lt_false 1 1) by lra. rewrite (lt_true 0 1) by lra. cbv zeta. rewrite fi_ndtr, max_neg. f_equal. ring. Qed.
Lemma at_minus_one b1 b2 : cdfnorm2 b1 b2 (-1) = Some (Rmax 0 (ndtr b1 - ndtr (- b2))).
Proof.
  assert (G : forall r, r = - (1) -> cdfnorm2 b1 b2 r = Some (Rmax 0 (ndtr b1 - ndtr (- b2)))); [|apply G; ring].
  intros r E. assert (A : Rabs r = 1) by (subst r; rewrite Rabs_Ropp; apply Rabs_R1). rewrite at_near by (rewrite A; lra). rewrite A, (lt_false 1 1) by lra. rewrite (lt_false 0 r) by lra. cbv zeta. unfold turned. rewrite (lt_true r 0) by lra. rewrite !fi_ndtr, !Ropp_involutive. f_equal. ring.
Qed.

(* exchange of the variables *)
Lemma sumf_ext X W f g : (forall x w, f x w = g x w) -> signed X W f = signed X W g.
Proof. intros H. unfold signed. revert W. induction X as [|x X IH]; intros [|w W]; cbn; auto. rewrite !H. f_equal. apply IH. Qed.
Lemma moderate_sym h k r : moderate h k r = moderate k h r.
Proof.
  unfold moderate. destruct (rule r) as [X W]. rewrite (Rmult_comm (fi (- h))). f_equal. f_equal. apply sumf_ext. intros x w. rewrite (Rmult_comm h k), (Rplus_comm (h ^ 2)). reflexivity.
Qed.
Lemma raw_sym h k r : raw h k r = raw k h r.
Proof. unfold raw. rewrite (Rmult_comm h k), (Rabs_minus_sym h k). reflexivity. Qed.
Lemma raw_even h k r : raw h k (- r) = raw h k r.
Proof. unfold raw. replace ((1 - - r) * (1 + - r)) with ((1 - r) * (1 + r)) by ring. reflexivity. Qed.
Lemma raw_turn h k r : raw (- h) (- k) r = raw h k r.
Proof. unfold raw. replace (- h * - k) with (h * k) by ring. replace (Rabs (- h - - k)) with (Rabs (h - k)); [reflexivity|]. replace (- h - - k) with (- (h - k)) by ring. now rewrite Rabs_Ropp. Qed.
Lemma symmetric b1 b2 r : cdfnorm2 b1 b2 r = cdfnorm2 b2 b1 r.
Proof.
  destruct (Rlt_dec 1 (Rabs r)) as [A|A]; [now rewrite !at_invalid|]. destruct (Rlt_dec (Rabs r) (925 / 1000)) as [B|B].
  - rewrite !at_moderate by exact B. f_equal. apply moderate_sym.
  - rewrite !at_near by lra. f_equal. cbv zeta. unfold turned. destruct (Rlt_dec 0 r) as [C|C].
    + rewrite (lt_true 0 r) by exact C. rewrite (lt_false r 0) by lra. rewrite (raw_sym (- b1)), (Rmax_comm (- b1)). reflexivity.
    + assert (r < 0). { destruct (Req_dec r 0) as [->|]; [rewrite Rabs_R0 in *; lra|lra]. }
      rewrite (lt_false 0 r) by lra. rewrite (lt_true r 0) by assumption. rewrite !Ropp_involutive, !fi_ndtr. rewrite (raw_sym (- b1) b2 r). rewrite <- (raw_turn b2 (- b1)), Ropp_involutive. f_equal. f_equal. rewrite !ndtr_neg. ring.
Qed.

(* the marginal distributions *)
Lemma rule_minus r : Rabs r < 3 / 10 -> rule r = (X6, W6).
Proof. intros H. apply Rabs_def2 in H. unfold rule. destruct (Rle_dec _ r); [lra|]. destruct (Rle_dec _ r); [lra|reflexivity]. Qed.
Lemma split_moderate h k r : Rabs r < 3 / 10 -> moderate h k r + moderate h (- k) (- r) = ndtr (- h).
Proof.
  intros H. unfold moderate. rewrite (rule_minus r) by exact H. rewrite (rule_minus (- r)) by (rewrite Rabs_Ropp; exact H). rewrite asin_opp, !fi_ndtr.
  rewrite (sumf_ext _ _ (fun x w => w * integrand (h * - k) _ _) (fun x w => w * integrand (h * k) ((h ^ 2 + k ^ 2) / 2) (sin (asin r * (x + 1) / 2)))).
  2: { intros x w. f_equal. unfold integrand. replace (- asin r * (x + 1) / 2) with (- (asin r * (x + 1) / 2)) by field. rewrite sin_neg. f_equal. replace ((- k) ^ 2) with (k ^ 2) by ring. f_equal; [ring|f_equal; ring]. }
  rewrite (ndtr_neg (- k)), ndtr_neg. replace (- asin r / (2 * (2 * PI))) with (- (asin r / (2 * (2 * PI)))) by (field; pose proof PI_RGT_0; lra). rewrite !ndtr_neg. ring.
Qed.
Lemma split_near b1 b2 r : 925 / 1000 <= Rabs r <= 1 -> 0 < r -> value (cdfnorm2 b1 b2 r) + value (cdfnorm2 b1 (- b2) (- r)) = ndtr b1.
Proof.
  intros H P. rewrite (at_near b1 b2 r) by exact H. rewrite (at_near b1 (- b2) (- r)) by (rewrite Rabs_Ropp; exact H). cbn [value]. cbv zeta. rewrite Rabs_Ropp. unfold turned.
  rewrite (lt_true 0 r) by exact P. rewrite (lt_false r 0) by lra. rewrite (lt_false 0 (- r)) by lra. rewrite (lt_true (- r) 0) by lra.
  rewrite !Ropp_involutive, !fi_ndtr, raw_even, max_neg. set (v := if lt_ (Rabs r) 1 then _ else 0).
  assert (E : ndtr (Rmin b1 b2) + Rmax 0 (ndtr b1 - ndtr b2) = ndtr b1); [|lra].
  unfold Rmin. destruct (Rle_dec b1 b2) as [A|A].
  - rewrite Rmax_left; [lra|]. destruct A as [A|A]; [apply ndtr_increasing in A; lra|subst; lra].
  - rewrite Rmax_right; [lra|]. apply Rnot_le_lt, ndtr_increasing in A. lra.
Qed.
Lemma split_x b1 b2 r : covered r -> value (cdfnorm2 b1 b2 r) + value (cdfnorm2 b1 (- b2) (- r)) = ndtr b1.
Proof.
  intros [H|H].
  - rewrite (at_moderate b1 b2 r), (at_moderate b1 (- b2) (- r)) by (rewrite ?Rabs_Ropp; lra). cbn [value]. pose proof (split_moderate (- b1) (- b2) r H) as E. rewrite !Ropp_involutive in *. exact E.
  - destruct (Rlt_dec 0 r) as [P|P]; [now apply split_near|].
    assert (r < 0). { destruct (Req_dec r 0) as [->|]; [rewrite Rabs_R0 in *; lra|lra]. }
    pose proof (split_near b1 (- b2) (- r)) as E. rewrite Rabs_Ropp in E. specialize (E H ltac:(lra)). rewrite !Ropp_involutive in E. lra.
Qed.
Lemma split_both r : covered r -> marginals (fun x y r => value (cdfnorm2 x y r)) r.
Proof.
  intros H x y. split; [now apply split_x|]. rewrite (symmetric x y), (symmetric (- x) y). now apply split_x.
Qed.

(* the sign of the correlation *)
Lemma signed_pos X W f : X <> [] -> List.length X = List.length W -> (forall x w, In w W -> 0 < f x w) -> 0 < signed X W f.
Proof.
  intros N L H. unfold signed. revert W L H. induction X as [|x X IH]; intros [|w W] L H; try easy. change (0 < (f (- x) w + f x w) + sumf (map2 (fun x0 w0 : R => f (- x0) w0 + f x0 w0) X W)). assert (0 < f (- x) w + f x w) by (pose proof (H (- x) w (or_introl eq_refl)); pose proof (H x w (or_introl eq_refl)); lra).
  destruct X as [|x' X]; [destruct W; [cbn; lra|cbn in L; lia]|]. assert (0 < sumf (map2 (fun x0 w0 : R => f (- x0) w0 + f x0 w0) (x' :: X) W)); [|lra]. apply IH; [discriminate|cbn in *; lia|]. intros a b I. apply H. now right.
Qed.
Lemma rule_ok r : let '(X, W) := rule r in X <> [] /\ List.length X = List.length W /\ forall w, In w W -> 0 < w.
Proof.
  unfold rule. destruct (Rle_dec _ r); [|destruct (Rle_dec _ r)]; (split; [easy|split; [reflexivity|]]); cbn; intros w I; repeat (destruct I as [<-|I]; [lra|]); destruct I.
Qed.
Lemma asin_sign r : Rabs r < 1 -> (0 < r -> 0 < asin r) /\ (r < 0 -> asin r < 0).
Proof.
  intros H. apply Rabs_def2 in H. assert (P : forall s, 0 < s < 1 -> 0 < asin s). { intros s S. pose proof (asin_bound s) as B. pose proof PI_RGT_0. destruct (Rlt_dec 0 (asin s)) as [A|A]; [exact A|]. pose proof (sin_incr_1 (asin s) 0 ltac:(lra) ltac:(lra) ltac:(lra) ltac:(lra) ltac:(lra)) as C. rewrite sin_0, sin_asin in C by lra. lra. }
  split; intros A; [apply P; lra|]. pose proof (P (- r) ltac:(lra)). rewrite asin_opp in *. lra.
Qed.
Lemma dependence b1 b2 r : Rabs r < 925 / 1000 ->
  (0 < r -> ndtr b1 * ndtr b2 < value (cdfnorm2 b1 b2 r)) /\ (r < 0 -> value (cdfnorm2 b1 b2 r) < ndtr b1 * ndtr b2).
Proof.
  intros H. rewrite at_moderate by exact H. cbn [value]. unfold moderate. pose proof (rule_ok r) as K. destruct (rule r) as [X W]. destruct K as (N & L & P). rewrite !fi_ndtr, !Ropp_involutive.
  set (s := signed _ _ _). assert (S : 0 < s). { apply signed_pos; [exact N|exact L|]. intros x w I. apply Rmult_lt_0_compat; [now apply P|apply exp_pos]. }
  pose proof PI_RGT_0. destruct (asin_sign r ltac:(lra)) as [Q1 Q2].
  split; intros A; [specialize (Q1 A)|specialize (Q2 A)].
  - assert (0 < s * (asin r / (2 * (2 * PI)))); [|lra]. apply Rmult_lt_0_compat; [exact S|]. apply Rdiv_lt_0_compat; lra.
  - assert (0 < s * - (asin r / (2 * (2 * PI)))); [|lra]. apply Rmult_lt_0_compat; [exact S|]. replace (- (asin r / (2 * (2 * PI)))) with (- asin r / (2 * (2 * PI))) by (field; lra). apply Rdiv_lt_0_compat; lra.
Qed.
