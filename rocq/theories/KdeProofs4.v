(* kernel regression *)
From Coq Require Import Reals Lra Lia Psatz.
From Verif Require Import Base PolyModel OrthoModel OrthoProofs FilterProofs3 GridSpec GridModel GridProofs GridProofs3 GridProofs4 GridProofs5 GridProofs6 KdeModel KdeSpec KdeProofs2.
Local Open Scope R_scope.

Definition S_ (w X : list R) (x : R) (r : nat) : R := sumR (map (fun p => fst p * (x - snd p) ^ r) (combine w X)).
Definition T_ (w X y : list R) (x : R) (r : nat) : R := sumR (map (fun p => let '(wi, (Xi, yi)) := p in wi * yi * (x - Xi) ^ r) (combine w (combine X y))).
Lemma estimate_T kern c h X x r : forall lam y, List.length lam = List.length X -> List.length y = List.length X ->
  estimate_1d kern c h X lam y r x = T_ (local_weights kern h X lam x) X y x r / (INR (List.length X) * c).
Proof.
  intros lam y Hl Hy. unfold estimate_1d. f_equal. unfold T_, local_weights. revert lam y Hl Hy. induction X as [|a X IH]; intros [|l lam] [|b y] Hl Hy; try discriminate; [reflexivity|].
  cbn [combine map fst snd]. unfold sumR in *. cbn [fold_right]. rewrite IH by (cbn in *; lia). f_equal. ring.
Qed.
Lemma T_ones w X x r : List.length w = List.length X -> T_ w X (repeat 1 (List.length X)) x r = S_ w X x r.
Proof.
  unfold T_, S_. revert w. induction X as [|a X IH]; intros [|b w] H; try discriminate; [reflexivity|]. cbn [List.length repeat combine map fst snd]. unfold sumR in *. cbn [fold_right].
  rewrite IH by (cbn in *; lia). f_equal. ring.
Qed.
Lemma weights_length kern h X lam x : List.length lam = List.length X -> List.length (local_weights kern h X lam x) = List.length X.
Proof. intros H. unfold local_weights. rewrite map_length, combine_length. lia. Qed.
Lemma weights_nonneg kern h X lam x : 0 < h -> (forall l, In l lam -> 0 < l) -> (forall t, 0 <= kern t) -> forall v, In v (local_weights kern h X lam x) -> 0 <= v.
Proof.
  intros Hh Hl Hk v Hin. apply in_map_iff in Hin as ([a l] & <- & Hin). cbn [fst snd]. apply in_combine_r in Hin. apply Hl in Hin.
  apply Rmult_le_pos; [|apply Hk]. left. apply Rinv_0_lt_compat. nra.
Qed.
(* the weighted squared error as a quadratic function *)
Lemma error_quadratic w X y x al be al0 be0 : List.length w = List.length X -> List.length y = List.length X ->
  weighted_error w X y x al be - weighted_error w X y x al0 be0 =
  sumR (map (fun p => fst p * ((al - al0) - (be - be0) * (x - snd p)) ^ 2) (combine w X))
  + 2 * ((al0 - al) * (T_ w X y x 0 - al0 * S_ w X x 0 + be0 * S_ w X x 1) - (be0 - be) * (T_ w X y x 1 - al0 * S_ w X x 1 + be0 * S_ w X x 2)).
Proof.
  unfold weighted_error, T_, S_. revert w y. induction X as [|a X IH]; intros [|b w] [|v y] Hw Hy; try discriminate; [unfold sumR; cbn; ring|].
  specialize (IH w y ltac:(cbn in *; lia) ltac:(cbn in *; lia)). cbn [combine map fst snd]. unfold sumR in *. cbn [fold_right].
  match type of IH with ?A - ?B = ?C + 2 * (_ * (?D - _ * ?E + _ * ?F) - _ * (?G - _ * _ + _ * ?H)) => set (vA := A) in *; set (vB := B) in *; set (vC := C) in *; set (vD := D) in *; set (vE := E) in *; set (vF := F) in *; set (vG := G) in *; set (vH := H) in * end.
  replace vA with (vB + (vC + 2 * ((al0 - al) * (vD - al0 * vE + be0 * vF) - (be0 - be) * (vG - al0 * vF + be0 * vH)))) by lra. ring.
Qed.
Lemma det_positive w X x : List.length w = List.length X -> (forall v, In v w -> 0 <= v) -> two_data w X -> 0 < S_ w X x 2 * S_ w X x 0 - S_ w X x 1 ^ 2.
Proof.
  intros Hw Hn (i & j & Hi & Hj & Hne & Hwi & Hwj).
  assert (Pos : forall f : R -> R, (forall t, 0 <= f t) -> forall k, (k < List.length X)%nat -> 0 < nth k w 0 -> 0 < f (nth k X 0) -> 0 < sumR (map (fun p => fst p * f (snd p)) (combine w X))).
  { intros f Hf. clear - Hw Hn Hf. revert w Hw Hn. induction X as [|a X IH]; intros [|b w] Hw Hn k Hk Hwk Hfk; try discriminate; [cbn in Hk; lia|].
    cbn [combine map fst snd]. unfold sumR in *. cbn [fold_right].
    assert (Rest : 0 <= fold_right Rplus 0 (map (fun p => fst p * f (snd p)) (combine w X))).
    { assert (forall p, In p (combine w X) -> 0 <= fst p * f (snd p)). { intros [u v] Hin. cbn. apply Rmult_le_pos; [apply Hn; right; now apply in_combine_l in Hin|apply Hf]. }
      clear - H. induction (combine w X) as [|p l IHl]; cbn; [lra|]. pose proof (H p (or_introl eq_refl)). assert (0 <= fold_right Rplus 0 (map (fun p => fst p * f (snd p)) l)) by (apply IHl; intros; apply H; now right). lra. }
    destruct k as [|k]; cbn [nth] in *.
    - assert (0 < b * f a) by (apply Rmult_lt_0_compat; easy). lra.
    - assert (0 <= b * f a) by (apply Rmult_le_pos; [apply Hn; now left|apply Hf]).
      assert (0 < fold_right Rplus 0 (map (fun p => fst p * f (snd p)) (combine w X))) by (apply (IH w ltac:(cbn in Hw; lia) ltac:(intros; apply Hn; now right) k); [cbn in Hk; lia|easy|easy]). lra. }
  assert (S0 : 0 < S_ w X x 0). { unfold S_. apply (Pos (fun t => (x - t) ^ 0)) with i; cbn; intros; try lra; easy. }
  set (m := S_ w X x 1 / S_ w X x 0).
  assert (V : sumR (map (fun p => fst p * (x - snd p - m) ^ 2) (combine w X)) = S_ w X x 2 - 2 * m * S_ w X x 1 + m ^ 2 * S_ w X x 0).
  { unfold S_. clear. generalize m. intros m0. induction (combine w X) as [|p l IH]; unfold sumR in *; cbn [map fold_right]; [ring|]. rewrite IH. ring. }
  assert (P : 0 < sumR (map (fun p => fst p * (x - snd p - m) ^ 2) (combine w X))).
  { destruct (Req_dec (x - nth i X 0) m) as [E|E].
    - apply (Pos (fun t => (x - t - m) ^ 2)) with j; try easy; [intros; apply pow2_ge_0|]. rewrite <- Rsqr_pow2. apply Rsqr_pos_lt. intros E2. apply Hne. lra.
    - apply (Pos (fun t => (x - t - m) ^ 2)) with i; try easy; [intros; apply pow2_ge_0|]. rewrite <- Rsqr_pow2. apply Rsqr_pos_lt. intros E2. apply E. lra. }
  rewrite V in P. apply Rmult_lt_compat_r with (r := S_ w X x 0) in P; [|easy].
  replace ((S_ w X x 2 - 2 * m * S_ w X x 1 + m ^ 2 * S_ w X x 0) * S_ w X x 0) with (S_ w X x 2 * S_ w X x 0 - S_ w X x 1 ^ 2) in P; [lra|]. unfold m. field. lra.
Qed.
Lemma error_nonneg w X a b x : (forall v, In v w -> 0 <= v) -> 0 <= sumR (map (fun p : R * R => fst p * (a - b * (x - snd p)) ^ 2) (combine w X)).
Proof.
  intros Hn. assert (H : forall p, In p (combine w X) -> 0 <= fst p * (a - b * (x - snd p)) ^ 2). { intros [u v] Hin. cbn [fst snd]. apply Rmult_le_pos; [apply Hn; now apply in_combine_l in Hin|apply pow2_ge_0]. }
  clear Hn. induction (combine w X) as [|p l IH]; unfold sumR in *; cbn [map fold_right]; [lra|]. pose proof (H p (or_introl eq_refl)). assert (0 <= fold_right Rplus 0 (map (fun p => fst p * (a - b * (x - snd p)) ^ 2) l)) by (apply IH; intros; apply H; now right). lra.
Qed.
(* the values the model computes *)
Lemma estimates kern c h X lam y xs r : h <> 0 -> c <> 0 -> X <> [] -> List.length lam = List.length X -> List.length y = List.length X -> (forall l, In l lam -> l <> 0) ->
  eval_points (kde_1d kern c h X lam) (map (fun v => [v]) xs) y r = Ok (map (estimate_1d kern c h X lam y r) xs).
Proof.
  intros Hh Hc HX Hl Hy Hn. rewrite eval_points_value.
  - f_equal. rewrite map_map. apply map_ext. intros x. now apply estimate_1d_spec.
  - cbn. now rewrite map_length.
  - cbn. now rewrite map_length.
  - intros p Hp. apply in_map_iff in Hp as (v & <- & _). reflexivity.
Qed.
Lemma at_map_list (f : R -> R) xs i : (i < List.length xs)%nat -> at_R (map f xs) i = f (nth i xs 0).
Proof. intros H. unfold at_R. rewrite <- (map_nth f). apply nth_indep. now rewrite map_length. Qed.
Lemma kreg1_value kern c h X lam y xs tiny : h <> 0 -> c <> 0 -> X <> [] -> List.length lam = List.length X -> List.length y = List.length X -> (forall l, In l lam -> l <> 0) ->
  exists out, kregression tiny 1 (kde_1d kern c h X lam) y xs = Ok out /\ List.length out = List.length xs /\
  forall i, (i < List.length xs)%nat -> let x := nth i xs 0 in let w := local_weights kern h X lam x in
    S_ w X x 2 * S_ w X x 0 - S_ w X x 1 ^ 2 <> 0 ->
    nth i out 0 = (S_ w X x 2 * T_ w X y x 0 - S_ w X x 1 * T_ w X y x 1) / (S_ w X x 2 * S_ w X x 0 - S_ w X x 1 ^ 2).
Proof.
  intros Hh Hc HX Hl Hy Hn. unfold kregression. cbn [dataset kde_1d]. rewrite map_length. fold (kde_1d kern c h X lam).
  rewrite !estimates by (try assumption; now rewrite repeat_length). cbn [bind]. eexists. split; [reflexivity|]. split; [now rewrite map_length, seq_length|].
  intros i Hi Hdet. set (x := nth i xs 0) in *. set (w := local_weights kern h X lam x) in *. rewrite at_map_nth by easy. rewrite !at_map_list by easy. fold x. rewrite !estimate_T by (try assumption; now rewrite repeat_length). fold w.
  rewrite !T_ones by now apply weights_length. unfold kreg1. assert (HN : INR (List.length X) <> 0) by (destruct X; [easy|apply not_0_INR; discriminate]).
  set (N := INR (List.length X) * c). assert (N <> 0) by (unfold N; now apply Rmult_integral_contrapositive_currified). field. split; [|easy]. intros E. apply Hdet. lra.
Qed.
Lemma kreg1_least_squares kern c h X lam y xs tiny : 0 < h -> c <> 0 -> X <> [] -> List.length lam = List.length X -> List.length y = List.length X -> (forall l, In l lam -> 0 < l) -> (forall t, 0 <= kern t) ->
  exists out, kregression tiny 1 (kde_1d kern c h X lam) y xs = Ok out /\ List.length out = List.length xs /\
  forall i, (i < List.length xs)%nat -> let x := nth i xs 0 in let w := local_weights kern h X lam x in two_data w X ->
    exists slope, forall alpha beta, weighted_error w X y x (nth i out 0) slope <= weighted_error w X y x alpha beta.
Proof.
  intros Hh Hc HX Hl Hy Hlam Hk. destruct (kreg1_value kern c h X lam y xs tiny) as (out & E & L & V); try assumption; try lra. { intros l Hin. apply Hlam in Hin. lra. }
  exists out. split; [exact E|]. split; [exact L|]. intros i Hi x w Htwo. specialize (V i Hi). cbv zeta in V. fold x in V. fold w in V.
  assert (Hw : List.length w = List.length X) by now apply weights_length. assert (Wn : forall v, In v w -> 0 <= v) by now apply weights_nonneg.
  pose proof (det_positive w X x Hw Wn Htwo) as D. rewrite V by lra. clear V.
  set (s0 := S_ w X x 0) in *. set (s1 := S_ w X x 1) in *. set (s2 := S_ w X x 2) in *. set (t0 := T_ w X y x 0). set (t1 := T_ w X y x 1).
  exists ((s1 * t0 - s0 * t1) / (s2 * s0 - s1 ^ 2)). intros al be.
  pose proof (error_quadratic w X y x al be ((s2 * t0 - s1 * t1) / (s2 * s0 - s1 ^ 2)) ((s1 * t0 - s0 * t1) / (s2 * s0 - s1 ^ 2)) Hw Hy) as Q. fold s0 s1 s2 t0 t1 in Q.
  replace (t0 - (s2 * t0 - s1 * t1) / (s2 * s0 - s1 ^ 2) * s0 + (s1 * t0 - s0 * t1) / (s2 * s0 - s1 ^ 2) * s1) with 0 in Q by (field; lra).
  replace (t1 - (s2 * t0 - s1 * t1) / (s2 * s0 - s1 ^ 2) * s1 + (s1 * t0 - s0 * t1) / (s2 * s0 - s1 ^ 2) * s2) with 0 in Q by (field; lra).
  match type of Q with _ - _ = ?A + _ => assert (0 <= A) by now apply error_nonneg end. lra.
Qed.
Lemma T_line w X x a b r : List.length w = List.length X -> T_ w X (map (fun v => a + b * v) X) x r = (a + b * x) * S_ w X x r - b * S_ w X x (S r).
Proof.
  unfold T_, S_. revert w. induction X as [|v X IH]; intros [|u w] H; try discriminate; [unfold sumR; cbn; ring|]. cbn [combine map fst snd]. unfold sumR in *. cbn [fold_right].
  rewrite IH by (cbn in H; lia). cbn [pow]. ring.
Qed.
Lemma kreg1_line kern c h X lam a b xs tiny : 0 < h -> c <> 0 -> X <> [] -> List.length lam = List.length X -> (forall l, In l lam -> 0 < l) -> (forall t, 0 <= kern t) ->
  exists out, kregression tiny 1 (kde_1d kern c h X lam) (map (fun v => a + b * v) X) xs = Ok out /\ List.length out = List.length xs /\
  forall i, (i < List.length xs)%nat -> two_data (local_weights kern h X lam (nth i xs 0)) X -> nth i out 0 = a + b * nth i xs 0.
Proof.
  intros Hh Hc HX Hl Hlam Hk. destruct (kreg1_value kern c h X lam (map (fun v => a + b * v) X) xs tiny) as (out & E & L & V); try assumption; try lra. { now rewrite map_length. } { intros l Hin. apply Hlam in Hin. lra. }
  exists out. split; [exact E|]. split; [exact L|]. intros i Hi Htwo. specialize (V i Hi). cbv zeta in V. set (x := nth i xs 0) in *. set (w := local_weights kern h X lam x) in *.
  assert (Hw : List.length w = List.length X) by now apply weights_length. assert (Wn : forall v, In v w -> 0 <= v) by now apply weights_nonneg.
  pose proof (det_positive w X x Hw Wn Htwo) as D. rewrite V by lra. rewrite !T_line by easy. field. lra.
Qed.
Lemma kreg0_range kern c h X lam y xs tiny lo up : 0 < h -> 0 < c -> 0 < tiny -> X <> [] -> List.length lam = List.length X -> List.length y = List.length X -> (forall l, In l lam -> 0 < l) -> (forall t, 0 <= kern t) ->
  lo <= 0 <= up -> (forall v, In v y -> lo <= v <= up) ->
  exists out, kregression tiny 0 (kde_1d kern c h X lam) y xs = Ok out /\ List.length out = List.length xs /\ forall i, (i < List.length xs)%nat -> lo <= nth i out 0 <= up.
Proof.
  intros Hh Hc Ht HX Hl Hy Hlam Hk Hb Hv. unfold kregression. cbn [dataset kde_1d]. rewrite map_length. fold (kde_1d kern c h X lam).
  assert (Hn : forall l, In l lam -> l <> 0) by (intros l Hin; apply Hlam in Hin; lra).
  rewrite !estimates by (try assumption; try lra; now rewrite repeat_length). cbn [bind]. eexists. split; [reflexivity|]. rewrite combine_same. split; [now rewrite !map_length|].
  intros i Hi. rewrite map_map. cbn [fst snd]. rewrite (nth_indep _ 0 (kreg0 tiny (estimate_1d kern c h X lam (repeat 1 (List.length X)) 0 0) (estimate_1d kern c h X lam y 0 0))) by now rewrite map_length.
  rewrite (map_nth (fun x => kreg0 tiny (estimate_1d kern c h X lam (repeat 1 (List.length X)) 0 x) (estimate_1d kern c h X lam y 0 x))). set (x := nth i xs 0).
  rewrite !estimate_T by (try assumption; now rewrite repeat_length). set (w := local_weights kern h X lam x). rewrite T_ones by now apply weights_length.
  assert (Hw : List.length w = List.length X) by now apply weights_length. assert (Wn : forall v, In v w -> 0 <= v) by now apply weights_nonneg.
  assert (B : 0 <= S_ w X x 0 /\ lo * S_ w X x 0 <= T_ w X y x 0 <= up * S_ w X x 0).
  { unfold S_, T_. clear - Hw Wn Hy Hv. clearbody x w. revert w y Hw Wn Hy Hv. induction X as [|a X IH]; intros [|u w] [|v y] Hw Wn Hy Hv; try discriminate; [unfold sumR; cbn; lra|].
    specialize (IH w y ltac:(cbn in *; lia) ltac:(intros; apply Wn; now right) ltac:(cbn in *; lia) ltac:(intros; apply Hv; now right)). cbn [combine map fst snd]. unfold sumR in *. cbn [fold_right pow].
    pose proof (Wn u (or_introl eq_refl)). pose proof (Hv v (or_introl eq_refl)). rewrite !Rmult_1_r. assert (u * lo <= u * v) by (apply Rmult_le_compat_l; lra). assert (u * v <= u * up) by (apply Rmult_le_compat_l; lra). unfold pow in IH. repeat split; lra. }
  assert (HN : 0 < INR (List.length X) * c) by (apply Rmult_lt_0_compat; [destruct X; [easy|apply lt_0_INR; cbn; lia]|easy]).
  set (N := INR (List.length X) * c) in *. unfold kreg0. set (s := S_ w X x 0) in *. set (t := T_ w X y x 0) in *.
  assert (Hs : 0 <= s / N) by (apply Rmult_le_pos; [lra|left; now apply Rinv_0_lt_compat]).
  assert (Hlo : lo * (s / N) <= t / N) by (unfold Rdiv; rewrite <- Rmult_assoc; apply Rmult_le_compat_r; [left; now apply Rinv_0_lt_compat|lra]).
  assert (Hup : t / N <= up * (s / N)) by (unfold Rdiv; rewrite <- Rmult_assoc; apply Rmult_le_compat_r; [left; now apply Rinv_0_lt_compat|lra]).
  set (u := s / N) in *. set (v := t / N) in *. replace v with ((v / (u + tiny)) * (u + tiny)) in Hlo, Hup by (field; lra). set (z := v / (u + tiny)) in *.
  split; apply Rnot_lt_le; intros Hz; nra.
Qed.
