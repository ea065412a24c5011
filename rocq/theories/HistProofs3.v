(* The histogram: values, total, density and the caller's array. *)
From Coq Require Import Reals List ZArith Lra Lia Bool.
From Verif Require Import Base KdeModel ProcModel ProcProofs HistModel HistSpec HistProofs2.
Import ListNotations.
Local Open Scope R_scope.

Definition weights_of (x : list R) (w : option (list R)) : list R := match w with Some w => w | None => repeat 1 (List.length x) end.
Lemma ok_inj {A} (a b : A) : Ok a = Ok b -> a = b. Proof. congruence. Qed.
Lemma bin_length e x w : List.length (bin_weights e x w) = (List.length e - 1)%nat. Proof. unfold bin_weights. now rewrite map_length, seq_length. Qed.
Lemma bin_nth e x w i : List.length x = List.length w -> (i + 1 < List.length e)%nat -> weight_of (in_bin e i) x w (nth i (bin_weights e x w) 0).
Proof.
  intros L H. unfold bin_weights. set (f := fun i => npsum (map snd (filter (fun p => in_bin_b e i (fst p)) (combine x w)))).
  rewrite nth_indep with (d' := f 0%nat) by (rewrite map_length, seq_length; lia). rewrite (map_nth f), seq_nth by lia. cbn [Nat.add]. unfold f. apply weight_filter; [|exact L]. intros y. apply in_bin_iff.
Qed.
(* which edges *)
Lemma edges_of x b range e : edges b range x = Ok e -> e <> [] \/ (b = Sequence [] \/ b = Array []).
Proof.
  destruct b as [|n|l|l|l]; cbn [edges]; try discriminate.
  - destruct (n <? 1)%Z; [discriminate|]. destruct (outer_edges range x) as [[a b]|]; [|discriminate]. cbn [bind]. intros H. apply ok_inj in H. left. intros ->. assert (Q := f_equal (@List.length R) H). rewrite linspace_length in Q. cbn in Q. lia.
  - destruct (monotonic l); [|discriminate]. intros H. apply ok_inj in H. subst l. destruct e; [right; left; reflexivity|left; discriminate].
  - destruct (monotonic l); [|discriminate]. intros H. apply ok_inj in H. subst l. destruct e; [right; right; reflexivity|left; discriminate].
Qed.
Lemma histogram_values x b range w xx yy e b' : histogram x b range false w = Ok (xx, yy, e, b') -> e <> [] ->
  exists h, (List.length h + 1 = List.length e)%nat /\ (xx, yy) = make_bars e (map Some h) /\ (forall i, (i < List.length h)%nat -> weight_of (in_bin e i) x (weights_of x w) (nth i h 0)).
Proof.
  unfold histogram, np_histogram. fold (weights_of x w). destruct (Nat.eqb_spec (List.length (weights_of x w)) (List.length x)) as [L|L]; cbn [negb]; [|discriminate].
  destruct (edges _ range x) as [e0|] eqn:E; [|discriminate]. cbn [bind]. intros H N. destruct (make_bars e0 _) as [xx0 yy0] eqn:MB. apply ok_inj in H. assert (Q1 : e0 = e) by congruence. subst e0.
  exists (bin_weights e x (weights_of x w)). rewrite bin_length. split; [destruct e; [contradiction|cbn; lia]|]. split; [rewrite MB; congruence|]. intros i Hi. apply bin_nth; [symmetry; exact L|lia].
Qed.
Lemma weight_add P Q : (forall x, ~ (P x /\ Q x)) -> forall X W s t, weight_of P X W s -> weight_of Q X W t -> weight_of (fun x => P x \/ Q x) X W (s + t).
Proof.
  intros D X W s t A. revert t. induction A as [|x w X W s p A IH|x w X W s p A IH]; intros t B; inversion B as [|? ? ? ? u q B'|? ? ? ? u q B']; subst.
  - replace (0 + 0) with 0 by ring. constructor.
  - exfalso. apply (D x). split; assumption.
  - replace (w + s + t) with (w + (s + t)) by ring. apply w_in; [left; assumption|]. apply IH. assumption.
  - replace (s + (w + u)) with (w + (s + u)) by ring. apply w_in; [right; assumption|]. apply IH. assumption.
  - apply w_out; [intros [?|?]; contradiction|]. apply IH. assumption.
Qed.
Lemma weight_ext P Q : (forall x, P x <-> Q x) -> forall X W s, weight_of P X W s -> weight_of Q X W s.
Proof. intros H X W s A. induction A; [constructor|apply w_in; [apply H; assumption|assumption]|apply w_out; [intros C; apply H in C; contradiction|assumption]]. Qed.
Lemma weight_none P X W : (forall x, ~ P x) -> List.length X = List.length W -> weight_of P X W 0.
Proof. intros H. revert W. induction X as [|x X IH]; intros [|w W] L; try discriminate; [constructor|]. apply w_out; [apply H|]. apply IH. cbn in L. lia. Qed.
Lemma total_snoc l a : total (l ++ [a]) = total l + a. Proof. unfold total. induction l as [|b l IH]; cbn [app fold_right]; [ring|rewrite IH; ring]. Qed.
Lemma total_weight e X W : ascending e -> List.length X = List.length W -> forall h, (List.length h + 1 = List.length e)%nat -> (forall i, (i < List.length h)%nat -> weight_of (in_bin e i) X W (nth i h 0)) ->
  forall k, (k <= List.length h)%nat -> weight_of (fun x => exists i, (i < k)%nat /\ in_bin e i x) X W (total (firstn k h)).
Proof.
  intros A L h Lh H k. induction k as [|k IH]; intros Hk.
  - cbn [firstn total fold_right]. apply weight_none; [intros x [i [C _]]; lia|exact L].
  - assert (F : firstn (S k) h = firstn k h ++ [nth k h 0]).
    { clear - Hk. revert h Hk. induction k as [|k IH]; intros [|a h] Hk; cbn in Hk; try lia; [reflexivity|]. cbn [nth]. change (firstn (S (S k)) (a :: h)) with (a :: firstn (S k) h). rewrite IH by lia. reflexivity. }
    rewrite F, total_snoc. apply weight_ext with (P := fun x => (exists i, (i < k)%nat /\ in_bin e i x) \/ in_bin e k x).
    + intros x. split; [intros [[i [Hi B]]|B]; [exists i; split; [lia|exact B]|exists k; split; [lia|exact B]]|].
      intros [i [Hi B]]. destruct (Nat.eq_dec i k) as [->|N]; [right; exact B|left; exists i; split; [lia|exact B]].
    + apply weight_add; [|apply IH; lia|apply H; lia]. intros x [[i [Hi B]] C]. apply (disjoint e x i k A Hi ltac:(lia) B C).
Qed.
Lemma total_range e X W h : ascending e -> (2 <= List.length e)%nat -> List.length X = List.length W -> (List.length h + 1 = List.length e)%nat -> (forall i, (i < List.length h)%nat -> weight_of (in_bin e i) X W (nth i h 0)) ->
  weight_of (fun x => nth 0 e 0 <= x <= last e 0) X W (total h).
Proof.
  intros A L2 L Lh H. pose proof (total_weight e X W A L h Lh H (List.length h) ltac:(lia)) as T. rewrite firstn_all in T. revert T. apply weight_ext. intros x. rewrite <- (one_bin e x A L2). split; intros [i [Hi B]]; exists i; split; try exact B; lia.
Qed.
Lemma edges_ascending x b range e : edges b range x = Ok e -> ascending e.
Proof.
  destruct b as [|n|l|l|l]; cbn [edges]; try discriminate.
  - destruct (Z.ltb_spec n 1) as [|N]; [discriminate|]. destruct (outer_edges range x) as [[a b]|] eqn:O; [|discriminate]. cbn [bind]. intros H. apply ok_inj in H. rewrite <- H. apply strictly_ascending, linspace_strictly; [|lia].
    unfold outer_edges in O. destruct (match range, x with Some (a, b), _ => _ | None, [] => _ | None, _ => _ end) as [[a0 b0]|] eqn:Q; [|discriminate]. cbn [bind] in O.
    assert (LE : a0 <= b0). { destruct range as [[a1 b1]|]; [destruct (Rlt_dec b1 a1); [discriminate|]; apply ok_inj in Q; replace a0 with a1 by congruence; replace b0 with b1 by congruence; lra|]. destruct x as [|x0 x]; apply ok_inj in Q; [replace a0 with 0 by congruence; replace b0 with 1 by congruence; lra|].
      replace a0 with (minR (x0 :: x)) by congruence. replace b0 with (maxR (x0 :: x)) by congruence. destruct (minR_spec (x0 :: x)) as [I _]; [discriminate|]. destruct (maxR_spec (x0 :: x)) as [_ M]; [discriminate|]. apply M, I. }
    destruct (Req_EM_T a0 b0) as [E|E]; apply ok_inj in O; [replace a with (a0 - 1 / 2) by congruence; replace b with (b0 + 1 / 2) by congruence; lra|replace a with a0 by congruence; replace b with b0 by congruence; lra].
  - destruct (monotonic l) eqn:M; [|discriminate]. intros H. apply ok_inj in H. subst. apply monotonic_spec. exact M.
  - destruct (monotonic l) eqn:M; [|discriminate]. intros H. apply ok_inj in H. subst. apply monotonic_spec. exact M.
Qed.
Definition plain (b : bins) (x : list R) : bins := match b with Default => Number (number_of_bins (List.length x)) | _ => b end.
Lemma histogram_ok x b range d w xx yy e b' : histogram x b range d w = Ok (xx, yy, e, b') -> edges (plain b x) range x = Ok e /\ List.length (weights_of x w) = List.length x /\ b' = (match b with Array e => Column e | _ => b end).
Proof.
  unfold histogram, np_histogram. fold (weights_of x w) (plain b x). destruct (Nat.eqb_spec (List.length (weights_of x w)) (List.length x)) as [L|L]; cbn [negb]; [|discriminate].
  destruct (edges _ range x) as [e0|] eqn:E; [|discriminate]. cbn [bind]. intros H. destruct (make_bars e0 _) as [xx0 yy0]. apply ok_inj in H. split; [congruence|]. split; [exact L|congruence].
Qed.
Lemma polygon_bars e h xx yy : (2 <= List.length e)%nat -> (List.length h + 1 = List.length e)%nat -> (xx, yy) = make_bars e (map Some h) -> polygon e h xx yy.
Proof.
  intros L2 Lh MB. assert (N : e <> []) by (intros ->; cbn in L2; lia). split; [exact Lh|]. pose proof (bars_points e (map Some h) N ltac:(rewrite map_length; exact Lh)) as B. rewrite <- MB in B. rewrite map_length in B. destruct B as [B1 [B2 [B3 [B4 B5]]]]. split; [exact B1|]. split; [exact B2|]. split; [|split; [exact B4|exact B5]].
  intros i Hi. destruct (B3 i Hi) as [C1 [C2 [C3 [C4 [C5 C6]]]]]. assert (NI : nth i (map Some h) None = Some (nth i h 0)) by (rewrite nth_indep with (d' := Some 0) by (rewrite map_length; exact Hi); apply map_nth).
  rewrite NI in C4, C6. repeat split; assumption.
Qed.
Lemma histogram_counts x b range w xx yy e b' : histogram x b range false w = Ok (xx, yy, e, b') -> (2 <= List.length e)%nat -> let W := match w with Some w => w | None => repeat 1 (List.length x) end in
  exists h, polygon e h xx yy /\ (forall i, (i < List.length h)%nat -> weight_of (in_bin e i) x W (nth i h 0)) /\ ascending e /\ weight_of (fun v => nth 0 e 0 <= v <= last e 0) x W (total h).
Proof.
  intros H L2 W. assert (N : e <> []) by (intros ->; cbn in L2; lia). destruct (histogram_values _ _ _ _ _ _ _ _ H N) as [h [Lh [MB HV]]]. fold (weights_of x w) in W. destruct (histogram_ok _ _ _ _ _ _ _ _ _ H) as [E [LW _]].
  assert (A := edges_ascending _ _ _ _ E). exists h. split; [apply polygon_bars; assumption|]. split; [exact HV|]. split; [exact A|]. apply total_range; try assumption. symmetry; exact LW.
Qed.
Lemma histogram_density x b range w xx yy e b' s : histogram x b range true w = Ok (xx, yy, e, b') -> strictly e -> (2 <= List.length e)%nat ->
  weight_of (fun v => nth 0 e 0 <= v <= last e 0) x (match w with Some w => w | None => repeat 1 (List.length x) end) s -> s <> 0 ->
  exists h y, polygon e h xx yy /\ yy = map Some y /\ area xx y = 1 /\
   forall i, (i < List.length h)%nat -> weight_of (in_bin e i) x (match w with Some w => w | None => repeat 1 (List.length x) end) (nth i h 0 * (nth (i + 1) e 0 - nth i e 0) * s).
Proof.
  intros H ST L2 TS S0. fold (weights_of x w) in *. destruct (histogram_ok _ _ _ _ _ _ _ _ _ H) as [E [LW _]]. revert H. unfold histogram, np_histogram. fold (weights_of x w) (plain b x). rewrite LW, Nat.eqb_refl, E. cbn [negb bind]. set (n := bin_weights e x (weights_of x w)).
  assert (Ln : (List.length n + 1 = List.length e)%nat) by (unfold n; rewrite bin_length; lia). assert (NW : forall i, (i < List.length n)%nat -> weight_of (in_bin e i) x (weights_of x w) (nth i n 0)) by (intros i Hi; apply bin_nth; [symmetry; exact LW|lia]).
  assert (T : npsum n = s). { apply (weight_unique _ _ _ _ _ (total_range e x _ n (strictly_ascending e ST) L2 (eq_sym LW) Ln NW) TS). }
  set (h := map (fun i => nth i n 0 / ((nth (i + 1) e 0 - nth i e 0) * s)) (seq 0 (List.length e - 1))).
  assert (HQ : map (fun i => quot (nth i n 0) ((nth (i + 1) e 0 - nth i e 0) * npsum n)) (seq 0 (List.length e - 1)) = map Some h).
  { unfold h. rewrite map_map. apply map_ext_in. intros i Hi. apply in_seq in Hi. rewrite T. unfold quot. specialize (ST i ltac:(lia)). destruct (Req_EM_T _ 0) as [C|C]; [|reflexivity]. apply Rmult_integral in C. lra. }
  rewrite HQ. assert (Lh : (List.length h + 1 = List.length e)%nat) by (unfold h; rewrite map_length, seq_length; lia). destruct (make_bars e (map Some h)) as [xx0 yy0] eqn:MB. intros H. apply ok_inj in H.
  assert (xx0 = xx) by congruence. assert (yy0 = yy) by congruence. subst xx0 yy0. destruct (bars_polygon e h ltac:(intros ->; cbn in L2; lia) Lh) as [y [Y1 Y2]]. rewrite MB in Y1, Y2. cbn [fst snd] in Y1, Y2. exists h, y. split; [apply polygon_bars; [exact L2|exact Lh|symmetry; exact MB]|]. split; [exact Y1|].
  assert (HN : forall i, (i < List.length h)%nat -> nth i h 0 * (nth (i + 1) e 0 - nth i e 0) = nth i n 0 / s).
  { intros i Hi. unfold h. set (f := fun i => nth i n 0 / ((nth (i + 1) e 0 - nth i e 0) * s)). rewrite nth_indep with (d' := f 0%nat) by (rewrite map_length, seq_length; lia). rewrite (map_nth f), seq_nth by lia. cbn [Nat.add]. unfold f. specialize (ST i ltac:(lia)). field. split; lra. }
  split.
  - rewrite Y2. unfold bars_area. rewrite (map_ext_in _ (fun i => nth i n 0 * / s)) by (intros i Hi; apply in_seq in Hi; apply HN; lia).
    assert (Q : total (map (fun i => nth i n 0 * / s) (seq 0 (List.length h))) = total n * / s).
    { replace (List.length h) with (List.length n) by lia. clear. unfold total. induction n as [|a n IH]; [cbn; ring|]. cbn [List.length seq map fold_right nth]. rewrite <- seq_shift, map_map. cbn [nth]. rewrite IH. ring. }
    rewrite Q. change (total n) with (npsum n). rewrite T. field. exact S0.
  - intros i Hi. rewrite HN by exact Hi. replace (nth i n 0 / s * s) with (nth i n 0) by (field; exact S0). apply NW. lia.
Qed.
(* the default: every observation is counted *)
Lemma weight_all (P : R -> Prop) X : (forall x, In x X -> P x) -> weight_of P X (repeat 1 (List.length X)) (INR (List.length X)).
Proof. induction X as [|x X IH]; intros H; [constructor|]. cbn [List.length repeat]. rewrite S_INR. rewrite Rplus_comm. apply w_in; [apply H; left; reflexivity|]. apply IH. intros y I. apply H. right. exact I. Qed.
Lemma linspace_ends a b n : (1 <= n)%nat -> nth 0 (linspace a b (n + 1)) 0 = a /\ last (linspace a b (n + 1)) 0 = b.
Proof.
  intros N. split; [rewrite linspace_nth by lia; cbn; ring|]. unfold linspace. rewrite seq_app, map_app. cbn [seq map Nat.add]. rewrite last_last. replace (n + 1 - 1)%nat with n by lia. field. apply not_0_INR. lia.
Qed.
Lemma histogram_default x : x <> [] -> exists xx yy e, histogram x Default None false None = Ok (xx, yy, e, Default) /\ strictly e /\ Z.of_nat (List.length e) = (ceil (4 * sqrt (sqrt (INR (List.length x)))) + 1)%Z /\ (4 <= ceil (4 * sqrt (sqrt (INR (List.length x)))))%Z /\
  (forall v, In v x -> nth 0 e 0 <= v <= last e 0) /\ exists h, polygon e h xx yy /\ total h = INR (List.length x).
Proof.
  intros N. set (k := ceil (4 * sqrt (sqrt (INR (List.length x))))).
  assert (K : (4 <= k)%Z). { apply le_IZR. pose proof (ceil_spec (4 * sqrt (sqrt (INR (List.length x))))) as C. fold k in C. assert (1 <= sqrt (sqrt (INR (List.length x)))); [|lra]. rewrite <- sqrt_1 at 1. apply sqrt_le_1_alt. rewrite <- sqrt_1 at 1. apply sqrt_le_1_alt. destruct x as [|x0 x]; [contradiction|]. cbn [List.length]. rewrite S_INR. pose proof (pos_INR (List.length x)). lra. }
  destruct (minR_spec x N) as [Imn MN]. destruct (maxR_spec x N) as [_ MX].
  assert (O : exists a b, outer_edges None x = Ok (a, b) /\ a < b /\ a <= minR x /\ maxR x <= b).
  { unfold outer_edges. destruct x as [|x0 x']; [contradiction|]. cbn [bind]. specialize (MX _ Imn). destruct (Req_EM_T (minR (x0 :: x')) (maxR (x0 :: x'))) as [Q|Q]; eexists; eexists; (split; [reflexivity|]); lra. }
  destruct O as [a [b [O [AB [LA LB]]]]]. set (e := linspace a b (Z.to_nat k + 1)).
  assert (EE : edges (plain Default x) None x = Ok e). { unfold plain, number_of_bins. fold k. cbn [edges]. destruct (Z.ltb_spec k 1); [lia|]. rewrite O. reflexivity. }
  destruct (linspace_ends a b (Z.to_nat k) ltac:(lia)) as [E0 E1]. fold e in E0, E1.
  assert (HH : exists xx yy, histogram x Default None false None = Ok (xx, yy, e, Default)).
  { unfold histogram, np_histogram. fold (plain Default x). rewrite repeat_length, Nat.eqb_refl, EE. cbn [negb bind]. destruct (make_bars e _) as [xx yy]. exists xx, yy. reflexivity. }
  destruct HH as [xx [yy HH]]. exists xx, yy, e. split; [exact HH|]. split; [apply linspace_strictly; [exact AB|lia]|]. split; [unfold e; rewrite linspace_length; lia|]. split; [exact K|]. rewrite E0, E1.
  split; [intros v I; specialize (MN v I); specialize (MX v I); lra|].
  assert (L2 : (2 <= List.length e)%nat) by (unfold e; rewrite linspace_length; lia). destruct (histogram_values _ _ _ _ _ _ _ _ HH ltac:(intros Q; rewrite Q in L2; cbn in L2; lia)) as [h [Lh [MB HV]]]. exists h. split; [apply polygon_bars; assumption|].
  apply (weight_unique (fun v => nth 0 e 0 <= v <= last e 0) x (repeat 1 (List.length x))).
  - apply total_range; [apply strictly_ascending, linspace_strictly; [exact AB|lia]|exact L2|rewrite repeat_length; reflexivity|exact Lh|exact HV].
  - apply weight_all. intros v I. rewrite E0, E1. specialize (MN v I); specialize (MX v I); lra.
Qed.
(* the caller's array *)
Lemma histogram_caller x e range d w : ascending e -> match w with Some w => List.length w = List.length x | None => True end ->
  exists xx yy, histogram x (Array e) range d w = Ok (xx, yy, e, Column e) /\ histogram x (Column e) range d w = Err ValueError /\ histogram x (Sequence e) range d w = Ok (xx, yy, e, Sequence e).
Proof.
  intros A L. apply monotonic_spec in A. unfold histogram, np_histogram. fold (weights_of x w). assert (LW : List.length (weights_of x w) = List.length x) by (destruct w; [exact L|apply repeat_length]). rewrite LW, Nat.eqb_refl. cbn [negb edges]. rewrite A. cbn [bind].
  destruct (make_bars e _) as [xx yy]. exists xx, yy. repeat split.
Qed.
Lemma histogram_errors x range d : (forall n, (n < 1)%Z -> histogram x (Number n) range d None = Err ValueError) /\ (forall e, ~ ascending e -> histogram x (Sequence e) range d None = Err ValueError) /\
  (forall b w, List.length w <> List.length x -> histogram x b range d (Some w) = Err ValueError) /\ (forall n a b, (1 <= n)%Z -> b < a -> histogram x (Number n) (Some (a, b)) d None = Err ValueError).
Proof.
  unfold histogram, np_histogram. rewrite repeat_length, Nat.eqb_refl. cbn [negb]. split; [|split; [|split]].
  - intros n H. cbn [edges]. destruct (Z.ltb_spec n 1); [reflexivity|lia].
  - intros e H. cbn [edges]. destruct (monotonic e) eqn:M; [exfalso; apply H, monotonic_spec, M|reflexivity].
  - intros b w H. destruct (Nat.eqb_spec (List.length w) (List.length x)); [contradiction|reflexivity].
  - intros n a b H AB. cbn [edges]. unfold outer_edges. destruct (Z.ltb_spec n 1); [lia|]. destruct (Rlt_dec b a); [reflexivity|lra].
Qed.
