(* grid and empirical probabilities of BKRegression *)
From Coq Require Import Reals Lra Lia Psatz.
From Verif Require Import Base PolyModel OrthoModel OrthoProofs FilterProofs3 GridSpec GridModel GridProofs GridProofs3 GridProofs4 GridProofs5 GridProofs6 KdeModel KdeSpec KdeProofs2 KdeProofs3.
Local Open Scope R_scope.

Lemma fold_min_le l : forall a, fold_left Rmin l a <= a /\ forall v, In v l -> fold_left Rmin l a <= v.
Proof.
  induction l as [|b l IH]; intros a; cbn; [split; [lra|easy]|]. destruct (IH (Rmin a b)) as [H1 H2]. pose proof (Rmin_l a b). pose proof (Rmin_r a b).
  split; [lra|]. intros v [<-|Hin]; [lra|auto].
Qed.
Lemma fold_max_ge l : forall a, a <= fold_left Rmax l a /\ forall v, In v l -> v <= fold_left Rmax l a.
Proof.
  induction l as [|b l IH]; intros a; cbn; [split; [lra|easy]|]. destruct (IH (Rmax a b)) as [H1 H2]. pose proof (Rmax_l a b). pose proof (Rmax_r a b).
  split; [lra|]. intros v [<-|Hin]; [lra|auto].
Qed.
Lemma range_spec x v : In v x -> minR x <= v <= maxR x.
Proof.
  destruct x as [|a x]; [easy|]. intros H. unfold minR, maxR. destruct (fold_min_le x a), (fold_max_ge x a). destruct H as [<-|H]; [lra|]. split; auto.
Qed.
Definition grid_of (x : list R) (hs_e : R) : R * R * nat :=
  let ni := Nat.max (2 * Z.to_nat (Int_part ((maxR x - minR x) / hs_e)) + 3) 5 in
  ((minR x - hs_e, (maxR x + hs_e - (minR x - hs_e)) / INR (ni - 1)), ni).
Lemma get_grid_nodes x hs_e : get_grid x hs_e = map (node (fst (grid_of x hs_e))) (seq 0 (snd (grid_of x hs_e))).
Proof. reflexivity. Qed.
Lemma get_grid_spec x hs_e : x <> [] -> 0 < hs_e -> let q := fst (grid_of x hs_e) in let n := snd (grid_of x hs_e) in
  (5 <= n)%nat /\ 0 < snd q <= hs_e /\ node q 0 = minR x - hs_e /\ node q (n - 1) = maxR x + hs_e.
Proof.
  intros Hx Hh q n. destruct x as [|a x']; [easy|]. set (x := a :: x') in *.
  assert (Hr : minR x <= a <= maxR x) by (apply range_spec; now left).
  set (r := (maxR x - minR x) / hs_e). assert (Hr0 : 0 <= r) by (unfold r; apply Rmult_le_pos; [lra|left; now apply Rinv_0_lt_compat]).
  destruct (base_Int_part r) as [B1 B2]. assert (Hz : (0 <= Int_part r)%Z) by (assert (-1 < IZR (Int_part r)) as H by lra; apply lt_IZR in H; lia).
  set (f := Z.to_nat (Int_part r)). assert (Ef : INR f = IZR (Int_part r)) by (unfold f; rewrite INR_IZR_INZ, Z2Nat.id by easy; reflexivity).
  assert (Hn : n = Nat.max (2 * f + 3) 5) by reflexivity. assert (Hn5 : (5 <= n)%nat) by lia. split; [easy|].
  assert (Eq : snd q = (maxR x + hs_e - (minR x - hs_e)) / INR (n - 1)) by reflexivity. assert (Eq1 : fst q = minR x - hs_e) by reflexivity.
  assert (HN : 4 <= INR (n - 1)) by (replace 4 with (INR 4) by (cbn; lra); apply le_INR; lia).
  assert (HN2 : 2 * INR f + 2 <= INR (n - 1)). { replace (2 * INR f + 2) with (INR (2 * f + 2)) by (rewrite plus_INR, mult_INR; cbn; lra). apply le_INR. lia. }
  assert (Hlen : maxR x + hs_e - (minR x - hs_e) = (r + 2) * hs_e) by (unfold r; field; lra). rewrite Hlen in Eq.
  split; [split|split].
  - rewrite Eq. apply Rdiv_lt_0_compat; [|lra]. nra.
  - rewrite Eq. apply Rmult_le_reg_r with (INR (n - 1)); [lra|]. unfold Rdiv. rewrite Rmult_assoc, Rinv_l by lra.
    assert (r < INR f + 1) by lra. assert (r + 2 <= INR (n - 1)); [|nra]. destruct (Nat.eq_dec f 0) as [E0|E0]; [rewrite E0 in *; cbn [INR] in *; lra|]. assert (1 <= INR f) by (change 1 with (INR 1); apply le_INR; lia). lra.
  - now rewrite node_0.
  - unfold node. rewrite Eq, Eq1, <- Hlen. field. lra.
Qed.
Lemma get_grid_inside x hs_e v : 0 < hs_e -> In v x -> node (fst (grid_of x hs_e)) 0 <= v < node (fst (grid_of x hs_e)) (snd (grid_of x hs_e) - 1).
Proof.
  intros Hh Hin. assert (Hx : x <> []) by (intros ->; easy). destruct (get_grid_spec x hs_e Hx Hh) as (_ & _ & -> & ->). pose proof (range_spec x v Hin). lra.
Qed.
Lemma count_1d q n x : 0 < snd q -> (2 <= n)%nat -> x <> [] -> (forall v, In v x -> node q 0 <= v < node q (n - 1)) ->
  exists c, gridcount (map (fun v => [v]) x) [map (node q) (seq 0 n)] [1] = Ok c /\ List.length c = n /\ forall i, (i < n)%nat -> at_R c i = received q x i.
Proof.
  intros Hq Hn Hx Hv. rewrite gridcount_scalar, map_length.
  destruct (gridcount_ok n [q] (map (fun v => [v]) x) (repeat 1 (List.length x))) as (c & Ec & Lc & Hc); try assumption; try discriminate.
  { repeat constructor; easy. } { intros E. apply map_eq_nil in E. easy. } { intros p Hp. apply in_map_iff in Hp as (v & <- & Hin). constructor; [now apply Hv|constructor]. } { now rewrite repeat_length, map_length. }
  exists c. split; [exact Ec|]. cbn [List.length Nat.pow] in Lc. split; [lia|]. intros i Hi.
  specialize (Hc [i] eq_refl ltac:(repeat constructor; lia)). unfold entry, meshgrid_order, forder in Hc. replace (i + n * 0)%nat with i in Hc by lia. rewrite Hc.
  rewrite combine_wrap, map_map. unfold received. clear. induction x as [|v x IH]; [reflexivity|]. cbn [List.length repeat combine map]. unfold sumR in *. cbn [fold_right]. rewrite IH. cbn [fst snd share]. ring.
Qed.
Lemma hits_spec x : forall y, map fst (filter (fun p => if Req_EM_T (snd p) 1 then true else false) (combine x y)) = successes x y.
Proof. induction x as [|v x IH]; intros [|r y]; try reflexivity. cbn. destruct (Req_EM_T r 1); cbn; now rewrite IH. Qed.
Lemma successes_in x : forall y v, In v (successes x y) -> In v x.
Proof. induction x as [|u x IH]; intros [|r y] v; cbn; try easy. destruct (Req_EM_T r 1); cbn; [intros [->|H]; eauto|]; eauto. Qed.
Lemma tent_nonneg t : 0 <= tent t. Proof. apply Rmax_l. Qed.
Lemma received_nonneg q x i : 0 <= received q x i.
Proof. unfold received. induction x as [|v x IH]; unfold sumR in *; cbn [map fold_right]; [lra|]. pose proof (tent_nonneg ((v - node q i) / snd q)). lra. Qed.
Lemma received_le q x i : forall y, received q (successes x y) i <= received q x i.
Proof.
  induction x as [|v x IH]; intros [|r y]; cbn [successes]; try apply Rle_refl; try apply received_nonneg. specialize (IH y). destruct (Req_EM_T r 1); unfold received, sumR in *; cbn [map fold_right]; pose proof (tent_nonneg ((v - node q i) / snd q)); lra.
Qed.
Lemma received_nil q i : received q [] i = 0. Proof. reflexivity. Qed.
Lemma at_combine (a b : list R) i : (i < List.length a)%nat -> List.length b = List.length a -> nth i (combine a b) (0, 0) = (at_R a i, at_R b i).
Proof. intros. apply combine_nth. congruence. Qed.
Lemma prb_empirical_spec tiny x y hs_e : x <> [] -> 0 < hs_e -> 0 < tiny -> let q := fst (grid_of x hs_e) in let n := snd (grid_of x hs_e) in
  exists prb c, prb_empirical tiny x y (get_grid x hs_e) = Ok (prb, c) /\ List.length prb = n /\ List.length c = n /\
  forall i, (i < n)%nat -> nth i c 0 = received q x i /\ nth i prb 0 = received q (successes x y) i / (received q x i + tiny) /\ 0 <= nth i prb 0 <= 1.
Proof.
  intros Hx Hh Ht q n. destruct (get_grid_spec x hs_e Hx Hh) as (Hn & Hq & _ & _). fold q n in Hn, Hq. unfold prb_empirical. rewrite get_grid_nodes. fold q n.
  destruct (count_1d q n x) as (c & Ec & Lc & Hc); [lra|lia|easy|intros v; now apply get_grid_inside|]. rewrite Ec. cbn [bind]. rewrite hits_spec. rewrite map_length, seq_length.
  assert (C0 : exists c0, (match successes x y with [] => Ok (repeat 0 n) | _ => gridcount (map (fun v => [v]) (successes x y)) [map (node q) (seq 0 n)] [1] end) = Ok c0 /\ List.length c0 = n /\ forall i, (i < n)%nat -> at_R c0 i = received q (successes x y) i).
  { destruct (successes x y) as [|s l] eqn:Es.
    - exists (repeat 0 n). split; [reflexivity|]. split; [apply repeat_length|]. intros i _. rewrite received_nil. unfold at_R. apply nth_repeat.
    - apply count_1d; [lra|lia|discriminate|]. rewrite <- Es. intros v Hin. apply successes_in in Hin. now apply get_grid_inside. }
  destruct C0 as (c0 & E0 & L0 & H0). rewrite E0. cbn [bind]. eexists _, c. split; [reflexivity|]. rewrite map_length, combine_length. split; [lia|]. split; [easy|].
  intros i Hi. split; [now apply Hc|].
  assert (Ep : forall d, nth i (map (fun q0 : R * R => if Req_EM_T (fst q0) 0 then 0 else snd q0 / (fst q0 + tiny)) (combine c c0)) d = received q (successes x y) i / (received q x i + tiny)).
  { intros d. transitivity ((fun q0 : R * R => if Req_EM_T (fst q0) 0 then 0 else snd q0 / (fst q0 + tiny)) (nth i (combine c c0) (0, 0))).
    - rewrite <- (map_nth (fun q0 : R * R => if Req_EM_T (fst q0) 0 then 0 else snd q0 / (fst q0 + tiny))). apply nth_indep. rewrite map_length, combine_length. lia.
    - rewrite at_combine by lia. cbn [fst snd]. rewrite Hc, H0 by easy. destruct (Req_EM_T (received q x i) 0) as [E|E]; [|reflexivity].
      pose proof (received_nonneg q (successes x y) i). pose proof (received_le q x i y). assert (Z : received q (successes x y) i = 0) by lra. rewrite Z. unfold Rdiv. ring. }
  rewrite Ep. split; [reflexivity|]. pose proof (received_nonneg q (successes x y) i). pose proof (received_le q x i y). set (u := received q (successes x y) i) in *. set (v := received q x i) in *.
  split; [apply Rmult_le_pos; [lra|left; apply Rinv_0_lt_compat; lra]|]. apply Rmult_le_reg_r with (v + tiny); [lra|]. unfold Rdiv. rewrite Rmult_assoc, Rinv_l by lra. lra.
Qed.
Lemma get_grid_full x hs_e : x <> [] -> 0 < hs_e -> exists q n, get_grid x hs_e = map (node q) (seq 0 n) /\ (5 <= n)%nat /\ 0 < snd q <= hs_e /\ node q 0 = minR x - hs_e /\ node q (n - 1) = maxR x + hs_e.
Proof. intros Hx Hh. exists (fst (grid_of x hs_e)), (snd (grid_of x hs_e)). split; [reflexivity|]. now apply get_grid_spec. Qed.
Lemma prb_empirical_full tiny x y hs_e : x <> [] -> 0 < hs_e -> 0 < tiny ->
  exists q n prb c, get_grid x hs_e = map (node q) (seq 0 n) /\ prb_empirical tiny x y (get_grid x hs_e) = Ok (prb, c) /\ List.length prb = n /\ List.length c = n /\
  forall i, (i < n)%nat -> nth i c 0 = received q x i /\ nth i prb 0 = received q (successes x y) i / (received q x i + tiny) /\ 0 <= nth i prb 0 <= 1.
Proof.
  intros Hx Hh Ht. destruct (prb_empirical_spec tiny x y hs_e Hx Hh Ht) as (prb & c & H). exists (fst (grid_of x hs_e)), (snd (grid_of x hs_e)), prb, c. split; [reflexivity|]. exact H.
Qed.
Lemma min_max_spec x : x <> [] -> In (minR x) x /\ In (maxR x) x /\ forall v, In v x -> minR x <= v <= maxR x.
Proof.
  intros Hx. split; [|split; [|intros; now apply range_spec]]; destruct x as [|a x]; try easy; cbn [minR maxR]; clear.
  - assert (H : fold_left Rmin x a = a \/ In (fold_left Rmin x a) x) by (revert a; induction x as [|b x IH]; intros a; [now left|]; cbn; destruct (IH (Rmin a b)) as [E|E]; [rewrite E; unfold Rmin; destruct (Rle_dec a b); auto|auto]). destruct H as [->|H]; [now left|now right].
  - assert (H : fold_left Rmax x a = a \/ In (fold_left Rmax x a) x) by (revert a; induction x as [|b x IH]; intros a; [now left|]; cbn; destruct (IH (Rmax a b)) as [E|E]; [rewrite E; unfold Rmax; destruct (Rle_dec a b); auto|auto]). destruct H as [->|H]; [now left|now right].
Qed.
