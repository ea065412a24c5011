From Coq Require Import Reals Lra Lia.
From Verif Require Import Base PolyModel PolySpec.
Local Open Scope R_scope.

(* ---- lists ------------------------------------------------------------------ *)
Lemma map2_length {A B C} (f : A -> B -> C) a b : List.length (map2 f a b) = Nat.min (List.length a) (List.length b).
Proof. revert b. induction a as [|x a IH]; intros [|y b]; cbn; auto. Qed.
Lemma countdown_length n : List.length (countdown n) = n.
Proof. induction n; cbn [countdown List.length]; auto. Qed.
Lemma removelast_length {A} (l : list A) : List.length (removelast l) = (List.length l - 1)%nat.
Proof.
  induction l as [|a l IH]; [reflexivity|]. destruct l as [|b l]; [reflexivity|].
  change (removelast (a :: b :: l)) with (a :: removelast (b :: l)). cbn [List.length] in *. lia.
Qed.

(* ---- evaluation -------------------------------------------------------------- *)
Lemma peval_cons c p x : peval (c :: p) x = c * x ^ List.length p + peval p x.
Proof. reflexivity. Qed.
Lemma peval_app p q x : peval (p ++ q) x = peval p x * x ^ List.length q + peval q x.
Proof.
  induction p as [|c p IH]; cbn [app peval]; [ring|]. rewrite IH, app_length, pow_add. ring.
Qed.
Lemma peval_snoc p c x : peval (p ++ [c]) x = peval p x * x + c.
Proof. rewrite peval_app. cbn. ring. Qed.
Lemma peval_scale y p x : peval (map (Rmult y) p) x = y * peval p x.
Proof. induction p as [|c p IH]; cbn [map peval]; [ring|]. rewrite IH, map_length. ring. Qed.
Lemma peval_zeros n x : peval (repeat 0 n) x = 0.
Proof. induction n; cbn [repeat peval]; [reflexivity|]. rewrite IHn. ring. Qed.
Lemma peval_map2_plus a : forall b x, List.length a = List.length b ->
  peval (map2 Rplus a b) x = peval a x + peval b x.
Proof.
  induction a as [|c a IH]; intros [|d b] x H; cbn in H; try discriminate; cbn [map2 peval]; [ring|].
  rewrite IH by lia. rewrite map2_length. replace (Nat.min (List.length a) (List.length b)) with (List.length a) by lia.
  replace (List.length b) with (List.length a) by lia. ring.
Qed.
Lemma peval_map2_minus a : forall b x, List.length a = List.length b ->
  peval (map2 Rminus a b) x = peval a x - peval b x.
Proof.
  induction a as [|c a IH]; intros [|d b] x H; cbn in H; try discriminate; cbn [map2 peval]; [ring|].
  rewrite IH by lia. rewrite map2_length. replace (Nat.min (List.length a) (List.length b)) with (List.length a) by lia.
  replace (List.length b) with (List.length a) by lia. ring.
Qed.
Lemma pad_left_length n p : List.length (pad_left n p) = Nat.max n (List.length p).
Proof. unfold pad_left. rewrite app_length, repeat_length. lia. Qed.
Lemma peval_pad n p x : peval (pad_left n p) x = peval p x.
Proof. unfold pad_left. rewrite peval_app, peval_zeros. ring. Qed.
Lemma peval_polyadd a b x : peval (polyadd a b) x = peval a x + peval b x.
Proof.
  unfold polyadd. rewrite peval_map2_plus by (rewrite !pad_left_length; lia). now rewrite !peval_pad.
Qed.
Lemma polyadd_length a b : List.length (polyadd a b) = Nat.max (List.length a) (List.length b).
Proof. unfold polyadd. rewrite map2_length, !pad_left_length. lia. Qed.
Lemma nonzero_true c : nonzero c = true <-> c <> 0.
Proof. unfold nonzero. destruct (Req_EM_T c 0); split; congruence. Qed.
Lemma nonzero_false c : nonzero c = false <-> c = 0.
Proof. unfold nonzero. destruct (Req_EM_T c 0); split; congruence. Qed.
Lemma peval_drop_zeros p x : peval (drop_zeros p) x = peval p x.
Proof.
  induction p as [|c p IH]; [reflexivity|]. cbn [drop_zeros]. destruct (nonzero c) eqn:E; [reflexivity|].
  apply nonzero_false in E. subst c. rewrite IH, peval_cons. ring.
Qed.
Lemma peval_poly1d p x : peval (poly1d p) x = peval p x.
Proof.
  unfold poly1d. rewrite <- (peval_drop_zeros p). destruct (drop_zeros p); [cbn; ring|reflexivity].
Qed.
Lemma poly1d_nonempty p : poly1d p <> [].
Proof. unfold poly1d. destruct (drop_zeros p); discriminate. Qed.
Lemma convolve_length a b : b <> [] -> List.length (convolve a b) = (List.length a + List.length b - 1)%nat.
Proof.
  intros Hb. assert (0 < List.length b)%nat by (destruct b; [congruence|cbn; lia]).
  induction a as [|c a IH]; cbn [convolve]; [rewrite repeat_length; cbn; lia|].
  rewrite map2_length, app_length, map_length, repeat_length. cbn [List.length]. rewrite IH. lia.
Qed.
Lemma peval_convolve a b x : b <> [] -> peval (convolve a b) x = peval a x * peval b x.
Proof.
  intros Hb. assert (0 < List.length b)%nat by (destruct b; [congruence|cbn; lia]).
  induction a as [|c a IH]; cbn [convolve]; [rewrite peval_zeros; cbn; ring|].
  rewrite peval_map2_plus.
  2:{ rewrite app_length, map_length, repeat_length. cbn [List.length]. rewrite convolve_length by easy. lia. }
  rewrite peval_app, peval_scale, peval_zeros, repeat_length. rewrite (peval_cons 0), IH, peval_cons. ring.
Qed.
Lemma peval_polymul a b x : peval (polymul a b) x = peval a x * peval b x.
Proof.
  unfold polymul. rewrite peval_convolve by apply poly1d_nonempty. now rewrite !peval_poly1d.
Qed.

(* ---- polyder ------------------------------------------------------------------ *)
Lemma derivable_peval p : forall x, derivable_pt_lim (peval p) x (peval (polyder1 p) x).
Proof.
  induction p as [|c p IH]; intros x.
  - cbn. apply derivable_pt_lim_const.
  - destruct p as [|d q].
    + unfold polyder1. cbn -[INR].
      replace 0 with (c * 0) by ring.
      apply (derivable_pt_lim_ext (fun _ => c)); [intros; cbn; ring|].
      replace (c * 0) with 0 by ring. apply derivable_pt_lim_const.
    + set (p := d :: q) in *.
      assert (E : polyder1 (c :: p) = INR (List.length p) * c :: polyder1 p).
      { unfold polyder1, p. cbn [List.length].
        replace (S (S (List.length q)) - 1)%nat with (S (List.length q)) by lia.
        replace (S (List.length q) - 1)%nat with (List.length q) by lia. reflexivity. }
      rewrite E, peval_cons.
      assert (El : List.length (polyder1 p) = (List.length p - 1)%nat).
      { unfold polyder1. rewrite map2_length, countdown_length, removelast_length. lia. }
      rewrite El.
      apply (derivable_pt_lim_ext (fun y => c * y ^ List.length p + peval p y)); [reflexivity|].
      apply (derivable_pt_lim_plus (fun y => c * y ^ List.length p) (peval p)); [|apply IH].
      replace (INR (List.length p) * c * x ^ (List.length p - 1)) with (c * (INR (List.length p) * x ^ pred (List.length p))).
      2:{ replace (pred (List.length p)) with (List.length p - 1)%nat by lia. ring. }
      apply (derivable_pt_lim_scal (fun y => y ^ List.length p)). apply derivable_pt_lim_pow.
Qed.

Lemma nth_derivative_polyder m : forall p, nth_derivative m (peval p) (peval (polyder_nat p m)).
Proof.
  induction m as [|m IH]; intros p; [now cbn|]. exists (peval (polyder1 p)). split; [apply derivable_peval|apply IH].
Qed.
Lemma polyder_spec p m : (0 <= m)%Z ->
  exists q, polyder p m = Ok q /\ nth_derivative (Z.to_nat m) (peval p) (peval q).
Proof.
  intros H. unfold polyder. replace (m <? 0)%Z with false by (symmetry; apply Z.ltb_ge; lia).
  eexists; split; [reflexivity|apply nth_derivative_polyder].
Qed.
Lemma polyder_negative p m : (m < 0)%Z -> polyder p m = Err ValueError.
Proof. intros H. unfold polyder. apply Z.ltb_lt in H. now rewrite H. Qed.
(* derivatives are unique, so the statement determines the values *)
Lemma nth_derivative_ext m : forall f f' g, (forall x, f x = f' x) -> nth_derivative m f g -> nth_derivative m f' g.
Proof.
  intros f f' g E. destruct m as [|m]; cbn.
  - intros H x. now rewrite <- E.
  - intros [h [H1 H2]]. exists h. split; [|exact H2].
    intros x. apply (derivable_pt_lim_ext f); [intros; now rewrite E|apply H1].
Qed.
Lemma nth_derivative_unique m : forall f g g', nth_derivative m f g -> nth_derivative m f g' -> forall x, g x = g' x.
Proof.
  induction m as [|m IH]; intros f g g' H H'.
  - intros x. rewrite <- H. apply H'.
  - destruct H as [h [H1 H2]], H' as [h' [H1' H2']].
    apply (IH h); [exact H2|].
    apply (nth_derivative_ext m h'); [|exact H2'].
    intros x. apply (uniqueness_limite f x); [apply H1'|apply H1].
Qed.

(* ---- polyint ------------------------------------------------------------------- *)
Lemma polyint1_length p k : List.length (polyint1 p k) = S (List.length p).
Proof. unfold polyint1. rewrite app_length, map2_length, countdown_length. cbn. lia. Qed.
Lemma polyder_polyint1 p k : polyder1 (polyint1 p k) = p.
Proof.
  unfold polyder1. rewrite polyint1_length. unfold polyint1. rewrite removelast_last.
  replace (S (List.length p) - 1)%nat with (List.length p) by lia.
  induction p as [|c p IH]; [reflexivity|]. cbn [List.length countdown map2]. rewrite IH.
  f_equal. field. apply not_0_INR. lia.
Qed.
Lemma primitive_polyint1 p k x : derivable_pt_lim (peval (polyint1 p k)) x (peval p x).
Proof. rewrite <- (polyder_polyint1 p k) at 2. apply derivable_peval. Qed.
Lemma polyint1_at0 p k : peval (polyint1 p k) 0 = k.
Proof. unfold polyint1. rewrite peval_snoc. ring. Qed.

Lemma polyint_nat_spec m : forall p k, (m <= List.length k)%nat ->
  exists q, polyint_nat p m k = Ok q /\ primitives (firstn m k) (peval p) (peval q)
    /\ polyder_nat q m = p.
Proof.
  induction m as [|m IH]; intros p k H.
  - exists p. cbn. auto.
  - destruct k as [|k0 k]; cbn in H; [lia|]. cbn [polyint_nat].
    destruct (IH (polyint1 p k0) k ltac:(lia)) as [q [E [H1 H2]]].
    exists q. split; [exact E|]. split.
    + cbn [firstn primitives]. exists (peval (polyint1 p k0)). split; [intros; apply primitive_polyint1|].
      split; [apply polyint1_at0|exact H1].
    + assert (G : forall j r, polyder_nat r (S j) = polyder1 (polyder_nat r j)).
      { induction j as [|j IHj]; intros r; [reflexivity|]. change (polyder_nat (polyder1 r) (S j) = polyder1 (polyder_nat (polyder1 r) j)). apply IHj. }
      rewrite G, H2. apply polyder_polyint1.
Qed.

Lemma firstn_repeat {A} (a : A) m n : (m <= n)%nat -> firstn m (repeat a n) = repeat a m.
Proof. revert n. induction m as [|m IH]; intros [|n] H; cbn; try lia; [reflexivity..|]. f_equal. apply IH. lia. Qed.
Lemma polyint_spec p m k ks : (0 <= m)%Z -> constants k (Z.to_nat m) ks ->
  exists q, polyint p m k = Ok q /\ primitives ks (peval p) (peval q) /\ polyder q m = Ok p.
Proof.
  intros Hm Hk. unfold polyint, polyder. replace (m <? 0)%Z with false by (symmetry; apply Z.ltb_ge; lia).
  set (n := Z.to_nat m) in *. clearbody n. cbv zeta.
  assert (G : forall l, (n <= List.length l)%nat -> firstn n l = ks ->
    exists q, (if Nat.ltb (List.length l) n then Err ValueError else polyint_nat p n l) = Ok q
     /\ primitives ks (peval p) (peval q) /\ Ok (polyder_nat q n) = Ok p).
  { intros l Hl E. replace (Nat.ltb (List.length l) n) with false by (symmetry; apply Nat.ltb_ge; lia).
    destruct (polyint_nat_spec n p l Hl) as [q [E1 [H1 H2]]]. exists q. rewrite <- E, H2. auto. }
  destruct k as [k|].
  - destruct k as [|k0 [|k1 k]]; cbn in Hk.
    + destruct Hk as [Hk ->]. apply G; cbn; [lia|]. now rewrite firstn_nil.
    + subst ks. destruct (Nat.ltb 1 n) eqn:En.
      * apply G; [now rewrite repeat_length|]. apply firstn_repeat. lia.
      * apply Nat.ltb_ge in En. apply G; [cbn; lia|].
        destruct n as [|[|n]]; [reflexivity..|lia].
    + destruct Hk as [Hk ->]. apply G; [exact Hk|reflexivity].
  - cbn in Hk. subst ks.
    assert (E : match repeat 0 n with [k0] => if Nat.ltb 1 n then repeat k0 n else repeat 0 n | _ => repeat 0 n end = repeat 0 n).
    { destruct n as [|[|n]]; reflexivity. }
    rewrite E. apply G; [now rewrite repeat_length|]. apply firstn_repeat. lia.
Qed.
Lemma polyint_too_few p m k : (0 <= m)%Z -> (List.length k < Z.to_nat m)%nat -> List.length k <> 1%nat ->
  polyint p m (Some k) = Err ValueError.
Proof.
  intros Hm H H1. unfold polyint. replace (m <? 0)%Z with false by (symmetry; apply Z.ltb_ge; lia). cbv zeta.
  destruct k as [|k0 [|k1 k]]; [|cbn in H1; lia|]; apply Nat.ltb_lt in H; now rewrite H.
Qed.
