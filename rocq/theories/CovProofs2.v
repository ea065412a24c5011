From Coq Require Import Reals Lra Lia.
From Coquelicot Require Import Complex.
From Verif Require Import Base PolyModel KdeModel GridSpec DftModel DftProofs CovModel CovSpec CovProofs.
Local Open Scope R_scope.

Lemma numbers_values x : numbers (values x) = Some x.
Proof. induction x as [|a x IH]; [reflexivity|]. cbn. unfold values in IH. now rewrite IH. Qed.
Lemma values_length x : List.length (values x) = List.length x. Proof. apply map_length. Qed.
Lemma values_no_nan x : existsb is_nan (values x) = false. Proof. now induction x. Qed.
Lemma mean_values x : mean (values x) = Some (mean_of x). Proof. unfold mean. now rewrite numbers_values. Qed.
Lemma centre_values x : centre (values x) = (values (centred x), List.length x).
Proof.
  unfold centre. rewrite values_no_nan, values_length, mean_values. f_equal. unfold values, centred. rewrite !map_map. now apply map_ext.
Qed.
Lemma centred_length x : List.length (centred x) = List.length x. Proof. apply map_length. Qed.
Definition raw (n : nat) (y : list R) (c : nat) (k : nat) : R := (lagged y k + lagged y (pow2_above n - k)) / INR c.
Lemma raw_cov_values n y c : (List.length y <= pow2_above n)%nat -> (0 < c)%nat ->
  raw_cov n (values y) c = map (fun k => Some (raw n y c k)) (seq 0 (pow2_above n)).
Proof.
  intros Hy Hc. unfold raw_cov. rewrite numbers_values. destruct c as [|c]; [lia|]. pose proof (pow2_above_pos n) as HN. apply map_ext_in. intros k Hk. apply in_seq in Hk.
  f_equal. unfold periodogram. rewrite transform by easy. unfold RtoC; cbn [fst]. rewrite circular_lagged by lia. unfold raw.
  pose proof (lt_0_INR _ HN). pose proof (lt_0_INR _ Hc). field. lra.
Qed.

Lemma map2_len {A B C} (f : A -> B -> C) l1 : forall l2, List.length (map2 f l1 l2) = Nat.min (List.length l1) (List.length l2).
Proof. induction l1 as [|a l1 IH]; intros [|b l2]; cbn; auto. Qed.
Lemma map2_nth {A B C} (f : A -> B -> C) da db dc l1 : forall l2 i, (i < List.length l1)%nat -> (i < List.length l2)%nat ->
  nth i (map2 f l1 l2) dc = f (nth i l1 da) (nth i l2 db).
Proof. induction l1 as [|a l1 IH]; intros [|b l2] [|i]; cbn; intros; try lia; auto. apply IH; lia. Qed.
Lemma broadcast_same f a b : List.length a = List.length b -> broadcast f a b = Ok (map2 f a b).
Proof. intros H. unfold broadcast. apply Nat.eqb_eq in H. now rewrite H. Qed.
Lemma nth_firstn_lt {A} (l : list A) n i d : (i < n)%nat -> nth i (firstn n l) d = nth i l d.
Proof. revert n i. induction l as [|a l IH]; intros [|n] [|i] H; cbn; try lia; auto. apply IH. lia. Qed.
Lemma nth_skipn_add {A} (l : list A) n i d : nth i (skipn n l) d = nth (n + i) l d.
Proof. revert n i. induction l as [|a l IH]; intros [|n] i; cbn; auto. now destruct i. Qed.

Lemma windowed_ok get p l acov : sized get -> (0 < l < List.length acov)%nat ->
  windowed (Named get p) l acov = Ok (map2 (nop Rmult) (firstn l acov) (map Some (skipn (l - 1) (get (2 * l - 1)%nat))) ++ Some 0 :: skipn (S l) acov).
Proof.
  intros Hg Hl. unfold windowed. destruct l as [|l1]; [lia|].
  assert (A1 : List.length (firstn (S l1) acov) = S l1) by (rewrite firstn_length; lia).
  assert (A2 : @List.length num (map Some (skipn l1 (get (2 * S l1 - 1)%nat))) = S l1) by (rewrite map_length, skipn_length, Hg; lia).
  rewrite broadcast_same by (now rewrite A1, A2). cbn [bind].
  rewrite map2_len, A1, A2, Nat.min_id, Nat.eqb_refl. cbn [bind]. rewrite app_length, map2_len, A1, A2, Nat.min_id, skipn_length.
  replace (S l1 <? S l1 + (List.length acov - S l1))%nat with true by (symmetry; apply Nat.ltb_lt; lia).
  f_equal. unfold upd. replace (S l1 - 1)%nat with l1 by lia.
  set (q := map2 _ _ _). assert (Lq : List.length q = S l1) by (unfold q; rewrite map2_len, A1, A2; lia).
  rewrite firstn_app, Lq, Nat.sub_diag, firstn_O, app_nil_r. rewrite <- Lq at 1. rewrite firstn_all. f_equal. f_equal.
  rewrite skipn_app. rewrite (skipn_all2 q) by lia. cbn [List.app].
  rewrite Lq. replace (S (S l1) - S l1)%nat with 1%nat by lia.
  clear. revert l1. induction acov as [|a acov IH]; intros l1; [reflexivity|]. destruct l1; [now destruct acov|]. cbn [skipn]. apply IH.
Qed.

Lemma sigma_length acov c s : large_lag_sigma acov c = Ok s -> List.length s = S (List.length acov).
Proof.
  unfold large_lag_sigma. destruct acov as [|a rest]; [easy|]. intros H. injection H as <-. cbn [List.length map]. rewrite !map_length. do 2 f_equal.
  assert (G : forall l a0, List.length (cumsum a0 l) = List.length l) by (induction l as [|v l IH]; intros a0; cbn; auto). now rewrite G, map_length.
Qed.

(* the estimate computed from a centred series y *)
Lemma from_centred o get p L dt x y c :
  lag o = Some L -> window_ o = Named get p -> unbiased o = false -> norm o = false -> sized get ->
  (let '(xc, nc) := centre x in (match detrend o with Some f => f xc | None => xc end, nc)) = (values y, c) ->
  (List.length y <= pow2_above (List.length x))%nat -> (0 < c)%nat -> (0 < L)%nat -> (3 <= List.length x)%nat ->
  let n := List.length x in let l := Nat.min L (n - 2) in
  exists s, tocovdata o dt x = Ok (CovData (map (fun k => Some (at_R (get (2 * l - 1)%nat) (l - 1 + k) * raw n y c k)) (seq 0 l) ++ [Some 0]) (linspace 0 (INR l * dt) (S l)) s)
    /\ large_lag_sigma (map (fun k => Some (at_R (get (2 * l - 1)%nat) (l - 1 + k) * raw n y c k)) (seq 0 l)
                        ++ Some 0 :: map (fun k => Some (raw n y c k)) (seq (S l) (pow2_above n - S l))) c = Ok s.
Proof.
  intros E1 E2 E3 E4 Hg Hc Hy Hcp HL Hn n l. assert (Hl : (0 < l)%nat) by (unfold l, n; lia). assert (Hln : (l < pow2_above n)%nat) by (pose proof (pow2_above_ge n); unfold l, n in *; lia).
  unfold tocovdata. fold n. destruct (centre x) as [xc nc]. injection Hc as -> ->. rewrite E1, E2, E3, E4. cbn [bind].
  replace (n <? 2)%nat with false by (symmetry; apply Nat.ltb_ge; unfold n; lia). fold l. rewrite raw_cov_values by easy.
  rewrite windowed_ok by (try easy; rewrite map_length, seq_length; easy). cbn [bind].
  set (acov := map2 _ _ _ ++ _).
  assert (EA : acov = map (fun k => Some (at_R (get (2 * l - 1)%nat) (l - 1 + k) * raw n y c k)) (seq 0 l)
                        ++ Some 0 :: map (fun k => Some (raw n y c k)) (seq (S l) (pow2_above n - S l))).
  { unfold acov. f_equal.
    - apply (@nth_ext num) with (d := None) (d' := None).
      + rewrite map2_len, firstn_length, !map_length, skipn_length, Hg, !seq_length. lia.
      + intros i Hi. rewrite map2_len, firstn_length, !map_length, skipn_length, Hg, !seq_length in Hi.
        etransitivity; [apply (@map2_nth num num num (nop Rmult) None None)|].
        1,2: rewrite ?firstn_length, ?map_length, ?skipn_length, ?Hg, ?seq_length; lia.
        rewrite nth_firstn_lt by lia. rewrite (nth_indep _ None (Some (raw n y c 0))) by (rewrite map_length, seq_length; lia).
        rewrite (map_nth (fun k => Some (raw n y c k))), seq_nth by lia.
        rewrite (nth_indep _ None (Some 0)) by (rewrite map_length, skipn_length, Hg; lia). rewrite map_nth, nth_skipn_add.
        pose (g := fun k => Some (at_R (get (2 * l - 1)%nat) (l - 1 + k) * raw n y c k)).
        transitivity (g i); [|symmetry; transitivity (nth i (map g (seq 0 l)) (g 0%nat)); [apply nth_indep; rewrite map_length, seq_length; lia|]].
        * unfold g, nop, at_R. cbn [Nat.add]. f_equal. ring.
        * rewrite map_nth, seq_nth by lia. reflexivity.
    - f_equal. rewrite skipn_map. f_equal.
      replace (pow2_above n) with (S l + (pow2_above n - S l))%nat at 1 by lia. rewrite seq_app, skipn_app, skipn_all2 by (rewrite seq_length; lia).
      rewrite seq_length, Nat.sub_diag. reflexivity. }
  assert (Lq : forall s, large_lag_sigma acov c = Ok s -> List.length s = S (List.length acov)) by (intros; now apply sigma_length with (c := c)).
  rewrite <- EA. destruct (large_lag_sigma acov c) as [s|e] eqn:Es.
  - exists s. split; [|reflexivity]. cbn [bind]. do 2 f_equal. rewrite EA.
    rewrite firstn_app, map_length, seq_length. rewrite firstn_all2 by (rewrite map_length, seq_length; lia).
    replace (S l - l)%nat with 1%nat by lia. reflexivity.
  - unfold large_lag_sigma in Es. destruct acov; [|easy]. destruct (seq 0 l) eqn:E; cbn in EA; discriminate EA.
Qed.
