From Coq Require Import Reals Lra Lia.
From Coquelicot Require Import Coquelicot.
From Verif Require Import Base PolyModel KdeModel FilterModel GridModel GridSpec DftModel DftProofs ProcSpec ProcProofs CovModel CovSpec CovProofs CovProofs3 CovProofs6 SpcovModel SpcovSpec SpcovProofs SpcovProofs2.
Local Open Scope R_scope.

Lemma diffR_cons a b l : diffR (a :: b :: l) = (b - a) :: diffR (b :: l). Proof. reflexivity. Qed.
Lemma diffR_uniform a h n : diffR (uniform a h n) = repeat h (n - 1).
Proof.
  destruct n as [|n]; [reflexivity|]. replace (S n - 1)%nat with n by lia. unfold uniform. generalize 0%nat as b. induction n as [|n IH]; intros b; [reflexivity|].
  cbn [seq map]. rewrite diffR_cons. specialize (IH (S b)). cbn [seq map] in IH. rewrite IH. cbn [repeat]. f_equal. rewrite S_INR. ring.
Qed.
Lemma diffR_repeat h n : diffR (repeat h n) = repeat 0 (n - 1).
Proof.
  destruct n as [|n]; [reflexivity|]. replace (S n - 1)%nat with n by lia. induction n as [|n IH]; [reflexivity|].
  cbn [repeat]. rewrite diffR_cons. cbn [repeat] in IH. rewrite IH. cbn [repeat]. f_equal. ring.
Qed.
Lemma no_kink n : existsb (fun d => if Rlt_dec (1 / 10 ^ 8) (Rabs d) then true else false) (repeat 0 n) = false.
Proof.
  induction n as [|n IH]; [reflexivity|]. cbn [repeat existsb]. rewrite IH. destruct (Rlt_dec _ _) as [H|H]; [|reflexivity]. exfalso. rewrite Rabs_R0 in H.
  assert (0 < 1 / 10 ^ 8) by (apply Rdiv_lt_0_compat; [lra|apply pow_lt; lra]). lra.
Qed.
Lemma uniform_atR a h n i : (i < n)%nat -> at_R (uniform a h n) i = a + INR i * h.
Proof. apply uniform_at. Qed.
Lemma nyquist_uniform s h n : (1 <= n)%nat -> sargs s = uniform 0 h n -> nyquist_freq s = Ok (INR (n - 1) * h).
Proof.
  intros Hn E. unfold nyquist_freq, getz. rewrite E, uniform_length. cbn [Z.leb Z.compare]. replace (- Z.of_nat n <=? -1)%Z with true by (symmetry; apply Z.leb_le; lia).
  unfold geti. replace (Z.to_nat (Z.of_nat n + -1)) with (n - 1)%nat by lia. rewrite (nth_error_nth' _ 0) by (rewrite uniform_length; lia). f_equal.
  fold (at_R (uniform 0 h n) (n - 1)). rewrite uniform_atR by lia. ring.
Qed.
Lemma spec_rate_used rate r : rate_used rate r -> spec_rate rate = r.
Proof.
  destruct rate as [q|]; cbn [rate_used spec_rate]; [|congruence]. intros [[H ->]|[H1 H2]].
  - now replace (16 <? q)%nat with true by (symmetry; now apply Nat.ltb_lt).
  - replace (16 <? q)%nat with false by (symmetry; now apply Nat.ltb_ge). apply (least_pow2_unique q); [apply pow2_above_spec|easy].
Qed.
Lemma rate_used_pos rate r : rate_used rate r -> (0 < r)%nat.
Proof.
  destruct rate as [q|]; cbn [rate_used]; [|lia]. intros [[_ ->]|[_ (_ & (e & ->) & _)]]; [lia|]. pose proof (Nat.pow_nonzero 2 e). lia.
Qed.
Lemma angular_scale t x : angular t x = angular t 1 * x. Proof. destruct t; cbn; ring. Qed.
Lemma angular_pos t h : 0 < h -> 0 < angular t h.
Proof. intros. pose proof PI_RGT_0. destruct t; cbn; nra. Qed.

Definition time_step (s : spectrum) (h : R) (N : nat) : R := 2 * PI / angular (freqtype s) h / INR N.
Lemma tocovdata_value nr nt rate s h n r p : even_grid s h n -> rate_used rate r -> least_pow2 (2 * n - 2) p ->
  let N := (r * p)%nat in let K := match nt with None => (r * (n - 1))%nat | Some q => Nat.min q (r * (n - 1)) end in
  let time := map (fun k => INR k * time_step s h N) (seq 0 (S K)) in
  let col m := map (fun k => Fm s h m (INR k * time_step s h N)) (seq 0 (S K)) in
  tocovdata nr nt rate s = Ok (Covariance (col 0%nat) time (lag_type s) (map (fun i => col (S i)) (seq 0 nr))).
Proof.
  intros (Hh & Hn & Ea & Ed) Hr Hp N K time col. unfold tocovdata. rewrite Ea, uniform_length.
  assert (E0 : geti (uniform 0 h n) 0 = Ok 0).
  { unfold geti. rewrite (nth_error_nth' _ 0) by (rewrite uniform_length; lia). f_equal. fold (at_R (uniform 0 h n) 0). rewrite uniform_atR by lia. cbn [INR]. ring. }
  rewrite E0. cbn [bind]. destruct (Rlt_dec 0 0) as [X|_]; [lra|]. rewrite diffR_uniform, diffR_repeat, no_kink.
  rewrite (spec_rate_used rate r Hr). unfold sampling_period. rewrite (nyquist_uniform s h n) by (easy || lia). cbn [bind].
  rewrite (least_pow2_unique _ _ _ (pow2_above_spec (2 * n - 2)) Hp). fold N. fold K.
  set (wm := INR (n - 1) * h). set (specn := map (fun v => v * wm) (sdata s)). set (freq := uniform 0 h n).
  set (w := match freqtype s with Hertz => map (fun v => v * 2 * PI) freq | _ => freq end).
  assert (Hn1 : 0 < INR (n - 1)) by (apply lt_0_INR; lia). assert (Hwm : 0 < wm) by (unfold wm; nra).
  assert (Hp2 : (2 * n - 2 <= p)%nat) by apply Hp. pose proof (rate_used_pos _ _ Hr) as Hr0. assert (HN : (2 * n - 2 <= N)%nat) by (unfold N; nia).
  assert (HN0 : 0 < INR N) by (apply lt_0_INR; lia). assert (Hom : 0 < angular (freqtype s) h) by now apply angular_pos.
  assert (E2 : INR (2 * n - 2) = 2 * INR (n - 1)) by (replace (2 * n - 2)%nat with (2 * (n - 1))%nat by lia; rewrite mult_INR; cbn [INR]; ring).
  assert (Lw : List.length w = n) by (unfold w; destruct (freqtype s); rewrite ?map_length; apply uniform_length).
  assert (Ls : List.length specn = n) by (unfold specn; now rewrite map_length).
  assert (Aw : forall j, (j < n)%nat -> at_R w j = angular (freqtype s) (INR j * h)).
  { intros j Hj. unfold w. destruct (freqtype s); cbn [angular].
    - unfold freq. rewrite uniform_atR by easy. ring.
    - unfold at_R. rewrite (nth_indep _ 0 ((fun v => v * 2 * PI) 0)) by (rewrite map_length; unfold freq; rewrite uniform_length; lia). rewrite (map_nth (fun v => v * 2 * PI)).
      fold (at_R freq j). unfold freq. rewrite uniform_atR by easy. ring.
    - unfold freq. rewrite uniform_atR by easy. ring. }
  assert (As : forall j, at_R specn j = at_R (sdata s) j * wm).
  { intros j. unfold specn, at_R. rewrite <- (map_nth (fun v => v * wm)). f_equal. ring. }
  assert (Hcol : forall m, transformed N n K (turned (embed N w (map Ropp w)) (padded (embed N specn specn)) m) = col m).
  { intros m. unfold transformed, col. apply map_ext. intros k. rewrite (transform_value N n) by easy. unfold Fm. rewrite Ed.
    rewrite trapezoid_sum by easy.
    assert (V : forall j, (j < n)%nat -> at_R specn j * (at_R w j ^ m * cos (2 * PI * INR (k * j) / INR N + INR m * (PI / 2)))
      = wm * (at_R (sdata s) j * (angular (freqtype s) (INR j * h) ^ m * cos (angular (freqtype s) (INR j * h) * (INR k * time_step s h N) + INR m * (PI / 2))))).
    { intros j Hj. rewrite As, Aw by easy. replace (angular (freqtype s) (INR j * h) * (INR k * time_step s h N)) with (2 * PI * INR (k * j) / INR N); [ring|].
      unfold time_step. rewrite mult_INR. replace (angular (freqtype s) (INR j * h)) with (INR j * angular (freqtype s) h) by (destruct (freqtype s); cbn; ring). field. lra. }
    rewrite !V by lia. rewrite (Sum_ext (n - 2) _ (fun i => wm * (at_R (sdata s) (S i) * (angular (freqtype s) (INR (S i) * h) ^ m * cos (angular (freqtype s) (INR (S i) * h) * (INR k * time_step s h N) + INR m * (PI / 2))))))
      by (intros i Hi; apply V; lia).
    rewrite Sum_mul, E2. unfold wm. field. lra. }
  f_equal. f_equal.
  - exact (Hcol 0%nat).
  - unfold time. apply map_ext. intros k. rewrite E2. unfold time_step.
    replace (match freqtype s with Hertz => 1 / 2 | _ => PI end / wm) with (PI / (INR (n - 1) * angular (freqtype s) h)).
    + field. repeat split; lra.
    + unfold wm. pose proof PI_RGT_0. destruct (freqtype s); cbn [angular]; field; repeat split; lra.
  - apply nth_ext with (d := []) (d' := []); [rewrite derivatives_length, map_length, seq_length; reflexivity|]. intros i Hi. rewrite derivatives_length in Hi.
    rewrite derivatives_nth by easy. rewrite nth_map_seq by easy. apply Hcol.
Qed.
Lemma covariance_of_spectrum nr nt rate s h n r p : even_grid s h n -> rate_used rate r -> least_pow2 (2 * n - 2) p ->
  let N := (r * p)%nat in let K := match nt with None => (r * (n - 1))%nat | Some q => Nat.min q (r * (n - 1)) end in
  let t := fun k => INR k * (2 * PI / angular (freqtype s) h / INR N) in
  exists c, tocovdata nr nt rate s = Ok c /\ lagtype c = (match freqtype s with Wavenumber => Space | _ => Time end)
    /\ List.length (cdata c) = S K /\ List.length (cargs c) = S K /\ List.length (derivatives c) = nr
    /\ forall k, (k <= K)%nat -> at_R (cargs c) k = t k /\ at_R (cdata c) k = covariance_at s h (t k)
       /\ forall i, (i < nr)%nat -> List.length (nth i (derivatives c) []) = S K
            /\ is_derive_n (covariance_at s h) (S i) (t k) (at_R (nth i (derivatives c) []) k).
Proof.
  intros Hs Hr Hp N K t. eexists. split; [exact (tocovdata_value nr nt rate s h n r p Hs Hr Hp)|]. cbn [lagtype cdata cargs derivatives]. fold N. fold K. fold (time_step s h N) in t.
  split; [reflexivity|]. rewrite !map_length, !seq_length. split; [reflexivity|]. split; [reflexivity|]. split; [reflexivity|].
  intros k Hk. unfold at_R at 1 2. rewrite !nth_map_seq by lia. cbn [Nat.add]. split; [reflexivity|]. split; [apply Fm_0|]. intros i Hi. rewrite nth_map_seq by easy.
  split; [now rewrite map_length, seq_length|]. unfold at_R. rewrite nth_map_seq by lia. cbn [Nat.add]. apply Fm_is_derive_n.
Qed.
(* grids that are refused *)
Lemma not_from_zero nr nt rate s f0 : geti (sargs s) 0 = Ok f0 -> 0 < f0 -> tocovdata nr nt rate s = Err ValueError.
Proof. intros E H. unfold tocovdata. rewrite E. cbn [bind]. destruct (Rlt_dec 0 f0); [reflexivity|lra]. Qed.
