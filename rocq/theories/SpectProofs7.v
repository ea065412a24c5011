From Coq Require Import Reals Lra Lia Psatz String.
From Coquelicot Require Import Coquelicot.
From Verif Require Import Base PolyModel KdeModel GridModel GridSpec ProcSpec ProcProofs CovModel CovSpec CovProofs CovProofs2 CovProofs3 SpcovModel SpcovSpec SpcovProofs3 SpectModel SpectSpec SpectProofs SpectProofs2 SpectProofs3 SpectProofs4 SpectProofs5 SpectProofs6.
Local Open Scope R_scope.

Lemma hz_at T s n k : spectrum_on n s -> (k <= 4)%nat -> mom (momenta_of T s) k = hz_moment s (Z.of_nat k).
Proof.
  intros H Hk. cbn [momenta_of mom]. rewrite (moment_at _ _ _ _ _ H) by lia. unfold hz_moment. destruct k; [reflexivity|]. cbn [Z.of_nat]. now replace (Z.to_nat (Z.pos (Pos.of_succ_nat k))) with (S k) by lia.
Qed.
Lemma entry_everything g q i k : (i < 15)%nat -> (k < 15)%nat -> nth k (nth i (map (fun i => map (cov_entry g q i) (seq 0 15)) (seq 0 15)) []) None = cov_entry g q i k.
Proof. intros Hi Hk. rewrite (nth_map_seq _ 0 15) by easy. now rewrite (nth_map_seq _ 0 15) by easy. Qed.
Lemma value_everything l i : (i < 15)%nat -> at_R (map (at_R l) (seq 0 15)) i = at_R l i.
Proof. intros Hi. apply (nth_map_seq (at_R l) 0 15 i 0). easy. Qed.

Ltac pick := unfold characteristics; cbv beta zeta; repeat match goal with |- context [at_R (?a :: ?l) (S ?i)] => change (at_R (a :: l) (S i)) with (at_R l i) | |- context [at_R (?a :: _) 0] => let b := a in match goal with |- context [at_R (b :: ?l) 0%nat] => change (at_R (b :: l) 0%nat) with b end end.
(* the values; all units *)
Lemma values_moments T g s n : spectrum_on n s -> positive_moments s -> 0 < g -> let mu := hz_moment s in exists ch r txt, characteristic everything T g s = Ok (ch, r, txt)
  /\ at_R ch 0 = Hm0 mu /\ at_R ch 1 = Tm01 mu /\ at_R ch 2 = Tm02 mu /\ at_R ch 3 = Tm24 mu /\ at_R ch 6 = steepness g mu /\ at_R ch 11 = irregularity mu /\ at_R ch 12 = narrowness mu /\ at_R ch 13 = broadness mu.
Proof.
  intros H P Hg mu. rewrite everything_value. eexists _, _, _. split; [reflexivity|]. rewrite !value_everything by lia. pick.
  rewrite !(hz_at T s n) by (easy || lia). change (Z.of_nat 0) with 0%Z. change (Z.of_nat 1) with 1%Z. change (Z.of_nat 2) with 2%Z. change (Z.of_nat 4) with 4%Z. fold mu.
  pose proof (hz_pos s 0 P ltac:(lia)) as P0. pose proof (hz_pos s 1 P ltac:(lia)) as P1. pose proof (hz_pos s 2 P ltac:(lia)) as P2. pose proof (hz_pos s 4 P ltac:(lia)) as P4. cbn [Z.of_nat Pos.of_succ_nat Pos.succ] in *. fold mu in P0, P1, P2, P4.
  assert (T2 : 0 < Tm02 mu) by (apply sqrt_lt_R0, Rdiv_lt_0_compat; easy).
  assert (A : sqrt (mu 2%Z / mu 4%Z) / sqrt (mu 0%Z / mu 2%Z) = irregularity mu).
  { unfold irregularity. destruct (root _ P0) as (r & Hr & -> & Er). destruct (root _ P2) as (u & Hu & -> & Eu). destruct (root _ P4) as (w & Hw & -> & Ew). unfold Rdiv. rewrite (sqrt_ratio u w Hu Hw), (sqrt_ratio r u Hr Hu), (sqrt_product r w Hr Hw). field. lra. }
  repeat (split; [try reflexivity|]).
  - unfold steepness. change (sqrt (mu 0%Z / mu 2%Z)) with (Tm02 mu). change (4 * sqrt (mu 0%Z)) with (Hm0 mu). field. lra.
  - exact A.
  - unfold narrowness. f_equal. field. lra.
  - unfold broadness. rewrite A. unfold irregularity. f_equal. f_equal. destruct (root _ P0) as (r & Hr & -> & Er). destruct (root _ P4) as (w & Hw & -> & Ew). rewrite (sqrt_product r w Hr Hw). field. lra.
Qed.
Lemma value_energy T g s n i : spectrum_on n s -> freqtype s <> Hertz -> (i < n)%nat -> 0 < at_R (sargs s) i -> 0 < T -> exists ch r txt, characteristic everything T g s = Ok (ch, r, txt) /\ at_R ch 4 = Tm_10 (hz_moment s).
Proof.
  intros H F Hi P HT. rewrite everything_value. eexists _, _, _. split; [reflexivity|]. rewrite value_everything by lia. pick.
  pose proof (matches_omega T s n i H Hi P F HT) as (M1 & M2 & _). rewrite M2, (M1 0%nat) by lia. reflexivity.
Qed.

(* peak *)
Lemma argmax_spec : forall l i best k, (forall d, argmax_from l i best k = k /\ (forall p, (p < List.length l)%nat -> nth p l d <= best)
   \/ exists p, (p < List.length l)%nat /\ argmax_from l i best k = (i + p)%nat /\ best < nth p l d /\ (forall q, (q < List.length l)%nat -> nth q l d <= nth p l d) /\ (forall q, (q < p)%nat -> nth q l d < nth p l d)).
Proof.
  induction l as [|v l IH]; intros i best k d.
  - left. split; [reflexivity|]. cbn; intros; lia.
  - cbn [argmax_from]. destruct (Rlt_dec best v) as [B|B].
    + destruct (IH (S i) v i d) as [(E & H)|(p & Hp & E & H1 & H2 & H3)]; right.
      * exists 0%nat. cbn [List.length nth]. split; [lia|]. split; [rewrite E; lia|]. split; [easy|]. split; [|lia]. intros [|q] Hq; [cbn; lra|]. cbn. apply H. cbn in Hq. lia.
      * exists (S p). cbn [List.length nth]. split; [lia|]. split; [rewrite E; lia|]. split; [lra|]. split; intros [|q] Hq; cbn [nth]; [lra|apply H2; lia|easy|apply H3; lia].
    + destruct (IH (S i) best k d) as [(E & H)|(p & Hp & E & H1 & H2 & H3)].
      * left. split; [easy|]. intros [|q] Hq; cbn [nth]; [lra|]. apply H. cbn in Hq. lia.
      * right. exists (S p). cbn [List.length nth]. split; [lia|]. split; [rewrite E; lia|]. split; [lra|]. split; intros [|q] Hq; cbn [nth]; [lra|apply H2; cbn in Hq; lia|lra|apply H3; lia].
Qed.
Lemma argmaxR_spec l : l <> [] -> let p := argmaxR l in (p < List.length l)%nat /\ (forall q, (q < List.length l)%nat -> at_R l q <= at_R l p) /\ (forall q, (q < p)%nat -> at_R l q < at_R l p).
Proof.
  destruct l as [|v l]; [easy|]. intros _. cbn [argmaxR]. cbn zeta. unfold at_R. destruct (argmax_spec l 1 v 0 0) as [(E & H)|(p & Hp & E & H1 & H2 & H3)]; rewrite E.
  - cbn [List.length nth]. split; [lia|]. split; [|lia]. intros [|q] Hq; [lra|]. cbn [nth]. apply H. lia.
  - cbn [Nat.add List.length nth]. split; [lia|]. split; intros [|q] Hq; cbn [nth]; [lra|apply H2; lia|easy|apply H3; lia].
Qed.
Lemma first_unique (f : nat -> R) n p q : (p < n)%nat -> (q < n)%nat -> (forall k, (k < n)%nat -> f k <= f p) -> (forall k, (k < p)%nat -> f k < f p) -> (forall k, (k < n)%nat -> f k <= f q) -> (forall k, (k < q)%nat -> f k < f q) -> p = q.
Proof.
  intros Hp Hq A B C D. destruct (Nat.lt_trichotomy p q) as [H|[H|H]]; [|easy|]; exfalso.
  - specialize (D p H). specialize (A q Hq). lra.
  - specialize (B q H). specialize (C p Hp). lra.
Qed.
Lemma density_le s i k : density s k <= density s i <-> at_R (sdata s) k <= at_R (sdata s) i.
Proof.
  unfold density. pose proof two_pi. destruct (freqtype s); [reflexivity| |reflexivity]. unfold Rdiv. assert (0 < / (2 * PI)) by now apply Rinv_0_lt_compat. split; intros; nra.
Qed.
Lemma density_lt s i k : density s k < density s i <-> at_R (sdata s) k < at_R (sdata s) i.
Proof.
  unfold density. pose proof two_pi. destruct (freqtype s); [reflexivity| |reflexivity]. unfold Rdiv. assert (0 < / (2 * PI)) by now apply Rinv_0_lt_compat. split; intros; nra.
Qed.
Lemma peak_argmax s i : peak_at s i -> argmaxR (sdata s) = i.
Proof.
  intros (Hi & A & B). assert (N : sdata s <> []) by (intros E; rewrite E in Hi; cbn in Hi; lia). destruct (argmaxR_spec _ N) as (C & D & E).
  apply (first_unique (at_R (sdata s)) (List.length (sdata s))); try easy; intros k Hk; [apply density_le|apply density_lt]; auto.
Qed.
Lemma peak_exists s n : spectrum_on n s -> exists i, peak_at s i.
Proof.
  intros (Hn & L1 & L2 & _). assert (N : sdata s <> []) by (intros E; rewrite E in L2; cbn in L2; lia). destruct (argmaxR_spec _ N) as (C & D & E).
  exists (argmaxR (sdata s)). split; [easy|]. split; intros; [apply density_le|apply density_lt]; auto.
Qed.
Lemma value_peak T g s n i : spectrum_on n s -> freqtype s <> Hertz -> peak_at s i -> exists ch r txt, characteristic everything T g s = Ok (ch, r, txt)
  /\ at_R ch 5 = 2 * PI / omega s i /\ at_R ch 7 = 2 * PI * at_R ch 0 / g / at_R ch 5 ^ 2.
Proof.
  intros H F Pk. rewrite everything_value. eexists _, _, _. split; [reflexivity|]. rewrite !value_everything by lia. pick. rewrite (peak_argmax s i Pk).
  split; [|reflexivity]. unfold omega. destruct (freqtype s); easy.
Qed.
Lemma value_peak_hertz T g s n i : spectrum_on n s -> freqtype s = Hertz -> peak_at s i -> 0 < omega s i -> exists ch r txt, characteristic everything T g s = Ok (ch, r, txt)
  /\ at_R ch 5 = 2 * PI * (2 * PI / omega s i).
Proof.
  intros H F Pk P. rewrite everything_value. eexists _, _, _. split; [reflexivity|]. rewrite !value_everything by lia. pick. rewrite (peak_argmax s i Pk).
  unfold omega in *. rewrite F in *. cbn [angular] in *. pose proof two_pi. assert (0 < at_R (sargs s) i) by nra. pose proof PI_RGT_0. field. lra.
Qed.

(* groupiness and Tp1 *)
Lemma groupiness_bounds T g s n : spectrum_on n s -> even_axis n (at_R (sargs s)) -> freqtype s <> Hertz -> (forall i, (i < n)%nat -> 0 <= at_R (sdata s) i) -> 0 < moment_of s 0 0 ->
  exists ch r txt, characteristic everything T g s = Ok (ch, r, txt) /\ 0 <= at_R ch 8 <= 1.
Proof.
  intros H E F D P. rewrite everything_value. eexists _, _, _. split; [reflexivity|]. rewrite !value_everything by lia. pick.
  rewrite !(hz_at T s n) by (easy || lia). change (Z.of_nat 0) with 0%Z. change (Z.of_nat 2) with 2%Z. set (t := sqrt (hz_moment s 0 / hz_moment s 2)).
  destruct H as (Hn & L1 & L2 & Rs). rewrite !(simps_value _ _ n) by (rewrite ?len_map2; lia).
  set (X := at_R (sargs s)) in *. set (Y := at_R (sdata s)) in *.
  assert (EC : simpson n X (at_R (map2 (fun w y => y * cos (w * t)) (sargs s) (sdata s))) = simpson n X (fun i => Y i * (1 * cos (X i * t)))) by (apply simpson_ext; [easy|easy|]; intros; rewrite at_map2 by lia; unfold X, Y; ring).
  assert (ES : simpson n X (at_R (map2 (fun w y => y * sin (w * t)) (sargs s) (sdata s))) = simpson n X (fun i => Y i * (1 * sin (X i * t)))) by (apply simpson_ext; [easy|easy|]; intros; rewrite at_map2 by lia; unfold X, Y; ring).
  rewrite EC, ES.
  assert (M : hz_moment s 0 = simpson n X (fun i => Y i * 1 ^ 2)).
  { unfold hz_moment. cbn [Z.to_nat pow]. unfold Rdiv. rewrite Rinv_1, Rmult_1_r. unfold moment_of. rewrite L1. apply simpson_ext; [easy| |]; intros i Hi; unfold omega, density, X, Y; destruct (freqtype s); try easy; cbn [pow Nat.add]; rewrite Rabs_right by (apply Rle_ge, D, Hi); ring. }
  assert (P' : 0 < hz_moment s 0) by (unfold hz_moment; cbn [Z.to_nat pow]; lra).
  pose proof (cauchy_schwarz n X Y (fun _ => 1) (fun i => cos (X i * t)) Hn E D) as C1. pose proof (cauchy_schwarz n X Y (fun _ => 1) (fun i => sin (X i * t)) Hn E D) as C2. cbv beta in C1, C2. rewrite <- M in C1, C2.
  assert (S1 : simpson n X (fun i => Y i * cos (X i * t) ^ 2) + simpson n X (fun i => Y i * sin (X i * t) ^ 2) = hz_moment s 0).
  { rewrite M. pose proof (simpson_linear n X (fun i => Y i * cos (X i * t) ^ 2) (fun i => Y i * sin (X i * t) ^ 2) 1 1) as L. rewrite !Rmult_1_l in L. rewrite <- L. apply simpson_ext; [easy|easy|]. intros i Hi. pose proof (sin2_cos2 (X i * t)) as W. unfold Rsqr in W. replace (Y i * 1 ^ 2) with (Y i * (sin (X i * t) * sin (X i * t) + cos (X i * t) * cos (X i * t))) by (rewrite W; ring). ring. }
  set (a := simpson n X (fun i => Y i * (1 * cos (X i * t)))) in *. set (b := simpson n X (fun i => Y i * (1 * sin (X i * t)))) in *. set (m := hz_moment s 0) in *.
  assert (B : a ^ 2 + b ^ 2 <= m ^ 2) by nra.
  split.
  - apply Rmult_le_pos; [apply sqrt_pos|left; now apply Rinv_0_lt_compat].
  - apply (Rmult_le_reg_r m); [easy|]. unfold Rdiv. rewrite Rmult_1_l, Rmult_assoc.
    rewrite Rinv_l, Rmult_1_r by lra. rewrite <- (sqrt_pow2 m) by lra. now apply sqrt_le_1_alt.
Qed.
Lemma smooth_peak_bound T g s n : spectrum_on n s -> even_axis n (at_R (sargs s)) -> freqtype s <> Hertz -> 0 < simpson n (at_R (sargs s)) (fun i => at_R (sargs s) i * at_R (sdata s) i ^ 4) ->
  exists ch r txt, characteristic everything T g s = Ok (ch, r, txt) /\ at_R ch 10 * at_R (sargs s) (n - 1) >= 2 * PI /\ at_R ch 10 * at_R (sargs s) 0 <= 2 * PI.
Proof.
  intros H E F P. rewrite everything_value. eexists _, _, _. split; [reflexivity|]. rewrite !value_everything by lia. pick.
  destruct H as (Hn & L1 & L2 & Rs). rewrite !(simps_value _ _ n) by (rewrite ?len_map2, ?map_length; lia).
  set (X := at_R (sargs s)) in *. set (Y := at_R (sdata s)) in *.
  assert (E1 : simpson n X (at_R (map (fun y => y ^ 4) (sdata s))) = simpson n X (fun i => Y i ^ 4)) by (apply simpson_ext; [easy|easy|]; intros; now rewrite at_map by lia).
  assert (E2 : simpson n X (at_R (map2 (fun w y => w * y ^ 4) (sargs s) (sdata s))) = simpson n X (fun i => X i * Y i ^ 4)) by (apply simpson_ext; [easy|easy|]; intros; now rewrite at_map2 by lia).
  rewrite E1, E2.
  assert (Mono : forall i, (i < n)%nat -> X 0%nat <= X i <= X (n - 1)%nat).
  { assert (Up : forall k i, (i + k < n)%nat -> X i <= X (i + k)%nat). { induction k; intros i Hk; [rewrite Nat.add_0_r; lra|]. replace (i + S k)%nat with (S (i + k)) by lia. specialize (IHk i ltac:(lia)). specialize (Rs (i + k)%nat ltac:(lia)). lra. }
    intros i Hi. split; [apply (Up i 0%nat); lia|]. replace (n - 1)%nat with (i + (n - 1 - i))%nat by lia. apply Up. lia. }
  assert (Q : forall i, 0 <= Y i ^ 4) by (intros i; replace (Y i ^ 4) with ((Y i ^ 2) ^ 2) by ring; apply pow2_ge_0).
  pose proof (simpson_pos n X (fun i => X (n - 1)%nat * Y i ^ 4 + (-1) * (X i * Y i ^ 4)) Hn E ltac:(intros i Hi; specialize (Mono i Hi); specialize (Q i); nra)) as U.
  pose proof (simpson_pos n X (fun i => 1 * (X i * Y i ^ 4) + (- X 0%nat) * (Y i ^ 4)) Hn E ltac:(intros i Hi; specialize (Mono i Hi); specialize (Q i); nra)) as V.
  rewrite (simpson_linear n X (fun i => Y i ^ 4) (fun i => X i * Y i ^ 4)) in U. rewrite (simpson_linear n X (fun i => X i * Y i ^ 4) (fun i => Y i ^ 4)) in V.
  set (a := simpson n X (fun i => Y i ^ 4)) in *. set (b := simpson n X (fun i => X i * Y i ^ 4)) in *. pose proof PI_RGT_0 as PI0.
  split.
  - apply Rle_ge. replace (2 * PI * a / b * X (n - 1)%nat) with (2 * PI * (X (n - 1)%nat * a / b)) by (field; lra). assert (1 <= X (n - 1)%nat * a / b); [|nra].
    apply (Rmult_le_reg_r b); [easy|]. unfold Rdiv. rewrite Rmult_assoc, Rinv_l; lra.
  - replace (2 * PI * a / b * X 0%nat) with (2 * PI * (X 0%nat * a / b)) by (field; lra). assert (X 0%nat * a / b <= 1); [|nra].
    apply (Rmult_le_reg_r b); [easy|]. unfold Rdiv. rewrite Rmult_assoc, Rinv_l; lra.
Qed.
