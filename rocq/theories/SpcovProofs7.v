From Coq Require Import Reals Lra Lia.
From Coquelicot Require Import Coquelicot.
From Verif Require Import Base PolyModel KdeModel FilterModel GridModel GridSpec DftModel DftProofs ProcSpec ProcProofs CovModel CovSpec CovProofs CovProofs2 CovProofs3 CovProofs6 SpcovModel SpcovSpec SpcovProofs SpcovProofs2 SpcovProofs3 SpcovProofs4 SpcovProofs5 SpcovProofs6.
Local Open Scope R_scope.

Lemma sumR_abs {A} (f g : A -> R) l : (forall x, In x l -> Rabs (f x) <= g x) -> Rabs (sumR (map f l)) <= sumR (map g l).
Proof.
  induction l as [|x l IH]; cbn; intros H; [rewrite Rabs_R0; lra|]. eapply Rle_trans; [apply Rabs_triang|]. apply Rplus_le_compat; [apply H; now left|apply IH; intros; apply H; now right].
Qed.
Lemma covariance_at_0 s h : covariance_at s h 0 = trapezoid h (List.length (sdata s)) (at_R (sdata s)).
Proof. unfold covariance_at, trapezoid. f_equal. apply map_ext. intros j. rewrite !Rmult_0_r, cos_0. f_equal. ring. Qed.
Lemma covariance_at_le s h t : 0 <= h -> (forall v, In v (sdata s) -> 0 <= v) -> Rabs (covariance_at s h t) <= covariance_at s h 0.
Proof.
  intros Hh Hp. rewrite covariance_at_0. unfold covariance_at, trapezoid. apply sumR_abs. intros j Hj. apply in_seq in Hj.
  assert (P : forall i, (i < List.length (sdata s))%nat -> 0 <= at_R (sdata s) i) by (intros i Hi; apply Hp, nth_In; easy).
  pose proof (P j ltac:(lia)) as P1. pose proof (P (S j) ltac:(lia)) as P2.
  pose proof (COS_bound (angular (freqtype s) (INR j * h) * t)). pose proof (COS_bound (angular (freqtype s) (INR (S j) * h) * t)).
  set (c1 := cos (angular (freqtype s) (INR j * h) * t)) in *. set (c2 := cos (angular (freqtype s) (INR (S j) * h) * t)) in *. set (a := at_R (sdata s) j) in *. set (b := at_R (sdata s) (S j)) in *.
  assert (- (a + b) <= a * c1 + b * c2 <= a + b) by nra. apply Rabs_le. unfold Rdiv. split; nra.
Qed.
Lemma variance_first nr nt rate s h n : even_grid s h n -> exists c, tocovdata nr nt rate s = Ok c /\ at_R (cdata c) 0 = trapezoid h n (at_R (sdata s)).
Proof.
  intros Hs. assert (exists r, rate_used rate r) as [r Hr].
  { destruct rate as [q|]; [|now exists 1%nat]. cbn. destruct (le_lt_dec q 16); [exists (pow2_above q); right; split; [easy|apply pow2_above_spec]|exists 16%nat; now left]. }
  destruct (covariance_of_spectrum nr nt rate s h n r _ Hs Hr (pow2_above_spec _)) as (c & E & _ & _ & _ & _ & H). exists c. split; [easy|].
  destruct (H 0%nat ltac:(lia)) as (_ & -> & _). cbn [INR]. rewrite Rmult_0_l, covariance_at_0. destruct Hs as (_ & _ & _ & ->). reflexivity.
Qed.
Lemma variance_largest nr nt rate s h n c : even_grid s h n -> (forall v, In v (sdata s) -> 0 <= v) -> tocovdata nr nt rate s = Ok c ->
  forall k, (k < List.length (cdata c))%nat -> Rabs (at_R (cdata c) k) <= at_R (cdata c) 0.
Proof.
  intros Hs Hp Ec. assert (exists r, rate_used rate r) as [r Hr].
  { destruct rate as [q|]; [|now exists 1%nat]. cbn. destruct (le_lt_dec q 16); [exists (pow2_above q); right; split; [easy|apply pow2_above_spec]|exists 16%nat; now left]. }
  destruct (covariance_of_spectrum nr nt rate s h n r _ Hs Hr (pow2_above_spec _)) as (c' & E & _ & L & _ & _ & H). rewrite Ec in E. injection E as <-.
  intros k Hk. rewrite L in Hk. destruct (H k ltac:(lia)) as (_ & -> & _). destruct (H 0%nat ltac:(lia)) as (_ & -> & _). cbn [INR]. rewrite Rmult_0_l. apply covariance_at_le; [|easy]. destruct Hs as (Hh & _). lra.
Qed.
Lemma diffR_at l : forall i, (S i < List.length l)%nat -> at_R (diffR l) i = at_R l (S i) - at_R l i.
Proof.
  induction l as [|a [|b l] IH]; intros i H; cbn in H; try lia. rewrite diffR_cons. destruct i; [reflexivity|]. unfold at_R in *. cbn [nth]. rewrite IH by (cbn; lia). reflexivity.
Qed.
Lemma diffR_len l : List.length (diffR l) = (List.length l - 1)%nat.
Proof. induction l as [|a [|b l] IH]; [reflexivity..|]. rewrite diffR_cons. cbn [List.length] in *. lia. Qed.
Lemma uneven_rejected nr nt rate s i : (2 + i < List.length (sargs s))%nat -> 1 / 10 ^ 8 < Rabs (at_R (sargs s) (2 + i) - 2 * at_R (sargs s) (1 + i) + at_R (sargs s) i) ->
  tocovdata nr nt rate s = Err ValueError.
Proof.
  intros Hi Hd. unfold tocovdata, geti. rewrite (nth_error_nth' _ 0) by lia. cbn [bind]. destruct Rlt_dec; [reflexivity|].
  match goal with |- context [if ?b then _ else _] => assert (b = true) as -> end; [|reflexivity]. apply existsb_exists.
  exists (at_R (diffR (diffR (sargs s))) i). split; [apply nth_In; rewrite !diffR_len; lia|].
  rewrite !diffR_at by (rewrite ?diffR_len; lia). match goal with |- (if Rlt_dec _ (Rabs ?x) then _ else _) = _ => replace x with (at_R (sargs s) (2 + i) - 2 * at_R (sargs s) (1 + i) + at_R (sargs s) i) by (cbn [Nat.add]; ring) end.
  destruct Rlt_dec; [reflexivity|lra].
Qed.
(* two calls add the nugget twice *)
Lemma nugget_stays rate nugget tr fast c dt n : sampled c dt n -> exists s c', tospecdata rate nugget tr fast c = Ok (s, c') /\ at_R (cdata c') 0 = at_R (cdata c) 0 + nugget
  /\ exists s2 c2, tospecdata rate nugget tr fast c' = Ok (s2, c2) /\ at_R (cdata c2) 0 = at_R (cdata c) 0 + 2 * nugget.
Proof.
  intros Hc. assert (exists r, upsampling rate r) as [r Hr] by (destruct rate as [q|]; [exists (pow2_above q); apply pow2_above_spec|now exists 1%nat]).
  destruct (spectrum_of_covariance rate nugget tr fast c dt n r _ Hc Hr (pow2_above_spec _)) as (s & E & _). set (c' := Covariance _ _ _ _) in E. exists s, c'. split; [exact E|]. split; [reflexivity|].
  assert (Hc' : sampled c' dt n).
  { destruct Hc as (H1 & H2 & H3 & H4). repeat split; try easy. cbn [c' cdata]. destruct (cdata c); cbn in *; lia. }
  destruct (spectrum_of_covariance rate nugget tr fast c' dt n r _ Hc' Hr (pow2_above_spec _)) as (s2 & E2 & _). eexists. eexists. split; [exact E2|]. cbn. unfold at_R. cbn. ring.
Qed.
Lemma without_nugget rate tr fast c dt n : sampled c dt n -> exists s, tospecdata rate 0 tr fast c = Ok (s, c).
Proof.
  intros Hc. assert (exists r, upsampling rate r) as [r Hr] by (destruct rate as [q|]; [exists (pow2_above q); apply pow2_above_spec|now exists 1%nat]).
  destruct (spectrum_of_covariance rate 0 tr fast c dt n r _ Hc Hr (pow2_above_spec _)) as (s & E & _). exists s. rewrite E. f_equal. f_equal.
  destruct c as [[|a l] ? ? ?]; [destruct Hc as (_ & H2 & _ & H4); cbn in H4; lia|]. cbn. unfold at_R. cbn. now rewrite Rplus_0_r.
Qed.
(* ---- cases ---- *)
Definition flat3 : spectrum := Spectrum [1; 2; 1] (uniform 0 1 3) Hertz.
Lemma flat3_even : even_grid flat3 1 3. Proof. repeat split; try lra; try lia. Qed.
Definition flat4 : spectrum := Spectrum [1; 2; 2; 1] (uniform 0 1 4) Omega.
Lemma flat4_even : even_grid flat4 1 4 /\ forall e, (4 <> 2 ^ e + 1)%nat.
Proof. split; [repeat split; try lra; try lia|]. intros [|[|e]]; cbn; lia. Qed.
Definition tri : covariance := Covariance [2; 1; 0] (uniform 0 1 3) Time [].
Lemma tri_density : density_at [2; 1; 0] 1 0 = 4 / PI /\ density_at [2; 1; 0] 1 (PI / 2) = 2 / PI /\ density_at [2; 1; 0] 1 PI = 0.
Proof.
  pose proof PI_RGT_0. unfold density_at, trapezoid. cbn. rewrite !Rmult_0_l, !Rmult_0_r, !Rmult_1_r, cos_0, cos_PI2, cos_PI. repeat split; field; lra.
Qed.
Lemma tri_case : sampled tri 1 (2 ^ 1 + 1) /\ derivatives tri = []
  /\ (let d := fun l => density_at (cdata tri) 1 (INR l * (PI / (INR (2 ^ 1) * 1))) in
      forall l, (l <= 2 ^ 1)%nat -> 0 <= d l /\ (d l = 0 \/ forall m, (m <= 2 ^ 1)%nat -> 1 / 100000 * d m <= d l)).
Proof.
  split; [repeat split; try lra; try (cbn; lia)|]. split; [reflexivity|]. intros d. cbn [tri cdata] in d. destruct tri_density as (D0 & D1 & D2). pose proof PI_RGT_0.
  assert (E0 : d 0%nat = 4 / PI) by (unfold d; rewrite <- D0; apply (f_equal (density_at [2; 1; 0] 1)); cbn; ring).
  assert (E1 : d 1%nat = 2 / PI) by (unfold d; rewrite <- D1; apply (f_equal (density_at [2; 1; 0] 1)); cbn; field).
  assert (E2 : d 2%nat = 0) by (unfold d; transitivity (density_at [2; 1; 0] 1 PI); [|exact D2]; apply (f_equal (density_at [2; 1; 0] 1)); cbn; field).
  assert (P : 0 < / PI) by now apply Rinv_0_lt_compat.
  assert (Q : forall m, (m <= 2)%nat -> d m <= 4 / PI) by (intros [|[|[|m]]] Hm; [rewrite E0|rewrite E1|rewrite E2|lia]; unfold Rdiv; lra).
  intros l Hl. cbn in Hl. destruct l as [|[|[|l]]]; [| | |lia].
  - rewrite E0. unfold Rdiv in *. split; [lra|right]. intros m Hm. specialize (Q m Hm). lra.
  - rewrite E1. unfold Rdiv in *. split; [lra|right]. intros m Hm. specialize (Q m Hm). lra.
  - rewrite E2. split; [lra|now left].
Qed.
Lemma flat3_trunc : (forall v, In v (sdata flat3) -> 0 <= v) /\ (forall v, In v (sdata flat3) -> v = 0 \/ forall u, In u (sdata flat3) -> 1 / 100000 * u <= v).
Proof. cbn. split; [intros v [<-|[<-|[<-|[]]]]; lra|]. intros v Hv. right. intros u [<-|[<-|[<-|[]]]]; destruct Hv as [<-|[<-|[<-|[]]]]; lra. Qed.
Lemma flat3_rate : rate_used (Some 3%nat) 4 /\ least_pow2 (2 * 3 - 2) 4 /\ upsampling (Some 3%nat) 4.
Proof.
  assert (L : least_pow2 3 4) by (split; [lia|split; [now exists 2%nat|]]; intros [|[|e]]; cbn; [lia|lia|pose proof (Nat.pow_nonzero 2 e); lia]).
  split; [right; split; [lia|exact L]|]. split; [|exact L]. split; [lia|split; [now exists 2%nat|]]. intros [|[|e]]; cbn; [lia|lia|pose proof (Nat.pow_nonzero 2 e); lia].
Qed.
Definition bent3 : spectrum := Spectrum [1; 1; 1] [0; 1; 3] Omega.
Lemma bent : (2 + 0 < List.length (sargs bent3))%nat
  /\ 1 / 10 ^ 8 < Rabs (at_R (sargs bent3) (2 + 0) - 2 * at_R (sargs bent3) (1 + 0) + at_R (sargs bent3) 0).
Proof. cbn. split; [lia|]. unfold at_R. cbn. rewrite Rabs_pos_eq by lra. lra. Qed.
