(* The sum of the two seas of Torsethaugen, and the exponent McCormick searches for. *)
From Coq Require Import Reals Lra ClassicalEpsilon.
From Coquelicot Require Import Coquelicot.
From Verif Require Import Base PolyModel WaveModel SeaModel SeaSpec SeaProofs6.
Local Open Scope R_scope.

Lemma torset_sum g wind swell W a b : area (jons_call g wind) 0 W a -> area (jons_call g swell) 0 W b -> area (torsethaugen_call g (wind, swell)) 0 W (a + b).
Proof.
  intros A B. unfold area, torsethaugen_call in *. cbn [fst snd].
  exact (is_RInt_plus (V := R_NormedModule) _ _ _ _ _ _ A B).
Qed.

Lemma misfit_continuous gam c x : 0 <= x -> (forall x, 1 <= x -> continuity_pt gam x /\ gam x <> 0) ->
  continuity_pt (fun x => (Rpower (1 + x) x / gam (1 + x) - c) ^ 2) x.
Proof.
  intros P G. destruct (G (1 + x) ltac:(lra)) as [C N].
  assert (D : continuity_pt (fun x => gam (1 + x)) x).
  { apply (continuity_pt_comp (fun x => 1 + x) gam x); [|exact C]. apply derivable_continuous_pt. reg. }
  assert (L : continuity_pt (fun x => Rpower (1 + x) x) x).
  { unfold Rpower. apply (continuity_pt_comp (fun x => x * ln (1 + x)) exp x).
    - apply (continuity_pt_mult (fun x => x) (fun x => ln (1 + x)) x); [apply derivable_continuous_pt; reg|].
      apply (continuity_pt_comp (fun x => 1 + x) ln x); [apply derivable_continuous_pt; reg|]. apply derivable_continuous_pt. exists (/ (1 + x)).
      apply derivable_pt_lim_ln. lra.
    - apply derivable_continuous_pt. reg. }
  assert (Q : continuity_pt (fun x => Rpower (1 + x) x / gam (1 + x)) x) by (apply (continuity_pt_div (fun x => Rpower (1 + x) x) (fun x => gam (1 + x)) x); assumption).
  apply (continuity_pt_comp (fun x => Rpower (1 + x) x / gam (1 + x)) (fun y => (y - c) ^ 2) x); [exact Q|]. apply derivable_continuous_pt. reg.
Qed.

Lemma mccormick_best fmin gam H T Tz s : minimiser fmin -> (forall x, 1 <= x -> continuity_pt gam x /\ gam x <> 0) -> 0 < H ->
  mccormick fmin gam H T Tz None true = Ok s ->
  let tz := match Tz with Some t => t | None => 8143 / 10000 * T end in
  let misfit x := (Rpower (1 + x) x / gam (1 + x) - T / tz) ^ 2 in
  1 / 100 <= 1 / bM s <= 5 /\ forall x, 1 / 100 <= x <= 5 -> misfit (1 / bM s) <= misfit x.
Proof.
  intros Mi G PH E tz misfit. unfold mccormick in E. destruct (Rlt_dec 0 H) as [_|N]; [|lra]. cbn [bind] in E.
  unfold bretschneider in E. destruct (chk_seastate H T) as [u|e]; cbn [bind] in E; [|discriminate].
  assert (Q : forall a b : bret, Ok a = Ok b -> a = b) by congruence. apply Q in E. subst s. cbn [bM].
  destruct (Mi misfit (1 / 100) 5 ltac:(lra)) as [[L U] B].
  { intros x X. apply misfit_continuous; [lra|exact G]. }
  assert (V : 1 / (1 / fmin misfit (1 / 100) 5) = fmin misfit (1 / 100) 5) by (field; lra).
  assert (K : (match Tz with None => 8143 / 10000 * T | Some t => t end) = tz) by reflexivity.
  rewrite K. fold misfit. rewrite V. split; [split; assumption|exact B].
Qed.

Lemma some_minimiser : exists fmin, minimiser fmin.
Proof.
  assert (P : forall f a b, exists m, a <= b -> (forall x, a <= x <= b -> continuity_pt f x) -> a <= m <= b /\ forall x, a <= x <= b -> f m <= f x).
  { intros f a b. destruct (Rle_dec a b) as [L|L]; [|exists 0; intros; lra].
    destruct (excluded_middle_informative (forall x, a <= x <= b -> continuity_pt f x)) as [C|C]; [|exists 0; intros; contradiction].
    destruct (continuity_ab_min f a b L C) as [m [M1 M2]]. exists m. intros _ _. split; assumption. }
  exists (fun f a b => proj1_sig (constructive_indefinite_description _ (P f a b))).
  intros f a b L C. destruct (constructive_indefinite_description _ (P f a b)) as [m M]. cbn. exact (M L C).
Qed.

Lemma mccormick_call : exists fmin gam s, minimiser fmin /\ (forall x, 1 <= x -> continuity_pt gam x /\ gam x <> 0) /\ mccormick fmin gam 7 11 None None true = Ok s.
Proof.
  destruct some_minimiser as [fmin M]. exists fmin, (fun _ => 1).
  assert (E : exists s, mccormick fmin (fun _ => 1) 7 11 None None true = Ok s).
  { unfold mccormick, bretschneider, chk_seastate. destruct (Rlt_dec 0 7); [|lra]. cbn [bind]. destruct (Rlt_dec 7 0); [lra|]. destruct (Rle_dec 11 0); [lra|]. cbn [bind]. eexists. reflexivity. }
  destruct E as [s E]. exists s. split; [exact M|]. split; [|exact E]. intros x _. split; [apply derivable_continuous_pt; reg|lra].
Qed.
