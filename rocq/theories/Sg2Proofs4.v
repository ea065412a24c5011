From Coq Require Import Reals List Lra Lia Bool Arith.
From Verif Require Import Base ArSpec ArProofs2 CsimProofs PolySpec Sg2Model Sg2Spec Sg2Proofs Sg2Proofs2 Sg2Proofs3.
Import ListNotations.
Local Open Scope R_scope.
Set Bullet Behavior "Strict Subproofs".

(* ---- the rates of change ---- *)
Lemma sum_derive n (f : nat -> R -> R) (g : nat -> R) x : (forall k, (k < n)%nat -> derivable_pt_lim (f k) x (g k)) -> derivable_pt_lim (fun t => sum_to n (fun k => f k t)) x (sum_to n g).
Proof.
  induction n as [|n IH]; intros H; [apply derivable_pt_lim_const|]. apply (derivable_pt_lim_plus (fun t => sum_to n (fun k => f k t)) (f n)); [apply IH; intros; apply H; lia|apply H; lia].
Qed.
Lemma term_derive a b u x : derivable_pt_lim (fun t => a * t ^ u * b) x (a * (INR u * x ^ pred u) * b).
Proof.
  assert (E : derivable_pt_lim (mult_real_fct (a * b) (fun t => t ^ u)) x (a * b * (INR u * x ^ pred u))) by (apply derivable_pt_lim_scal, derivable_pt_lim_pow).
  intros eps He. destruct (E eps He) as [d Hd]. exists d. intros h Hh Hh'. specialize (Hd h Hh Hh'). unfold mult_real_fct in Hd.
  replace (a * (x + h) ^ u * b - a * x ^ u * b) with (a * b * (x + h) ^ u - a * b * x ^ u) by ring. replace (a * (INR u * x ^ pred u) * b) with (a * b * (INR u * x ^ pred u)) by ring. exact Hd.
Qed.
Lemma derive_ext f g x l : (forall t, f t = g t) -> derivable_pt_lim f x l -> derivable_pt_lim g x l.
Proof. intros E H eps He. destruct (H eps He) as [d Hd]. exists d. intros h Hh Hh'. rewrite <- !E. now apply Hd. Qed.
Lemma only_term order (k : nat) (f : nat -> R) : (k < List.length (exps order))%nat -> (forall l, (l < List.length (exps order))%nat -> nth l (exps order) (0, 0)%nat <> nth k (exps order) (0, 0)%nat -> f l = 0) -> sum_to (List.length (exps order)) f = f k.
Proof. intros H Z. apply sum_pick; [exact H|]. intros i Hi N. apply Z; [exact Hi|]. intros E. apply N. now apply (exps_nth_inj order). Qed.
Lemma short_exps order : (order < 1)%nat -> List.length (exps order) = 1%nat.
Proof. intros H. replace order with 0%nat by lia. reflexivity. Qed.
Lemma row_rate_is order c : (1 <= order)%nat -> row_rate order c (c 1%nat 0%nat).
Proof.
  intros H. assert (L : (1 < List.length (exps order))%nat) by (destruct (exps_prefix order H) as [L ->]; cbn; lia). destruct (exps_12 order L) as (E1 & _).
  unfold row_rate. apply (derive_ext (fun t => sum_to (List.length (exps order)) (fun l => let e := nth l (exps order) (0, 0)%nat in c (fst e) (snd e) * t ^ fst e * 0 ^ snd e))).
  - intros t. now rewrite surface_list.
  - replace (c 1%nat 0%nat) with (sum_to (List.length (exps order)) (fun l => let e := nth l (exps order) (0, 0)%nat in c (fst e) (snd e) * (INR (fst e) * 0 ^ pred (fst e)) * 0 ^ snd e)).
    + apply sum_derive. intros k Hk. cbv zeta. apply term_derive.
    + rewrite (only_term order 1 _ L); [rewrite E1; cbn; ring|]. intros l Hl N. rewrite E1 in N. cbv zeta. destruct (nth l (exps order) (0, 0)%nat) as [u v]. cbn [fst snd]. rewrite !zero_pow.
      destruct u as [|[|u]]; cbn [pred Nat.eqb INR]; [ring| |ring]. destruct v as [|v]; [congruence|cbn [Nat.eqb]; ring].
Qed.
Lemma column_rate_is order c : (1 <= order)%nat -> column_rate order c (c 0%nat 1%nat).
Proof.
  intros H. assert (L : (1 < List.length (exps order))%nat) by (destruct (exps_prefix order H) as [L ->]; cbn; lia). destruct (exps_12 order L) as (_ & E2 & L2 & _).
  unfold column_rate. apply (derive_ext (fun t => sum_to (List.length (exps order)) (fun l => let e := nth l (exps order) (0, 0)%nat in c (fst e) (snd e) * 0 ^ fst e * t ^ snd e * 1))).
  - intros t. rewrite surface_list. apply sum_ext. intros; cbv zeta; ring.
  - replace (c 0%nat 1%nat) with (sum_to (List.length (exps order)) (fun l => let e := nth l (exps order) (0, 0)%nat in c (fst e) (snd e) * 0 ^ fst e * (INR (snd e) * 0 ^ pred (snd e)) * 1)).
    + apply sum_derive. intros k Hk. cbv zeta. apply term_derive.
    + rewrite (only_term order 2 _ L2); [rewrite E2; cbn; ring|]. intros l Hl N. rewrite E2 in N. cbv zeta. destruct (nth l (exps order) (0, 0)%nat) as [u v]. cbn [fst snd]. rewrite !zero_pow.
      destruct v as [|[|v]]; cbn [pred Nat.eqb INR]; [ring| |ring]. destruct u as [|u]; [congruence|cbn [Nat.eqb]; ring].
Qed.

(* ---- the theorems inside the image ---- *)
Lemma smoothing pinv z w order out i j c : is_inverse pinv -> sgolay2d pinv z w order NoDeriv = Ok out -> inside (rows z) (cols z) (w / 2) i j -> looks_like (px z) i j (w / 2) order c ->
  exists y, out = [y] /\ px y i j = px z i j.
Proof.
  intros MP H (H1 & H2 & H3 & H4) Lk. destruct (smooth_value pinv z w order out i j c MP H (inside_padded _ _ _ _ _ _ H1 H2 H3 H4 Lk)) as [y [-> E]]. exists y. split; [reflexivity|]. rewrite E.
  pose proof (Lk (w / 2)%nat (w / 2)%nat ltac:(lia) ltac:(lia)) as V. rewrite !Nat.add_sub, Rminus_diag_eq, surface_at_0 in V by reflexivity. symmetry. exact V.
Qed.
Lemma deriv_order pinv z w order d out : sgolay2d pinv z w order d = Ok out -> d <> NoDeriv -> (1 <= order)%nat.
Proof.
  intros H N. apply call_spec in H. cbv zeta in H. destruct H as (_ & _ & _ & _ & No & Hd & _).
  assert (L1 : (1 < List.length (exps order))%nat).
  { destruct d; try contradiction; [apply (Hd 1%nat); now left| |apply (Hd 1%nat); now left]. pose proof (Hd 2%nat (or_introl eq_refl)). lia. }
  now destruct (exps_12 order L1) as (_ & _ & _ & H).
Qed.
Lemma row_slope pinv z w order out i j c g : is_inverse pinv -> (order < w)%nat -> sgolay2d pinv z w order Col = Ok out -> inside (rows z) (cols z) (w / 2) i j -> looks_like (px z) i j (w / 2) order c -> row_rate order c g ->
  exists y, out = [y] /\ px y i j = g.
Proof.
  intros MP Ho H (H1 & H2 & H3 & H4) Lk G. pose proof (slope_value pinv z w order Col out i j c MP Ho H (inside_padded _ _ _ _ _ _ H1 H2 H3 H4 Lk) ltac:(discriminate)) as E. cbn in E.
  destruct out as [|y [|y' out]]; try discriminate. exists y. split; [reflexivity|]. injection E as ->. symmetry. eapply uniqueness_limite; [exact G|]. apply row_rate_is. eapply deriv_order; [exact H|discriminate].
Qed.
Lemma column_slope pinv z w order out i j c g : is_inverse pinv -> (order < w)%nat -> sgolay2d pinv z w order Row = Ok out -> inside (rows z) (cols z) (w / 2) i j -> looks_like (px z) i j (w / 2) order c -> column_rate order c g ->
  exists y, out = [y] /\ px y i j = g.
Proof.
  intros MP Ho H (H1 & H2 & H3 & H4) Lk G. pose proof (slope_value pinv z w order Row out i j c MP Ho H (inside_padded _ _ _ _ _ _ H1 H2 H3 H4 Lk) ltac:(discriminate)) as E. cbn in E.
  destruct out as [|y [|y' out]]; try discriminate. exists y. split; [reflexivity|]. injection E as ->. symmetry. eapply uniqueness_limite; [exact G|]. apply column_rate_is. eapply deriv_order; [exact H|discriminate].
Qed.
Lemma both_slopes pinv z w order out : sgolay2d pinv z w order Both = Ok out -> exists y y', out = [y; y'] /\ sgolay2d pinv z w order Col = Ok [y] /\ sgolay2d pinv z w order Row = Ok [y'].
Proof.
  intros H. pose proof (call_spec _ _ _ _ _ _ H) as K. cbv zeta in K. destruct K as (_ & _ & _ & _ & _ & Hd & E). pose proof (Hd 1%nat (or_introl eq_refl)) as D1. pose proof (Hd 2%nat (or_intror (or_introl eq_refl))) as D2.
  cbn [map] in E. subst out. eexists. eexists. split; [reflexivity|]. revert H. unfold sgolay2d. cbv zeta.
  destruct (negb _ || _)%bool; [discriminate|]. destruct (w * w <? _)%nat; [discriminate|]. destruct ((w / 2 <? 1) || _ || _)%bool%nat; [discriminate|]. intros _. cbn [existsb map].
  apply Nat.leb_gt in D1, D2. rewrite D1, D2. cbn. split; reflexivity.
Qed.
