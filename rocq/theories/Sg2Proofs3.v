From Coq Require Import Reals List Lra Lia Bool Arith.
From Verif Require Import Base ArSpec ArProofs2 CsimProofs PolySpec Sg2Model Sg2Spec Sg2Proofs Sg2Proofs2.
Import ListNotations.
Local Open Scope R_scope.
Set Bullet Behavior "Strict Subproofs".

Definition unit_m (l m : nat) : R := if (l =? m)%nat then 1 else 0.
(* A (P A) = A *)
Lemma apa p q A P : moore_penrose p q A P -> forall r l, (r < p)%nat -> (l < q)%nat -> sum_to q (fun k => A r k * times p P A k l) = A r l.
Proof. intros [H _] r l Hr Hl. rewrite <- (H r l Hr Hl). symmetry. apply times_assoc. Qed.
Lemma exps_nth_inj order l m : (l < List.length (exps order))%nat -> (m < List.length (exps order))%nat -> nth l (exps order) (0, 0)%nat = nth m (exps order) (0, 0)%nat -> l = m.
Proof. intros Hl Hm E. apply (proj1 (NoDup_nth (exps order) (0, 0)%nat) (exps_nodup order)); assumption. Qed.
Lemma exps_0 order : nth 0 (exps order) (0, 0)%nat = (0, 0)%nat /\ (0 < List.length (exps order))%nat.
Proof. destruct (exps_zero order) as [L ->]. split; [reflexivity|cbn; lia]. Qed.
Lemma exps_12 order : (1 < List.length (exps order))%nat -> nth 1 (exps order) (0, 0)%nat = (1, 0)%nat /\ nth 2 (exps order) (0, 0)%nat = (0, 1)%nat /\ (2 < List.length (exps order))%nat /\ (1 <= order)%nat.
Proof.
  intros H. assert (O1 : (1 <= order)%nat) by (destruct order; [cbn in H; lia|lia]). destruct (exps_prefix order O1) as [L E]. rewrite E. cbn. repeat split; lia.
Qed.
Lemma zero_pow u : 0 ^ u = if (u =? 0)%nat then 1 else 0.
Proof. destruct u; cbn; [reflexivity|ring]. Qed.
(* the row of the centre *)
Lemma centre_row s order l : let w := (2 * s + 1)%nat in (l < List.length (exps order))%nat -> design w s order (s * w + s)%nat l = unit_m l 0.
Proof.
  intros w Hl. unfold design. cbv zeta. destruct (div_mod w s s ltac:(unfold w; lia)) as [-> ->]. rewrite Rminus_diag_eq, !zero_pow by reflexivity. unfold unit_m.
  destruct (exps_0 order) as [E0 L0]. destruct (Nat.eqb_spec l 0) as [->|N].
  - rewrite E0. cbn. ring.
  - destruct (nth l (exps order) (0, 0)%nat) as [u v] eqn:E. cbn [fst snd]. destruct u as [|u]; [destruct v as [|v]|]; cbn [Nat.eqb]; try ring. exfalso. apply N. apply (exps_nth_inj order); auto. congruence.
Qed.
Lemma row_zero s order P l : let w := (2 * s + 1)%nat in let q := List.length (exps order) in moore_penrose (w * w) q (design w s order) P -> (l < q)%nat -> times (w * w) P (design w s order) 0 l = unit_m l 0.
Proof.
  intros w q MP Hl. assert (Hr : (s * w + s < w * w)%nat) by (unfold w; nia). pose proof (apa _ _ _ _ MP (s * w + s)%nat l Hr Hl) as E.
  destruct (exps_0 order) as [_ L0]. rewrite (sum_pick q 0) in E.
  - unfold w in E. rewrite !centre_row in E by assumption. unfold unit_m at 1 in E. cbn [Nat.eqb] in E. unfold w. lra.
  - exact L0.
  - intros k Hk Nk. unfold w. rewrite centre_row by exact Hk. unfold unit_m. destruct (Nat.eqb_spec k 0); [contradiction|ring].
Qed.
(* independent columns *)
Lemma pick_pow x u w : (u < w)%nat -> x ^ u = sum_to w (fun p => unit_m u p * x ^ p).
Proof. intros H. rewrite (sum_pick w u); [unfold unit_m; rewrite Nat.eqb_refl; ring|exact H|]. intros i _ N. unfold unit_m. destruct (Nat.eqb_spec u i); [congruence|ring]. Qed.
Lemma unit_same l : unit_m l l = 1. Proof. unfold unit_m. now rewrite Nat.eqb_refl. Qed.
Lemma unit_other l m : l <> m -> unit_m l m = 0. Proof. unfold unit_m. intros. destruct (Nat.eqb_spec l m); [contradiction|reflexivity]. Qed.
Lemma independent s order v : let w := (2 * s + 1)%nat in let q := List.length (exps order) in (order < w)%nat -> (forall r, (r < w * w)%nat -> sum_to q (fun l => design w s order r l * v l) = 0) -> forall l, (l < q)%nat -> v l = 0.
Proof.
  intros w q Ho H. set (e := fun l => nth l (exps order) (0, 0)%nat).
  assert (Eb : forall l, (l < q)%nat -> (fst (e l) < w /\ snd (e l) < w)%nat).
  { intros l Hl. assert (I : In (e l) (exps order)) by (apply nth_In; exact Hl). apply exps_in in I. lia. }
  assert (H1 : forall a b, (a < w)%nat -> (b < w)%nat -> sum_to q (fun l => (INR a - INR s) ^ fst (e l) * (INR b - INR s) ^ snd (e l) * v l) = 0).
  { intros a b Ha Hb. rewrite <- (H (a * w + b)%nat) by nia. apply sum_ext. intros l Hl. unfold design. cbv zeta. destruct (div_mod w a b Hb) as [-> ->]. reflexivity. }
  assert (H2 : forall a k, (a < w)%nat -> (k < w)%nat -> sum_to q (fun l => unit_m (snd (e l)) k * (INR a - INR s) ^ fst (e l) * v l) = 0).
  { intros a k Ha. revert k. apply (grid_roots w (fun k => sum_to q (fun l => unit_m (snd (e l)) k * (INR a - INR s) ^ fst (e l) * v l)) (INR s)). intros b Hb.
    rewrite (sum_ext w _ (fun u => sum_to q (fun l => (INR a - INR s) ^ fst (e l) * v l * (unit_m (snd (e l)) u * (INR b - INR s) ^ u)))).
    - rewrite sum_swap. rewrite <- (H1 a b Ha Hb). apply sum_ext. intros l Hl. rewrite sum_scal. rewrite <- pick_pow by apply Eb, Hl. ring.
    - intros u _. rewrite <- sum_scal_r. apply sum_ext. intros; ring. }
  assert (H3 : forall k p, (k < w)%nat -> (p < w)%nat -> sum_to q (fun l => unit_m (snd (e l)) k * unit_m (fst (e l)) p * v l) = 0).
  { intros k p Hk. revert p. apply (grid_roots w (fun p => sum_to q (fun l => unit_m (snd (e l)) k * unit_m (fst (e l)) p * v l)) (INR s)). intros a Ha.
    rewrite (sum_ext w _ (fun u => sum_to q (fun l => unit_m (snd (e l)) k * v l * (unit_m (fst (e l)) u * (INR a - INR s) ^ u)))).
    - rewrite sum_swap. rewrite <- (H2 a k Ha Hk). apply sum_ext. intros l Hl. rewrite sum_scal. rewrite <- pick_pow by apply Eb, Hl. ring.
    - intros u _. rewrite <- sum_scal_r. apply sum_ext. intros; ring. }
  intros l Hl. destruct (Eb l Hl) as [B1 B2]. pose proof (H3 (snd (e l)) (fst (e l)) B2 B1) as E. rewrite (sum_pick q l) in E.
  - rewrite !unit_same in E. lra.
  - exact Hl.
  - intros m Hm N. destruct (Nat.eq_dec (snd (e m)) (snd (e l))) as [E1|E1]; [|rewrite (unit_other _ _ E1); ring].
    destruct (Nat.eq_dec (fst (e m)) (fst (e l))) as [E2|E2]; [|rewrite (unit_other (fst (e m)) _ E2); ring].
    exfalso. apply N. apply (exps_nth_inj order m l Hm Hl). fold (e m) (e l). rewrite (surjective_pairing (e m)), (surjective_pairing (e l)). congruence.
Qed.
Lemma identity s order P : let w := (2 * s + 1)%nat in let q := List.length (exps order) in (order < w)%nat -> moore_penrose (w * w) q (design w s order) P -> forall l m, (l < q)%nat -> (m < q)%nat -> times (w * w) P (design w s order) l m = unit_m l m.
Proof.
  intros w q Ho MP l m Hl Hm. apply Rminus_diag_uniq. revert l Hl. apply (independent s order (fun l => times (w * w) P (design w s order) l m - unit_m l m) Ho).
  intros r Hr. fold q w. rewrite (sum_ext q _ (fun l => design w s order r l * times (w * w) P (design w s order) l m - design w s order r l * unit_m l m)) by (intros; ring).
  rewrite sum_minus, (apa _ _ _ _ MP r m Hr Hm). rewrite (sum_pick q m); [rewrite unit_same; ring|exact Hm|]. intros i _ N. rewrite unit_other by exact N. ring.
Qed.

(* ---- the calls ---- *)
Definition half (w : nat) := (w / 2)%nat.
Lemma call_spec pinv z w order d out : sgolay2d pinv z w order d = Ok out -> let s := (w / 2)%nat in let q := List.length (exps order) in let sign := match d with NoDeriv => 1 | _ => -1 end in
  let dims := match d with NoDeriv => [0] | Col => [1] | Row => [2] | _ => [1; 2] end%nat in
  w = (2 * s + 1)%nat /\ (1 <= s)%nat /\ (s < rows z)%nat /\ (s < cols z)%nat /\ d <> Other /\ (forall i, In i dims -> (i < q)%nat) /\
  out = map (fun i => convolved z s w (fun r => sign * pinv (w * w)%nat q (design w s order) i r)) dims.
Proof.
  unfold sgolay2d. cbv zeta. intros H.
  destruct (negb (w mod 2 =? 1) || (w <? 1))%nat%bool eqn:C1; [discriminate|]. destruct (w * w <? (order + 1) * (order + 2) / 2)%nat; [discriminate|].
  destruct ((w / 2 <? 1) || (rows z <=? w / 2) || (cols z <=? w / 2))%nat%bool eqn:C2; [discriminate|].
  apply orb_false_iff in C1. destruct C1 as [C1 _]. apply negb_false_iff, Nat.eqb_eq in C1. apply orb_false_iff in C2. destruct C2 as [C2 C4]. apply orb_false_iff in C2. destruct C2 as [C2 C3].
  apply Nat.ltb_ge in C2. apply Nat.leb_gt in C3, C4. pose proof (Nat.div_mod w 2 ltac:(lia)) as D.
  split; [lia|]. split; [exact C2|]. split; [exact C3|]. split; [exact C4|].
  assert (K : forall dims f, (if existsb (fun i => (List.length (exps order) <=? i)%nat) dims then Err IndexError else Ok (map f dims)) = Ok out -> (forall i, In i dims -> (i < List.length (exps order))%nat) /\ out = map f dims).
  { intros dims f E. destruct (existsb _ dims) eqn:X; [discriminate|]. split; [|congruence]. intros i Hi. destruct (Nat.ltb_spec i (List.length (exps order))) as [L|L]; [exact L|]. exfalso.
    assert (T : existsb (fun i => (List.length (exps order) <=? i)%nat) dims = true) by (apply existsb_exists; exists i; split; [exact Hi|now apply Nat.leb_le]). congruence. }
  destruct d; try discriminate; (split; [discriminate|]); apply K; exact H.
Qed.
Lemma sum_unit q f k : (k < q)%nat -> sum_to q (fun l => unit_m l k * f l) = f k.
Proof. intros H. rewrite (sum_pick q k); [rewrite unit_same; ring|exact H|]. intros i _ N. rewrite unit_other by exact N. ring. Qed.
Lemma unit_comm l m : unit_m l m = unit_m m l. Proof. unfold unit_m. now rewrite Nat.eqb_sym. Qed.
Lemma surface_at_0 order c : surface order c 0 0 = c 0%nat 0%nat.
Proof.
  rewrite surface_list. unfold sum_over. destruct (exps_0 order) as [E0 L0]. rewrite (sum_pick _ 0); [rewrite E0; cbn; ring|exact L0|].
  intros l Hl N. destruct (nth l (exps order) (0, 0)%nat) as [u v] eqn:E. cbn [fst snd]. rewrite !zero_pow. destruct u as [|u]; [destruct v as [|v]|]; cbn [Nat.eqb]; try ring.
  exfalso. apply N. apply (exps_nth_inj order); auto. congruence.
Qed.
Lemma kernel_sum s order P sign k l : sum_to ((2 * s + 1) * (2 * s + 1)) (fun r => sign * P k r * design (2 * s + 1) s order r l) = sign * times ((2 * s + 1) * (2 * s + 1)) P (design (2 * s + 1) s order) k l.
Proof. unfold times. rewrite <- sum_scal. apply sum_ext. intros; ring. Qed.
Lemma smooth_value pinv z w order out i j c : (forall p q A, moore_penrose p q A (pinv p q A)) -> sgolay2d pinv z w order NoDeriv = Ok out ->
  padded z (w / 2) i j order c -> exists y, out = [y] /\ px y i j = c 0%nat 0%nat.
Proof.
  intros MP H Lk. apply call_spec in H. cbv zeta in H. remember (w / 2)%nat as s eqn:Es. destruct H as (Ew & Hs & _ & _ & _ & Hd & ->). eexists. split; [reflexivity|].
  clear Es. subst w. rewrite (filter_surface z s order c i j) by assumption.
  rewrite (sum_ext _ _ (fun l => unit_m l 0 * flipped c order l)).
  - destruct (exps_0 order) as [E0 L0]. rewrite sum_unit by exact L0. unfold flipped. rewrite E0. cbn. ring.
  - intros l Hl. f_equal. rewrite kernel_sum. rewrite row_zero; [ring|apply MP|exact Hl].
Qed.
Lemma slope_value pinv z w order d out i j c : (forall p q A, moore_penrose p q A (pinv p q A)) -> (order < w)%nat -> sgolay2d pinv z w order d = Ok out ->
  padded z (w / 2) i j order c -> d <> NoDeriv -> map (fun y => px y i j) out = match d with Col => [c 1%nat 0%nat] | Row => [c 0%nat 1%nat] | _ => [c 1%nat 0%nat; c 0%nat 1%nat] end.
Proof.
  intros MP Ho H Lk Nd. apply call_spec in H. cbv zeta in H. remember (w / 2)%nat as s eqn:Es. destruct H as (Ew & Hs & _ & _ & No & Hd & ->).
  clear Es. subst w.
  assert (L1 : (1 < List.length (exps order))%nat).
  { destruct d; try contradiction; [apply (Hd 1%nat); now left| |apply (Hd 1%nat); now left]. pose proof (Hd 2%nat (or_introl eq_refl)). lia. }
  destruct (exps_12 order L1) as (E1 & E2 & L2 & _).
  assert (K : forall k, (k < List.length (exps order))%nat -> px (convolved z s (2 * s + 1) (fun r => -1 * pinv ((2 * s + 1) * (2 * s + 1))%nat (List.length (exps order)) (design (2 * s + 1) s order) k r)) i j = - flipped c order k).
  { intros k Hk. rewrite (filter_surface z s order c i j) by assumption.
    rewrite (sum_ext _ _ (fun l => unit_m l k * - flipped c order l)); [now rewrite sum_unit|]. intros l Hl. rewrite kernel_sum. rewrite identity; [rewrite (unit_comm k l); ring|lia|apply MP|exact Hk|exact Hl]. }
  assert (F1 : - flipped c order 1 = c 1%nat 0%nat) by (unfold flipped; rewrite E1; cbn; ring).
  assert (F2 : - flipped c order 2 = c 0%nat 1%nat) by (unfold flipped; rewrite E2; cbn; ring).
  destruct d; try contradiction; cbn [map]; rewrite ?(K 1%nat L1), ?(K 2%nat L2), ?F1, ?F2; reflexivity.
Qed.
