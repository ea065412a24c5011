From Coq Require Import Reals List ZArith Lra Lia Permutation.
From Verif Require Import Base CrossModel CrossSpec AstmSpec RfcModel CyclesModel CyclesSpec CyclesProofs DamModel DamSpec DamProofs.
Import ListNotations.
Local Open Scope R_scope.

Definition realc (c : Z * Z) : R * R := (IZR (fst c), IZR (snd c)).
Lemma split_steps : forall l up, zigzag up l -> Permutation (map realc (rises l) ++ map realc (falls l)) (steps l).
Proof.
  induction l as [|a l IH]; intros up Z; [constructor|]. destruct l as [|b l]; [constructor|]. destruct Z as [H Z]. specialize (IH _ Z).
  change (rises (a :: b :: l)) with (if (a <? b)%Z then (a, b) :: rises (b :: l) else rises (b :: l)).
  change (falls (a :: b :: l)) with (if (b <? a)%Z then (a, b) :: falls (b :: l) else falls (b :: l)).
  change (steps (a :: b :: l)) with ((IZR a, IZR b) :: steps (b :: l)).
  destruct up; destruct (Z.ltb_spec a b), (Z.ltb_spec b a); try (exfalso; lia).
  - cbn [map app]. constructor. exact IH.
  - cbn [map]. rewrite <- Permutation_middle. constructor. exact IH.
Qed.
Lemma combine_fst_snd (l : list (Z * Z)) : combine (map IZR (map fst l)) (map IZR (map snd l)) = map realc l.
Proof. induction l as [|c l IH]; [reflexivity|]. cbn. rewrite IH. reflexivity. Qed.
Lemma combine_snd_fst (l : list (Z * Z)) : combine (map IZR (map snd l)) (map IZR (map fst l)) = map turned (map realc l).
Proof. induction l as [|c l IH]; [reflexivity|]. cbn. rewrite IH. reflexivity. Qed.

Lemma damage_pairs : forall mem data up method beta K, (2 <= List.length data)%nat -> zigzag up data ->
  exists p q, cycle_pairs mem data 0 true method = Ok p /\ cycle_pairs mem data 0 false method = Ok q /\
    added (damage (cycles_of p) beta K) (damage (cycles_of q) beta K) (damage (steps data) beta K).
Proof.
  intros mem data up method beta K L Z. destruct (pairs_of_spec data up L Z) as [E1 E2]. eexists. eexists. split; [exact E1|]. split; [exact E2|].
  unfold cycles_of. cbn [fst snd]. rewrite combine_fst_snd, combine_snd_fst, damage_turned.
  rewrite <- (damage_perm _ _ beta K (split_steps data up Z)). apply damage_sum.
Qed.
Lemma damage_pairs_case : zigzag true [0; 2; 1; 5]%Z /\ cycle_pairs [] [0; 2; 1; 5]%Z 0 true None = Ok ([2; 5], [0; 1])%Z /\
  cycles_of ([2; 5], [0; 1])%Z = [(0, 2); (1, 5)].
Proof. split; [cbn; lia|]. split; reflexivity. Qed.
