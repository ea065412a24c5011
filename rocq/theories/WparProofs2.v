From Coq Require Import Reals List ZArith Bool String Lra Lia.
From Verif Require Import Base CrossModel CrossSpec ListFacts CrossProofs TcProofs EcrossModel EcrossProofs FilterModel WparModel WparSpec WparProofs.
Import ListNotations.
Local Open Scope list_scope.
Local Open Scope R_scope.

(* the quantities of wave i in terms of the crossings z and extremes tc *)
Section Waves.
Variables (m : impl) (x : list Z) (t : list R) (z tc : list nat) (k : nat).
Hypothesis LX : List.length x = List.length t.
Hypothesis AS : ascending t.
Hypothesis FT : findtc m x 0 (Some "tw"%string) = Ok (tc, z).
Hypothesis LZ : List.length z = (2 * k + 2)%nat.
Hypothesis LT : List.length tc = (2 * k + 1)%nat.
Hypothesis IZ : increasing z.
Hypothesis DU : forall i, (i <= k)%nat -> DownCross x 0 (nth (2 * i) z 0%nat) /\ UpCross x 0 (nth (2 * i + 1) z 0%nat).
Hypothesis LO : forall i, (i <= k)%nat -> LowestIn x (nth (2 * i) z 0%nat) (nth (2 * i + 1) z 0%nat) (nth (2 * i) tc 0%nat).
Hypothesis HI : forall i, (i < k)%nat -> HighestIn x (nth (2 * i + 1) z 0%nat) (nth (2 * i + 2) z 0%nat) (nth (2 * i + 1) tc 0%nat).

Let zz j := nth j z 0%nat.
Let cc j := nth j tc 0%nat.
Let cz j := cr t (map IZR x) (zz j).

Lemma z_in j : (j < 2 * k + 2)%nat -> (S (zz j) < List.length t)%nat.
Proof.
  intros H. unfold zz. destruct (Nat.Even_or_Odd j) as [[i E]|[i E]]; destruct (DU i ltac:(lia)) as [D U]; rewrite E; rewrite <- LX.
  - apply D.
  - apply U.
Qed.
Lemma tc_in j : (j < 2 * k + 1)%nat -> (cc j < List.length t)%nat.
Proof.
  intros H. unfold cc. destruct (Nat.Even_or_Odd j) as [[i E]|[i E]]; rewrite E.
  - destruct (LO i ltac:(lia)) as [B _]. pose proof (z_in (2 * i + 1) ltac:(lia)). unfold zz in *. lia.
  - destruct (HI i ltac:(lia)) as [B _]. pose proof (z_in (2 * i + 2) ltac:(lia)). unfold zz in *. lia.
Qed.
Lemma up_zero i : (i <= k)%nat -> zero_at t x (zz (2 * i + 1)) (cz (2 * i + 1)) /\ cz (2 * i + 1) < instant t (S (zz (2 * i + 1))).
Proof. intros H. apply cr_up; [exact LX|exact AS|]. apply DU. exact H. Qed.
Lemma down_zero i : (i <= k)%nat -> zero_at t x (zz (2 * i)) (cz (2 * i)) /\ cz (2 * i) < instant t (S (zz (2 * i))) /\
  (0 < value x (zz (2 * i)) -> instant t (zz (2 * i)) < cz (2 * i)).
Proof. intros H. apply cr_down; [exact LX|exact AS|]. apply DU. exact H. Qed.
Lemma crest_pos i : (i < k)%nat -> 0 < value x (cc (2 * i + 1)).
Proof.
  intros H. destruct (HI i H) as [B M]. destruct (DU i ltac:(lia)) as [_ [_ [P _]]]. unfold value, cc. apply IZR_lt.
  specialize (M (S (nth (2 * i + 1) z 0%nat)) ltac:(lia)). lia.
Qed.
Lemma trough_neg i : (i <= k)%nat -> value x (cc (2 * i)) < 0.
Proof.
  intros H. destruct (LO i H) as [B M]. destruct (DU i ltac:(lia)) as [[_ [P _]] _]. unfold value, cc. apply IZR_lt.
  specialize (M (S (nth (2 * i) z 0%nat)) ltac:(lia)). lia.
Qed.
Lemma front_pos i : (i < k)%nat -> 0 < instant t (cc (2 * i + 1)) - cz (2 * i + 1).
Proof.
  intros H. destruct (up_zero i ltac:(lia)) as [_ U]. destruct (HI i H) as [B _].
  pose proof (ascending_le t AS (S (zz (2 * i + 1))) (cc (2 * i + 1)) ltac:(pose proof (tc_in (2 * i + 1) ltac:(lia)); unfold zz, cc in *; lia)). lra.
Qed.
Lemma back_pos i : (i < k)%nat -> 0 < cz (2 * i + 2) - instant t (cc (2 * i + 1)).
Proof.
  intros H. replace (2 * i + 2)%nat with (2 * (i + 1))%nat by lia. destruct (down_zero (i + 1) ltac:(lia)) as [[[Z1 _] _] [_ D]]. destruct (HI i H) as [B _].
  replace (2 * i + 2)%nat with (2 * (i + 1))%nat in B by lia.
  destruct (Nat.eq_dec (cc (2 * i + 1)) (zz (2 * (i + 1)))) as [E|NE].
  - rewrite <- E in D at 1. specialize (D (crest_pos i H)). rewrite E. lra.
  - pose proof (AS (cc (2 * i + 1)) (zz (2 * (i + 1))) ltac:(pose proof (z_in (2 * (i + 1)) ltac:(lia)); unfold zz, cc in *; lia)). lra.
Qed.
Lemma zeros_up j : (j <= 2 * k)%nat -> cz j < cz (S j).
Proof.
  intros H. assert (Q : cz j < instant t (S (zz j)) /\ instant t (zz (S j)) <= cz (S j)).
  { destruct (Nat.Even_or_Odd j) as [[i E]|[i E]].
    - destruct (down_zero i ltac:(lia)) as [_ [D _]]. destruct (up_zero i ltac:(lia)) as [[[U _] _] _]. rewrite E. split; [exact D|].
      replace (S (2 * i)) with (2 * i + 1)%nat by lia. exact U.
    - destruct (up_zero i ltac:(lia)) as [_ D]. destruct (down_zero (i + 1) ltac:(lia)) as [[[U _] _] _]. rewrite E. split; [exact D|].
      replace (S (2 * i + 1)) with (2 * (i + 1))%nat by lia. exact U. }
  pose proof (IZ j (S j) ltac:(lia)) as I. pose proof (ascending_le t AS (S (zz j)) (zz (S j)) ltac:(pose proof (z_in (S j) ltac:(lia)); unfold zz in *; lia)). lra.
Qed.

Definition the_waves : wpar :=
  {| Ac := map (fun i => value x (cc (2 * i + 1))) (seq 0 k);
     At := map (fun i => - value x (cc (2 * i))) (seq 0 (S k));
     Hu := map (fun i => value x (cc (2 * i + 1)) + - value x (cc (2 * S i))) (seq 0 k);
     Hd := map (fun i => value x (cc (2 * i + 1)) + - value x (cc (2 * i))) (seq 0 k);
     Tu := map (fun i => cz (2 * S i + 1) - cz (2 * i + 1)) (seq 0 k);
     Td := map (fun i => cz (2 * S i) - cz (2 * i)) (seq 0 k);
     Tcf := map (fun i => instant t (cc (2 * i + 1)) - cz (2 * i + 1)) (seq 0 k);
     Tcb := map (fun i => cz (2 * S i) - instant t (cc (2 * i + 1))) (seq 0 k) |}.

Lemma z_tab : z = map zz (seq 0 (2 * k + 2)).
Proof. rewrite <- LZ. apply tab. Qed.
Lemma tc_tab : tc = map cc (seq 0 (2 * k + 1)).
Proof. rewrite <- LT. apply tab. Qed.
Lemma some_time : exists dT, sampling_period t = Ok dT.
Proof.
  pose proof (z_in 0 ltac:(lia)). destruct t as [|a [|b t']]; [cbn in *; lia|cbn in *; lia|]. eexists. reflexivity.
Qed.
Lemma values_tab : pick (map IZR x) tc = Ok (map (fun j => value x (cc j)) (seq 0 (2 * k + 1))).
Proof.
  rewrite tc_tab. rewrite (pick_tab _ 0) by (intros i H; rewrite map_length, LX; apply tc_in; exact H). f_equal. apply map_ext. intros j. apply value_nth.
Qed.
Lemma times_tab : pick t tc = Ok (map (fun j => instant t (cc j)) (seq 0 (2 * k + 1))).
Proof. rewrite tc_tab. apply (pick_tab _ 0). intros i H. apply tc_in. exact H. Qed.
Lemma ups_tab : ecross t (map IZR x) (step2 1 z) 0 = Ok (map (fun i => cz (2 * i + 1)) (seq 0 (S k))).
Proof.
  rewrite z_tab, step1_even. apply (ecross_tab t (map IZR x) (fun i => zz (2 * i + 1))); [rewrite map_length; exact LX|]. intros i H. apply z_in. lia.
Qed.
Lemma downs_tab : ecross t (map IZR x) (step2 0 z) 0 = Ok (map (fun i => cz (2 * i)) (seq 0 (S k))).
Proof.
  rewrite z_tab, step0_even. apply (ecross_tab t (map IZR x) (fun i => zz (2 * i))); [rewrite map_length; exact LX|]. intros i H. apply z_in. lia.
Qed.
Lemma ups_tab' : ecross t (map IZR x) (step2 1 (removelast z)) 0 = Ok (map (fun i => cz (2 * i + 1)) (seq 0 k)).
Proof.
  rewrite z_tab. replace (2 * k + 2)%nat with (S (2 * k + 1)) by lia. rewrite removelast_tab, step1_odd.
  apply (ecross_tab t (map IZR x) (fun i => zz (2 * i + 1))); [rewrite map_length; exact LX|]. intros i H. apply z_in. lia.
Qed.
Lemma downs_tab' : ecross t (map IZR x) (step2 2 z) 0 = Ok (map (fun i => cz (2 * i + 2)) (seq 0 k)).
Proof.
  rewrite z_tab, step2_even. apply (ecross_tab t (map IZR x) (fun i => zz (2 * i + 2))); [rewrite map_length; exact LX|]. intros i H. apply z_in. lia.
Qed.
Lemma no_zero_tab dT f : (forall i, (i < k)%nat -> 0 < f i) -> no_zero dT (map f (seq 0 k)) = map f (seq 0 k).
Proof. intros H. unfold no_zero. rewrite map_map. apply map_seq_ext. intros i I. specialize (H i I). destruct (Req_EM_T (f i) 0); lra. Qed.

Lemma params : wave_parameters m x t = Ok the_waves.
Proof.
  unfold wave_parameters. destruct some_time as [dT ->]. cbn [bind]. rewrite FT. cbn [bind fst snd]. rewrite values_tab, times_tab. cbn [bind].
  rewrite !step1_odd, !step0_odd. rewrite map_map. rewrite tl_tab, removelast_tab, !both_tab. cbn [bind]. rewrite ups_tab, downs_tab. cbn [bind].
  rewrite removelast_tab, tl_tab, !both_tab. cbn [bind]. rewrite !diff_tab, !no_zero_tab; [reflexivity| |].
  - intros i H. replace (2 * S i)%nat with (2 * i + 2)%nat by lia. apply back_pos. exact H.
  - intros i H. apply front_pos. exact H.
Qed.
End Waves.
