From Coq Require Import Reals List ZArith Bool String Ascii Lia Lra.
From Verif Require Import Base PolyModel ProcModel ProcProofs SpectModel SpectSpec SpectProofs DmomModel DmomSpec.
Import ListNotations.
Local Open Scope R_scope.

Lemma parabola_shift X Y c i : parabola (fun i => X i - c) Y i = parabola X Y i.
Proof. unfold parabola. replace (X (S i) - c - (X i - c)) with (X (S i) - X i) by ring. replace (X (S (S i)) - c - (X (S i) - c)) with (X (S (S i)) - X (S i)) by ring. reflexivity. Qed.
Lemma parabolas_shift X Y c o k : parabolas (fun i => X i - c) Y o k = parabolas X Y o k.
Proof. unfold parabolas. f_equal. apply map_ext. intros i. apply parabola_shift. Qed.
Lemma simpson_shift n X Y c : simpson n (fun i => X i - c) Y = simpson n X Y.
Proof. unfold simpson. rewrite !parabolas_shift. unfold trapezium_at. destruct (Nat.odd n); [reflexivity|]. f_equal. f_equal; f_equal; f_equal; f_equal; ring. Qed.
Lemma at_map2 {A} (g : A -> R -> R) d : forall (a : list A) b i, (i < List.length a)%nat -> (i < List.length b)%nat -> at_R (map2 g a b) i = g (nth i a d) (at_R b i).
Proof. unfold at_R. induction a as [|u a IH]; intros [|v b] [|i] A1 B1; cbn in *; try lia; auto. apply IH; lia. Qed.
Lemma len_map2 {A B C} (g : A -> B -> C) : forall a b, List.length a = List.length b -> List.length (map2 g a b) = List.length a.
Proof. induction a as [|u a IH]; intros [|v b] L; cbn in *; try lia; auto. Qed.
Lemma at_map (g : R -> R) l i : (i < List.length l)%nat -> at_R (map g l) i = g (at_R l i).
Proof. intros H. unfold at_R. rewrite (nth_indep _ 0 (g 0)) by (rewrite map_length; exact H). apply map_nth. Qed.
Lemma at_mapseq (g : nat -> R) n i : (i < n)%nat -> at_R (map g (seq 0 n)) i = g i.
Proof. intros H. unfold at_R. rewrite (nth_indep _ 0 (g 0%nat)) by (rewrite map_length, seq_length; exact H). rewrite map_nth, seq_nth by exact H. reflexivity. Qed.

Definition angles (s : spec2) : list R := map (fun t => t - sphi s) (second_of (sargs2 s)).
Lemma over_value s nt nw f j : directional s nt nw -> (j < nw)%nat ->
  at_R (over_angles (rows s) (angles s) nw f) j = simpson nt (angle s) (fun i => dens s i j * f (angle s i - sphi s)).
Proof.
  intros [_ [T1 [W1 [LW [LT LR]]]]] J. unfold over_angles. rewrite at_mapseq by exact J. assert (LA : List.length (angles s) = nt) by (unfold angles; rewrite map_length; exact LT).
  rewrite (simps_value _ _ nt) by (rewrite ?len_map2; lia). rewrite <- (simpson_shift nt (angle s) _ (sphi s)). apply simpson_ext; [exact T1| |].
  - intros i I. unfold angles. rewrite at_map by lia. reflexivity.
  - intros i I. rewrite (at_map2 _ []) by lia. unfold angles. rewrite at_map by lia. reflexivity.
Qed.
Lemma term_value s nt nw name k f a b c : directional s nt nw ->
  (forall w t, k w * f t = (w ^ 2 / gx s * cos t) ^ a * (w ^ 2 / gy s * sin t) ^ b * w ^ c) ->
  simps (snd (term (first_of (sargs2 s)) name k (over_angles (rows s) (angles s) nw f))) (first_of (sargs2 s)) = integral s nt nw a b c.
Proof.
  intros D E. pose proof D as [_ [T1 [W1 [LW [LT LR]]]]]. unfold term. cbn [snd]. assert (LO : List.length (over_angles (rows s) (angles s) nw f) = nw) by (unfold over_angles; rewrite map_length, seq_length; reflexivity).
  rewrite (simps_value _ _ nw) by (rewrite ?len_map2; lia). unfold integral. apply simpson_ext; [exact W1|reflexivity|]. intros j J.
  rewrite (at_map2 _ 0) by lia. rewrite (over_value s nt nw f j D J). rewrite <- simpson_scale. apply simpson_ext; [exact T1|reflexivity|]. intros i I.
  unfold freq. change (nth j (first_of (sargs2 s)) 0) with (at_R (first_of (sargs2 s)) j). rewrite <- E. ring.
Qed.
(* the exponents of the moments, in the order of the code *)
Definition exps (nr : Z) (x y t : bool) : list (nat * nat * nat) :=
  when (0 <? nr)%Z (
    when x [(1, 0, 0)] ++ when y [(0, 1, 0)] ++ when t [(0, 0, 1)] ++
    when (1 <? nr)%Z (
      when x [(2, 0, 0)] ++ when y [(0, 2, 0)] ++ when t [(0, 0, 2)] ++ when (x && y) [(1, 1, 0)] ++ when (x && t) [(1, 0, 1)] ++ when (y && t) [(0, 1, 1)] ++
      when (3 <? nr)%Z (
        when x [(4, 0, 0)] ++ when y [(0, 4, 0)] ++ when t [(0, 0, 4)] ++ when (x && y) [(3, 1, 0); (2, 2, 0); (1, 3, 0)] ++
        when (x && t) [(3, 0, 1); (2, 0, 2); (1, 0, 3)] ++ when (y && t) [(0, 3, 1); (0, 2, 2); (0, 1, 3)] ++ when (x && y && t) [(2, 1, 1); (1, 2, 1); (1, 1, 2)])))%nat.
Lemma exps_names w th S gx gy nr x y t : map fst (moment_terms w th S gx gy nr x y t) = map word (exps nr x y t).
Proof. unfold moment_terms, exps, when, term. destruct (0 <? nr)%Z, (1 <? nr)%Z, (3 <? nr)%Z, x, y, t; reflexivity. Qed.
Lemma not_in_cons {A} (a b : A) l : a <> b -> ~ In a l -> ~ In a (b :: l). Proof. intros N I [E|E]; [congruence|contradiction]. Qed.
Lemma exps_nodup nr x y t : NoDup ((0, 0, 0)%nat :: exps nr x y t).
Proof.
  unfold exps, when. destruct (0 <? nr)%Z, (1 <? nr)%Z, (3 <? nr)%Z, x, y, t; cbn [app andb];
  repeat (constructor; [repeat (apply not_in_cons; [congruence|]); intros []|]); constructor.
Qed.
Lemma exps_wanted nr x y t e : In e ((0, 0, 0)%nat :: exps nr x y t) <-> wanted nr x y t e.
Proof.
  destruct e as [[a b] c]. unfold wanted. split.
  - intros H. unfold exps, when in H. destruct (Z.ltb_spec 0 nr), (Z.ltb_spec 1 nr), (Z.ltb_spec 3 nr); try lia; destruct x, y, t; cbn [app andb In] in H;
    repeat match type of H with _ \/ _ => destruct H as [H|H] | False => destruct H end; injection H as <- <- <-; repeat split; auto; try (right; cbn; lia); try (cbn; lia).
  - intros [O [N [X [Y T]]]]. destruct O as [O|O]; [left; assert (a = 0 /\ b = 0 /\ c = 0)%nat as [-> [-> ->]] by lia; reflexivity|]. right.
    assert (BA : (a <= 4)%nat) by lia. assert (BB : (b <= 4)%nat) by lia. assert (BC : (c <= 4)%nat) by lia.
    unfold exps, when. destruct (Z.ltb_spec 0 nr), (Z.ltb_spec 1 nr), (Z.ltb_spec 3 nr); try (exfalso; lia);
    do 5 (destruct a as [|a]; [do 5 (destruct b as [|b]; [do 5 (destruct c as [|c]; [try (exfalso; lia); destruct x, y, t; try (exfalso; destruct X, Y, T; discriminate); cbn [app andb In]; auto 30|]); exfalso; lia|]); exfalso; lia|]); exfalso; lia.
Qed.
