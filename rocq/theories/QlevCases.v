From Coq Require Import Reals ZArith Lra Lia List Bool Psatz Permutation Sorted.
From Verif Require Import Base PolyModel FilterModel GridModel WaveModel KdeModel ProcModel ProcSpec KernelModel TkdeModel QlevModel QlevSpec QlevProofs QlevProofs2 QlevProofs3 QlevProofs4 QlevProofs5.
Import ListNotations.
Local Open Scope R_scope.

(* an argsort by insertion *)
Fixpoint insert_at (l : list R) (i : nat) (js : list nat) : list nat :=
  match js with [] => [i] | j :: r => if Rle_dec (nth i l 0) (nth j l 0) then i :: js else j :: insert_at l i r end.
Definition argsort_insertion (l : list R) : list nat := fold_right (insert_at l) [] (seq 0 (List.length l)).
Lemma insert_at_perm l i js : Permutation (insert_at l i js) (i :: js).
Proof. induction js as [|j r IH]; [reflexivity|]. cbn. destruct (Rle_dec _ _); [reflexivity|]. rewrite IH. apply perm_swap. Qed.
Lemma insert_at_sorted l i js : StronglySorted Rle (map (fun i => nth i l 0) js) -> StronglySorted Rle (map (fun i => nth i l 0) (insert_at l i js)).
Proof.
  induction js as [|j r IH]; intros H; [cbn; repeat constructor|]. cbn. inversion H as [|? ? H1 H2]; subst. destruct (Rle_dec _ _) as [A|A]; cbn.
  - constructor; [exact H|]. constructor; [exact A|]. rewrite Forall_forall in *. intros v Hv. specialize (H2 v Hv). lra.
  - constructor; [now apply IH|]. rewrite Forall_forall in *. intros v Hv. apply in_map_iff in Hv as (k & <- & Hk). apply (Permutation_in _ (insert_at_perm l i r)) in Hk as [<-|Hk]; [lra|]. apply H2, in_map_iff. now exists k.
Qed.
Lemma argsort_insertion_sorts : sorts argsort_insertion.
Proof.
  intros l. unfold argsort_insertion. generalize (seq 0 (List.length l)). intros js. induction js as [|j js [IP IS]]; [split; [reflexivity|constructor]|]. cbn [fold_right]. split; [rewrite insert_at_perm; now constructor|]. now apply insert_at_sorted.
Qed.
Lemma levels_case : exists y, qlevels 0 argsort_insertion [4%nat] [1; 3; 4; 2] [50; 90] [] true = Ok (map y [50; 90]) /\ 1 <= y 90 <= y 50 /\ y 50 <= 4.
Proof.
  destruct (levels_main 0 argsort_insertion [4%nat] [1; 3; 4; 2] [50; 90] [] true [1; 3; 4; 2] 1 4) as (y & E & B & M & _).
  - lra.
  - exact argsort_insertion_sorts.
  - cbn. lia.
  - cbn. intros v [<-|[<-|[<-|[<-|[]]]]]; lra.
  - reflexivity.
  - reflexivity.
  - repeat constructor; lra.
  - cbn. intros v [<-|[<-|[<-|[<-|[]]]]]; lra.
  - lra.
  - discriminate.
  - assert (T : share_ge [1; 3; 4; 2] [1; 3; 4; 2] 4 = 4 / 10). { unfold share_ge. cbn [combine map fst snd]. destruct (Rle_dec 4 1); [lra|]. destruct (Rle_dec 4 3); [lra|]. destruct (Rle_dec 4 4); [|lra]. destruct (Rle_dec 4 2); [lra|]. cbn [total fold_right]. field. } rewrite T. cbn [List.length]. assert (I4 : INR 4 = 4) by (cbn; ring). rewrite I4. intros q [<-|[<-|[]]]; lra.
  - assert (T : share_ge [1; 3; 4; 2] [1; 3; 4; 2] 4 = 4 / 10). { unfold share_ge. cbn [combine map fst snd]. destruct (Rle_dec 4 1); [lra|]. destruct (Rle_dec 4 3); [lra|]. destruct (Rle_dec 4 4); [|lra]. destruct (Rle_dec 4 2); [lra|]. cbn [total fold_right]. field. } rewrite T. cbn [List.length]. assert (I4 : INR 4 = 4) by (cbn; ring). rewrite I4. lra.
  - unfold occupied. cbn [filter]. destruct (Rlt_dec 0 1); [|lra]. destruct (Rlt_dec 0 3); [|lra]. destruct (Rlt_dec 0 4); [|lra]. destruct (Rlt_dec 0 2); [|lra]. cbn. lia.
  - cbn. tauto.
  - exists y. split; [exact E|]. pose proof (B 50 (or_introl eq_refl)). pose proof (B 90 (or_intror (or_introl eq_refl))). pose proof (M 50 90 (or_introl eq_refl) (or_intror (or_introl eq_refl)) ltac:(lra)). lra.
Qed.
Lemma inc3 : increasing [0; 1; 3].
Proof. intros i Hi. cbn in Hi. unfold at_. destruct i as [|[|i]]; cbn; try lra; lia. Qed.
Lemma cells_case : exists mass, cells [3%nat] [1; 2; 1] [[0; 1; 3]] true = Ok mass /\ nth 1 mass 0 = 3 /\ total mass = 9 / 2.
Proof.
  destruct (cells_one [0; 1; 3] [1; 2; 1] true) as (mass & E & _ & _ & V); [cbn; lia|reflexivity|exact inc3|cbn; intros v [<-|[<-|[<-|[]]]]; lra|]. exists mass. split; [exact E|]. split; [rewrite V by (cbn; lia); unfold half_width; cbn; field|]. rewrite (cells_trapezoid [0; 1; 3] [1; 2; 1] true mass); [cbn; field|discriminate|reflexivity|exact E].
Qed.
Lemma low_case : exists q r, 0 <= q < r /\ r <= 100 /\ qlevels 0 argsort_insertion [2%nat] [3; 1] [q] [] true = Ok [1] /\ qlevels 0 argsort_insertion [2%nat] [3; 1] [r] [] true = Ok [3].
Proof. apply low_levels; [lra|exact argsort_insertion_sorts|lra|lra|lra]. Qed.
Lemma errors_case : qlevels 0 argsort_insertion [2%nat] [3; -1] [50] [] true = Err ValueError /\ qlevels 0 argsort_insertion [2%nat] [3; 1] [101] [] true = Err ValueError /\ qlevels 0 argsort_insertion [2%nat] [3; 1] [50] [[0; 1; 2]] true = Err ValueError /\ qlevels 0 argsort_insertion [2%nat] [0; 0] [50] [] true = Err ValueError /\ qlevels 0 argsort_insertion [0%nat] [] [50] [] true = Ok [].
Proof.
  split; [apply (qlevels_negative _ _ _ _ _ _ _ (-1)); [cbn; tauto|lra]|]. split; [apply (qlevels_percent _ _ _ _ _ _ _ 101); [cbn; tauto|lra]|]. split; [apply qlevels_shape; [cbn; lia|discriminate|cbn; discriminate]|]. split; [apply (qlevels_zero _ _ _ _ _ _ _ [0; 0]); [exact argsort_insertion_sorts|cbn; lia|reflexivity|reflexivity|cbn; ring]|]. apply qlevels_empty; [intros v []|intros q [<-|[]]; lra|now left].
Qed.
Lemma levels2_case : qlevels2 [[5; 1; 3]] [50] 1 = Ok [[3]].
Proof.
  assert (E : 50 = 100 - 100 * (INR 1 / (INR 3 - 1))) by (cbn; field). rewrite E. apply (levels2_position [1; 3; 5] [5; 1; 3] 1 1); [|repeat constructor; lra|cbn; lia|cbn; lia|left; split; reflexivity].
  transitivity [1; 5; 3]; [apply perm_swap|apply perm_skip, perm_swap].
Qed.
Lemma levels2_main_case : exists level, qlevels2 [[5; 1; 3]; [2; 2; 0]] [20; 70] 2 = Ok (map (fun v => map (level v) [[5; 1; 3]; [2; 2; 0]]) [20; 70]) /\ level 70 [5; 1; 3] <= level 20 [5; 1; 3].
Proof.
  destruct (levels2_main [[5; 1; 3]; [2; 2; 0]] [20; 70] 2) as (level & E & B); [repeat constructor; discriminate|cbn; intros v [<-|[<-|[]]]; lra|lia|]. exists level. split; [exact E|]. apply (B 20 [5; 1; 3]); cbn; try tauto. lra.
Qed.
