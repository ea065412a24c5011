From Coq Require Import Reals Lra Lia Permutation.
From Verif Require Import Base PolyModel FilterModel FilterProofs3 GridModel GridSpec.
Local Open Scope R_scope.

(* ---- cells ---- *)
Lemma py_cell_spec shape ix s : py_cell shape ix = Ok s <-> denotes shape ix s.
Proof.
  split.
  - revert ix s. induction shape as [|k shape IH]; intros [|i ix] s; cbn [py_cell]; try discriminate; [intros [= <-]; constructor|].
    set (i' := if (i <? 0)%Z then _ else _). destruct ((0 <=? i')%Z && (i' <? Z.of_nat k)%Z) eqn:E; [|discriminate].
    apply andb_true_iff in E. destruct E as [E1 E2]. apply Z.leb_le in E1. apply Z.ltb_lt in E2.
    destruct (py_cell shape ix) as [t|] eqn:T; cbn [bind]; [|discriminate]. intros [= <-]. unfold i' in *. clear i'.
    assert (R0 : (- Z.of_nat k <= i < Z.of_nat k)%Z) by (destruct (Z.ltb_spec i 0); lia). constructor; [exact R0| |now apply IH].
    rewrite Z2Nat.id by exact E1. destruct (Z.ltb_spec i 0).
    + symmetry. rewrite <- (Z_mod_plus_full i 1 (Z.of_nat k)), Z.mul_1_l. apply Z.mod_small. lia.
    + symmetry. apply Z.mod_small. lia.
  - induction 1 as [|k shape i ix s cell R0 M D IH]; [reflexivity|]. cbn [py_cell]. set (i' := if (i <? 0)%Z then _ else _).
    assert (E : i' = Z.of_nat s /\ (0 <= i' < Z.of_nat k)%Z).
    { unfold i'. destruct (Z.ltb_spec i 0).
      - rewrite <- (Z_mod_plus_full i 1 (Z.of_nat k)), Z.mul_1_l, Z.mod_small in M by lia. lia.
      - rewrite Z.mod_small in M by lia. lia. }
    destruct E as [E1 E2]. replace ((0 <=? i')%Z && (i' <? Z.of_nat k)%Z) with true.
    + rewrite IH. cbn [bind]. rewrite E1, Nat2Z.id. reflexivity.
    + symmetry. apply andb_true_iff. split; [apply Z.leb_le|apply Z.ltb_lt]; lia.
Qed.
Lemma denotes_unique shape ix s t : denotes shape ix s -> denotes shape ix t -> s = t.
Proof. rewrite <- !py_cell_spec. congruence. Qed.
Lemma denotes_lt shape ix s : denotes shape ix s -> Forall2 lt s shape.
Proof.
  induction 1 as [|k shape i ix s cell R0 M D IH]; constructor; [|exact IH]. pose proof (Z.mod_pos_bound i (Z.of_nat k)). lia.
Qed.
Lemma same_cell_spec s t : same_cell s t = true <-> s = t.
Proof.
  revert t. induction s as [|i s IH]; intros [|j t]; cbn; try (split; congruence). rewrite andb_true_iff, Nat.eqb_eq, IH. split; [intros [-> ->]; reflexivity|intros [= -> ->]; auto].
Qed.
Lemma cells_in shape s : In s (cells shape) <-> Forall2 lt s shape.
Proof.
  revert s. induction shape as [|k shape IH]; intros s; cbn [cells].
  - split; [intros [<-|[]]; constructor|intros H; inversion H; now left].
  - rewrite in_flat_map. split.
    + intros (i & Hi & H). apply in_map_iff in H. destruct H as (t & <- & H). apply in_seq in Hi. constructor; [lia|now apply IH].
    + intros H. inversion H as [|i k' s' shape' Hi Hs]; subst. exists i. split; [apply in_seq; lia|]. apply in_map, IH, Hs.
Qed.
Lemma cells_nodup shape : NoDup (cells shape).
Proof.
  induction shape as [|k shape IH]; cbn [cells]; [repeat constructor; intros []|].
  generalize 0%nat as b. induction k as [|k IHk]; intros b; [constructor|]. cbn [seq flat_map].
  assert (N : NoDup (map (cons b) (cells shape))) by (apply FinFun.Injective_map_NoDup; [intros x y [= ->]; reflexivity|exact IH]).
  assert (D : forall s, In s (map (cons b) (cells shape)) -> ~ In s (flat_map (fun i => map (cons i) (cells shape)) (seq (S b) k))).
  { intros s H H'. apply in_map_iff in H. destruct H as (t & <- & _). apply in_flat_map in H'. destruct H' as (j & Hj & H'). apply in_map_iff in H'. destruct H' as (u & [= -> _] & _). apply in_seq in Hj. lia. }
  specialize (IHk (S b)). revert N D IHk. generalize (flat_map (fun i => map (cons i) (cells shape)) (seq (S b) k)) as l2. generalize (map (cons b) (cells shape)) as l1.
  induction l1 as [|x l1 IHl]; intros l2 N D N2; [exact N2|]. inversion N; subst. cbn. constructor.
  - intros H. apply in_app_or in H. destruct H as [H|H]; [contradiction|]. apply (D x); [now left|exact H].
  - apply IHl; [assumption| |assumption]. intros s Hs. apply D. now right.
Qed.
Lemma flat_map_length_const {A B} (f : A -> list B) n l : (forall x, In x l -> List.length (f x) = n) -> List.length (flat_map f l) = (List.length l * n)%nat.
Proof. induction l as [|x l IH]; intros H; [reflexivity|]. cbn. rewrite app_length, H by now left. rewrite IH by (intros; apply H; now right). reflexivity. Qed.
Lemma cells_length shape : List.length (cells shape) = fold_right Nat.mul 1%nat shape.
Proof.
  induction shape as [|k shape IH]; [reflexivity|]. cbn [cells fold_right]. rewrite (flat_map_length_const _ (List.length (cells shape))) by (intros; apply map_length).
  rewrite seq_length, IH. reflexivity.
Qed.
Lemma nth_error_flat_map {A B} (f : A -> list B) n l : (forall x, In x l -> List.length (f x) = n) -> forall i j x, nth_error l i = Some x -> (j < n)%nat ->
  nth_error (flat_map f l) (i * n + j) = nth_error (f x) j.
Proof.
  induction l as [|y l IH]; intros H i j x; [destruct i; discriminate|]. intros Hi Hj. cbn [flat_map]. assert (L : List.length (f y) = n) by (apply H; now left). destruct i as [|i].
  - injection Hi as <-. cbn. apply nth_error_app1. lia.
  - rewrite nth_error_app2 by (cbn; lia). replace (S i * n + j - List.length (f y))%nat with (i * n + j)%nat by (cbn; lia). apply IH; [intros; apply H; now right|exact Hi|exact Hj].
Qed.
Lemma position_lt shape s : Forall2 lt s shape -> (position shape s < fold_right Nat.mul 1%nat shape)%nat.
Proof.
  induction 1 as [|i k s shape Hi H IH]; cbn [position fold_right]; [lia|]. nia.
Qed.
Lemma cells_at shape s : Forall2 lt s shape -> nth_error (cells shape) (position shape s) = Some s.
Proof.
  induction 1 as [|i k s shape Hi H IH]; [reflexivity|]. cbn [cells position]. rewrite <- cells_length.
  assert (N : nth_error (seq 0 k) i = Some i).
  { rewrite (nth_error_nth' (seq 0 k) 0%nat) by (rewrite seq_length; exact Hi). now rewrite seq_nth by exact Hi. }
  rewrite (nth_error_flat_map _ (List.length (cells shape)) _ ltac:(intros; apply map_length) i _ i N).
  - now rewrite nth_error_map, IH.
  - rewrite cells_length. now apply position_lt.
Qed.
(* ---- collecting ---- *)
Lemma collect_group {A} shape accmap : forall (a : list A) vals r, List.length accmap = List.length a -> collect shape accmap a vals = Ok r ->
  forall s, exists l, group shape s accmap a l /\ r s = vals s ++ l.
Proof.
  induction accmap as [|ix accmap IH]; intros [|v a] vals r L; try discriminate; cbn [collect].
  - intros [= <-] s. exists []. split; [constructor|now rewrite app_nil_r].
  - destruct (py_cell shape ix) as [t|] eqn:T; cbn [bind]; [|discriminate]. intros H s. apply IH with (s := s) in H; [|cbn in L; lia].
    destruct H as (l & G & E). apply py_cell_spec in T. unfold put in E. destruct (same_cell t s) eqn:S1.
    + apply same_cell_spec in S1. subst t. exists (v :: l). split; [now constructor|]. rewrite E, <- app_assoc. reflexivity.
    + exists l. split; [|exact E]. apply group_out; [|exact G]. intros D. rewrite (denotes_unique _ _ _ _ D T) in S1.
      assert (same_cell t t = true) by now apply same_cell_spec. congruence.
Qed.
Lemma group_unique {A} shape s accmap (a : list A) l l' : group shape s accmap a l -> group shape s accmap a l' -> l = l'.
Proof.
  intros G. revert l'. induction G as [|ix accmap v a l D G IH|ix accmap v a l D G IH]; intros l' G'; inversion G'; subst; try contradiction; try reflexivity; [f_equal|]; now apply IH.
Qed.
Lemma collect_total {A} shape accmap : (forall ix, In ix accmap -> exists s, denotes shape ix s) -> forall (a : list A) vals, exists r, collect shape accmap a vals = Ok r.
Proof.
  induction accmap as [|ix accmap IH]; intros H [|v a] vals; try (eexists; reflexivity). cbn [collect]. destruct (H ix) as [s D]; [now left|].
  apply py_cell_spec in D. rewrite D. cbn [bind]. apply IH. intros; apply H; now right.
Qed.
Lemma collect_denotes {A} shape accmap : forall (a : list A) vals r, List.length accmap = List.length a -> collect shape accmap a vals = Ok r ->
  forall ix, In ix accmap -> exists s, denotes shape ix s.
Proof.
  induction accmap as [|ix accmap IH]; intros [|v a] vals r L; try discriminate; cbn [collect]; [intros _ ix []|].
  destruct (py_cell shape ix) as [t|] eqn:T; cbn [bind]; [|discriminate]. intros H ix' [<-|Hx]; [exists t; now apply py_cell_spec|]. eapply IH; [|exact H|exact Hx]. cbn in L. lia.
Qed.
Lemma accum_groups {A B} accmap (a : list A) (func : list A -> B) shape fill out : accum accmap a func (Some shape) fill = Ok out ->
  List.length out = fold_right Nat.mul 1%nat shape /\
  forall cell l, Forall2 lt cell shape -> group shape cell accmap a l -> nth_error out (position shape cell) = Some (match l with [] => fill | _ => func l end).
Proof.
  unfold accum. destruct (Nat.eqb_spec (List.length accmap) (List.length a)) as [L|]; cbn [negb]; [|discriminate]. cbn [bind].
  destruct (collect _ _ _ _) as [r|] eqn:C; cbn [bind]; [|discriminate]. intros [= <-]. split; [rewrite map_length; apply cells_length|].
  intros cell l Hc G. rewrite nth_error_map, cells_at by exact Hc. cbn. destruct (collect_group _ _ _ _ _ L C cell) as (l' & G' & E). rewrite (group_unique _ _ _ _ _ _ G' G) in E. cbn in E. rewrite E. now destruct l.
Qed.
Lemma accum_total {A B} accmap (a : list A) (func : list A -> B) shape fill :
  (exists out, accum accmap a func (Some shape) fill = Ok out) <-> List.length accmap = List.length a /\ forall ix, In ix accmap -> exists cell, denotes shape ix cell.
Proof.
  unfold accum. destruct (Nat.eqb_spec (List.length accmap) (List.length a)) as [L|L]; cbn [negb]; [|split; [intros [o H]; discriminate|intros [H _]; contradiction]]. cbn [bind]. split.
  - intros [o H]. destruct (collect _ _ _ _) as [r|] eqn:C; cbn [bind] in H; [|discriminate]. split; [exact L|]. eapply collect_denotes; eassumption.
  - intros [_ H]. destruct (collect_total shape accmap H a (fun _ => [])) as [r E]. rewrite E. eexists. reflexivity.
Qed.
(* ---- partition ---- *)
Lemma put_concat {A} (vals : list nat -> list A) s v cs : NoDup cs -> In s cs -> Permutation (concat (map (put vals s v) cs)) (v :: concat (map vals cs)).
Proof.
  induction cs as [|t cs IH]; intros N Hs; [destruct Hs|]. inversion N; subst. cbn [map concat]. destruct Hs as [<-|Hs].
  - unfold put at 1. replace (same_cell t t) with true by (symmetry; now apply same_cell_spec).
    replace (map (put vals t v) cs) with (map vals cs).
    + rewrite <- app_assoc. cbn. symmetry. apply Permutation_middle.
    + apply map_ext_in. intros u Hu. unfold put. destruct (same_cell t u) eqn:E; [|reflexivity]. apply same_cell_spec in E. subst. contradiction.
  - unfold put at 1. destruct (same_cell s t) eqn:E; [apply same_cell_spec in E; subst; contradiction|].
    rewrite (IH ltac:(assumption) Hs). symmetry. apply Permutation_middle.
Qed.
Lemma collect_partition {A} shape accmap : forall (a : list A) vals r, List.length accmap = List.length a -> collect shape accmap a vals = Ok r ->
  Permutation (concat (map r (cells shape))) (concat (map vals (cells shape)) ++ a).
Proof.
  induction accmap as [|ix accmap IH]; intros [|v a] vals r L; try discriminate; cbn [collect].
  - intros [= <-]. now rewrite app_nil_r.
  - destruct (py_cell shape ix) as [t|] eqn:T; cbn [bind]; [|discriminate]. intros H. apply IH in H; [|cbn in L; lia]. rewrite H.
    apply py_cell_spec in T. rewrite put_concat; [|apply cells_nodup|apply cells_in; eapply denotes_lt; exact T]. cbn. apply Permutation_middle.
Qed.
Lemma accum_partition {A} accmap (a : list A) shape out : accum accmap a (fun l => l) (Some shape) [] = Ok out -> Permutation (concat out) a.
Proof.
  unfold accum. destruct (Nat.eqb_spec (List.length accmap) (List.length a)) as [L|]; cbn [negb]; [|discriminate]. cbn [bind].
  destruct (collect _ _ _ _) as [r|] eqn:C; cbn [bind]; [|discriminate]. intros [= <-].
  replace (map (fun s => match r s with [] => [] | a0 :: l => a0 :: l end) (cells shape)) with (map r (cells shape)) by (apply map_ext; intros s; now destruct (r s)).
  rewrite (collect_partition _ _ _ _ _ L C). clear. replace (concat (map (fun _ => []) (cells shape))) with (@nil A); [reflexivity|]. induction (cells shape); [reflexivity|assumption].
Qed.
Lemma sumR_app l m : sumR (l ++ m) = sumR l + sumR m.
Proof. unfold sumR. induction l as [|x l IH]; cbn [app fold_right]; [lra|]. rewrite IH. lra. Qed.
Lemma sumR_perm l m : Permutation l m -> sumR l = sumR m.
Proof. unfold sumR. induction 1; cbn [fold_right]; lra. Qed.
Lemma sumR_concat ls : sumR (concat ls) = sumR (map sumR ls).
Proof. induction ls as [|l ls IH]; [reflexivity|]. cbn [concat map]. rewrite sumR_app, IH. reflexivity. Qed.
Lemma accum_sum accmap a shape out : accum accmap a sumR (Some shape) 0 = Ok out -> sumR out = sumR a.
Proof.
  intros H. assert (P : exists o, accum accmap a (fun l => l) (Some shape) [] = Ok o).
  { apply accum_total. apply (proj1 (accum_total accmap a sumR shape 0)). eauto. }
  destruct P as [o P]. pose proof (sumR_perm _ _ (accum_partition _ _ _ _ P)) as E. rewrite sumR_concat in E. rewrite <- E. f_equal.
  revert H P. unfold accum. destruct (negb _); [discriminate|]. cbn [bind]. destruct (collect _ _ _ _) as [r|]; cbn [bind]; [|discriminate]. intros [= <-] [= <-].
  rewrite map_map. apply map_ext. intros s. now destruct (r s).
Qed.
