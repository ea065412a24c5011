(* Counterexamples and small facts used by CyclesProps.v *)
From Coq Require Import String ZifyBool.
From Verif Require Import Base CrossModel CrossSpec ListFacts CrossProofs CyclesModel CyclesSpec CyclesProofs2.
Local Open Scope list_scope.
Local Open Scope Z_scope.

Lemma nearest_level_shifted a b n k l m M : a < b -> 2 <= n -> 0 <= k <= n - 2 -> 0 <= l <= n - 2 ->
  (n - 1) * (m - a) = k * (b - a) -> (n - 1) * (M - a) = l * (b - a) ->
  exists F, cycle_matrix [(m, M)] a b n 0 = Ok F /\ F k l = 0 /\ F (k + 1) (l + 1) = 1.
Proof.
  intros Hab Hn Hk Hl Em EM. unfold cycle_matrix, discretize_pairs.
  assert (Hb : any_nonzero (bad_index [(m, M)]) = false).
  { unfold bad_index. simpl. destruct (m >? M); reflexivity. }
  rewrite Hb. cbn [Z.eqb orb bind map andb].
  rewrite (disc1_level a b n k l Hab Hn Hk Hl m M Em EM). cbn [dcp2cmat].
  replace ((0 <=? k + 1) && (k + 1 <? n) && (0 <=? l + 1) && (l + 1 <? n)) with true by lia.
  eexists. split; [reflexivity|]. unfold upd. split.
  - replace ((k =? k + 1) && (l =? l + 1)) with false by lia. reflexivity.
  - replace ((k + 1 =? k + 1) && (l + 1 =? l + 1)) with true by lia. reflexivity.
Qed.

Lemma position_matters : exists c d1 d2,
  discretize_pairs [c] 0 10 11 1 = Ok [d1] /\
  (exists e, discretize_pairs [(1, 2); c] 0 10 11 1 = Ok [e; d2]) /\ d1 <> d2.
Proof.
  exists (12, -3), (9, 1), (10, 0). split; [reflexivity|]. split; [eexists; reflexivity|]. discriminate.
Qed.

Lemma names_shifted cp :
  level_crossings cp (KStr (documented_name Up)) = Err ValueError /\
  level_crossings cp (KStr (documented_name UpMax)) = level_crossings cp (KInt (def_number Up)) /\
  level_crossings cp (KStr (documented_name UpMinMax)) = level_crossings cp (KInt (def_number UpMax)) /\
  level_crossings cp (KStr (documented_name UpMin)) = level_crossings cp (KInt (def_number UpMinMax)).
Proof. repeat split; reflexivity. Qed.

Lemma negative_extremes : exists cp levels counts,
  (forall c, In c cp -> fst c < snd c < 0) /\
  level_crossings cp (KInt (def_number UpMax)) = Ok (levels, counts) /\ In 0 levels.
Proof.
  exists [(-3, -1); (-3, -2)]. eexists. eexists. split; [|split; [reflexivity|]].
  - intros c [<-|[<-|[]]]; simpl; lia.
  - vm_compute. tauto.
Qed.

Lemma down_first_swapped : exists x index p0 p1,
  findcross Numba x 0 None = Ok index /\ period_pairs x index (pdef_name D U) = Ok (p0, p1) /\
  p0 <> [] /\ (forall i, In i p0 -> UpCross x 0 i) /\ (forall i, In i p1 -> DownCross x 0 i).
Proof.
  exists [1; -1; 1; -1; 1; -1]. eexists. eexists. eexists. split; [reflexivity|]. split; [reflexivity|].
  split; [discriminate|]. split.
  - intros i Hi. assert (Hc : In i [1; 3]%nat) by exact Hi. clear Hi.
    destruct Hc as [<-|[<-|[]]]; (split; [simpl; lia|split; [vm_compute; reflexivity|]]);
    intros k Hk Hm.
    + destruct k as [|[|k]]; try lia; vm_compute; try discriminate. specialize (Hm 1%nat ltac:(lia)). discriminate.
    + destruct k as [|[|[|[|k]]]]; try lia; try (vm_compute; discriminate);
      specialize (Hm 3%nat ltac:(lia)); discriminate.
  - intros i Hi. assert (Hc : In i [2; 4]%nat) by exact Hi. clear Hi.
    destruct Hc as [<-|[<-|[]]]; (split; [simpl; lia|split; [vm_compute; reflexivity|]]);
    intros k Hk Hm.
    + destruct k as [|[|[|k]]]; try lia; try (vm_compute; discriminate);
      specialize (Hm 2%nat ltac:(lia)); discriminate.
    + destruct k as [|[|[|[|[|k]]]]]; try lia; try (vm_compute; discriminate);
      specialize (Hm 4%nat ltac:(lia)); discriminate.
Qed.

Lemma extreme_periods_are_values : exists x index,
  findtp0 Numba x false None = Ok (Some index) /\ 
  wave_periods_extremes x index "m2m" = Ok [-2; 3] /\
  wave_periods_extremes (map (Z.mul 10) x) index "m2m" = Ok [-20; 30].
Proof.
  exists [5; -1; 4; -3; 6; 0]. exists [1; 2; 3; 4; 5]%nat. repeat split; try reflexivity.
Qed.
