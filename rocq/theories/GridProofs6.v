From Coq Require Import Reals Lra Lia Permutation.
From Verif Require Import Base PolyModel FilterModel FilterProofs3 SlopesProofs3 GridModel GridSpec GridProofs GridProofs2 GridProofs3 GridProofs4 GridProofs5.
Local Open Scope R_scope.

(* ---- a scalar response ---- *)
Lemma times_y_scalar w y0 : w <> [] -> times_y w [y0] = times_y w (repeat y0 (List.length w)).
Proof.
  intros H. rewrite (times_y_ok w (repeat y0 (List.length w))) by apply repeat_length. unfold times_y. cbn [List.length Nat.eqb]. f_equal. clear H. unfold at_R. cbn [nth].
  induction w as [|v w IH]; [reflexivity|]. cbn. now rewrite IH.
Qed.
Lemma all_ok_length {A} (l : list (res A)) t : all_ok l = Ok t -> List.length t = List.length l.
Proof. intros H. apply (all_ok_spec _ _ H). Qed.
Lemma gridcount_scalar data x y0 : gridcount data x [y0] = gridcount data x (repeat y0 (List.length data)).
Proof.
  unfold gridcount. destruct (existsb _ data) eqn:EX; [reflexivity|]. destruct (Nat.eqb_spec (List.length data) 0) as [|D]; [reflexivity|]. destruct (existsb _ data) in |- *; [reflexivity|]. destruct (_ <? 2)%nat; [reflexivity|]. destruct (existsb _ x); [reflexivity|].
  set (binx := map (fun p => map (fun q => bin (fst q) (snd q)) (combine x p)) data). assert (Lb : List.length binx = List.length data) by apply map_length. clearbody binx. clear EX. destruct (_ =? 1)%nat.
  - unfold gridcount_1d. set (vs := map (fun p => at_R p 0) data). assert (Lv : List.length vs = List.length data) by apply map_length. clearbody vs. set (bs := map (fun b => hd 0%Z b) binx). assert (Ls : List.length bs = List.length data) by (unfold bs; rewrite map_length; exact Lb). clearbody bs.
    destruct (all_ok (map (fun b => getz (hd [] x) (b + 1)) bs)) as [up|] eqn:U; cbn [bind]; [|reflexivity]. apply all_ok_length in U. rewrite map_length in U.
    assert (L1 : List.length (map (fun p => fst p - snd p) (combine up vs)) = List.length data) by (rewrite map_length, combine_length; lia).
    rewrite times_y_scalar by (intros E; rewrite E in L1; cbn in L1; lia). rewrite L1. destruct (times_y _ _); cbn [bind]; [|reflexivity]. destruct (accumsum _ _ _); cbn [bind]; [|reflexivity].
    destruct (all_ok (map (getz (hd [] x)) bs)) as [lo|] eqn:V; cbn [bind]; [|reflexivity]. apply all_ok_length in V. rewrite map_length in V.
    assert (L2 : List.length (map (fun p => snd p - fst p) (combine lo vs)) = List.length data) by (rewrite map_length, combine_length; lia).
    rewrite times_y_scalar by (intros E; rewrite E in L2; cbn in L2; lia). rewrite L2. reflexivity.
  - unfold gridcount_nd. match goal with |- bind ?a _ = bind ?b _ => assert (E : a = b); [|now rewrite E] end.
    generalize (repeat 0 (List.length (hd [] x) ^ List.length x)) as c. generalize (corners (List.length x)) as cs. induction cs as [|[one two] cs IH]; intros c; cbn [corner_loop]; [reflexivity|].
    destruct (all_ok _) as [ws|] eqn:W; cbn [bind]; [|reflexivity]. apply all_ok_length in W. rewrite map_length, combine_length, Lb, Nat.min_id in W.
    rewrite times_y_scalar by (intros ->; cbn in W; lia). rewrite W. destruct (times_y _ _); cbn [bind]; [|reflexivity]. destruct (accumsum _ _ _); cbn [bind]; [|reflexivity]. destruct (add_arrays _ _); cbn [bind]; [|reflexivity]. apply IH.
Qed.
(* ---- data on the upper edge ---- *)
Lemma getz_error {A} (l : list A) i e : getz l i = Err e -> e = IndexError.
Proof. unfold getz, geti. destruct (0 <=? i)%Z; [|destruct (_ <=? i)%Z]; try destruct (nth_error _ _); congruence. Qed.
Lemma all_ok_error {A B} (f : A -> res B) l x : (forall x e, In x l -> f x = Err e -> e = IndexError) -> In x l -> (exists e, f x = Err e) -> all_ok (map f l) = Err IndexError.
Proof.
  induction l as [|z l IH]; intros H Hx [e He]; [destruct Hx|]. cbn [map all_ok]. destruct (f z) as [b|e'] eqn:F.
  - cbn [bind]. destruct Hx as [->|Hx]; [congruence|]. rewrite IH; [reflexivity|intros; eapply H; eauto; now right|exact Hx|eauto].
  - cbn [bind]. f_equal. eapply H; [now left|exact F].
Qed.
Lemma Int_part_INR k r : r = INR k -> Int_part r = Z.of_nat k.
Proof.
  intros ->. destruct (base_Int_part (INR k)) as [A B]. rewrite INR_IZR_INZ in *. apply le_IZR in A. assert (C : IZR (Z.of_nat k) < IZR (Int_part (IZR (Z.of_nat k)) + 1)) by (rewrite plus_IZR; lra). apply lt_IZR in C. lia.
Qed.
Lemma bin_node q n k : 0 < snd q -> (2 <= n)%nat -> bin (map (node q) (seq 0 n)) (node q k) = Z.of_nat k.
Proof.
  intros Hq Hn. unfold bin. rewrite step_row by exact Hn. apply Int_part_INR. rewrite row_nth by lia. unfold node. cbn [INR]. field. lra.
Qed.
Lemma getz_past {A} (l : list A) : getz l (Z.of_nat (List.length l)) = Err IndexError.
Proof.
  unfold getz. replace (0 <=? Z.of_nat (List.length l))%Z with true by (symmetry; apply Z.leb_le; lia). rewrite Nat2Z.id. unfold geti. destruct (nth_error l (List.length l)) eqn:E; [|reflexivity].
  assert (nth_error l (List.length l) <> None) by congruence. apply nth_error_Some in H. lia.
Qed.
Lemma in_combine_split {A B} (l : list A) (m : list B) (a : A) (b : B) : List.length l = List.length m -> In (a, b) (combine (l ++ [a]) (m ++ [b])).
Proof. revert m. induction l as [|x l IH]; intros [|y m] L; try discriminate; [now left|]. right. apply IH. cbn in L. lia. Qed.
Lemma combine_map_r_self {A B} (f : A -> B) l : combine l (map f l) = map (fun x => (x, f x)) l.
Proof. induction l as [|x l IH]; cbn; [reflexivity|]. now rewrite IH. Qed.
Lemma combine_snoc {A B} (l : list A) (m : list B) a b : List.length l = List.length m -> combine (l ++ [a]) (m ++ [b]) = combine l m ++ [(a, b)].
Proof. revert m. induction l as [|x l IH]; intros [|y m] L; try discriminate; [reflexivity|]. cbn. f_equal. apply IH. cbn in L. lia. Qed.
Lemma concat_nodes_length n g : List.length (concat (nodes n g)) = (n * List.length g)%nat.
Proof. induction g as [|q g IH]; [cbn; lia|]. cbn [nodes map concat]. rewrite app_length, map_length, seq_length. fold (nodes n g). rewrite IH. cbn. lia. Qed.
Lemma gridcount_edge n g q data p v y : (2 <= n)%nat -> Forall (fun q => 0 < snd q) (g ++ [q]) -> (forall p, In p data -> Forall2 (fun q v => node q 0 <= v <= node q (n - 1)) (g ++ [q]) p) ->
  In (p ++ [v]) data -> v = node q (n - 1) -> gridcount data (nodes n (g ++ [q])) y = Err IndexError.
Proof.
  intros Hn Hg Hc Hin Hv. assert (Hq : 0 < snd q) by (apply Forall_app in Hg; destruct Hg as [_ Hg]; inversion Hg; assumption).
  rewrite gridcount_checks; [|exact Hn|now destruct g|exact Hg|intros ->; destruct Hin|exact Hc]. cbv zeta.
  assert (Lp : List.length p = List.length g) by (pose proof (covered_length _ _ _ (Hc _ Hin)) as L; rewrite !app_length in L; cbn in L; lia).
  destruct (Nat.eqb_spec (List.length (g ++ [q])) 1) as [E|E].
  - rewrite app_length in E. cbn in E. destruct g as [|? ?]; [|cbn in E; lia]. destruct p; [|discriminate]. cbn [app nodes map hd] in *. unfold gridcount_1d. rewrite !map_map.
    rewrite (all_ok_error _ _ [v]); [reflexivity| |exact Hin|].
    + intros x e _. apply getz_error.
    + cbn [combine map hd fst snd]. rewrite Hv, bin_node by assumption. exists IndexError. rewrite <- (getz_past (map (node q) (seq 0 n))). f_equal. rewrite map_length, seq_length. lia.
  - unfold gridcount_nd. assert (Ld : List.length (nodes n (g ++ [q])) = S (List.length g)) by (unfold nodes; rewrite map_length, app_length; cbn; lia). rewrite Ld.
    assert (Ec : exists cs, corners (S (List.length g)) = (map bz (tbits 0 (S (List.length g))), map bz (map negb (tbits 0 (S (List.length g))))) :: cs).
    { rewrite corners_pairs. unfold pairs. replace (S (List.length g) - 1)%nat with (List.length g) by lia. assert (P : (0 < 2 ^ List.length g)%nat) by (apply Nat.neq_0_lt_0, Nat.pow_nonzero; lia). destruct (2 ^ List.length g)%nat; [lia|]. cbn [seq flat_map app map]. eauto. }
    destruct Ec as [cs Ec]. rewrite Ec. cbn [corner_loop]. rewrite combine_map_r_self. rewrite map_map. cbn [fst snd]. 
    rewrite (all_ok_error _ _ (p ++ [v])); [reflexivity| |exact Hin|].
    + intros x e _. unfold corner_weight. destruct (all_ok _) as [|e'] eqn:A; cbn [bind]; [discriminate|]. intros [= <-]. clear - A. match type of A with all_ok (map ?f ?l) = _ => revert A; generalize l as l0; generalize dependent e'; set (ff := f) end.
      intros e' l0. induction l0 as [|z l0 IH]; [discriminate|]. cbn [map all_ok]. destruct (ff z) eqn:F; cbn [bind]; [destruct (all_ok (map ff l0)); cbn [bind]; [discriminate|intros [= <-]; apply IH; reflexivity]|]. intros [= <-]. eapply getz_error. exact F.
    + unfold corner_weight. rewrite (all_ok_error _ _ (List.length g, (Z.of_nat (n - 1), 1%Z))); [eexists; reflexivity| | |].
      * intros x e _. apply getz_error.
      * rewrite map_length, combine_length, Ld, app_length, Lp. cbn [List.length]. rewrite Nat.add_1_r, Nat.min_id. rewrite seq_S. cbn [Nat.add].
        assert (T : map bz (map negb (tbits 0 (S (List.length g)))) = repeat 1%Z (List.length g) ++ [1%Z]).
        { unfold tbits. rewrite seq_S, !map_app. f_equal; [|cbn; now rewrite Nat.bits_0]. rewrite !map_map. replace (List.length g) with (List.length (seq 0 (List.length g))) at 2 by apply seq_length. generalize (seq 0 (List.length g)) as l. induction l as [|k l IH]; [reflexivity|]. cbn. rewrite Nat.bits_0. cbn. now rewrite IH. }
        rewrite T. unfold nodes. rewrite map_app. cbn [map].
        assert (CA : combine (map (fun q => map (node q) (seq 0 n)) g ++ [map (node q) (seq 0 n)]) (p ++ [v]) = combine (map (fun q => map (node q) (seq 0 n)) g) p ++ [(map (node q) (seq 0 n), v)]).
        { clear - Lp. revert p Lp. induction g as [|a g IH]; intros [|b p] L; try discriminate; [reflexivity|]. cbn. f_equal. apply IH. cbn in L. lia. }
        rewrite CA, map_app. cbn [map fst snd]. rewrite Hv, bin_node by assumption. rewrite combine_snoc; [|rewrite map_length, combine_length, map_length, repeat_length; lia]. 
        apply in_combine_split. rewrite combine_length, map_length, combine_length, map_length, repeat_length, seq_length. lia.
      * cbn [fst snd]. exists IndexError. rewrite <- (getz_past (concat (nodes n (g ++ [q])))). f_equal. rewrite concat_nodes_length, app_length. cbn [List.length]. lia.
Qed.
(* one observation on the upper edge of the first dimension is counted twice *)
Lemma gridcount_double : exists c, gridcount [[2; 0]] [[0; 1; 2]; [0; 1; 2]] [1] = Ok c /\ entry 3 c (meshgrid_order [2; 0]%nat) = 2.
Proof.
  assert (N : [[0; 1; 2]; [0; 1; 2]] = nodes 3 [(0, 1); (0, 1)]).
  { unfold nodes, node. cbn [map seq fst snd]. change (INR 0) with 0. change (INR 1) with 1. replace (INR 2) with 2 by (cbn; lra). repeat f_equal; lra. }
  rewrite N. rewrite gridcount_checks.
  2: lia. 2: discriminate. 2: repeat constructor; cbn; lra. 2: discriminate.
  2:{ intros p [<-|[]]. unfold covered. repeat constructor; unfold node; cbn; lra. }
  cbv zeta. cbn [List.length Nat.eqb]. 
  assert (B : map (fun p => map (fun q => bin (fst q) (snd q)) (combine (nodes 3 [(0, 1); (0, 1)]) p)) [[2; 0]] = [[2; 0]]%Z).
  { cbn [map nodes combine fst snd]. replace 2 with (node (0, 1) 2) at 1 by (unfold node; cbn; lra). replace 0 with (node (0, 1) 0) at 14 by (unfold node; cbn; lra). 
    rewrite bin_node by (cbn; lra || lia). f_equal. f_equal. f_equal. transitivity (bin (map (node (0, 1)) (seq 0 3)) (node (0, 1) 0)); [f_equal; unfold node; cbn; lra|]. now rewrite bin_node by (cbn; lra || lia). }
  rewrite B. unfold gridcount_nd. rewrite <- N. clear N B.
  assert (C : corners (List.length [[0; 1; 2]; [0; 1; 2]]) = [([0; 0], [1; 1]); ([1; 1], [0; 0]); ([1; 0], [0; 1]); ([0; 1], [1; 0])]%Z) by reflexivity.
  rewrite C. cbn [concat app List.length Nat.pow Nat.mul Nat.add].
  assert (W : forall t0 t1 a b, nth_error [0; 1; 2; 0; 1; 2] (Z.to_nat (2 + t0)) = Some a -> nth_error [0; 1; 2; 0; 1; 2] (Z.to_nat (3 + t1)) = Some b -> (0 <= t0 <= 1)%Z -> (0 <= t1 <= 1)%Z ->
    corner_weight 3 [0; 1; 2; 0; 1; 2] [2; 0] [2; 0]%Z [t0; t1] = Ok (Rabs ((a - 2) * ((b - 0) * 1)))).
  { intros t0 t1 a b Ha Hb H0 H1. unfold corner_weight. cbn [List.length seq combine map fst snd all_ok].
    rewrite (getz_nat _ _ (Z.to_nat (2 + t0)) a) by (exact Ha || lia). cbn [bind]. rewrite (getz_nat _ _ (Z.to_nat (3 + t1)) b) by (exact Hb || lia). reflexivity. }
  cbn [corner_loop combine map fst snd all_ok].
  rewrite (W 1%Z 1%Z 0 1) by (reflexivity || lia). rewrite (W 0%Z 0%Z 2 0) by (reflexivity || lia). rewrite (W 0%Z 1%Z 2 1) by (reflexivity || lia). rewrite (W 1%Z 0%Z 0 0) by (reflexivity || lia).
  clear W C. cbn [bind]. unfold times_y. cbn [List.length Nat.eqb map bind].
  replace (Rabs ((0 - 2) * ((1 - 0) * 1))) with 2 by (unfold Rabs; destruct (Rcase_abs _); lra).
  eexists. split; [cbn; reflexivity|]. unfold entry, at_R. cbn. replace ((0 - 2) * ((0 - 0) * 1)) with 0 by ring. replace ((2 - 2) * ((0 - 0) * 1)) with 0 by ring. replace ((2 - 2) * ((1 - 0) * 1)) with 0 by ring. rewrite ?Rabs_R0. change (Pos.to_nat 2) with 2%nat. change (Pos.to_nat 3) with 3%nat. change (Pos.to_nat 5) with 5%nat. change (Pos.to_nat 6) with 6%nat. cbn. lra.
Qed.
