From Coq Require Import Reals Lra Lia Permutation Sorted.
From Verif Require Import Base PolyModel OrthoModel OrthoProofs QuadProofs2 SplineProofs LinAlg SplineSpec FilterModel FilterSpec FilterProofs FilterProofs2 FilterProofs3.
Local Open Scope R_scope.

(* ---- change of units ---- *)
Definition aff (c d : R) (l : list R) : list R := map (fun v => c * v + d) l.
Lemma at_aff c d l i : (i < List.length l)%nat -> at_R (aff c d l) i = c * at_R l i + d.
Proof. apply nth_map_affine. Qed.
Lemma window_aff c d X Y DX i : window X (aff c d Y) DX i = aff c d (window X Y DX i).
Proof.
  unfold window, aff. rewrite map_length, map_map. apply map_ext_in. intros j Hj. apply filter_In in Hj. destruct Hj as [Hj _]. apply in_seq in Hj.
  apply at_aff. lia.
Qed.
Lemma median_aff c d l : l <> [] -> median (aff c d l) = c * median l + d.
Proof. intros H. symmetry. apply is_median_median, median_affine; [exact H|apply median_is]. Qed.
Lemma localwindow_aff c d X Y DX i : 0 <= DX -> (i < List.length Y)%nat ->
  localwindow X (aff c d Y) DX i = (c * fst (localwindow X Y DX i) + d, Rabs c * snd (localwindow X Y DX i)).
Proof.
  intros HD Hi. pose proof (window_self X Y DX i HD Hi) as N. unfold localwindow. rewrite window_aff. cbn [fst snd]. rewrite median_aff by exact N. f_equal.
  set (w := window X Y DX i) in *. set (m := median w).
  replace (map (fun v => Rabs (v - (c * m + d))) (aff c d w)) with (aff (Rabs c) 0 (map (fun v => Rabs (v - m)) w)).
  - rewrite median_aff by (destruct w; [congruence|discriminate]). ring.
  - unfold aff. rewrite !map_map. apply map_ext. intros v. replace (c * v + d - (c * m + d)) with (c * (v - m)) by ring. rewrite Rabs_mult. ring.
Qed.
Definition qaff (c d : R) (q : R * R) : R * R := (c * fst q + d, Rabs c * snd q).
Lemma widen_aff c d X Y dx ad i : c <> 0 -> 0 <= dx -> (i < List.length Y)%nat -> forall fuel j prev prev', (j <> 0%nat -> prev' = qaff c d prev) ->
  widen X (aff c d Y) dx ad i fuel j prev' = match widen X Y dx ad i fuel j prev with Ok q => Ok (qaff c d q) | Err e => Err e end.
Proof.
  intros Hc HD Hi. assert (Ha : 0 < Rabs c) by now apply Rabs_pos_lt. induction fuel as [|fuel IH]; intros j prev prev' Hp; [reflexivity|]. cbn [widen].
  rewrite localwindow_aff; [|apply Rmult_le_pos; [apply pos_INR|exact HD]|exact Hi].
  set (cur := localwindow X Y (INR (j + 1) * dx) i). cbn [snd].
  destruct j as [|j].
  - apply (IH 1%nat cur (qaff c d cur)). reflexivity.
  - rewrite (Hp ltac:(discriminate)). cbn [qaff snd].
    assert (E1 : Rabs c * snd prev + Rabs c * snd cur = Rabs c * (snd prev + snd cur)) by ring.
    destruct (Req_EM_T (snd prev + snd cur) 0) as [Z|Z].
    + destruct (Req_EM_T (Rabs c * snd prev + Rabs c * snd cur) 0) as [_|Z']; [reflexivity|]. exfalso. apply Z'. rewrite E1, Z. ring.
    + destruct (Req_EM_T (Rabs c * snd prev + Rabs c * snd cur) 0) as [Z'|_]; [exfalso; apply Z; nra|].
      replace ((Rabs c * snd prev - Rabs c * snd cur) / (Rabs c * snd prev + Rabs c * snd cur) / 2) with ((snd prev - snd cur) / (snd prev + snd cur) / 2).
      2:{ rewrite E1. field. lra. }
      destruct (Rlt_dec ad _); [|reflexivity]. apply (IH (S (S j)) cur (qaff c d cur)). reflexivity.
Qed.
Lemma widen_aff0 c d X Y dx ad i n : c <> 0 -> 0 <= dx -> (i < n)%nat -> List.length Y = n ->
  widen X (aff c d Y) dx ad i n 0 (0, 0) = match widen X Y dx ad i n 0 (0, 0) with Ok q => Ok (qaff c d q) | Err e => Err e end.
Proof.
  intros Hc HD Hi L. rewrite (widen_aff c d X Y dx ad i Hc HD ltac:(lia) n 0 (0, 0) (0, 0)) by (intros H; exfalso; now apply H).
  destruct n; [lia|]. reflexivity.
Qed.
Lemma all_ok_aff (f g : nat -> res (R * R)) c d is : (forall i, In i is -> g i = match f i with Ok q => Ok (qaff c d q) | Err e => Err e end) ->
  all_ok (map g is) = match all_ok (map f is) with Ok t => Ok (map (qaff c d) t) | Err e => Err e end.
Proof.
  induction is as [|i is IH]; intros H; [reflexivity|]. cbn [map all_ok]. rewrite (H i) by now left. destruct (f i) as [q|]; cbn [bind]; [|reflexivity].
  rewrite IH by (intros; apply H; now right). destruct (all_ok (map f is)); reflexivity.
Qed.
Lemma list_at (l l' : list R) : List.length l = List.length l' -> (forall i, (i < List.length l)%nat -> at_R l i = at_R l' i) -> l = l'.
Proof. intros L H. apply nth_ext with 0 0; [exact L|exact H]. Qed.
Lemma hampel_bounds_aff c d ad X Y dx : c <> 0 -> 0 < dx -> List.length X = List.length Y ->
  hampel_bounds ad X (aff c d Y) dx = match hampel_bounds ad X Y dx with Ok (Y0, S0) => Ok (aff c d Y0, aff (Rabs c) 0 S0) | Err e => Err e end.
Proof.
  intros Hc HD L. assert (LY : List.length (aff c d Y) = List.length Y) by apply map_length. unfold hampel_bounds. rewrite LY. destruct ad as [ad|].
  - rewrite (all_ok_aff (fun i => widen X Y dx ad i (List.length Y) 0 (0, 0)) _ c d).
    2:{ intros i Hi. apply in_seq in Hi. apply widen_aff0; [exact Hc|lra|lia|reflexivity]. }
    destruct (all_ok (map (fun i => widen X Y dx ad i (List.length Y) 0 (0, 0)) _)) as [t|] eqn:T; cbn [bind]; [|reflexivity].
    apply all_ok_map_spec in T. destruct T as [Lt _].
    assert (M : List.length (smgauss X (map fst t) (2 * median (diffR X))) = List.length X) by (unfold smgauss; now rewrite map_length, seq_length).
    assert (M2 : List.length (smgauss X (map snd t) (2 * median (diffR X))) = List.length X) by (unfold smgauss; now rewrite map_length, seq_length).
    f_equal. f_equal.
    + replace (map fst (map (qaff c d) t)) with (aff c d (map fst t)) by (unfold aff; rewrite !map_map; reflexivity).
      apply list_at; [unfold smgauss, aff; now rewrite !map_length, !seq_length|]. intros i Hi. unfold smgauss in Hi. rewrite map_length, seq_length in Hi.
      rewrite at_aff by (rewrite M; exact Hi). apply smgauss_affine; [exact Hi|rewrite map_length; lia].
    + replace (map snd (map (qaff c d) t)) with (aff (Rabs c) 0 (map snd t)) by (unfold aff; rewrite !map_map; apply map_ext; intros; unfold qaff; cbn; ring).
      apply list_at; [unfold smgauss, aff; now rewrite !map_length, !seq_length|]. intros i Hi. unfold smgauss in Hi. rewrite map_length, seq_length in Hi.
      rewrite at_aff by (rewrite M2; exact Hi). apply smgauss_affine; [exact Hi|rewrite map_length; lia].
  - f_equal. f_equal; unfold aff; rewrite !map_map; apply map_ext_in; intros i Hi; apply in_seq in Hi; fold (aff c d Y); rewrite localwindow_aff by (lra || lia); cbn [fst snd]; ring.
Qed.
Lemma hampel_aff c d dx t ad y x : c <> 0 -> (match x with Some x => List.length x = List.length y | None => True end) ->
  hampel dx t ad (aff c d y) x = match hampel dx t ad y x with
    | Ok (out, mask, (Y0, S0)) => Ok (aff c d out, mask, (aff c d Y0, aff (Rabs c) 0 S0)) | Err e => Err e end.
Proof.
  intros Hc E. assert (LY : List.length (aff c d y) = List.length y) by apply map_length. assert (Ha : 0 < Rabs c) by now apply Rabs_pos_lt.
  unfold hampel. rewrite LY. set (X := match x with Some x => x | None => map INR (seq 0 (List.length y)) end).
  assert (LX : List.length X = List.length y) by (unfold X; destruct x; [exact E|now rewrite map_length, seq_length]). clearbody X. clear E.
  destruct (match dx with Some d => Some d | None => _ end) as [w|]; [|reflexivity]. destruct (Rlt_dec 0 w) as [Hd|]; [|reflexivity].
  destruct (List.length X <=? 1)%nat; [f_equal; f_equal; f_equal; unfold aff; now rewrite map_map|].
  rewrite hampel_bounds_aff by assumption. destruct (hampel_bounds ad X y w) as [[Y0 S0]|] eqn:HB; cbn [bind fst snd]; [|reflexivity].
  assert (LB : List.length Y0 = List.length y /\ List.length S0 = List.length y).
  { unfold hampel_bounds in HB. destruct ad as [a|].
    - destruct (all_ok _) as [tt|]; cbn [bind] in HB; [|discriminate]. inversion HB; subst. unfold smgauss. now rewrite !map_length, !seq_length.
    - inversion HB; subst. now rewrite !map_length, !seq_length. }
  destruct LB as [L1 L2]. assert (B : forall i, (i < List.length y)%nat ->
    (if Rlt_dec (t * at_R (aff (Rabs c) 0 S0) i) (Rabs (at_R (aff c d y) i - at_R (aff c d Y0) i)) then true else false) =
    (if Rlt_dec (t * at_R S0 i) (Rabs (at_R y i - at_R Y0 i)) then true else false)).
  { intros i Hi. rewrite !at_aff by lia. replace (c * at_R y i + d - (c * at_R Y0 i + d)) with (c * (at_R y i - at_R Y0 i)) by ring. rewrite Rabs_mult.
    destruct (Rlt_dec _ _) as [A|A], (Rlt_dec _ _) as [A'|A']; try reflexivity; exfalso; nra. }
  f_equal. f_equal; f_equal.
  - transitivity (map (fun v => c * v + d) (map (fun i => if (if Rlt_dec (t * at_R S0 i) (Rabs (at_R y i - at_R Y0 i)) then true else false) then at_R Y0 i else at_R y i) (seq 0 (List.length y)))); [|reflexivity].
    rewrite map_map. apply map_ext_in. intros i Hi. apply in_seq in Hi. rewrite B by lia. destruct (Rlt_dec _ _); apply at_aff; lia.
  - apply map_ext_in. intros i Hi. apply in_seq in Hi. apply B. lia.
Qed.
(* ---- the adaptive loop ends ---- *)
Lemma localwindow_wide X Y DX DX' i : List.length X = List.length Y -> (i < List.length Y)%nat -> (forall j, (j < List.length X)%nat -> Rabs (nth j X 0 - nth i X 0) <= DX) -> DX <= DX' ->
  localwindow X Y DX' i = localwindow X Y DX i.
Proof.
  intros L Hi H HD. unfold localwindow. replace (window X Y DX' i) with (window X Y DX i); [reflexivity|]. unfold window. f_equal.
  apply filter_ext_in. intros j Hj. apply in_seq in Hj. specialize (H j ltac:(lia)).
  destruct (in_window X DX i j) eqn:E1, (in_window X DX' i j) eqn:E2; try reflexivity.
  - apply in_window_spec in E1. exfalso. assert (in_window X DX' i j = true) by (apply in_window_spec; lra). congruence.
  - exfalso. assert (in_window X DX i j = true) by (apply in_window_spec; lra). congruence.
Qed.
Lemma widen_ok X Y dx ad i n : List.length X = n -> List.length Y = n -> (i < n)%nat -> 0 <= ad -> 0 < dx ->
  (forall j, (j < n)%nat -> Rabs (nth j X 0 - nth i X 0) <= INR (n - 1) * dx) -> forall fuel j prev, (j + fuel = n)%nat -> (j < n)%nat ->
  ((j = n - 1)%nat -> prev = localwindow X Y (INR (n - 1) * dx) i) -> (2 <= n)%nat -> exists q, widen X Y dx ad i fuel j prev = Ok q.
Proof.
  intros LX LY Hi Had Hdx Hall. induction fuel as [|fuel IH]; intros j prev Hj Hjn Hprev Hn; [lia|]. cbn [widen].
  set (cur := localwindow X Y (INR (j + 1) * dx) i). set (go := match j with O => true | S _ => _ end). destruct go eqn:G; [|eexists; reflexivity].
  destruct (Nat.eq_dec j (n - 1)) as [E|E].
  - exfalso. specialize (Hprev E). destruct j as [|j]; [lia|]. unfold go in G. 
    assert (C : cur = prev).
    { unfold cur. rewrite Hprev. apply localwindow_wide; [lia|lia|intros k Hk; apply Hall; lia|]. apply Rmult_le_compat_r; [lra|]. apply le_INR. lia. }
    rewrite C in G. destruct (Req_EM_T (snd prev + snd prev) 0); [discriminate|]. match type of G with (if ?b then _ else _) = _ => destruct b as [A|]; [clear G|discriminate G] end.
    replace ((snd prev - snd prev) / (snd prev + snd prev) / 2) with 0 in A by (field; lra). rewrite Rabs_R0 in A. lra.
  - apply IH; [lia|lia| |lia]. intros E'. unfold cur. f_equal. f_equal. f_equal. lia.
Qed.
Lemma all_ok_some {A} (f : nat -> res A) is : (forall i, In i is -> exists q, f i = Ok q) -> exists t, all_ok (map f is) = Ok t.
Proof.
  induction is as [|i is IH]; intros H; [eexists; reflexivity|]. destruct (H i) as [q Hq]; [now left|]. destruct IH as [t Ht]; [intros; apply H; now right|].
  exists (q :: t). cbn [map all_ok]. rewrite Hq, Ht. reflexivity.
Qed.
Lemma hampel_adaptive_ok dx t ad y x : List.length x = List.length y -> (2 <= List.length y)%nat -> 0 < dx -> 0 <= ad ->
  (forall i j, (i < List.length y)%nat -> (j < List.length y)%nat -> Rabs (nth j x 0 - nth i x 0) <= INR (List.length y - 1) * dx) ->
  exists r, hampel (Some dx) t (Some ad) y (Some x) = Ok r.
Proof.
  intros L Hn Hd Had H. unfold hampel. destruct (Rlt_dec 0 dx) as [_|]; [|lra]. replace (List.length x <=? 1)%nat with false by (symmetry; apply Nat.leb_gt; lia).
  cbn [hampel_bounds].
  destruct (all_ok_some (fun i => widen x y dx ad i (List.length y) 0 (0, 0)) (seq 0 (List.length y))) as [t' Ht].
  { intros i Hi. apply in_seq in Hi. apply (widen_ok x y dx ad i (List.length y)); try lia; try lra. intros j Hj. apply H; lia. }
  rewrite Ht. cbn [bind]. eexists. reflexivity.
Qed.
(* default sample positions and step *)
Lemma hampel_default t ad y x m : (2 <= List.length x)%nat -> is_median (diffR x) m -> hampel None t ad y (Some x) = hampel (Some (3 * m)) t ad y (Some x).
Proof.
  intros Hx Hm. unfold hampel. destruct x as [|a [|b x]]; cbn in Hx; try lia. rewrite (is_median_median _ _ Hm). reflexivity.
Qed.
Lemma hampel_single y t ad : hampel None t ad [y] None = Err ValueError.
Proof. reflexivity. Qed.
(* two samples further apart than twice the half width: the second and last window differs from the first *)
Lemma hampel_adaptive_fails : hampel (Some (1/2)) 3 (Some (1/10)) [0; 1] None = Err IndexError.
Proof.
  assert (M1 : forall v, median [v] = v) by (intros v; unfold median; cbn; unfold at_R; cbn; field).
  assert (M2 : forall v u, v <= u -> median [v; u] = (v + u) / 2).
  { intros v u H. unfold median. cbn. unfold at_R. destruct (Rle_dec v u); [|lra]. cbn. reflexivity. }
  unfold hampel. destruct (Rlt_dec 0 (1/2)) as [_|]; [|lra]. cbn [List.length seq map Nat.leb].
  change (INR 0) with 0. change (INR 1) with 1.
  assert (W0 : window [0; 1] [0; 1] (1/2) 0 = [0]).
  { unfold window. cbn [List.length seq filter]. replace (in_window [0; 1] (1/2) 0 0) with true by (symmetry; apply in_window_spec; cbn; rewrite Rminus_eq_0, Rabs_R0; lra).
    destruct (in_window [0; 1] (1/2) 0 1) eqn:E; [|reflexivity]. apply in_window_spec in E. cbn in E. rewrite Rminus_0_r, Rabs_R1 in E. lra. }
  assert (W1 : window [0; 1] [0; 1] (2 * (1/2)) 0 = [0; 1]).
  { unfold window. cbn [List.length seq filter]. replace (in_window [0; 1] (2 * (1/2)) 0 0) with true by (symmetry; apply in_window_spec; cbn; rewrite Rminus_eq_0, Rabs_R0; lra).
    replace (in_window [0; 1] (2 * (1/2)) 0 1) with true by (symmetry; apply in_window_spec; cbn; rewrite Rminus_0_r, Rabs_R1; lra). reflexivity. }
  unfold hampel_bounds. cbn [List.length seq map all_ok].
  replace (widen [0; 1] [0; 1] (1/2) (1/10) 0 2 0 (0, 0)) with (@Err (R * R) IndexError); [reflexivity|].
  cbn [widen Nat.add]. change (INR 1) with 1. replace (INR 2) with 2 by (cbn; lra). unfold localwindow. rewrite Rmult_1_l, W0, W1. cbn [map fst snd]. rewrite !M1, (M2 0 1) by lra.
  replace (Rabs (0 - 0)) with 0 by (rewrite Rminus_eq_0, Rabs_R0; reflexivity). replace (Rabs (0 - (0 + 1) / 2)) with (1/2) by (unfold Rabs; destruct (Rcase_abs _); lra).
  replace (Rabs (1 - (0 + 1) / 2)) with (1/2) by (unfold Rabs; destruct (Rcase_abs _); lra). rewrite (M2 (1/2) (1/2)) by lra.
  destruct (Req_EM_T _ 0) as [Z|Z]; [lra|]. destruct (Rlt_dec (1/10) _) as [A|A]; [reflexivity|]. exfalso. apply A.
  match goal with |- _ < Rabs ?e => replace e with (- (1/2)) by field end. rewrite Rabs_Ropp, Rabs_right; lra.
Qed.
(* a solver exists *)
From Coq Require Import ClassicalEpsilon.
Lemma solver_exists : exists spsolve, solver spsolve.
Proof.
  exists (fun n A b => epsilon (inhabits (fun _ => 0)) (solves n A b)). intros n A b [s [H _]]. apply epsilon_spec. now exists s.
Qed.
Lemma hp_unique w x : 0 <= w -> (4 <= List.length x)%nat ->
  exists s, solves (List.length x) (hp_matrix (List.length x) w) (fun i => nth i x 0) s /\ forall t, solves (List.length x) (hp_matrix (List.length x) w) (fun i => nth i x 0) t -> forall i, (i < List.length x)%nat -> t i = s i.
Proof.
  intros Hw Hx. assert (I : injective (List.length x) (hp_matrix (List.length x) w)) by (replace (List.length x) with (List.length x - 2 + 2)%nat by lia; apply hp_injective; [lia|exact Hw]).
  destruct (injective_solvable _ _ (fun i => nth i x 0) I) as [s S1]. exists s. split; [exact S1|]. intros t T i Hi. exact (injective_unique _ _ _ t s I T S1 i Hi).
Qed.
Lemma hampel_one d t ad y : 0 < d -> exists mask B, hampel (Some d) t ad [y] None = Ok ([y], mask, B).
Proof. intros H. unfold hampel. destruct (Rlt_dec 0 d); [|lra]. cbn. eauto. Qed.
Lemma hampel_refused d t ad y x : d <= 0 -> hampel (Some d) t ad y x = Err ValueError.
Proof. intros H. unfold hampel. destruct (Rlt_dec 0 d); [lra|reflexivity]. Qed.
Lemma hampel_example : exists m s, let y := [5; 1; 9] in let x := [0; 1; 2] in
  neighbours x 2 0 [0; 1; 2]%nat /\ is_median (values y [0; 1; 2]%nat) m /\ is_median (map (fun v => Rabs (v - m)) (values y [0; 1; 2]%nat)) s /\ m = 5 /\ s = 4.
Proof.
  exists 5, 4. cbv zeta. split; [|split; [|split; [|lra]]].
  - split; [repeat constructor; cbn; intuition discriminate|]. intros j. cbn. split.
    + intros [<-|[<-|[<-|[]]]]; (split; [lia|]); unfold Rabs; destruct (Rcase_abs _); lra.
    + intros [H _]. lia.
  - exists [1; 5; 9]. cbn. split; [apply perm_swap|]. split; [repeat constructor; lra|]. lra.
  - exists [0; 4; 4]. cbn. replace (Rabs (5 - 5)) with 0 by (unfold Rabs; destruct (Rcase_abs _); lra). replace (Rabs (1 - 5)) with 4 by (unfold Rabs; destruct (Rcase_abs _); lra).
    replace (Rabs (9 - 5)) with 4 by (unfold Rabs; destruct (Rcase_abs _); lra). split; [reflexivity|]. split; [repeat constructor; lra|]. lra.
Qed.
