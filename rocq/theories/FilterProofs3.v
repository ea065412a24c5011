From Coq Require Import Reals Lra Lia Permutation Sorted.
From Verif Require Import Base PolyModel OrthoModel OrthoProofs QuadProofs2 SplineProofs LinAlg FilterModel FilterSpec FilterProofs FilterProofs2.
Local Open Scope R_scope.

Lemma at_map_nth {A} (f : nat -> A) n i d : (i < n)%nat -> nth i (map f (seq 0 n)) d = f i.
Proof. intros H. rewrite (nth_indep _ d (f 0%nat)) by now rewrite map_length, seq_length. rewrite (map_nth f), seq_nth by exact H. reflexivity. Qed.
Lemma window_values X Y DX i : List.length X = List.length Y -> window X Y DX i = values Y (widx X DX i (List.length X)).
Proof. intros E. unfold window, values, widx. rewrite E. reflexivity. Qed.

Lemma hampel_fixed dx t y x : List.length x = List.length y -> (2 <= List.length y)%nat -> 0 < dx ->
  exists out mask Y0 S0, hampel (Some dx) t None y (Some x) = Ok (out, mask, (Y0, S0)) /\
    List.length out = List.length y /\ List.length mask = List.length y /\
    forall i js m s, (i < List.length y)%nat -> neighbours x dx i js -> is_median (values y js) m ->
      is_median (map (fun v => Rabs (v - m)) (values y js)) s ->
      nth i Y0 0 = m /\ nth i S0 0 = 14826 / 10000 * s /\
      (nth i mask false = true <-> t * (14826 / 10000 * s) < Rabs (nth i y 0 - m)) /\
      nth i out 0 = if nth i mask false then m else nth i y 0.
Proof.
  intros E Hn Hd. unfold hampel. destruct (Rlt_dec 0 dx) as [_|]; [|lra]. replace (List.length x <=? 1)%nat with false by (symmetry; apply Nat.leb_gt; lia).
  cbn [hampel_bounds bind fst snd]. do 4 eexists. split; [reflexivity|]. rewrite !map_length, !seq_length. split; [reflexivity|]. split; [reflexivity|].
  intros i js m s Hi Hj Hm Hs.
  assert (P : Permutation (window x y dx i) (values y js)).
  { rewrite window_values by exact E. apply Permutation_map. eapply neighbours_perm; [apply widx_neighbours|exact Hj]. }
  assert (Em : fst (localwindow x y dx i) = m) by (cbn; exact (median_unique _ _ _ _ (median_is _) Hm P)).
  assert (Es : snd (localwindow x y dx i) = 14826 / 10000 * s).
  { unfold localwindow. cbn [snd]. f_equal. assert (Em' : median (window x y dx i) = m) by exact Em. rewrite Em'.
    refine (median_unique _ _ _ _ (median_is _) Hs _). now apply Permutation_map. }
  rewrite !at_map_nth by exact Hi. unfold at_R. rewrite !at_map_nth by exact Hi. rewrite Em, Es.
  split; [reflexivity|]. split; [reflexivity|]. destruct (Rlt_dec _ _) as [L|L]; split; try reflexivity; split; intros; try assumption; try reflexivity; try discriminate; contradiction.
Qed.
Lemma hampel_zero dx y x : List.length x = List.length y -> (2 <= List.length y)%nat -> 0 < dx ->
  exists out mask B, hampel (Some dx) 0 None y (Some x) = Ok (out, mask, B) /\ List.length out = List.length y /\
    forall i js m, (i < List.length y)%nat -> neighbours x dx i js -> is_median (values y js) m -> nth i out 0 = m.
Proof.
  intros E Hn Hd. destruct (hampel_fixed dx 0 y x E Hn Hd) as (out & mask & Y0 & S0 & H & L1 & L2 & G). exists out, mask, (Y0, S0).
  split; [exact H|]. split; [exact L1|]. intros i js m Hi Hj Hm. destruct (G i js m _ Hi Hj Hm (median_is _)) as (_ & _ & M & O). rewrite O.
  destruct (nth i mask false); [reflexivity|]. rewrite Rmult_0_l in M. destruct (Req_dec (nth i y 0) m) as [->|N]; [reflexivity|].
  exfalso. assert (false = true) by (apply M, Rabs_pos_lt; lra). discriminate.
Qed.
(* ---- weighted means ---- *)
Lemma smgauss_weights (X : list R) (DX : R) (k : nat) : (0 < List.length X)%nat -> 0 < vsum (List.length X) (fun j => exp (- ((at_R X j - at_R X k) / (2 * DX)) ^ 2)).
Proof.
  intros H. destruct (List.length X) as [|n]; [lia|]. cbn [vsum]. 
  assert (0 <= vsum n (fun j => exp (- ((at_R X j - at_R X k) / (2 * DX)) ^ 2))) by (apply vsum_nonneg; intros; left; apply exp_pos).
  pose proof (exp_pos (- ((at_R X n - at_R X k) / (2 * DX)) ^ 2)). lra.
Qed.
Lemma vsum_le n f g : (forall k, (k < n)%nat -> f k <= g k) -> vsum n f <= vsum n g.
Proof. induction n as [|n IH]; intros H; [cbn; lra|]. cbn [vsum]. assert (f n <= g n) by (apply H; lia). assert (vsum n f <= vsum n g) by (apply IH; intros; apply H; lia). lra. Qed.
Lemma smgauss_bounds X V DX a b i : (i < List.length X)%nat -> (forall j, (j < List.length X)%nat -> a <= at_R V j <= b) ->
  a <= at_R (smgauss X V DX) i <= b.
Proof.
  intros Hi H. unfold smgauss. rewrite at_map by exact Hi. set (W := fun j => exp (- ((at_R X j - at_R X i) / (2 * DX)) ^ 2)).
  pose proof (smgauss_weights X DX i ltac:(lia)) as HW. fold W in HW.
  assert (G1 : a * vsum (List.length X) W <= vsum (List.length X) (fun j => W j * at_R V j)).
  { rewrite <- vsum_scal. apply vsum_le. intros k Hk. pose proof (exp_pos (- ((at_R X k - at_R X i) / (2 * DX)) ^ 2)). fold (W k) in H0. specialize (H k Hk). nra. }
  assert (G2 : vsum (List.length X) (fun j => W j * at_R V j) <= b * vsum (List.length X) W).
  { rewrite <- vsum_scal. apply vsum_le. intros k Hk. pose proof (exp_pos (- ((at_R X k - at_R X i) / (2 * DX)) ^ 2)). fold (W k) in H0. specialize (H k Hk). nra. }
  split.
  - apply Rmult_le_reg_r with (vsum (List.length X) W); [exact HW|]. unfold Rdiv. rewrite (Rmult_assoc _ (/ _)), Rinv_l, Rmult_1_r by lra. exact G1.
  - apply Rmult_le_reg_r with (vsum (List.length X) W); [exact HW|]. unfold Rdiv. rewrite (Rmult_assoc _ (/ _)), Rinv_l, Rmult_1_r by lra. exact G2.
Qed.
Lemma smgauss_affine X V DX c d i : (i < List.length X)%nat -> List.length V = List.length X -> at_R (smgauss X (map (fun v => c * v + d) V) DX) i = c * at_R (smgauss X V DX) i + d.
Proof.
  intros Hi L. unfold smgauss. rewrite !at_map by exact Hi. set (W := fun j => exp (- ((at_R X j - at_R X i) / (2 * DX)) ^ 2)).
  pose proof (smgauss_weights X DX i ltac:(lia)) as HW. fold W in HW.
  change (vsum (List.length X) (fun j => exp (- ((at_R X j - at_R X i) / (2 * DX)) ^ 2) * at_R V j)) with (vsum (List.length X) (fun j => W j * at_R V j)).
  change (vsum (List.length X) (fun j => exp (- ((at_R X j - at_R X i) / (2 * DX)) ^ 2))) with (vsum (List.length X) W).
  rewrite (vsum_ext _ (fun j => W j * at_R (map (fun v => c * v + d) V) j) (fun j => c * (W j * at_R V j) + d * W j)).
  - rewrite vsum_add, !vsum_scal. clearbody W. field. lra.
  - intros k Hk. unfold at_R. rewrite nth_map_affine by lia. ring.
Qed.
(* ---- range ---- *)
Lemma localwindow_bounds X Y DX i a b : 0 <= DX -> (i < List.length Y)%nat -> (forall v, In v Y -> a <= v <= b) -> a <= fst (localwindow X Y DX i) <= b.
Proof.
  intros HD Hi H. unfold localwindow. cbn [fst]. apply (median_bounds (window X Y DX i)); [now apply window_self|apply median_is|]. intros v Hv. apply window_in in Hv. destruct Hv as (j & Hj & ->). apply H, nth_In, Hj.
Qed.
Lemma widen_bounds X Y dx ad i a b : 0 <= dx -> (i < List.length Y)%nat -> (forall v, In v Y -> a <= v <= b) -> forall fuel j prev q,
  (j <> 0%nat -> a <= fst prev <= b) -> widen X Y dx ad i fuel j prev = Ok q -> a <= fst q <= b.
Proof.
  intros HD Hi H. induction fuel as [|fuel IH]; intros j prev q Hp; [discriminate|]. cbn [widen].
  set (cur := localwindow X Y (INR (j + 1) * dx) i). set (go := match j with O => true | S _ => _ end).
  destruct go eqn:G.
  - apply IH. intros _. apply localwindow_bounds; [|exact Hi|exact H]. apply Rmult_le_pos; [apply pos_INR|exact HD].
  - intros [= <-]. apply Hp. intros ->. unfold go in G. discriminate.
Qed.
Lemma all_ok_spec {A} (l : list (res A)) t : all_ok l = Ok t -> List.length t = List.length l /\ forall i d d', (i < List.length l)%nat -> nth i l d' = Ok (nth i t d).
Proof.
  revert t. induction l as [|r l IH]; intros t; cbn.
  - intros [= <-]. split; [reflexivity|]. intros i d d' Hi. lia.
  - destruct r as [x|]; cbn; [|discriminate]. destruct (all_ok l) as [t'|] eqn:E; cbn; [|discriminate]. intros [= <-]. destruct (IH t' eq_refl) as [L G].
    split; [cbn; lia|]. intros [|i] d d' Hi; [reflexivity|]. cbn. apply G. lia.
Qed.
Lemma all_ok_map_spec {A} (f : nat -> res A) n t : all_ok (map f (seq 0 n)) = Ok t -> List.length t = n /\ forall i d, (i < n)%nat -> f i = Ok (nth i t d).
Proof.
  intros H. destruct (all_ok_spec _ _ H) as [L G]. rewrite map_length, seq_length in L, G. split; [exact L|]. intros i d Hi.
  rewrite <- (G i d (f 0%nat) Hi). symmetry. now apply at_map_nth.
Qed.
Lemma hampel_bounds_range ad X Y dx a b Y0 S0 : List.length X = List.length Y -> 0 < dx -> (forall v, In v Y -> a <= v <= b) -> hampel_bounds ad X Y dx = Ok (Y0, S0) ->
  forall i, (i < List.length Y)%nat -> a <= at_R Y0 i <= b.
Proof.
  intros E HD H. unfold hampel_bounds. destruct ad as [ad|].
  - destruct (all_ok _) as [t|] eqn:T; cbn [bind]; [|discriminate]. intros [= <- _] i Hi. apply all_ok_map_spec in T. destruct T as [L G].
    apply smgauss_bounds; [lia|]. intros j Hj. unfold at_R. rewrite (nth_indep _ 0 (fst (0, 0))) by (rewrite map_length; lia). rewrite map_nth.
    specialize (G j (0, 0) ltac:(lia)). exact (widen_bounds X Y dx ad j a b ltac:(lra) ltac:(lia) H _ _ _ _ (fun N => False_ind _ (N eq_refl)) G).
  - intros [= <- _] i Hi. rewrite at_map by exact Hi. apply localwindow_bounds; [lra|exact Hi|exact H].
Qed.
Lemma hampel_range dx t ad y x a b out mask B : (match x with Some x => List.length x = List.length y | None => True end) ->
  (forall v, In v y -> a <= v <= b) -> hampel dx t ad y x = Ok (out, mask, B) -> List.length out = List.length y /\ forall v, In v out -> a <= v <= b.
Proof.
  intros E H. unfold hampel. set (X := match x with Some x => x | None => map INR (seq 0 (List.length y)) end).
  assert (LX : List.length X = List.length y) by (unfold X; destruct x; [exact E|now rewrite map_length, seq_length]). clearbody X. clear E.
  destruct (match dx with Some d => Some d | None => _ end) as [d|]; [|discriminate]. destruct (Rlt_dec 0 d) as [Hd|]; [|discriminate].
  destruct (List.length X <=? 1)%nat; [intros [= <- _ _]; split; [reflexivity|exact H]|].
  destruct (hampel_bounds ad X y d) as [[Y0 S0]|] eqn:HB; cbn [bind fst snd]; [|discriminate]. intros [= <- _ _]. split; [now rewrite map_length, seq_length|].
  intros v Hv. apply in_map_iff in Hv. destruct Hv as (i & <- & Hi). apply in_seq in Hi. destruct (Rlt_dec _ _).
  - exact (hampel_bounds_range ad X y d a b Y0 S0 LX Hd H HB i ltac:(lia)).
  - apply H. unfold at_R. apply nth_In. lia.
Qed.
