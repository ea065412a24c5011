From Coq Require Import Reals List ZArith Lra Lia Bool.
From Verif Require Import Base PolyModel OrthoModel OrthoProofs ChebModel ChebSpec ChebProofs ChebProofs2 ChebProofs3 ChndModel ChndSpec ChndProofs ChndProofs2.
Import ListNotations.
Local Open Scope R_scope.
Set Bullet Behavior "Strict Subproofs".

Lemma dct_last_get c a b : shape c = a ++ [b] -> forall X k, get (dct_last c) (X ++ [k]) = L b (fun p => get c (X ++ [p])) k.
Proof. intros S X k. unfold dct_last. cbn [get]. rewrite S, !last_snoc, removelast_last. reflexivity. Qed.
Lemma roll_shape c a b : shape c = a ++ [b] -> shape (rollaxis (dct_last c)) = b :: a.
Proof. intros S. cbn [rollaxis dct_last shape]. rewrite S, last_snoc, removelast_last. reflexivity. Qed.
Lemma roll_get c k X : get (rollaxis c) (k :: X) = get c (X ++ [k]). Proof. reflexivity. Qed.

Lemma cheb_prod_app : forall i j x y, List.length i = List.length x -> cheb_prod (i ++ j) (x ++ y) = cheb_prod i x * cheb_prod j y.
Proof.
  induction i as [|a i IH]; intros j x y H; destruct x as [|b x]; try discriminate; cbn [app cheb_prod]; [ring|]. rewrite IH by (cbn in H; lia). ring.
Qed.
Definition roots (b ib : list nat) : list R := map2 root b ib.
Lemma map2_app {A B C} (f : A -> B -> C) : forall l m l' m', List.length l = List.length m -> map2 f (l ++ l') (m ++ m') = map2 f l m ++ map2 f l' m'.
Proof. induction l as [|a l IH]; intros [|b m] l' m' H; try discriminate; [reflexivity|]. cbn. rewrite IH by (cbn in H; lia). reflexivity. Qed.

Lemma Forall2_len {A B} (P : A -> B -> Prop) l m : Forall2 P l m -> List.length l = List.length m.
Proof. induction 1; cbn; congruence. Qed.

Lemma loop_interp : forall b b0 a c, shape c = a ++ b0 :: b ->
  let t := dct_loop (S (List.length b)) c in
  shape t = b ++ a ++ [b0] /\
  forall ia i0 ib, (i0 < b0)%nat -> Forall2 lt ib b ->
    multi_sum b (fun kb => vsum b0 (fun k0 => get t (kb ++ ia ++ [k0]) * (cheb_prod kb (roots b ib) * chebT k0 (root b0 i0)))) = INR (b0 * size b) * get c (ia ++ i0 :: ib).
Proof.
  induction b as [|bl b IH] using rev_ind; intros b0 a c S t.
  - subst t. cbn [List.length dct_loop]. split; [exact S|]. intros ia i0 ib H0 F. inversion F; subst. cbn [multi_sum app]. unfold size; cbn [fold_right].
    rewrite Nat.mul_1_r, <- (L_interp b0 (fun p => get c (ia ++ [p])) i0 H0). apply vsum_ext. intros k Hk. rewrite (dct_last_get c a b0 S). cbn. ring.
  - assert (shape c = (a ++ b0 :: b) ++ [bl]) as S1 by (rewrite S, <- app_assoc; reflexivity).
    set (c' := rollaxis (dct_last c)). assert (shape c' = (bl :: a) ++ b0 :: b) as S2 by (unfold c'; rewrite (roll_shape c _ _ S1); reflexivity).
    destruct (IH b0 (bl :: a) c' S2) as [T1 T2]. set (t' := dct_loop (Datatypes.S (List.length b)) c') in *.
    assert (t = t') as ET by (unfold t; rewrite app_length; cbn [List.length]; rewrite Nat.add_1_r; reflexivity). rewrite ET. clear t ET.
    split; [rewrite T1, <- app_assoc; reflexivity|]. intros ia i0 ib H0 F. apply Forall2_app_inv_r in F. destruct F as [i3 [il' [F3 [Fl E]]]]. inversion Fl as [|il ? ? ? Hl Fn]; subst. inversion Fn; subst. clear Fl Fn.
    pose proof (Forall2_len _ _ _ F3) as L3.
    rewrite multi_app. cbn [multi_sum].
    rewrite (multi_ext b _ (fun kb => vsum bl (fun kl => chebT kl (root bl il) * vsum b0 (fun k0 => get t' (kb ++ (kl :: ia) ++ [k0]) * (cheb_prod kb (roots b i3) * chebT k0 (root b0 i0)))))).
    2:{ intros kb Lk. apply vsum_ext. intros kl _. rewrite <- vsum_scal. apply vsum_ext. intros k0 _. unfold roots. rewrite map2_app by lia. 
        rewrite cheb_prod_app by (rewrite map2_len by lia; lia). cbn [map2 cheb_prod]. rewrite <- app_assoc. cbn [app]. ring. }
    rewrite (multi_vsum b bl (fun kl kb => chebT kl (root bl il) * vsum b0 (fun k0 => get t' (kb ++ (kl :: ia) ++ [k0]) * (cheb_prod kb (roots b i3) * chebT k0 (root b0 i0))))).
    rewrite (vsum_ext bl _ (fun kl => INR (b0 * size b) * (L bl (fun p => get c ((ia ++ i0 :: i3) ++ [p])) kl * chebT kl (root bl il)))).
    2:{ intros kl _. rewrite multi_scal, (T2 (kl :: ia) i0 i3 H0 F3). unfold c'. cbn [app]. rewrite roll_get, (dct_last_get c _ _ S1). ring. }
    rewrite vsum_scal, L_interp by exact Hl. rewrite <- app_assoc. cbn [app].
    assert (INR (b0 * size (b ++ [bl])) = INR (b0 * size b) * INR bl) as ->; [|ring].
    rewrite <- mult_INR. f_equal. assert (size (b ++ [bl]) = size b * bl)%nat as ->; [|lia].
    unfold size. clear. induction b as [|m b IH]; cbn; lia.
Qed.

Definition root_lists (ns : list nat) : list (list R) := map (fun n => map (root n) (seq 0 n)) ns.
Lemma chebroot_root n : chebroot n 1 = Ok (map (root n) (seq 0 n)).
Proof. exact (chebroot_list n). Qed.
Lemma root_at n i : (i < n)%nat -> nth i (map (root n) (seq 0 n)) 0 = root n i.
Proof. intros H. exact (at_map' (root n) n i H). Qed.
Lemma all_points_value : forall ns dom, List.length ns = List.length dom ->
  all_points (combine ns dom) = Ok (map2 (fun r d => map (fun t => map_to_interval t (fst d) (snd d)) r) (root_lists ns) dom).
Proof.
  induction ns as [|n ns IH]; intros [|d dom] H; try discriminate; [reflexivity|]. cbn [combine all_points fst snd]. unfold base_points. rewrite chebroot_root. cbn [bind].
  rewrite IH by (cbn in H; lia). reflexivity.
Qed.
Lemma grid_roots : forall ns idx, Forall2 lt idx ns -> grid_point (root_lists ns) idx = roots ns idx.
Proof. induction 1 as [|i n idx ns H F IH]; [reflexivity|]. cbn [root_lists map grid_point roots map2]. rewrite root_at by exact H. f_equal. exact IH. Qed.
Lemma at_points : forall ns dom idx, List.length ns = List.length dom -> Forall2 lt idx ns ->
  map2 at_R (map2 (fun r d => map (fun t => map_to_interval t (fst d) (snd d)) r) (root_lists ns) dom) idx = image dom (roots ns idx).
Proof.
  intros ns dom idx H F. revert dom H. induction F as [|i n idx ns Hi F IH]; intros [|d dom] H; try discriminate; [reflexivity|].
  cbn [root_lists map map2 roots image]. f_equal; [|apply IH; cbn in H; lia]. rewrite map_map, at_map' by exact Hi. reflexivity.
Qed.
Lemma lengths_of : forall ns dom, List.length ns = List.length dom -> map (@List.length R) (map2 (fun r (d : R * R) => map (fun t => map_to_interval t (fst d) (snd d)) r) (root_lists ns) dom) = ns.
Proof.
  induction ns as [|n ns IH]; intros [|d dom] H; try discriminate; [reflexivity|]. cbn [root_lists map map2]. rewrite !map_length, seq_length. f_equal. apply IH. cbn in H; lia.
Qed.
Lemma fold_size : forall ns a, fold_left Nat.mul ns a = (a * size ns)%nat.
Proof. induction ns as [|n ns IH]; intros a; cbn; [lia|]. rewrite IH. unfold size. lia. Qed.
Lemma size_pos : forall ns, Forall (lt 0) ns -> (0 < size ns)%nat.
Proof. induction 1; cbn; [lia|]. unfold size in *. nia. Qed.
Lemma roots_exist : forall ns, Forall2 (fun n r => chebroot n 1 = Ok r) ns (root_lists ns).
Proof. induction ns as [|n ns IH]; constructor; [apply chebroot_root|exact IH]. Qed.

Lemma dct_many : forall f n1 n2 rest dom, Forall (lt 0) (n1 :: n2 :: rest) -> List.length dom = List.length (n1 :: n2 :: rest) ->
  exists t rs, chebfit_dct f (n1 :: n2 :: rest) (Some dom) = Ok t /\ shape t = n1 :: rest ++ [n2] /\
    Forall2 (fun n r => chebroot n 1 = Ok r) (n1 :: n2 :: rest) rs /\
    forall idx, Forall2 lt idx (n1 :: n2 :: rest) -> cheb_series (shape t) t [] (rotate (grid_point rs idx)) = f (image dom (grid_point rs idx)).
Proof.
  intros f n1 n2 rest dom P HL. unfold chebfit_dct. rewrite all_points_value by (symmetry; exact HL). cbn [bind].
  set (xi := map2 _ (root_lists (n1 :: n2 :: rest)) dom). set (c := scale_tensor _ _).
  assert (shape c = [] ++ n2 :: n1 :: rest) as S. { unfold c. cbn [scale_tensor shape grid_values]. unfold xi. rewrite lengths_of by (symmetry; exact HL). reflexivity. }
  destruct (loop_interp (n1 :: rest) n2 [] c S) as [T1 T2]. cbn [app] in T1.
  exists (dct_loop (List.length (n1 :: n2 :: rest)) c), (root_lists (n1 :: n2 :: rest)).
  change (List.length (n1 :: n2 :: rest)) with (Datatypes.S (List.length (n1 :: rest))). set (t := dct_loop (Datatypes.S (List.length (n1 :: rest))) c) in *.
  split; [reflexivity|]. split; [exact T1|]. split; [apply roots_exist|]. intros idx F. rewrite grid_roots by exact F.
  inversion F as [|i1 m1 r1 q1 H1 F1]; subst. inversion F1 as [|i2 m2 r2 q2 H2 F2]; subst. rename r2 into is.
  assert (rotate (roots (n1 :: n2 :: rest) (i1 :: i2 :: is)) = roots (n1 :: rest) (i1 :: is) ++ [root n2 i2]) as -> by reflexivity.
  unfold cheb_series. rewrite T1. change (n1 :: rest ++ [n2]) with ((n1 :: rest) ++ [n2]). rewrite multi_app.
  assert (Forall2 lt (i1 :: is) (n1 :: rest)) as F' by (constructor; assumption).
  rewrite (multi_ext (n1 :: rest) _ (fun kb => vsum n2 (fun k0 => get t (kb ++ [] ++ [k0]) * (cheb_prod kb (roots (n1 :: rest) (i1 :: is)) * chebT k0 (root n2 i2))))).
  2:{ intros kb Lk. cbn [multi_sum]. apply vsum_ext. intros k0 _. rewrite app_nil_r. rewrite cheb_prod_app by (unfold roots; rewrite map2_len by (symmetry; exact (Forall2_len _ _ _ F')); exact Lk).
      cbn [cheb_prod app]. ring. }
  rewrite (T2 [] i2 (i1 :: is) H2 F'). cbn [app]. unfold c. cbn [scale_tensor get grid_values swap2]. unfold xi. rewrite at_points by (try exact F; symmetry; exact HL).
  rewrite fold_size. assert (n2 * size (n1 :: rest) = 1 * size (n1 :: n2 :: rest))%nat as -> by (unfold size; cbn [fold_right]; lia). field.
  rewrite Nat.mul_1_l. apply not_0_INR. pose proof (size_pos _ P). lia.
Qed.
Lemma dct_one : forall f n1 d, (0 < n1)%nat ->
  exists t r, chebfit_dct f [n1] (Some [d]) = Ok t /\ shape t = [n1] /\ chebroot n1 1 = Ok r /\
    forall i, (i < n1)%nat -> cheb_series [n1] t [] [nth i r 0] = f (image [d] [nth i r 0]).
Proof.
  intros f n1 d P. unfold chebfit_dct. rewrite (all_points_value [n1] [d]) by reflexivity. cbn [bind].
  set (xi := map2 _ (root_lists [n1]) [d]). set (c := scale_tensor _ _).
  assert (shape c = [] ++ n1 :: []) as S. { unfold c. cbn [scale_tensor shape grid_values]. unfold xi. rewrite (lengths_of [n1] [d]) by reflexivity. reflexivity. }
  destruct (loop_interp [] n1 [] c S) as [T1 T2]. cbn [app] in T1.
  exists (dct_loop (List.length [n1]) c), (map (root n1) (seq 0 n1)). set (t := dct_loop (List.length [n1]) c). change (dct_loop (Datatypes.S (List.length (@nil nat))) c) with t in T1, T2.
  split; [reflexivity|]. split; [exact T1|]. split; [apply chebroot_root|]. intros i Hi. rewrite root_at by exact Hi.
  pose proof (T2 [] i [] Hi (Forall2_nil _)) as K. cbn [multi_sum app] in K.
  unfold cheb_series. cbn [multi_sum]. rewrite (vsum_ext n1 _ (fun k0 => get t [k0] * (cheb_prod [] (roots [] []) * chebT k0 (root n1 i)))).
  2:{ intros k _. rewrite app_nil_r. cbn. ring. }
  rewrite K. unfold c. cbn [scale_tensor get grid_values swap2]. unfold xi. rewrite (at_points [n1] [d] [i]) by (solve [reflexivity | repeat constructor; exact Hi]).
  cbn [fold_left]. unfold size; cbn [fold_right]. rewrite Nat.mul_1_r, Nat.mul_1_l. cbn [roots map2]. field. apply not_0_INR. lia.
Qed.
Lemma dct_two : forall f n1 n2 d1 d2, (0 < n1)%nat -> (0 < n2)%nat ->
  exists t r1 r2, chebfit_dct f [n1; n2] (Some [d1; d2]) = Ok t /\ shape t = [n1; n2] /\ chebroot n1 1 = Ok r1 /\ chebroot n2 1 = Ok r2 /\
    forall i j, (i < n1)%nat -> (j < n2)%nat -> cheb_series [n1; n2] t [] [nth i r1 0; nth j r2 0] = f (image [d1; d2] [nth i r1 0; nth j r2 0]).
Proof.
  intros f n1 n2 d1 d2 P1 P2. destruct (dct_many f n1 n2 [] [d1; d2]) as [t [rs [E [S [F K]]]]]; [repeat constructor; assumption|reflexivity|].
  inversion F as [|? r1 ? ? F1 F']; subst. inversion F' as [|? r2 ? ? F2 F'']; subst. inversion F''; subst. exists t, r1, r2. repeat split; try assumption.
  intros i j Hi Hj. rewrite S in K. apply (K [i; j]). repeat constructor; assumption.
Qed.
Lemma dct_default : forall f n, chebfit_dct f n None = chebfit_dct f n (Some (repeat (-1, 1) (List.length n))) /\ forall pt, List.length pt = List.length n -> image (repeat (-1, 1) (List.length n)) pt = pt.
Proof.
  intros f n. split; [reflexivity|]. revert n. intros n pt H. rewrite <- H. clear. induction pt as [|x pt IH]; [reflexivity|]. cbn [List.length repeat image fst snd]. rewrite IH. f_equal. field.
Qed.
Lemma three_refuted : ~ (forall f n1 n2 n3 t r1 r2 r3, chebfit_dct f [n1; n2; n3] None = Ok t -> chebroot n1 1 = Ok r1 -> chebroot n2 1 = Ok r2 -> chebroot n3 1 = Ok r3 ->
  forall i j k, (i < n1)%nat -> (j < n2)%nat -> (k < n3)%nat -> cheb_series [n1; n2; n3] t [] [nth i r1 0; nth j r2 0; nth k r3 0] = f [nth i r1 0; nth j r2 0; nth k r3 0]).
Proof.
  intros H. set (f := fun l : list R => nth 1 l 0). pose proof (proj1 (dct_default f [2; 2; 2]%nat)) as ED.
  destruct (dct_many f 2 2 [2%nat] (repeat (-1, 1) 3)) as [t [rs [E [S [F K]]]]]; [repeat constructor|reflexivity|].
  cbn [List.length] in ED. rewrite <- ED in E. clear ED.
  inversion F as [|? r1 ? ? F1 F']; subst. inversion F' as [|? r2 ? ? F2 F'']; subst. inversion F'' as [|? r3 ? ? F3 F4]; subst. inversion F4; subst.
  pose proof (H f 2%nat 2%nat 2%nat t r1 r2 r3 E F1 F2 F3 0%nat 0%nat 1%nat ltac:(lia) ltac:(lia) ltac:(lia)) as A.
  pose proof (K [0; 1; 0]%nat ltac:(repeat constructor)) as B. rewrite S in B. cbn [app grid_point rotate] in B. 
  rewrite F2 in F3. injection F3 as <-. rewrite F2 in F1. injection F1 as <-. unfold f in A, B. rewrite A in B. cbn in B.
  rewrite chebroot_root in F2. injection F2 as <-. cbn [seq map nth] in B. unfold root, node in B. cbn in B.
  replace (PI * (2 * 1 + 1) / (2 * (1 + 1))) with (PI - PI / 4) in B by field. replace (PI * (2 * 0 + 1) / (2 * (1 + 1))) with (PI / 4) in B by field.
  rewrite Rtrigo_facts.cos_pi_minus in B. pose proof (cos_gt_0 (PI / 4)) as C. pose proof PI_RGT_0. specialize (C ltac:(lra) ltac:(lra)). lra.
Qed.
