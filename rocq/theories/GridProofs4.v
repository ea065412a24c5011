From Coq Require Import Reals Lra Lia Permutation.
From Verif Require Import Base PolyModel FilterModel FilterProofs3 SlopesProofs3 GridModel GridSpec GridProofs GridProofs2 GridProofs3.
Local Open Scope R_scope.

Definition trip : Type := ((R * R) * R * nat)%type.
Definition tq (t : trip) : R * R := fst (fst t).
Definition tv (t : trip) : R := snd (fst t).
Definition tb (t : trip) : nat := snd t.
Definition good (n : nat) (t : trip) : Prop := 0 < snd (tq t) /\ (S (tb t) < n)%nat /\ node (tq t) (tb t) <= tv t < node (tq t) (S (tb t)).
Definition trips (g : list (R * R)) (p : list R) : list trip := map (fun qv => (fst qv, snd qv, bnat (fst qv) (snd qv))) (combine g p).
Lemma trips_spec n g p : (2 <= n)%nat -> Forall (fun q => 0 < snd q) g -> inside n g p ->
  Forall (good n) (trips g p) /\ map tq (trips g p) = g /\ map tv (trips g p) = p /\ List.length (trips g p) = List.length g /\
  map (fun q => bin (fst q) (snd q)) (combine (nodes n g) p) = map (fun t => Z.of_nat (tb t)) (trips g p).
Proof.
  intros Hn Hg H. induction H as [|q v g p Hv H IH]; [repeat split; constructor|]. inversion Hg; subst. destruct (IH ltac:(assumption)) as (I1 & I2 & I3 & I4 & I5).
  destruct (bin_spec q v n ltac:(assumption) Hn Hv) as (B1 & B2 & B3). unfold trips in *. cbn [combine map nodes] in *. repeat split.
  - constructor; [|exact I1]. unfold good. cbn. tauto.
  - now rewrite I2.
  - now rewrite I3.
  - cbn. now rewrite I4.
  - cbn [fst snd]. rewrite B1. f_equal. exact I5.
Qed.
Definition shifted (ts : list trip) (l : list bool) : list nat := map (fun p => (tb (fst p) + bn (snd p))%nat) (combine ts l).
Lemma corner_index_spec n ts : forall l s, List.length l = List.length ts ->
  sumZ (map (fun p => (fst (snd p) + snd (snd p)) * Z.of_nat (n ^ fst p))%Z (combine (seq s (List.length ts)) (combine (map (fun t => Z.of_nat (tb t)) ts) (map bz l)))) = Z.of_nat (n ^ s * forder n (shifted ts l)).
Proof.
  induction ts as [|t ts IH]; intros [|c l] s L; try discriminate; [cbn; lia|]. cbn [List.length seq map combine]. unfold sumZ in *. cbn [fold_right fst snd].
  rewrite IH by (cbn in L; lia). unfold shifted. cbn [combine map forder fst snd]. rewrite Nat.pow_succ_r'. destruct c; cbn [bz bn]; nia.
Qed.
Lemma getz_nat {A} (l : list A) z i v : z = Z.of_nat i -> nth_error l i = Some v -> getz l z = Ok v.
Proof. intros -> H. unfold getz. replace (0 <=? Z.of_nat i)%Z with true by (symmetry; apply Z.leb_le; lia). rewrite Nat2Z.id. unfold geti. now rewrite H. Qed.
Definition offs (ts : list trip) (l : list bool) : list R := map (fun p => node (tq (fst p)) (tb (fst p) + bn (snd p))) (combine ts l).
Lemma row_at q n i : (i < n)%nat -> nth_error (map (node q) (seq 0 n)) i = Some (node q i).
Proof.
  intros H. rewrite nth_error_map. rewrite (nth_error_nth' (seq 0 n) 0%nat) by (rewrite seq_length; exact H). now rewrite seq_nth by exact H.
Qed.
Lemma corner_values n ts : Forall (good n) ts -> forall l s pre, List.length l = List.length ts -> List.length pre = (n * s)%nat ->
  all_ok (map (fun q => getz (pre ++ concat (nodes n (map tq ts))) (fst (snd q) + (snd (snd q) + Z.of_nat (n * fst q)))) (combine (seq s (List.length ts)) (combine (map (fun t => Z.of_nat (tb t)) ts) (map bz l)))) = Ok (offs ts l).
Proof.
  induction 1 as [|t ts (G1 & G2 & G3) G IH]; intros [|c l] s pre L P; try discriminate; [reflexivity|]. cbn [List.length seq map combine all_ok fst snd nodes concat].
  assert (B : (tb t + bn c < n)%nat) by (destruct c; cbn; lia).
  rewrite (getz_nat _ _ (n * s + (tb t + bn c)) (node (tq t) (tb t + bn c))).
  - cbn [bind]. fold (nodes n (map tq ts)). rewrite app_assoc. rewrite (IH l (S s) (pre ++ map (node (tq t)) (seq 0 n))).
    + cbn [bind]. unfold offs. reflexivity.
    + cbn in L. lia.
    + rewrite app_length, map_length, seq_length. lia.
  - destruct c; cbn [bz bn]; lia.
  - rewrite nth_error_app2 by lia. rewrite P. replace (n * s + (tb t + bn c) - n * s)%nat with (tb t + bn c)%nat by lia.
    rewrite nth_error_app1 by (rewrite map_length, seq_length; exact B). now apply row_at.
Qed.
Fixpoint dist (ts : list trip) (l : list bool) : R :=
  match ts, l with t :: ts', c :: l' => Rabs (node (tq t) (tb t + bn c) - tv t) * dist ts' l' | _, _ => 1 end.
Lemma dist_spec ts : forall l, List.length l = List.length ts -> Rabs (prodR (map (fun q => fst q - snd q) (combine (offs ts l) (map tv ts)))) = dist ts l.
Proof.
  induction ts as [|t ts IH]; intros [|c l] L; try discriminate; [unfold prodR; cbn; apply Rabs_R1|]. unfold offs in *. cbn [combine map dist fst snd]. unfold prodR in *. cbn [fold_right]. rewrite Rabs_mult. f_equal. apply IH. cbn in L. lia.
Qed.
Lemma corner_weight_spec n ts l : Forall (good n) ts -> List.length l = List.length ts ->
  corner_weight n (concat (nodes n (map tq ts))) (map tv ts) (map (fun t => Z.of_nat (tb t)) ts) (map bz l) = Ok (dist ts l).
Proof.
  intros G L. unfold corner_weight. rewrite map_length. pose proof (corner_values n ts G l 0 [] L ltac:(cbn; lia)) as V. cbn [app] in V. rewrite V. cbn [bind]. now rewrite dist_spec.
Qed.
Lemma forder_bound n idx : Forall (fun i => (i < n)%nat) idx -> (forder n idx < n ^ List.length idx)%nat.
Proof. induction 1 as [|i idx Hi H IH]; [cbn; lia|]. cbn [forder List.length]. rewrite Nat.pow_succ_r'. nia. Qed.
Lemma forder_inj n idx : Forall (fun i => (i < n)%nat) idx -> forall jdx, Forall (fun i => (i < n)%nat) jdx -> List.length idx = List.length jdx -> forder n idx = forder n jdx -> idx = jdx.
Proof.
  induction 1 as [|i idx Hi H IH]; intros [|j jdx] Hj L E; try discriminate; [reflexivity|]. inversion Hj; subst. cbn [forder] in E.
  assert (A : (i = j /\ forder n idx = forder n jdx)%nat).
  { rewrite (Nat.mul_comm n), (Nat.mul_comm n) in E. assert (i = j) by (rewrite <- (Nat.mod_small i n), <- (Nat.mod_small j n), <- (Nat.mod_add i (forder n idx) n), <- (Nat.mod_add j (forder n jdx) n) by lia; congruence). subst. split; [reflexivity|]. nia. }
  destruct A as [-> A]. f_equal. apply IH; [assumption|cbn in L; lia|exact A].
Qed.
Lemma shifted_bound n ts l : Forall (good n) ts -> List.length l = List.length ts -> Forall (fun i => (i < n)%nat) (shifted ts l) /\ List.length (shifted ts l) = List.length ts.
Proof.
  intros G. revert l. induction G as [|t ts (G1 & G2 & G3) G IH]; intros [|c l] L; try discriminate; [split; [constructor|reflexivity]|]. unfold shifted in *. cbn [combine map fst snd List.length].
  destruct (IH l ltac:(cbn in L; lia)) as [I1 I2]. split; [constructor; [destruct c; cbn; lia|exact I1]|now rewrite I2].
Qed.
(* ---- the sum over the corners ---- *)
Definition cpart (n s : nat) (ts : list trip) (l : list bool) : R := if (forder n (shifted ts l) =? s)%nat then dist ts (map negb l) else 0.
Fixpoint pf (ts : list trip) (idx : list nat) (l : list bool) : R :=
  match ts, idx, l with t :: ts', i :: idx', c :: l' => (if (tb t + bn c =? i)%nat then Rabs (node (tq t) (tb t + bn (negb c)) - tv t) else 0) * pf ts' idx' l' | _, _, _ => 1 end.
Lemma pf_spec ts : forall idx l, List.length idx = List.length ts -> List.length l = List.length ts ->
  pf ts idx l = if list_eq_dec Nat.eq_dec (shifted ts l) idx then dist ts (map negb l) else 0.
Proof.
  induction ts as [|t ts IH]; intros [|i idx] [|c l] L1 L2; try discriminate; [reflexivity|]. cbn [pf]. rewrite IH by (cbn in *; lia). unfold shifted. cbn [combine map fst snd dist].
  fold (shifted ts l). destruct (Nat.eqb_spec (tb t + bn c) i) as [E|E].
  - destruct (list_eq_dec _ (shifted ts l) idx) as [E2|E2]; destruct (list_eq_dec _ (_ :: _) _) as [E3|E3]; try reflexivity; try (exfalso; congruence). lra.
  - destruct (list_eq_dec _ (_ :: _) _) as [E3|E3]; [exfalso; congruence|lra].
Qed.
Lemma cpart_pf n ts idx l : Forall (good n) ts -> List.length l = List.length ts -> List.length idx = List.length ts -> Forall (fun i => (i < n)%nat) idx ->
  cpart n (forder n idx) ts l = pf ts idx l.
Proof.
  intros G L1 L2 H. rewrite pf_spec by assumption. unfold cpart. destruct (shifted_bound n ts l G L1) as [B1 B2].
  destruct (Nat.eqb_spec (forder n (shifted ts l)) (forder n idx)) as [E|E].
  - apply (forder_inj n _ B1 _ H) in E; [|lia]. destruct (list_eq_dec _ _ _); [reflexivity|contradiction].
  - destruct (list_eq_dec _ _ _) as [E2|]; [|reflexivity]. exfalso. apply E. now rewrite E2.
Qed.
Lemma bsum_pf n ts : Forall (good n) ts -> forall idx, List.length idx = List.length ts -> bsum (List.length ts) (pf ts idx) = prodR (map (fun t => snd (tq t)) ts) * share (map tq ts) (map tv ts) idx.
Proof.
  induction 1 as [|t ts (G1 & G2 & G3) G IH]; intros [|i idx] L; try discriminate; [unfold prodR; cbn; lra|]. cbn [List.length bsum map share].
  change (prodR (snd (tq t) :: map (fun t => snd (tq t)) ts)) with (snd (tq t) * prodR (map (fun t => snd (tq t)) ts)).
  cbn [pf]. rewrite !bsum_scal, IH by (cbn in L; lia). cbn [bn negb]. replace (tb t + 0)%nat with (tb t) by lia. replace (tb t + 1)%nat with (S (tb t)) by lia.
  rewrite (Rabs_pos_eq (node (tq t) (S (tb t)) - tv t)) by lra. rewrite (Rabs_left1 (node (tq t) (tb t) - tv t)) by lra.
  replace (- (node (tq t) (tb t) - tv t)) with (tv t - node (tq t) (tb t)) by lra. rewrite <- Rmult_plus_distr_r, <- tent_split by assumption. ring.
Qed.
(* ---- one pass of the loop ---- *)
Lemma times_y_ok w y : List.length y = List.length w -> times_y w y = Ok (map (fun p => fst p * snd p) (combine w y)).
Proof.
  intros L. unfold times_y. destruct (Nat.eqb_spec (List.length y) 1) as [E|E].
  - destruct y as [|y0 [|? ?]]; try discriminate. destruct w as [|w0 [|? ?]]; try discriminate. reflexivity.
  - now rewrite L, Nat.eqb_refl.
Qed.
Lemma all_ok_ok {A B} (f : A -> res B) (g : A -> B) l : (forall x, In x l -> f x = Ok (g x)) -> all_ok (map f l) = Ok (map g l).
Proof. induction l as [|x l IH]; intros H; [reflexivity|]. cbn [map all_ok]. rewrite H by now left. cbn [bind]. rewrite IH by (intros; apply H; now right). reflexivity. Qed.
Lemma add_arrays_ok a b : List.length a = List.length b -> exists c, add_arrays a b = Ok c /\ List.length c = List.length a /\ forall s, at_R c s = at_R a s + at_R b s.
Proof.
  intros L. unfold add_arrays. rewrite L, Nat.eqb_refl. eexists. split; [reflexivity|]. split; [rewrite map_length, combine_length; lia|].
  unfold at_R. revert b L. induction a as [|x a IH]; intros [|y b] L s; try discriminate; [destruct s; cbn; lra|]. destruct s; cbn; [reflexivity|]. apply IH. cbn in L. lia.
Qed.
Lemma combine_map_l {A B C} (f : A -> B) (l : list A) (m : list C) : combine (map f l) m = map (fun p => (f (fst p), snd p)) (combine l m).
Proof. revert m. induction l as [|x l IH]; intros [|y m]; cbn; [reflexivity..|]. now rewrite IH. Qed.
Lemma combine_same {A B C} (f : A -> B) (g : A -> C) l : combine (map f l) (map g l) = map (fun x => (f x, g x)) l.
Proof. induction l as [|x l IH]; cbn; [reflexivity|]. now rewrite IH. Qed.
Lemma corner_loop_ok n d g (TT : list (list trip)) y : List.length y = List.length TT ->
  (forall ts, In ts TT -> Forall (good n) ts /\ map tq ts = g /\ List.length ts = d) -> forall ls, (forall l, In l ls -> List.length l = d) -> forall c, List.length c = (n ^ d)%nat ->
  exists c', corner_loop n (n ^ d) (concat (nodes n g)) (map (map tv) TT) (map (map (fun t => Z.of_nat (tb t))) TT) y (map (fun l => (map bz l, map bz (map negb l))) ls) c = Ok c' /\ List.length c' = (n ^ d)%nat /\
    forall s, at_R c' s = at_R c s + sumR (map (fun l => sumR (map (fun q => snd q * cpart n s (fst q) l) (combine TT y))) ls).
Proof.
  intros Ly HT. induction ls as [|l ls IH]; intros Hl c Lc; cbn [map corner_loop].
  - exists c. split; [reflexivity|]. split; [exact Lc|]. intros s. unfold sumR. cbn. lra.
  - assert (Ll : List.length l = d) by (apply Hl; now left). rewrite combine_same, map_map. cbn [fst snd].
    rewrite (all_ok_ok _ (fun ts => dist ts (map negb l))).
    2:{ intros ts Hts. destruct (HT ts Hts) as (G & Eg & Ed). rewrite <- Eg. apply corner_weight_spec; [exact G|rewrite map_length; lia]. }
    cbn [bind]. rewrite times_y_ok by (rewrite map_length; exact Ly). cbn [bind]. unfold accumsum. rewrite map_map.
    set (idx := map _ TT). assert (Ei : idx = map (fun ts => Z.of_nat (forder n (shifted ts l))) TT).
    { unfold idx. apply map_ext_in. intros ts Hts. destruct (HT ts Hts) as (G & Eg & Ed). unfold corner_index. rewrite map_length, (corner_index_spec n ts l 0) by lia. f_equal. cbn. lia. }
    rewrite Ei. clear idx Ei.
    destruct (bincount_ok (map (fun ts => Z.of_nat (forder n (shifted ts l))) TT) (map (fun p => fst p * snd p) (combine (map (fun ts => dist ts (map negb l)) TT) y)) (n ^ d)) as (a & Ea & La & Ca).
    { rewrite !map_length, combine_length, map_length. lia. }
    { intros i Hi. apply in_map_iff in Hi. destruct Hi as (ts & <- & Hts). destruct (HT ts Hts) as (G & Eg & Ed). destruct (shifted_bound n ts l G ltac:(lia)) as [B1 B2].
      pose proof (forder_bound n _ B1) as B3. rewrite B2, Ed in B3. lia. }
    rewrite Ea. cbn [bind]. destruct (add_arrays_ok c a ltac:(lia)) as (c1 & E1 & L1 & C1). rewrite E1. cbn [bind].
    destruct (IH ltac:(intros; apply Hl; now right) c1 ltac:(lia)) as (c2 & E2 & L2 & C2). exists c2. split; [exact E2|]. split; [exact L2|]. intros s. rewrite C2, C1, Ca.
    change (sumR (?x :: ?r)) with (x + sumR r). rewrite Rplus_assoc. f_equal. f_equal. unfold share_at. f_equal.
    rewrite (combine_map_l (fun ts => dist ts (map negb l)) TT y), map_map, combine_map_l, map_map.
    clear. revert y. induction TT as [|ts TT IH]; intros [|y0 y]; cbn [combine map fst snd]; try reflexivity. f_equal; [|apply IH]. unfold cpart. rewrite Nat2Z.id. destruct (_ =? _)%nat; ring.
Qed.
