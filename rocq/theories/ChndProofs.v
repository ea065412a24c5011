From Coq Require Import Reals List ZArith Lra Lia Bool.
From Verif Require Import Base PolyModel OrthoModel OrthoProofs ChebModel ChebSpec ChebProofs ChebProofs2 ChebProofs3 ChndModel ChndSpec.
Import ListNotations.
Local Open Scope R_scope.
Set Bullet Behavior "Strict Subproofs".

(* one series *)
Lemma clenshaw_np x : forall r c0 c1,
  let p := fold_left (fun p ci => (ci - snd p, fst p + snd p * (2 * x))) r (c0, c1) in
  fst p + snd p * x = series 1 r x + c0 * chebT (List.length r) x + c1 * chebT (S (List.length r)) x.
Proof.
  induction r as [|ci r IH]; intros c0 c1.
  - cbn. unfold chebT, chebV. cbn. ring.
  - cbn [fold_left fst snd]. pose proof (IH (ci - c1) (c0 + c1 * (2 * x))) as K. cbn zeta in K |- *. rewrite K. cbn [series List.length].
    unfold chebT. rewrite (V_SS 1 (List.length r) x). ring.
Qed.
Lemma npchebval_series x c : c <> [] -> npchebval x c = series 1 (rev c) x.
Proof.
  intros N. unfold npchebval. destruct (rev c) as [|c1 [|c0 r]] eqn:E.
  - exfalso. apply N. rewrite <- (rev_involutive c), E. reflexivity.
  - cbn. unfold chebV. cbn. ring.
  - pose proof (clenshaw_np x r c0 c1) as K. cbn zeta in K |- *. rewrite K. cbn [series List.length]. unfold chebT. ring.
Qed.
Lemma fibre_value x n g : (0 < n)%nat -> npchebval x (fibre n g) = vsum n (fun j => g j * chebT j x).
Proof.
  intros N. rewrite npchebval_series; [apply series_rev|]. unfold fibre. destruct n; [lia|discriminate].
Qed.

(* sums over indices *)
Lemma multi_ext : forall dims g h, (forall idx, List.length idx = List.length dims -> g idx = h idx) -> multi_sum dims g = multi_sum dims h.
Proof.
  induction dims as [|n d IH]; intros g h H; [apply H; reflexivity|]. cbn [multi_sum]. apply vsum_ext. intros i _. apply IH. intros idx E. apply H. cbn. lia.
Qed.
Lemma multi_vsum : forall dims n h, multi_sum dims (fun idx => vsum n (fun j => h j idx)) = vsum n (fun j => multi_sum dims (h j)).
Proof.
  induction dims as [|m d IH]; intros n h; [reflexivity|]. cbn [multi_sum]. rewrite vsum_swap. apply vsum_ext. intros i _. exact (IH n (fun j idx => h j (i :: idx))).
Qed.
Lemma multi_scal : forall dims a g, multi_sum dims (fun idx => a * g idx) = a * multi_sum dims g.
Proof.
  induction dims as [|m d IH]; intros a g; [reflexivity|]. cbn [multi_sum]. rewrite <- vsum_scal. apply vsum_ext. intros i _. exact (IH a (fun idx => g (i :: idx))).
Qed.
Lemma multi_app : forall d1 d2 g, multi_sum (d1 ++ d2) g = multi_sum d1 (fun i => multi_sum d2 (fun j => g (i ++ j))).
Proof.
  induction d1 as [|n d IH]; intros d2 g; [reflexivity|]. cbn [app multi_sum]. apply vsum_ext. intros i _. exact (IH d2 (fun idx => g (i :: idx))).
Qed.

Lemma last_snoc {A} (l : list A) a d : last (l ++ [a]) d = a.
Proof. induction l as [|b l IH]; [reflexivity|]. cbn [app last]. destruct (l ++ [a]) eqn:E; [destruct l; discriminate|exact IH]. Qed.

Lemma points_loop_value : forall xs dims c extra P, List.length xs = List.length dims -> Forall (lt 0) dims -> Forall (fun x => List.length x = P) xs ->
  shape c = dims ++ extra ++ [P] ->
  exists t, points_loop xs c = Ok t /\ shape t = extra ++ [P] /\
    forall e p, get t (e ++ [p]) = multi_sum dims (fun idx => get c (idx ++ e ++ [p]) * cheb_prod idx (point xs p)).
Proof.
  induction xs as [|x xs IH]; intros dims c extra P L D X S.
  - destruct dims; [|discriminate]. exists c. split; [reflexivity|]. split; [exact S|]. intros e p. cbn. ring.
  - destruct dims as [|n dims]; [discriminate|]. inversion D as [|? ? D0 D']; subst. inversion X as [|? ? X0 X']; subst.
    cbn [points_loop]. unfold chebval_points. rewrite S. destruct n as [|n]; [lia|].
    cbn [app]. destruct (dims ++ extra ++ [List.length x]) as [|r0 rest] eqn:ER; [destruct dims; [destruct extra|]; discriminate|].
    rewrite <- ER. replace (last (dims ++ extra ++ [List.length x]) O) with (List.length x) by (rewrite app_assoc, last_snoc; reflexivity).
    rewrite Nat.eqb_refl. cbn [bind].
    set (d := Tensor _ _). destruct (IH dims d extra (List.length x) ltac:(cbn in L; lia) D' X' eq_refl) as [t [E1 [E2 E3]]].
    exists t. split; [exact E1|]. split; [exact E2|]. intros e p. rewrite E3. cbn [multi_sum].
    rewrite <- (multi_vsum dims (Datatypes.S n) (fun i idx => get c ((i :: idx) ++ e ++ [p]) * cheb_prod (i :: idx) (point (x :: xs) p))).
    apply multi_ext. intros idx _. unfold d. cbn [get]. rewrite app_assoc, last_snoc, fibre_value by lia.
    rewrite Rmult_comm, <- vsum_scal. apply vsum_ext. intros j _. cbn [app cheb_prod point map]. unfold at_R. rewrite <- app_assoc. fold (point xs p). ring.
Qed.
Lemma forallb_lengths : forall P (xs : list (list R)), Forall (fun x => List.length x = P) xs -> forallb (fun y => (List.length y =? P)%nat) xs = true.
Proof. intros P xs H. apply forallb_forall. intros y Hy. apply Nat.eqb_eq. rewrite Forall_forall in H. exact (H y Hy). Qed.
Lemma valnd_value : forall xs dims c extra P, xs <> [] -> List.length xs = List.length dims -> Forall (lt 0) dims -> Forall (fun x => List.length x = P) xs -> shape c = dims ++ extra ->
  exists t, chebvalnd c xs = Ok t /\ shape t = extra ++ [P] /\ forall e p, get t (e ++ [p]) = cheb_series dims c e (point xs p).
Proof.
  intros xs dims c extra P N L D X S. destruct xs as [|x xs]; [congruence|]. destruct dims as [|n dims]; [discriminate|].
  inversion D as [|? ? D0 D']; subst. inversion X as [|? ? X0 X']; subst. unfold chebvalnd. rewrite (forallb_lengths _ _ X').
  unfold chebval_tensor. rewrite S. cbn [app]. destruct n as [|n]; [lia|]. cbn [bind]. set (d := Tensor _ _).
  destruct (points_loop_value xs dims d extra (List.length x) ltac:(cbn in L; lia) D' X') as [t [E1 [E2 E3]]]; [unfold d; cbn [shape]; rewrite app_assoc; reflexivity|].
  exists t. split; [exact E1|]. split; [exact E2|]. intros e p. rewrite E3. unfold cheb_series. cbn [multi_sum].
  rewrite <- (multi_vsum dims (Datatypes.S n) (fun i idx => get c ((i :: idx) ++ e) * cheb_prod (i :: idx) (point (x :: xs) p))).
  apply multi_ext. intros idx _. unfold d. cbn [get]. rewrite app_assoc, last_snoc, removelast_last, fibre_value by lia.
  rewrite Rmult_comm, <- vsum_scal. apply vsum_ext. intros j _. cbn [app cheb_prod point map]. unfold at_R. fold (point xs p). ring.
Qed.
Lemma grid_value : forall xs dims c extra, List.length xs = List.length dims -> Forall (lt 0) dims -> shape c = dims ++ extra ->
  exists t, chebgridnd c xs = Ok t /\ shape t = extra ++ map (@List.length R) xs /\
    forall e ps, List.length ps = List.length xs -> get t (e ++ ps) = cheb_series dims c e (grid_point xs ps).
Proof.
  unfold cheb_series. induction xs as [|x xs IH]; intros dims c extra L D S.
  - destruct dims; [|discriminate]. exists c. cbn [chebgridnd map]. rewrite app_nil_r. repeat split; [exact S|]. intros e ps Lp. destruct ps; [|discriminate].
    rewrite app_nil_r. cbn. ring.
  - destruct dims as [|n dims]; [discriminate|]. inversion D as [|? ? D0 D']; subst. cbn [chebgridnd]. unfold chebval_tensor. rewrite S. cbn [app].
    destruct n as [|n]; [lia|]. cbn [bind]. set (d := Tensor _ _).
    destruct (IH dims d (extra ++ [List.length x]) ltac:(cbn in L; lia) D') as [t [E1 [E2 E3]]]; [unfold d; cbn [shape]; rewrite app_assoc; reflexivity|].
    exists t. split; [exact E1|]. split; [rewrite E2, <- app_assoc; reflexivity|]. intros e ps Lp. destruct ps as [|p ps]; [discriminate|].
    replace (e ++ p :: ps) with ((e ++ [p]) ++ ps) by (rewrite <- app_assoc; reflexivity). rewrite E3 by (cbn in Lp; lia). cbn [multi_sum grid_point].
    rewrite <- (multi_vsum dims (Datatypes.S n) (fun i idx => get c ((i :: idx) ++ e) * cheb_prod (i :: idx) (nth p x 0 :: grid_point xs ps))).
    apply multi_ext. intros idx _. unfold d. cbn [get]. rewrite app_assoc, last_snoc, removelast_last, fibre_value by lia.
    rewrite Rmult_comm, <- vsum_scal. apply vsum_ext. intros j _. cbn [app cheb_prod]. unfold at_R. ring.
Qed.
Lemma few_axes : ~ (forall c x y t, List.length (shape c) = 1%nat -> hd O (shape c) <> O -> List.length x = List.length y -> chebvalnd c [x; y] = Ok t ->
  forall p, get t [p] = cheb_series (shape c) c [] [nth p x 0]).
Proof.
  intros H. pose proof (H (Tensor [2%nat] (fun _ => 1)) [0; 1] [5; 7]) as K. cbn [shape List.length hd] in K.
  specialize (K _ eq_refl ltac:(discriminate) eq_refl eq_refl 0%nat). cbn in K. unfold cheb_series, chebT, chebV in K. cbn in K. lra.
Qed.

(* the matrix of the fit *)
Fixpoint sum2 (u v : list R) : R := match u, v with a :: u', b :: v' => a * b + sum2 u' v' | _, _ => 0 end.
Lemma vsum_shift n g : vsum (S n) g = g O + vsum n (fun k => g (S k)).
Proof. induction n as [|n IH]; [cbn; ring|]. cbn [vsum] in IH |- *. rewrite IH. ring. Qed.
Lemma dot_sum2 : forall u v, List.length u = List.length v -> dot u v = sum2 u v.
Proof.
  unfold dot. induction u as [|a u IH]; intros v L; [reflexivity|]. destruct v as [|b v]; [discriminate|]. cbn [List.length]. rewrite vsum_shift. cbn [nth sum2]. f_equal. apply IH. cbn in L; lia.
Qed.
Lemma sum2_app : forall u1 v1 u2 v2, List.length u1 = List.length v1 -> sum2 (u1 ++ u2) (v1 ++ v2) = sum2 u1 v1 + sum2 u2 v2.
Proof. induction u1 as [|a u IH]; intros [|b v] u2 v2 L; try discriminate; cbn [app sum2]; [ring|]. rewrite IH by (cbn in L; lia). ring. Qed.
Lemma sum2_scal : forall t u v, sum2 (map (Rmult t) u) v = t * sum2 u v.
Proof. intros t. induction u as [|a u IH]; intros [|b v]; cbn; try ring. rewrite IH. ring. Qed.
Lemma flat_map_length : forall {B} (A : nat -> list B) m n, (forall i, List.length (A i) = m) -> List.length (flat_map A (seq 0 n)) = (n * m)%nat.
Proof.
  intros B A m n H. induction n as [|n IH]; [reflexivity|]. rewrite seq_S, flat_map_app, app_length, IH. cbn [Nat.add flat_map]. rewrite app_nil_r, H. lia.
Qed.
Lemma sum2_flat : forall A B m n, (forall i, List.length (A i) = m) -> (forall i, List.length (B i) = m) ->
  sum2 (flat_map A (seq 0 n)) (flat_map B (seq 0 n)) = vsum n (fun i => sum2 (A i) (B i)).
Proof.
  intros A B m n HA HB. induction n as [|n IH]; [reflexivity|]. rewrite seq_S, !flat_map_app, sum2_app by (rewrite (flat_map_length A m n HA), (flat_map_length B m n HB); reflexivity).
  rewrite IH. cbn [Nat.add flat_map vsum]. rewrite !app_nil_r. reflexivity.
Qed.
Definition size (dims : list nat) : nat := fold_right Nat.mul 1%nat dims.
Lemma indices_length : forall dims, List.length (indices dims) = size dims.
Proof.
  induction dims as [|n d IH]; [reflexivity|]. cbn [indices]. rewrite (flat_map_length _ (size d)); [reflexivity|]. intros i. rewrite map_length. exact IH.
Qed.
Lemma flat_map_map {A B C} (f : A -> B) (g : B -> list C) l : flat_map g (map f l) = flat_map (fun a => g (f a)) l.
Proof. induction l as [|a l IH]; [reflexivity|]. cbn. rewrite IH. reflexivity. Qed.
Lemma map_flat_map {A B C} (f : B -> C) (g : A -> list B) l : map f (flat_map g l) = flat_map (fun a => map f (g a)) l.
Proof. induction l as [|a l IH]; [reflexivity|]. cbn. rewrite map_app, IH. reflexivity. Qed.
Lemma vander_row_length : forall degs pt, List.length degs = List.length pt -> List.length (vander_row degs pt) = size (map S degs).
Proof.
  induction degs as [|d degs IH]; intros pt L; destruct pt as [|x pt]; try discriminate; [reflexivity|].
  unfold vander_row. cbn [map2 outer]. change (chebvander x d) with (map (fun k => fst (chebvander_row x k)) (seq 0 (S d))). rewrite flat_map_map, (flat_map_length _ (size (map S degs))); [reflexivity|].
  intros i. rewrite map_length. apply IH. cbn in L; lia.
Qed.
Lemma vander_row_sum : forall degs pt g, List.length degs = List.length pt ->
  sum2 (vander_row degs pt) (map g (indices (map S degs))) = multi_sum (map S degs) (fun idx => g idx * cheb_prod idx pt).
Proof.
  induction degs as [|d degs IH]; intros pt g L; destruct pt as [|x pt]; try discriminate; [cbn; ring|].
  unfold vander_row. cbn [map2 outer map indices multi_sum]. change (chebvander x d) with (map (fun k => fst (chebvander_row x k)) (seq 0 (S d))). rewrite flat_map_map, map_flat_map.
  assert (List.length degs = List.length pt) as L' by (cbn in L; lia).
  rewrite (sum2_flat _ _ (size (map S degs))).
  - apply vsum_ext. intros i _. rewrite sum2_scal, map_map. fold (vander_row degs pt). rewrite (IH pt (fun idx => g (i :: idx)) L').
    rewrite (proj1 (chebvander_T x i)), <- multi_scal. apply multi_ext. intros idx _. cbn [cheb_prod]. ring.
  - intros i. rewrite map_length. apply vander_row_length. exact L'.
  - intros i. rewrite !map_length, indices_length. reflexivity.
Qed.
Lemma vander_value : forall deg xs P, xs <> [] -> List.length deg = List.length xs -> Forall (fun d => (0 <= d)%Z) deg -> Forall (fun x => List.length x = P) xs ->
  exists V, chebvandernd deg xs = Ok V /\ List.length V = P /\
    (forall p, (p < P)%nat -> List.length (nth p V []) = fold_right Nat.mul 1%nat (map (fun d => Z.to_nat (d + 1)) deg)) /\
    (forall c p, (p < P)%nat -> shape c = map (fun d => Z.to_nat (d + 1)) deg -> dot (nth p V []) (flat c) = cheb_series (shape c) c [] (point xs p)).
Proof.
  intros deg xs P N L D X. destruct xs as [|x xs]; [congruence|]. inversion X as [|? ? X0 X']; subst.
  unfold chebvandernd. replace (forallb (fun d => (0 <=? d)%Z) deg) with true by (symmetry; apply forallb_forall; intros d Hd; apply Z.leb_le; rewrite Forall_forall in D; exact (D d Hd)).
  rewrite L, Nat.eqb_refl. cbn [negb]. rewrite (forallb_lengths _ _ X').
  assert (map (fun d => Z.to_nat (d + 1)) deg = map S (map Z.to_nat deg)) as E.
  { rewrite map_map. apply map_ext_in. intros d Hd. rewrite Forall_forall in D. pose proof (D d Hd). lia. }
  eexists. split; [reflexivity|]. split; [rewrite map_length, seq_length; reflexivity|].
  assert (forall p, (p < List.length x)%nat -> nth p (map (fun p => vander_row (map Z.to_nat deg) (map (fun y => at_R y p) (x :: xs))) (seq 0 (List.length x))) [] = vander_row (map Z.to_nat deg) (point (x :: xs) p)) as K.
  { intros p Hp. rewrite (nth_indep _ [] (vander_row (map Z.to_nat deg) (map (fun y => at_R y 0) (x :: xs)))) by (rewrite map_length, seq_length; exact Hp).
    rewrite (map_nth (fun p => vander_row (map Z.to_nat deg) (map (fun y => at_R y p) (x :: xs)))), seq_nth by exact Hp. reflexivity. }
  assert (List.length (map Z.to_nat deg) = List.length (x :: xs)) as L' by (rewrite map_length; exact L).
  assert (forall p, List.length (map Z.to_nat deg) = List.length (point (x :: xs) p)) as LP by (intros p; unfold point; rewrite !map_length; exact L).
  split.
  - intros p Hp. rewrite (K p Hp), E. apply vander_row_length. apply LP.
  - intros c p Hp S. rewrite (K p Hp). rewrite dot_sum2 by (unfold flat; rewrite map_length, indices_length, S, E; apply vander_row_length, LP).
    unfold flat, cheb_series. rewrite S, E. rewrite vander_row_sum by apply LP. apply multi_ext. intros idx _. rewrite app_nil_r. reflexivity.
Qed.
Lemma vander_errors : forall deg xs, ~ Forall (fun d => (0 <= d)%Z) deg \/ List.length deg <> List.length xs -> chebvandernd deg xs = Err ValueError.
Proof.
  intros deg xs H. unfold chebvandernd. destruct (forallb (fun d => (0 <=? d)%Z) deg) eqn:F; [|reflexivity]. cbn [negb].
  destruct H as [H|H].
  - exfalso. apply H. apply Forall_forall. intros d Hd. rewrite forallb_forall in F. apply Z.leb_le. exact (F d Hd).
  - apply Nat.eqb_neq in H. rewrite H. reflexivity.
Qed.
