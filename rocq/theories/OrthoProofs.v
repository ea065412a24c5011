From Coq Require Import Reals Lra Lia.
From Verif Require Import Base PolyModel PolySpec PolyProofs PolyProofs2 OrthoModel OrthoSpec.
Local Open Scope R_scope.

(* ---- a polynomial with too many roots is zero --------------------------------- *)
Lemma peval_division c l r : forall t, 
  peval (c :: l) t = (t - r) * peval (removelast (c :: synth (- r) c l)) t + peval (c :: l) r.
Proof.
  intros t. rewrite (synth_division (- r) t l c). rewrite (synth_division (- r) r l c). ring.
Qed.
Lemma too_many_roots : forall p l, NoDup l -> (List.length p <= List.length l)%nat ->
  (forall r, In r l -> peval p r = 0) -> forall t, peval p t = 0.
Proof.
  intros p. remember (List.length p) as n eqn:En. revert p En.
  induction n as [|n IH]; intros p En l Hl Hn Hr t; [destruct p; [reflexivity|discriminate]|].
  destruct p as [|c p]; [discriminate|]. destruct l as [|r l]; [cbn in Hn; lia|].
  rewrite (peval_division c p r t), (Hr r (or_introl eq_refl)), Rplus_0_r.
  rewrite (IH (removelast (c :: synth (- r) c p))) with (l := l); [ring| | | |].
  - rewrite removelast_length. cbn [List.length] in *. rewrite synth_length. lia.
  - now inversion Hl.
  - cbn in Hn. lia.
  - intros s Hs. assert (s <> r) by (inversion Hl; intros ->; contradiction).
    pose proof (Hr s (or_intror Hs)) as E. rewrite (peval_division c p r s), (Hr r (or_introl eq_refl)), Rplus_0_r in E.
    apply Rmult_integral in E. destruct E; [lra|assumption].
Qed.

(* ---- sums ------------------------------------------------------------------------ *)
Lemma vsum_ext N f g : (forall k, (k < N)%nat -> f k = g k) -> vsum N f = vsum N g.
Proof. induction N as [|N IH]; intros H; cbn; [reflexivity|]. rewrite IH, H; auto. Qed.
Lemma vsum_add N f g : vsum N (fun k => f k + g k) = vsum N f + vsum N g.
Proof. induction N as [|N IH]; cbn; [ring|]. rewrite IH. ring. Qed.
Lemma vsum_scal N c f : vsum N (fun k => c * f k) = c * vsum N f.
Proof. induction N as [|N IH]; cbn; [ring|]. rewrite IH. ring. Qed.
Lemma vsum_sub N f g : vsum N (fun k => f k - g k) = vsum N f - vsum N g.
Proof. induction N as [|N IH]; cbn; [ring|]. rewrite IH. ring. Qed.
Lemma vsum_0 N f : (forall k, (k < N)%nat -> f k = 0) -> vsum N f = 0.
Proof. induction N as [|N IH]; intros H; cbn; [reflexivity|]. rewrite IH, H; auto; ring. Qed.
Lemma vsum_nonneg N f : (forall k, (k < N)%nat -> 0 <= f k) -> 0 <= vsum N f.
Proof.
  induction N as [|N IH]; intros H; cbn; [lra|]. specialize (IH (fun k Hk => H k (Nat.lt_trans _ _ _ Hk (Nat.lt_succ_diag_r N)))).
  specialize (H N (Nat.lt_succ_diag_r N)). lra.
Qed.
Lemma vsum_zero_all N f : (forall k, (k < N)%nat -> 0 <= f k) -> vsum N f = 0 -> forall k, (k < N)%nat -> f k = 0.
Proof.
  induction N as [|N IH]; intros H E k Hk; [lia|]. cbn in E.
  assert (0 <= vsum N f) by (apply vsum_nonneg; auto).
  assert (0 <= f N) by auto.
  destruct (Nat.eq_dec k N) as [->|]; [lra|]. apply IH; auto; [lra|lia].
Qed.

(* ---- the recurrence ---------------------------------------------------------------- *)
Lemma PL_0 N x k : PL N x 0 k = 1. Proof. reflexivity. Qed.
Lemma PL_1 N x k : PL N x 1 k = x k - OP1 N x 1. Proof. reflexivity. Qed.
Lemma PL_SS N x i k : PL N x (S (S i)) k = (x k - OP1 N x (S (S i))) * PL N x (S i) k - OP2 N x (S (S i)) * PL N x i k.
Proof.
  unfold PL, OP1, OP2.
  assert (E : forall i, let '(_, v, _, _) := ofit N x (S i) in v = let '(u, _, _, _) := ofit N x i in u).
  { intros j. destruct j as [|j]; [reflexivity|].
    change (ofit N x (S (S j))) with (let '(u, v, _, _) := ofit N x (S j) in
      let p1 := vsum N (fun k => x k * (u k) ^ 2) / vsum N (fun k => (u k) ^ 2) in
      let p2 := vsum N (fun k => x k * (v k * u k)) / vsum N (fun k => (v k) ^ 2) in
      ((fun k => (x k - p1) * u k - p2 * v k), u, p1, p2)).
    destruct (ofit N x (S j)) as [[[u v] a] b]. reflexivity. }
  change (ofit N x (S (S i))) with (let '(u, v, _, _) := ofit N x (S i) in
      let p1 := vsum N (fun k => x k * (u k) ^ 2) / vsum N (fun k => (u k) ^ 2) in
      let p2 := vsum N (fun k => x k * (v k * u k)) / vsum N (fun k => (v k) ^ 2) in
      ((fun k => (x k - p1) * u k - p2 * v k), u, p1, p2)).
  specialize (E i). destruct (ofit N x (S i)) as [[[u v] a] b]. rewrite <- E. reflexivity.
Qed.
Lemma OP_SS N x i : 
  OP1 N x (S (S i)) = vsum N (fun k => x k * (PL N x (S i) k) ^ 2) / vsum N (fun k => (PL N x (S i) k) ^ 2) /\
  OP2 N x (S (S i)) = vsum N (fun k => x k * (PL N x i k * PL N x (S i) k)) / vsum N (fun k => (PL N x i k) ^ 2).
Proof.
  unfold PL, OP1, OP2.
  assert (E : forall i, let '(_, v, _, _) := ofit N x (S i) in v = let '(u, _, _, _) := ofit N x i in u).
  { intros j. destruct j as [|j]; [reflexivity|].
    change (ofit N x (S (S j))) with (let '(u, v, _, _) := ofit N x (S j) in
      let p1 := vsum N (fun k => x k * (u k) ^ 2) / vsum N (fun k => (u k) ^ 2) in
      let p2 := vsum N (fun k => x k * (v k * u k)) / vsum N (fun k => (v k) ^ 2) in
      ((fun k => (x k - p1) * u k - p2 * v k), u, p1, p2)).
    destruct (ofit N x (S j)) as [[[u v] a] b]. reflexivity. }
  change (ofit N x (S (S i))) with (let '(u, v, _, _) := ofit N x (S i) in
      let p1 := vsum N (fun k => x k * (u k) ^ 2) / vsum N (fun k => (u k) ^ 2) in
      let p2 := vsum N (fun k => x k * (v k * u k)) / vsum N (fun k => (v k) ^ 2) in
      ((fun k => (x k - p1) * u k - p2 * v k), u, p1, p2)).
  specialize (E i). destruct (ofit N x (S i)) as [[[u v] a] b]. rewrite <- E. split; reflexivity.
Qed.

(* inner products *)
Definition ip N (f g : nat -> R) := vsum N (fun k => f k * g k).
Lemma ip_sym N f g : ip N f g = ip N g f.
Proof. apply vsum_ext. intros. ring. Qed.
Lemma ip_sq N f : vsum N (fun k => (f k) ^ 2) = ip N f f.
Proof. apply vsum_ext. intros. ring. Qed.

Lemma ip_step N x i f : ip N (PL N x (S (S i))) f
  = ip N (fun k => x k * PL N x (S i) k) f - OP1 N x (S (S i)) * ip N (PL N x (S i)) f - OP2 N x (S (S i)) * ip N (PL N x i) f.
Proof.
  unfold ip. rewrite <- !vsum_scal, <- !vsum_sub. apply vsum_ext. intros k _. rewrite PL_SS. ring.
Qed.
(* x P_j in terms of neighbours *)
Lemma ip_xP N x j f : ip N (fun k => x k * PL N x (S j) k) f
  = ip N (PL N x (S (S j))) f + OP1 N x (S (S j)) * ip N (PL N x (S j)) f + OP2 N x (S (S j)) * ip N (PL N x j) f.
Proof. rewrite ip_step. ring. Qed.
Lemma ip_xP0 N x f : ip N (fun k => x k * PL N x 0 k) f = ip N (PL N x 1) f + OP1 N x 1 * ip N (PL N x 0) f.
Proof.
  unfold ip. rewrite <- vsum_scal, <- vsum_add. apply vsum_ext. intros k _. rewrite PL_1, PL_0. ring.
Qed.
Lemma vsum_one N : vsum N (fun _ => 1) = INR N.
Proof. induction N as [|N IH]; [reflexivity|]. cbn [vsum]. rewrite IH, S_INR. reflexivity. Qed.

Lemma orthogonal N x n : (forall i, (i < n)%nat -> ip N (PL N x i) (PL N x i) <> 0) ->
  forall i j, (i <= n)%nat -> (j < i)%nat -> ip N (PL N x i) (PL N x j) = 0.
Proof.
  intros Hnz i. induction i as [i IH] using (well_founded_induction lt_wf). intros j Hi Hj.
  destruct i as [|[|i]]; [lia| |].
  - assert (j = 0)%nat as -> by lia. unfold ip.
    rewrite (vsum_ext N _ (fun k => x k - OP1 N x 1 * 1)) by (intros; rewrite PL_1, PL_0; ring).
    rewrite vsum_sub, vsum_scal, vsum_one. change (OP1 N x 1) with (vmean N x). unfold vmean.
    specialize (Hnz 0%nat ltac:(lia)). unfold ip in Hnz. 
    rewrite (vsum_ext N _ (fun _ => 1)) in Hnz by (intros; rewrite PL_0; ring). rewrite vsum_one in Hnz.
    field. exact Hnz.
  - rewrite ip_step. destruct (OP_SS N x i) as [E1 E2].
    rewrite ip_sq in E1, E2.
    destruct (Nat.eq_dec j (S i)) as [->|Hj1].
    + rewrite (ip_sym N (PL N x i)), (IH (S i) ltac:(lia) i) by lia. rewrite E1.
      replace (vsum N (fun k => x k * PL N x (S i) k ^ 2)) with (ip N (fun k => x k * PL N x (S i) k) (PL N x (S i))).
      2:{ apply vsum_ext. intros. ring. }
      field. apply Hnz. lia.
    + destruct (Nat.eq_dec j i) as [->|Hj2].
      * rewrite (IH (S i) ltac:(lia) i) by lia. rewrite E2.
        replace (vsum N (fun k => x k * (PL N x i k * PL N x (S i) k))) with (ip N (fun k => x k * PL N x (S i) k) (PL N x i)).
        2:{ apply vsum_ext. intros. ring. }
        field. apply Hnz. lia.
      * rewrite (IH (S i) ltac:(lia) j) by lia. rewrite (IH i ltac:(lia) j) by lia.
        replace (ip N (fun k => x k * PL N x (S i) k) (PL N x j)) with (ip N (fun k => x k * PL N x j k) (PL N x (S i))).
        2:{ apply vsum_ext. intros. ring. }
        destruct j as [|j].
        -- rewrite ip_xP0. rewrite !(ip_sym N _ (PL N x (S i))). rewrite !(IH (S i)) by lia. ring.
        -- rewrite ip_xP. rewrite !(ip_sym N _ (PL N x (S i))). rewrite !(IH (S i)) by lia. ring.
Qed.

(* ---- monic polynomials --------------------------------------------------------------- *)
(* mp i: a list of length i+1 starting with 1 whose values are the row PL i *)
Lemma PL_poly N x i : exists q, List.length q = i /\ forall k, PL N x i k = peval (1 :: q) (x k).
Proof.
  induction i as [i IH] using (well_founded_induction lt_wf). destruct i as [|[|i]].
  - exists []. split; [reflexivity|]. intros k. rewrite PL_0. cbn. ring.
  - exists [- OP1 N x 1]. split; [reflexivity|]. intros k. rewrite PL_1. cbn. ring.
  - destruct (IH (S i) ltac:(lia)) as [q [Lq Hq]], (IH i ltac:(lia)) as [r [Lr Hr]].
    set (a := OP1 N x (S (S i))). set (b := OP2 N x (S (S i))).
    exists (polyadd (polyadd (q ++ [0]) (map (Rmult (- a)) (1 :: q))) (map (Rmult (- b)) (1 :: r))).
    assert (L : List.length (polyadd (polyadd (q ++ [0]) (map (Rmult (- a)) (1 :: q))) (map (Rmult (- b)) (1 :: r))) = S (S i)).
    { rewrite !polyadd_length, !map_length, app_length. cbn [List.length]. lia. }
    split; [exact L|]. intros k. rewrite PL_SS, Hq, Hr. fold a b.
    rewrite (peval_cons 1 (polyadd _ _)), L, !peval_polyadd, !peval_scale, peval_snoc, !peval_cons, Lq, Lr.
    cbn [pow]. ring.
Qed.

Lemma nth_at x k d : (k < List.length x)%nat -> nth k x d = at_R x k.
Proof. intros. apply nth_indep. assumption. Qed.

Lemma PL_nonzero x n i : distinct_values (S n) x -> (i <= n)%nat ->
  ip (List.length x) (PL (List.length x) (at_R x) i) (PL (List.length x) (at_R x) i) <> 0.
Proof.
  intros [l [Hl [Hi Hlen]]] Hn E.
  destruct (PL_poly (List.length x) (at_R x) i) as [q [Lq Hq]].
  assert (Z : forall k, (k < List.length x)%nat -> peval (1 :: q) (at_R x k) = 0).
  { intros k Hk. rewrite <- Hq.
    pose proof (vsum_zero_all (List.length x) (fun k => PL (List.length x) (at_R x) i k * PL (List.length x) (at_R x) i k)
       (fun k _ => Rle_0_sqr _) E k Hk) as G. cbv beta in G. apply Rmult_integral in G. tauto. }
  (* the synthetic quotients eventually reach the leading one: use the m-th difference instead *)
  assert (Zl : forall r, In r l -> peval (1 :: q) r = 0).
  { intros r Hr. apply Hi in Hr. apply In_nth with (d := 0) in Hr as [k [Hk <-]]. now apply Z. }
  clear Z E Hq.
  (* monic polynomial of degree i cannot have i+1 roots *)
  assert (M : forall q l, NoDup l -> (List.length q < List.length l)%nat -> (forall r, In r l -> peval (1 :: q) r = 0) -> False).
  { clear. intros q. remember (List.length q) as m eqn:Em. revert q Em.
    induction m as [|m IH]; intros q Em l Hl Hn Hr.
    - destruct q; [|discriminate]. destruct l as [|r l]; [cbn in Hn; lia|].
      specialize (Hr r (or_introl eq_refl)). cbn in Hr. lra.
    - destruct l as [|r l]; [cbn in Hn; lia|].
      destruct (synth (- r) 1 q) as [|e s] eqn:Es.
      { pose proof (synth_length (- r) q 1) as G. rewrite Es in G. cbn in G. lia. }
      apply (IH (removelast (e :: s)) ltac:(rewrite removelast_length, <- Es, synth_length; lia) l).
      + now inversion Hl.
      + cbn in Hn. lia.
      + intros t Ht. assert (t <> r) by (inversion Hl; intros ->; contradiction).
        pose proof (Hr t (or_intror Ht)) as E. rewrite (peval_division 1 q r t), (Hr r (or_introl eq_refl)), Rplus_0_r, Es in E.
        apply Rmult_integral in E. destruct E; [lra|]. exact H0. }
  apply (M q l Hl); [lia|exact Zl].
Qed.

(* ---- residual orthogonal to all polynomials of the degree ------------------------------ *)
Lemma peval_unit_lead q c r x : List.length q = List.length r ->
  peval (c :: q) x = c * peval (1 :: r) x + peval (map2 Rminus q (map (Rmult c) r)) x.
Proof.
  intros L. rewrite peval_map2_minus by (now rewrite map_length). rewrite peval_scale, !peval_cons, L. ring.
Qed.
Lemma residual_orthogonal N x (f : nat -> R) n : (forall i, (i < n)%nat -> ip N f (PL N x i) = 0) ->
  forall q, (List.length q <= n)%nat -> ip N f (fun k => peval q (x k)) = 0.
Proof.
  intros H q. remember (List.length q) as m eqn:Em. revert q Em. induction m as [|m IH]; intros q Em Hm.
  - destruct q; [|discriminate]. unfold ip. apply vsum_0. intros. cbn. ring.
  - destruct q as [|c q]; [discriminate|]. cbn in Em.
    destruct (PL_poly N x m) as [r [Lr Hr]].
    unfold ip. rewrite (vsum_ext N _ (fun k => c * (f k * PL N x m k) + f k * peval (map2 Rminus q (map (Rmult c) r)) (x k))).
    2:{ intros k _. rewrite (peval_unit_lead q c r) by lia. rewrite Hr. ring. }
    rewrite vsum_add, vsum_scal. change (vsum N (fun k => f k * PL N x m k)) with (ip N f (PL N x m)).
    rewrite H by lia.
    change (vsum N (fun k => f k * peval (map2 Rminus q (map (Rmult c) r)) (x k))) with (ip N f (fun k => peval (map2 Rminus q (map (Rmult c) r)) (x k))).
    rewrite IH; [ring| |lia]. rewrite map2_length, map_length. lia.
Qed.

(* ---- orthoval of the fitted table -------------------------------------------------------- *)
Lemma at_map (f : nat -> R) n i : (i < n)%nat -> at_R (map f (seq 0 n)) i = f i.
Proof.
  intros H. unfold at_R. rewrite (nth_indep _ 0 (f 0%nat)) by (rewrite map_length, seq_length; lia).
  rewrite map_nth, seq_nth by lia. reflexivity.
Qed.
Lemma ortho_rows_PL N x n r0 k : forall i, (i <= n)%nat ->
  fst (ortho_rows (x k) (Table r0 (map (OP1 N x) (seq 0 (S n))) (map (OP2 N x) (seq 0 (S n)))) i) = PL N x i k /\
  (0 < i -> snd (ortho_rows (x k) (Table r0 (map (OP1 N x) (seq 0 (S n))) (map (OP2 N x) (seq 0 (S n)))) i) = PL N x (i - 1) k)%nat.
Proof.
  set (t := Table _ _ _). intros i. induction i as [|i IH]; intros Hi; [split; [reflexivity|lia]|].
  destruct i as [|i].
  - split; [|reflexivity]. cbn [ortho_rows fst]. rewrite PL_1. f_equal.
    unfold t. cbn [row1]. rewrite at_map by lia. reflexivity.
  - destruct (IH ltac:(lia)) as [I1 I2]. specialize (I2 ltac:(lia)).
    change (ortho_rows (x k) t (S (S i))) with (let (u, v) := ortho_rows (x k) t (S i) in
      ((x k - at_R (row1 t) (S (S i))) * u - at_R (row2 t) (S (S i)) * v, u)).
    destruct (ortho_rows (x k) t (S i)) as [u v]. cbn [fst snd] in *. subst u v.
    replace (S i - 1)%nat with i by lia. replace (S (S i) - 1)%nat with (S i) by lia.
    split; [|reflexivity]. rewrite PL_SS. unfold t. cbn [row1 row2]. rewrite !at_map by lia. reflexivity.
Qed.

(* fitted value at sample k *)
Definition fitted N x (y : nat -> R) n k := vsum (S n) (fun i => ip N (PL N x i) y / ip N (PL N x i) (PL N x i) * PL N x i k).
Lemma fold_sum_vsum f n : fold_right (fun q t => q + t) 0 (map f (seq 0 n)) = vsum n f.
Proof.
  induction n as [|n IH]; [reflexivity|]. rewrite seq_S, map_app, fold_right_app. cbn [vsum].
  rewrite <- IH. cbn [map fold_right Nat.add]. generalize (map f (seq 0 n)) as l. induction l as [|a l IHl]; cbn; [ring|].
  rewrite IHl. ring.
Qed.
Lemma orthoval_fitted x y n k : (k < List.length x)%nat -> (0 < List.length x)%nat ->
  orthoval (orthofit x y n) (at_R x k) = Ok (fitted (List.length x) (at_R x) (at_R y) n k).
Proof.
  intros Hk Hx. unfold orthofit. cbv zeta. destruct n as [|n].
  - unfold orthoval, fitted. cbn [row0 vsum]. f_equal. rewrite PL_0. unfold ip, vmean.
    rewrite (vsum_ext _ (fun k => PL (List.length x) (at_R x) 0 k * at_R y k) (at_R y)) by (intros; rewrite PL_0; ring).
    rewrite (vsum_ext _ (fun k => PL (List.length x) (at_R x) 0 k * PL (List.length x) (at_R x) 0 k) (fun _ => 1)) by (intros; rewrite PL_0; ring).
    rewrite vsum_one. field. apply not_0_INR. lia.
  - unfold orthoval. set (t := Table _ _ _).
    assert (L : List.length (row0 t) = S (S n)) by (unfold t; cbn [row0]; now rewrite map_length, seq_length).
    destruct (row0 t) as [|c0 [|c1 cs]] eqn:E; cbn [List.length] in L; try lia. rewrite <- E.
    f_equal.
    rewrite (dot_seq (row0 t) (fun i => fst (ortho_rows (at_R x k) t i)) 0 (row0 t)) by reflexivity.
    replace (List.length (row0 t)) with (S (S n)) by (rewrite E; cbn; lia).
    rewrite (fold_sum_vsum (fun i => at_R (row0 t) i * fst (ortho_rows (at_R x k) t i))).
    unfold fitted. apply vsum_ext. intros i Hi. unfold t.
    rewrite (proj1 (ortho_rows_PL (List.length x) (at_R x) (S n) _ k i ltac:(lia))). cbn [row0].
    rewrite at_map by lia. rewrite ip_sq. reflexivity.
Qed.

Lemma fitted_residual N x y n : (forall i, (i <= n)%nat -> ip N (PL N x i) (PL N x i) <> 0) ->
  forall i, (i < S n)%nat -> ip N (fun k => y k - fitted N x y n k) (PL N x i) = 0.
Proof.
  intros Hnz i Hi. unfold ip.
  rewrite (vsum_ext N _ (fun k => y k * PL N x i k - fitted N x y n k * PL N x i k)) by (intros; ring).
  rewrite vsum_sub.
  assert (E : vsum N (fun k => fitted N x y n k * PL N x i k)
    = vsum (S n) (fun j => ip N (PL N x j) y / ip N (PL N x j) (PL N x j) * ip N (PL N x j) (PL N x i))).
  { unfold fitted. clear Hi. generalize (S n) as m. intros m. induction m as [|m IH].
    - cbn [vsum]. apply vsum_0. intros. ring.
    - cbn [vsum]. rewrite <- IH.
      change (ip N (PL N x m) (PL N x i)) with (vsum N (fun k => PL N x m k * PL N x i k)) at 1.
      rewrite <- vsum_scal, <- vsum_add. apply vsum_ext. intros. ring. }
  rewrite E.
  assert (G : forall m, (m <= S n)%nat ->
    vsum m (fun j => ip N (PL N x j) y / ip N (PL N x j) (PL N x j) * ip N (PL N x j) (PL N x i))
    = if Nat.ltb i m then ip N (PL N x i) y else 0).
  { induction m as [|m IHm]; intros Hm; [reflexivity|]. cbn [vsum]. rewrite IHm by lia.
    destruct (Nat.ltb i (S m)) eqn:E1; [apply Nat.ltb_lt in E1|apply Nat.ltb_ge in E1].
    - destruct (Nat.eq_dec i m) as [->|Hne].
      + rewrite Nat.ltb_irrefl. field. apply Hnz. lia.
      + replace (Nat.ltb i m) with true by (symmetry; apply Nat.ltb_lt; lia).
        rewrite (orthogonal N x n (fun i Hi => Hnz i (Nat.lt_le_incl _ _ Hi)) m i) by lia. ring.
    - replace (Nat.ltb i m) with false by (symmetry; apply Nat.ltb_ge; lia).
      rewrite (ip_sym N (PL N x m) (PL N x i)), (orthogonal N x n (fun i Hi => Hnz i (Nat.lt_le_incl _ _ Hi)) i m) by lia. ring. }
  rewrite G by lia. replace (Nat.ltb i (S n)) with true by (symmetry; apply Nat.ltb_lt; lia).
  rewrite (ip_sym N (PL N x i) y). unfold ip. ring.
Qed.

Lemma squared_error_vsum x : forall y f, List.length x = List.length y ->
  squared_error x y f = vsum (List.length x) (fun k => (at_R y k - f (at_R x k)) ^ 2).
Proof.
  induction x as [|a x IH]; intros [|b y] f H; cbn in H; try discriminate; [reflexivity|].
  cbn [squared_error List.length]. rewrite IH by lia.
  assert (G : forall N g, vsum (S N) g = g 0%nat + vsum N (fun k => g (S k))).
  { clear. induction N as [|N IHN]; intros g; [cbn; ring|]. cbn [vsum] in *. rewrite IHN. ring. }
  rewrite G. reflexivity.
Qed.

(* ---- the fit as one polynomial ------------------------------------------------------------ *)
Lemma drop_zeros_length p : (List.length (drop_zeros p) <= List.length p)%nat.
Proof. induction p as [|c p IH]; [cbn; lia|]. cbn [drop_zeros]. destruct (nonzero c); cbn [List.length]; lia. Qed.
Lemma poly1d_length p : (List.length (poly1d p) <= Nat.max 1 (List.length p))%nat.
Proof. unfold poly1d. pose proof (drop_zeros_length p). destruct (drop_zeros p); cbn [List.length] in *; lia. Qed.
Lemma polymul_length a b : (List.length (polymul a b) <= Nat.max 1 (List.length a) + Nat.max 1 (List.length b) - 1)%nat.
Proof.
  unfold polymul. rewrite convolve_length by apply poly1d_nonempty.
  pose proof (poly1d_length a). pose proof (poly1d_length b). lia.
Qed.
Lemma ortho_polys_length t i : (List.length (fst (ortho_polys t i)) <= S i)%nat /\ (List.length (snd (ortho_polys t i)) <= i)%nat.
Proof.
  induction i as [|i [IH1 IH2]]; [cbn; lia|]. destruct i as [|i]; [cbn; lia|].
  change (ortho_polys t (S (S i))) with (let (u, v) := ortho_polys t (S i) in
            (polyadd (polymul [1; - at_R (row1 t) (S (S i))] u) (map (Rmult (- at_R (row2 t) (S (S i)))) v), u)).
  destruct (ortho_polys t (S i)) as [u v]. cbn [fst snd] in *. split; [|lia].
  rewrite polyadd_length, map_length. pose proof (polymul_length [1; - at_R (row1 t) (S (S i))] u) as H.
  cbn [List.length] in H. lia.
Qed.
Lemma fold_polyadd_length n xs : forall x0, (List.length x0 <= n)%nat -> Forall (fun q => List.length q <= n)%nat xs ->
  (List.length (fold_left polyadd xs x0) <= n)%nat.
Proof.
  induction xs as [|q xs IH]; intros x0 H0 H; [exact H0|]. inversion H; subst. cbn [fold_left].
  apply IH; [|assumption]. rewrite polyadd_length. lia.
Qed.
Lemma ortho2poly_length t q : ortho2poly t = Ok q -> (List.length q <= List.length (row0 t))%nat.
Proof.
  unfold ortho2poly. destruct (row0 t) as [|c0 [|c1 cs]] eqn:E; [discriminate|intros [= <-]; cbn; lia|].
  cbv zeta. set (n := List.length (c1 :: cs)). cbn [seq map]. intros [= <-].
  apply fold_polyadd_length.
  - cbn. lia.
  - apply Forall_forall. intros p Hp. apply in_map_iff in Hp as [i [<- Hi]]. apply in_seq in Hi.
    rewrite map_length. pose proof (proj1 (ortho_polys_length t i)). cbn [List.length] in *. unfold n in Hi. lia.
Qed.
Lemma orthofit_row0 x y n : List.length (row0 (orthofit x y n)) = S n.
Proof. unfold orthofit. destruct n; [reflexivity|]. cbv zeta. cbn [row0]. now rewrite map_length, seq_length. Qed.

Lemma orthofit_least_squares x y n : List.length x = List.length y -> distinct_values (S n) x ->
  exists q, (List.length q <= S n)%nat /\ (forall t, orthoval (orthofit x y n) t = Ok (peval q t)) /\ forall q', (List.length q' <= S n)%nat -> squared_error x y (peval q) <= squared_error x y (peval q').
Proof.
  intros Hxy Hd.
  assert (Hx : (0 < List.length x)%nat).
  { destruct Hd as [l [_ [Hi Hl]]]. destruct x; [|cbn; lia]. destruct l as [|a l]; [discriminate|].
    exfalso. apply (Hi a). now left. }
  destruct (ortho2poly_spec (orthofit x y n)) as [q [Eq Hq]].
  { intros G. pose proof (orthofit_row0 x y n) as G'. rewrite G in G'. discriminate. }
  pose proof (ortho2poly_length _ _ Eq) as Lq. rewrite orthofit_row0 in Lq.
  exists q. split; [exact Lq|]. split; [exact Hq|].
  intros q' Lq'. rewrite !squared_error_vsum by assumption.
  assert (Hf : forall k, (k < List.length x)%nat -> fitted (List.length x) (at_R x) (at_R y) n k = peval q (at_R x k)).
  { intros k Hk. specialize (Hq (at_R x k)). rewrite orthoval_fitted in Hq by assumption. now injection Hq. }
  set (N := List.length x) in *.
  assert (Hnz : forall i, (i <= n)%nat -> ip N (PL N (at_R x) i) (PL N (at_R x) i) <> 0).
  { intros i Hi. apply (PL_nonzero x n i Hd Hi). }
  set (f := fun k => at_R y k - fitted N (at_R x) (at_R y) n k).
  assert (R1 : forall r, (List.length r <= S n)%nat -> ip N f (fun k => peval r (at_R x k)) = 0).
  { intros r Lr. apply (residual_orthogonal N (at_R x) f (S n)); [|exact Lr].
    apply fitted_residual. exact Hnz. }
  assert (E : vsum N (fun k => (at_R y k - peval q' (at_R x k)) ^ 2)
    = vsum N (fun k => (at_R y k - peval q (at_R x k)) ^ 2) + 2 * (ip N f (fun k => peval q (at_R x k)) - ip N f (fun k => peval q' (at_R x k)))
      + vsum N (fun k => (peval q (at_R x k) - peval q' (at_R x k)) ^ 2)).
  { unfold ip. rewrite <- vsum_sub, <- vsum_scal, <- !vsum_add. apply vsum_ext. intros k Hk. unfold f. rewrite Hf by exact Hk. ring. }
  rewrite E, !R1 by assumption.
  assert (0 <= vsum N (fun k => (peval q (at_R x k) - peval q' (at_R x k)) ^ 2)).
  { apply vsum_nonneg. intros. apply pow2_ge_0. }
  lra.
Qed.
