(* Points outside the support, changes of unit, ties and the upper tail. *)
From Coq Require Import Reals Lra Lia.
From Verif Require Import Base MoranModel MoranSpec MoranProofs MoranProofs2.
Local Open Scope R_scope.

Lemma filter_idem {A} (p : A -> bool) l : filter p (filter p l) = filter p l.
Proof. apply filter_all. intros a I. apply filter_In in I. apply I. Qed.
Lemma filter_len {A} (p : A -> bool) l : (List.length l - List.length (filter p l) = List.length (filter (fun a => negb (p a)) l))%nat.
Proof.
  assert (H : (List.length (filter p l) + List.length (filter (fun a => negb (p a)) l) = List.length l)%nat).
  { induction l as [|a l IH]; [reflexivity|]. cbn [filter]. destruct (p a); cbn [negb List.length]; lia. }
  lia.
Qed.
Lemma filter_map {A B} (f : A -> B) p l : filter p (map f l) = map f (filter (fun a => p (f a)) l).
Proof. induction l as [|a l IH]; [reflexivity|]. cbn [map filter]. destruct (p (f a)); cbn [map]; rewrite IH; reflexivity. Qed.

Lemma nlogps_split xmin xmax d z scale args : nlogps_and_penalty xmin xmax d z scale args =
  nlogps_and_penalty xmin xmax d (filter (inside d args) z) scale args + 100 * ln xmax * INR (List.length (filter (fun v => negb (inside d args v)) z)).
Proof.
  unfold nlogps_and_penalty. cbv zeta. rewrite filter_idem. rewrite (filter_len (inside d args) z). rewrite Nat.sub_diag. cbn [Nat.add].
  set (logs := log_dprb xmin d (filter (inside d args) z) args scale true). set (b := (List.length logs - List.length (finite logs))%nat). set (o := List.length (filter (fun v => negb (inside d args v)) z)).
  assert (H : forall n, (if Nat.ltb 0 n then 100 * ln xmax * INR n else 0) = 100 * ln xmax * INR n) by (intros [|n]; cbn [Nat.ltb Nat.leb]; [cbn; ring|reflexivity]).
  rewrite !H, plus_INR. ring.
Qed.

Lemma moran_outside xmin xmax d args loc scale x T : argcheck d args = true -> 0 < scale ->
  let good := filter (fun v => inside d args ((v - loc) / scale)) x in
  let bad := filter (fun v => negb (inside d args ((v - loc) / scale))) x in
  penalized_nlogps xmin xmax d (args ++ [loc; scale]) good = Ok (Some T) ->
  penalized_nlogps xmin xmax d (args ++ [loc; scale]) x = Ok (Some (T + 100 * ln xmax * INR (List.length bad))).
Proof.
  intros A P good bad E. rewrite penalized_legal in * by assumption. assert (Q : forall a b : R, Ok (Some a) = Ok (Some b) -> a = b) by congruence. apply Q in E. clear Q. subst T.
  f_equal. f_equal. rewrite nlogps_split. rewrite !filter_map. rewrite map_length. reflexivity.
Qed.
Lemma moran_illegal xmin xmax d args loc scale x : argcheck d args = false \/ scale <= 0 -> penalized_nlogps xmin xmax d (args ++ [loc; scale]) x = Ok None.
Proof. intros [A|P]; rewrite penalized_eq; [rewrite A; reflexivity|]. destruct (Rle_dec scale 0); [|lra]. rewrite Bool.orb_true_r. reflexivity. Qed.
Lemma moran_short xmin xmax d theta x : (List.length theta < 2)%nat -> penalized_nlogps xmin xmax d theta x = Err ValueError.
Proof. intros L. unfold penalized_nlogps. cbv zeta. destruct (Nat.ltb_spec (List.length theta) 2); [reflexivity|lia]. Qed.

Lemma finite_cons o l : rsum (finite (o :: l)) = match o with Some v => v | None => 0 end + rsum (finite l) /\ List.length (finite (o :: l)) = ((match o with Some _ => 1 | None => 0 end) + List.length (finite l))%nat.
Proof. destruct o; split; try reflexivity. change (rsum (finite (None :: l))) with (rsum (finite l)). ring. Qed.
Lemma ties_cons d args s a c x l logs : ties_from d args s (a :: c :: x) (l :: logs) =
  (if Req_EM_T (c - a) 0 then match nlog (pdf d args a), nlog s with Some p, Some s => Some (p - s) | _, _ => None end else l) :: ties_from d args s (c :: x) logs.
Proof. reflexivity. Qed.
Lemma repeats_cons a c x : repeats (a :: c :: x) = ((if Req_EM_T a c then 1 else 0) + repeats (c :: x))%nat.
Proof. reflexivity. Qed.
(* the scale only matters in the entries of ties *)
Lemma ties_scaled d args scale b x : 0 < scale -> 0 < b -> forall logs, (forall v, In v x -> 0 < pdf d args v) -> (List.length x <= List.length logs + 1)%nat ->
  rsum (finite (ties_from d args (b * scale) x logs)) = rsum (finite (ties_from d args scale x logs)) - INR (repeats x) * ln b
  /\ List.length (finite (ties_from d args (b * scale) x logs)) = List.length (finite (ties_from d args scale x logs)).
Proof.
  intros Ps Pb. induction x as [|a [|c x] IH]; intros [|l logs] PD L; cbn [List.length] in L; try lia; try (cbn; split; [ring|reflexivity]).
  rewrite !ties_cons, repeats_cons. specialize (IH logs ltac:(intros; apply PD; right; assumption) ltac:(cbn; lia)). destruct IH as [I1 I2].
  set (u := ties_from d args (b * scale) (c :: x) logs) in *. set (w := ties_from d args scale (c :: x) logs) in *.
  assert (PA : 0 < pdf d args a) by (apply PD; left; reflexivity). assert (PB : 0 < b * scale) by (apply Rmult_lt_0_compat; assumption).
  rewrite plus_INR. destruct (Req_EM_T (c - a) 0) as [E|N].
  - destruct (Req_EM_T a c) as [_|N]; [|lra]. unfold nlog. destruct (Rlt_dec 0 (pdf d args a)) as [_|?]; [|lra]. destruct (Rlt_dec 0 (b * scale)) as [_|?]; [|lra]. destruct (Rlt_dec 0 scale) as [_|?]; [|lra].
    match goal with |- rsum (finite (?o :: u)) = rsum (finite (?p :: w)) - _ /\ _ => destruct (finite_cons o u) as [-> ->]; destruct (finite_cons p w) as [-> ->] end.
    rewrite I1, I2, ln_mult by assumption. cbn [INR]. split; [ring|reflexivity].
  - destruct (Req_EM_T a c) as [E|_]; [lra|]. destruct (finite_cons l u) as [-> ->]. destruct (finite_cons l w) as [-> ->]. rewrite I1, I2. cbn [INR]. split; [ring|reflexivity].
Qed.
Lemma ties_length d args scale x : forall logs, List.length (ties_from d args scale x logs) = List.length logs.
Proof. induction x as [|a [|c x] IH]; intros [|l logs]; try reflexivity. cbn [ties_from List.length]. f_equal. apply IH. Qed.
Lemma nlogps_scaled xmin xmax d z scale b args : 0 < scale -> 0 < b -> (forall v, In v z -> inside d args v = true -> 0 < pdf d args v) ->
  nlogps_and_penalty xmin xmax d z (b * scale) args = nlogps_and_penalty xmin xmax d z scale args + INR (repeats (filter (inside d args) z)) * ln b.
Proof.
  intros Ps Pb PD. unfold nlogps_and_penalty. cbv zeta. unfold log_dprb, resolve_ties. set (zz := filter (inside d args) z).
  fold (row (cdf d args) zz). assert (L : List.length (map (fun p => nlog (p + xmin)) (rdiff (row (cdf d args) zz))) = (List.length zz + 1)%nat) by (rewrite map_length; apply gaps_length).
  destruct (map (fun p => nlog (p + xmin)) (rdiff (row (cdf d args) zz))) as [|l logs]; [cbn in L; lia|]. cbn [List.length] in L.
  destruct (ties_scaled d args scale b zz Ps Pb logs) as [S1 S2].
  { intros v I. unfold zz in I. apply filter_In in I. destruct I as [I J]. apply PD; assumption. }
  { lia. }
  set (u := ties_from d args (b * scale) zz logs) in *. set (w := ties_from d args scale zz logs) in *.
  assert (LU : List.length u = List.length w) by (unfold u, w; rewrite !ties_length; reflexivity).
  destruct (finite_cons l u) as [-> ->]. destruct (finite_cons l w) as [-> ->]. cbn [List.length]. rewrite S1, S2, LU. ring.
Qed.

Lemma repeats_map f x : (forall a c, f a = f c -> a = c) -> repeats (map f x) = repeats x.
Proof.
  intros J. induction x as [|a [|c x] IH]; [reflexivity|reflexivity|]. cbn [map repeats] in *. rewrite IH.
  destruct (Req_EM_T (f a) (f c)) as [E|N]; destruct (Req_EM_T a c) as [E'|N']; try reflexivity; exfalso; [apply N'; apply J; exact E|apply N; rewrite E'; reflexivity].
Qed.
Lemma moran_units xmin xmax d args loc scale x a b T : argcheck d args = true -> 0 < scale -> 0 < b ->
  (forall v, In v x -> inside d args ((v - loc) / scale) = true -> 0 < pdf d args ((v - loc) / scale)) ->
  penalized_nlogps xmin xmax d (args ++ [loc; scale]) x = Ok (Some T) ->
  let good := filter (fun v => inside d args ((v - loc) / scale)) x in
  penalized_nlogps xmin xmax d (args ++ [a + b * loc; b * scale]) (map (fun v => a + b * v) x) = Ok (Some (T + INR (repeats good) * ln b)).
Proof.
  intros A P Pb PD E good. assert (PB : 0 < b * scale) by (apply Rmult_lt_0_compat; assumption). rewrite penalized_legal in * by assumption.
  assert (Q : forall a b : R, Ok (Some a) = Ok (Some b) -> a = b) by congruence. apply Q in E. clear Q. subst T. f_equal. f_equal.
  rewrite map_map. rewrite (map_ext _ (fun v => (v - loc) / scale)) by (intros v; field; lra).
  rewrite nlogps_scaled; [|exact P|exact Pb|].
  - f_equal. f_equal. f_equal. rewrite filter_map. apply repeats_map. intros u v E. assert (u - loc = v - loc) by (replace (u - loc) with ((u - loc) / scale * scale) by (field; lra); rewrite E; field; lra). lra.
  - intros v I J. apply in_map_iff in I. destruct I as [w [<- I]]. apply PD; assumption.
Qed.
Lemma repeats_increasing x : increasing x -> repeats x = 0%nat.
Proof.
  induction x as [|a [|c x] IH]; intros X; [reflexivity|reflexivity|]. cbn [repeats] in *. rewrite IH by (intros i I; apply (X (S i)); cbn in *; lia).
  destruct (Req_EM_T a c) as [E|_]; [|reflexivity]. specialize (X 0%nat ltac:(cbn; lia)). cbn in X. lra.
Qed.
Lemma rdiff_flip l : rdiff (map (fun p => 1 - p) l) = map Ropp (rdiff l).
Proof. induction l as [|a [|c l] IH]; [reflexivity|reflexivity|]. cbn [map rdiff] in *. rewrite IH. f_equal. ring. Qed.
Lemma upper_tail xmin d x args scale : (forall v, sf d args v = 1 - cdf d args v) -> log_dprb xmin d x args scale false = log_dprb xmin d x args scale true.
Proof.
  intros H. unfold log_dprb. cbv zeta. f_equal. f_equal.
  replace (1 :: map (sf d args) x ++ [0]) with (map (fun p => 1 - p) (row (cdf d args) x)).
  - rewrite rdiff_flip, map_map. fold (row (cdf d args) x). rewrite (map_ext _ (fun a => a)) by (intros; ring). apply map_id.
  - unfold row. cbn [map]. rewrite map_app, map_map. cbn [map]. f_equal; [ring|]. f_equal; [apply map_ext; intros v; rewrite H; reflexivity|]. f_equal. ring.
Qed.
Lemma inside_spec d args x : inside d args x = true <-> within (low d args) (high d args) x.
Proof.
  unfold inside, within. destruct (low d args) as [a|]; destruct (high d args) as [b|]; rewrite Bool.andb_true_iff; split; intros [A B]; split; try (intros c E; first [discriminate E|injection E as <-]); try reflexivity.
  - destruct (Rle_dec a x); [assumption|discriminate].
  - destruct (Rle_dec x b); [assumption|discriminate].
  - destruct (Rle_dec a x); [reflexivity|exfalso; apply n, A; reflexivity].
  - destruct (Rle_dec x b); [reflexivity|exfalso; apply n, B; reflexivity].
  - destruct (Rle_dec a x); [assumption|discriminate].
  - destruct (Rle_dec a x); [reflexivity|exfalso; apply n, A; reflexivity].
  - destruct (Rle_dec x b); [assumption|discriminate].
  - destruct (Rle_dec x b); [reflexivity|exfalso; apply n, B; reflexivity].
Qed.
