(* Moran's statistic of a sample. *)
From Coq Require Import Reals Lra Lia.
From Verif Require Import Base MoranModel MoranSpec MoranProofs.
Local Open Scope R_scope.

Lemma ties_none d args scale x : forall logs, increasing x -> ties_from d args scale x logs = logs.
Proof.
  induction x as [|a [|b x] IH]; intros [|l logs] X; try reflexivity. cbn [ties_from].
  destruct (Req_EM_T (b - a) 0) as [E|_]; [specialize (X 0%nat ltac:(cbn; lia)); cbn in X; lra|].
  f_equal. apply IH. intros i I. apply (X (S i)). cbn in *. lia.
Qed.
Lemma resolve_none d args scale x logs : increasing x -> resolve_ties d args scale x logs = logs.
Proof. intros X. unfold resolve_ties. destruct logs; [reflexivity|]. rewrite ties_none by exact X. reflexivity. Qed.

Lemma finite_pos (l : list R) e : (forall p, In p l -> 0 < p + e) -> finite (map (fun p => nlog (p + e)) l) = map (fun p => ln (p + e)) l.
Proof.
  induction l as [|a l IH]; intros H; [reflexivity|]. unfold finite. cbn [map flat_map]. fold (finite (map (fun p => nlog (p + e)) l)).
  unfold nlog at 1. destruct (Rlt_dec 0 (a + e)) as [_|N]; [|exfalso; apply N; apply H; left; reflexivity]. cbn [app]. rewrite IH by (intros; apply H; right; assumption). reflexivity.
Qed.
Lemma filter_all {A} (p : A -> bool) l : (forall a, In a l -> p a = true) -> filter p l = l.
Proof. induction l as [|a l IH]; intros H; [reflexivity|]. cbn [filter]. rewrite H by (left; reflexivity). rewrite IH by (intros; apply H; right; assumption). reflexivity. Qed.

Lemma gaps_pos F x e : 0 < e -> distribution_function F -> increasing x -> forall p, In p (rdiff (row F x)) -> 0 < p + e.
Proof.
  intros Pe D X p I. apply (In_nth _ _ 0) in I. destruct I as [j [L E]]. rewrite gaps_length in L. rewrite gaps_nth in E by lia. subst p.
  assert (H := spacing_nonneg F x j D X ltac:(lia)). lra.
Qed.

Lemma nlogps_value xmin xmax d z scale args : 0 < xmin -> distribution_function (cdf d args) -> increasing z -> (forall v, In v z -> inside d args v = true) ->
  nlogps_and_penalty xmin xmax d z scale args = - total (List.length z + 1) (fun j => ln (spacing (cdf d args) z j + xmin)).
Proof.
  intros Pe D X IN. unfold nlogps_and_penalty. cbv zeta. rewrite (filter_all _ z IN). unfold log_dprb. rewrite resolve_none by exact X.
  fold (row (cdf d args) z). rewrite finite_pos by (apply gaps_pos; assumption). rewrite !map_length. rewrite !Nat.sub_diag. cbn [Nat.add Nat.ltb Nat.leb].
  rewrite Rplus_0_r. f_equal. rewrite rsum_total, map_length, gaps_length. apply total_ext. intros j I.
  rewrite (nth_indep _ 0 (ln (0 + xmin))) by (rewrite map_length, gaps_length; exact I). rewrite (map_nth (fun p => ln (p + xmin))). rewrite gaps_nth by exact I. reflexivity.
Qed.

Lemma increasing_z loc scale x : 0 < scale -> increasing x -> increasing (map (fun v => (v - loc) / scale) x).
Proof.
  intros P X i I. rewrite map_length in I. rewrite !(nth_indep (map _ x) 0 ((0 - loc) / scale)) by (rewrite map_length; lia). rewrite !(map_nth (fun v => (v - loc) / scale)).
  specialize (X i I). unfold Rdiv. apply Rmult_lt_compat_r; [apply Rinv_0_lt_compat; exact P|lra].
Qed.
Lemma spacing_z F loc scale x j : spacing F (map (fun v => (v - loc) / scale) x) j = spacing (fun v => F ((v - loc) / scale)) x j.
Proof.
  assert (L : forall j, level F (map (fun v => (v - loc) / scale) x) j = level (fun v => F ((v - loc) / scale)) x j).
  { intros [|i]; [reflexivity|]. unfold level. rewrite map_length. destruct (Nat.ltb_spec i (List.length x)); [|reflexivity].
    rewrite (nth_indep (map _ x) 0 ((0 - loc) / scale)) by (rewrite map_length; assumption). rewrite (map_nth (fun v => (v - loc) / scale)). reflexivity. }
  unfold spacing. rewrite !L. reflexivity.
Qed.
Lemma theta_split args (loc scale : R) : List.length (args ++ [loc; scale]) = (List.length args + 2)%nat /\ nth (List.length args) (args ++ [loc; scale]) 0 = loc
  /\ nth (List.length args + 1) (args ++ [loc; scale]) 0 = scale /\ firstn (List.length args) (args ++ [loc; scale]) = args.
Proof.
  rewrite app_length. split; [reflexivity|]. split; [rewrite app_nth2, Nat.sub_diag by lia; reflexivity|]. split.
  - rewrite app_nth2 by lia. replace (List.length args + 1 - List.length args)%nat with 1%nat by lia. reflexivity.
  - rewrite firstn_app, Nat.sub_diag, firstn_all. cbn. apply app_nil_r.
Qed.
Lemma penalized_eq xmin xmax d args loc scale x : penalized_nlogps xmin xmax d (args ++ [loc; scale]) x =
  if (negb (argcheck d args) || (if Rle_dec scale 0 then true else false))%bool then Ok None
  else Ok (Some (nlogps_and_penalty xmin xmax d (map (fun v => (v - loc) / scale) x) scale args)).
Proof.
  unfold penalized_nlogps. cbv zeta. destruct (theta_split args loc scale) as [L [A [B C]]]. rewrite L.
  destruct (Nat.ltb_spec (List.length args + 2) 2); [lia|]. replace (List.length args + 2 - 2)%nat with (List.length args) by lia. replace (List.length args + 2 - 1)%nat with (List.length args + 1)%nat by lia.
  rewrite A, B, C. reflexivity.
Qed.
Lemma penalized_legal xmin xmax d args loc scale x : argcheck d args = true -> 0 < scale ->
  penalized_nlogps xmin xmax d (args ++ [loc; scale]) x = Ok (Some (nlogps_and_penalty xmin xmax d (map (fun v => (v - loc) / scale) x) scale args)).
Proof. intros A P. rewrite penalized_eq, A. destruct (Rle_dec scale 0); [lra|]. reflexivity. Qed.

(* the statistic of an untied sample inside the support *)
Lemma moran_value xmin xmax d args loc scale x : 0 < xmin -> argcheck d args = true -> 0 < scale -> distribution_function (cdf d args) -> increasing x ->
  (forall v, In v x -> inside d args ((v - loc) / scale) = true) ->
  penalized_nlogps xmin xmax d (args ++ [loc; scale]) x = Ok (Some (- total (List.length x + 1) (fun j => ln (spacing (fun v => cdf d args ((v - loc) / scale)) x j + xmin)))).
Proof.
  intros Pe A P D X IN. rewrite penalized_legal by assumption. rewrite nlogps_value; [|exact Pe|exact D|apply increasing_z; assumption|].
  - rewrite map_length. f_equal. f_equal. f_equal. apply total_ext. intros j _. rewrite spacing_z. reflexivity.
  - intros v I. apply in_map_iff in I. destruct I as [w [<- I]]. apply IN. exact I.
Qed.

Lemma df_scaled F loc scale : 0 < scale -> distribution_function F -> distribution_function (fun v => F ((v - loc) / scale)).
Proof.
  intros P [M B]. split; [|intros; apply B]. intros x y L. apply M. unfold Rdiv. apply Rmult_le_compat_r; [left; apply Rinv_0_lt_compat; exact P|lra].
Qed.
Lemma moran_bound xmin xmax d args loc scale x T : 0 < xmin -> argcheck d args = true -> 0 < scale -> distribution_function (cdf d args) -> increasing x ->
  (forall v, In v x -> inside d args ((v - loc) / scale) = true) -> penalized_nlogps xmin xmax d (args ++ [loc; scale]) x = Ok (Some T) ->
  let n := INR (List.length x + 1) in
  - (n * ln (/ n + xmin)) <= T /\
  (T = - (n * ln (/ n + xmin)) <-> forall i, (i < List.length x)%nat -> cdf d args ((nth i x 0 - loc) / scale) = INR (i + 1) / n).
Proof.
  intros Pe A P D X IN E n. rewrite moran_value in E by assumption. assert (Q : forall a b : R, Ok (Some a) = Ok (Some b) -> a = b) by congruence. apply Q in E. clear Q. subst T.
  set (F := fun v => cdf d args ((v - loc) / scale)). assert (DF : distribution_function F) by (apply df_scaled; assumption).
  assert (Pn : 0 < n) by (apply lt_0_INR; lia).
  destruct (log_bound (List.length x + 1) (spacing F x) xmin Pe) as [B EQ]; [intros j I; apply spacing_nonneg; [exact DF|exact X|lia]|apply spacing_sum|lia|].
  fold n in B, EQ. split; [lra|].
  assert (EQ' : total (List.length x + 1) (fun j => ln (spacing F x j + xmin)) = n * ln (/ n + xmin) <-> forall i, (i < List.length x)%nat -> F (nth i x 0) = INR (i + 1) / n).
  { rewrite EQ. split.
    - intros H. assert (K : forall i, (i <= List.length x)%nat -> level F x i = INR i / n).
      { induction i as [|i IH]; intros I; [cbn; field; lra|]. specialize (IH ltac:(lia)). specialize (H i ltac:(lia)). unfold spacing in H. rewrite S_INR. replace ((INR i + 1) / n) with (INR i / n + / n) by (field; lra). lra. }
      intros i I. specialize (K (S i) ltac:(lia)). unfold level in K. destruct (Nat.ltb_spec i (List.length x)); [|lia]. rewrite K. f_equal. f_equal. lia.
    - intros H. assert (K : forall i, (i <= List.length x + 1)%nat -> level F x i = INR i / n).
      { intros [|i] I; [cbn; field; lra|]. unfold level. destruct (Nat.ltb_spec i (List.length x)) as [L|L].
        - rewrite H by exact L. f_equal. f_equal. lia.
        - replace (S i) with (List.length x + 1)%nat by lia. fold n. field. lra. }
      intros j J. unfold spacing. rewrite !K by lia. rewrite S_INR. field. lra. }
  split; intros H.
  - apply EQ'. lra.
  - apply EQ' in H. lra.
Qed.

Lemma moran_product xmin xmax d args loc scale x T : 0 < xmin -> argcheck d args = true -> 0 < scale -> distribution_function (cdf d args) -> increasing x ->
  (forall v, In v x -> inside d args ((v - loc) / scale) = true) -> penalized_nlogps xmin xmax d (args ++ [loc; scale]) x = Ok (Some T) ->
  exp (- T) = product (List.length x + 1) (fun j => spacing (fun v => cdf d args ((v - loc) / scale)) x j + xmin).
Proof.
  intros Pe A P D X IN E. rewrite moran_value in E by assumption. assert (Q : forall a b : R, Ok (Some a) = Ok (Some b) -> a = b) by congruence. apply Q in E. clear Q. subst T.
  rewrite Ropp_involutive. set (F := fun v => cdf d args ((v - loc) / scale)). assert (DF : distribution_function F) by (apply df_scaled; assumption).
  assert (K : forall n, (n <= List.length x + 1)%nat -> exp (total n (fun j => ln (spacing F x j + xmin))) = product n (fun j => spacing F x j + xmin)).
  { induction n as [|n IH]; intros I; [apply exp_0|]. cbn [total product]. rewrite exp_plus, IH by lia. f_equal. apply exp_ln.
    assert (H := spacing_nonneg F x n DF X ltac:(lia)). lra. }
  apply K. lia.
Qed.
