(* Linear discretisation. *)
From Coq Require Import Reals List ZArith Lra Lia Bool.
From Verif Require Import Base FilterModel GridModel KdeModel ProcModel DiscModel DiscSpec.
Import ListNotations.
Local Open Scope R_scope.

Lemma interp_cons x0 x1 x f0 f1 f t : interp (x0 :: x1 :: x) (f0 :: f1 :: f) t =
  if Rle_dec t x0 then f0 else if Rle_dec t x1 then f0 + (f1 - f0) / (x1 - x0) * (t - x0) else interp (x1 :: x) (f1 :: f) t.
Proof. reflexivity. Qed.
Lemma increasing_le x : increasing x -> forall i j, (i <= j)%nat -> (j < List.length x)%nat -> nth i x 0 <= nth j x 0.
Proof.
  intros H i j L. induction L as [|j L IH]; intros J; [lra|]. specialize (IH ltac:(lia)). specialize (H j J). lra.
Qed.
Lemma increasing_lt x : increasing x -> forall i j, (i < j)%nat -> (j < List.length x)%nat -> nth i x 0 < nth j x 0.
Proof. intros H i j L J. assert (A := H i ltac:(lia)). assert (B := increasing_le x H (S i) j ltac:(lia) J). lra. Qed.
Lemma interp_gap g : forall x i t, increasing x -> (S i < List.length x)%nat -> nth i x 0 <= t <= nth (S i) x 0 ->
  interp x (map g x) t = chord g (nth i x 0) (nth (S i) x 0) t.
Proof.
  unfold chord. induction x as [|x0 x IH]; intros i t H L B; [cbn in L; lia|]. destruct x as [|x1 x]; [cbn in L; lia|].
  assert (H0 := H 0%nat ltac:(cbn; lia)). cbn [nth] in H0. cbn [map]. rewrite interp_cons.
  destruct i as [|i].
  - cbn [nth] in *. destruct (Rle_dec t x0) as [T|T]; [replace t with x0 by lra; field; lra|]. destruct (Rle_dec t x1); [reflexivity|lra].
  - assert (X1 : x1 <= nth i (x1 :: x) 0) by (apply (increasing_le (x0 :: x1 :: x) H 1 (S i)); [lia|cbn [List.length] in *; lia]).
    change (nth (S i) (x0 :: x1 :: x) 0) with (nth i (x1 :: x) 0) in *. change (nth (S (S i)) (x0 :: x1 :: x) 0) with (nth (S i) (x1 :: x) 0) in *.
    assert (HT : increasing (x1 :: x)) by (intros j J; apply (H (S j)); cbn [List.length] in *; lia).
    destruct (Rle_dec t x0) as [T|T]; [lra|].
    assert (B' : nth i (x1 :: x) 0 <= t <= nth (S i) (x1 :: x) 0) by exact B.
    destruct (Rle_dec t x1) as [T1|T1].
    + assert (EQ : t = x1) by lra. assert (EI : nth i (x1 :: x) 0 = x1) by lra.
      assert (I0 : i = 0%nat). { destruct i as [|i]; [reflexivity|]. assert (Q := increasing_lt _ HT 0 (S i) ltac:(lia) ltac:(cbn [List.length] in *; lia)). cbn [nth] in Q, EI. lra. }
      subst i. assert (H1 := HT 0%nat ltac:(cbn [List.length] in *; lia)). cbn [nth] in *. rewrite EQ. field. split; lra.
    + change (g x1 :: map g x) with (map g (x1 :: x)). apply IH; [exact HT|cbn [List.length] in *; lia|exact B'].
Qed.

Lemma grid_length a b m : List.length (grid a b m) = (m + 1)%nat.
Proof. unfold grid. rewrite map_length, seq_length. reflexivity. Qed.
Lemma grid_nth a b m i : (i <= m)%nat -> nth i (grid a b m) 0 = a + INR i * ((b - a) / INR m).
Proof.
  intros I. unfold grid. set (F := fun i : nat => a + INR i * ((b - a) / INR m)). rewrite (nth_indep _ 0 (F 0%nat)) by (rewrite map_length, seq_length; lia). rewrite map_nth, seq_nth by lia. reflexivity.
Qed.
Lemma grid_increasing a b m : a < b -> (1 <= m)%nat -> increasing (grid a b m).
Proof.
  intros AB M i I. rewrite grid_length in I. rewrite !grid_nth by lia. rewrite S_INR. assert (0 < INR m) by (apply lt_0_INR; lia). assert (0 < (b - a) / INR m) by (apply Rdiv_lt_0_compat; lra). lra.
Qed.
Lemma linspace_grid a b m : (1 <= m)%nat -> linspaceZ a b (Z.of_nat m + 1) = Ok (grid a b m).
Proof.
  intros M. unfold linspaceZ. destruct (Z.ltb_spec (Z.of_nat m + 1) 0); [lia|]. replace (Z.to_nat (Z.of_nat m + 1)) with (m + 1)%nat by lia. unfold linspace, grid. replace (m + 1 - 1)%nat with m by lia. reflexivity.
Qed.

Lemma maxR_spec l : l <> [] -> In (maxR l) l /\ forall v, In v l -> v <= maxR l.
Proof.
  intros N. destruct l as [|a l]; [congruence|]. cbn [maxR]. clear N. revert a. induction l as [|b l IH]; intros a; cbn [fold_left].
  - split; [left; reflexivity|]. intros v [->|[]]. lra.
  - destruct (IH (Rmax a b)) as [I M]. split.
    + destruct I as [E|I]; [|right; right; exact I]. rewrite <- E. unfold Rmax. destruct (Rle_dec a b); [right; left; reflexivity|left; reflexivity].
    + intros v [->|[->|V]]; [|eapply Rle_trans; [apply (Rmax_r a v)|]; apply M; left; reflexivity|apply M; right; exact V].
      eapply Rle_trans; [apply (Rmax_l v b)|]. apply M. left. reflexivity.
Qed.
Lemma amax_ok l : l <> [] -> amax l = Ok (maxR l).
Proof. destruct l; [congruence|reflexivity]. Qed.
Lemma deviation_nonneg tiny tol y0 y : 0 < tiny -> 0 <= tol -> 0 <= deviation tiny tol y0 y.
Proof.
  intros T P. unfold deviation. assert (A := Rabs_pos (y0 - y)). assert (B := Rabs_pos y0). assert (C := Rabs_pos y). apply Rmult_le_pos; [|lra]. apply Rmult_le_pos; [lra|]. left. apply Rinv_0_lt_compat. lra.
Qed.
Lemma deviation_refl tiny tol y : deviation tiny tol y y = 0.
Proof. unfold deviation. replace (y - y) with 0 by ring. rewrite Rabs_R0. unfold Rdiv. ring. Qed.

(* the error the loop computes *)
Lemma loop_error f tiny tol a b m : a < b -> (1 <= m)%nat -> 0 < tiny -> 0 <= tol ->
  exists v, amax (map (fun p => Rabs (fst p - snd p) / (Rabs (fst p) + Rabs (snd p) + tiny + tol)) (combine (map (interp (grid a b m) (map f (grid a b m))) (grid a b (2 * m))) (map f (grid a b (2 * m))))) = Ok v
   /\ middle_error f tiny tol a b m (0.5 * v).
Proof.
  intros AB M T P. set (x := grid a b m). set (D := fun t => 2 * deviation tiny tol (interp x (map f x) t) (f t)).
  replace (map _ (combine _ _)) with (map D (grid a b (2 * m))).
  2:{ generalize (grid a b (2 * m)). induction l as [|t l IH]; [reflexivity|]. cbn [map combine]. rewrite <- IH. f_equal. unfold D, deviation. cbn [fst snd]. field.
      assert (B := Rabs_pos (interp x (map f x) t)). assert (C := Rabs_pos (f t)). lra. }
  set (l := map D (grid a b (2 * m))). assert (NE : l <> []). { intros E. apply (f_equal (@List.length R)) in E. unfold l in E. rewrite map_length, grid_length in E. cbn in E. lia. }
  destruct (maxR_spec l NE) as [I B]. exists (maxR l). split; [apply amax_ok; exact NE|].
  assert (PM : 0 < INR m) by (apply lt_0_INR; lia). set (h := (b - a) / INR m). assert (Ph : 0 < h) by (apply Rdiv_lt_0_compat; lra).
  assert (IX : increasing x) by (apply grid_increasing; assumption).
  assert (N2 : forall k, (k <= 2 * m)%nat -> nth k (grid a b (2 * m)) 0 = a + INR k / 2 * h).
  { intros k K. rewrite grid_nth by exact K. unfold h. rewrite mult_INR. cbn [INR]. field. lra. }
  assert (EV : forall i, (i <= m)%nat -> D (nth (2 * i) (grid a b (2 * m)) 0) = 0).
  { intros i Hi. unfold D. rewrite N2 by lia. replace (a + INR (2 * i) / 2 * h) with (nth i x 0) by (unfold x; rewrite grid_nth by exact Hi; fold h; rewrite mult_INR; cbn [INR]; field).
    replace (interp x (map f x) (nth i x 0)) with (f (nth i x 0)); [rewrite deviation_refl; ring|]. destruct (Nat.eq_dec i m) as [->|Nm].
    - destruct m as [|m']; [lia|]. assert (Q := IX m' ltac:(unfold x; rewrite grid_length; lia)). rewrite (interp_gap f x m') by (try exact IX; try (unfold x; rewrite grid_length; lia); lra). unfold chord. field. lra.
    - assert (Q := IX i ltac:(unfold x; rewrite grid_length; lia)). rewrite (interp_gap f x i) by (try exact IX; try (unfold x; rewrite grid_length; lia); lra). unfold chord. field. lra. }
  assert (OD : forall i, (i < m)%nat -> D (nth (2 * i + 1) (grid a b (2 * m)) 0) = 2 * deviation tiny tol (chord f (a + INR i * h) (a + INR (S i) * h) (a + (INR i + / 2) * h)) (f (a + (INR i + / 2) * h))).
  { intros i Hi. unfold D. rewrite N2 by lia. replace (a + INR (2 * i + 1) / 2 * h) with (a + (INR i + / 2) * h) by (rewrite plus_INR, mult_INR; cbn [INR]; field).
    do 2 f_equal. rewrite (interp_gap f x i).
    - unfold x. rewrite !grid_nth by lia. reflexivity.
    - exact IX.
    - unfold x. rewrite grid_length. lia.
    - unfold x. rewrite !grid_nth by lia. fold h. rewrite S_INR. nra. }
  assert (INL : forall k, (k <= 2 * m)%nat -> In (D (nth k (grid a b (2 * m)) 0)) l) by (intros k K; apply in_map, nth_In; rewrite grid_length; lia).
  unfold middle_error. cbv zeta. fold h. split.
  - intros i Hi. specialize (B _ (INL (2 * i + 1)%nat ltac:(lia))). rewrite OD in B by exact Hi. lra.
  - unfold l in I. apply in_map_iff in I. destruct I as [t [E I]]. apply (In_nth _ _ 0) in I. destruct I as [k [K Ek]]. rewrite grid_length in K. fold l in E.
    destruct (Nat.Even_or_Odd k) as [[i Hi]|[i Hi]].
    + subst k. rewrite <- Ek, EV in E by lia. exists 0%nat. split; [lia|].
      assert (Z0 := B _ (INL (2 * 0 + 1)%nat ltac:(lia))). rewrite OD in Z0 by lia. rewrite <- E in Z0.
      set (dd := deviation _ _ _ _) in *. assert (0 <= dd) by (apply deviation_nonneg; assumption). rewrite <- E. lra.
    + subst k. rewrite <- Ek, OD in E by lia. exists i. split; [lia|]. rewrite <- E. lra.
Qed.

Definition stopped (tol : R) (m0 : nat) (errs : nat -> R) (tries k : nat) : Prop :=
  (5 <= tries + stalls tol errs k)%nat \/ errs k <= tol \/ (2 ^ 20 <= Z.of_nat (2 ^ k * m0) + 1)%Z.
Lemma linear_run f tiny tol a b : a < b -> 0 < tiny -> 0 <= tol -> forall fuel m err tries, (1 <= m)%nat -> (2 ^ 20 <= 2 ^ Z.of_nat fuel * Z.of_nat m)%Z ->
  exists K errs, (K <= fuel)%nat /\ errs 0%nat = err /\ linear_loop (S fuel) f tiny tol a b (Z.of_nat m + 1) (grid a b m) (map f (grid a b m)) err tries = Ok (grid a b (2 ^ K * m), map f (grid a b (2 ^ K * m))) /\
   (forall k, (k < K)%nat -> middle_error f tiny tol a b (2 ^ k * m) (errs (S k)) /\ ~ stopped tol m errs tries k) /\ stopped tol m errs tries K.
Proof.
  intros AB T P. induction fuel as [|fuel IH]; intros m err tries M F.
  - exists 0%nat, (fun _ => err). split; [lia|]. split; [reflexivity|]. replace (2 ^ 0 * m)%nat with m by (cbn; lia). split.
    + cbn [linear_loop]. destruct (Z.ltb_spec (Z.of_nat m + 1) (2 ^ 20)) as [Q|Q]; [exfalso; change (2 ^ Z.of_nat 0)%Z with 1%Z in F; lia|]. rewrite andb_false_r. reflexivity.
    + split; [intros k K; lia|]. right. right. replace (2 ^ 0 * m)%nat with m by (cbn; lia). change (2 ^ Z.of_nat 0)%Z with 1%Z in F. lia.
  - remember (S fuel) as fuel1 eqn:EF. cbn [linear_loop]. subst fuel1. destruct ((tries <? 5)%nat && gtb err tol && (Z.of_nat m + 1 <? 2 ^ 20)%Z)%bool eqn:C.
    + apply andb_true_iff in C. destruct C as [C C3]. apply andb_true_iff in C. destruct C as [C1 C2]. apply Nat.ltb_lt in C1. apply Z.ltb_lt in C3. unfold gtb in C2. destruct (Rlt_dec tol err) as [C2'|]; [|discriminate]. clear C2.
      replace (2 * (Z.of_nat m + 1 - 1) + 1)%Z with (Z.of_nat (2 * m) + 1)%Z by lia. cbv zeta. rewrite linspace_grid by lia. cbn [bind].
      destruct (loop_error f tiny tol a b m AB M T P) as [v [-> ME]]. cbn [bind].
      destruct (IH (2 * m)%nat (0.5 * v) (tries + (if leb (Rabs (0.5 * v - err)) (tol / 2) then 1 else 0))%nat ltac:(lia)) as [K [errs [HK [E0 [ER [H1 H2]]]]]].
      { rewrite Nat2Z.inj_succ, Z.pow_succ_r in F by lia. lia. }
      exists (S K), (fun k => match k with O => err | S k' => errs k' end). split; [lia|]. split; [reflexivity|].
      assert (PW : forall k, (2 ^ k * (2 * m) = 2 ^ S k * m)%nat) by (intros k; rewrite Nat.pow_succ_r'; lia).
      assert (ST : forall k, stopped tol (2 * m) errs (tries + (if leb (Rabs (0.5 * v - err)) (tol / 2) then 1 else 0)) k <-> stopped tol m (fun k => match k with O => err | S k' => errs k' end) tries (S k)).
      { intros k. unfold stopped. rewrite PW. cbn [stalls]. rewrite E0. unfold leb. replace (stalls tol (fun j : nat => errs j) k) with (stalls tol errs k) by reflexivity. rewrite Nat.add_assoc. destruct (Rle_dec (Rabs (0.5 * v - err)) (tol / 2)); reflexivity. }
      split; [rewrite ER, PW; reflexivity|]. split.
      * intros [|k] Hk.
        -- split; [rewrite E0; replace (2 ^ 0 * m)%nat with m by (cbn; lia); exact ME|]. intros [Q|[Q|Q]]; cbn [stalls] in Q; [lia|lra|]. replace (2 ^ 0 * m)%nat with m in Q by (cbn; lia). lia.
        -- destruct (H1 k ltac:(lia)) as [X Y]. split; [rewrite <- PW; exact X|]. intros Q. apply Y. apply ST. exact Q.
      * apply ST. exact H2.
    + exists 0%nat, (fun _ => err). split; [lia|]. split; [reflexivity|]. replace (2 ^ 0 * m)%nat with m by (cbn; lia). split; [reflexivity|]. split; [intros k K; lia|].
      unfold stopped. replace (2 ^ 0 * m)%nat with m by (cbn; lia). cbn [stalls]. rewrite Nat.add_0_r. apply andb_false_iff in C. destruct C as [C|C].
      * apply andb_false_iff in C. destruct C as [C|C]; [left; apply Nat.ltb_ge in C; exact C|]. right. left. unfold gtb in C. destruct (Rlt_dec tol err); [discriminate|lra].
      * right. right. apply Z.ltb_ge in C. exact C.
Qed.
