From Coq Require Import Reals ZArith Lra Lia List Bool.
From Verif Require Import Base PolyModel OrthoModel OrthoProofs QuadProofs2 SplineProofs ShiftModel ShiftSpec ShiftProofs DctnModel DctnSpec.
Import ListNotations.
Local Open Scope R_scope.

Lemma position_snoc s : forall p m j, List.length p = List.length s -> position (s ++ [m]) (p ++ [j]) = (position s p * m + j)%nat.
Proof.
  induction s as [|n s IH]; intros [|i p] m j L; try discriminate; [cbn; lia|]. cbn [app position]. rewrite IH by (cbn in L; lia). rewrite product_app. cbn [product]. lia.
Qed.
Lemma index_length s p : index_of s p -> List.length p = List.length s.
Proof. intros H. now apply Forall2_length in H || (induction H; cbn; congruence). Qed.
Lemma index_snoc s p m j : index_of s p -> (j < m)%nat -> index_of (s ++ [m]) (p ++ [j]).
Proof. intros H Hj. apply Forall2_app; [exact H|]. now constructor. Qed.
Lemma inside_index s : forall idx, index_of s idx <-> inside s idx = true.
Proof.
  induction s as [|n s IH]; intros [|i idx]; split; intros H; try reflexivity; try (inversion H; fail); try constructor; cbn in *.
  - inversion H; subst. apply andb_true_iff. split; [now apply Nat.ltb_lt|]. now apply IH.
  - apply andb_true_iff in H as [H _]. now apply Nat.ltb_lt.
  - apply andb_true_iff in H as [_ H]. now apply IH.
Qed.
Lemma inside_at a : forall js j m q b, List.length js = List.length a -> (m <= j)%nat -> inside (a ++ m :: b) (js ++ j :: q) = false.
Proof.
  induction a as [|n a IH]; intros [|i js] j m q b L H; try discriminate; cbn [app inside].
  - assert ((j <? m)%nat = false) as -> by (apply Nat.ltb_ge; exact H). reflexivity.
  - rewrite IH by (cbn in L; lia || exact H). apply andb_false_r.
Qed.
Lemma entry_item (x : ndarray R) idx : array_ok x -> index_of (shape x) idx -> item x idx = Some (entry x idx).
Proof.
  intros A H. unfold item, entry. rewrite (proj1 (inside_index _ _) H). rewrite (nth_error_nth' _ 0); [reflexivity|]. rewrite A. now apply position_bound.
Qed.
Lemma entry_out (x : ndarray R) idx : inside (shape x) idx = false -> entry x idx = 0.
Proof. intros H. unfold entry. now rewrite H. Qed.

Lemma fit_length n row : List.length (fit n row) = n.
Proof. unfold fit. rewrite app_length, firstn_length, repeat_length. lia. Qed.
Lemma fit_nth n row j : (j < n)%nat -> nth j (fit n row) 0 = nth j row 0.
Proof.
  intros H. unfold fit. destruct (Nat.lt_ge_cases j (List.length row)) as [L|L].
  - rewrite app_nth1 by (rewrite firstn_length; lia). rewrite <- (firstn_skipn n row) at 2. rewrite app_nth1 by (rewrite firstn_length; lia). reflexivity.
  - rewrite app_nth2 by (rewrite firstn_length; lia). rewrite (nth_overflow row) by exact L. apply nth_repeat.
Qed.
Lemma apply_length C n row : List.length (apply_matrix C n row) = n.
Proof. unfold apply_matrix. now rewrite map_length, seq_length. Qed.
Lemma apply_nth C n row k : (k < n)%nat -> nth k (apply_matrix C n row) 0 = vsum n (fun j => C n k j * nth j row 0).
Proof.
  intros H. unfold apply_matrix. rewrite (nth_indep _ 0 ((fun k => vsum n (fun j => C n k j * nth j (fit n row) 0)) 0%nat)) by (now rewrite map_length, seq_length).
  rewrite (map_nth (fun k => vsum n (fun j => C n k j * nth j (fit n row) 0))), seq_nth by exact H. apply vsum_ext. intros j Hj. now rewrite fit_nth.
Qed.
Lemma flat_const (f : nat -> list R) n k : forall c a, (forall p, List.length (f p) = n) -> (k < n)%nat -> forall p, (p < c)%nat -> nth (p * n + k) (flat_map f (seq a c)) 0 = nth k (f (a + p)%nat) 0.
Proof.
  induction c as [|c IH]; intros a L K p P; [lia|]. cbn [seq flat_map]. destruct p as [|p].
  - rewrite app_nth1 by (rewrite L; lia). now rewrite Nat.add_0_r.
  - rewrite app_nth2 by (rewrite L; cbn; lia). rewrite L. replace (S p * n + k - n)%nat with (p * n + k)%nat by (cbn; lia). rewrite IH by (easy || lia). f_equal. f_equal. lia.
Qed.
Lemma flat_const_length (f : nat -> list R) n : forall c a, (forall p, List.length (f p) = n) -> List.length (flat_map f (seq a c)) = (c * n)%nat.
Proof. induction c as [|c IH]; intros a L; [reflexivity|]. cbn [seq flat_map]. rewrite app_length, IH, L by exact L. lia. Qed.
Lemma row_nth (l : list R) q m j : (j < m)%nat -> nth j (firstn m (skipn q l)) 0 = nth (q + j) l 0.
Proof.
  intros H. assert (S : forall (l : list R) q j, nth j (skipn q l) 0 = nth (q + j) l 0) by (clear; induction l as [|a l IH]; intros [|q] j; cbn; try reflexivity; [now destruct j|apply IH]).
  destruct (Nat.lt_ge_cases j (List.length (skipn q l))) as [L|L].
  - rewrite <- S. rewrite <- (firstn_skipn m (skipn q l)) at 2. rewrite app_nth1 by (rewrite firstn_length; lia). reflexivity.
  - rewrite nth_overflow by (rewrite firstn_length; lia). rewrite <- S. now rewrite nth_overflow.
Qed.
Lemma along_ok C n (x : ndarray R) s m (v : list nat -> nat -> R) : array_ok x -> shape x = s ++ [m] -> (1 <= n)%nat ->
  (forall p j, index_of s p -> (j < m)%nat -> item x (p ++ [j]) = Some (v p j)) ->
  exists y, along_last C n x = Ok y /\ array_ok y /\ shape y = s ++ [n] /\
    forall p k, index_of s p -> (k < n)%nat -> item y (p ++ [k]) = Some (vsum n (fun j => C n k j * (if (j <? m)%nat then v p j else 0))).
Proof.
  intros A Sx N V. unfold along_last. destruct (n =? 0) eqn:E; [apply Nat.eqb_eq in E; lia|]. rewrite Sx, removelast_last, last_last. cbv zeta.
  set (f := fun p => apply_matrix C n (firstn m (skipn (p * m) (elements x)))). assert (Lf : forall p, List.length (f p) = n) by (intros p; apply apply_length).
  eexists. split; [reflexivity|]. split; [|split; [reflexivity|]].
  - unfold array_ok. cbn [elements shape]. rewrite (flat_const_length f n) by exact Lf. rewrite product_app. cbn [product]. lia.
  - intros p k Hp Hk. unfold item. cbn [shape elements]. rewrite position_snoc by now apply index_length. assert (B : (position s p < product s)%nat) by now apply position_bound.
    rewrite (nth_error_nth' _ 0) by (rewrite (flat_const_length f n) by exact Lf; nia). f_equal. rewrite (flat_const f n k (product s) 0 Lf Hk (position s p) B). cbn [Nat.add]. unfold f. rewrite apply_nth by exact Hk. apply vsum_ext. intros j Hj. f_equal. destruct (j <? m) eqn:J.
    + apply Nat.ltb_lt in J. rewrite row_nth by exact J. specialize (V p j Hp J). unfold item in V. rewrite Sx, position_snoc in V by now apply index_length. now apply nth_error_nth.
    + apply Nat.ltb_ge in J. apply nth_overflow. rewrite firstn_length. lia.
Qed.

(* ---- the separable transform ---- *)
Lemma transformed_ext C on N : forall dim idx g h, List.length idx = List.length N -> (forall js, List.length js = List.length N -> g js = h js) -> transformed C on dim N idx g = transformed C on dim N idx h.
Proof.
  induction N as [|n N IH]; intros dim [|k idx] g h L E; try discriminate; cbn [transformed]; [now apply E|]. destruct (on dim).
  - apply vsum_ext. intros j Hj. f_equal. apply IH; [cbn in L; lia|]. intros js Hs. apply E. cbn. lia.
  - apply IH; [cbn in L; lia|]. intros js Hs. apply E. cbn. lia.
Qed.
Lemma transformed_scal C on c N : forall dim idx g, transformed C on dim N idx (fun js => c * g js) = c * transformed C on dim N idx g.
Proof.
  induction N as [|n N IH]; intros dim [|k idx] g; cbn [transformed]; try reflexivity. destruct (on dim).
  - rewrite <- vsum_scal. apply vsum_ext. intros j Hj. rewrite (IH (S dim) idx (fun js => g (j :: js))). ring.
  - apply (IH (S dim) idx (fun js => g (k :: js))).
Qed.
Lemma transformed_sum C on M N : forall dim idx (g : nat -> list nat -> R), transformed C on dim N idx (fun js => vsum M (fun i => g i js)) = vsum M (fun i => transformed C on dim N idx (g i)).
Proof.
  induction N as [|n N IH]; intros dim [|k idx] g; cbn [transformed]; try reflexivity. destruct (on dim).
  - rewrite vsum_exchange. apply vsum_ext. intros j Hj. rewrite (IH (S dim) idx (fun i js => g i (j :: js))). now rewrite vsum_scal.
  - apply (IH (S dim) idx (fun i js => g i (k :: js))).
Qed.
Lemma transformed_zero C on N dim idx g : List.length idx = List.length N -> (forall js, List.length js = List.length N -> g js = 0) -> transformed C on dim N idx g = 0.
Proof. intros L H. rewrite (transformed_ext C on N dim idx g (fun js => 0 * g js) L) by (intros js Hs; rewrite (H js Hs); ring). rewrite transformed_scal. ring. Qed.
Lemma transformed_snoc C on N : forall dim idx n k g, List.length idx = List.length N ->
  transformed C on dim (N ++ [n]) (idx ++ [k]) g = transformed C on dim N idx (fun js => if on (dim + List.length N)%nat then vsum n (fun j => C n k j * g (js ++ [j])) else g (js ++ [k])).
Proof.
  induction N as [|m N IH]; intros dim [|i idx] n k g L; try discriminate.
  - cbn [app transformed List.length]. rewrite Nat.add_0_r. destruct (on dim); reflexivity.
  - cbn [app transformed List.length]. replace (dim + S (List.length N))%nat with (S dim + List.length N)%nat by lia. destruct (on dim).
    + apply vsum_ext. intros j Hj. f_equal. rewrite IH by (cbn in L; lia). reflexivity.
    + rewrite IH by (cbn in L; lia). reflexivity.
Qed.

(* ---- the loop ---- *)
Fixpoint new_shape (new : list nat) (axes : list Z) (dim : nat) (Q : list nat) : list nat :=
  match Q with [] => [] | m :: Q' => (match axis_index (Z.of_nat dim) axes with None => m | Some i => nth i new 0%nat end) :: new_shape new axes (S dim) Q' end.
Definition on (axes : list Z) (dim : nat) : bool := match axis_index (Z.of_nat dim) axes with None => false | Some _ => true end.
Lemma on_listed axes dim : on axes dim = existsb (Z.eqb (Z.of_nat dim)) axes.
Proof.
  unfold on. induction axes as [|a axes IH]; [reflexivity|]. cbn [axis_index existsb]. rewrite (Z.eqb_sym (Z.of_nat dim) a). destruct (a =? Z.of_nat dim)%Z; [reflexivity|]. cbn [orb]. rewrite <- IH. destruct (axis_index (Z.of_nat dim) axes); reflexivity.
Qed.
Lemma left_shift_one (m : nat) l : left_shift 1 (m :: l) = l ++ [m].
Proof. reflexivity. Qed.
Lemma upd_mid (P : list nat) m Q n : upd (P ++ m :: Q) (List.length P) n = P ++ n :: Q.
Proof.
  unfold upd. rewrite firstn_app, Nat.sub_diag, firstn_all. cbn [firstn]. rewrite app_nil_r. f_equal. f_equal. rewrite skipn_app, skipn_all2 by lia. replace (S (List.length P) - List.length P)%nat with 1%nat by lia. reflexivity.
Qed.
Lemma loop_ok C new axes g Q : forall P P0 y, array_ok y -> shape y = Q ++ P -> List.length P0 = List.length P ->
  (forall js, inside (P0 ++ Q) js = false -> g js = 0) ->
  (forall q p, index_of Q q -> index_of P p -> item y (q ++ p) = Some (transformed C (on axes) 0 P p (fun js => g (js ++ q)))) ->
  (forall d i, (List.length P <= d < List.length P + List.length Q)%nat -> axis_index (Z.of_nat d) axes = Some i -> (1 <= nth i new 0)%nat) ->
  exists y', each_axis C new axes (List.length Q) (List.length P) y (P ++ Q) = Ok (y', P ++ new_shape new axes (List.length P) Q) /\ array_ok y' /\ shape y' = P ++ new_shape new axes (List.length P) Q /\
    forall idx, index_of (shape y') idx -> item y' idx = Some (transformed C (on axes) 0 (shape y') idx g).
Proof.
  induction Q as [|m Q IH]; intros P P0 y A Sy L0 G V H.
  - exists y. cbn [List.length each_axis new_shape]. rewrite app_nil_r. cbn [app] in Sy. split; [reflexivity|]. split; [exact A|]. split; [exact Sy|]. rewrite Sy. intros idx Hi. specialize (V [] idx (Forall2_nil _) Hi). cbn [app] in V. rewrite V. f_equal. apply transformed_ext; [now apply index_length|]. intros js _. now rewrite app_nil_r.
  - cbn [List.length each_axis new_shape]. destruct (shift_spec y 1 A) as (y1 & E1 & A1 & S1 & I1). change (Z.of_nat 1) with 1%Z in E1. rewrite E1. cbn [bind]. rewrite Sy in S1, I1. change ((m :: Q) ++ P) with (m :: Q ++ P) in S1, I1. rewrite left_shift_one in S1.
    assert (V1 : forall r j, index_of (Q ++ P) r -> (j < m)%nat -> item y1 (r ++ [j]) = item y (j :: r)). { intros r j Hr Hj. rewrite <- (I1 (j :: r)) by (constructor; assumption). reflexivity. }
    assert (SP : forall r, index_of (Q ++ P) r -> exists q p, r = q ++ p /\ index_of Q q /\ index_of P p). { intros r Hr. apply Forall2_app_inv_r in Hr as (q & p & Hq & Hp & ->). now exists q, p. }
    assert (SP' : forall r k n, index_of (Q ++ P ++ [n]) (r ++ [k]) -> index_of (Q ++ P) r /\ (k < n)%nat). { intros r k n Hr. rewrite app_assoc in Hr. apply Forall2_app_inv_r in Hr as (a & b & Ha & Hb & Eq). inversion Hb as [|? ? ? ? Hk Hn]; subst. inversion Hn; subst. apply app_inj_tail in Eq as [-> ->]. now split. }
    destruct (axis_index (Z.of_nat (List.length P)) axes) as [i|] eqn:AI.
    + set (n := nth i new 0%nat). assert (N1 : (1 <= n)%nat) by (apply (H (List.length P) i); [cbn; lia|exact AI]).
      destruct (along_ok C n y1 (Q ++ P) m (fun r j => match item y (j :: r) with Some v => v | None => 0 end) A1) as (y2 & E2 & A2 & S2 & I2).
      * rewrite S1. reflexivity.
      * exact N1.
      * intros r j Hr Hj. rewrite V1 by assumption. destruct (SP r Hr) as (q & p & -> & Hq & Hp). change (j :: q ++ p) with ((j :: q) ++ p). rewrite (V (j :: q) p) by (assumption || (constructor; assumption)). reflexivity.
      * rewrite E2. cbn [bind]. rewrite upd_mid. destruct (IH (P ++ [n]) (P0 ++ [m]) y2) as (y' & E' & A' & S' & I').
        -- exact A2.
        -- rewrite S2. now rewrite <- app_assoc.
        -- rewrite !app_length. cbn. lia.
        -- intros js Hj. apply G. rewrite <- Hj. rewrite <- app_assoc. reflexivity.
        -- intros q p Hq Hp. apply Forall2_app_inv_r in Hp as (p' & kk & Hp' & Hk & ->). inversion Hk as [|k ? ? ? Hk1 Hk2]; subst. inversion Hk2; subst. rewrite app_assoc. rewrite I2; [|apply Forall2_app; assumption|exact Hk1]. f_equal. rewrite transformed_snoc by now apply index_length. cbn [Nat.add]. assert (O : on axes (List.length P) = true) by (unfold on; now rewrite AI). rewrite O. rewrite transformed_sum. apply vsum_ext. intros j Hj. rewrite transformed_scal. f_equal. destruct (j <? m) eqn:J.
           ++ apply Nat.ltb_lt in J. change (j :: q ++ p') with ((j :: q) ++ p'). rewrite (V (j :: q) p') by (assumption || (constructor; assumption)). apply transformed_ext; [now apply index_length|]. intros js _. rewrite <- app_assoc. reflexivity.
           ++ apply Nat.ltb_ge in J. symmetry. apply transformed_zero; [now apply index_length|]. intros js Hs. rewrite <- app_assoc. cbn [app]. apply G. apply inside_at; [lia|exact J].
        -- intros d i0 Hd Hi. apply (H d i0); [rewrite app_length in Hd; cbn in *; lia|exact Hi].
        -- rewrite app_length in E', S'. cbn [List.length] in E', S'. rewrite Nat.add_1_r in E', S'. rewrite <- !app_assoc in E'. rewrite <- app_assoc in S'. cbn [app] in E', S'. exists y'. split; [exact E'|]. split; [exact A'|]. split; [exact S'|exact I'].
    + destruct (IH (P ++ [m]) (P0 ++ [m]) y1) as (y' & E' & A' & S' & I').
      * exact A1.
      * rewrite S1. now rewrite <- app_assoc.
      * rewrite !app_length. cbn. lia.
      * intros js Hj. apply G. rewrite <- Hj. rewrite <- app_assoc. reflexivity.
      * intros q p Hq Hp. apply Forall2_app_inv_r in Hp as (p' & kk & Hp' & Hk & ->). inversion Hk as [|k ? ? ? Hk1 Hk2]; subst. inversion Hk2; subst. rewrite app_assoc. rewrite V1; [|apply Forall2_app; assumption|exact Hk1]. change (k :: q ++ p') with ((k :: q) ++ p'). rewrite (V (k :: q) p') by (assumption || (constructor; assumption)). f_equal. rewrite transformed_snoc by now apply index_length. cbn [Nat.add]. assert (O : on axes (List.length P) = false) by (unfold on; now rewrite AI). rewrite O. apply transformed_ext; [now apply index_length|]. intros js _. rewrite <- app_assoc. reflexivity.
      * intros d i0 Hd Hi. apply (H d i0); [rewrite app_length in Hd; cbn in *; lia|exact Hi].
      * rewrite app_length in E', S'. cbn [List.length] in E', S'. rewrite Nat.add_1_r in E', S'. rewrite <- !app_assoc in E'. rewrite <- app_assoc in S'. cbn [app] in E', S'. exists y'. split; [exact E'|]. split; [exact A'|]. split; [exact S'|exact I'].
Qed.
