From Coq Require Import Reals ZArith Lra Lia List Bool.
From Verif Require Import Base PolyModel OrthoModel OrthoProofs QuadProofs2 QuadProofs5 SplineProofs ChebProofs2 ChebProofs3 ShiftModel ShiftSpec ShiftProofs DctnModel DctnSpec DctnProofs DctnProofs2.
Import ListNotations.
Local Open Scope R_scope.

(* ---- the separable sums ---- *)
Lemma transformed_in C on1 N : forall dim idx g h, index_of N idx -> (forall js, index_of N js -> g js = h js) -> transformed C on1 dim N idx g = transformed C on1 dim N idx h.
Proof.
  induction N as [|n N IH]; intros dim idx g h Hi E; inversion Hi as [|k ? idx' ? Hk Hb]; subst; cbn [transformed]; [apply E; constructor|]. destruct (on1 dim).
  - apply vsum_ext. intros j Hj. f_equal. apply IH; [exact Hb|]. intros js Hs. apply E. constructor; [exact Hj|exact Hs].
  - apply IH; [exact Hb|]. intros js Hs. apply E. constructor; [exact Hk|exact Hs].
Qed.
Lemma transformed_undo c D C on1 : undoes c D C -> forall N dim idx g, index_of N idx ->
  transformed D on1 dim N idx (fun ks => transformed C on1 dim N ks g) = factor c on1 dim N * g idx.
Proof.
  intros U. induction N as [|n N IH]; intros dim idx g Hi; inversion Hi as [|i ? idx' ? Hk Hb]; subst; cbn [transformed factor]; [ring|]. destruct (on1 dim) eqn:O.
  - rewrite (vsum_ext n _ (fun k => vsum n (fun j => D n i k * C n k j * (factor c on1 (S dim) N * g (j :: idx'))))).
    + rewrite vsum_swap. rewrite (vsum_ext n _ (fun j => if Nat.eq_dec i j then c n * (factor c on1 (S dim) N * g (j :: idx')) else 0)).
      * rewrite vsum_pick by exact Hk. ring.
      * intros j Hj. rewrite (vsum_ext n _ (fun k => (factor c on1 (S dim) N * g (j :: idx')) * (D n i k * C n k j))) by (intros; ring). rewrite vsum_scal, U by assumption. destruct (Nat.eqb_spec i j), (Nat.eq_dec i j); try congruence; ring.
    + intros k Hk'. rewrite transformed_sum. rewrite <- vsum_scal. apply vsum_ext. intros j Hj. rewrite transformed_scal, IH by exact Hb. ring.
  - rewrite IH by exact Hb. ring.
Qed.
Lemma factor_one on1 N : forall dim, factor (fun _ => 1) on1 dim N = 1.
Proof. induction N as [|n N IH]; intros dim; [reflexivity|]. cbn [factor]. rewrite IH. destruct (on1 dim); ring. Qed.

(* ---- the round trip ---- *)
Lemma all_positive s d : Forall (fun v => (1 <= v)%nat) s -> (d < List.length s)%nat -> (1 <= nth d s 0)%nat.
Proof. intros H L. rewrite Forall_forall in H. now apply H, nth_In. Qed.
Lemma undo_keep c D C x axes : undoes c D C -> array_ok x -> shape x <> [] -> good_axes (List.length (shape x)) axes -> Forall (fun v => (1 <= v)%nat) (shape x) ->
  exists y z, transformn C x None axes = Ok y /\ transformn D y None axes = Ok z /\ array_ok z /\ shape z = shape x /\ forall idx, index_of (shape x) idx -> item z idx = Some (factor c (listed axes) 0 (shape x) * entry x idx).
Proof.
  intros U A N G P. destruct (keep_formula C x axes A N G) as (y & E & Ay & Sy & Iy); [intros; now apply all_positive|].
  destruct (keep_formula D y axes Ay) as (z & E2 & Az & Sz & Iz); [congruence|now rewrite Sy|intros; apply all_positive; rewrite ?Sy in *; assumption|]. rewrite Sy in *.
  exists y, z. repeat split; try assumption. intros idx Hi. rewrite Iz by exact Hi. f_equal. rewrite <- (transformed_undo c D C (listed axes) U (shape x) 0 idx (entry x) Hi). apply transformed_in; [exact Hi|]. intros js Hj. assert (I := entry_item y js Ay). rewrite Sy in I. specialize (I Hj). rewrite Iy in I by exact Hj. congruence.
Qed.
Lemma undo_one D C x axes : undoes (fun _ => 1) D C -> array_ok x -> shape x <> [] -> good_axes (List.length (shape x)) axes -> Forall (fun v => (1 <= v)%nat) (shape x) ->
  exists y, transformn C x None axes = Ok y /\ transformn D y None axes = Ok x.
Proof.
  intros U A N G P. destruct (undo_keep _ D C x axes U A N G P) as (y & z & E1 & E2 & Az & Sz & Iz). exists y. split; [exact E1|]. rewrite E2. f_equal. apply array_ext; [exact Az|exact A|exact Sz|]. rewrite Sz. intros idx Hi. rewrite Iz by exact Hi. rewrite factor_one, Rmult_1_l. symmetry. now apply entry_item.
Qed.
Lemma undo_shape D C x n : undoes (fun _ => 1) D C -> array_ok x -> shape x <> [] -> List.length n = List.length (shape x) -> Forall (fun v => (1 <= v)%nat) n ->
  exists y z, transformn C x (Some n) None = Ok y /\ transformn D y None None = Ok z /\ array_ok z /\ shape z = n /\ forall idx, index_of n idx -> item z idx = Some (entry x idx).
Proof.
  intros U A N L P. destruct (shape_formula C x n A N L P) as (y & E & Ay & Sy & Iy). assert (N2 : n <> []) by (destruct n, (shape x); cbn in L; congruence).
  destruct (keep_formula D y None Ay) as (z & E2 & Az & Sz & Iz); [congruence|exact I|intros; apply all_positive; rewrite ?Sy in *; assumption|]. rewrite Sy in *.
  exists y, z. repeat split; try assumption. intros idx Hi. rewrite Iz by exact Hi. f_equal. transitivity (factor (fun _ => 1) (fun _ => true) 0 n * entry x idx); [|rewrite factor_one; ring]. rewrite <- (transformed_undo _ D C (fun _ => true) U n 0 idx (entry x) Hi). apply transformed_in; [exact Hi|]. intros js Hj. assert (I := entry_item y js Ay). rewrite Sy in I. specialize (I Hj). rewrite Iy in I by exact Hj. cbn. congruence.
Qed.

(* ---- energy ---- *)
Fixpoint grid_sum (N : list nat) (h : list nat -> R) : R := match N with [] => h [] | n :: N' => vsum n (fun k => grid_sum N' (fun ks => h (k :: ks))) end.
Lemma grid_ext N : forall g h, (forall js, index_of N js -> g js = h js) -> grid_sum N g = grid_sum N h.
Proof. induction N as [|n N IH]; intros g h H; cbn [grid_sum]; [apply H; constructor|]. apply vsum_ext. intros k Hk. apply IH. intros js Hj. apply H. now constructor. Qed.
Lemma grid_scal c N : forall g, grid_sum N (fun js => c * g js) = c * grid_sum N g.
Proof. induction N as [|n N IH]; intros g; cbn [grid_sum]; [reflexivity|]. rewrite <- vsum_scal. apply vsum_ext. intros k _. apply IH. Qed.
Lemma grid_sums M N : forall g : nat -> list nat -> R, grid_sum N (fun js => vsum M (fun i => g i js)) = vsum M (fun i => grid_sum N (g i)).
Proof. induction N as [|n N IH]; intros g; cbn [grid_sum]; [reflexivity|]. rewrite vsum_swap. apply vsum_ext. intros k _. apply IH. Qed.
Lemma vsum_prod n f g : vsum n f * vsum n g = vsum n (fun i => vsum n (fun j => f i * g j)).
Proof. rewrite (vsum_ext n (fun i => vsum n (fun j => f i * g j)) (fun i => vsum n g * f i)); [rewrite vsum_scal; ring|]. intros i _. rewrite vsum_scal. ring. Qed.
Lemma grid_inner C on1 : undoes (fun _ => 1) (transposed C) C -> forall N dim g h, grid_sum N (fun ks => transformed C on1 dim N ks g * transformed C on1 dim N ks h) = grid_sum N (fun ks => g ks * h ks).
Proof.
  intros U. induction N as [|n N IH]; intros dim g h; cbn [grid_sum transformed]; [reflexivity|]. destruct (on1 dim); [|apply vsum_ext; intros k _; apply IH].
  rewrite (vsum_ext n _ (fun k => vsum n (fun i => vsum n (fun j => C n k i * C n k j * grid_sum N (fun ks => g (i :: ks) * h (j :: ks)))))).
  - rewrite vsum_swap. apply vsum_ext. intros i Hi. rewrite vsum_swap. rewrite (vsum_ext n _ (fun j => if Nat.eq_dec i j then grid_sum N (fun ks => g (i :: ks) * h (j :: ks)) else 0)); [now rewrite vsum_pick by exact Hi|].
    intros j Hj. rewrite (vsum_ext n _ (fun k => grid_sum N (fun ks => g (i :: ks) * h (j :: ks)) * (transposed C n i k * C n k j))) by (intros; unfold transposed; ring). rewrite vsum_scal, U by assumption. destruct (Nat.eqb_spec i j), (Nat.eq_dec i j); try congruence; ring.
  - intros k Hk. rewrite (grid_ext N _ (fun ks => vsum n (fun i => vsum n (fun j => C n k i * C n k j * (transformed C on1 (S dim) N ks (fun js => g (i :: js)) * transformed C on1 (S dim) N ks (fun js => h (j :: js))))))).
    + rewrite grid_sums. apply vsum_ext. intros i _. rewrite grid_sums. apply vsum_ext. intros j _. rewrite grid_scal. now rewrite IH.
    + intros ks _. rewrite vsum_prod. apply vsum_ext. intros i _. apply vsum_ext. intros j _. ring.
Qed.
Lemma fold_vsum l : fold_right (fun v s => v * v + s) 0 l = vsum (List.length l) (fun k => nth k l 0 * nth k l 0).
Proof. induction l as [|v l IH]; [reflexivity|]. cbn [fold_right List.length]. rewrite vsum_first, IH. reflexivity. Qed.
Lemma grid_flat N : forall h, (forall k, h k = h k) -> grid_sum N (fun idx => h (position N idx)) = vsum (product N) h.
Proof.
  induction N as [|n N IH]; intros h H; cbn [grid_sum position product]; [cbn; ring|]. clear H. induction n as [|n IHn]; cbn [vsum Nat.mul]; [reflexivity|].
  rewrite IHn. rewrite (Nat.add_comm (product N)), vsum_app. f_equal. rewrite <- (IH (fun k => h (n * product N + k)%nat)) by reflexivity. reflexivity.
Qed.
Lemma energy_grid (x : ndarray R) : array_ok x -> energy x = grid_sum (shape x) (fun idx => entry x idx * entry x idx).
Proof.
  intros A. unfold energy. rewrite fold_vsum, A, <- (grid_flat _ (fun k => nth k (elements x) 0 * nth k (elements x) 0)) by reflexivity. apply grid_ext. intros js Hj. unfold entry. now rewrite (proj1 (inside_index _ _) Hj).
Qed.
Lemma energy_kept C x axes : undoes (fun _ => 1) (transposed C) C -> array_ok x -> shape x <> [] -> good_axes (List.length (shape x)) axes -> Forall (fun v => (1 <= v)%nat) (shape x) ->
  exists y, transformn C x None axes = Ok y /\ energy y = energy x.
Proof.
  intros U A N G P. destruct (keep_formula C x axes A N G) as (y & E & Ay & Sy & Iy); [intros; now apply all_positive|]. exists y. split; [exact E|]. rewrite !energy_grid by assumption. rewrite Sy. rewrite <- (grid_inner C (listed axes) U (shape x) 0 (entry x) (entry x)). apply grid_ext. intros js Hj. assert (I := entry_item y js Ay). rewrite Sy in I. specialize (I Hj). rewrite Iy in I by exact Hj. assert (Q : forall a b : R, Some a = Some b -> a = b) by congruence. now rewrite <- (Q _ _ I).
Qed.

(* ---- the cosine matrices ---- *)
Lemma sqrt_4n r : 0 < r -> sqrt (1 / (4 * r)) = / (2 * sqrt r).
Proof. intros H. assert (0 < sqrt r) by now apply sqrt_lt_R0. apply sqrt_lem_1; [apply Rlt_le, Rdiv_lt_0_compat; lra|apply Rlt_le, Rinv_0_lt_compat; lra|]. rewrite <- Rinv_mult. replace (2 * sqrt r * (2 * sqrt r)) with (4 * (sqrt r * sqrt r)) by ring. rewrite sqrt_sqrt by lra. field. lra. Qed.
Lemma sqrt_2n r : 0 < r -> sqrt (1 / (2 * r)) = / (sqrt 2 * sqrt r).
Proof. intros H. unfold Rdiv. rewrite Rmult_1_l. rewrite sqrt_inv, sqrt_mult by lra. reflexivity. Qed.
Lemma sqrt_2d r : 0 < r -> sqrt (2 / r) = sqrt 2 / sqrt r.
Proof. intros H. apply sqrt_div; lra. Qed.
Lemma angle2 n k j : (0 < n)%nat -> PI * INR k * (2 * INR j + 1) / (2 * INR n) = INR k * node n j.
Proof. intros H. unfold node. field. apply not_0_INR. lia. Qed.
Lemma angle3 n k j : (0 < n)%nat -> PI * (INR k + 1 / 2) * INR j / INR n = INR j * node n k.
Proof. intros H. unfold node. field. apply not_0_INR. lia. Qed.
Lemma dct_transposed n i k : (0 < n)%nat -> dct2 true n k i = dct3 true n i k.
Proof.
  intros H. assert (P : 0 < INR n) by now apply lt_0_INR. assert (Q : 0 < sqrt (INR n)) by now apply sqrt_lt_R0. unfold dct2, dct3. rewrite angle2, angle3 by exact H. destruct (Nat.eqb_spec k 0) as [->|K].
  - rewrite sqrt_4n by exact P. cbn [INR]. rewrite Rmult_0_l, cos_0. field. lra.
  - rewrite sqrt_2n, sqrt_2d by exact P. assert (0 < sqrt 2) by (apply sqrt_lt_R0; lra). assert (S2 : sqrt 2 * sqrt 2 = 2) by (apply sqrt_sqrt; lra). apply (Rmult_eq_reg_l (sqrt 2)); [|lra]. replace (sqrt 2 * (sqrt 2 / sqrt (INR n) * cos (INR k * node n i))) with (sqrt 2 * sqrt 2 / sqrt (INR n) * cos (INR k * node n i)) by (field; lra). rewrite S2. field. lra.
Qed.
Lemma undo_23 : undoes (fun _ => 1) (dct3 true) (dct2 true).
Proof.
  intros n i j Hi Hj. assert (H : (0 < n)%nat) by lia. assert (P : 0 < INR n) by now apply lt_0_INR. assert (Q : 0 < sqrt (INR n)) by now apply sqrt_lt_R0. assert (Q2 : sqrt (INR n) * sqrt (INR n) = INR n) by (apply sqrt_sqrt; lra).
  rewrite (vsum_ext n _ (fun k => 2 / INR n * (w k * (cos (INR k * node n i) * cos (INR k * node n j))))).
  - rewrite vsum_scal, cos_cos by assumption. destruct (Nat.eqb_spec i j), (Nat.eq_dec i j); try congruence; field; lra.
  - intros k _. rewrite dct_transposed by exact H. unfold dct3. rewrite !angle3 by exact H. destruct k as [|k]; cbn [Nat.eqb w].
    + cbn [INR]. rewrite !Rmult_0_l, cos_0. replace (1 / sqrt (INR n) * (1 / sqrt (INR n))) with (1 / (sqrt (INR n) * sqrt (INR n))) by (field; lra). rewrite Q2. field. lra.
    + assert (SS : sqrt (2 / INR n) * sqrt (2 / INR n) = 2 / INR n) by (apply sqrt_sqrt; apply Rlt_le, Rdiv_lt_0_compat; lra). revert SS. generalize (sqrt (2 / INR n)). intros q SS. rewrite <- SS. ring.
Qed.
Lemma undo_23_raw : undoes (fun n => 2 * INR n) (dct3 false) (dct2 false).
Proof.
  intros n i j Hi Hj. assert (H : (0 < n)%nat) by lia. rewrite (vsum_ext n _ (fun k => 4 * (w k * (cos (INR k * node n i) * cos (INR k * node n j))))).
  - rewrite vsum_scal, cos_cos by assumption. destruct (Nat.eqb_spec i j), (Nat.eq_dec i j); try congruence; field.
  - intros k _. unfold dct3, dct2. rewrite angle3, angle2 by exact H. destruct k as [|k]; cbn [Nat.eqb w]; [cbn [INR]; rewrite !Rmult_0_l, cos_0; field|ring].
Qed.
Lemma cos_rows n a b : (a < n)%nat -> (b < n)%nat -> vsum n (fun k => cos (INR a * node n k) * cos (INR b * node n k)) = if Nat.eq_dec a b then if (a =? 0)%nat then INR n else INR n / 2 else 0.
Proof.
  intros Ha Hb. assert (H : (0 < n)%nat) by lia. assert (P : INR n <> 0) by (apply not_0_INR; lia).
  assert (M : forall m, (m < 2 * n)%nat -> vsum n (fun k => cos (INR m * node n k)) = if (m =? 0)%nat then INR n else 0).
  { intros m Hm. destruct (Nat.eqb_spec m 0) as [->|M0].
    - rewrite (vsum_ext n _ (fun _ => 1)) by (intros; cbn [INR]; now rewrite Rmult_0_l, cos_0). clear. induction n as [|n IH]; cbn [vsum]; [reflexivity|]. rewrite IH, S_INR. ring.
    - rewrite <- (mid_sum n m) by lia. apply vsum_ext. intros k _. f_equal. unfold node. field. exact P. }
  assert (A : forall p q, (q <= p)%nat -> (p < n)%nat -> vsum n (fun k => cos (INR p * node n k) * cos (INR q * node n k)) = (vsum n (fun k => cos (INR (p + q) * node n k)) + vsum n (fun k => cos (INR (p - q) * node n k))) / 2).
  { intros p q Hq Hp. rewrite <- vsum_add. replace (vsum n (fun k => cos (INR (p + q) * node n k) + cos (INR (p - q) * node n k)) / 2) with (/ 2 * vsum n (fun k => cos (INR (p + q) * node n k) + cos (INR (p - q) * node n k))) by field. rewrite <- vsum_scal. apply vsum_ext. intros k _. rewrite cos_prod, plus_INR, minus_INR by exact Hq. rewrite Rmult_plus_distr_r. replace (INR p * node n k - INR q * node n k) with ((INR p - INR q) * node n k) by ring. field. }
  assert (B : forall p q, (q <= p)%nat -> (p < n)%nat -> vsum n (fun k => cos (INR p * node n k) * cos (INR q * node n k)) = if Nat.eq_dec p q then if (p =? 0)%nat then INR n else INR n / 2 else 0).
  { intros p q Hq Hp. rewrite A by assumption. rewrite !M by lia. destruct (Nat.eq_dec p q) as [->|NE]; [rewrite Nat.sub_diag; cbn [Nat.eqb]; destruct (Nat.eqb_spec q 0), (Nat.eqb_spec (q + q) 0); try lia; field|]. destruct (Nat.eqb_spec (p + q) 0), (Nat.eqb_spec (p - q) 0); try lia. field. }
  destruct (le_lt_dec b a) as [L|L]; [now apply B|]. rewrite (vsum_ext n _ (fun k => cos (INR b * node n k) * cos (INR a * node n k))) by (intros; ring). rewrite B by lia. destruct (Nat.eq_dec b a), (Nat.eq_dec a b); try lia. reflexivity.
Qed.
Lemma undo_32 : undoes (fun _ => 1) (dct2 true) (dct3 true).
Proof.
  intros n i j Hi Hj. assert (H : (0 < n)%nat) by lia. assert (P : 0 < INR n) by now apply lt_0_INR. assert (Q : 0 < sqrt (INR n)) by now apply sqrt_lt_R0. assert (Q2 : sqrt (INR n) * sqrt (INR n) = INR n) by (apply sqrt_sqrt; lra).
  set (u := fun k : nat => if (k =? 0)%nat then 1 / sqrt (INR n) else sqrt (2 / INR n)).
  assert (D3 : forall k m, dct3 true n k m = u m * cos (INR m * node n k)). { intros k m. unfold dct3, u. rewrite angle3 by exact H. destruct (Nat.eqb_spec m 0) as [->|]; [cbn [INR]; rewrite Rmult_0_l, cos_0; ring|reflexivity]. }
  rewrite (vsum_ext n _ (fun k => u i * u j * (cos (INR i * node n k) * cos (INR j * node n k)))) by (intros k _; rewrite dct_transposed by exact H; rewrite !D3; ring).
  rewrite vsum_scal, cos_rows by assumption. destruct (Nat.eqb_spec i j), (Nat.eq_dec i j); try congruence; [|ring]. subst j. unfold u. destruct (i =? 0).
  - replace (1 / sqrt (INR n) * (1 / sqrt (INR n))) with (1 / (sqrt (INR n) * sqrt (INR n))) by (field; lra). rewrite Q2. field. lra.
  - rewrite sqrt_sqrt by (apply Rlt_le, Rdiv_lt_0_compat; lra). field. lra.
Qed.
Lemma undo_32_raw : undoes (fun n => 2 * INR n) (dct2 false) (dct3 false).
Proof.
  intros n i j Hi Hj. assert (H : (0 < n)%nat) by lia. set (u := fun k : nat => if (k =? 0)%nat then 1 else 2).
  assert (D3 : forall k m, dct3 false n k m = u m * cos (INR m * node n k)). { intros k m. unfold dct3, u. rewrite angle3 by exact H. destruct (Nat.eqb_spec m 0) as [->|]; [cbn [INR]; rewrite Rmult_0_l, cos_0; ring|reflexivity]. }
  rewrite (vsum_ext n _ (fun k => 2 * u j * (cos (INR i * node n k) * cos (INR j * node n k)))) by (intros k _; unfold dct2; rewrite angle2 by exact H; rewrite !D3; ring).
  rewrite vsum_scal, cos_rows by assumption. destruct (Nat.eqb_spec i j), (Nat.eq_dec i j); try congruence; [|ring]. subst j. unfold u. destruct (i =? 0); field.
Qed.
Lemma undoes_ortho t : undoes (fun _ => 1) (idct t true) (dct t true).
Proof. destruct t; [exact undo_23|exact undo_32]. Qed.
Lemma undoes_raw t : undoes (fun n => 2 * INR n) (idct t false) (dct t false).
Proof. destruct t; [exact undo_23_raw|exact undo_32_raw]. Qed.
Lemma undoes_transposed t : undoes (fun _ => 1) (transposed (dct t true)) (dct t true).
Proof.
  intros n i j Hi Hj. rewrite <- (undoes_ortho t n i j Hi Hj). apply vsum_ext. intros k _. f_equal. unfold transposed. destruct t; cbn [dct idct]; [apply dct_transposed; lia|symmetry; apply dct_transposed; lia].
Qed.

Lemma dctn_inverse t x axes : array_ok x -> shape x <> [] -> good_axes (List.length (shape x)) axes -> Forall (fun v => (1 <= v)%nat) (shape x) ->
  exists y, dctn t true x None axes = Ok y /\ idctn t true y None axes = Ok x.
Proof. exact (undo_one _ _ x axes (undoes_ortho t)). Qed.
Lemma dctn_unscaled t x axes : array_ok x -> shape x <> [] -> good_axes (List.length (shape x)) axes -> Forall (fun v => (1 <= v)%nat) (shape x) ->
  exists y z, dctn t false x None axes = Ok y /\ idctn t false y None axes = Ok z /\ array_ok z /\ shape z = shape x /\ forall idx, index_of (shape x) idx -> item z idx = Some (factor (fun n => 2 * INR n) (listed axes) 0 (shape x) * entry x idx).
Proof. exact (undo_keep _ _ _ x axes (undoes_raw t)). Qed.
Lemma dctn_padded t x n : array_ok x -> shape x <> [] -> List.length n = List.length (shape x) -> Forall (fun v => (1 <= v)%nat) n ->
  exists y z, dctn t true x (Some n) None = Ok y /\ idctn t true y None None = Ok z /\ array_ok z /\ shape z = n /\ forall idx, index_of n idx -> item z idx = Some (entry x idx).
Proof. exact (undo_shape _ _ x n (undoes_ortho t)). Qed.
Lemma dctn_energy t x axes : array_ok x -> shape x <> [] -> good_axes (List.length (shape x)) axes -> Forall (fun v => (1 <= v)%nat) (shape x) ->
  exists y, dctn t true x None axes = Ok y /\ energy y = energy x.
Proof. exact (energy_kept _ x axes (undoes_transposed t)). Qed.
(* the factor in the documentation of type 3 *)
Lemma documented n i : (2 <= n)%nat -> (i < n)%nat -> vsum n (fun k => dct3_documented n i k * dct2 true n k i) < 1.
Proof.
  intros H Hi. assert (H0 : (0 < n)%nat) by lia. assert (P : 2 <= INR n) by (apply (le_INR 2 n) in H; cbn in H; lra). assert (Q : 0 < sqrt (INR n)) by (apply sqrt_lt_R0; lra). assert (Q2 : sqrt (INR n) * sqrt (INR n) = INR n) by (apply sqrt_sqrt; lra).
  assert (S2 : sqrt 2 * sqrt 2 = 2) by (apply sqrt_sqrt; lra). assert (S0 : 0 < sqrt 2) by (apply sqrt_lt_R0; lra). assert (S1 : 1 < sqrt 2) by nra.
  assert (E : vsum n (fun k => sqrt 2 * (dct3_documented n i k * dct2 true n k i)) = vsum n (fun k => dct3 true n i k * dct2 true n k i + (if Nat.eq_dec 0 k then (sqrt 2 - 1) * / INR n else 0))).
  { apply vsum_ext. intros k _. rewrite dct_transposed by exact H0. unfold dct3_documented, dct3. destruct k as [|k]; cbn [Nat.eqb Nat.eq_dec].
    - destruct (Nat.eq_dec 0 0); [|congruence]. replace (1 / sqrt (INR n) * (1 / sqrt (INR n))) with (1 / (sqrt (INR n) * sqrt (INR n))) by (field; lra). rewrite Q2. field. lra.
    - destruct (Nat.eq_dec 0 (S k)); [congruence|]. rewrite Rplus_0_r. replace (sqrt (2 / INR n)) with (sqrt 2 * sqrt (1 / INR n)) by (rewrite <- sqrt_mult_alt by lra; f_equal; field; lra). ring. }
  rewrite vsum_add, (vsum_pick n 0 (fun _ => (sqrt 2 - 1) * / INR n)) in E by lia. rewrite undo_23, Nat.eqb_refl in E by exact Hi. rewrite vsum_scal in E. set (v := vsum n _) in *. clearbody v.
  assert (I2 : / INR n <= / 2) by (apply Rinv_le_contravar; lra). assert (0 < / INR n) by (apply Rinv_0_lt_compat; lra). nra.
Qed.
