From Coq Require Import Reals Lra Lia Psatz.
From Verif Require Import Base PolyModel KdeModel OrthoModel OrthoProofs ChebSpec ChebProofs ChebProofs2 ChebProofs3 SplineSpec SplineProofs LinAlg ProcModel PaduaModel PaduaSpec PaduaProofs PaduaProofs2 PaduaProofs3.
Local Open Scope R_scope.

Definition mask (n : nat) (c : nat -> nat -> R) (k l : nat) : R := if (k + l <=? n)%nat then c k l else 0.
Lemma pick1 N k g : (k < N)%nat -> vsum N (fun k' => g k' * same k k') = g k.
Proof. intros H. rewrite (vsum_ext _ _ (fun k' => if (k =? k')%nat then g k' else 0)). { rewrite vsum_pick_at. now assert ((k <? N)%nat = true) as -> by now apply Nat.ltb_lt. } intros k' _. unfold same. destruct (k =? k')%nat; ring. Qed.
Lemma pick2 n k l g : (k <= n)%nat -> (l <= n)%nat -> vsum (n + 1) (fun k' => vsum (n + 1) (fun l' => g k' l' * (same k k' * same l l'))) = g k l.
Proof.
  intros Hk Hl. rewrite (vsum_ext _ _ (fun k' => g k' l * same k k')); [now rewrite pick1 by lia|]. intros k' _.
  rewrite (vsum_ext _ _ (fun l' => g k' l' * same k k' * same l l')) by (intros; ring). now rewrite (pick1 _ l (fun l' => g k' l' * same k k')) by lia.
Qed.
Lemma pick2' n k l g : (k <= n)%nat -> (l <= n)%nat -> vsum (n + 1) (fun k' => vsum (n + 1) (fun l' => same k' k * same l' l * g k' l')) = g k l.
Proof. intros Hk Hl. rewrite <- (pick2 n k l g) by easy. apply vsum_ext. intros k' _. apply vsum_ext. intros l' _. unfold same. rewrite (Nat.eqb_sym k' k), (Nat.eqb_sym l' l). ring. Qed.
Lemma at_node_series n dom c j i : (1 <= n)%nat -> rectangle dom ->
  at_node n dom (cheb_series n c dom) j i = vsum (n + 1) (fun k => vsum (n + 1) (fun l => c k l * (scal k * cos (INR k * theta n j) * (scal l * cos (INR l * theta (n + 1) i))))).
Proof.
  intros Hn Rd. destruct dom as [[[a b] c1] d]. destruct Rd as (A & B). unfold at_node, padua_node, cheb_series. apply vsum_ext. intros k _. apply vsum_ext. intros l _.
  now rewrite !that_node by (easy || lia).
Qed.
Lemma coefs_series n dom c k l : (1 <= n)%nat -> rectangle dom -> (k <= n)%nat -> (l <= n)%nat -> coefs n (at_node n dom (cheb_series n (mask n c) dom)) k l = mask n c k l.
Proof.
  intros Hn Rd Hk Hl.
  rewrite (coefs_ext n _ (fun j i => vsum (n + 1) (fun k => vsum (n + 1) (fun l => mask n c k l * (scal k * cos (INR k * theta n j) * (scal l * cos (INR l * theta (n + 1) i))))))) by (intros; now apply at_node_series).
  rewrite (coefs_sum n (n + 1) (fun k j i => vsum (n + 1) (fun l => mask n c k l * (scal k * cos (INR k * theta n j) * (scal l * cos (INR l * theta (n + 1) i)))))).
  unfold coefs. destruct (Nat.leb_spec (k + l) n) as [L|L].
  2:{ unfold mask at 1. apply Nat.leb_gt in L. rewrite L. now apply vsum_0. }
  rewrite <- (pick2 n k l (mask n c)) by easy. apply vsum_ext. intros k' Hk'.
  pose proof (coefs_sum n (n + 1) (fun l0 j i => mask n c k' l0 * (scal k' * cos (INR k' * theta n j) * (scal l0 * cos (INR l0 * theta (n + 1) i)))) k l) as E. unfold coefs in E at 1.
  assert (L2 := L). apply Nat.leb_le in L2. rewrite L2 in E. rewrite E. apply vsum_ext. intros l' Hl'. rewrite coefs_scal. unfold mask. destruct (Nat.leb_spec (k' + l') n) as [L'|L']; [|ring]. unfold coefs. rewrite L2. now rewrite coef_basis by easy.
Qed.

(* ---- the span of the basis ---- *)
Definition spanned (n : nat) (dom : domain) (f : R -> R -> R) : Prop := exists c, forall x y, f x y = cheb_series n (mask n c) dom x y.
Lemma spanned_ext n dom f g : (forall x y, f x y = g x y) -> spanned n dom g -> spanned n dom f.
Proof. intros H (c & C). exists c. intros. now rewrite H. Qed.
Lemma spanned_add n dom f g : spanned n dom f -> spanned n dom g -> spanned n dom (fun x y => f x y + g x y).
Proof.
  intros (c & C) (d & D). exists (fun k l => c k l + d k l). intros x y. rewrite C, D. destruct dom as [[[a b] c1] e]. unfold cheb_series. rewrite <- vsum_add. apply vsum_ext. intros k _. rewrite <- vsum_add. apply vsum_ext. intros l _. unfold mask. destruct (_ <=? _)%nat; ring.
Qed.
Lemma spanned_scal n dom s f : spanned n dom f -> spanned n dom (fun x y => s * f x y).
Proof.
  intros (c & C). exists (fun k l => s * c k l). intros x y. rewrite C. destruct dom as [[[a b] c1] e]. unfold cheb_series. rewrite <- vsum_scal. apply vsum_ext. intros k _. rewrite <- vsum_scal. apply vsum_ext. intros l _. unfold mask. destruct (_ <=? _)%nat; ring.
Qed.
Lemma spanned_zero n dom : spanned n dom (fun _ _ => 0).
Proof. exists (fun _ _ => 0). intros x y. destruct dom as [[[a b] c1] e]. unfold cheb_series. symmetry. apply vsum_0. intros. apply vsum_0. intros. unfold mask. destruct (_ <=? _)%nat; ring. Qed.
Lemma spanned_sum n dom N (f : nat -> R -> R -> R) : (forall q, (q < N)%nat -> spanned n dom (f q)) -> spanned n dom (fun x y => vsum N (fun q => f q x y)).
Proof. induction N; intros H; cbn [vsum]; [apply spanned_zero|]. apply spanned_add; [|apply H; lia]. apply IHN. intros; apply H; lia. Qed.
Lemma spanned_basis n a b c d k l : (k + l <= n)%nat -> spanned n (a, b, c, d) (fun x y => that k x a b * that l y c d).
Proof.
  intros H. exists (fun k' l' => same k' k * same l' l). intros x y. unfold cheb_series. rewrite <- (pick2' n k l (fun k l => that k x a b * that l y c d)) by lia. apply vsum_ext. intros k' _. apply vsum_ext. intros l' _.
  unfold mask, same. destruct (Nat.leb_spec (k' + l') n); [reflexivity|]. destruct (Nat.eqb_spec k' k); destruct (Nat.eqb_spec l' l); subst; try ring. lia.
Qed.
(* powers of one variable *)
Definition lin (k : nat) (a b : R) (g : R -> R) : Prop := exists e : nat -> R, forall x, g x = vsum (k + 1) (fun j => e j * that j x a b).
Lemma lin_add k a b f g : lin k a b f -> lin k a b g -> lin k a b (fun x => f x + g x).
Proof. intros (e & E) (h & Q). exists (fun j => e j + h j). intros x. rewrite E, Q, <- vsum_add. apply vsum_ext. intros; ring. Qed.
Lemma lin_scal k a b s f : lin k a b f -> lin k a b (fun x => s * f x).
Proof. intros (e & E). exists (fun j => s * e j). intros x. rewrite E, <- vsum_scal. apply vsum_ext. intros; ring. Qed.
Lemma lin_ext k a b f g : (forall x, f x = g x) -> lin k a b g -> lin k a b f.
Proof. intros H (e & E). exists e. intros. now rewrite H. Qed.
Lemma lin_basis k a b j : (j <= k)%nat -> lin k a b (fun x => that j x a b).
Proof. intros H. exists (fun i => same j i). intros x. rewrite <- (pick1 (k + 1) j (fun j => that j x a b)) by lia. apply vsum_ext. intros; ring. Qed.
Lemma lin_sum k a b N (f : nat -> R -> R) : (forall q, (q < N)%nat -> lin k a b (f q)) -> lin k a b (fun x => vsum N (fun q => f q x)).
Proof.
  induction N; intros H; cbn [vsum]; [|apply lin_add; [apply IHN; intros|]; apply H; lia]. exists (fun _ => 0). intros. symmetry. apply vsum_0. intros; ring.
Qed.
Lemma x_that a b j : a < b -> lin (j + 1) a b (fun x => x * that j x a b).
Proof.
  intros H. destruct sqrt2 as (W & W2). set (m := (b + a) / 2). set (h := (b - a) / 2). set (u := fun x => map_from_interval x a b).
  assert (X : forall x, x = h * u x + m) by (intros x; unfold h, u, m, map_from_interval; field; lra).
  destruct j as [|[|j]].
  - apply (lin_ext _ _ _ _ (fun x => h / sqrt 2 * that 1 x a b + m * that 0 x a b)).
    + intros x. rewrite (X x) at 1. unfold that, chebT, chebV. cbn [cheb_pair fst]. fold (u x). field; lra.
    + apply lin_add; apply lin_scal, lin_basis; lia.
  - apply (lin_ext _ _ _ _ (fun x => h / 2 * that 2 x a b + (m * that 1 x a b + h / sqrt 2 * that 0 x a b))).
    + intros x. rewrite (X x) at 1. unfold that, chebT, chebV. cbn [cheb_pair fst]. fold (u x). field_simplify_eq; [|lra]. replace (sqrt 2 ^ 2) with 2 by (simpl; lra). ring.
    + repeat apply lin_add; apply lin_scal, lin_basis; lia.
  - apply (lin_ext _ _ _ _ (fun x => h / 2 * that (S (S (S j))) x a b + (m * that (S (S j)) x a b + h / 2 * that (S j) x a b))).
    + intros x. rewrite (X x) at 1. unfold that, chebT. fold (u x). rewrite (V_SS 1 (S j)). field.
    + repeat apply lin_add; apply lin_scal, lin_basis; lia.
Qed.
Lemma lin_weaken k k' a b g : (k <= k')%nat -> lin k a b g -> lin k' a b g.
Proof. intros H (e & E). apply (lin_ext _ _ _ _ _ E). apply (lin_sum k' a b (k + 1) (fun j x => e j * that j x a b)). intros q Q. apply lin_scal, lin_basis. lia. Qed.
Lemma lin_pow k a b : a < b -> lin k a b (fun x => x ^ k).
Proof.
  intros H. induction k.
  - exists (fun _ => 1). intros x. cbn. ring.
  - destruct IHk as (e & E). apply (lin_ext _ _ _ _ (fun x => vsum (k + 1) (fun j => e j * (x * that j x a b)))).
    + intros x. cbn [pow]. rewrite E, <- vsum_scal. apply vsum_ext. intros; ring.
    + apply (lin_sum (S k) a b (k + 1) (fun j x => e j * (x * that j x a b))). intros q Q. apply lin_scal. apply (lin_weaken (q + 1)); [lia|]. now apply x_that.
Qed.
Lemma poly_spanned n dom f : rectangle dom -> poly2 n f -> spanned n dom f.
Proof.
  intros Rd (d & D). destruct dom as [[[a b] c1] e]. destruct Rd as (A & B). apply (spanned_ext _ _ _ _ D).
  apply (spanned_sum n (a, b, c1, e) (n + 1) (fun k x y => vsum (n + 1 - k) (fun l => d k l * (x ^ k * y ^ l)))). intros k Hk.
  apply (spanned_sum n (a, b, c1, e) (n + 1 - k) (fun l x y => d k l * (x ^ k * y ^ l))). intros l Hl. apply spanned_scal.
  destruct (lin_pow k a b A) as (u & U). destruct (lin_pow l c1 e B) as (v & V).
  apply (spanned_ext _ _ _ (fun x y => vsum (k + 1) (fun i => vsum (l + 1) (fun j => u i * v j * (that i x a b * that j y c1 e))))).
  { intros x y. rewrite U, V. rewrite Rmult_comm, <- vsum_scal. apply vsum_ext. intros i _. rewrite Rmult_comm, <- vsum_scal. apply vsum_ext. intros j _. ring. }
  apply (spanned_sum n (a, b, c1, e) (k + 1) (fun i x y => vsum (l + 1) (fun j => u i * v j * (that i x a b * that j y c1 e)))). intros i Hi.
  apply (spanned_sum n (a, b, c1, e) (l + 1) (fun j x y => u i * v j * (that i x a b * that j y c1 e))). intros j Hj. apply spanned_scal, spanned_basis. lia.
Qed.
Lemma series_ext n c d dom x y : (forall k l, (k <= n)%nat -> (l <= n)%nat -> c k l = d k l) -> cheb_series n c dom x y = cheb_series n d dom x y.
Proof. intros H. destruct dom as [[[a b] c1] e]. unfold cheb_series. apply vsum_ext. intros k Hk. apply vsum_ext. intros l Hl. rewrite H by lia. reflexivity. Qed.
Lemma at_node_ext n dom f g j i : (forall x y, f x y = g x y) -> at_node n dom f j i = at_node n dom g j i.
Proof. intros H. unfold at_node. destruct (padua_node n dom j i). apply H. Qed.
Lemma fit_reproduces n dom f : (1 <= n)%nat -> rectangle dom -> poly2 n f ->
  exists m e, padua_fit (padua_points n dom) f = Ok (m, e) /\ forall x y, inside dom x y -> padua_val x y m dom = f x y.
Proof.
  intros Hn Rd P. destruct (poly_spanned n dom f Rd P) as (c & C). eexists. eexists. split; [now apply fit_value|]. intros x y I. rewrite val_series by easy. rewrite C. apply series_ext. intros k l Hk Hl.
  rewrite <- (coefs_series n dom c k l) by easy. apply coefs_ext. intros j i _ _ _. now apply at_node_ext.
Qed.

(* ---- interpolation ---- *)
Definition tri (n : nat) : list (nat * nat) := flat_map (fun s => map (fun k => (k, s - k)%nat) (seq 0 (s + 1))) (seq 0 (n + 1)).
Lemma tri_length n : (List.length (tri n) = (n + 1) * (n + 2) / 2)%nat.
Proof.
  apply (Nat.div_unique _ 2 _ 0); [lia|]. rewrite Nat.add_0_r. symmetry. unfold tri. induction n; [reflexivity|].
  replace (S n + 1)%nat with (S (n + 1)) by lia. rewrite seq_S, flat_map_app, app_length. cbn [flat_map]. rewrite app_nil_r, map_length, seq_length. lia.
Qed.
Lemma in_tri n k l : In (k, l) (tri n) <-> (k + l <= n)%nat.
Proof.
  unfold tri. rewrite in_flat_map. split.
  - intros (s & S1 & I). apply in_seq in S1. apply in_map_iff in I as (k' & E & K). apply in_seq in K. injection E as <- <-. lia.
  - intros H. exists (k + l)%nat. split; [apply in_seq; lia|]. apply in_map_iff. exists k. split; [f_equal; lia|apply in_seq; lia].
Qed.
Lemma tri_NoDup n : NoDup (tri n).
Proof.
  apply NoDup_flat; [apply seq_NoDup| |].
  - intros s _. apply FinFun.Injective_map_NoDup; [intros u v E; now injection E|apply seq_NoDup].
  - intros a b x _ _ A B. apply in_map_iff in A as (u & <- & U). apply in_map_iff in B as (v & E & V). apply in_seq in U. apply in_seq in V. injection E. lia.
Qed.
Definition idx (n q : nat) : nat * nat := nth q (tri n) (0, 0)%nat.
Lemma idx_bound n q : (q < (n + 1) * (n + 2) / 2)%nat -> (fst (idx n q) + snd (idx n q) <= n)%nat.
Proof. intros H. apply (in_tri n). rewrite <- surjective_pairing. apply nth_In. now rewrite tri_length. Qed.
Lemma idx_inj n p q : (p < (n + 1) * (n + 2) / 2)%nat -> (q < (n + 1) * (n + 2) / 2)%nat -> idx n p = idx n q -> p = q.
Proof. intros P Q. rewrite <- (tri_length n) in P, Q. exact (proj1 (NoDup_nth (tri n) (0, 0)%nat) (tri_NoDup n) p q P Q). Qed.
Definition gathered (n : nat) (s : nat -> R) (k l : nat) : R := vsum ((n + 1) * (n + 2) / 2) (fun q => s q * (same k (fst (idx n q)) * same l (snd (idx n q)))).
Lemma gathered_idx n s p : (p < (n + 1) * (n + 2) / 2)%nat -> mask n (gathered n s) (fst (idx n p)) (snd (idx n p)) = s p.
Proof.
  intros H. unfold mask. pose proof (idx_bound n p H) as B. apply Nat.leb_le in B. rewrite B. unfold gathered. rewrite <- (pick1 _ p s H). apply vsum_ext. intros q Q. f_equal. unfold same.
  destruct (Nat.eqb_spec p q) as [<-|N]; [rewrite !Nat.eqb_refl; ring|].
  destruct (Nat.eqb_spec (fst (idx n p)) (fst (idx n q))); destruct (Nat.eqb_spec (snd (idx n p)) (snd (idx n q))); try ring.
  exfalso. apply N, (idx_inj n); try easy. destruct (idx n p), (idx n q). cbn in *. congruence.
Qed.
Definition node_of (n : nat) (p : nat) : nat * nat := nth p (grid n) (0, 0)%nat.
Definition basis_at (n p q : nat) : R :=
  scal (fst (idx n q)) * cos (INR (fst (idx n q)) * theta n (fst (node_of n p))) * (scal (snd (idx n q)) * cos (INR (snd (idx n q)) * theta (n + 1) (snd (node_of n p)))).
Lemma gathered_series n dom s j i : (1 <= n)%nat -> rectangle dom ->
  at_node n dom (cheb_series n (mask n (gathered n s)) dom) j i
  = vsum ((n + 1) * (n + 2) / 2) (fun q => (scal (fst (idx n q)) * cos (INR (fst (idx n q)) * theta n j) * (scal (snd (idx n q)) * cos (INR (snd (idx n q)) * theta (n + 1) i))) * s q).
Proof.
  intros Hn Rd. rewrite at_node_series by easy.
  set (g := fun k l => scal k * cos (INR k * theta n j) * (scal l * cos (INR l * theta (n + 1) i))).
  rewrite (vsum_ext _ _ (fun k => vsum ((n + 1) * (n + 2) / 2) (fun q => vsum (n + 1) (fun l => s q * (same k (fst (idx n q)) * same l (snd (idx n q)) * g k l))))).
  - rewrite vsum_swap. apply vsum_ext. intros q Q. pose proof (idx_bound n q Q) as B. fold (g (fst (idx n q)) (snd (idx n q))). rewrite <- (pick2' n (fst (idx n q)) (snd (idx n q)) g) by lia.
    rewrite Rmult_comm, <- vsum_scal. apply vsum_ext. intros k _. now rewrite <- vsum_scal.
  - intros k Hk. rewrite vsum_swap. apply vsum_ext. intros l Hl. fold (g k l). rewrite (vsum_ext ((n + 1) * (n + 2) / 2) _ (fun q => g k l * (s q * (same k (fst (idx n q)) * same l (snd (idx n q)))))) by (intros; ring). rewrite vsum_scal.
    rewrite Rmult_comm. f_equal. unfold mask. destruct (Nat.leb_spec (k + l) n) as [L|L]; [reflexivity|]. symmetry. apply vsum_0. intros q Q. pose proof (idx_bound n q Q). unfold same.
    destruct (Nat.eqb_spec k (fst (idx n q))); destruct (Nat.eqb_spec l (snd (idx n q))); try ring. lia.
Qed.
Lemma node_of_bound n p : (p < (n + 1) * (n + 2) / 2)%nat -> In (node_of n p) (grid n).
Proof. intros H. apply nth_In. now rewrite grid_length. Qed.
Lemma values_determine n dom c : (1 <= n)%nat -> rectangle dom -> (forall j i, (j <= n)%nat -> (i <= n + 1)%nat -> Nat.odd (i + j) = true -> at_node n dom (cheb_series n (mask n c) dom) j i = 0) ->
  forall k l, (k <= n)%nat -> (l <= n)%nat -> mask n c k l = 0.
Proof. intros Hn Rd Z k l Hk Hl. rewrite <- (coefs_series n dom c k l) by easy. rewrite (coefs_ext n _ (fun _ _ => 0)) by easy. apply coefs_zero. Qed.
Lemma basis_injective n : (1 <= n)%nat -> injective ((n + 1) * (n + 2) / 2) (basis_at n).
Proof.
  intros Hn s Z q Q. set (dom := (-1, 1, -1, 1)). assert (Rd : rectangle dom) by (cbn; lra). rewrite <- (gathered_idx n s q Q). pose proof (idx_bound n q Q) as B.
  apply (values_determine n dom (gathered n s)); try easy; try lia. intros j i J I O. rewrite gathered_series by easy.
  destruct (In_nth (grid n) (j, i) (0, 0)%nat) as (p & P & E); [apply in_grid; easy|]. rewrite grid_length in P. rewrite <- (Z p P). apply vsum_ext. intros q' _. unfold basis_at, node_of. now rewrite E.
Qed.
Lemma interpolates n dom f : (1 <= n)%nat -> rectangle dom ->
  exists m e, padua_fit (padua_points n dom) f = Ok (m, e) /\ forall x y, In (x, y) (padua_points n dom) -> padua_val x y m dom = f x y.
Proof.
  intros Hn Rd. eexists. eexists. split; [now apply fit_value|]. intros x y I. apply points_in in I as (j & i & J & Hi & O & E); [|easy].
  assert (Ins : inside dom x y) by (pose proof (node_inside n dom j i Hn Rd J Hi) as Q; rewrite <- E in Q; exact Q).
  rewrite val_series by easy.
  destruct (injective_solvable _ (basis_at n) (fun p => at_node n dom f (fst (node_of n p)) (snd (node_of n p))) (basis_injective n Hn)) as (s & S1).
  assert (V : forall j i, (j <= n)%nat -> (i <= n + 1)%nat -> Nat.odd (i + j) = true -> at_node n dom f j i = at_node n dom (cheb_series n (mask n (gathered n s)) dom) j i).
  { clear j i J Hi O E. intros j i J I O. rewrite gathered_series by easy.
    destruct (In_nth (grid n) (j, i) (0, 0)%nat) as (p & P & E); [apply in_grid; easy|]. rewrite grid_length in P. pose proof (S1 p P) as S2. unfold basis_at, node_of in S2. rewrite E in S2. cbn [fst snd] in S2. now rewrite <- S2. }
  transitivity (cheb_series n (mask n (gathered n s)) dom x y).
  - apply series_ext. intros k l Hk Hl. rewrite <- (coefs_series n dom (gathered n s) k l) by easy. now apply coefs_ext.
  - pose proof (V j i J Hi O) as V1. unfold at_node in V1. rewrite <- E in V1. now rewrite V1.
Qed.
Lemma unisolvent n dom f g : (1 <= n)%nat -> rectangle dom -> poly2 n f -> poly2 n g -> (forall x y, In (x, y) (padua_points n dom) -> f x y = g x y) -> forall x y, f x y = g x y.
Proof.
  intros Hn Rd F G H x y. apply poly_spanned with (dom := dom) in F as (c & C); [|easy]. apply poly_spanned with (dom := dom) in G as (d & D); [|easy]. rewrite C, D. apply series_ext. intros k l Hk Hl.
  rewrite <- (coefs_series n dom c), <- (coefs_series n dom d) by easy. apply coefs_ext. intros j i J I O.
  unfold at_node. destruct (padua_node n dom j i) as (u, v) eqn:E. rewrite <- C, <- D. apply H. apply points_in; [easy|]. exists j, i. now rewrite E.
Qed.
