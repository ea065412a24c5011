From Coq Require Import Reals ZArith Lra Lia List Bool Psatz Permutation Sorted.
From Verif Require Import Base PolyModel FilterModel FilterProofs2 GridModel WaveModel KdeModel ProcModel ProcSpec CovProofs2 PolyProofs ProcProofs ProcProofs2 ProcProofs3 ProcProofs4 ProcProofs7 KernelModel KernelProofs8 TkdeModel TkdeProofs4 QlevModel QlevSpec QlevProofs QlevProofs2 QlevProofs3.
Import ListNotations.
Local Open Scope R_scope.

(* ---- the cells ---- *)
Lemma widths_length x : x <> [] -> List.length (widths x) = List.length x.
Proof. intros H. unfold widths. rewrite map2_length, app_length. cbn [List.length]. rewrite map_length, diffR_length. destruct x; [congruence|]. cbn [List.length]. lia. Qed.
Lemma widths_at x i : (i < List.length x)%nat -> nth i (widths x) 0 = half_width x i.
Proof.
  intros Hi. assert (L : List.length (map (fun d => d * (1 / 2)) (diffR x)) = (List.length x - 1)%nat) by now rewrite map_length, diffR_length. unfold widths. rewrite (CovProofs2.map2_nth Rplus 0 0 0) by (rewrite ?app_length; cbn [List.length]; rewrite ?L; cbn; lia).
  assert (D : forall k, (S k < List.length x)%nat -> nth k (map (fun d => d * (1 / 2)) (diffR x)) 0 = (nth (S k) x 0 - nth k x 0) / 2). { intros k Hk. rewrite (nth_indep _ 0 ((fun d => d * (1 / 2)) 0)) by (rewrite L; lia). rewrite (map_nth (fun d => d * (1 / 2))). rewrite diffR_nth by easy. unfold at_. field. }
  assert (A : nth i (0 :: map (fun d => d * (1 / 2)) (diffR x)) 0 = (nth i x 0 - (if (0 <? i)%nat then nth (i - 1) x 0 else nth i x 0)) / 2). { destruct i as [|i]; cbn [nth]; [change (0 <? 0)%nat with false; cbn beta iota; field|]. rewrite D by lia. replace (S i - 1)%nat with i by lia. change (0 <? S i)%nat with true. reflexivity. }
  assert (B : nth i (map (fun d => d * (1 / 2)) (diffR x) ++ [0]) 0 = ((if (S i <? List.length x)%nat then nth (S i) x 0 else nth i x 0) - nth i x 0) / 2). { destruct (S i <? List.length x)%nat eqn:E. - apply Nat.ltb_lt in E. rewrite app_nth1 by (rewrite L; lia). now apply D. - apply Nat.ltb_ge in E. rewrite app_nth2 by (rewrite L; lia). rewrite L. replace (i - (List.length x - 1))%nat with 0%nat by lia. cbn [nth]. field. }
  rewrite A, B. unfold half_width. field.
Qed.
Lemma half_width_pos x i : increasing x -> (2 <= List.length x)%nat -> (i < List.length x)%nat -> 0 < half_width x i.
Proof.
  intros H N Hi. unfold half_width. destruct (S i <? List.length x)%nat eqn:E.
  - apply Nat.ltb_lt in E. pose proof (H i E) as A. unfold at_ in A. destruct (0 <? i)%nat eqn:Z; [|lra]. apply Nat.ltb_lt in Z. pose proof (H (i - 1)%nat ltac:(lia)) as B. unfold at_ in B. replace (S (i - 1)) with i in B by lia. lra.
  - apply Nat.ltb_ge in E. assert (Z : (0 <? i)%nat = true) by (apply Nat.ltb_lt; lia). rewrite Z. pose proof (H (i - 1)%nat ltac:(lia)) as B. unfold at_ in B. replace (S (i - 1)) with i in B by lia. lra.
Qed.
Lemma prodl_one a : prodl [a] = a.
Proof. unfold prodl. cbn. ring. Qed.
Lemma cells_none shape pdf xy : cells shape pdf [] xy = Ok pdf.
Proof. reflexivity. Qed.
Lemma same_shape_true a : same_shape a a = true.
Proof. unfold same_shape. destruct (list_eq_dec _ _ _); [reflexivity|congruence]. Qed.
Lemma single_axis x : map prodl (cartesian [x]) = x.
Proof. cbn [cartesian]. induction x as [|a x IH]; [reflexivity|]. change (prodl [a] :: map prodl (flat_map (fun a : R => map (cons a) [[]]) x) = a :: x). rewrite IH, prodl_one. reflexivity. Qed.
Lemma cells_one x pdf xy : (2 <= List.length x)%nat -> List.length pdf = List.length x -> increasing x -> (forall v, In v pdf -> 0 <= v) ->
  exists mass, cells [List.length x] pdf [x] xy = Ok mass /\ List.length mass = List.length pdf /\ Forall (fun v => 0 <= v) mass /\ forall i, (i < List.length pdf)%nat -> nth i mass 0 = nth i pdf 0 * half_width x i.
Proof.
  intros N L H P. exists (map2 Rmult pdf (widths x)). assert (Lw : List.length (widths x) = List.length x) by (apply widths_length; destruct x; [cbn in N; lia|discriminate]).
  assert (V : forall i, (i < List.length pdf)%nat -> nth i (map2 Rmult pdf (widths x)) 0 = nth i pdf 0 * half_width x i) by (intros i Hi; rewrite (CovProofs2.map2_nth Rmult 0 0 0) by lia; rewrite widths_at by lia; reflexivity).
  split; [|split; [|split; [|exact V]]].
  - unfold cells. cbn [map grid_shape]. assert (S1 : grid_shape xy [List.length x] = [List.length x]) by now destruct xy. rewrite S1, same_shape_true. assert (G : grid_points xy [widths x] = cartesian [widths x]) by now destruct xy. now rewrite G, single_axis.
  - rewrite map2_length. lia.
  - apply Forall_forall. intros v Hv. destruct (In_nth _ _ 0 Hv) as (i & Hi & <-). rewrite map2_length in Hi. rewrite V by lia. apply Rmult_le_pos; [apply P, nth_In; lia|left; apply half_width_pos; [exact H|exact N|lia]].
Qed.
Lemma cartesian_pair x y i j : (i < List.length x)%nat -> (j < List.length y)%nat -> nth (i * List.length y + j) (cartesian [x; y]) [] = [nth i x 0; nth j y 0] /\ List.length (cartesian [x; y]) = (List.length x * List.length y)%nat.
Proof.
  intros Hi Hj. split.
  - revert i Hi. induction x as [|a x IH]; intros i Hi; [cbn in Hi; lia|]. change (cartesian [a :: x; y]) with (map (cons a) (cartesian [y]) ++ cartesian [x; y]). assert (C1 : cartesian [y] = map (fun b => [b]) y) by (cbn; clear; induction y as [|b y IH]; [reflexivity|]; cbn; now rewrite IH). assert (L1 : List.length (map (cons a) (cartesian [y])) = List.length y) by now rewrite map_length, C1, map_length. destruct i as [|i].
    + cbn [Nat.mul plus]. rewrite app_nth1 by lia. rewrite C1, map_map. rewrite (nth_indep _ [] ((fun b => [a; b]) 0)) by (rewrite map_length; lia). now rewrite (map_nth (fun b => [a; b])).
    + rewrite app_nth2 by (rewrite L1; cbn; lia). rewrite L1. replace (S i * List.length y + j - List.length y)%nat with (i * List.length y + j)%nat by (cbn; lia). rewrite IH by (cbn in Hi; lia). reflexivity.
  - rewrite !cartesian_count. cbn [cartesian List.length]. lia.
Qed.
Lemma cells_two x y pdf (xy : bool) : (2 <= List.length x)%nat -> (2 <= List.length y)%nat -> List.length pdf = (List.length x * List.length y)%nat -> increasing x -> increasing y -> (forall v, In v pdf -> 0 <= v) ->
  exists mass, cells (if xy then [List.length y; List.length x] else [List.length x; List.length y]) pdf [x; y] xy = Ok mass /\ List.length mass = List.length pdf /\ Forall (fun v => 0 <= v) mass /\
    forall i j, (i < List.length x)%nat -> (j < List.length y)%nat -> let k : nat := (if xy then j * List.length x + i else i * List.length y + j)%nat in nth k mass 0 = nth k pdf 0 * (half_width x i * half_width y j).
Proof.
  intros Nx Ny L Hx Hy P. set (wx := widths x). set (wy := widths y). set (g := grid_points xy [wx; wy]). set (mass := map2 Rmult pdf (map prodl g)).
  assert (Lx : List.length wx = List.length x) by (apply widths_length; destruct x; [cbn in Nx; lia|discriminate]). assert (Ly : List.length wy = List.length y) by (apply widths_length; destruct y; [cbn in Ny; lia|discriminate]).
  assert (Lg : List.length g = List.length pdf). { unfold g. destruct xy; cbn [grid_points]. - rewrite (proj2 (grid_pair wx wy 0 0 ltac:(lia) ltac:(lia))). rewrite L, Lx, Ly. lia. - rewrite (proj2 (cartesian_pair wx wy 0 0 ltac:(lia) ltac:(lia))). rewrite L, Lx, Ly. lia. }
  assert (V : forall i j, (i < List.length x)%nat -> (j < List.length y)%nat -> let k : nat := (if xy then j * List.length x + i else i * List.length y + j)%nat in (k < List.length pdf)%nat /\ nth k mass 0 = nth k pdf 0 * (half_width x i * half_width y j)).
  { intros i j Hi Hj k. assert (Hk : (k < List.length pdf)%nat) by (unfold k; destruct xy; nia). split; [exact Hk|]. unfold mass. rewrite (CovProofs2.map2_nth Rmult 0 0 0) by (rewrite ?map_length; lia). f_equal. rewrite (nth_indep _ 0 (prodl [])) by (rewrite map_length; lia). rewrite map_nth. assert (E : nth k g [] = [half_width x i; half_width y j]); [|rewrite E; unfold prodl; cbn; ring]. unfold g, k. rewrite <- !widths_at by easy. fold wx. fold wy. destruct xy; cbn [grid_points].
    - rewrite <- Lx. apply grid_pair; lia. - rewrite <- Ly. apply cartesian_pair; lia. }
  exists mass. split; [|split; [|split]].
  - unfold cells. cbn [map]. fold wx. fold wy. fold g. fold mass. assert (S2 : grid_shape xy [List.length x; List.length y] = if xy then [List.length y; List.length x] else [List.length x; List.length y]) by now destruct xy. now rewrite S2, same_shape_true.
  - unfold mass. rewrite map2_length, map_length. lia.
  - apply Forall_forall. intros v Hv. destruct (In_nth _ _ 0 Hv) as (k & Hk & <-). unfold mass in Hk. rewrite map2_length, map_length in Hk. unfold mass. rewrite (CovProofs2.map2_nth Rmult 0 0 0) by (rewrite ?map_length; lia). apply Rmult_le_pos; [apply P, nth_In; lia|].
    assert (W : forall z i, increasing z -> (2 <= List.length z)%nat -> (i < List.length z)%nat -> 0 <= half_width z i) by (intros; left; now apply half_width_pos). destruct xy.
    + pose proof (proj2 (V (k mod List.length x) (k / List.length x) ltac:(apply Nat.mod_upper_bound; lia) ltac:(apply Nat.div_lt_upper_bound; lia)))%nat as Q. cbv zeta in Q. rewrite (Nat.mul_comm (k / List.length x)), <- Nat.div_mod in Q by lia. rewrite (nth_indep _ 0 (prodl [])) by (rewrite map_length; lia). rewrite map_nth. pose proof (grid_pair wx wy (k / List.length x) (k mod List.length x) ltac:(rewrite Ly; apply Nat.div_lt_upper_bound; lia) ltac:(rewrite Lx; apply Nat.mod_upper_bound; lia)) as [G _]. rewrite Lx, (Nat.mul_comm (k / List.length x)), <- Nat.div_mod in G by lia. change g with (meshgrid [wx; wy]). rewrite G. unfold prodl. cbn [fold_right]. assert (A : forall z i, increasing z -> (2 <= List.length z)%nat -> (i < List.length z)%nat -> 0 <= nth i (widths z) 0) by (intros; rewrite widths_at by easy; now apply W). pose proof (A x (k mod List.length x)%nat Hx Nx ltac:(apply Nat.mod_upper_bound; lia)). pose proof (A y (k / List.length x)%nat Hy Ny ltac:(apply Nat.div_lt_upper_bound; lia)). unfold wx, wy. nra.
    + rewrite (nth_indep _ 0 (prodl [])) by (rewrite map_length; lia). rewrite map_nth. pose proof (cartesian_pair wx wy (k / List.length y) (k mod List.length y) ltac:(rewrite Lx; apply Nat.div_lt_upper_bound; lia) ltac:(rewrite Ly; apply Nat.mod_upper_bound; lia)) as [G _]. rewrite Ly, (Nat.mul_comm (k / List.length y)), <- Nat.div_mod in G by lia. change g with (cartesian [wx; wy]). rewrite G. unfold prodl. cbn [fold_right]. assert (A : forall z i, increasing z -> (2 <= List.length z)%nat -> (i < List.length z)%nat -> 0 <= nth i (widths z) 0) by (intros; rewrite widths_at by easy; now apply W). pose proof (A y (k mod List.length y)%nat Hy Ny ltac:(apply Nat.mod_upper_bound; lia)). pose proof (A x (k / List.length y)%nat Hx Nx ltac:(apply Nat.div_lt_upper_bound; lia)). unfold wx, wy. nra.
  - intros i j Hi Hj. exact (proj2 (V i j Hi Hj)).
Qed.
Lemma cells_shape shape pdf xi xy : xi <> [] -> grid_shape xy (map (@List.length R) xi) <> shape -> cells shape pdf xi xy = Err ValueError.
Proof. intros H N. unfold cells. destruct xi; [congruence|]. unfold same_shape. destruct (list_eq_dec _ _ _); [congruence|reflexivity]. Qed.

(* ---- refused arguments ---- *)
Lemma qlevels_negative eps argsort shape pdf p xi xy v : In v pdf -> v < 0 -> qlevels eps argsort shape pdf p xi xy = Err ValueError.
Proof. intros H N. unfold qlevels. assert (E : existsb (fun v => if Rlt_dec v 0 then true else false) pdf = true) by (apply existsb_exists; exists v; split; [exact H|]; destruct (Rlt_dec v 0); [reflexivity|lra]). now rewrite E. Qed.
Lemma qlevels_percent eps argsort shape pdf p xi xy q : In q p -> (q < 0 \/ 100 < q) -> qlevels eps argsort shape pdf p xi xy = Err ValueError.
Proof. intros H N. unfold qlevels. destruct (existsb _ pdf); [reflexivity|]. assert (E : existsb (fun v => if Rlt_dec v 0 then true else if Rlt_dec 100 v then true else false) p = true) by (apply existsb_exists; exists q; split; [exact H|]; destruct (Rlt_dec q 0), (Rlt_dec 100 q); try reflexivity; lra). now rewrite E. Qed.
Lemma no_exist {A} (P : A -> bool) l : (forall a, In a l -> P a = false) -> existsb P l = false.
Proof. intros H. apply Bool.not_true_iff_false. intros E. apply existsb_exists in E as (a & Ha & E). rewrite (H a Ha) in E. discriminate. Qed.
Lemma qlevels_empty eps argsort shape pdf p xi xy : (forall v, In v pdf -> 0 <= v) -> (forall q, In q p -> 0 <= q <= 100) -> In 0%nat shape -> qlevels eps argsort shape pdf p xi xy = Ok [].
Proof.
  intros H HP HS. unfold qlevels. rewrite no_exist by (intros v Hv; specialize (H v Hv); destruct (Rlt_dec v 0); [lra|reflexivity]). rewrite no_exist by (intros v Hv; specialize (HP v Hv); destruct (Rlt_dec v 0), (Rlt_dec 100 v); try reflexivity; lra). assert (E : existsb (Nat.eqb 0) shape = true) by (apply existsb_exists; now exists 0%nat). now rewrite E.
Qed.
Lemma qlevels_shape eps argsort shape pdf p xi xy : ~ In 0%nat shape -> xi <> [] -> grid_shape xy (map (@List.length R) xi) <> shape -> qlevels eps argsort shape pdf p xi xy = Err ValueError.
Proof.
  intros HS HX HN. unfold qlevels. destruct (existsb _ pdf); [reflexivity|]. destruct (existsb _ p); [reflexivity|]. rewrite no_exist by (intros v Hv; apply Nat.eqb_neq; intros <-; easy). rewrite cells_shape by easy. reflexivity.
Qed.

(* ---- two cells ---- *)
Lemma two_order argsort a b : sorts argsort -> b < a -> rev (argsort [a; b]) = [0%nat; 1%nat].
Proof.
  intros S H. destruct (S [a; b]) as [P O]. cbn [List.length seq] in P. apply Permutation_sym, Permutation_length_2_inv in P as [E|E]; rewrite E in *; [|reflexivity]. exfalso. cbn in O. inversion O as [|? ? _ F]; subst. inversion F; subst. lra.
Qed.
Lemma two_table eps argsort a b p : sorts argsort -> 0 < b -> b < a -> (forall q, In q p -> 0 <= q <= 100) ->
  let c := a / (a + b) * nu 2 in let h := b / (a + b) * nu 2 in
  qlevels eps argsort [2%nat] [a; b] p [] true = (let* l := tranproc eps (uniform c h 2) [a; b] (map (fun v => v / 100) p) [] in Ok (map (fun v => if Rlt_dec v 0 then 0 else v) (hd [] l))).
Proof.
  intros S B A P c h. unfold qlevels. rewrite no_exist by (intros v [<-|[<-|[]]]; destruct (Rlt_dec _ 0); try reflexivity; lra). rewrite no_exist by (intros v Hv; specialize (P v Hv); destruct (Rlt_dec v 0), (Rlt_dec 100 v); try reflexivity; lra). cbn [existsb Nat.eqb orb]. rewrite two_order by easy. cbn [cells bind map]. unfold at_R. cbn [nth]. cbn [cumsum last]. destruct (Req_EM_T (0 + a + b) 0) as [E|_]; [lra|]. unfold normalize_cdf. cbn [List.length map last].
  assert (N : nu 2 = 2 / (2 + 15 / 10 ^ 9)) by reflexivity. assert (I2 : INR 2 = 2) by (cbn; ring). destruct (nu_bounds 2 ltac:(lia)) as [NB _]. rewrite !I2.
  assert (Q1 : (0 + a) / (0 + a + b) * 2 / (2 + 15 / 10 ^ 9) = c) by (unfold c; rewrite N; unfold Rdiv; rewrite !Rplus_0_l; ring). assert (Q2 : (0 + a + b) / (0 + a + b) * 2 / (2 + 15 / 10 ^ 9) = c + h). { assert (X : c + h = nu 2) by (unfold c, h; field; lra). rewrite X, N. unfold Rdiv. rewrite Rinv_r by lra. ring. } rewrite Q1, Q2.
  assert (h0 : 0 < h) by (unfold h; apply Rmult_lt_0_compat; [apply Rdiv_lt_0_compat; lra|lra]). assert (X : c + h = nu 2) by (unfold c, h; field; lra).
  unfold increments, at_R. cbn [List.length seq filter app nth]. destruct (Rlt_dec c (c + h)) as [_|]; [|lra]. destruct (Rlt_dec (c + h) 1) as [_|]; [|lra]. cbn [map nth]. assert (U : uniform c h 2 = [c; c + h]) by (unfold uniform; cbn [seq map INR]; f_equal; [ring|f_equal; ring]). now rewrite U.
Qed.
Lemma seven : 10 ^ 7 = 10000000.
Proof. lra. Qed.
Lemma low_levels eps argsort a b : 0 <= eps -> sorts argsort -> 0 < b -> b < a -> a < 10 ^ 6 * b ->
  exists q r, 0 <= q < r /\ r <= 100 /\ qlevels eps argsort [2%nat] [a; b] [q] [] true = Ok [b] /\ qlevels eps argsort [2%nat] [a; b] [r] [] true = Ok [a].
Proof.
  intros E S B A C. destruct (nu_bounds 2 ltac:(lia)) as [NB NB2]. set (c := a / (a + b) * nu 2). set (h := b / (a + b) * nu 2). assert (D : 0 < a + b) by lra.
  assert (N9 : 99 / 100 < nu 2) by lra.
  assert (H0 : 0 < b / (a + b)) by (apply Rdiv_lt_0_compat; lra). assert (HC : b / (a + b) < a / (a + b)) by (apply Rmult_lt_compat_r; [now apply Rinv_0_lt_compat|exact A]). assert (H1 : a / (a + b) + b / (a + b) = 1) by (field; lra). assert (H6 : 2 / 10 ^ 7 < b / (a + b)). { apply Rmult_lt_reg_r with (a + b); [lra|]. unfold Rdiv. rewrite (Rmult_assoc b), Rinv_l by lra. lra. }
  assert (hp : 0 < h) by (unfold h; nra). assert (hc : h < c) by (unfold h, c; nra). assert (c1 : c < 1) by (unfold c; nra). assert (h7 : 1 < h * 10 ^ 7). { unfold h. rewrite seven in *. nra. }
  exists (100 * (c - h)), (100 * c). split; [lra|]. split; [lra|]. split.
  - rewrite two_table by (try easy; intros q [<-|[]]; lra). fold c h. cbn [map]. rewrite (tranproc_below eps c h 2 [a; b]); [|easy|easy|easy|lia|reflexivity|discriminate|intros t [<-|[]]; lra]. cbn [bind hd map]. unfold at_. cbn [nth Nat.sub]. replace (b + (a - b) * (1 + (100 * (c - h) / 100 - c) / h)) with b by (field; lra). destruct (Rlt_dec b 0); [lra|reflexivity].
  - rewrite two_table by (try easy; intros q [<-|[]]; lra). fold c h. cbn [map]. destruct (tranproc_interpolates eps c h 2 [a; b] [100 * c / 100] E hp ltac:(lia) eq_refl ltac:(discriminate)) as (y & Y & YI); [|exact h7|].
    + apply covers_uniform; [lia|]. intros t [<-|[]]. cbn [INR]. lra.
    + rewrite Y. cbn [bind hd map]. destruct (YI _ (or_introl eq_refl)) as (i & Hi & BI & EI). rewrite uniform_length in Hi. assert (i = 0%nat) by lia. subst i. rewrite !uniform_at in BI, EI by lia. unfold at_ in EI. cbn [nth INR] in EI, BI. assert (V : y (100 * c / 100) = a) by (rewrite EI; field; lra). rewrite V. destruct (Rlt_dec a 0); [lra|reflexivity].
Qed.
Lemma hundred_levels eps argsort a b : 0 <= eps -> sorts argsort -> 0 < b -> b < a -> a < 10 ^ 6 * b ->
  exists q z z', 0 <= q < 100 /\ qlevels eps argsort [2%nat] [a; b] [q] [] true = Ok [b] /\ qlevels eps argsort [2%nat] [a; b] [q; 100] [] true = Ok [z; z'] /\ (a + b) / 2 <= z.
Proof.
  intros E S B A C. destruct (nu_bounds 2 ltac:(lia)) as [NB NB2]. set (c := a / (a + b) * nu 2). set (h := b / (a + b) * nu 2). assert (D : 0 < a + b) by lra.
  assert (N9 : 99 / 100 < nu 2) by lra.
  assert (H0 : 0 < b / (a + b)) by (apply Rdiv_lt_0_compat; lra). assert (HC : b / (a + b) < a / (a + b)) by (apply Rmult_lt_compat_r; [now apply Rinv_0_lt_compat|exact A]). assert (H1 : a / (a + b) + b / (a + b) = 1) by (field; lra). assert (H6 : 2 / 10 ^ 7 < b / (a + b)). { apply Rmult_lt_reg_r with (a + b); [lra|]. unfold Rdiv. rewrite (Rmult_assoc b), Rinv_l by lra. lra. }
  assert (hp : 0 < h) by (unfold h; nra). assert (hc : h < c) by (unfold h, c; nra). assert (c1 : c < 1) by (unfold c; nra). assert (h7 : 1 < h * 10 ^ 7). { unfold h. rewrite seven in *. nra. }
  assert (CH : c + h = nu 2) by (unfold c, h; field; lra).
  destruct (tranproc_above eps c h 2 ((b - a) / h) (a - (b - a) / h * c) [100 * (c + h) / 100; 100 / 100] E hp h7 ltac:(lia) ltac:(discriminate)) as (k & Hk & T).
  - intros t [<-|[<-|[]]]; lra.
  - exists (100 / 100). split; [right; now left|]. cbn [INR]. lra.
  - assert (U : map (fun t => (b - a) / h * t + (a - (b - a) / h * c)) (uniform c h 2) = [a; b]) by (unfold uniform; cbn [seq map INR]; f_equal; [field; lra|f_equal; field; lra]). rewrite U in T. cbn [map] in T.
    assert (K1 : 1 <= INR k) by (apply (le_INR 1); exact Hk). set (z := a + (b - a) / (1 + INR k)).
    assert (Z : (b - a) / h * (c + (100 * (c + h) / 100 - c) * (INR 2 - 1) / (INR 2 - 1 + INR k)) + (a - (b - a) / h * c) = z) by (unfold z; cbn [INR]; field; lra). rewrite Z in T.
    assert (ZB : (a + b) / 2 <= z). { unfold z. assert ((a - b) / (1 + INR k) <= (a - b) / 2); [|unfold Rdiv in *; lra]. apply Rmult_le_compat_l; [lra|]. apply Rinv_le_contravar; lra. }
    eexists (100 * (c + h)), z, _. split; [lra|]. split; [|split; [|exact ZB]].
    + rewrite two_table by (try easy; intros q [<-|[]]; lra). fold c h. cbn [map]. destruct (tranproc_interpolates eps c h 2 [a; b] [100 * (c + h) / 100] E hp ltac:(lia) eq_refl ltac:(discriminate)) as (y & Y & YI); [|exact h7|].
      * apply covers_uniform; [lia|]. intros t [<-|[]]. cbn [INR]. lra.
      * rewrite Y. cbn [bind hd map]. destruct (YI _ (or_introl eq_refl)) as (i & Hi & BI & EI). rewrite uniform_length in Hi. assert (i = 0%nat) by lia. subst i. rewrite !uniform_at in BI, EI by lia. unfold at_ in EI. cbn [nth INR] in EI, BI. assert (V : y (100 * (c + h) / 100) = b) by (rewrite EI; field; lra). rewrite V. destruct (Rlt_dec b 0); [lra|reflexivity].
    + rewrite two_table by (try easy; intros q [<-|[<-|[]]]; lra). fold c h. cbn [map]. rewrite T. cbn [bind hd map]. destruct (Rlt_dec z 0) as [ZN|_]; [exfalso; assert (ZP : 0 < z) by (apply Rlt_le_trans with ((a + b) / 2); [lra|exact ZB]); exact (Rlt_asym _ _ ZP ZN)|]. reflexivity.
Qed.
