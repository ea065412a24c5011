From Coq Require Import Reals List ZArith String Ascii Bool Lra Lia Permutation.
From Coquelicot Require Import Coquelicot.
From Verif Require Import Base PolyModel FilterModel GridModel WaveModel KdeModel ProcModel TransModel ProcSpec ProcProofs ProcProofs2 PdatModel PdatSpec.
Import ListNotations.
Local Open Scope R_scope.
Set Bullet Behavior "Strict Subproofs".

Lemma at_cons a x i : at_ (a :: x) (S i) = at_ x i. Proof. reflexivity. Qed.

Lemma interp_polygon : forall x f, List.length x = List.length f -> increasing x -> polygon x f (interp x f).
Proof.
  induction x as [|x0 x IH]; intros f L I i t Hi Ht; [cbn in Hi; lia|].
  destruct f as [|f0 f]; [cbn in L; lia|]. destruct x as [|x1 x]; [cbn in Hi; lia|]. destruct f as [|f1 f]; [cbn in L; lia|].
  pose proof (I O ltac:(cbn; lia)) as I0. unfold at_ in I0; cbn [nth] in I0.
  rewrite interp_step.
  destruct i as [|i].
  - unfold at_ in *; cbn [nth] in *. destruct (Rle_dec t x0) as [A|A].
    + assert (t = x0) as -> by lra. field. lra.
    + destruct (Rle_dec t x1) as [B|B]; [|lra]. field. lra.
  - rewrite !at_cons in *. assert (x1 <= at_ (x1 :: x) i) as B.
    { change x1 with (at_ (x1 :: x) 0) at 1. apply increasing_le; [exact (increasing_tl _ _ I)|lia|cbn in Hi |- *; lia]. }
    pose proof (increasing_tl _ _ I) as I'.
    pose proof (IH (f1 :: f) ltac:(cbn in L |- *; lia) I' i t ltac:(cbn in Hi |- *; lia) Ht) as K.
    destruct (Rle_dec t x0) as [A|A]; [lra|]. destruct (Rle_dec t x1) as [C|C]; [|exact K].
    assert (t = x1) as -> by lra.
    pose proof (IH (f1 :: f) ltac:(cbn in L |- *; lia) I') as P. 
    assert (i = 0%nat) as ->.
    { destruct i; [reflexivity|]. assert (at_ (x1 :: x) 0 < at_ (x1 :: x) (S i)) by (apply increasing_lt; [exact I'|lia|cbn in Hi |- *; lia]). unfold at_ at 1 in H; cbn [nth] in H. lra. }
    pose proof (I' O ltac:(cbn in Hi |- *; lia)) as I1. unfold at_ in *. cbn [nth] in *. field. lra.
Qed.

Lemma cell : forall x t, increasing x -> (2 <= List.length x)%nat -> within x t -> exists i, (S i < List.length x)%nat /\ at_ x i <= t <= at_ x (S i).
Proof.
  intros x t I L [A B].
  assert (forall n, (n < List.length x)%nat -> (0 < n)%nat -> t <= at_ x n -> exists i, (S i < List.length x)%nat /\ at_ x i <= t <= at_ x (S i)) as K.
  { induction n as [|n IH]; intros Hn H0 Ht; [lia|]. destruct (Rle_dec (at_ x n) t) as [C|C]; [exists n; split; [lia|lra]|].
    destruct n as [|n]; [lra|]. apply IH; [lia|lia|lra]. }
  apply (K (List.length x - 1)%nat); [lia|lia|exact B].
Qed.
Lemma polygon_unique : forall x f g h t, increasing x -> (2 <= List.length x)%nat -> within x t -> polygon x f g -> polygon x f h -> g t = h t.
Proof. intros x f g h t I L W P Q. destruct (cell x t I L W) as [i [Hi Ht]]. rewrite (P i t Hi Ht), (Q i t Hi Ht). reflexivity. Qed.
Lemma polygon_node : forall x f g i, increasing x -> (2 <= List.length x)%nat -> (i < List.length x)%nat -> polygon x f g -> g (at_ x i) = at_ f i.
Proof.
  intros x f g i I L Hi P. destruct (Nat.eq_dec (S i) (List.length x)) as [E|E].
  - destruct i as [|i]; [lia|]. pose proof (I i Hi) as K. rewrite (P i (at_ x (S i)) Hi ltac:(lra)). field. lra.
  - pose proof (I i ltac:(lia)) as K. rewrite (P i (at_ x i) ltac:(lia) ltac:(lra)). field. lra.
Qed.

Lemma rlt_true a b : rlt a b = true <-> a < b.
Proof. unfold rlt. destruct (Rlt_dec a b); split; intros; try easy. Qed.
Lemma rlt_false a b : rlt a b = false <-> b <= a.
Proof. unfold rlt. destruct (Rlt_dec a b); split; intros; try easy; lra. Qed.

Lemma eval_form : forall x f t, table x f -> eval_points x f t = Ok (if rlt t (at_ x 0) || rlt (at_ x (List.length x - 1)) t then None else Some (interp x f t)).
Proof.
  intros x f t [L [N I]]. unfold eval_points. replace (List.length x <? 2)%nat with false by (symmetry; apply Nat.ltb_ge; lia).
  rewrite L, Nat.eqb_refl. cbn [orb negb]. rewrite sort_rows_sorted by (rewrite map_fst_combine by exact L; exact I).
  rewrite map_fst_combine, map_snd_combine by exact L. rewrite hd_at, last_at, L. reflexivity.
Qed.
Lemma eval_value : forall x f g t, table x f -> polygon x f g -> within x t -> eval_points x f t = Ok (Some (g t)).
Proof.
  intros x f g t T P W. rewrite eval_form by exact T. destruct T as [L [N I]].
  replace (rlt t (at_ x 0) || rlt (at_ x (List.length x - 1)) t) with false.
  - f_equal. f_equal. apply (polygon_unique x f); try assumption. apply interp_polygon; assumption.
  - symmetry. apply orb_false_iff. split; apply rlt_false; unfold within in W; lra.
Qed.
Lemma eval_outside : forall x f t, table x f -> ~ within x t -> eval_points x f t = Ok None.
Proof.
  intros x f t T W. rewrite eval_form by exact T. 
  replace (rlt t (at_ x 0) || rlt (at_ x (List.length x - 1)) t) with true; [reflexivity|].
  symmetry. apply orb_true_iff. destruct (Rlt_dec t (at_ x 0)) as [A|A]; [left; apply rlt_true; lra|right; apply rlt_true].
  destruct (Rlt_dec (at_ x (List.length x - 1)) t) as [B|B]; [exact B|]. exfalso; apply W; split; lra.
Qed.
Lemma eval_order : forall x f x' f' t, List.length x = List.length f -> List.length x' = List.length f' -> Permutation (combine x f) (combine x' f') -> NoDup x ->
  eval_points x f t = eval_points x' f' t.
Proof.
  intros x f x' f' t L L' P D. unfold eval_points.
  assert (List.length x = List.length x') as E by (pose proof (Permutation_length P) as K; rewrite !combine_length in K; lia).
  rewrite <- (sort_rows_perm _ _ P) by (rewrite map_fst_combine by exact L; exact D).
  rewrite <- L, <- L', <- E, Nat.eqb_refl. reflexivity.
Qed.

(* abscissas *)
Lemma filter_map_seq : forall (p : R -> bool) x k (pre : list R), List.length pre = k ->
  map (at_R (pre ++ x)) (filter (fun i => p (at_R (pre ++ x) i)) (seq k (List.length x))) = filter p x.
Proof.
  intros p. induction x as [|a x IH]; intros k pre Hk; [reflexivity|].
  cbn [List.length seq filter]. assert (at_R (pre ++ a :: x) k = a) as E by (unfold at_R; rewrite app_nth2 by lia; rewrite Hk, Nat.sub_diag; reflexivity).
  rewrite E. pose proof (IH (S k) (pre ++ [a])) as K. rewrite app_length in K. specialize (K ltac:(cbn; lia)).
  rewrite <- app_assoc in K. cbn [app] in K. destruct (p a); cbn [map]; rewrite ?E, K; reflexivity.
Qed.
Definition inner (a b : R) (x : list R) : list R := filter (fun v => rlt a v && rlt v b) x.
Lemma between_nodes a b x : map (at_R x) (between a b x) = inner a b x.
Proof. unfold between, inner. exact (filter_map_seq (fun v => rlt a v && rlt v b) x 0 [] eq_refl). Qed.
Lemma between_in a b x i : In i (between a b x) -> (i < List.length x)%nat.
Proof. unfold between. intros H. apply filter_In in H. destruct H as [H _]. apply in_seq in H. lia. Qed.

Lemma all_some_map l : all_some (map Some l) = Some l.
Proof. induction l as [|a l IH]; [reflexivity|]. cbn. rewrite IH. reflexivity. Qed.
Lemma ordinates_value : forall x f g a b, table x f -> polygon x f g -> within x a -> within x b ->
  ordinates a b x f = Ok (map Some (map g (abscissas a b x))).
Proof.
  intros x f g a b T P A B. unfold ordinates. rewrite (eval_value x f g a), (eval_value x f g b) by assumption.
  cbn [bind]. f_equal. unfold abscissas. cbn [map]. f_equal. rewrite !map_app. cbn [map]. f_equal. rewrite !map_map. apply map_ext_in. intros i Hi.
  apply between_in in Hi. destruct T as [L [N I]]. f_equal. symmetry. apply polygon_node; assumption.
Qed.

Lemma affine_piece : forall (g : R -> R) u v c s, u <= v -> (forall t, u <= t <= v -> g t = c + s * t) -> is_RInt g u v ((v - u) * (g u + g v) / 2).
Proof.
  intros g u v c s H K. apply (is_RInt_ext (fun t => c + s * t)).
  { intros t Ht. rewrite Rmin_left, Rmax_right in Ht by lra. symmetry. apply K. lra. }
  rewrite (K u), (K v) by lra.
  assert (is_RInt (fun t => c + s * t) u v (minus (c * v + s * v ^ 2 / 2) (c * u + s * u ^ 2 / 2))) as E.
  { apply (is_RInt_derive (fun t => c * t + s * t ^ 2 / 2)).
    - intros t _. auto_derive; [exact I|]. change (t ^ 2) with (t * (t * 1)). field.
    - intros t _. apply (continuous_plus (fun _ => c) (fun t => s * t)); [apply continuous_const|]. apply (continuous_mult (fun _ => s) (fun t => t)); [apply continuous_const|apply continuous_id]. }
  refine (eq_ind _ (fun w : R => is_RInt (fun t => c + s * t) u v w) E _ _). unfold minus, plus, opp; cbn. field.
Qed.

Lemma inner_none : forall a b x, (forall v, In v x -> v <= a \/ b <= v) -> inner a b x = [].
Proof.
  intros a b. induction x as [|v x IH]; intros H; [reflexivity|]. cbn [inner filter].
  replace (rlt a v && rlt v b) with false; [apply IH; intros w Hw; apply H; right; exact Hw|].
  symmetry. apply andb_false_iff. destruct (H v (or_introl eq_refl)); [left|right]; apply rlt_false; lra.
Qed.
Lemma inner_cons : forall a b v x, inner a b (v :: x) = if rlt a v && rlt v b then v :: inner a b x else inner a b x.
Proof. reflexivity. Qed.
Lemma inner_ext : forall a a' b x, (forall v, In v x -> (a < v <-> a' < v)) -> inner a b x = inner a' b x.
Proof.
  intros a a' b. induction x as [|v x IH]; intros H; [reflexivity|]. rewrite !inner_cons.
  rewrite IH by (intros w Hw; apply H; right; exact Hw). destruct (H v (or_introl eq_refl)) as [H1 H2].
  replace (rlt a v) with (rlt a' v); [reflexivity|]. unfold rlt. destruct (Rlt_dec a' v), (Rlt_dec a v); try reflexivity; exfalso; tauto.
Qed.

Lemma polygon_tl : forall a b x f g, polygon (a :: x) (b :: f) g -> polygon x f g.
Proof. intros a b x f g P i t Hi Ht. apply (P (S i) t); [cbn; lia|exact Ht]. Qed.

Lemma trapz_cons : forall g u v l, trapz (map g (u :: v :: l)) (u :: v :: l) = (v - u) * (g u + g v) / 2 + trapz (map g (v :: l)) (v :: l).
Proof. reflexivity. Qed.
Lemma trapz_integral : forall x f g a b, x <> [] -> List.length x = List.length f -> increasing x -> polygon x f g -> within x a -> within x b -> a <= b ->
  is_RInt g a b (trapz (map g (a :: inner a b x ++ [b])) (a :: inner a b x ++ [b])).
Proof.
  induction x as [|x0 x IH]; intros f g a b N L I P A B H; [congruence|]. clear N.
  destruct x as [|x1 x].
  - unfold within, at_ in A, B; cbn [List.length nth Nat.sub] in A, B. assert (a = x0) as -> by lra. assert (b = x0) as -> by lra.
    rewrite inner_none by (intros v [->|[]]; lra). cbn. 
    refine (eq_ind _ (fun w : R => is_RInt g x0 x0 w) (is_RInt_point g x0) _ _). unfold zero; cbn. field.
  - destruct f as [|f0 f]; [cbn in L; lia|]. pose proof (increasing_tl _ _ I) as I'.
    pose proof (I O ltac:(cbn; lia)) as I0. unfold at_ in I0; cbn [nth] in I0.
    assert (forall t, within (x0 :: x1 :: x) t -> x1 <= t -> within (x1 :: x) t) as W.
    { intros t [T1 T2] T3. split; [unfold at_; cbn [nth]; exact T3|]. 
      replace (List.length (x0 :: x1 :: x) - 1)%nat with (S (List.length (x1 :: x) - 1)) in T2 by (cbn; lia). exact T2. }
    assert (forall v, In v (x1 :: x) -> x1 <= v) as G.
    { intros v [->|Hv]; [lra|]. apply Rlt_le. exact (increasing_head _ _ _ I' Hv). }
    assert (x0 <= a) as A0 by exact (proj1 A).
    rewrite inner_cons. replace (rlt a x0) with false by (symmetry; apply rlt_false; exact A0). cbn [andb].
    destruct (Rlt_dec a x1) as [C|C].
    + assert (forall t, x0 <= t <= x1 -> g t = at_ (f0 :: f) 0 - (at_ (f0 :: f) 1 - at_ (f0 :: f) 0) / (x1 - x0) * x0 + (at_ (f0 :: f) 1 - at_ (f0 :: f) 0) / (x1 - x0) * t) as K.
      { intros t Ht. rewrite (P O t ltac:(cbn; lia) Ht). unfold at_; cbn [nth]. field. lra. }
      destruct (Rle_dec b x1) as [D|D].
      * rewrite inner_none by (intros v Hv; right; pose proof (G v Hv); lra). cbn [app]. rewrite trapz_cons. 
        replace (trapz (map g [b]) [b]) with 0 by reflexivity. rewrite Rplus_0_r.
        eapply affine_piece; [exact H|]. intros t Ht. apply K. pose proof (proj1 B). lra.
      * rewrite inner_cons. replace (rlt a x1) with true by (symmetry; apply rlt_true; exact C).
        replace (rlt x1 b) with true by (symmetry; apply rlt_true; lra). cbn [andb app]. rewrite trapz_cons.
        apply (is_RInt_Chasles g a x1 b); [eapply affine_piece; [lra|]; intros t Ht; apply K; lra|].
        assert (inner a b x = inner x1 b (x1 :: x)) as ->.
        { rewrite inner_cons. replace (rlt x1 x1) with false by (symmetry; apply rlt_false; lra). cbn [andb].
          apply inner_ext. intros v Hv. pose proof (increasing_head _ _ _ I' Hv). split; lra. }
        apply (IH f g); [discriminate|cbn in L |- *; lia|exact I'|exact (polygon_tl _ _ _ _ _ P)| | |lra].
        -- split; [unfold at_; cbn [nth]; lra|]. change x1 with (at_ (x1 :: x) 0) at 1. apply increasing_le; [exact I'|lia|cbn; lia].
        -- apply W; [exact B|lra].
    + apply (IH f g); [discriminate|cbn in L |- *; lia|exact I'|exact (polygon_tl _ _ _ _ _ P)| | |exact H]; apply W; try assumption; lra.
Qed.

Lemma integrate1_value : forall x f c g a b, table x f -> polygon x f g -> within x a -> within x b ->
  integrate1 (PD (D1 f) (Vec x) c) (Some a) (Some b) = Ok (Num (Some (trapz (map g (a :: inner a b x ++ [b])) (a :: inner a b x ++ [b])))).
Proof.
  intros x f c g a b T P A B. cbn [integrate1 args_of data_of lower upper bind]. rewrite (ordinates_value x f g a b T P A B). cbn [bind].
  unfold trapz_nan. rewrite all_some_map. unfold abscissas. rewrite between_nodes. reflexivity.
Qed.
Lemma integral : forall x f g a b, table x f -> polygon x f g -> within x a -> within x b -> a <= b ->
  exists v, integrate (curve x f) (Some a) (Some b) false = Ok (Num (Some v)) /\ is_RInt g a b v.
Proof.
  intros x f g a b T P A B H. unfold integrate, curve. rewrite (integrate1_value x f None g a b T P A B). cbn [bind].
  eexists; split; [reflexivity|]. destruct T as [L [N I]]. apply (trapz_integral x f); try assumption. destruct x; [cbn in N; lia|discriminate].
Qed.
Lemma additive : forall x f a b c, table x f -> within x a -> within x c -> a <= b <= c ->
  exists u v, integrate (curve x f) (Some a) (Some b) false = Ok (Num (Some u)) /\ integrate (curve x f) (Some b) (Some c) false = Ok (Num (Some v)) /\
    integrate (curve x f) (Some a) (Some c) false = Ok (Num (Some (u + v))).
Proof.
  intros x f a b c T A C H. assert (polygon x f (interp x f)) as P by (destruct T as [L [N I]]; apply interp_polygon; assumption).
  assert (within x b) as B by (unfold within in *; lra).
  destruct (integral x f _ a b T P A B ltac:(lra)) as [u [E1 J1]]. destruct (integral x f _ b c T P B C ltac:(lra)) as [v [E2 J2]].
  destruct (integral x f _ a c T P A C ltac:(lra)) as [w [E3 J3]]. exists u, v. split; [exact E1|]. split; [exact E2|]. rewrite E3. do 3 f_equal.
  rewrite <- (is_RInt_unique _ _ _ _ J3). exact (is_RInt_unique _ _ _ _ (is_RInt_Chasles _ _ _ _ _ _ J1 J2)).
Qed.
Lemma defaults : forall x d c, x <> [] -> forall a b,
  integrate (PD d (Vec x) c) None b false = integrate (PD d (Vec x) c) (Some (at_ x 0)) b false /\
  integrate (PD d (Vec x) c) a None false = integrate (PD d (Vec x) c) a (Some (at_ x (List.length x - 1))) false.
Proof.
  intros x d c N a b. assert (0 < List.length x)%nat as Lx by (destruct x; [congruence|cbn; lia]).
  assert (lower None x = Ok (at_ x 0)) as E1 by (unfold lower; apply geti_nth; exact Lx).
  assert (upper None x = Ok (at_ x (List.length x - 1))) as E2 by (unfold upper; apply (from_end_nth x 1); lia).
  unfold integrate, integrate1. cbn [args_of]. rewrite E1, E2. split; reflexivity.
Qed.
Lemma all_some_none : forall l, In None l -> all_some l = None.
Proof.
  induction l as [|v l IH]; intros H; [easy|]. destruct v as [v|]; [|reflexivity]. destruct H as [H|H]; [discriminate|]. cbn. rewrite (IH H). reflexivity.
Qed.
Lemma outside : forall x f a b, table x f -> ~ within x a \/ ~ within x b -> integrate (curve x f) (Some a) (Some b) false = Ok (Num None).
Proof.
  intros x f a b T H. unfold integrate, curve. cbn [integrate1 args_of data_of lower upper bind]. unfold ordinates. rewrite !eval_form by exact T.
  cbn [bind]. unfold trapz_nan. rewrite all_some_none; [reflexivity|].
  assert (forall t, ~ within x t -> rlt t (at_ x 0) || rlt (at_ x (List.length x - 1)) t = true) as K.
  { intros t Ht. pose proof (eval_outside x f t T Ht) as E. rewrite eval_form in E by exact T. destruct (rlt t (at_ x 0) || rlt (at_ x (List.length x - 1)) t); [reflexivity|discriminate]. }
  destruct H as [H|H]; rewrite (K _ H).
  - left; reflexivity.
  - right. apply in_or_app. right. left. reflexivity.
Qed.
Lemma reversed : forall x f g a b, table x f -> polygon x f g -> within x a -> within x b -> b <= a ->
  integrate (curve x f) (Some a) (Some b) false = Ok (Num (Some ((b - a) * (g a + g b) / 2))).
Proof.
  intros x f g a b T P A B H. unfold integrate, curve. rewrite (integrate1_value x f None g a b T P A B). cbn [bind].
  rewrite inner_none by (intros v _; lra). cbn [app]. rewrite trapz_cons. replace (trapz (map g [b]) [b]) with 0 by reflexivity. rewrite Rplus_0_r. reflexivity.
Qed.

(* the cumulative integral *)
Lemma cum_length : forall f x s, List.length f = List.length x -> List.length (cumtrapz_from s f x) = (List.length x - 1)%nat.
Proof.
  induction f as [|f0 f IH]; intros x s L; destruct x as [|x0 x]; cbn in L; try lia; [reflexivity|].
  destruct f as [|f1 f]; destruct x as [|x1 x]; cbn in L; try lia; [reflexivity|].
  change (cumtrapz_from s (f0 :: f1 :: f) (x0 :: x1 :: x)) with ((s + (x1 - x0) * (f0 + f1) / 2) :: cumtrapz_from (s + (x1 - x0) * (f0 + f1) / 2) (f1 :: f) (x1 :: x)).
  cbn [List.length]. pose proof (IH (x1 :: x) (s + (x1 - x0) * (f0 + f1) / 2) ltac:(cbn in L |- *; lia)) as K. cbn [List.length] in K. lia.
Qed.
Lemma cum_value : forall f x g s, List.length x = List.length f -> increasing x -> polygon x f g -> (2 <= List.length x)%nat -> forall i, (i < List.length x)%nat ->
  is_RInt g (at_ x 0) (at_ x i) (nth i (s :: cumtrapz_from s f x) 0 - s).
Proof.
  induction f as [|f0 f IH]; intros x g s L I P N i Hi; [cbn in L; lia|]. destruct x as [|x0 x]; [cbn in L; lia|].
  destruct x as [|x1 x]; [cbn in N; lia|]. destruct f as [|f1 f]; [cbn in L; lia|].
  destruct i as [|i].
  - cbn [nth]. refine (eq_ind _ (fun w : R => is_RInt g _ _ w) (is_RInt_point g _) _ _). unfold zero; cbn. ring.
  - pose proof (I O ltac:(cbn; lia)) as I0. unfold at_ in I0; cbn [nth] in I0.
    assert (g x0 = f0) as G0 by exact (polygon_node _ _ g 0 I N ltac:(cbn; lia) P).
    assert (g x1 = f1) as G1 by exact (polygon_node _ _ g 1 I N ltac:(cbn; lia) P).
    set (s' := s + (x1 - x0) * (f0 + f1) / 2).
    assert (is_RInt g x0 x1 ((x1 - x0) * (g x0 + g x1) / 2)) as J1.
    { eapply affine_piece with (c := f0 - (f1 - f0) / (x1 - x0) * x0) (s := (f1 - f0) / (x1 - x0)); [lra|].
      intros t Ht. rewrite (P O t ltac:(cbn; lia) Ht). unfold at_; cbn [nth]. field. lra. }
    change (nth (S i) (s :: cumtrapz_from s (f0 :: f1 :: f) (x0 :: x1 :: x)) 0) with (nth i (s' :: cumtrapz_from s' (f1 :: f) (x1 :: x)) 0).
    change (at_ (x0 :: x1 :: x) 0) with x0. change (at_ (x0 :: x1 :: x) (S i)) with (at_ (x1 :: x) i).
    destruct (Nat.eq_dec i 0) as [E|E].
    + subst i. cbn [nth]. change (at_ (x1 :: x) 0) with x1. rewrite G0, G1 in J1. refine (eq_ind _ (fun w : R => is_RInt g _ _ w) J1 _ _). unfold s'. field.
    + pose proof (IH (x1 :: x) g s' ltac:(cbn in L |- *; lia) (increasing_tl _ _ I) (polygon_tl _ _ _ _ _ P) ltac:(cbn in Hi |- *; lia) i ltac:(cbn in Hi |- *; lia)) as J2.
      change (at_ (x1 :: x) 0) with x1 in J2.
      refine (eq_ind _ (fun w : R => is_RInt g _ _ w) (is_RInt_Chasles _ _ _ _ _ _ J1 J2) _ _). rewrite G0, G1. unfold plus; cbn [AbelianGroup.plus]. cbn. unfold s'. field.
Qed.
Lemma cdf_integral : forall x f g, table x f -> polygon x f g ->
  exists F, to_cdf (curve x f) = Ok (curve x F) /\ List.length F = List.length x /\ at_ F 0 = 0 /\
    (forall i, (i < List.length x)%nat -> is_RInt g (at_ x 0) (at_ x i) (at_ F i)).
Proof.
  intros x f g [L [N I]] P. unfold to_cdf, curve. cbn [args_of data_of]. unfold cumtrapz. rewrite <- L, Nat.eqb_refl. cbn [bind].
  eexists. split; [reflexivity|]. split; [cbn [List.length]; rewrite cum_length by lia; lia|]. split; [reflexivity|].
  intros i Hi. pose proof (cum_value f x g 0 L I P N i Hi) as K. rewrite Rminus_0_r in K. exact K.
Qed.
Lemma polygon_le : forall x f f' g g' t, table x f -> (forall i, (i < List.length x)%nat -> at_ f i <= at_ f' i) -> polygon x f g -> polygon x f' g' -> within x t -> g t <= g' t.
Proof.
  intros x f f' g g' t [L [N I]] H P Q W. destruct (cell x t I N W) as [i [Hi Ht]]. rewrite (P i t Hi Ht), (Q i t Hi Ht).
  pose proof (I i Hi) as K. set (w := (t - at_ x i) / (at_ x (S i) - at_ x i)).
  assert (0 <= w <= 1) as W1.
  { unfold w, Rdiv. split; [apply Rmult_le_pos; [lra|]; apply Rlt_le, Rinv_0_lt_compat; lra|].
    apply (Rmult_le_reg_r (at_ x (S i) - at_ x i)); [lra|]. rewrite Rmult_assoc, Rinv_l by lra. lra. }
  pose proof (H i ltac:(lia)) as H1. pose proof (H (S i) Hi) as H2. nra.
Qed.
Lemma zeros : forall (x : list R) n, at_ (map (fun _ : R => 0) x) n = 0.
Proof. induction x as [|a x IH]; intros [|n]; try reflexivity. exact (IH n). Qed.
Lemma cdf_monotone : forall x f, table x f -> (forall i, (i < List.length x)%nat -> 0 <= at_ f i) ->
  exists F, to_cdf (curve x f) = Ok (curve x F) /\ at_ F 0 = 0 /\ nondecreasing F.
Proof.
  intros x f T H. assert (polygon x f (interp x f)) as P by (destruct T as [L [N I]]; apply interp_polygon; assumption).
  destruct (cdf_integral x f _ T P) as [F [E [LF [F0 K]]]]. exists F. split; [exact E|]. split; [exact F0|]. intros i Hi. rewrite LF in Hi.
  destruct T as [L [N I]]. pose proof (I i Hi) as Ii.
  pose proof (is_RInt_Chasles _ _ _ _ _ _ (is_RInt_swap _ _ _ _ (K i ltac:(lia))) (K (S i) Hi)) as J.
  assert (polygon x (map (fun _ => 0) x) (fun _ => 0)) as Q.
  { intros j t Hj Ht.
    rewrite !zeros. ring. }
  assert (is_RInt (fun _ => 0) (at_ x i) (at_ x (S i)) 0) as J0.
  { pose proof (is_RInt_const (V := R_NormedModule) (at_ x i) (at_ x (S i)) 0) as C0. 
    assert ((at_ x (S i) - at_ x i) * 0 = 0) as C1 by ring.
    exact (eq_ind _ (fun w : R => is_RInt (V := R_NormedModule) (fun _ => 0) (at_ x i) (at_ x (S i)) w) C0 _ C1). }
  assert (forall t, at_ x i < t < at_ x (S i) -> 0 <= interp x f t) as G.
  { intros t Ht.
    apply (polygon_le x (map (fun _ => 0) x) f (fun _ => 0) (interp x f)); [repeat split; [rewrite map_length; reflexivity|exact N|exact I]| |exact Q|exact P|].
    - intros j Hj. rewrite zeros. apply H; exact Hj.
    - split.
      + apply Rle_trans with (at_ x i); [apply increasing_le; [exact I|lia|lia]|lra].
      + apply Rle_trans with (at_ x (S i)); [lra|apply increasing_le; [exact I|lia|lia]]. }
  pose proof (is_RInt_le (fun _ => 0) (interp x f) (at_ x i) (at_ x (S i)) _ _ ltac:(lra) J0 J G) as M.
  change (0 <= - at_ F i + at_ F (S i)) in M. lra.
Qed.
