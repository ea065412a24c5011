From Coq Require Import Reals List Lra Lia Bool Arith ZArith.
From Coquelicot Require Import Coquelicot.
From Verif Require Import Base ArSpec PolyModel KdeModel ProcModel DftModel DftProofs CsimProofs ArProofs2 PadeProofs Sg2Proofs2 OscModel OscSpec OscProofs OscProofs2 OscProofs3 OscProofs4 OscProofs5 OscProofs6.
Import ListNotations.
Local Open Scope R_scope.
Set Bullet Behavior "Strict Subproofs".

(* ---- points ---- *)
Lemma doubled_spec fuel : forall m_1 delta, 0 < delta -> m_1 / 2 < delta * 2 ^ fuel -> exists d, doubled fuel m_1 delta = Ok d /\ delta <= d /\ m_1 / 2 < d.
Proof.
  induction fuel as [|fuel IH]; intros m_1 delta P H; cbn [doubled]; destruct (Rle_dec 1 (1 / 2 * m_1 / delta)) as [L|L].
  - exfalso. cbn [pow] in H. apply (Rmult_le_compat_r delta) in L; [|lra]. unfold Rdiv in L. rewrite !Rmult_assoc, Rinv_l in L by lra. lra.
  - exists delta. split; [reflexivity|split; [lra|]]. cbn [pow] in H. lra.
  - destruct (IH m_1 (2 * delta)) as (d & E & D1 & D2); [lra|cbn [pow] in H; lra|]. exists d. split; [exact E|split; lra].
  - exists delta. split; [reflexivity|split; [lra|]]. apply Rnot_le_lt in L. apply (Rmult_lt_compat_r delta) in L; [|lra]. unfold Rdiv in L. rewrite !Rmult_assoc, Rinv_l in L by lra. lra.
Qed.
Lemma pow2_lin n : INR n < 2 ^ n.
Proof. induction n as [|n IH]; [cbn; lra|]. rewrite S_INR. cbn [pow]. assert (1 <= 2 ^ n) by (apply pow_R1_Rle; lra). lra. Qed.
Lemma nth_points (h : nat -> R) m i : (i < m)%nat -> nth i (map h (seq 0 m)) 0 = h i.
Proof. intros H. rewrite (nth_indep (map h (seq 0 m)) 0 (h 0%nat)) by (rewrite map_length, seq_length; exact H). now rewrite map_nth, seq_nth. Qed.
Lemma adaptive_spec p delta : 1 <= delta -> exists d, adaptive_levin_points (2 * p + 1) delta = Ok (map (fun k => if (k <? p)%nat then -1 + INR k / d else if (k =? p)%nat then 0 else 1 - (INR (2 * p) - INR k) / d) (seq 0 (2 * p + 1))) /\ INR p < d /\ delta <= d.
Proof.
  intros D. unfold adaptive_levin_points. assert (M : INR (2 * p + 1) - 1 = INR (2 * p)) by (rewrite plus_INR; change (INR 1) with 1; ring).
  destruct (doubled_spec (2 * p + 1) (INR (2 * p + 1) - 1) delta) as (d & E & D1 & D2); [lra| |].
  { rewrite M, mult_INR. change (INR 2) with 2. pose proof (pow2_lin (2 * p + 1)) as K. rewrite plus_INR, mult_INR in K. change (INR 2) with 2 in K. change (INR 1) with 1 in K. pose proof (pos_INR p). assert (2 ^ (2 * p + 1) <= delta * 2 ^ (2 * p + 1)) by (pose proof (pow_lt 2 (2 * p + 1)); nra). lra. }
  rewrite E. cbn [bind]. exists d. rewrite M in *. split; [|split; [rewrite mult_INR in D2; change (INR 2) with 2 in D2; lra|exact D1]]. f_equal. apply map_ext. intros k.
  replace (2 * p + 1 - 1)%nat with (2 * p)%nat by lia. replace ((2 * p + 1) / 2)%nat with p by (rewrite Nat.add_comm, Nat.mul_comm, Nat.div_add by lia; reflexivity).
  destruct (Nat.ltb_spec k p), (Nat.ltb_spec (2 * k) (2 * p)); try lia; reflexivity.
Qed.
Lemma adaptive_increasing p d i j : INR p < d -> (i < j < 2 * p + 1)%nat ->
  (fun k => if (k <? p)%nat then -1 + INR k / d else if (k =? p)%nat then 0 else 1 - (INR (2 * p) - INR k) / d) i < (fun k => if (k <? p)%nat then -1 + INR k / d else if (k =? p)%nat then 0 else 1 - (INR (2 * p) - INR k) / d) j.
Proof.
  intros D H. cbv beta. pose proof (pos_INR p) as P. assert (Id : 0 < / d) by (apply Rinv_0_lt_compat; lra). assert (Dd : d * / d = 1) by (apply Rinv_r; lra).
  assert (IJ : INR i < INR j) by (apply lt_INR; lia). rewrite mult_INR. change (INR 2) with 2. unfold Rdiv.
  assert (Lo : forall k, (k < p)%nat -> -1 + INR k * / d < 0) by (intros k Hk; apply lt_INR in Hk; nra).
  assert (Hi : forall k, (p < k)%nat -> 0 < 1 - (2 * INR p - INR k) * / d) by (intros k Hk; apply lt_INR in Hk; nra).
  destruct (Nat.ltb_spec i p), (Nat.ltb_spec j p); try lia.
  - nra.
  - destruct (Nat.eqb_spec j p) as [->|]; [now apply Lo|]. pose proof (Lo i H0). assert (0 < 1 - (2 * INR p - INR j) * / d) by (apply Hi; lia). lra.
  - destruct (Nat.eqb_spec i p) as [->|]; destruct (Nat.eqb_spec j p) as [->|]; try lia; [apply Hi; lia|nra].
Qed.
Lemma levin_points p delta : (1 <= p)%nat -> 1 <= delta -> exists x, adaptive_levin_points (2 * p + 1) delta = Ok x /\ List.length x = (2 * p + 1)%nat /\ increasing x /\ nth 0 x 0 = -1 /\ nth p x 0 = 0 /\ nth (2 * p) x 0 = 1.
Proof.
  intros Hp D. destruct (adaptive_spec p delta D) as (d & E & D1 & D2). eexists. split; [exact E|]. split; [now rewrite map_length, seq_length|]. split; [|split; [|split]].
  - intros i j H. rewrite map_length, seq_length in H. rewrite !nth_points by lia. exact (adaptive_increasing p d i j D1 H).
  - rewrite nth_points by lia. destruct (Nat.ltb_spec 0 p); [|lia]. cbn [INR]. unfold Rdiv. ring.
  - rewrite nth_points by lia. destruct (Nat.ltb_spec p p); [lia|]. now rewrite Nat.eqb_refl.
  - rewrite nth_points by lia. destruct (Nat.ltb_spec (2 * p) p); [lia|]. destruct (Nat.eqb_spec (2 * p) p); [lia|]. unfold Rdiv. ring.
Qed.
Lemma inner_list {A : Type} (x : list A) n : List.length x = (n + 2)%nat -> exists u y v, x = u :: y ++ [v] /\ removelast (tl x) = y /\ List.length y = n.
Proof.
  intros L. destruct x as [|u x]; [cbn in L; lia|]. cbn [tl]. destruct (@exists_last A x) as (y & v & ->); [intros ->; cbn in L; lia|]. exists u, y, v. split; [reflexivity|]. split; [apply removelast_last|]. cbn in L. rewrite app_length in L. cbn in L. lia.
Qed.
Lemma open_points p delta : 1 <= delta -> exists x, open_levin_points (2 * p + 1) delta = Ok x /\ List.length x = (2 * p + 1)%nat /\ increasing x /\ (forall t, In t x -> -1 < t < 1) /\ nth p x 0 = 0.
Proof.
  intros D. unfold open_levin_points. replace (2 * p + 1 + 2)%nat with (2 * (S p) + 1)%nat by lia. destruct (levin_points (S p) delta) as (z & E & L & I & X0 & X1 & X2); [lia|exact D|]. rewrite E. cbn [bind].
  destruct (inner_list z (2 * p + 1)) as (u & y & v & -> & R1 & Ly); [lia|]. exists y. rewrite R1. split; [reflexivity|]. split; [exact Ly|].
  assert (N : forall i, (i < List.length y)%nat -> nth (S i) (u :: y ++ [v]) 0 = nth i y 0) by (intros i Hi; cbn [nth]; now rewrite app_nth1).
  assert (LL : List.length (u :: y ++ [v]) = (List.length y + 2)%nat) by (cbn; rewrite app_length; cbn; lia).
  split; [|split].
  - intros i j H. rewrite <- (N i), <- (N j) by lia. apply I. lia.
  - intros t Ht. apply (In_nth _ _ 0) in Ht. destruct Ht as (i & Hi & <-). rewrite <- (N i Hi), <- X0, <- X2. split; apply I; lia.
  - rewrite <- (N p) by lia. exact X1.
Qed.
Lemma increasing_nodup x : increasing x -> NoDup x.
Proof.
  intros I. apply (NoDup_nth x 0). intros i j Hi Hj E. destruct (Nat.lt_trichotomy i j) as [H|[H|H]]; [|exact H|].
  - specialize (I i j ltac:(lia)). lra.
  - specialize (I j i ltac:(lia)). lra.
Qed.

(* ---- the limits ---- *)
Lemma insert_in v l u : In u (insert_ v l) <-> u = v \/ In u l.
Proof.
  induction l as [|w l IH]; cbn [insert_ In]; [intuition|]. destruct (Rlt_dec v w); [cbn; intuition|]. destruct (Req_EM_T v w) as [->|]; [cbn; intuition|]. cbn [In]. rewrite IH. intuition.
Qed.
Inductive sorted : list R -> Prop := s_nil : sorted [] | s_cons u l : (forall v, In v l -> u < v) -> sorted l -> sorted (u :: l).
Lemma insert_sorted v l : sorted l -> sorted (insert_ v l).
Proof.
  induction l as [|w l IH]; intros H; cbn [insert_]; [constructor; [intros ? []|exact H]|]. inversion H as [|? ? H1 H2]; subst. destruct (Rlt_dec v w) as [L|L]; [constructor; [|exact H]|].
  - intros u [<-|Hu]; [exact L|]. specialize (H1 u Hu). lra.
  - destruct (Req_EM_T v w) as [->|]; [exact H|]. constructor; [|now apply IH]. intros u Hu. apply insert_in in Hu. destruct Hu as [->|Hu]; [lra|now apply H1].
Qed.
Lemma unique_sorted l : sorted (unique l). Proof. induction l as [|v l IH]; [constructor|]. cbn. now apply insert_sorted. Qed.
Lemma filter_sorted h l : sorted l -> sorted (filter h l).
Proof. induction 1 as [|u l H1 H2 IH]; cbn [filter]; [constructor|]. destruct (h u); [|exact IH]. constructor; [|exact IH]. intros v Hv. apply filter_In in Hv. now apply H1. Qed.
Lemma sorted_end l b : sorted l -> (forall v, In v l -> v < b) -> sorted (l ++ [b]).
Proof. induction 1 as [|u l H1 H2 IH]; intros H; cbn [app]; [constructor; [intros ? []|constructor]|]. constructor; [|apply IH; intros; apply H; now right]. intros v Hv. apply in_app_or in Hv. destruct Hv as [Hv|[<-|[]]]; [now apply H1|apply H; now left]. Qed.
Lemma sorted_increasing l : sorted l -> increasing l.
Proof.
  induction 1 as [|u l H1 H2 IH]; intros i j H; cbn [List.length] in H; [lia|]. destruct j as [|j]; [lia|]. destruct i as [|i]; cbn [nth]; [apply H1, nth_In; lia|apply IH; lia].
Qed.
Lemma limits_partition crossings dg a b om : a < b -> partition a b (integration_limits crossings dg a b om).
Proof.
  intros L. unfold integration_limits. cbv zeta. eexists. split; [reflexivity|]. apply sorted_increasing. set (m := filter _ _).
  assert (M : forall v, In v m -> a < v < b) by (intros v Hv; apply filter_In in Hv; destruct Hv as [_ Hv]; destruct (Rlt_dec a v); [destruct (Rlt_dec v b); [lra|discriminate]|discriminate]).
  constructor; [intros v Hv; apply in_app_or in Hv; destruct Hv as [Hv|[<-|[]]]; [now apply M|exact L]|]. apply sorted_end; [apply filter_sorted, unique_sorted|]. intros v Hv. now apply M.
Qed.
(* all crossings between a and b are limits *)
Lemma limits_all crossings dg a b om v u : a < u < b -> In v [30; 1; 0; -1; -30] -> In u (crossings (linspace a b 31) (map (fun t => (b - a) / 2 * om * dg t) (linspace a b 31)) v) -> In u (integration_limits crossings dg a b om).
Proof.
  intros U V H. unfold integration_limits. cbv zeta. right. apply in_or_app. left. apply filter_In. split; [|destruct (Rlt_dec a u); [destruct (Rlt_dec u b); [reflexivity|lra]|lra]].
  assert (Q : forall l, In u (unique l) <-> In u l) by (induction l as [|w l IH]; [reflexivity|]; cbn [unique fold_right In]; rewrite insert_in; fold (unique l); rewrite IH; intuition).
  apply Q. cbn [In] in V. rewrite !in_app_iff. destruct V as [<-|[<-|[<-|[<-|[<-|[]]]]]]; tauto.
Qed.

(* ---- one piece ---- *)
Lemma refine_same counts points rule abseps v : 0 <= abseps -> forall n err evals, (forall c, In c counts -> exists x, points c = Ok x /\ List.length x = c /\ rule x = v) ->
  exists err' evals', refine counts points rule abseps n (Some v) err evals = Ok (Some v, err', evals') /\ (err <= abseps -> err' <= abseps).
Proof.
  intros A. induction counts as [|c counts IH]; intros n err evals H; cbn [refine]; [do 2 eexists; split; [reflexivity|auto]|].
  destruct (H c (or_introl eq_refl)) as (x & E & L & V). rewrite E. cbn [bind]. rewrite L, V. destruct (Nat.ltb_spec n c).
  - cbn [distance]. rewrite Cmod_diag. destruct (Rle_dec 0 abseps); [|lra]. do 2 eexists. split; [reflexivity|auto].
  - apply IH. intros c' Hc. apply H. now right.
Qed.
Lemma refine_all c counts c2 points rule abseps v : 0 <= abseps -> (0 < c < c2)%nat -> (forall k, In k (c :: c2 :: counts) -> exists x, points k = Ok x /\ List.length x = k /\ rule x = v) ->
  exists err' evals', refine (c :: c2 :: counts) points rule abseps 0 None 0 0 = Ok (Some v, err', evals') /\ err' <= abseps.
Proof.
  intros A C H. cbn [refine]. destruct (H c (or_introl eq_refl)) as (x & E & L & V). rewrite E. cbn [bind]. rewrite L, V. destruct (Nat.ltb_spec 0 c); [|lia].
  destruct (Rle_dec (distance v None) abseps) as [D|D]; [do 2 eexists; split; [reflexivity|exact D]|].
  destruct (H c2 (or_intror (or_introl eq_refl))) as (x2 & E2 & L2 & V2). rewrite E2. cbn [bind]. rewrite L2, V2. destruct (Nat.ltb_spec c c2); [|lia]. cbn [distance]. rewrite Cmod_diag. destruct (Rle_dec 0 abseps); [|lra]. do 2 eexists. split; [reflexivity|lra].
Qed.
(* the number of points *)
Lemma num_points_pos evans s prec betam : 0 <= prec -> (1 <= num_points evans s prec betam)%nat.
Proof.
  intros P. unfold num_points. destruct (1 <? s)%nat; [destruct evans; lia|]. assert (Q : 0 <= prec / Rmax (ln (betam + 1) / ln 10) 1) by (apply Rmult_le_pos; [exact P|left; apply Rinv_0_lt_compat; pose proof (Rmax_r (ln (betam + 1) / ln 10) 1); lra]).
  unfold floor, Int_part. pose proof (archimed (prec / Rmax (ln (betam + 1) / ln 10) 1 + 1)) as [A1 A2]. assert (Z : (1 < up (prec / Rmax (ln (betam + 1) / ln 10) 1 + 1))%Z) by (apply lt_IZR; lra). lia.
Qed.
Lemma num_points_evans s prec betam : (1 < s)%nat -> num_points true s prec betam = 8%nat.
Proof. intros H. unfold num_points. destruct (Nat.ltb_spec 1 s); [reflexivity|lia]. Qed.
Lemma rules_equal evans ls B om (f g dg : R -> R) x c : solves_systems ls -> is_basis B -> has_rule om g dg (-1) 1 x -> (forall t, RtoC (f t) = amplitude om dg (List.length x) c t) ->
  (if evans : bool then evans_webster ls B om f g dg x else a_levin ls B om f g dg x) = boundary om g (List.length x) c (-1) 1.
Proof. intros LS HB HR F. destruct evans; [apply evans_exact|apply levin_exact]; auto. Qed.
Lemma qal_linear evans ls B prec (endpoints : bool) s f g dg a b om al be m c v : solves_systems ls -> is_basis B -> 0 <= prec -> a <> b -> (forall t, g t = al * t + be) -> (forall t, dg t = al) -> om * al <> 0 ->
  (forall t, RtoC (f t) = cpoly m c t) -> (m <= 2 * (if (evans && (1 <? s)%nat)%bool then 8 else 1) + 1)%nat -> integral (oscillating om g (fun t => RtoC (f t))) a b v ->
  exists err n, qal evans ls B prec endpoints s f g dg a b om = Ok (Some v, err, n) /\ err <= 10 * Rpower 10 (- prec).
Proof.
  intros LS HB P N G D Nz F Lm Iv. unfold qal. cbv zeta. set (sc := (b - a) / 2). set (of := (a + b) / 2). assert (Sc : sc <> 0) by (unfold sc; lra).
  set (delta := Rmin _ _). set (alpha := Rmin (Rabs (om * g _)) _). set (simple := ((if Rlt_dec delta 10 then true else false) || (if Rle_dec alpha 10 then true else false) || (1 <? s)%nat)%bool). set (k := num_points evans s prec delta).
  assert (Hk : (1 <= k)%nat) by now apply num_points_pos.
  assert (Hk2 : ((if (evans && (1 <? s)%nat)%bool then 8 else 1) <= k)%nat).
  { unfold k, num_points. destruct evans, (1 <? s)%nat eqn:E1; cbn [andb]; try lia; pose proof Hk as Hk'; unfold k, num_points in Hk'; rewrite E1 in Hk'; exact Hk'. }
  cbn [seq map]. apply refine_all; [pose proof (exp_pos (- prec * ln 10)); unfold Rpower; lra|cbn [Nat.pow]; lia|].
  intros q Hq. assert (Q : exists i, (1 <= i)%nat /\ q = (2 * (k * i) + 1)%nat).
  { cbn [In Nat.pow] in Hq. destruct Hq as [<-|[<-|[<-|[<-|[]]]]]; [exists 1%nat|exists 2%nat|exists 4%nat|exists 8%nat]; lia. }
  destruct Q as (i & Hi & ->). set (p := (k * i)%nat). assert (Hp : (k <= p)%nat) by (unfold p; nia).
  assert (Pt : exists x, (if simple then Ok (if endpoints then chebyshev_extrema (2 * p + 1) else chebyshev_roots (2 * p + 1)) else if endpoints then adaptive_levin_points (2 * p + 1) delta else open_levin_points (2 * p + 1) delta) = Ok x /\ List.length x = (2 * p + 1)%nat /\ NoDup x).
  { destruct simple eqn:Sm.
    - eexists. split; [reflexivity|]. fold (the_points endpoints (2 * p + 1)). split; [apply points_length|apply the_points_nodup; lia].
    - assert (D1 : 1 <= delta) by (unfold simple in Sm; destruct (Rlt_dec delta 10); [discriminate|lra]). destruct endpoints.
      + destruct (levin_points p delta ltac:(lia) D1) as (x & E & L & I & _). exists x. split; [exact E|]. split; [exact L|now apply increasing_nodup].
      + destruct (open_points p delta D1) as (x & E & L & I & _). exists x. split; [exact E|]. split; [exact L|now apply increasing_nodup]. }
  destruct Pt as (x & E & L & Nd). exists x. split; [exact E|]. split; [exact L|].
  destruct (poly_amplitude om dg al (List.length x) m c Nz D) as [d Hd]; [rewrite L; lia|]. destruct (affine_amplitude om dg (List.length x) d sc of) as [d' Hd'].
  rewrite (rules_equal evans ls B om _ _ _ x d' LS HB).
  - unfold boundary. rewrite !(proj2 (Hd' g _)). replace (sc * 1 + of) with b by (unfold sc, of; field). replace (sc * -1 + of) with a by (unfold sc, of; field).
    cut (integral (oscillating om g (fun t => RtoC (f t))) a b (boundary om g (List.length x) d a b)); [intros [J1 J2]; destruct Iv as [I1 I2]; apply C_ext; [exact (unique_integral _ _ _ _ _ J1 I1)|exact (unique_integral _ _ _ _ _ J2 I2)]|].
    destruct (amplitude_integral om g dg (List.length x) d a b (linear_phase g dg al be G D)) as [I1 I2]. split; [apply (is_RInt_ext (fun t => fst (oscillating om g (amplitude om dg (List.length x) d) t))); [|exact I1]|apply (is_RInt_ext (fun t => snd (oscillating om g (amplitude om dg (List.length x) d) t))); [|exact I2]]; intros t _; unfold oscillating; now rewrite Hd, F.
  - apply (linear_rule om _ _ (al * sc) (al * of + be)); [intros t; rewrite G; ring|intros t; rewrite D; ring|exact Nd].
  - intros t. rewrite (proj1 (Hd' g t)), Hd, <- F. apply C_ext; cbn; ring.
Qed.
Lemma pieces_exact q (F : R -> R -> C) e0 : (forall u v w, Cplus (F u v) (F v w) = F u w) -> (forall u, F u u = RtoC 0) -> forall l a val err n,
  (forall i, (S i < List.length (a :: l))%nat -> exists e k, q (nth i (a :: l) 0) (nth (S i) (a :: l) 0) = Ok (Some (F (nth i (a :: l) 0) (nth (S i) (a :: l) 0)), e, k) /\ e <= e0) ->
  exists err' n', add_pieces q (a :: l) val err n = Ok (Cplus val (F a (last l a)), err', n') /\ err' <= err + INR (List.length l) * e0.
Proof.
  intros A Z. induction l as [|b l IH]; intros a val err n H.
  - cbn [add_pieces]. exists err, n. cbn [last List.length INR]. rewrite Z. split; [do 3 f_equal; ring|lra].
  - destruct (H 0%nat) as (e & k & E & Le); [cbn; lia|]. cbn [nth] in E.
    assert (St : add_pieces q (a :: b :: l) val err n = add_pieces q (b :: l) (Cplus val (F a b)) (err + e) (n + k)) by (change (add_pieces q (a :: b :: l) val err n) with (let* r := q a b in let '(v, e, k) := r in add_pieces q (b :: l) (Cplus val match v with Some v => v | None => RtoC (10 ^ 300) end) (err + e) (n + k)); rewrite E; reflexivity). rewrite St. clear St.
    destruct (IH b (Cplus val (F a b)) (err + e) (n + k)%nat) as (err' & n' & E' & L').
    { intros i Hi. apply (H (S i)). cbn [List.length] in *. lia. }
    exists err', n'. split.
    + rewrite E'. do 3 f_equal. replace (last (b :: l) a) with (last l b) by (destruct l as [|c l]; [reflexivity|]; cbn [last]; clear; revert c; induction l as [|d l IH]; intros c; [reflexivity|]; cbn [last] in *; apply IH). rewrite <- (A a b (last l b)). ring.
    + cbn [List.length]. rewrite S_INR. lra.
Qed.
Lemma last_end {A : Type} (m : list A) b d : last (m ++ [b]) d = b.
Proof. induction m as [|u m IH]; [reflexivity|]. cbn [app last]. destruct (m ++ [b]) eqn:E; [destruct m; discriminate|exact IH]. Qed.
Lemma levin_linear evans ls B crossings prec (endpoints : bool) s f g dg a b om al be m c : solves_systems ls -> is_basis B -> 0 <= prec -> a <> b -> (forall t, g t = al * t + be) -> (forall t, dg t = al) -> om * al <> 0 ->
  (forall t, RtoC (f t) = cpoly m c t) -> (m <= 2 * (if (evans && (1 <? s)%nat)%bool then 8 else 1) + 1)%nat ->
  exists v err n, levin_call evans ls B crossings prec endpoints s f g dg a b om = Ok (v, err, n) /\ integral (oscillating om g (fun t => RtoC (f t))) a b v.
Proof.
  intros LS HB P N G D Nz F Lm. destruct (poly_amplitude om dg al m m c Nz D (le_n m)) as [d Hd]. set (Fv := fun u v => boundary om g m d u v).
  assert (Iv : forall u v, integral (oscillating om g (fun t => RtoC (f t))) u v (Fv u v)).
  { intros u v. destruct (amplitude_integral om g dg m d u v (linear_phase g dg al be G D)) as [I1 I2]. split; [apply (is_RInt_ext (fun t => fst (oscillating om g (amplitude om dg m d) t))); [|exact I1]|apply (is_RInt_ext (fun t => snd (oscillating om g (amplitude om dg m d) t))); [|exact I2]]; intros t _; unfold oscillating; now rewrite Hd, F. }
  unfold levin_call. set (q := fun ai bi => qal evans ls B prec endpoints s f g dg ai bi om).
  assert (Dist : forall i, (S i < List.length (integration_limits crossings dg a b om))%nat -> nth i (integration_limits crossings dg a b om) 0 <> nth (S i) (integration_limits crossings dg a b om) 0).
  { destruct (Rlt_dec a b) as [L|L].
    - destruct (limits_partition crossings dg a b om L) as (mm & _ & I). intros i Hi. specialize (I i (S i) ltac:(lia)). lra.
    - assert (E : integration_limits crossings dg a b om = [a; b]).
      { unfold integration_limits. cbv zeta. set (h := fun i => _). replace (filter h _) with (@nil R); [reflexivity|]. symmetry. generalize (unique (crossings (linspace a b 31) (map (fun t => (b - a) / 2 * om * dg t) (linspace a b 31)) 30 ++ crossings (linspace a b 31) (map (fun t => (b - a) / 2 * om * dg t) (linspace a b 31)) 1 ++ crossings (linspace a b 31) (map (fun t => (b - a) / 2 * om * dg t) (linspace a b 31)) 0 ++ crossings (linspace a b 31) (map (fun t => (b - a) / 2 * om * dg t) (linspace a b 31)) (-1) ++ crossings (linspace a b 31) (map (fun t => (b - a) / 2 * om * dg t) (linspace a b 31)) (-30))). induction l as [|u l IH]; [reflexivity|]. cbn [filter]. unfold h at 1. destruct (Rlt_dec a u); [destruct (Rlt_dec u b); [lra|exact IH]|exact IH]. }
      rewrite E. intros i Hi. cbn [List.length] in Hi. replace i with 0%nat by lia. exact N. }
  unfold integration_limits in *. cbv zeta in *. match goal with |- context [add_pieces q (a :: ?l ++ [b])] => set (inner := l) in * end.
  destruct (pieces_exact q Fv (10 * Rpower 10 (- prec))) with (l := inner ++ [b]) (a := a) (val := RtoC 0) (err := 0) (n := 0%nat) as (err' & n' & E & Le).
  - intros u v w. unfold Fv, boundary. ring.
  - intros u. unfold Fv, boundary. ring.
  - intros i Hi. specialize (Dist i Hi). set (u := nth i (a :: inner ++ [b]) 0) in *. set (v := nth (S i) (a :: inner ++ [b]) 0) in *. clearbody u v.
    exact (qal_linear evans ls B prec endpoints s f g dg u v om al be m c (Fv u v) LS HB P Dist G D Nz F Lm (Iv u v)).
  - exists (Fv a b), err', n'. split; [|apply Iv]. rewrite E, last_end. do 3 f_equal. apply Cplus_0_l.
Qed.
(* ---- extrapolation ---- *)
Lemma richardson_exact q Q A r k : (2 <= k)%nat -> A <> 0 -> 0 < r -> r <= 100 / 107 -> (forall j, q j = Q + A * r ^ j) -> richardson q k = Q.
Proof.
  intros Hk HA R0 R1 H. destruct k as [|[|k]]; [lia|lia|]. unfold richardson. rewrite !H. replace (S (S k) - 1)%nat with (S k) by lia. replace (S (S k) - 2)%nat with k by lia. cbn [pow].
  assert (P : r ^ k <> 0) by (apply pow_nonzero; lra). assert (R2 : r - 1 <> 0) by lra. assert (R3 : r <> 0) by lra. set (z := r ^ k) in *.
  replace (Q + A * (r * z) - (Q + A * z)) with (A * z * (r - 1)) by ring. replace (Q + A * (r * (r * z)) - (Q + A * (r * z))) with (A * z * r * (r - 1)) by ring.
  replace (A * z * (r - 1) / (A * z * r * (r - 1))) with (/ r) by (field; repeat split; assumption).
  rewrite Rmax_left.
  - replace (/ r - 1) with (- (r - 1) / r) by (field; lra). field. split; assumption.
  - assert (107 / 100 <= / r) by (apply (Rmult_le_reg_r r); [lra|]; rewrite Rinv_l by lra; lra). lra.
Qed.

(* ---- changes of variables ---- *)
Lemma change_real (h phi dphi : R -> R) u v w : (forall t, continuous h t) -> (forall t, Rmin u v <= t <= Rmax u v -> is_derive phi t (dphi t) /\ continuous dphi t) ->
  is_RInt h (phi u) (phi v) w -> is_RInt (fun t => dphi t * h (phi t)) u v w.
Proof.
  intros H P I1. pose proof (is_RInt_comp (V := R_CompleteNormedModule) h phi dphi u v (fun t _ => H (phi t)) P) as K. rewrite (is_RInt_unique (V := R_CompleteNormedModule) h _ _ w I1) in K. exact K.
Qed.
Lemma osc_continuous om g dg (f : R -> C) : phase g dg -> continuous_amplitude f -> (forall t, continuous (fun t => fst (oscillating om g f t)) t) /\ (forall t, continuous (fun t => snd (oscillating om g f t)) t).
Proof.
  intros Ph [F1 F2]. assert (G : forall t, continuous (fun t => om * g t) t) by (intros t; apply (continuous_scal_r (V := R_NormedModule) om g); apply (ex_derive_continuous (V := R_NormedModule)); eexists; apply Ph).
  assert (Cc : forall t, continuous (fun t => cos (om * g t)) t) by (intros t; apply (continuous_comp (fun t => om * g t) cos); [apply G|apply continuous_cos]).
  assert (Cs : forall t, continuous (fun t => sin (om * g t)) t) by (intros t; apply (continuous_comp (fun t => om * g t) sin); [apply G|apply continuous_sin]).
  split; intros t; unfold oscillating, cis; cbn [fst snd Cmult].
  - apply (continuous_minus (V := R_NormedModule)); apply (continuous_mult (K := R_AbsRing)); auto.
  - apply (continuous_plus (V := R_NormedModule)); apply (continuous_mult (K := R_AbsRing)); auto.
Qed.
Lemma change_osc om g dg f g1 f1 phi dphi u v w : phase g dg -> continuous_amplitude f -> (forall t, Rmin u v <= t <= Rmax u v -> is_derive phi t (dphi t) /\ continuous dphi t) ->
  (forall t, f1 t = Cmult (RtoC (dphi t)) (f (phi t))) -> (forall t, g1 t = g (phi t)) -> integral (oscillating om g f) (phi u) (phi v) w -> integral (oscillating om g1 f1) u v w.
Proof.
  intros Ph Fc P E1 E2 [I1 I2]. destruct (osc_continuous om g dg f Ph Fc) as [C1 C2]. split.
  - apply (is_RInt_ext (fun t => dphi t * fst (oscillating om g f (phi t)))); [|exact (change_real _ _ _ _ _ _ C1 P I1)]. intros t _. unfold oscillating. rewrite E1, E2. cbn. rring.
  - apply (is_RInt_ext (fun t => dphi t * snd (oscillating om g f (phi t)))); [|exact (change_real _ _ _ _ _ _ C2 P I2)]. intros t _. unfold oscillating. rewrite E1, E2. cbn. rring.
Qed.
Lemma derive_comp g dg phi dphi t : phase g dg -> is_derive phi t dphi -> is_derive (fun t => g (phi t)) t (dg (phi t) * dphi).
Proof. intros Ph P. pose proof (is_derive_comp (V := R_NormedModule) g phi t (dg (phi t)) dphi (proj1 (Ph (phi t))) P) as K. cbn in K. unfold scal in K. cbn in K. unfold mult in K. cbn in K. rewrite Rmult_comm. exact K. Qed.
Lemma range u v t : Rmin u v <= t <= Rmax u v -> (u <= t <= v) \/ (v <= t <= u).
Proof. unfold Rmin, Rmax. destruct (Rle_dec u v); intros; lra. Qed.
Lemma pow2_cont (e : R -> R) t : ex_derive e t -> e t <> 0 -> continuous (fun t => / e t ^ 2) t.
Proof. intros H N. apply (ex_derive_continuous (V := R_NormedModule)). apply (ex_derive_inv (fun t => e t ^ 2)); [now apply ex_derive_pow|now apply pow_nonzero]. Qed.
Lemma d01 a t : t < 1 -> is_derive (fun t => a + t / (1 - t)) t (/ (1 - t) ^ 2) /\ continuous (fun t => / (1 - t) ^ 2) t.
Proof. intros H. split; [auto_derive; [lra|field; lra]|]. apply (pow2_cont (fun t => 1 - t)); [auto_derive; exact I|lra]. Qed.
Lemma dm10 b t : -1 < t -> is_derive (fun t => b + t / (1 + t)) t (/ (1 + t) ^ 2) /\ continuous (fun t => / (1 + t) ^ 2) t.
Proof. intros H. split; [auto_derive; [lra|field; lra]|]. apply (pow2_cont (fun t => 1 + t)); [auto_derive; exact I|lra]. Qed.
Lemma dm11 t : -1 < t < 1 -> is_derive (fun t => t / (1 - t ^ 2)) t ((1 + t ^ 2) / (1 - t ^ 2) ^ 2) /\ continuous (fun t => (1 + t ^ 2) / (1 - t ^ 2) ^ 2) t.
Proof. intros H. assert (N : 1 - t ^ 2 <> 0) by nra. split; [auto_derive; [cbn in *; lra|cbn; field; cbn in *; nra]|]. apply (ex_derive_continuous (V := R_NormedModule)). auto_derive. cbn in *. repeat split; nra. Qed.
Lemma half_line f g dg a om u v w : phase g dg -> continuous_amplitude f -> u < 1 -> v < 1 -> exists f1 g1 d1, get_functions f g dg (Fin a) Pinf = Some (f1, g1, d1, 0, 1, false) /\ get_functions f g dg Pinf (Fin a) = Some (f1, g1, d1, 0, 1, true) /\
  (forall t, t < 1 -> is_derive g1 t (d1 t)) /\ (integral (oscillating om g f) (a + u / (1 - u)) (a + v / (1 - v)) w -> integral (oscillating om g1 f1) u v w).
Proof.
  intros Ph Fc U V. do 3 eexists. split; [reflexivity|]. split; [reflexivity|]. split.
  - intros t Ht. exact (derive_comp g dg _ _ t Ph (proj1 (d01 a t Ht))).
  - apply (change_osc om g dg f _ _ (fun t => a + t / (1 - t)) (fun t => / (1 - t) ^ 2)); auto. intros t Ht. apply d01. destruct (range u v t Ht); lra.
Qed.
Lemma half_line_down f g dg b om u v w : phase g dg -> continuous_amplitude f -> -1 < u -> -1 < v -> exists f1 g1 d1, get_functions f g dg Minf (Fin b) = Some (f1, g1, d1, -1, 0, false) /\ get_functions f g dg (Fin b) Minf = Some (f1, g1, d1, -1, 0, true) /\
  (forall t, -1 < t -> is_derive g1 t (d1 t)) /\ (integral (oscillating om g f) (b + u / (1 + u)) (b + v / (1 + v)) w -> integral (oscillating om g1 f1) u v w).
Proof.
  intros Ph Fc U V. do 3 eexists. split; [reflexivity|]. split; [reflexivity|]. split.
  - intros t Ht. exact (derive_comp g dg _ _ t Ph (proj1 (dm10 b t Ht))).
  - apply (change_osc om g dg f _ _ (fun t => b + t / (1 + t)) (fun t => / (1 + t) ^ 2)); auto. intros t Ht. apply dm10. destruct (range u v t Ht); lra.
Qed.
Lemma whole_line f g dg om u v w : phase g dg -> continuous_amplitude f -> -1 < u < 1 -> -1 < v < 1 -> exists f1 g1 d1, get_functions f g dg Minf Pinf = Some (f1, g1, d1, -1, 1, false) /\ get_functions f g dg Pinf Minf = Some (f1, g1, d1, -1, 1, true) /\
  (forall t, -1 < t < 1 -> is_derive g1 t (d1 t)) /\ (integral (oscillating om g f) (u / (1 - u ^ 2)) (v / (1 - v ^ 2)) w -> integral (oscillating om g1 f1) u v w).
Proof.
  intros Ph Fc U V. do 3 eexists. split; [reflexivity|]. split; [reflexivity|]. split.
  - intros t Ht. pose proof (derive_comp g dg _ _ t Ph (proj1 (dm11 t Ht))) as K. cbv zeta. unfold Rdiv in *. rewrite <- Rmult_assoc in K. exact K.
  - apply (change_osc om g dg f _ _ (fun t => t / (1 - t ^ 2)) (fun t => (1 + t ^ 2) / (1 - t ^ 2) ^ 2)); auto. intros t Ht. apply dm11. destruct (range u v t Ht); lra.
Qed.
(* ---- rules on [-1, 1] ---- *)
Lemma weights_integral ls B om g dg x c : solves_systems ls -> is_basis B -> phase g dg -> has_rule om g dg (-1) 1 x ->
  integral (oscillating om g (amplitude om dg (List.length x) c)) (-1) 1 (rule_value (fun i => nth i (evans_webster_weights ls B om g dg x) (RtoC 0)) x (amplitude om dg (List.length x) c)).
Proof. intros LS HB Ph HR. rewrite (weights_exact ls B om g dg x c LS HB HR). now apply amplitude_integral. Qed.
Lemma one_piece evans ls B om (f g dg : R -> R) x c : solves_systems ls -> is_basis B -> phase g dg -> has_rule om g dg (-1) 1 x -> (forall t, RtoC (f t) = amplitude om dg (List.length x) c t) ->
  integral (oscillating om g (fun t => RtoC (f t))) (-1) 1 (if evans : bool then evans_webster ls B om f g dg x else a_levin ls B om f g dg x).
Proof.
  intros LS HB Ph HR F. rewrite (rules_equal evans ls B om f g dg x c LS HB HR F). destruct (amplitude_integral om g dg (List.length x) c (-1) 1 Ph) as [I1 I2].
  split; [apply (is_RInt_ext (fun t => fst (oscillating om g (amplitude om dg (List.length x) c) t))); [|exact I1]|apply (is_RInt_ext (fun t => snd (oscillating om g (amplitude om dg (List.length x) c) t))); [|exact I2]]; intros t _; unfold oscillating; now rewrite F.
Qed.
Lemma maxiter_one : ~ (forall ls B dea3 eps prec maxiter s endpoints f g dg a b om, (1 <= maxiter)%nat -> exists r, quad_call ls B dea3 eps prec maxiter s endpoints f g dg a b om = Ok r).
Proof.
  intros H. destruct (H (fun _ _ _ _ => RtoC 0) poly_basis (fun _ _ z => z) 0 0 1%nat 3%nat false (fun _ => RtoC 1) (fun t => t) (fun _ => 1) 0 1 1 (le_n 1)) as [r E].
  rewrite (proj1 (quad_one _ _ _ _ _ _ _ _ _ _ 0 1 1 ltac:(lra))) in E. discriminate.
Qed.
Lemma same_limits ls B dea3 eps prec maxiter s endpoints f g dg a om : quad_call ls B dea3 eps prec maxiter s endpoints f g dg a a om = Ok (RtoC 0, 0, None).
Proof. unfold quad_call. destruct (Rlt_dec a a); [lra|]. unfold quad_osc. destruct (Req_EM_T a a); [|contradiction]. cbn [bind]. rewrite Rminus_eq_0, Rabs_R0. reflexivity. Qed.
