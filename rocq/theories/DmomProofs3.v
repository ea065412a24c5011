From Coq Require Import Reals List ZArith Bool String Ascii Lia Lra.
From Verif Require Import Base PolyModel GridSpec ProcModel ProcProofs SpectModel SpectSpec SpectProofs DmomModel DmomSpec DmomProofs DmomProofs2.
Import ListNotations.
Local Open Scope R_scope.

Lemma mod_range a : 0 <= mod2pi a < 2 * PI.
Proof.
  unfold mod2pi. pose proof PI_RGT_0 as P. pose proof (floor_spec (a / (2 * PI))) as F. set (k := IZR (floor (a / (2 * PI)))) in *.
  assert (E : a = 2 * PI * (a / (2 * PI))) by (field; lra). set (q := a / (2 * PI)) in *. rewrite E. split; nra.
Qed.
Lemma mod_same a : same_direction (mod2pi a) a.
Proof. exists (- floor (a / (2 * PI)))%Z. unfold mod2pi. rewrite opp_IZR. ring. Qed.
Lemma same_plus a b c : same_direction a b -> same_direction (a + c) (b + c).
Proof. intros [k E]. exists k. lra. Qed.
Lemma same_trans a b c : same_direction a b -> same_direction b c -> same_direction a c.
Proof. intros [k E] [l F]. exists (k + l)%Z. rewrite plus_IZR. lra. Qed.
Lemma wrapped a : - PI <= mod2pi (a + PI) - PI < PI /\ same_direction (mod2pi (a + PI) - PI) a.
Proof.
  pose proof (mod_range (a + PI)) as M. split; [lra|]. destruct (mod_same (a + PI)) as [k E]. exists k. lra.
Qed.
(* args in a tuple: an error, and the object is changed *)
Lemma rotate_tuple : forall s phi a0 a1, sargs2 s = Tuple a0 a1 -> a0 <> [] ->
  exists p, rotate s phi = (Some TypeError, turned s p) /\ - PI <= p < PI /\ same_direction p (sphi s + phi).
Proof.
  intros s phi a0 a1 E N. unfold rotate. rewrite E. cbn [first_of]. destruct a0 as [|t0 a0]; [contradiction|]. eexists. split; [|apply wrapped].
  unfold turned. rewrite E. reflexivity.
Qed.
(* args in a list, with the frequencies first as moment and the labels expect *)
Lemma rotate_list : forall s phi w0 w th, sargs2 s = Listed (w0 :: w) th ->
  exists p, rotate s phi = (None, Spec2 (stype s) (rows s) (Listed (map (fun v => v - w0 - PI) (w0 :: w)) th) p (gx s) (gy s)) /\ - PI <= p < PI /\ same_direction p (sphi s + phi + w0 + PI).
Proof.
  intros s phi w0 w th E. unfold rotate. rewrite E. cbn [first_of]. cbv zeta. destruct (wrapped (sphi s + phi)) as [R1 S1]. set (p1 := mod2pi (sphi s + phi + PI) - PI) in *.
  destruct (wrapped (p1 + (w0 + PI))) as [R2 S2]. exists (mod2pi (p1 + (w0 + PI) + PI) - PI). split; [|split; [exact R2|]].
  - f_equal. f_equal. f_equal. apply map_ext. intros v. ring.
  - apply (same_trans _ _ _ S2). apply (same_plus _ _ (w0 + PI)) in S1. destruct S1 as [k Q]. exists k. lra.
Qed.
Lemma rotate_axis : forall s phi w0 w th, sargs2 s = Listed (w0 :: w) th -> freq (snd (rotate s phi)) 0 = - PI.
Proof. intros s phi w0 w th E. destruct (rotate_list s phi w0 w th E) as [p [Q _]]. rewrite Q. unfold freq. cbn. ring. Qed.
(* directions first, from -pi: phi grows by the angle, and the axes stay *)
Lemma rotate_ok : forall s phi th w, sargs2 s = Listed (- PI :: th) w ->
  exists p, rotate s phi = (None, turned s p) /\ - PI <= p < PI /\ same_direction p (sphi s + phi).
Proof.
  intros s phi th w E. destruct (rotate_list s phi (- PI) th w E) as [p [Q [R0 S0]]]. exists p. split; [|split; [exact R0|]].
  - rewrite Q. unfold turned. rewrite E. do 3 f_equal. rewrite <- (map_id (- PI :: th)) at 2. apply map_ext. intros v. ring.
  - destruct S0 as [k S0]. exists k. lra.
Qed.
(* directions first, but not from -pi: the angle is wrong by twice the distance *)
Lemma rotate_wrong : forall s phi t0 th w i, sargs2 s = Listed (t0 :: th) w -> (i < List.length (t0 :: th))%nat ->
  let s' := snd (rotate s phi) in same_direction (at_R (first_of (sargs2 s')) i - sphi s') (at_R (first_of (sargs2 s)) i - sphi s - phi - 2 * (t0 + PI)).
Proof.
  intros s phi t0 th w i E I s'. destruct (rotate_list s phi t0 th w E) as [p [Q [_ [k S0]]]]. unfold s'. rewrite Q. cbn [snd sargs2 first_of sphi]. rewrite E. cbn [first_of].
  rewrite (at_map (fun v => v - t0 - PI)) by exact I. exists (- k)%Z. rewrite opp_IZR. lra.
Qed.
Lemma rotate_twice : forall s a b th w, sargs2 s = Listed (- PI :: th) w -> exists p q, rotate (snd (rotate s a)) b = (None, turned s p) /\ rotate s (a + b) = (None, turned s q) /\ p = q.
Proof.
  intros s a b th w E. destruct (rotate_ok s a th w E) as [p1 [Q1 [R1 S1]]]. destruct (rotate_ok s (a + b) th w E) as [q [Q [R0 S0]]].
  assert (E' : sargs2 (turned s p1) = Listed (- PI :: th) w) by exact E. destruct (rotate_ok (turned s p1) b th w E') as [p [Q2 [R2 S2]]]. exists p, q. rewrite Q1. cbn [snd]. split; [exact Q2|split; [exact Q|]].
  cbn [turned sphi] in S2. assert (SM : same_direction p q).
  { apply (same_trans _ _ _ S2). apply (same_plus _ _ b) in S1. apply (same_trans _ _ _ S1). destruct S0 as [k S0]. exists (- k)%Z. rewrite opp_IZR. lra. }
  destruct SM as [k SM]. pose proof PI_RGT_0 as P. assert (K : (k = 0)%Z). { assert (-1 < IZR k < 1) by (split; nra). assert (-1 < k)%Z by (apply lt_IZR; lra). assert (k < 1)%Z by (apply lt_IZR; lra). lia. }
  rewrite K in SM. lra.
Qed.

(* a spectrum with waves in the direction pi / 2 only *)
Definition demo : spec2 := Spec2 "dir" [[0; 0; 0]; [0; 0; 0]; [1; 1; 1]] (Tuple [0; 1; 2] [- (PI / 2); 0; PI / 2]) 0 10 10.
Lemma demo_ok : directional demo 3 3.
Proof. unfold directional, demo. cbn. repeat split; auto. Qed.
Ltac flat := unfold integral, simpson; change (Nat.odd 3) with true; cbv iota; change ((3 - 1) / 2)%nat with 1%nat; unfold parabolas; cbn [seq map]; unfold sumR, parabola; cbn [fold_right Nat.add Nat.mul]; unfold freq, angle, dens, demo; cbn [first_of second_of sargs2 rows sphi gx gy at_R nth].
Lemma myt_refuted : exists s m, directional s 3 3 /\ moment2 s 2 (Some "yt"%string) = Ok (m, ["m0"; "my"; "mt"; "myy"; "mtt"; "myt"]%string) /\ integral s 3 3 0 1 1 > 0 /\ nth 5 m 0 = 0.
Proof.
  exists demo. destruct (moments_ok demo 3 3 2 "yt"%string demo_ok ltac:(discriminate)) as [m [es [E _]]].
  pose proof (moment_form demo 3 3 2 "yt" demo_ok ltac:(discriminate)) as F. change (map word ((0, 0, 0)%nat :: exps 2 (mentions "x" "yt") (mentions "y" "yt") (mentions "t" "yt"))) with ["m0"; "my"; "mt"; "myy"; "mtt"; "myt"]%string in F.
  match type of F with moment2 _ _ _ = Ok (?l, _) => exists l; split; [exact demo_ok|split; [exact F|split]]; pose proof (myt_value demo 3 3 2 "yt" l _ 5 demo_ok F eq_refl) as V end.
  - clear. pose proof PI_RGT_0 as P. flat. replace (PI / 2 - 0) with (PI / 2) by ring. rewrite sin_PI2. cbn [pow]. match goal with |- ?x > 0 => replace x with (PI / 15) by (field; lra) end. lra.
  - rewrite V by (cbn; lra). match goal with |- _ * ?x = 0 => assert (Z : x = 0); [|rewrite Z; ring] end. clear. pose proof PI_RGT_0 as P. flat. replace (PI / 2 - 0) with (PI / 2) by ring. rewrite cos_PI2. cbn [pow]. unfold Rdiv. ring.
Qed.
Lemma moments_case : exists m, moment2 demo 4 (Some "Xy"%string) = Ok (m, ["m0"; "mx"; "my"; "mxx"; "myy"; "mxy"; "mxxxx"; "myyyy"; "mxxxy"; "mxxyy"; "mxyyy"]%string) /\ nth 0 m 0 = PI / 3.
Proof.
  pose proof (moment_form demo 3 3 4 "Xy" demo_ok ltac:(discriminate)) as F. eexists. split; [exact F|]. cbn [nth]. rewrite (zero_value demo 3 3 demo_ok). pose proof PI_RGT_0 as P. flat. cbn [pow]. field. lra.
Qed.
Lemma rotate_case : exists p, rotate (Spec2 "dir" [[1]; [2]] (Listed [- PI; 0] [1]) 0 1 1) (PI / 2) = (None, Spec2 "dir" [[1]; [2]] (Listed [- PI; 0] [1]) p 1 1) /\ same_direction p (PI / 2).
Proof. destruct (rotate_ok (Spec2 "dir" [[1]; [2]] (Listed [- PI; 0] [1]) 0 1 1) (PI / 2) [0] [1] eq_refl) as [p [E [_ S0]]]. exists p. split; [exact E|]. cbn [sphi] in S0. rewrite Rplus_0_l in S0. exact S0. Qed.
