(* Ships and gravity: proofs. *)
From Coq Require Import Reals ZArith List Bool String Lra Lia.
From Verif Require Import Base ShipModel ShipSpec.
Import ListNotations.
Local Open Scope R_scope.

Lemma Rabs_le_inv a b : Rabs a <= b -> - b <= a <= b. Proof. unfold Rabs. destruct (Rcase_abs a); lra. Qed.
Lemma int_bounds x : IZR (Int_part x) <= x < IZR (Int_part x) + 1. Proof. destruct (base_Int_part x). lra. Qed.
Lemma rint_near x : Rabs (rint x - x) <= 1 / 2.
Proof.
  pose proof (int_bounds x) as [A B]. unfold rint. set (f := Int_part x) in *. apply Rabs_le. destruct (Rlt_dec (x - IZR f) (1 / 2)); [lra|]. destruct (Rlt_dec (1 / 2) (x - IZR f)); [rewrite plus_IZR; lra|]. destruct (Z.even f); rewrite ?plus_IZR; lra.
Qed.
Lemma rint_whole x : exists k, rint x = IZR k. Proof. unfold rint. destruct (Rlt_dec _ _); [eauto|]. destruct (Rlt_dec _ _); [eauto|]. destruct (Z.even _); eauto. Qed.
Lemma rint_mono x y : x <= y -> rint x <= rint y.
Proof.
  intros H. destruct (rint_whole x) as [a A]. destruct (rint_whole y) as [b B]. destruct (Z.le_gt_cases a b) as [L|L]; [rewrite A, B; apply IZR_le, L|]. exfalso. assert (Q : (b + 1 <= a)%Z) by lia. apply IZR_le in Q. rewrite plus_IZR in Q. pose proof (rint_near x) as X. pose proof (rint_near y) as Y. apply Rabs_le_inv in X, Y. assert (x = y) by lra. subst. rewrite A in B. apply eq_IZR in B. lia.
Qed.
Lemma rint_pos x : 0 <= x -> 0 <= rint x.
Proof. intros H. destruct (rint_whole x) as [k K]. pose proof (rint_near x) as X. apply Rabs_le_inv in X. rewrite K in *. destruct (Z.le_gt_cases 0 k) as [L|L]; [apply IZR_le in L; exact L|]. assert (Q : (k <= -1)%Z) by lia. apply IZR_le in Q. lra. Qed.
Lemma power_pos x y : 0 < Rpower x y. Proof. apply exp_pos. Qed.
Lemma inverse c v p q : 0 < c -> 0 < v -> p * q = 1 -> c * Rpower (Rpower (v / c) p) q = v.
Proof. intros C V H. rewrite Rpower_mult, H, Rpower_1 by (apply Rdiv_lt_0_compat; assumption). field. lra. Qed.
Ltac step := cbn [getshipchar get_max_deadweight valid_props substring String.eqb Ascii.eqb Bool.eqb bind prop2max_dw assign append lookup]; unfold getshipchar, get_max_deadweight.
Lemma given_kept k v : In k six -> 0 < v -> exists d, getshipchar [(k, v)] = Ok d /\
  (forall e, In (k, e) rounded_to -> exists r, has d k r /\ (exists z : Z, r = e * IZR z) /\ Rabs (r - v) <= e / 2) /\
  (k = "propeller_diameter"%string -> exists l r, has d k (12 / 100 * Rpower r (3 / 4)) /\ has d "length" r /\ v = 12 / 100 * Rpower l (3 / 4) /\ Rabs (r - l) <= 1 / 2).
Proof.
  intros K V. unfold six in K. cbn [In] in K.
  assert (T : forall x, exists z : Z, rint (x * 10) / 10 = 1 / 10 * IZR z) by (intros x; destruct (rint_whole (x * 10)) as [z Z]; exists z; rewrite Z; lra).
  assert (U : forall x, exists z : Z, rint x = 1 * IZR z) by (intros x; destruct (rint_whole x) as [z Z]; exists z; rewrite Z; ring).
  assert (N : forall x, x = v -> Rabs (rint (x * 10) / 10 - v) <= 1 / 10 / 2) by (intros x ->; pose proof (rint_near (v * 10)) as Q; apply Rabs_le_inv in Q; apply Rabs_le; lra).
  assert (M : forall x, x = v -> Rabs (rint x - v) <= 1 / 2) by (intros x ->; apply rint_near).
  assert (NI : forall a b : string, a <> b -> forall e e' : R, (a, e) = (b, e') -> False) by (intros a b AB e e' E; injection E as ->; contradiction).
  destruct K as [<-|[<-|[<-|[<-|[<-|[<-|[]]]]]]]; (eexists; split; [reflexivity|]); (split; [intros e E; unfold rounded_to in E; cbn [In] in E; repeat (destruct E as [E|E]; [first [discriminate E|injection E as <-; eexists; split; [reflexivity|]]|]); try contradiction|first [discriminate|intros _]]).
  - split; [apply U|apply M; reflexivity].
  - split; [apply U|apply M]. apply inverse; lra.
  - split; [apply T|apply N]. apply inverse; lra.
  - split; [apply T|apply N]. cbn. replace (80 / 100) with (8 / 10) by lra. apply inverse; lra.
  - split; [apply T|apply N]. apply inverse; lra.
  - exists (Rpower (v / (12 / 100)) (4 / 3)). eexists. split; [reflexivity|]. split; [reflexivity|]. split; [symmetry; apply inverse; lra|]. match goal with |- Rabs (rint ?x - ?y) <= _ => assert (Q : x = y) by (apply inverse; [lra|apply power_pos|lra]); rewrite Q; apply rint_near end.
Qed.
(* bigger ships *)
Lemma power_mono x y p : 0 < x -> x <= y -> 0 <= p -> Rpower x p <= Rpower y p. Proof. intros. apply Rle_Rpower_l; [assumption|split; assumption]. Qed.
Lemma div_mono c x y : 0 < c -> x <= y -> x / c <= y / c. Proof. intros C H. unfold Rdiv. apply Rmult_le_compat_r; [apply Rlt_le, Rinv_0_lt_compat, C|exact H]. Qed.
Lemma dw_mono prop x y : 0 < x -> x <= y -> 0 < prop2max_dw prop x <= prop2max_dw prop y.
Proof.
  intros X H. unfold prop2max_dw. assert (D : forall c, 0 < c -> 0 < x / c) by (intros; apply Rdiv_lt_0_compat; assumption).
  destruct (String.eqb prop "length"); [split; [apply power_pos|apply power_mono; [apply D; lra|apply div_mono; lra|lra]]|]. destruct (String.eqb prop "beam"); [split; [apply power_pos|apply power_mono; [apply D; lra|apply div_mono; lra|lra]]|]. destruct (String.eqb prop "draught"); [split; [apply power_pos|apply power_mono; [apply D; lra|apply div_mono; lra|lra]]|]. destruct (String.eqb prop "service_speed"); [split; [apply power_pos|apply power_mono; [apply D; lra|apply div_mono; lra|lra]]|].
  destruct (String.eqb prop "propeller_diameter"); [|lra]. split; [apply power_pos|]. apply power_mono; [apply Rdiv_lt_0_compat; [apply power_pos|lra]|apply div_mono; [lra|]; apply power_mono; [apply D; lra|apply div_mono; lra|lra]|lra].
Qed.
Lemma lookup_assign k s v d : lookup k (assign s v d) = if String.eqb s k then Some v else lookup k d.
Proof.
  induction d as [|[a w] d IH]; cbn [assign lookup]; [reflexivity|]. destruct (String.eqb_spec a s) as [->|N]; cbn [lookup].
  - destruct (String.eqb s k); reflexivity.
  - destruct (String.eqb_spec a k) as [->|N']; [|exact IH]. destruct (String.eqb_spec s k); [congruence|reflexivity].
Qed.
Lemma prop_cases name p : valid_props name = Ok p -> In p ["length"; "beam"; "draught"; "max_deadweigth"; "service_speed"; "propeller_diameter"]%string.
Proof. unfold valid_props. repeat (destruct (String.eqb _ _); [intros E; injection E as <-; cbn; tauto|]). discriminate. Qed.
Lemma bigger name x y d d' k a b : 0 < x -> x <= y -> getshipchar [(name, x)] = Ok d -> getshipchar [(name, y)] = Ok d' -> In k ["max_deadweight"; "length"; "beam"; "draught"; "service_speed"]%string -> has d k a -> has d' k b -> a <= b.
Proof.
  intros X H. unfold getshipchar, get_max_deadweight. destruct (valid_props name) as [p|] eqn:P; [|discriminate]. cbn [bind]. destruct (dw_mono p x y X H) as [P1 P2]. set (dx := prop2max_dw p x) in *. set (dy := prop2max_dw p y) in *. intros E E' K. apply (f_equal (fun r : res dict => match r with Ok d => d | Err _ => [] end)) in E, E'. cbv beta iota in E, E'. subst d d'. unfold has. rewrite !lookup_assign.
  assert (NE : String.eqb (p ++ "STD") k = false). { apply String.eqb_neq. pose proof (prop_cases name p P) as Q. cbn [In] in Q, K. intros Z. destruct K as [<-|[<-|[<-|[<-|[<-|[]]]]]]; destruct Q as [<-|[<-|[<-|[<-|[<-|[<-|[]]]]]]]; discriminate Z. }
  rewrite NE. assert (G : forall c p, 0 < c -> 0 <= p -> rint (c * Rpower dx p * 10) / 10 <= rint (c * Rpower dy p * 10) / 10). { intros c q C Q. apply div_mono; [lra|]. apply rint_mono. apply Rmult_le_compat_r; [lra|]. apply Rmult_le_compat_l; [lra|]. apply power_mono; assumption. }
  cbn [In] in K. destruct K as [<-|[<-|[<-|[<-|[<-|[]]]]]]; cbn; intros A B; injection A as <-; injection B as <-; try (apply G; lra).
  - apply rint_mono, P2.
  - apply rint_mono, Rmult_le_compat_l; [lra|]. apply power_mono; [exact P1|exact P2|lra].
Qed.
Lemma deviation k v : In k six -> k <> "max_deadweight"%string -> exists d, getshipchar [(k, v)] = Ok d /\ has d (k ++ "STD")%string 0.
Proof. intros K N. unfold six in K. cbn [In] in K. destruct K as [<-|[<-|[<-|[<-|[<-|[<-|[]]]]]]]; [contradiction| | | | |]; eexists; split; reflexivity. Qed.
Lemma deadweight_deviation v : exists d, getshipchar [("max_deadweight"%string, v)] = Ok d /\ has d "max_deadweightSTD" (1 / 10 * rint v) /\ has d "max_deadweigthSTD" 0.
Proof. eexists. split; [reflexivity|]. split; reflexivity. Qed.
Lemma deadweight_refuted : exists d s, getshipchar [("max_deadweight"%string, 1000)] = Ok d /\ has d "max_deadweightSTD" s /\ s = 100.
Proof.
  destruct (deadweight_deviation 1000) as [d [E [F _]]]. exists d. eexists. split; [exact E|]. split; [exact F|]. destruct (rint_whole 1000) as [k K]. pose proof (rint_near 1000) as Q. rewrite K in *. apply Rabs_le_inv in Q. assert (k = 1000%Z); [|subst; lra]. assert ((999 < k)%Z) by (apply lt_IZR; lra). assert ((k < 1001)%Z) by (apply lt_IZR; lra). lia.
Qed.
Lemma first_letters name name' v : substring 0 2 name = substring 0 2 name' -> getshipchar [(name, v)] = getshipchar [(name', v)].
Proof. intros H. unfold getshipchar, get_max_deadweight, valid_props. rewrite H. reflexivity. Qed.
Lemma refused kw : (getshipchar kw = Err ValueError <-> List.length kw <> 1%nat) /\ (forall name v, kw = [(name, v)] -> (getshipchar kw = Err KeyError <-> ~ In (substring 0 2 name) ["le"; "be"; "dr"; "ma"; "se"; "pr"]%string)).
Proof.
  split.
  - destruct kw as [|[n v] [|q kw]]; cbn [List.length]; [split; [discriminate|reflexivity]| |split; [discriminate|reflexivity]]. split; [|congruence]. unfold getshipchar, get_max_deadweight, valid_props. repeat (destruct (String.eqb _ _); [discriminate|]). discriminate.
  - intros name v ->. unfold getshipchar, get_max_deadweight, valid_props. set (p := substring 0 2 name). cbn [In].
    repeat match goal with |- context [String.eqb p ?q] => destruct (String.eqb_spec p q) as [->|]; [split; [discriminate|intros N; exfalso; apply N; tauto]|] end. split; [|reflexivity]. intros _ [E|[E|[E|[E|[E|[E|[]]]]]]]; congruence.
Qed.
(* gravity *)
Lemma gravity_form phi : let u := sin (phi * PI / 180) ^ 2 in gravity phi = 978049 / 100000 * (1 + 52884 / 10000000 * u - 236 / 10000000 * (u * (1 - u))) /\ 0 <= u <= 1.
Proof.
  intros u. unfold u, gravity. cbv zeta. set (t := phi * PI / 180). pose proof (sin2_cos2 t) as SC. unfold Rsqr in SC. split.
  - rewrite sin_2a. replace ((2 * sin t * cos t) ^ 2) with (4 * (sin t ^ 2 * (cos t * cos t))) by ring. replace (cos t * cos t) with (1 - sin t ^ 2) by (replace (sin t ^ 2) with (sin t * sin t) by ring; lra). set (w := sin t ^ 2). lra.
  - pose proof (SIN_bound t). replace (sin t ^ 2) with (sin t * sin t) by ring. split; nra.
Qed.
Lemma gravity_mono_u u w : 0 <= u -> u <= w -> w <= 1 -> 978049 / 100000 * (1 + 52884 / 10000000 * u - 236 / 10000000 * (u * (1 - u))) <= 978049 / 100000 * (1 + 52884 / 10000000 * w - 236 / 10000000 * (w * (1 - w))).
Proof. intros A B C. apply Rmult_le_compat_l; [lra|]. assert (D : w * (1 - w) - u * (1 - u) <= w - u) by nra. lra. Qed.
Lemma gravity_bounds phi : gravity 0 <= gravity phi <= gravity 90 /\ gravity 0 = 978049 / 100000.
Proof.
  destruct (gravity_form phi) as [E [A B]]. destruct (gravity_form 0) as [E0 _]. destruct (gravity_form 90) as [E9 _]. cbv zeta in *. replace (0 * PI / 180) with 0 in E0 by (field; lra). rewrite sin_0 in E0. replace (90 * PI / 180) with (PI / 2) in E9 by (field; lra). rewrite sin_PI2 in E9. rewrite E, E0, E9. split; [|lra]. set (u := sin (phi * PI / 180) ^ 2) in *.
  pose proof (gravity_mono_u 0 u ltac:(lra) A B). pose proof (gravity_mono_u u 1 A B ltac:(lra)). replace (0 ^ 2) with 0 by ring. replace (1 ^ 2) with 1 by ring. lra.
Qed.
Lemma gravity_even phi : gravity (- phi) = gravity phi.
Proof. destruct (gravity_form phi) as [E _]. destruct (gravity_form (- phi)) as [E' _]. cbv zeta in *. rewrite E, E'. replace (- phi * PI / 180) with (- (phi * PI / 180)) by (field; lra). rewrite sin_neg. replace ((- sin (phi * PI / 180)) ^ 2) with (sin (phi * PI / 180) ^ 2) by ring. reflexivity. Qed.
Lemma gravity_increasing a b : 0 <= a -> a <= b -> b <= 90 -> gravity a <= gravity b.
Proof.
  intros A B C. destruct (gravity_form a) as [Ea [Pa Qa]]. destruct (gravity_form b) as [Eb [Pb Qb]]. cbv zeta in *. rewrite Ea, Eb. apply gravity_mono_u; [exact Pa| |exact Qb]. pose proof PI_RGT_0 as PI0. assert (X : 0 <= a * PI / 180) by (unfold Rdiv; apply Rmult_le_pos; [apply Rmult_le_pos; lra|lra]). assert (Y : a * PI / 180 <= b * PI / 180) by (apply div_mono; [lra|]; apply Rmult_le_compat_r; lra). assert (Z : b * PI / 180 <= PI / 2) by (replace (PI / 2) with (90 * PI / 180) by field; apply div_mono; [lra|]; apply Rmult_le_compat_r; lra).
  assert (S1 : 0 <= sin (a * PI / 180)) by (apply sin_ge_0; lra). assert (S2 : sin (a * PI / 180) <= sin (b * PI / 180)) by (apply sin_incr_1; lra). apply pow_incr. lra.
Qed.
Lemma ship_case : In "beam"%string six /\ 0 < 20 /\ exists d, getshipchar [("beam"%string, 20)] = Ok d /\ has d "beamSTD" 0.
Proof. split; [unfold six; cbn; tauto|]. split; [lra|]. eexists. split; reflexivity. Qed.
(* the standard deviations *)
Lemma deviations name v d : getshipchar [(name, v)] = Ok d ->
  (forall k e, In (k, e) relative -> k = "max_deadweight"%string \/ substring 0 2 k <> substring 0 2 name -> exists x, has d k x /\ has d (k ++ "STD")%string (x * e)) /\
  (substring 0 2 name <> "le"%string -> exists l, has d "length" l /\ has d "lengthSTD" (Rpower l (13 / 100))) /\
  (substring 0 2 name <> "pr"%string -> exists l, has d "length" l /\ has d "propeller_diameter" (12 / 100 * Rpower l (3 / 4)) /\ has d "propeller_diameterSTD" (12 / 100 * Rpower (Rpower l (13 / 100)) (3 / 4))).
Proof.
  unfold getshipchar, get_max_deadweight. destruct (valid_props name) as [p|] eqn:P; [|discriminate]. cbn [bind]. set (dw := prop2max_dw p v). clearbody dw. unfold valid_props in P.
  repeat match type of P with (if String.eqb ?a ?b then _ else _) = _ => destruct (String.eqb_spec a b) as [E|_]; [injection P as <-|] end; try discriminate;
    intros D; injection D as <-; rewrite E; (split; [|split]).
  all: match goal with
    | |- forall k e, _ => intros k e K N; unfold relative in K; cbn [In] in K; destruct K as [K|[K|[K|[K|[]]]]]; injection K as <- <-;
        try (exfalso; destruct N as [N|N]; [discriminate|apply N; reflexivity]); (eexists; split; [reflexivity|]; unfold has)
    | |- _ => intros N; try (exfalso; apply N; reflexivity); eexists; repeat split; reflexivity
    end.
  all: first [reflexivity | transitivity (Some (1 / 10 * rint dw)); [reflexivity|f_equal; field]].
Qed.
