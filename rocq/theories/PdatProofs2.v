From Coq Require Import Reals List ZArith String Ascii Bool Lra Lia Permutation Sorted.
From Coquelicot Require Import Coquelicot.
From Verif Require Import Base PolyModel FilterModel GridModel WaveModel KdeModel ProcModel TransModel ProcSpec ProcProofs ProcProofs2 PdatModel PdatSpec PdatProofs.
Import ListNotations.
Local Open Scope R_scope.
Set Bullet Behavior "Strict Subproofs".

(* matrices, column by column *)
Lemma columns : forall x m rows c a b, List.length rows = List.length x -> (2 <= List.length x)%nat -> increasing x -> within x a -> within x b -> a <= b ->
  exists l, integrate (PD (D2 m rows) (Vec x) c) (Some a) (Some b) false = Ok (Arr l) /\ List.length l = m /\
    (forall j g, (j < m)%nat -> polygon x (col rows j) g -> exists v, nth j l None = Some v /\ is_RInt g a b v).
Proof.
  intros x m rows c a b L N I A B H. unfold integrate. cbn [integrate1 args_of data_of lower upper bind].
  assert (forall j, table x (col rows j)) as T by (intros j; repeat split; [unfold col; rewrite map_length; symmetry; exact L|exact N|exact I]).
  set (h := fun j => Some (trapz (map (interp x (col rows j)) (a :: inner a b x ++ [b])) (a :: inner a b x ++ [b]))).
  rewrite (mapM_ok _ h).
  - cbn [bind]. exists (map h (seq 0 m)). split; [reflexivity|]. split; [rewrite map_length, seq_length; reflexivity|].
    intros j g Hj P. rewrite (nth_indep _ None (h 0%nat)) by (rewrite map_length, seq_length; exact Hj). rewrite map_nth, seq_nth by exact Hj. cbn [Nat.add].
    unfold h. eexists. split; [reflexivity|].
    apply (is_RInt_ext (interp x (col rows j))).
    { intros t Ht. rewrite Rmin_left, Rmax_right in Ht by exact H. apply (polygon_unique x (col rows j)); try assumption; [unfold within in *; lra|].
      apply interp_polygon; [exact (proj1 (T j))|exact I]. }
    apply (trapz_integral x (col rows j)); try assumption.
    + destruct x; [cbn in N; lia|discriminate].
    + exact (proj1 (T j)).
    + apply interp_polygon; [exact (proj1 (T j))|exact I].
  - intros j _. change (column rows j) with (col rows j). assert (polygon x (col rows j) (interp x (col rows j))) as P by (apply interp_polygon; [exact (proj1 (T j))|exact I]).
    rewrite (ordinates_value x (col rows j) _ a b (T j) P A B). cbn [bind]. unfold trapz_nan. rewrite all_some_map. unfold abscissas, h. rewrite between_nodes. reflexivity.
Qed.

Lemma confidence : forall x f rows a b, table x f -> List.length rows = List.length x -> brackets f rows -> within x a -> within x b -> a <= b ->
  exists v lo hi, integrate (curve x f) (Some a) (Some b) false = Ok (Num (Some v)) /\
    integrate (band x f rows) (Some a) (Some b) true = Ok (Arr [Some v; Some lo; Some hi]) /\ lo <= v <= hi.
Proof.
  intros x f rows a b T L K A B H. assert (polygon x f (interp x f)) as P by (destruct T as [E [N I]]; apply interp_polygon; assumption).
  destruct (integral x f _ a b T P A B H) as [v [Ev Jv]]. destruct T as [E [N I]] eqn:ET. clear ET.
  destruct (columns x 2 rows None a b L N I A B H) as [l [El [Ll Kl]]].
  assert (forall j, table x (col rows j)) as Tj by (intros j; repeat split; [unfold col; rewrite map_length; symmetry; exact L|exact N|exact I]).
  assert (forall j, polygon x (col rows j) (interp x (col rows j))) as Pj by (intros j; apply interp_polygon; [exact (proj1 (Tj j))|exact I]).
  destruct (Kl 0%nat _ ltac:(lia) (Pj 0%nat)) as [lo [E0 J0]]. destruct (Kl 1%nat _ ltac:(lia) (Pj 1%nat)) as [hi [E1 J1]].
  exists v, lo, hi. split; [exact Ev|]. split.
  - unfold integrate, curve in Ev. unfold integrate, band. unfold integrate in El.
    assert (integrate1 (PD (D1 f) (Vec x) (Some [PD (D2 2 rows) (Vec x) None])) (Some a) (Some b) = Ok (Num (Some v))) as E2.
    { destruct (integrate1 (PD (D1 f) (Vec x) None) (Some a) (Some b)) as [w|e] eqn:F; [|discriminate]. cbn [bind] in Ev. rewrite Ev in F. exact F. }
    rewrite E2. cbn [bind children_of mapM]. destruct (integrate1 (PD (D2 2 rows) (Vec x) None) (Some a) (Some b)) as [w|e]; [|discriminate].
    cbn [bind] in El. injection El as ->. cbn [bind all_same forallb ravel app flat_map].
    destruct l as [|l0 [|l1 [|l2 l]]]; cbn in Ll; try lia. cbn [nth] in E0, E1. subst. reflexivity.
  - assert (forall g h gi hi_, is_RInt g a b gi -> is_RInt h a b hi_ -> (forall t, a < t < b -> g t <= h t) -> gi <= hi_) as M.
    { intros g h gi hi_ G1 G2 G3. exact (is_RInt_le g h a b gi hi_ H G1 G2 G3). }
    split.
    + apply (M _ _ _ _ J0 Jv). intros t Ht. apply (polygon_le x (col rows 0) f); [apply Tj| |apply Pj|exact P|unfold within in *; lra].
      intros i Hi. apply K. rewrite <- E. exact Hi.
    + apply (M _ _ _ _ Jv J1). intros t Ht. apply (polygon_le x f (col rows 1)); [exact (conj E (conj N I))| |exact P|apply Pj|unfold within in *; lra].
      intros i Hi. apply K. rewrite <- E. exact Hi.
Qed.
Lemma no_children : forall x f a b, table x f -> integrate (curve x f) (Some a) (Some b) true = Err TypeError.
Proof.
  intros x f a b T. unfold integrate, curve. cbn [integrate1 args_of data_of lower upper bind]. unfold ordinates. rewrite !eval_form by exact T. reflexivity.
Qed.
Lemma one_dimensional : forall d l c a b ci, to_cdf (PD d (Many l) c) = Err NotImplementedError /\ integrate (PD d (Many l) c) a b ci = Err NotImplementedError.
Proof. intros. split; reflexivity. Qed.

(* limits in the wrong order *)
Lemma not_oriented : ~ (forall x f a b v, table x f -> within x a -> within x b -> integrate (curve x f) (Some a) (Some b) false = Ok (Num (Some v)) ->
  integrate (curve x f) (Some b) (Some a) false = Ok (Num (Some (- v)))).
Proof.
  intros H. set (x := [0; 1; 2]). set (f := [0; 1; 0]).
  assert (table x f) as T. { repeat split; [cbn; lia|]. intros i Hi. cbn in Hi. destruct i as [|[|i]]; [unfold at_; cbn; lra|unfold at_; cbn; lra|lia]. }
  assert (polygon x f (interp x f)) as P by (destruct T as [L [N I]]; apply interp_polygon; assumption).
  assert (within x 0 /\ within x 2) as [W0 W2] by (unfold within, at_; cbn; lra).
  pose proof (reversed x f _ 2 0 T P W2 W0 ltac:(lra)) as E.
  assert (interp x f 0 = 0) as F0 by exact (polygon_node x f _ 0 (proj2 (proj2 T)) ltac:(cbn; lia) ltac:(cbn; lia) P).
  assert (interp x f 2 = 0) as F2 by exact (polygon_node x f _ 2 (proj2 (proj2 T)) ltac:(cbn; lia) ltac:(cbn; lia) P).
  rewrite F0, F2 in E. pose proof (H x f 2 0 _ T W2 W0 E) as K.
  destruct (additive x f 0 1 2 T W0 W2 ltac:(lra)) as [u [v [A [B C]]]]. rewrite C in K. injection K as K.
  assert (forall g : R -> R, g = interp x f -> is_RInt g 0 1 u /\ is_RInt g 1 2 v) as J.
  { intros g ->. assert (within x 1) as W1 by (unfold within, at_; cbn; lra).
    destruct (integral x f _ 0 1 T P W0 W1 ltac:(lra)) as [u' [A' J1]]. destruct (integral x f _ 1 2 T P W1 W2 ltac:(lra)) as [v' [B' J2]].
    rewrite A in A'. injection A' as <-. rewrite B in B'. injection B' as <-. split; assumption. }
  destruct (J _ eq_refl) as [J1 J2].
  assert (is_RInt (interp x f) 0 1 ((1 - 0) * (interp x f 0 + interp x f 1) / 2)) as G1.
  { apply (affine_piece _ 0 1 0 1); [lra|]. intros t Ht. rewrite (P 0%nat t ltac:(cbn; lia)) by (unfold at_; cbn; lra). unfold at_; cbn. field. }
  assert (is_RInt (interp x f) 1 2 ((2 - 1) * (interp x f 1 + interp x f 2) / 2)) as G2.
  { apply (affine_piece _ 1 2 2 (-1)); [lra|]. intros t Ht. rewrite (P 1%nat t ltac:(cbn; lia)) by (unfold at_; cbn; lra). unfold at_; cbn. field. }
  assert (interp x f 1 = 1) as F1 by exact (polygon_node x f _ 1 (proj2 (proj2 T)) ltac:(cbn; lia) ltac:(cbn; lia) P).
  pose proof (is_RInt_unique _ _ _ _ J1) as U1. rewrite (is_RInt_unique _ _ _ _ G1) in U1.
  pose proof (is_RInt_unique _ _ _ _ J2) as U2. rewrite (is_RInt_unique _ _ _ _ G2) in U2.
  rewrite F0, F1 in U1. rewrite F1, F2 in U2. lra.
Qed.

(* transformations of the data *)
Lemma transform_points : forall x f k flag, List.length x = List.length f -> (0 < flag mod 10)%Z -> (flag / 10 mod 10 = k)%Z -> In k [0; 1; 4; 5; 8]%Z ->
  exists h, plot_points x f flag = Ok (combine x (map h f)) /\
    (k = 0%Z -> forall v, h v = Some v) /\ (k = 1%Z -> forall v, h v = Some (1 - v)) /\ (k = 4%Z -> forall v, 0 < v -> h v = Some (ln v)) /\
    (k = 5%Z -> forall v, v < 1 -> h v = Some (ln (1 - v))) /\ (k = 8%Z -> forall v, 0 < v -> h v = Some (10 * (ln v / ln 10))).
Proof.
  intros x f k flag L M E Hk. unfold plot_points. replace (flag mod 10 =? 0)%Z with false by (symmetry; apply Z.eqb_neq; lia).
  unfold transformdata_1d. rewrite E. 
  assert (forall v, 0 < v -> ln_ v = Some (ln v)) as K by (intros v Hv; unfold ln_; destruct (Rlt_dec 0 v); [reflexivity|lra]).
  destruct Hk as [<-|[<-|[<-|[<-|[<-|[]]]]]]; eexists; cbn [bind]; rewrite map_length, L, Nat.eqb_refl; (split; [reflexivity|]); repeat split; try discriminate; intros _ v; try reflexivity; intros Hv; rewrite ?K by lra; reflexivity.
Qed.
Lemma transform_cumulative : forall x f k flag, List.length x = List.length f -> x <> [] -> (0 < flag mod 10)%Z -> (flag / 10 mod 10 = k)%Z -> In k [2; 3; 6; 7]%Z -> plot_points x f flag = Err ValueError.
Proof.
  intros x f k flag L N M E Hk. unfold plot_points. replace (flag mod 10 =? 0)%Z with false by (symmetry; apply Z.eqb_neq; lia).
  unfold transformdata_1d. rewrite E. unfold cumtrapz. rewrite <- L, Nat.eqb_refl.
  assert (forall B (h : R -> B), (List.length x =? List.length (map h (cumtrapz_from 0 f x)))%nat = false) as K.
  { intros B h. rewrite map_length, cum_length by (symmetry; exact L). apply Nat.eqb_neq. destruct x; [congruence|cbn; lia]. }
  destruct Hk as [<-|[<-|[<-|[<-|[]]]]]; cbn [bind]; rewrite K; reflexivity.
Qed.
Lemma cumulative_refuted : ~ (forall x f flag, table x f -> exists pts, plot_points x f flag = Ok pts).
Proof.
  intros H. destruct (H [0; 1] [1; 1] 21%Z) as [pts E].
  - repeat split; [cbn; lia|]. intros i Hi. cbn in Hi. assert (i = 0%nat) as -> by lia. unfold at_; cbn; lra.
  - rewrite (transform_cumulative [0; 1] [1; 1] 2%Z 21%Z) in E; [discriminate|reflexivity|discriminate|reflexivity|reflexivity|left; reflexivity].
Qed.

(* limits of the axis *)
Lemma axis_limits : forall x0 x1 y0 y1 m k log,
  set_axis (x0, x1, y0, y1) m k log = if log || (k =? 5)%Z then (x0, x1, 115 / 1000000 * m, 115 / 100 * m) else (x0, x1, y0, y1).
Proof.
  intros. unfold set_axis. replace (115 / 1000000 * m) with (115 / 100 * m * (1 / 10000)) by field. destruct log; cbn [orb andb negb]; [rewrite andb_false_r; reflexivity|].
  rewrite andb_true_r. destruct (Z.eqb_spec k 5) as [->|E]; reflexivity.
Qed.
Lemma axis_refuted : ~ (forall ax m k log, let '(_, _, y0, y1) := ax in y0 < y1 -> let '(_, _, z0, z1) := set_axis ax m k log in z0 < z1).
Proof.
  intros H. pose proof (H (0, 1, 0, 1) (-1) 5%Z false) as K. cbn in K. specialize (K ltac:(lra)). lra.
Qed.

(* contour levels *)
Lemma insertR_low : forall a l, (forall b, In b l -> a <= b) -> insertR a l = a :: l.
Proof. intros a [|b l] H; [reflexivity|]. cbn. destruct (Rle_dec a b) as [_|K]; [reflexivity|]. exfalso. apply K, H. left. reflexivity. Qed.
Lemma sortR_le : forall l, nondecreasing l -> sortR l = l.
Proof.
  induction l as [|a l IH]; intros H; [reflexivity|]. cbn [sortR].
  assert (nondecreasing l) as H' by (intros i Hi; apply (H (S i)); cbn; lia). rewrite (IH H'). apply insertR_low.
  intros b Hb. destruct (In_nth l b 0 Hb) as [i [Hi E]]. change a with (at_ (a :: l) 0). rewrite <- E. change (nth i l 0) with (at_ (a :: l) (S i)).
  apply nondecreasing_le; [exact H|lia|cbn; lia].
Qed.
Lemma levels_default : forall data, data <> [] ->
  contour_levels [] data = map (fun p => minR data + p * (maxR data - minR data)) [0.01; 0.025; 0.05; 0.1; 0.2; 0.4; 0.5; 0.75] /\
  forall v, In v (contour_levels [] data) -> minR data <= v <= maxR data.
Proof.
  intros data N. assert (minR data <= maxR data) as M by (destruct (minR_spec data N) as [A _]; exact (proj2 (maxR_spec data N) _ A)).
  assert (contour_levels [] data = map (fun p => minR data + p * (maxR data - minR data)) [0.01; 0.025; 0.05; 0.1; 0.2; 0.4; 0.5; 0.75]) as E.
  { unfold contour_levels. cbn [List.length Nat.ltb Nat.leb]. rewrite sortR_le.
    - unfold fractions. cbn [map]. repeat apply f_equal2; try lra; reflexivity.
    - intros i Hi. set (w := maxR data - minR data). assert (0 <= w) as W by (unfold w; lra). cbn in Hi.
      do 7 (destruct i as [|i]; [unfold at_, fractions; cbn [nth map]; lra|]). lia. }
  split; [exact E|]. rewrite E. intros v Hv. cbn [map] in Hv.
  set (w := maxR data - minR data) in *. assert (0 <= w) as W by (unfold w; lra). assert (maxR data = minR data + w) as -> by (unfold w; lra).
  repeat (destruct Hv as [<-|Hv]; [lra|]). destruct Hv.
Qed.
Lemma insertR_perm : forall a l, Permutation (insertR a l) (a :: l).
Proof.
  induction l as [|b l IH]; [apply Permutation_refl|]. cbn. destruct (Rle_dec a b); [apply Permutation_refl|]. eapply perm_trans; [apply perm_skip, IH|apply perm_swap].
Qed.
Lemma sortR_perm : forall l, Permutation (sortR l) l.
Proof. induction l as [|a l IH]; [apply Permutation_refl|]. cbn. eapply perm_trans; [apply insertR_perm|apply perm_skip, IH]. Qed.
Lemma nondecreasing_cons : forall a l, (forall b, In b l -> a <= b) -> nondecreasing l -> nondecreasing (a :: l).
Proof.
  intros a l H K [|i] Hi; cbn in Hi; [|apply K; lia]. destruct l as [|b l]; [cbn in Hi; lia|]. unfold at_; cbn [nth]. apply H. left. reflexivity.
Qed.
Lemma nondecreasing_tl : forall a l, nondecreasing (a :: l) -> nondecreasing l /\ forall b, In b l -> a <= b.
Proof.
  intros a l H. split; [intros i Hi; apply (H (S i)); cbn; lia|]. intros b Hb. destruct (In_nth l b 0 Hb) as [i [Hi E]]. change a with (at_ (a :: l) 0). rewrite <- E.
  change (nth i l 0) with (at_ (a :: l) (S i)). apply nondecreasing_le; [exact H|lia|cbn; lia].
Qed.
Lemma insertR_sorted : forall a l, nondecreasing l -> nondecreasing (insertR a l).
Proof.
  induction l as [|b l IH]; intros H; [intros i Hi; cbn in Hi; lia|]. cbn. destruct (nondecreasing_tl _ _ H) as [H1 H2]. destruct (Rle_dec a b) as [K|K].
  - apply nondecreasing_cons; [|exact H]. intros c [<-|Hc]; [exact K|]. pose proof (H2 c Hc). lra.
  - apply nondecreasing_cons; [|exact (IH H1)]. intros c Hc. apply (Permutation_in _ (insertR_perm a l)) in Hc. destruct Hc as [<-|Hc]; [lra|exact (H2 c Hc)].
Qed.
Lemma sortR_sorted : forall l, nondecreasing (sortR l).
Proof. induction l as [|a l IH]; [intros i Hi; cbn in Hi; lia|]. apply insertR_sorted, IH. Qed.
Lemma levels_given : forall cl data, cl <> [] -> Permutation (contour_levels cl data) cl /\ nondecreasing (contour_levels cl data).
Proof.
  intros cl data N. unfold contour_levels. replace (0 <? List.length cl)%nat with true by (symmetry; apply Nat.ltb_lt; destruct cl; [congruence|cbn; lia]).
  split; [apply sortR_perm|apply sortR_sorted].
Qed.

(* labels *)
Lemma given_true : forall s, given s = true <-> s <> ""%string.
Proof. intros s. unfold given. destruct (String.eqb_spec s ""); split; intros; try easy. Qed.
Lemma label_texts : forall l a, zlab l = ""%string ->
  let b := labelfig l a in
  ax_x b = (if String.eqb (xlab l) "" then ax_x a else xlab l) /\ ax_y b = (if String.eqb (ylab l) "" then ax_y a else ylab l) /\ ax_z b = ax_z a.
Proof.
  intros [t x y z] a H; cbn [zlab] in H; subst z. unfold labelfig, given. cbn [title xlab ylab zlab].
  destruct (String.eqb t ""), (String.eqb x ""), (String.eqb y ""); cbn; repeat split; reflexivity.
Qed.
(* texts but for capitals and blanks *)
Lemma all_ascii : forall P : ascii -> bool, forallb (fun n => P (ascii_of_nat n)) (seq 0 256) = true -> forall c, P c = true.
Proof.
  intros P H c. rewrite forallb_forall in H. rewrite <- (ascii_nat_embedding c). apply H. apply in_seq.
  split; [apply Nat.le_0_l|]. cbn [Nat.add]. apply nat_ascii_bounded.
Qed.
Definition pairb (c d : ascii) : bool := existsb (fun p => Ascii.eqb c (fst p) && Ascii.eqb d (snd p)) letter_pairs.
Definition same_letterb (c d : ascii) : bool := Ascii.eqb c d || (pairb c d || pairb d c).
Lemma pairb_spec : forall c d, pairb c d = true <-> In (c, d) letter_pairs.
Proof.
  intros c d. unfold pairb. rewrite existsb_exists. split.
  - intros [[a b] [H E]]. cbn [fst snd] in E. apply andb_true_iff in E as [E F]. apply Ascii.eqb_eq in E, F. subst. exact H.
  - intros H. exists (c, d). split; [exact H|]. cbn [fst snd]. rewrite !Ascii.eqb_refl. reflexivity.
Qed.
Lemma same_letterb_spec : forall c d, same_letterb c d = true <-> same_letter c d.
Proof. intros c d. unfold same_letterb, same_letter. rewrite !orb_true_iff, !pairb_spec, Ascii.eqb_eq. tauto. Qed.
Lemma same_letter_low : forall c d, same_letter c d <-> lower_char c = lower_char d.
Proof.
  intros c d. rewrite <- same_letterb_spec, <- Ascii.eqb_eq.
  assert (forall c d, Bool.eqb (same_letterb c d) (Ascii.eqb (lower_char c) (lower_char d)) = true) as K.
  { intros c0. apply all_ascii. revert c0. apply all_ascii. vm_compute. reflexivity. }
  specialize (K c d). apply eqb_prop in K. rewrite K. tauto.
Qed.
Lemma alike_low : forall s t, alike s t <-> lower_str s = lower_str t.
Proof.
  induction s as [|c s IH]; intros [|d t]; cbn; try (split; [tauto|discriminate]); [tauto|].
  rewrite IH, same_letter_low. split; [intros [-> ->]; reflexivity|intros H; injection H; tauto].
Qed.
Definition blankb (c : ascii) : bool := existsb (Ascii.eqb c) (map ascii_of_nat [9; 10; 11; 12; 13; 28; 29; 30; 31; 32]%nat).
Lemma blank_space : forall c, blank c <-> space_char c = true.
Proof.
  intros c. assert (forall c, Bool.eqb (blankb c) (space_char c) = true) as K by (apply all_ascii; vm_compute; reflexivity).
  specialize (K c). apply eqb_prop in K. rewrite <- K. unfold blankb, blank. rewrite existsb_exists. split.
  - intros H. exists c. split; [exact H|apply Ascii.eqb_refl].
  - intros [d [H E]]. apply Ascii.eqb_eq in E. subst. exact H.
Qed.
Lemma space_low : forall c, space_char (lower_char c) = space_char c.
Proof.
  intros c. assert (forall c, Bool.eqb (space_char (lower_char c)) (space_char c) = true) as K by (apply all_ascii; vm_compute; reflexivity).
  apply eqb_prop, K.
Qed.
Lemma app_nil_s : forall s : string, (s ++ "")%string = s.
Proof. induction s as [|c s IH]; cbn; [reflexivity|rewrite IH; reflexivity]. Qed.
Lemma app_assoc_s : forall s t u : string, ((s ++ t) ++ u)%string = (s ++ (t ++ u))%string.
Proof. induction s as [|c s IH]; intros; cbn; [reflexivity|rewrite IH; reflexivity]. Qed.
Lemma blanks_cons : forall c s, blanks (String c s) <-> space_char c = true /\ blanks s.
Proof.
  intros c s. unfold blanks. cbn [list_ascii_of_string]. split.
  - intros H. split; [apply blank_space, H; left; reflexivity|intros d Hd; apply H; right; exact Hd].
  - intros [H K] d [<-|Hd]; [apply blank_space, H|apply K, Hd].
Qed.
Lemma blanks_nil : blanks "".
Proof. intros c []. Qed.
Lemma rstrip_blanks : forall s, blanks s -> rstrip s = ""%string.
Proof. induction s as [|c s IH]; cbn; intros H; [reflexivity|]. apply blanks_cons in H as [H K]. rewrite (IH K), H. reflexivity. Qed.
Lemma rstrip_app : forall s r, blanks r -> rstrip (s ++ r) = rstrip s.
Proof. induction s as [|c s IH]; cbn; intros r H; [apply rstrip_blanks, H|rewrite (IH r H); reflexivity]. Qed.
Lemma rstrip_last : forall v c, space_char c = false -> rstrip (v ++ String c "") = (v ++ String c "")%string.
Proof.
  induction v as [|d v IH]; cbn; intros c H; [rewrite H; reflexivity|]. rewrite (IH c H). destruct v; reflexivity.
Qed.
Lemma lstrip_app : forall l s, blanks l -> lstrip (l ++ s) = lstrip s.
Proof. induction l as [|c l IH]; cbn; intros s H; [reflexivity|]. apply blanks_cons in H as [H K]. rewrite H. apply IH, K. Qed.
Lemma last_case : forall s : string, s = ""%string \/ exists v c, s = (v ++ String c "")%string.
Proof.
  induction s as [|c s [->|(v & d & ->)]]; [left; reflexivity|right; exists ""%string, c; reflexivity|].
  right. exists (String c v), d. reflexivity.
Qed.
Lemma trimmed_strip : forall s u, trimmed s u -> strip s = u.
Proof.
  intros s u (l & r & -> & Hl & Hr & Hb & He). unfold strip. rewrite <- app_assoc_s, (rstrip_app _ _ Hr).
  destruct (last_case u) as [->|(v & c & E)].
  - rewrite app_nil_s, (rstrip_blanks l Hl). reflexivity.
  - assert (space_char c = false) as F by (apply not_true_is_false; rewrite <- blank_space; apply (He c v E)).
    rewrite E at 1. rewrite <- app_assoc_s, (rstrip_last _ _ F), app_assoc_s, <- E, (lstrip_app _ _ Hl).
    destruct u as [|d w]; [reflexivity|]. cbn [lstrip].
    assert (space_char d = false) as -> by (apply not_true_is_false; rewrite <- blank_space; apply (Hb d w eq_refl)). reflexivity.
Qed.
Lemma rstrip_split : forall s, exists r, s = (rstrip s ++ r)%string /\ blanks r.
Proof.
  induction s as [|c s (r & E & H)]; [exists ""%string; split; [reflexivity|apply blanks_nil]|]. cbn [rstrip].
  destruct (rstrip s) as [|d w].
  - cbn in E. subst r. destruct (space_char c) eqn:F.
    + exists (String c s). split; [reflexivity|apply blanks_cons; split; assumption].
    + exists s. split; [reflexivity|exact H].
  - exists r. split; [cbn; rewrite E at 1; reflexivity|exact H].
Qed.
Lemma rstrip_end : forall s c v, rstrip s = (v ++ String c "")%string -> space_char c = false.
Proof.
  induction s as [|d s IH]; intros c v; cbn [rstrip]; [destruct v; discriminate|].
  destruct (rstrip s) as [|e w].
  - destruct (space_char d) eqn:F; [destruct v; discriminate|]. destruct v as [|x v]; cbn; intros H.
    + injection H as <-. exact F.
    + injection H as _ H. destruct v; discriminate.
  - destruct v as [|x v]; cbn; intros H; [discriminate|]. injection H as _ H. exact (IH c v H).
Qed.
Lemma lstrip_split : forall s, exists l, s = (l ++ lstrip s)%string /\ blanks l.
Proof.
  induction s as [|c s (l & E & H)]; [exists ""%string; split; [reflexivity|apply blanks_nil]|]. cbn [lstrip].
  destruct (space_char c) eqn:F.
  - exists (String c l). split; [cbn; rewrite E at 1; reflexivity|apply blanks_cons; split; assumption].
  - exists ""%string. split; [reflexivity|apply blanks_nil].
Qed.
Lemma lstrip_head : forall s c v, lstrip s = String c v -> space_char c = false.
Proof.
  induction s as [|d s IH]; intros c v; cbn [lstrip]; [discriminate|].
  destruct (space_char d) eqn:F; [apply IH|]. intros H. injection H as <- _. exact F.
Qed.
Lemma strip_trimmed : forall s, trimmed s (strip s).
Proof.
  intros s. destruct (rstrip_split s) as (r & E & Hr). destruct (lstrip_split (rstrip s)) as (l & F & Hl).
  exists l, r. unfold strip. repeat split; try assumption.
  - rewrite <- app_assoc_s, <- F. exact E.
  - intros c v H. rewrite blank_space, (lstrip_head _ _ _ H). discriminate.
  - intros c v H. rewrite H, <- app_assoc_s in F. rewrite blank_space, (rstrip_end _ _ _ F). discriminate.
Qed.
Lemma rstrip_low : forall s, rstrip (lower_str s) = lower_str (rstrip s).
Proof.
  induction s as [|c s IH]; [reflexivity|]. cbn [lower_str rstrip]. rewrite IH, space_low.
  destruct (rstrip s) as [|d w]; cbn [lower_str]; [destruct (space_char c); reflexivity|reflexivity].
Qed.
Lemma lstrip_low : forall s, lstrip (lower_str s) = lower_str (lstrip s).
Proof. induction s as [|c s IH]; [reflexivity|]. cbn [lower_str lstrip]. rewrite IH, space_low. destruct (space_char c); reflexivity. Qed.
Lemma strip_low : forall s, strip (lower_str s) = lower_str (strip s).
Proof. intros s. unfold strip. rewrite rstrip_low, lstrip_low. reflexivity. Qed.
Lemma same_text_iff : forall s t, same_text s t <-> strip (lower_str s) = strip (lower_str t).
Proof.
  intros s t. rewrite !strip_low. split.
  - intros (u & v & Hu & Hv & A). rewrite (trimmed_strip _ _ Hu), (trimmed_strip _ _ Hv). apply alike_low, A.
  - intros H. exists (strip s), (strip t). repeat split; try apply strip_trimmed. apply alike_low, H.
Qed.
Lemma label_title : forall l a, let t := ax_title (labelfig l a) in
  (title l = ""%string -> t = ax_title a) /\
  (title l <> ""%string -> same_text (ax_title a) (title l) -> t = title l) /\
  (title l <> ""%string -> ~ same_text (ax_title a) (title l) -> t = (ax_title a ++ newline ++ title l)%string).
Proof.
  intros [t x y z] a. unfold labelfig, given. cbn [title xlab ylab zlab].
  assert (forall b, ax_title (if negb (String.eqb z "") then set_ylabel b z else b) = ax_title b) as K3 by (intros b; destruct (String.eqb z ""); reflexivity).
  assert (forall b, ax_title (if negb (String.eqb y "") then set_ylabel b y else b) = ax_title b) as K2 by (intros b; destruct (String.eqb y ""); reflexivity).
  assert (forall b, ax_title (if negb (String.eqb x "") then set_xlabel b x else b) = ax_title b) as K1 by (intros b; destruct (String.eqb x ""); reflexivity).
  rewrite K3, K2, K1. clear K1 K2 K3. rewrite !same_text_iff. unfold add_title.
  destruct (String.eqb_spec t "") as [E|E]; cbn [negb]; [repeat split; intros; try reflexivity; congruence|].
  destruct (String.eqb_spec (strip (lower_str (ax_title a))) (strip (lower_str t))) as [F|F]; cbn; repeat split; intros; try reflexivity; congruence.
Qed.
Lemma label_zlab : forall l a, zlab l <> ""%string -> ax_y (labelfig l a) = zlab l /\ ax_z (labelfig l a) = ax_z a.
Proof.
  intros [t x y z] a H; cbn [zlab] in H. unfold labelfig. cbn [title xlab ylab zlab]. rewrite (proj2 (given_true z) H).
  split; [reflexivity|]. unfold given. destruct (String.eqb t ""), (String.eqb x ""), (String.eqb y ""); reflexivity.
Qed.
Lemma zlab_refuted : ~ (forall l a, ylab l <> ""%string -> zlab l <> ""%string -> ax_y (labelfig l a) = ylab l /\ ax_z (labelfig l a) = zlab l).
Proof.
  intros H. destruct (H (Labels "" "" "y" "z") fresh ltac:(discriminate) ltac:(discriminate)) as [E _]. discriminate.
Qed.
Lemma title_refuted : ~ (forall l, ax_title (labelfig l fresh) = title l) /\ ~ (forall l a, labelfig l (labelfig l a) = labelfig l a).
Proof.
  split; intros H.
  - specialize (H (Labels "Density" "" "" "")). discriminate.
  - specialize (H (Labels "Density" "" "" "") fresh). discriminate.
Qed.
