From Coq Require Import Reals Lra Lia Sorted.
From Coquelicot Require Import RInt RInt_analysis Hierarchy Continuity Derive.
From Verif Require Import Base PolyModel PolySpec PolyProofs PolyProofs2 OrthoModel OrthoProofs
  PPModel PPSpec PPProofs PPProofs2 SplineModel SplineSpec SplineProofs SplineProofs2 LinAlg.
Local Open Scope R_scope.

(* ---- the linear system has exactly one solution ------------------------------------------- *)
Lemma rhs_zero x i : ss_rhs x (repeat 0 (List.length x)) i = 0.
Proof.
  assert (E : forall k, at_R (repeat 0 (List.length x)) k = 0).
  { intros k. unfold at_R. destruct (Nat.lt_ge_cases k (List.length x)).
    - assert (I : In (nth k (repeat 0 (List.length x)) 0) (repeat 0 (List.length x))) by (apply nth_In; now rewrite repeat_length).
      now apply repeat_spec in I.
    - apply nth_overflow. rewrite repeat_length. lia. }
  unfold ss_rhs, secant. rewrite !E. unfold Rdiv. ring.
Qed.
Lemma padded_inner n u i : (i < n - 2)%nat -> padded n u (S i) = u i.
Proof. intros H. cbn [padded]. destruct (Nat.ltb_spec i (n - 2)); [reflexivity|lia]. Qed.
Lemma padded_last n u : padded n u (S (n - 2)) = 0.
Proof. cbn [padded]. destruct (Nat.ltb_spec (n - 2) (n - 2)); [lia|reflexivity]. Qed.

Lemma R_form (h U : nat -> R) m : U 0%nat = 0 ->
  vsum m (fun i => U (S i) * (h i * U i + 2 * (h i + h (S i)) * U (S i) + h (S i) * U (S (S i))))
  = vsum m (fun k => h k * (2 * U k ^ 2 + 2 * U k * U (S k) + 2 * U (S k) ^ 2)) + h m * (2 * U m ^ 2 + U m * U (S m)).
Proof.
  intros H0. induction m as [|m IH]; cbn [vsum]; [rewrite H0; ring|]. rewrite IH. ring.
Qed.
Lemma Q_form x (q : nat -> R) u : (3 <= List.length x)%nat ->
  vsum (List.length x - 2) (fun i => u i * (/ gap x i * q i - (/ gap x i + / gap x (S i)) * q (S i) + / gap x (S i) * q (S (S i))))
  = vsum (List.length x) (fun k => q k * ss_Qu x u k).
Proof.
  intros Hn. rewrite (vsum_ext (List.length x - 2) _ (fun i => vsum (List.length x) (fun k => q k * (ss_Q x k i * u i)))).
  2:{ intros i Hi. rewrite <- Q_col by lia. rewrite <- vsum_scal. apply vsum_ext. intros. ring. }
  rewrite vsum_exchange. apply vsum_ext. intros k Hk. now rewrite vsum_scal, Q_row.
Qed.
Lemma matrix_injective x var p : StronglySorted Rlt x -> (3 <= List.length x)%nat -> 0 <= p <= 1 ->
  (forall k, (k < List.length x)%nat -> 0 < var k) -> injective (List.length x - 2) (ss_matrix x var p).
Proof.
  intros Hx Hn Hp Hv s Hs. set (n := List.length x) in *.
  assert (Hs' : solves (n - 2) (ss_matrix x var p) (ss_rhs x (repeat 0 n)) s).
  { intros i Hi. rewrite (Hs i Hi). unfold n. now rewrite rhs_zero. }
  pose proof (system_row x (repeat 0 n) var p s Hn Hs') as ROW. cbv zeta in ROW.
  set (u := ss_u s) in *. set (U := padded n u) in *.
  assert (Hg : forall i, (S i < n)%nat -> 0 < gap x i) by (intros i Hi; exact (gap_pos x i Hx Hi)).
  set (T := vsum (n - 2) (fun i => U (S i) * (gap x i * U i + 2 * (gap x i + gap x (S i)) * U (S i) + gap x (S i) * U (S (S i))))).
  set (K := vsum n (fun k => var k * (ss_Qu x u k) ^ 2)).
  assert (E : 6 * (1 - p) * K + p * T = 0).
  { unfold K, T. rewrite (vsum_ext n (fun k => var k * (ss_Qu x u k) ^ 2) (fun k => (var k * ss_Qu x u k) * ss_Qu x u k)) by (intros; ring).
    unfold n. rewrite <- (Q_form x (fun k => var k * ss_Qu x u k) u Hn). fold n. rewrite <- !vsum_scal, <- vsum_add.
    apply vsum_0. intros i Hi. specialize (ROW i ltac:(unfold n in *; lia)).
    assert (Z : secant x (repeat 0 n) (S i) - secant x (repeat 0 n) i = 0) by exact (rhs_zero x i).
    rewrite Z in ROW. fold n in ROW. fold U in ROW. rewrite (padded_inner n u i Hi : U (S i) = u i) in *.
    transitivity (u i * 0); [|ring]. rewrite <- ROW. ring. }
  assert (K0 : 0 <= K). { apply vsum_nonneg. intros k Hk. specialize (Hv k Hk). nra. }
  assert (ET : T = vsum (n - 2) (fun k => gap x k * (2 * U k ^ 2 + 2 * U k * U (S k) + 2 * U (S k) ^ 2)) + 2 * gap x (n - 2) * U (n - 2)%nat ^ 2).
  { unfold T. rewrite R_form by reflexivity. unfold U at 7. rewrite padded_last. ring. }
  assert (F : forall k, (k < n - 2)%nat -> 0 <= gap x k * (2 * U k ^ 2 + 2 * U k * U (S k) + 2 * U (S k) ^ 2)).
  { intros k Hk. specialize (Hg k ltac:(lia)). apply Rmult_le_pos; [lra|]. nra. }
  pose proof (vsum_nonneg _ _ F) as F0.
  assert (L0 : 0 <= 2 * gap x (n - 2) * U (n - 2)%nat ^ 2). { specialize (Hg (n - 2)%nat ltac:(lia)). nra. }
  assert (Uz : forall k, (k < n - 2)%nat -> U (S k) = 0).
  { destruct (Req_dec p 0) as [P0|P0].
    - assert (KZ : K = 0) by (rewrite P0 in E; lra).
      assert (QZ : forall k, (k < n)%nat -> ss_Qu x u k = 0).
      { intros k Hk. assert (G : var k * ss_Qu x u k ^ 2 = 0).
        { apply (vsum_zero_all n (fun k => var k * ss_Qu x u k ^ 2)); [|exact KZ|exact Hk].
          intros j Hj. specialize (Hv j Hj). nra. }
        specialize (Hv k Hk). apply Rmult_integral in G as [G|G]; [lra|]. nra. }
      assert (GZ : forall k, (k < n - 1)%nat -> ss_g x u k = 0).
      { induction k as [|k IH]; intros Hk.
        - specialize (QZ 0%nat ltac:(lia)). unfold ss_Qu in QZ. fold n in QZ.
          destruct (Nat.ltb_spec 0 (n - 1)); [lra|lia].
        - specialize (QZ (S k) ltac:(lia)). unfold ss_Qu in QZ. fold n in QZ.
          destruct (Nat.ltb_spec (S k) (n - 1)); [|lia]. rewrite IH in QZ by lia. lra. }
      assert (UZ : forall k, (k < n)%nat -> U k = 0).
      { induction k as [|k IH]; intros Hk; [reflexivity|]. specialize (GZ k ltac:(lia)). unfold ss_g in GZ. fold n U in GZ.
        specialize (Hg k ltac:(lia)). rewrite IH in GZ by lia. apply Rmult_integral in GZ as [GZ|GZ]; [lra|].
        exfalso. apply Rinv_neq_0_compat in GZ; [exact GZ|lra]. }
      intros k Hk. apply UZ. lia.
    - assert (T0 : 0 <= T) by (rewrite ET; lra).
      assert (0 <= (1 - p) * K) by (apply Rmult_le_pos; lra). assert (0 <= p * T) by (apply Rmult_le_pos; lra).
      assert (TZ : T = 0) by (apply (Rmult_eq_reg_l p); [lra|exact P0]).
      assert (S0 : vsum (n - 2) (fun k => gap x k * (2 * U k ^ 2 + 2 * U k * U (S k) + 2 * U (S k) ^ 2)) = 0) by lra.
      intros k Hk. pose proof (vsum_zero_all _ _ F S0 k Hk) as G. cbv beta in G. specialize (Hg k ltac:(lia)).
      apply Rmult_integral in G as [G|G]; [lra|]. pose proof (pow2_ge_0 (U k)). pose proof (pow2_ge_0 (U k + U (S k))).
      pose proof (pow2_ge_0 (U (S k))). assert (B : U (S k) * U (S k) = 0) by nra. now apply Rmult_integral in B as [B|B]. }
  intros j Hj. specialize (Uz j Hj). unfold U in Uz. rewrite padded_inner in Uz by exact Hj. unfold u, ss_u in Uz. lra.
Qed.

(* ---- the smoothing criterion --------------------------------------------------------------- *)
Lemma continuous_of_continuity f : continuity f -> forall t, continuous f t.
Proof. intros H t. apply continuity_pt_filterlim. apply H. Qed.
Lemma ex_int f a b : continuity f -> ex_RInt f a b.
Proof. intros H. apply (ex_RInt_continuous (V := R_CompleteNormedModule)). intros z _. now apply continuous_of_continuity. Qed.
Lemma linear_piece A B a b (f h h1 h2 : R -> R) : a <= b ->
  (forall t, derivable_pt_lim h t (h1 t)) -> (forall t, derivable_pt_lim h1 t (h2 t)) -> continuity h2 ->
  (forall t, a < t < b -> f t = A + B * (t - a)) ->
  is_RInt (fun t => f t * h2 t) a b ((A + B * (b - a)) * h1 b - A * h1 a - B * (h b - h a)).
Proof.
  intros Hab D1 D2 C Hf.
  apply (is_RInt_ext (fun t => (A + B * (t - a)) * h2 t)).
  { intros t Ht. rewrite Rmin_left, Rmax_right in Ht by lra. now rewrite Hf. }
  set (G t := (A + B * (t - a)) * h1 t - B * h t).
  replace ((A + B * (b - a)) * h1 b - A * h1 a - B * (h b - h a)) with (minus (G b) (G a))
    by (unfold minus, plus, opp, G; cbn; ring).
  apply (is_RInt_derive G (fun t => (A + B * (t - a)) * h2 t)).
  - intros t _. apply is_derive_Reals. unfold G.
    apply (dlim_eq _ _ ((B * 1) * h1 t + (A + B * (t - a)) * h2 t - B * h1 t)); [ring|].
    apply (derivable_pt_lim_minus (fun t => (A + B * (t - a)) * h1 t) (fun t => B * h t)).
    + apply (derivable_pt_lim_mult (fun t => A + B * (t - a)) h1); [|apply D2].
      apply (dlim_eq _ _ (0 + B * (1 - 0))); [ring|].
      apply (derivable_pt_lim_plus (fun _ => A) (fun t => B * (t - a))); [apply derivable_pt_lim_const|].
      apply (derivable_pt_lim_scal (fun t => t - a)). apply (derivable_pt_lim_minus (fun t => t) (fun _ => a));
      [apply derivable_pt_lim_id|apply derivable_pt_lim_const].
    + apply (derivable_pt_lim_scal h). apply D1.
  - intros t _. apply continuous_of_continuity. apply continuity_mult; [|exact C].
    apply derivable_continuous. intros z. exists B. apply (dlim_eq _ _ (0 + B * (1 - 0))); [ring|].
    apply (derivable_pt_lim_plus (fun _ => A) (fun t => B * (t - a))); [apply derivable_pt_lim_const|].
    apply (derivable_pt_lim_scal (fun t => t - a)). apply (derivable_pt_lim_minus (fun t => t) (fun _ => a));
    [apply derivable_pt_lim_id|apply derivable_pt_lim_const].
Qed.
(* a continuous piecewise linear f, given by its values V at the knots *)
Lemma linear_pieces (X V B : nat -> R) (f h h1 h2 : R -> R) n :
  (forall i, (i < n)%nat -> X i <= X (S i)) ->
  (forall t, derivable_pt_lim h t (h1 t)) -> (forall t, derivable_pt_lim h1 t (h2 t)) -> continuity h2 ->
  (forall i t, (i < n)%nat -> X i < t < X (S i) -> f t = V i + B i * (t - X i)) ->
  (forall i, (i < n)%nat -> V i + B i * (X (S i) - X i) = V (S i)) ->
  is_RInt (fun t => f t * h2 t) (X 0%nat) (X n)
    (V n * h1 (X n) - V 0%nat * h1 (X 0%nat) - vsum n (fun i => B i * (h (X (S i)) - h (X i)))).
Proof.
  intros HX D1 D2 C Hf HV. induction n as [|n IH]; cbn [vsum].
  - replace (V 0%nat * h1 (X 0%nat) - V 0%nat * h1 (X 0%nat) - 0) with (zero : R) by (unfold zero; cbn; ring).
    apply (is_RInt_point (V := R_NormedModule)).
  - specialize (IH ltac:(auto) ltac:(auto) ltac:(auto)).
    pose proof (linear_piece (V n) (B n) (X n) (X (S n)) f h h1 h2 (HX n ltac:(lia)) D1 D2 C (fun t Ht => Hf n t ltac:(lia) Ht)) as P.
    pose proof (is_RInt_Chasles _ _ _ _ _ _ IH P) as R.
    rewrite HV in R by lia. match type of R with is_RInt _ _ _ ?v => replace v with
     (V (S n) * h1 (X (S n)) - V 0%nat * h1 (X 0%nat) - (vsum n (fun i => B i * (h (X (S i)) - h (X i))) + B n * (h (X (S n)) - h (X n)))) in R end;
     [exact R|]. unfold plus; cbn. ring.
Qed.
Lemma parts_sum x u (H : nat -> R) : (3 <= List.length x)%nat ->
  vsum (List.length x - 1) (fun i => ss_g x u i * (H (S i) - H i)) = - vsum (List.length x) (fun i => ss_Qu x u i * H i).
Proof.
  intros Hn. assert (E : List.length x = S (List.length x - 1)) by lia.
  rewrite E at 2. cbn [vsum]. unfold ss_Qu at 2. destruct (Nat.ltb_spec (List.length x - 1) (List.length x - 1)); [lia|].
  rewrite (vsum_ext (List.length x - 1) (fun i => ss_Qu x u i * H i)
    (fun i => (ss_g x u i - match i with O => 0 | S i' => ss_g x u i' end) * H i)).
  2:{ intros i Hi. unfold ss_Qu. destruct (Nat.ltb_spec i (List.length x - 1)); [reflexivity|lia]. }
  generalize (List.length x - 1)%nat as m. clear.
  induction m as [|m IH]; cbn [vsum]; [ring|]. rewrite IH. destruct m; ring.
Qed.

Lemma spline_cross x y var p s (F2 h h1 h2 : R -> R) : StronglySorted Rlt x -> (3 <= List.length x)%nat ->
  (forall t, between_breaks x t -> F2 t = pfun x (map polyder1 (map polyder1 (sscols x y var (ss_p x var p) (ss_u s)))) t) ->
  (forall t, derivable_pt_lim h t (h1 t)) -> (forall t, derivable_pt_lim h1 t (h2 t)) -> continuity h2 ->
  is_RInt (fun t => F2 t * h2 t) (hd 0 x) (last x 0) (6 * (ss_p x var p) * vsum (List.length x) (fun i => ss_Qu x (ss_u s) i * h (nth i x 0))).
Proof.
  intros Hx Hn HF D1 D2 C. set (n := List.length x) in *. set (P := ss_p x var p) in *. set (u := ss_u s) in *.
  assert (Hg : forall i, (S i < n)%nat -> 0 < gap x i) by (intros i Hi; exact (gap_pos x i Hx Hi)).
  assert (Xn : x <> []) by (intros E; unfold n in Hn; rewrite E in Hn; cbn in Hn; lia).
  pose proof (linear_pieces (fun i => nth i x 0) (fun i => 2 * ss_c n P u i) (fun i => 6 * ss_d x P u i) F2 h h1 h2 (n - 1)) as L.
  cbv beta in L.
  assert (E0 : nth 0 x 0 = hd 0 x) by (destruct x; reflexivity).
  assert (EN : nth (n - 1) x 0 = last x 0) by (symmetry; now apply last_nth).
  rewrite E0, EN in L.
  match type of L with _ -> _ -> _ -> _ -> _ -> _ -> is_RInt _ _ _ ?v => assert (EV : v = 6 * P * vsum n (fun i => ss_Qu x u i * h (nth i x 0))) end.
  { replace (n - 1)%nat with (S (n - 2)) at 1 by lia. cbn [ss_c]. destruct (Nat.ltb_spec (n - 2) (n - 2)); [lia|].
    rewrite (vsum_ext (n - 1) _ (fun i => 6 * P * (ss_g x u i * (h (nth (S i) x 0) - h (nth i x 0))))).
    2:{ intros i Hi. unfold ss_d, ss_g. rewrite !ss_c_U. field. specialize (Hg i ltac:(lia)). lra. }
    rewrite vsum_scal. unfold n. rewrite (parts_sum x u (fun i => h (nth i x 0)) Hn). ring. }
  rewrite <- EV. apply L; clear L EV.
  - intros i Hi. specialize (Hg i ltac:(lia)). unfold gap, at_R in Hg. lra.
  - exact D1.
  - exact D2.
  - exact C.
  - intros i t Hi Ht. pose proof (sscols_wf x y var P u Hx ltac:(lia)) as W.
    assert (W2 : well_formed (map (fun i => polyder1 (polyder1 (ss_col x y var P u i))) (seq 0 (List.length x - 1))) x).
    { apply (wf_pieces (sscols x y var P u)); [exact W|rewrite map_length, seq_length, sscols_length; reflexivity|].
      apply Forall_map, Forall_forall. intros; discriminate. }
    rewrite HF.
    2:{ split.
        - rewrite <- E0. destruct i as [|i]; [lra|]. pose proof (sorted_nth x Hx 0%nat (S i) ltac:(lia) ltac:(unfold n in *; lia)). lra.
        - assert (nth (S i) x 0 <= last x 0); [|lra]. apply sorted_le_last; [exact Hx|]. apply nth_In. unfold n in *. lia. }
    unfold sscols. rewrite !map_map. rewrite (pfun_piece _ x i t W2).
    + rewrite (nth_indep _ [] (polyder1 (polyder1 (ss_col x y var P u 0%nat)))) by (rewrite map_length, seq_length; unfold n in *; lia).
      rewrite (map_nth (fun i => polyder1 (polyder1 (ss_col x y var P u i)))), seq_nth by (unfold n in *; lia).
      rewrite col_der2. cbn [Nat.add]. unfold n. ring.
    + rewrite map_length, seq_length. exact Hi.
    + lra.
  - intros i Hi. specialize (Hg i ltac:(lia)). change (nth (S i) x 0 - nth i x 0) with (gap x i). unfold ss_d. fold n. field. lra.
Qed.
Lemma continuity_sq f : continuity f -> continuity (fun t => f t ^ 2).
Proof.
  intros C. assert (E : (fun t => f t ^ 2) = mult_fct f f) by (apply FunctionalExtensionality.functional_extensionality; intros t; unfold mult_fct; ring).
  rewrite E. now apply continuity_mult.
Qed.
Lemma roughness_split (F2 h2 G2 : R -> R) a b c : a <= b -> continuity F2 -> continuity h2 -> (forall t, G2 t = F2 t + h2 t) ->
  is_RInt (fun t => F2 t * h2 t) a b c ->
  roughness G2 a b = roughness F2 a b + 2 * c + roughness h2 a b /\ 0 <= roughness h2 a b.
Proof.
  intros Hab CF Ch E I. split.
  - unfold roughness. apply is_RInt_unique.
    apply (is_RInt_ext (fun t => plus (plus (F2 t ^ 2) (scal 2 (F2 t * h2 t))) (h2 t ^ 2))).
    { intros t _. rewrite E. unfold plus, scal; cbn. unfold mult; cbn. ring. }
    apply (is_RInt_plus (V := R_NormedModule)); [apply (is_RInt_plus (V := R_NormedModule))|].
    + apply (RInt_correct (V := R_CompleteNormedModule)), ex_int, continuity_sq, CF.
    + apply (is_RInt_scal (V := R_NormedModule)). exact I.
    + apply (RInt_correct (V := R_CompleteNormedModule)), ex_int, continuity_sq, Ch.
  - apply RInt_ge_0; [exact Hab|apply ex_int, continuity_sq, Ch|]. intros t _. nra.
Qed.
Lemma smooth_spline_optimal x y var p s : StronglySorted Rlt x -> List.length y = List.length x -> (3 <= List.length x)%nat ->
  (forall i, (i < List.length x)%nat -> 0 < var i) ->
  solves (List.length x - 2) (ss_matrix x var (ss_p x var p)) (ss_rhs x y) s ->
  exists q F F2, smooth_spline x y var p true s = Ok q /\ (forall t, pp_call q t = Ok (F t)) /\
   twice_differentiable F F2 /\
   (forall t, t <= hd 0 x \/ last x 0 <= t -> F2 t = 0) /\
   (forall G G2, twice_differentiable G G2 ->
      criterion (ss_p x var p) x y var F F2 <= criterion (ss_p x var p) x y var G G2) /\
   (forall G G2, twice_differentiable G G2 -> (forall i, (i < List.length x)%nat -> G (nth i x 0) = F (nth i x 0)) ->
      roughness F2 (hd 0 x) (last x 0) <= roughness G2 (hd 0 x) (last x 0)).
Proof.
  intros Hx Hy Hn Hv HS. destruct (smooth_spline_spec x y var p s Hx Hy Hn HS) as [q [F [F2 [E [V [T [Z [K A]]]]]]]].
  exists q, F, F2. split; [exact E|]. split; [exact V|]. split; [exact T|]. split; [exact Z|].
  set (P := ss_p x var p) in *. pose proof (ss_p_range x var p) as HP. fold P in HP.
  set (n := List.length x) in *.
  assert (AB : hd 0 x <= last x 0). { apply sorted_le_last; [exact Hx|]. destruct x; [cbn in Hn; lia|now left]. }
  assert (X : forall G G2, twice_differentiable G G2 ->
    roughness G2 (hd 0 x) (last x 0) = roughness F2 (hd 0 x) (last x 0)
      + 2 * (6 * P * vsum n (fun i => ss_Qu x (ss_u s) i * (G (nth i x 0) - F (nth i x 0)))) + roughness (fun t => G2 t - F2 t) (hd 0 x) (last x 0)
    /\ 0 <= roughness (fun t => G2 t - F2 t) (hd 0 x) (last x 0)).
  { intros G G2 [G1 [DG1 [DG2 CG]]]. destruct T as [F1 [DF1 [DF2 CF]]].
    assert (Ch : continuity (fun t => G2 t - F2 t)) by (apply (continuity_minus G2 F2); assumption).
    apply roughness_split; [exact AB|exact CF|exact Ch|intros t; ring|].
    apply (spline_cross x y var p s F2 (fun t => G t - F t) (fun t => G1 t - F1 t) (fun t => G2 t - F2 t) Hx Hn A); [| |exact Ch].
    - intros t. apply (derivable_pt_lim_minus G F); auto.
    - intros t. apply (derivable_pt_lim_minus G1 F1); auto. }
  split.
  - intros G G2 TG. destruct (X G G2 TG) as [XE X0]. unfold criterion. rewrite XE.
    set (h i := G (nth i x 0) - F (nth i x 0)) in *.
    assert (M : misfit x y var G - misfit x y var F
       = vsum n (fun i => h i ^ 2 / var i) - 2 * (6 * (1 - P) * vsum n (fun i => ss_Qu x (ss_u s) i * h i))).
    { unfold misfit. fold n. rewrite <- vsum_sub, <- !vsum_scal, <- vsum_sub. apply vsum_ext. intros i Hi.
      specialize (Hv i Hi). unfold h. specialize (K i Hi). unfold ss_a in K. unfold at_R in K.
      assert (K' : F (nth i x 0) = nth i y 0 - 6 * (1 - P) * (var i * ss_Qu x (ss_u s) i)).
      { destruct (Rlt_dec P 1); [exact K|]. rewrite K. replace P with 1 by lra. ring. }
      rewrite K'. field. lra. }
    assert (M0 : 0 <= vsum n (fun i => h i ^ 2 / var i)).
    { apply vsum_nonneg. intros i Hi. specialize (Hv i Hi). apply Rmult_le_pos; [apply pow2_ge_0|]. left. now apply Rinv_0_lt_compat. }
    change (vsum n (fun i => ss_Qu x (ss_u s) i * (G (nth i x 0) - F (nth i x 0)))) with (vsum n (fun i => ss_Qu x (ss_u s) i * h i)).
    set (c := vsum n (fun i => ss_Qu x (ss_u s) i * h i)) in *.
    assert (0 <= P * vsum n (fun i => h i ^ 2 / var i)) by (apply Rmult_le_pos; lra).
    assert (0 <= (1 - P) * roughness (fun t => G2 t - F2 t) (hd 0 x) (last x 0)) by (apply Rmult_le_pos; lra).
    replace (misfit x y var G) with (misfit x y var F + (vsum n (fun i => h i ^ 2 / var i) - 2 * (6 * (1 - P) * c))) by lra.
    nra.
  - intros G G2 TG HG. destruct (X G G2 TG) as [XE X0]. rewrite XE.
    rewrite (vsum_0 n); [lra|]. intros i Hi. rewrite HG by exact Hi. ring.
Qed.
Lemma system_unique_solution x y var p : StronglySorted Rlt x -> (3 <= List.length x)%nat ->
  (forall i, (i < List.length x)%nat -> 0 < var i) ->
  exists s, solves (List.length x - 2) (ss_matrix x var (ss_p x var p)) (ss_rhs x y) s /\
  forall t, solves (List.length x - 2) (ss_matrix x var (ss_p x var p)) (ss_rhs x y) t ->
    forall i, (i < List.length x - 2)%nat -> t i = s i.
Proof.
  intros Hx Hn Hv. pose proof (matrix_injective x var (ss_p x var p) Hx Hn (ss_p_range x var p) Hv) as I.
  destruct (injective_solvable _ _ (ss_rhs x y) I) as [s Hs]. exists s. split; [exact Hs|].
  intros t Ht i Hi. exact (injective_unique _ _ _ t s I Ht Hs i Hi).
Qed.

(* ---- p = 0: the least squares line ---------------------------------------------------------- *)
Lemma zero_p_param x var : ss_p x var (Some 0) = 0.
Proof. unfold ss_p. destruct (Rlt_dec 0 0); [lra|]. destruct (Rlt_dec 1 0); [lra|reflexivity]. Qed.
Lemma constant_of_zero_derivative f : (forall t, derivable_pt_lim f t 0) -> forall a b, f a = f b.
Proof.
  intros D a b. destruct (Req_dec a b) as [->|N]; [reflexivity|].
  assert (W : forall a b, a < b -> f a = f b).
  { clear -D. intros a b H. destruct (MVT_cor2 f (fun _ => 0) a b H) as [c [E _]]; [intros; apply D|]. lra. }
  destruct (Rlt_le_dec a b); [apply W; lra|symmetry; apply W; lra].
Qed.
Lemma affine_of_zero_second F F2 : twice_differentiable F F2 -> (forall t, F2 t = 0) ->
  exists a b, forall t, F t = a + b * t.
Proof.
  intros [F1 [D1 [D2 _]]] Z.
  assert (C1 : forall t, F1 t = F1 0). { intros t. apply constant_of_zero_derivative. intros z. rewrite <- (Z z). apply D2. }
  exists (F 0), (F1 0). intros t.
  assert (C : F t - F1 0 * t = F 0 - F1 0 * 0).
  { apply (constant_of_zero_derivative (fun t => F t - F1 0 * t)). intros z.
    apply (dlim_eq _ _ (F1 z - F1 0 * 1)); [rewrite (C1 z); ring|].
    apply (derivable_pt_lim_minus F (fun t => F1 0 * t)); [apply D1|]. apply (derivable_pt_lim_scal (fun t => t)). apply derivable_pt_lim_id. }
  lra.
Qed.
Lemma Qu_annihilates x u a b : StronglySorted Rlt x -> (3 <= List.length x)%nat ->
  vsum (List.length x) (fun i => ss_Qu x u i * (a + b * nth i x 0)) = 0.
Proof.
  intros Hx Hn. pose proof (parts_sum x u (fun i => a + b * nth i x 0) Hn) as E. cbv beta in E.
  rewrite (vsum_ext _ _ (fun i => b * (padded (List.length x) u (S i) - padded (List.length x) u i))) in E.
  2:{ intros i Hi. unfold ss_g. pose proof (gap_pos x i Hx ltac:(lia)) as G. change (nth (S i) x 0) with (at_R x (S i)). change (nth i x 0) with (at_R x i).
      replace (a + b * at_R x (S i) - (a + b * at_R x i)) with (b * gap x i) by (unfold gap; ring). field. lra. }
  rewrite vsum_scal in E.
  assert (T : forall m, vsum m (fun i => padded (List.length x) u (S i) - padded (List.length x) u i) = padded (List.length x) u m).
  { induction m as [|m IH]; cbn [vsum]; [reflexivity|]. rewrite IH. ring. }
  rewrite T in E. replace (List.length x - 1)%nat with (S (List.length x - 2)) in E by lia. rewrite padded_last in E. lra.
Qed.
Lemma smooth_spline_line x y var s : StronglySorted Rlt x -> List.length y = List.length x -> (3 <= List.length x)%nat ->
  (forall i, (i < List.length x)%nat -> 0 < var i) ->
  solves (List.length x - 2) (ss_matrix x var 0) (ss_rhs x y) s ->
  exists q a b, smooth_spline x y var (Some 0) true s = Ok q /\ (forall t, pp_call q t = Ok (a + b * t)) /\
   forall a' b', misfit x y var (fun t => a + b * t) <= misfit x y var (fun t => a' + b' * t).
Proof.
  intros Hx Hy Hn Hv HS. rewrite <- (zero_p_param x var) in HS.
  destruct (smooth_spline_spec x y var (Some 0) s Hx Hy Hn HS) as [q [F [F2 [E [V [T [Z [K A]]]]]]]].
  rewrite zero_p_param in *.
  assert (F20 : forall t, F2 t = 0).
  { intros t. destruct (Rle_dec t (hd 0 x)) as [L|L]; [apply Z; now left|]. destruct (Rle_dec (last x 0) t) as [L'|L']; [apply Z; now right|].
    rewrite A by (split; lra).
    assert (Cz : map polyder1 (map polyder1 (sscols x y var 0 (ss_u s))) = map (fun _ => [0; 0]) (seq 0 (List.length x - 1))).
    { unfold sscols. rewrite !map_map. apply map_ext. intros i. unfold ss_col, ss_d. rewrite !ss_c_U. unfold polyder1.
      cbn [List.length Nat.sub countdown removelast map2 INR]. f_equal; [|f_equal]; unfold Rdiv; ring. }
    rewrite Cz. generalize (seq 0 (List.length x - 1)). clear.
    assert (G : forall (l : list nat) bs, pfun bs (map (fun _ => [0; 0]) l) t = 0).
    { induction l as [|i l IH]; intros bs; [destruct bs as [|? [|]]; reflexivity|].
      assert (P0 : forall z, peval [0; 0] z = 0) by (intros; cbn; ring).
      destruct bs as [|b0 [|b1 bs]]; destruct l as [|j l]; cbn [map pfun hd]; try apply P0; try reflexivity.
      all: try (match goal with |- context [Rle_dec ?u ?v] => destruct (Rle_dec u v) end; [apply P0|]); apply IH. }
    intros l. apply G. }
  destruct (affine_of_zero_second F F2 T F20) as [a [b AF]].
  exists q, a, b. split; [exact E|]. split; [intros t; rewrite V; f_equal; apply AF|].
  intros a' b'. set (n := List.length x) in *.
  assert (M : misfit x y var (fun t => a' + b' * t) - misfit x y var (fun t => a + b * t)
     = vsum n (fun i => ((a' - a) + (b' - b) * nth i x 0) ^ 2 / var i) - 12 * vsum n (fun i => ss_Qu x (ss_u s) i * ((a' - a) + (b' - b) * nth i x 0))).
  { unfold misfit. fold n. rewrite <- vsum_sub, <- !vsum_scal, <- vsum_sub. apply vsum_ext. intros i Hi.
    specialize (Hv i Hi). specialize (K i Hi). rewrite AF in K. unfold ss_a, at_R in K. destruct (Rlt_dec 0 1); [|lra].
    rewrite K. replace (a' + b' * nth i x 0) with (a + b * nth i x 0 + ((a' - a) + (b' - b) * nth i x 0)) by ring. rewrite K.
    field. lra. }
  unfold n in M. rewrite (Qu_annihilates x (ss_u s) (a' - a) (b' - b) Hx Hn) in M. fold n in M.
  assert (M0 : 0 <= vsum n (fun i => ((a' - a) + (b' - b) * nth i x 0) ^ 2 / var i)).
  { apply vsum_nonneg. intros i Hi. specialize (Hv i Hi). apply Rmult_le_pos; [apply pow2_ge_0|]. left. now apply Rinv_0_lt_compat. }
  lra.
Qed.
(* ---- the parameter; decreasing abscissae ------------------------------------------------------ *)
Lemma parameter_spec x var p : 0 <= ss_p x var p <= 1 /\ forall p', p = Some p' -> 0 <= p' <= 1 -> ss_p x var p = p'.
Proof.
  split; [apply ss_p_range|]. intros p' -> H. unfold ss_p. destruct (Rlt_dec p' 0); [lra|]. destruct (Rlt_dec 1 p'); [lra|reflexivity].
Qed.
Lemma decreasing_nth x : StronglySorted (fun a b => b < a) x -> forall i j, (i < j)%nat -> (j < List.length x)%nat -> nth j x 0 < nth i x 0.
Proof.
  induction 1 as [|a x H IH F]; intros i j Hij Hj; [cbn in Hj; lia|]. destruct j as [|j]; [lia|]. cbn [nth].
  destruct i as [|i]; cbn [nth].
  - assert (G : In (nth j x 0) x) by (apply nth_In; cbn in Hj; lia). rewrite Forall_forall in F. now apply F.
  - apply IH; cbn in Hj; lia.
Qed.
Lemma argsort_decreasing x : StronglySorted (fun a b => b < a) x -> argsort x = rev (seq 0 (List.length x)).
Proof.
  intros H. unfold argsort.
  assert (G : forall m, (m <= List.length x)%nat -> fold_left (fun l i => insert_by x i l) (seq 0 m) [] = rev (seq 0 m)).
  { induction m as [|m IH]; intros Hm; [reflexivity|]. rewrite seq_S, fold_left_app, IH, rev_app_distr by lia. cbn [fold_left rev app Nat.add].
    destruct m as [|m]; [reflexivity|]. rewrite seq_S, rev_app_distr. cbn [rev app insert_by Nat.add].
    pose proof (decreasing_nth x H m (S m) ltac:(lia) ltac:(lia)). unfold at_R. destruct (Rlt_dec (nth (S m) x 0) (nth m x 0)); [reflexivity|lra]. }
  now apply G.
Qed.
Lemma map_at_seq (l : list R) : map (at_R l) (seq 0 (List.length l)) = l.
Proof.
  unfold at_R. induction l as [|a l IH]; [reflexivity|]. cbn [List.length seq map nth]. f_equal.
  rewrite <- seq_shift, map_map. exact IH.
Qed.
Lemma sorted_rev x : StronglySorted (fun a b => b < a) x -> StronglySorted Rlt (rev x).
Proof.
  induction 1 as [|a x H IH F]; [constructor|]. cbn [rev]. apply sorted_snoc; [exact IH|]. apply Forall_rev. exact F.
Qed.
Lemma exists_below_true f n i : (i < n)%nat -> f i = true -> exists_below f n = true.
Proof.
  intros Hi Hf. induction n as [|n IH]; [lia|]. cbn [exists_below]. destruct (Nat.eq_dec i n) as [->|]; [now rewrite Hf|].
  rewrite IH by lia. apply orb_true_r.
Qed.
Lemma decreasing_reversed x y var p lin s : StronglySorted (fun a b => b < a) x -> List.length y = List.length x ->
  (2 <= List.length x)%nat -> smooth_spline x y var p lin s = smooth_spline (rev x) (rev y) var p lin s.
Proof.
  intros H Hy Hn. assert (E : ss_spacing x y = Ok (rev x, rev y)).
  { unfold ss_spacing. rewrite (exists_below_true _ _ 0%nat).
    - rewrite Hy, Nat.ltb_irrefl, argsort_decreasing by exact H. rewrite !map_rev, map_at_seq, <- Hy, map_at_seq. reflexivity.
    - lia.
    - unfold rlt, gap, at_R. pose proof (decreasing_nth x H 0 1 ltac:(lia) ltac:(lia)). destruct (Rlt_dec (nth 1 x 0 - nth 0 x 0) 0); [reflexivity|lra]. }
  unfold smooth_spline. rewrite E, spacing_sorted by now apply sorted_rev. reflexivity.
Qed.
