From Coq Require Import Reals Lra Lia List Bool Psatz String Permutation.
From Coquelicot Require Import Coquelicot.
From Verif Require Import Base PolyModel PolySpec PolyProofs TransModel KdeModel KdeSpec KdeProofs2 SeaModel SeaSpec SeaProofs SeaProofs2 SeaProofs3 SeaCases SpreadModel SpreadSpec CosPow GammaProofs KernelModel KernelSpec SpreadProofs SpreadProofs2 SpreadProofs4 KernelProofs KernelProofs2 KernelProofs3 Basel KernelProofs4 KernelProofs5.
Import ListNotations.
Local Open Scope R_scope.

(* signs and symmetry *)
Lemma prodl_nonneg l : Forall (fun v => 0 <= v) l -> 0 <= prodl l.
Proof. induction 1; unfold prodl in *; cbn [fold_right]; [lra|]. now apply Rmult_le_pos. Qed.
Lemma kernel_nonneg k x : 0 <= kernel k x.
Proof.
  destruct k as [p r|p r|r|r|r|r|r]; cbn [kernel].
  - apply pow_le, Rmax_l.
  - apply prodl_nonneg, Forall_forall. intros v H. apply in_map_iff in H as (u & <- & _). apply pow_le, Rmax_l.
  - destruct (forallb _ x); lra.
  - apply prodl_nonneg, Forall_forall. intros v H. apply in_map_iff in H as (u & <- & _). apply Rmax_l.
  - left. apply exp_pos.
  - left. apply exp_pos.
  - apply prodl_nonneg, Forall_forall. intros v H. apply in_map_iff in H as (u & <- & _). cbv zeta. pose proof (exp_pos u). left. apply Rdiv_lt_0_compat; [easy|apply pow_lt; lra].
Qed.
Lemma kernel_even k x : kernel k (map Ropp x) = kernel k x.
Proof.
  assert (M : forall h : R -> R, (forall v, h (- v) = h v) -> map h (map Ropp x) = map h x) by (intros h E; rewrite map_map; apply map_ext; exact E).
  destruct k as [p r|p r|r|r|r|r|r]; cbn [kernel].
  - rewrite (M (fun v => v ^ 2)) by (intros v; ring). reflexivity.
  - rewrite (M (fun v => Rmax 0 (1 - (v / r) ^ 2) ^ p)); [reflexivity|]. intros v. do 2 f_equal. unfold Rdiv. ring.
  - replace (forallb (fun v => if Rle_dec (Rabs v) r then true else false) (map Ropp x)) with (forallb (fun v => if Rle_dec (Rabs v) r then true else false) x); [reflexivity|]. clear M. induction x as [|a x IH]; [reflexivity|]. cbn [map forallb]. rewrite Rabs_Ropp. now rewrite IH.
  - rewrite (M (fun v => Rmax 0 (1 - Rabs v))); [reflexivity|]. intros v. now rewrite Rabs_Ropp.
  - cbv zeta. rewrite (M (fun v => (v / (r / 4)) ^ 2)); [reflexivity|]. intros v. unfold Rdiv. ring.
  - rewrite (M Rabs); [reflexivity|]. apply Rabs_Ropp.
  - apply (f_equal prodl). apply (M (fun v => let s := exp v in s / (s + 1) ^ 2)). intros v. cbv zeta. rewrite !logi_kernel, sigm_opp. ring.
Qed.
Lemma npsum_perm l m : Permutation l m -> npsum l = npsum m.
Proof. unfold npsum. induction 1; cbn; lra. Qed.
Lemma prodl_perm l m : Permutation l m -> prodl l = prodl m.
Proof. unfold prodl. induction 1; cbn; [reflexivity|congruence|ring|congruence]. Qed.
Lemma forallb_perm {A} (h : A -> bool) l m : Permutation l m -> forallb h l = forallb h m.
Proof. induction 1; cbn; [reflexivity|congruence| |congruence]. destruct (h x), (h y); reflexivity. Qed.
Lemma kernel_perm k x y : Permutation x y -> kernel k x = kernel k y.
Proof.
  intros H. destruct k; cbn [kernel]; cbv zeta.
  - erewrite (npsum_perm (map _ x)); [reflexivity|]. now apply Permutation_map.
  - apply prodl_perm. now apply Permutation_map.
  - now rewrite (forallb_perm _ x y H).
  - apply prodl_perm. now apply Permutation_map.
  - erewrite (npsum_perm (map _ x)); [reflexivity|]. now apply Permutation_map.
  - erewrite (npsum_perm (map _ x)); [reflexivity|]. now apply Permutation_map.
  - apply prodl_perm. now apply Permutation_map.
Qed.
Lemma prodl_zero l : In 0 l -> prodl l = 0.
Proof. induction l as [|a l IH]; [easy|]. unfold prodl in *. cbn. intros [-> |H]; [ring|]. rewrite IH by easy. ring. Qed.
Lemma sq_sum_ge x v : In v x -> v ^ 2 <= npsum (map (fun v => v ^ 2) x).
Proof.
  assert (P : forall l, 0 <= npsum (map (fun v => v ^ 2) l)) by (induction l as [|a l IH]; unfold npsum in *; cbn [map fold_right]; [lra|]; pose proof (pow2_ge_0 a); lra).
  induction x as [|a x IH]; [easy|]. intros [-> |H]; unfold npsum in *; cbn [map fold_right]; [specialize (P x); unfold npsum in P; lra|]. specialize (IH H). pose proof (pow2_ge_0 a). lra.
Qed.
(* the kernels with bounded support *)
Lemma kernel_support key k s name x v : In (key, (k, s, name)) mkernel_dict -> ~ In key ["gaus"; "lapl"; "logi"]%string -> In v x -> (v < fst (effective_support k) \/ snd (effective_support k) < v) -> kernel k x = 0.
Proof.
  intros HI HN Hv HO. assert (HR : radius k = 1 -> 1 < Rabs v). { intros E. unfold effective_support in HO. cbn [fst snd] in HO. rewrite E in HO. unfold Rabs. destruct (Rcase_abs v); lra. }
  assert (HS : 1 < Rabs v -> 1 < v ^ 2) by (intros H; rewrite <- (pow2_abs v); nra).
  assert (HM : forall p, radius k = 1 -> kernel (Multi (S p) 1) x = 0). { intros p E. cbn [kernel]. pose proof (sq_sum_ge x v Hv). specialize (HS (HR E)). rewrite Rmax_left by (replace (1 ^ 2) with 1 by ring; lra). cbn. ring. }
  assert (HP : forall p, radius k = 1 -> kernel (Product (S p) 1) x = 0). { intros p E. cbn [kernel]. apply prodl_zero. apply in_map_iff. exists v. split; [|easy]. specialize (HS (HR E)). rewrite Rmax_left by (replace (v / 1) with v by field; lra). cbn. ring. }
  unfold mkernel_dict in HI. cbn [In] in HI. destruct HI as [H|[H|[H|[H|[H|[H|[H|[H|[H|[H|[H|[]]]]]]]]]]]]; inversion H; subst; clear H; try (apply HM; reflexivity); try (apply HP; reflexivity).
  - cbn [kernel]. destruct (forallb _ x) eqn:E; [|reflexivity]. rewrite forallb_forall in E. specialize (E v Hv). destruct (Rle_dec (Rabs v) 1); [specialize (HR eq_refl); lra|discriminate].
  - cbn [kernel]. apply prodl_zero. apply in_map_iff. exists v. split; [|easy]. specialize (HR eq_refl). apply Rmax_left. lra.
  - exfalso. apply HN. cbn. tauto.
  - exfalso. apply HN. cbn. tauto.
  - exfalso. apply HN. cbn. tauto.
Qed.
(* every kernel of the table integrates to one in every dimension *)
Lemma kernel_one g d n key k s name c : log_gamma g -> (1 <= d)%nat -> In (key, (k, s, name)) mkernel_dict -> norm_factor g k d n = Ok c -> space_integral d (fun x => kernel k x / c) 1.
Proof.
  intros Hg Hd HI HC. unfold mkernel_dict in HI. cbn [In] in HI. destruct HI as [H|[H|[H|[H|[H|[H|[H|[H|[H|[H|[H|[]]]]]]]]]]]]; inversion H; subst; clear H.
  - apply (multi_one g 1 1 d n c Hg); try lia; try lra; exact HC.
  - apply (multi_one g 2 1 d n c Hg); try lia; try lra; exact HC.
  - apply (multi_one g 3 1 d n c Hg); try lia; try lra; exact HC.
  - apply (product_one g 1 1 d n c Hg); try lia; try lra; exact HC.
  - apply (product_one g 2 1 d n c Hg); try lia; try lra; exact HC.
  - apply (product_one g 3 1 d n c Hg); try lia; try lra; exact HC.
  - apply (rect_one g 1 d n c); [lra|exact HC].
  - apply (tria_one g 1 d n c HC).
  - apply (lapl_one g 7 d n c HC).
  - apply (logi_one g 7 d n c HC).
  - apply (gaus_one g d n c HC).
Qed.
Lemma factor_ok g d n key k s name : In (key, (k, s, name)) mkernel_dict -> (1 <= d)%nat -> (1 <= n)%nat -> exists c, norm_factor g k d n = Ok c.
Proof.
  intros HI Hd Hn. unfold mkernel_dict in HI. cbn [In] in HI. assert (E1 : Nat.eqb d 0 = false) by (apply Nat.eqb_neq; lia). assert (E2 : Nat.eqb n 0 = false) by (apply Nat.eqb_neq; lia).
  destruct HI as [H|[H|[H|[H|[H|[H|[H|[H|[H|[H|[H|[]]]]]]]]]]]]; inversion H; subst; clear H; cbn [norm_factor]; rewrite ?E1, ?E2; eexists; reflexivity.
Qed.
Lemma sphere_pos g d : (1 <= d)%nat -> 0 < sphere_volume g d 1.
Proof. intros Hd. unfold sphere_volume. assert (0 < INR d) by (apply lt_0_INR; lia). pose proof (exp_pos (g (INR d / 2))). rewrite pow1. apply Rdiv_lt_0_compat; [|nra]. assert (0 < Rpower PI (INR d / 2)) by apply exp_pos. lra. Qed.
Lemma prodl_pos l : Forall (fun v => 0 < v) l -> 0 < prodl l.
Proof. induction 1; unfold prodl in *; cbn [fold_right]; [lra|]. now apply Rmult_lt_0_compat. Qed.
Lemma factor_pos g d n key k s name c : In (key, (k, s, name)) mkernel_dict -> (1 <= d)%nat -> norm_factor g k d n = Ok c -> 0 < c.
Proof.
  intros HI Hd HC. assert (Q : forall a b : R, Ok a = Ok b -> a = b) by (intros a b E; now injection E).
  assert (HP : forall p d, (1 <= d)%nat -> 0 < 2 ^ p * prodl (map (fun i => INR (S i)) (seq 0 p)) * sphere_volume g d 1 / prodl (map (fun i => INR (d + 2 + 2 * i)) (seq 0 p))).
  { intros p e He. apply Rdiv_lt_0_compat; [apply Rmult_lt_0_compat; [apply Rmult_lt_0_compat; [apply pow_lt; lra|]|now apply sphere_pos]|]; apply prodl_pos, Forall_forall; intros v H; apply in_map_iff in H as (i & <- & _); apply lt_0_INR; lia. }
  unfold mkernel_dict in HI. cbn [In] in HI. destruct HI as [H|[H|[H|[H|[H|[H|[H|[H|[H|[H|[H|[]]]]]]]]]]]]; inversion H; subst; clear H; cbn [norm_factor] in HC;
    try (apply Q in HC; rewrite <- HC; now apply HP); try (apply Q in HC; rewrite <- HC; apply pow_lt; apply HP; lia).
  - apply Q in HC. rewrite <- HC. apply pow_lt. lra.
  - destruct (Nat.eqb d 0); [discriminate|]. destruct (Nat.eqb n 0); [discriminate|]. apply Q in HC. lra.
  - apply Q in HC. rewrite <- HC. apply pow_lt. lra.
  - destruct (Nat.eqb d 0); [discriminate|]. destruct (Nat.eqb n 0); [discriminate|]. apply Q in HC. lra.
  - apply Q in HC. rewrite <- HC. apply exp_pos.
Qed.
(* translations and dilations of functions without negative values *)
Lemma RInt_mono (f : R -> R) a b a' b' : (forall x, 0 <= f x) -> (forall a b, ex_RInt f a b) -> a' <= a -> a <= b -> b <= b' -> RInt f a b <= RInt f a' b'.
Proof.
  intros HP HE H1 H2 H3. assert (E : RInt f a' b' = RInt f a' a + (RInt f a b + RInt f b b')). { symmetry. transitivity (RInt f a' a + RInt f a b'); [f_equal; apply (RInt_Chasles f a b b'); apply HE|apply (RInt_Chasles f a' a b'); apply HE]. }
  pose proof (RInt_ge_0 f a' a H1 (HE _ _) ltac:(intros; apply HP)). pose proof (RInt_ge_0 f b b' H3 (HE _ _) ltac:(intros; apply HP)). lra.
Qed.
Lemma line_shift (f : R -> R) c l : (forall x, 0 <= f x) -> line_integral f l -> line_integral (fun x => f (x - c)) l.
Proof.
  intros HP [HE HL]. assert (A : forall a b, area (fun x => f (x - c)) a b (RInt f (a - c) (b - c))).
  { intros a b. pose proof (@RInt_correct R_CompleteNormedModule f (a - c) (b - c) (HE _ _)) as I. pose proof (@is_RInt_comp_lin R_NormedModule f 1 (- c) a b (RInt f (a - c) (b - c))) as K. rewrite !Rmult_1_l in K. specialize (K I). apply (area_eq _ _ _ _ _) with (2 := K). intros x. unfold scal. cbn. unfold mult. cbn. rewrite !Rmult_1_l. reflexivity. }
  split; [intros a b; eexists; apply A|]. apply is_lim_spec. intros eps. pose proof (proj2 (is_lim_spec _ _ _) HL eps) as [M HM]. exists (Rmax M 0 + 2 * Rabs c). intros W HW. pose proof (Rmax_l M 0). pose proof (Rmax_r M 0). pose proof (Rabs_pos c). pose proof (Rle_abs c). pose proof (Rle_abs (- c)) as HC. rewrite Rabs_Ropp in HC.
  assert (EQ : RInt (fun x => f (x - c)) (- W) W = RInt f (- W - c) (W - c)) by (apply area_unique; apply A). rewrite EQ.
  pose proof (HM (W - Rabs c) ltac:(lra)) as J1. pose proof (HM (W + Rabs c) ltac:(lra)) as J2. apply Rabs_def2 in J1. apply Rabs_def2 in J2.
  pose proof (RInt_mono f (- (W - Rabs c)) (W - Rabs c) (- W - c) (W - c) HP HE ltac:(lra) ltac:(lra) ltac:(lra)). pose proof (RInt_mono f (- W - c) (W - c) (- (W + Rabs c)) (W + Rabs c) HP HE ltac:(lra) ltac:(lra) ltac:(lra)). apply Rabs_def1; lra.
Qed.
Lemma line_nonneg (f : R -> R) l : (forall x, 0 <= f x) -> line_integral f l -> 0 <= l.
Proof.
  intros HP [HE HL]. destruct (Rle_dec 0 l) as [H|H]; [easy|]. exfalso. assert (He : 0 < - l) by lra. pose proof (proj2 (is_lim_spec _ _ _) HL (mkposreal (- l) He)) as [M HM]. change (pos (mkposreal (- l) He)) with (- l) in HM. pose proof (Rmax_l M 0). pose proof (Rmax_r M 0). specialize (HM (Rmax M 0 + 1) ltac:(lra)). apply Rabs_def2 in HM. pose proof (RInt_ge_0 f (- (Rmax M 0 + 1)) (Rmax M 0 + 1) ltac:(lra) (HE _ _) ltac:(intros; apply HP)). lra.
Qed.
Lemma space_nonneg d : forall f l, (forall x, 0 <= f x) -> space_integral d f l -> 0 <= l.
Proof.
  induction d as [|d IH]; intros f l HP H; [cbn in H; rewrite <- H; apply HP|]. destruct H as (g & Hg & HL). apply (line_nonneg g); [|exact HL]. intros x. apply (IH (fun v => f (x :: v))); [intros; apply HP|apply Hg].
Qed.
Lemma space_plus d : forall f h l m, space_integral d f l -> space_integral d h m -> space_integral d (fun v => f v + h v) (l + m).
Proof.
  induction d as [|d IH]; intros f h l m H1 H2; [cbn in *; now rewrite H1, H2|]. destruct H1 as (g1 & Hg1 & HL1). destruct H2 as (g2 & Hg2 & HL2). exists (fun x => g1 x + g2 x). split; [intros x; now apply (IH (fun v => f (x :: v)) (fun v => h (x :: v)))|now apply line_plus].
Qed.
Fixpoint standard (x X s : list R) : list R := match x, X, s with a :: x', b :: X', h :: s' => (a - b) / h :: standard x' X' s' | _, _, _ => [] end.
Lemma space_affine d : forall f l X s, (forall x, 0 <= f x) -> space_integral d f l -> List.length X = d -> List.length s = d -> Forall (fun h => 0 < h) s -> space_integral d (fun x => f (standard x X s)) (prodl s * l).
Proof.
  induction d as [|d IH]; intros f l X s HP H HX Hs HF.
  - destruct X, s; try discriminate. cbn in *. rewrite H. ring.
  - destruct X as [|b X]; [discriminate|]. destruct s as [|h s]; [discriminate|]. inversion HF as [|? ? Hh HF']; subst. destruct H as (g & Hg & HL). exists (fun x => prodl s * g ((x - b) / h)). cbn in HX, Hs. split.
    + intros x. cbn [standard]. apply (IH (fun v => f ((x - b) / h :: v))); [intros; apply HP|apply Hg|lia|lia|easy].
    + assert (GP : forall x, 0 <= g x) by (intros x; apply (space_nonneg d (fun v => f (x :: v))); [intros; apply HP|apply Hg]). unfold prodl. cbn [fold_right]. fold (prodl s). replace (h * prodl s * l) with (prodl s * (h * l)) by ring. apply line_mult. apply (line_shift (fun x => g (x / h)) b); [intros; apply GP|]. now apply line_scale.
Qed.
