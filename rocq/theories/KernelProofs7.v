From Coq Require Import Reals Lra Lia List Bool Psatz String Permutation.
From Coquelicot Require Import Coquelicot.
From Verif Require Import Base PolyModel PolySpec PolyProofs TransModel GridSpec GridProofs5 KdeModel KdeSpec KdeProofs2 SeaModel SeaSpec SeaProofs SeaProofs2 SeaProofs3 SeaCases SpreadModel SpreadSpec CosPow GammaProofs KernelModel KernelSpec SpreadProofs SpreadProofs2 SpreadProofs4 KernelProofs KernelProofs2 KernelProofs3 Basel KernelProofs4 KernelProofs5 KernelProofs6.
Import ListNotations.
Local Open Scope R_scope.

(* the density estimate *)
Lemma inner_unit i a v : forall s, inner (map (fun j => if Nat.eqb i j then a else 0) (seq s (List.length v))) v = if (Nat.leb s i && Nat.ltb i (s + List.length v))%bool then a * nth (i - s) v 0 else 0.
Proof.
  induction v as [|b v IH]; intros s; cbn [List.length seq map inner].
  - destruct (Nat.leb s i && Nat.ltb i (s + 0))%bool eqn:E; [|reflexivity]. apply andb_prop in E as [E1 E2]. apply Nat.leb_le in E1. apply Nat.ltb_lt in E2. lia.
  - rewrite IH. destruct (Nat.eqb i s) eqn:E.
    + apply Nat.eqb_eq in E. subst i. replace (Nat.leb (S s) s) with false by (symmetry; apply Nat.leb_gt; lia). rewrite Nat.leb_refl. replace (Nat.ltb s (s + S (List.length v))) with true by (symmetry; apply Nat.ltb_lt; lia). cbn [andb]. rewrite Nat.sub_diag. cbn [nth]. ring.
    + apply Nat.eqb_neq in E. destruct (Nat.leb s i) eqn:L.
      * apply Nat.leb_le in L. replace (Nat.leb (S s) i) with true by (symmetry; apply Nat.leb_le; lia). replace (S s + List.length v)%nat with (s + S (List.length v))%nat by lia. replace (i - s)%nat with (S (i - S s)) by lia. cbn [nth andb]. destruct (Nat.ltb i _); ring.
      * apply Nat.leb_gt in L. replace (Nat.leb (S s) i) with false by (symmetry; apply Nat.leb_gt; lia). cbn [andb]. ring.
Qed.
Lemma diagonal_apply l v : List.length v = List.length l -> apply_matrix (diagonal l) v = map (fun i => nth i l 0 * nth i v 0) (seq 0 (List.length l)).
Proof.
  intros H. unfold apply_matrix, diagonal. rewrite map_map. apply map_ext_in. intros i Hi. apply in_seq in Hi. rewrite <- H. rewrite inner_unit. replace (Nat.leb 0 i) with true by reflexivity. replace (Nat.ltb i (0 + List.length v)) with true by (symmetry; apply Nat.ltb_lt; lia). cbn [andb]. now rewrite Nat.sub_0_r.
Qed.
Lemma minus_length x X : List.length (minus_vec x X) = Nat.min (List.length x) (List.length X).
Proof. revert X. induction x as [|a x IH]; intros [|b X]; cbn; try reflexivity. now rewrite IH. Qed.
Lemma standard_map lam hs : lam <> 0 -> Forall (fun h => 0 < h) hs -> forall x X, List.length x = List.length hs -> List.length X = List.length hs ->
  standard x X (map (fun h => h * lam) hs) = map (fun i => nth i (map Rinv hs) 0 * nth i (map (fun v => v / lam) (minus_vec x X)) 0) (seq 0 (List.length hs)).
Proof.
  intros Hl. induction 1 as [|h hs Hh HF IH]; intros x X Hx HX; destruct x as [|a x]; try discriminate; destruct X as [|b X]; try discriminate; [reflexivity|]. cbn [standard map minus_vec List.length seq nth]. f_equal; [field; lra|]. rewrite IH by (cbn in *; lia). rewrite <- seq_shift, map_map. reflexivity.
Qed.
Lemma prodl_scale lam hs : prodl (map (fun h => h * lam) hs) = prodl hs * lam ^ List.length hs.
Proof. induction hs as [|h hs IH]; unfold prodl in *; cbn [map fold_right List.length pow]; [ring|]. rewrite IH. ring. Qed.
Lemma space_sum d : forall (is : list nat) (F : nat -> list R -> R) (m : R), (forall i, In i is -> space_integral d (F i) m) -> space_integral d (fun x => sumR (map (fun i => F i x) is)) (INR (List.length is) * m).
Proof.
  induction is as [|i is IH]; intros F m H.
  - cbn [map List.length INR]. rewrite Rmult_0_l. unfold sumR. cbn [fold_right]. clear. induction d as [|d IH]; [reflexivity|]. exists (fun _ => 0). split; [intros x; exact IH|]. split; [intros a b; apply ex_RInt_const|]. apply (is_lim_ext (fun _ => 0)); [|apply is_lim_const]. intros W. symmetry. apply area_unique. apply (area_value _ _ _ ((W - - W) * 0)); [ring|apply const_area].
  - pose proof (space_plus d _ _ _ _ (H i ltac:(now left)) (IH F m ltac:(intros j Hj; apply H; now right))) as G. cbn [List.length]. rewrite S_INR. replace ((INR (List.length is) + 1) * m) with (m + INR (List.length is) * m) by ring. apply (space_ext d) with (2 := G). intros v _. reflexivity.
Qed.
Lemma prodl_hs_pos hs : Forall (fun h => 0 < h) hs -> 0 < prodl hs.
Proof. apply prodl_pos. Qed.
Lemma diagonal_length l : List.length (diagonal l) = List.length l.
Proof. unfold diagonal. now rewrite map_length, seq_length. Qed.
Lemma nth_repeat_1 n i : (i < n)%nat -> nth i (repeat 1 n) 0 = 1.
Proof. revert i. induction n as [|n IH]; intros [|i] H; try lia; cbn; [reflexivity|]. apply IH. lia. Qed.
Definition my_kde (k : mkernel) (c : R) (X : list (list R)) (hs lam : list R) : kde :=
  Kde X (diagonal (map Rinv hs)) lam (kernel k) (prodl hs * INR (List.length X) * c).
Lemma estimate_density g key k s name c X hs lam : log_gamma g -> In (key, (k, s, name)) mkernel_dict -> norm_factor g k (List.length hs) (List.length X) = Ok c ->
  hs <> [] -> X <> [] -> Forall (fun h => 0 < h) hs -> List.length lam = List.length X -> Forall (fun l => 0 < l) lam -> Forall (fun p => List.length p = List.length hs) X ->
  space_integral (List.length hs) (estimate (my_kde k c X hs lam) (repeat 1 (List.length X)) 0) 1.
Proof.
  intros Hg HI HC Hh HX HF HL HFl HFX. set (d := List.length hs) in *. assert (Hd : (1 <= d)%nat) by (unfold d; destruct hs; [congruence|cbn; lia]). pose proof (factor_pos g d _ _ _ _ _ c HI Hd HC) as Cp.
  pose proof (kernel_one g d _ _ _ _ _ c Hg Hd HI HC) as K1. pose proof (space_mult d c _ _ K1) as K2. rewrite Rmult_1_r in K2. assert (K3 : space_integral d (kernel k) c). { apply (space_ext d) with (2 := K2). intros v _. field. lra. }
  pose proof (prodl_hs_pos hs HF) as PH. assert (HN : 0 < INR (List.length X)) by (apply lt_0_INR; destruct X; [congruence|cbn; lia]).
  set (F := fun i x => / (nth i lam 0 ^ d) * kernel k (standard x (nth i X []) (map (fun h => h * nth i lam 0) hs))).
  assert (HFI : forall i, In i (seq 0 (List.length X)) -> space_integral d (F i) (prodl hs * c)).
  { intros i Hi. apply in_seq in Hi. rewrite Forall_forall in HFl, HFX. assert (L0 : 0 < nth i lam 0) by (apply HFl; apply nth_In; lia). assert (X0 : List.length (nth i X []) = d) by (apply HFX; apply nth_In; lia).
    assert (HF2 : Forall (fun h => 0 < h) (map (fun h => h * nth i lam 0) hs)). { apply Forall_forall. intros v Hv. apply in_map_iff in Hv as (u & <- & Hu). rewrite Forall_forall in HF. specialize (HF u Hu). now apply Rmult_lt_0_compat. }
    pose proof (space_affine d (kernel k) c (nth i X []) (map (fun h => h * nth i lam 0) hs) (kernel_nonneg k) K3 X0 ltac:(rewrite map_length; reflexivity) HF2) as G. apply (space_mult d (/ (nth i lam 0 ^ d))) in G. rewrite prodl_scale in G. fold d in G.
    replace (/ nth i lam 0 ^ d * (prodl hs * nth i lam 0 ^ d * c)) with (prodl hs * c) in G; [exact G|]. field. apply pow_nonzero. lra. }
  pose proof (space_sum d _ F _ HFI) as G. rewrite seq_length in G. apply (space_mult d (/ (prodl hs * INR (List.length X) * c))) in G. replace (/ (prodl hs * INR (List.length X) * c) * (INR (List.length X) * (prodl hs * c))) with 1 in G by (field; lra).
  apply (space_ext d) with (2 := G). intros v Hv. unfold estimate, my_kde. cbn [dataset inv_hs lambda_ KdeModel.kernel KdeModel.norm_factor]. rewrite diagonal_length, map_length. fold d. unfold Rdiv. rewrite Rmult_comm. f_equal. apply sumR_ext. intros i Hi. apply in_seq in Hi. unfold F. rewrite Forall_forall in HFl, HFX. assert (L0 : 0 < nth i lam 0) by (apply HFl; apply nth_In; lia). assert (X0 : List.length (nth i X []) = d) by (apply HFX; apply nth_In; lia).
  rewrite nth_repeat_1 by lia. cbn [power_sum]. rewrite diagonal_apply. 2:{ rewrite !map_length, minus_length. fold d. lia. } rewrite map_length. fold d. rewrite standard_map; [|lra|easy|easy|easy]. unfold d, Rdiv. ring.
Qed.
Lemma estimate_nonneg g key k s name c X hs lam x : In (key, (k, s, name)) mkernel_dict -> norm_factor g k (List.length hs) (List.length X) = Ok c -> hs <> [] -> X <> [] ->
  Forall (fun h => 0 < h) hs -> List.length lam = List.length X -> Forall (fun l => 0 < l) lam -> 0 <= estimate (my_kde k c X hs lam) (repeat 1 (List.length X)) 0 x.
Proof.
  intros HI HC Hh HX HF HL HFl. assert (Hd : (1 <= List.length hs)%nat) by (destruct hs; [congruence|cbn; lia]). pose proof (factor_pos g _ _ _ _ _ _ c HI Hd HC) as Cp. pose proof (prodl_hs_pos hs HF) as PH. assert (HN : 0 < INR (List.length X)) by (apply lt_0_INR; destruct X; [congruence|cbn; lia]).
  unfold estimate, my_kde. cbn [dataset inv_hs lambda_ KdeModel.kernel KdeModel.norm_factor]. apply Rmult_le_pos; [|left; apply Rinv_0_lt_compat; apply Rmult_lt_0_compat; [apply Rmult_lt_0_compat|]; lra].
  assert (P : forall is, (forall i, In i is -> (i < List.length X)%nat) -> 0 <= sumR (map (fun i => nth i (repeat 1 (List.length X)) 0 / nth i lam 0 ^ List.length (diagonal (map Rinv hs)) * power_sum 0 (minus_vec x (nth i X [])) * kernel k (apply_matrix (diagonal (map Rinv hs)) (map (fun v => v / nth i lam 0) (minus_vec x (nth i X []))))) is)).
  { induction is as [|i is IH]; intros H; unfold sumR in *; cbn [map fold_right]; [lra|]. specialize (H i) as Hi. assert (L0 : 0 < nth i lam 0) by (rewrite Forall_forall in HFl; apply HFl; apply nth_In; specialize (Hi ltac:(now left)); lia). rewrite nth_repeat_1 by (apply Hi; now left). apply Rplus_le_le_0_compat; [|apply IH; intros j Hj; apply H; now right].
    apply Rmult_le_pos; [|apply kernel_nonneg]. cbn [power_sum]. rewrite Rmult_1_r. left. apply Rdiv_lt_0_compat; [lra|now apply pow_lt]. }
  apply P. intros i Hi. apply in_seq in Hi. lia.
Qed.
(* derivatives of the normal density *)
Lemma polyval_peval p x : polyval p x = peval p x.
Proof.
  unfold polyval. assert (G : forall p a, fold_left (fun acc c => acc * x + c) p a = a * x ^ List.length p + peval p x). { induction p0 as [|c p0 IH]; intros a; cbn [fold_left List.length peval pow]; [ring|]. rewrite IH. ring. } rewrite G. ring.
Qed.
Lemma peval_opp p x : peval (map Ropp p) x = - peval p x.
Proof. induction p as [|c p IH]; cbn [map peval]; [ring|]. rewrite IH, map_length. ring. Qed.
Lemma peval_shift p x : peval (p ++ [0]) x = x * peval p x.
Proof. induction p as [|c p IH]; cbn [app peval List.length pow]; [ring|]. rewrite IH, app_length. cbn [List.length]. rewrite Nat.add_1_r. cbn [pow]. ring. Qed.
Lemma next_value p x : peval (next_poly p) x = - (x * peval p x) + peval (polyder1 p) x.
Proof. unfold next_poly. rewrite peval_polyadd, peval_opp, peval_shift. reflexivity. Qed.
Lemma normal_derive x : is_derive (normal 1) x (- x * normal 1 x).
Proof. pose proof PI_RGT_0. assert (S0 : 0 < sqrt (2 * PI)) by (apply sqrt_lt_R0; lra). unfold normal. auto_derive; [easy|]. cbn [pow]. unfold Rdiv. field. lra. Qed.
Lemma poly_normal p x : is_derive (fun t => peval p t * normal 1 t) x (peval (next_poly p) x * normal 1 x).
Proof.
  rewrite next_value. assert (DP : is_derive (peval p) x (peval (polyder1 p) x)) by (apply is_derive_Reals; apply derivable_peval). pose proof (is_derive_mult _ _ x _ _ DP (normal_derive x) Rmult_comm) as G. unfold plus, mult in G. cbn in G. replace ((- (x * peval p x) + peval (polyder1 p) x) * normal 1 x) with (peval (polyder1 p) x * normal 1 x + peval p x * (- x * normal 1 x)) by ring. exact G.
Qed.
Lemma derivative_snoc n : forall f g h, derivative n f g -> (forall x, is_derive g x (h x)) -> derivative (S n) f h.
Proof.
  induction n as [|n IH]; intros f g h H D.
  - exists h. split; [|intros x; reflexivity]. intros x. apply (is_derive_ext g); [intros y; symmetry; apply H|apply D].
  - destruct H as (g1 & D1 & H1). exists g1. split; [exact D1|]. now apply (IH g1 g h).
Qed.
Fixpoint nexts (n : nat) (p : list R) : list R := match n with O => p | S m => next_poly (nexts m p) end.
Lemma nexts_derivative n p : derivative n (fun t => peval p t * normal 1 t) (fun t => peval (nexts n p) t * normal 1 t).
Proof. induction n as [|n IH]; [intros x; reflexivity|]. apply (derivative_snoc n _ _ _ IH). intros x. apply poly_normal. Qed.
Lemma derivative_ext n : forall f f' g g', (forall x, f x = f' x) -> (forall x, g x = g' x) -> derivative n f g -> derivative n f' g'.
Proof.
  destruct n as [|n]; intros f f' g g' E1 E2 H.
  - intros x. rewrite <- E1, <- E2. apply H.
  - destruct H as (k & D & H). exists k. split; [intros x; apply (is_derive_ext f); [exact E1|apply D]|]. clear D E1. revert k H. induction n as [|n IH]; intros k H; [intros x; rewrite <- E2; apply H|]. destruct H as (k' & D & H). exists k'. split; [exact D|]. now apply IH.
Qed.
Lemma nexts_4 x : peval (nexts 4 [1]) x = peval [1; 0; - 6; 0; 3] x.
Proof. cbn. ring. Qed.
Lemma peval_ext_next p p' : (forall x, peval p x = peval p' x) -> forall x, peval (next_poly p) x = peval (next_poly p') x.
Proof.
  intros E x. rewrite !next_value, E. f_equal. apply (uniqueness_limite (peval p) x); [apply derivable_peval|]. apply is_derive_Reals. apply (is_derive_ext (peval p')); [intros t; symmetry; apply E|]. apply is_derive_Reals. apply derivable_peval.
Qed.
Lemma nexts_ext n p p' : (forall x, peval p x = peval p' x) -> forall x, peval (nexts n p) x = peval (nexts n p') x.
Proof. intros E. induction n as [|n IH]; [exact E|]. cbn [nexts]. now apply peval_ext_next. Qed.
Lemma nexts_add n m p : nexts (n + m) p = nexts n (nexts m p).
Proof. induction n as [|n IH]; [reflexivity|]. cbn. now rewrite IH. Qed.
Lemma loop_nth m t phi0 : forall pn i v, nth_error (deriv_loop m pn t phi0) i = Some v -> v = peval (nexts (2 * (i + 1)) pn) t * phi0.
Proof.
  induction m as [|m IH]; intros pn i v H; [destruct i; discriminate|]. cbn [deriv_loop] in H. destruct i as [|i].
  - injection H as <-. now rewrite polyval_peval.
  - cbn [nth_error] in H. apply IH in H. rewrite H. replace (2 * (S i + 1))%nat with (2 * (i + 1) + 2)%nat by lia. now rewrite nexts_add.
Qed.
Lemma deriv_spec t numout i v : nth_error (deriv4_6_8_10 t numout) i = Some v -> exists h, derivative (4 + 2 * i) (normal 1) h /\ v = h t.
Proof.
  intros H. exists (fun t => peval (nexts (4 + 2 * i) [1]) t * normal 1 t). split.
  - apply (derivative_ext _ (fun t => peval [1] t * normal 1 t) _ (fun t => peval (nexts (4 + 2 * i) [1]) t * normal 1 t)); [intros x; cbn; ring|reflexivity|apply nexts_derivative].
  - assert (EP : exp (- (1 / 2) * t ^ 2) / sqrt (2 * PI) = normal 1 t). { unfold normal. rewrite Rmult_1_l. f_equal. apply f_equal. field. }
    rewrite (Nat.add_comm 4). rewrite nexts_add. rewrite (nexts_ext _ (nexts 4 [1]) _ nexts_4). unfold deriv4_6_8_10 in H. rewrite EP in H. destruct i as [|i].
    + injection H as <-. now rewrite polyval_peval.
    + cbn [nth_error] in H. apply loop_nth in H. rewrite H. replace (2 * S i)%nat with (2 * (i + 1))%nat by lia. reflexivity.
Qed.
Lemma deriv_length t numout : List.length (deriv4_6_8_10 t numout) = Nat.max 1 numout.
Proof. unfold deriv4_6_8_10. cbn [List.length]. assert (L : forall m pn phi0, List.length (deriv_loop m pn t phi0) = m) by (induction m as [|m IH]; intros; [reflexivity|cbn; now rewrite IH]). rewrite L. lia. Qed.
(* psi *)
Fixpoint two_step (s : R) (n : nat) : (R -> R) * (R -> R) :=
  match n with
  | O => (normal s, fun x => - (x * normal s x) / s ^ 2)
  | S m => let '(a, b) := two_step s m in (b, fun x => - (x * b x + INR (S m) * a x) / s ^ 2)
  end.
Lemma normal_derive_s s x : 0 < s -> is_derive (normal s) x (- (x * normal s x) / s ^ 2).
Proof. intros Hs. pose proof PI_RGT_0. assert (S0 : 0 < sqrt (2 * PI)) by (apply sqrt_lt_R0; lra). unfold normal. auto_derive; [easy|]. cbn [pow]. unfold Rdiv. field. lra. Qed.
Lemma two_step_derive s n : 0 < s -> forall x, is_derive (fst (two_step s n)) x (snd (two_step s n) x) /\ is_derive (snd (two_step s n)) x (- (x * snd (two_step s n) x + INR (S n) * fst (two_step s n) x) / s ^ 2).
Proof.
  intros Hs. induction n as [|n IH]; intros x.
  - cbn [two_step fst snd]. split; [now apply normal_derive_s|]. pose proof (normal_derive_s s x Hs) as D. assert (DX : is_derive (fun x : R => x) x 1) by apply @is_derive_id. pose proof (is_derive_mult _ _ x _ _ DX D Rmult_comm) as G. apply (is_derive_scal _ x (- / s ^ 2)) in G. unfold plus, mult in G. cbn -[pow] in G. apply (is_derive_ext (fun x => - / s ^ 2 * (x * normal s x))); [intros t; realeq; unfold Rdiv; ring|].
    replace (- (x * (- (x * normal s x) / s ^ 2) + INR 1 * normal s x) / s ^ 2) with (- / s ^ 2 * (1 * normal s x + x * (- (x * normal s x) / s ^ 2))); [exact G|]. change (INR 1) with 1. unfold Rdiv. ring.
  - cbn [two_step]. destruct (two_step s n) as [a b]. cbn [fst snd] in *. destruct (IH x) as [IA IB]. split; [exact IB|]. assert (DX : is_derive (fun x : R => x) x 1) by apply @is_derive_id. pose proof (is_derive_mult _ _ x _ _ DX IB Rmult_comm) as G1. pose proof (is_derive_scal _ x (INR (S n)) _ IA) as G2. pose proof (is_derive_plus _ _ x _ _ G1 G2) as G. apply (is_derive_scal _ x (- / s ^ 2)) in G. unfold plus, mult in G. cbn -[pow INR] in G.
    apply (is_derive_ext (fun x => - / s ^ 2 * (x * b x + INR (S n) * a x))); [intros t; realeq; unfold Rdiv; ring|].
    match type of G with is_derive _ _ ?u => match goal with |- is_derive _ _ ?v => replace v with u; [exact G|] end end. rewrite (S_INR (S n)). unfold Rdiv. ring.
Qed.
Lemma two_step_derivative s n : 0 < s -> derivative n (normal s) (fst (two_step s n)).
Proof.
  intros Hs. induction n as [|n IH]; [intros x; reflexivity|]. apply (derivative_snoc n _ _ _ IH). intros x. pose proof (proj1 (two_step_derive s n Hs x)) as D. cbn [two_step]. destruct (two_step s n) as [a b]. exact D.
Qed.
Lemma two_step_zero s m : fst (two_step s (S (S m))) 0 = - INR (S m) / s ^ 2 * fst (two_step s m) 0.
Proof. cbn [two_step]. destruct (two_step s m) as [a b]. cbn [fst]. unfold Rdiv. ring. Qed.
Lemma psi_step m sigma : 0 < sigma -> psi (2 * S m) sigma = - INR (2 * m + 1) / (2 * sigma ^ 2) * psi (2 * m) sigma.
Proof.
  intros Hs. pose proof PI_RGT_0. assert (S0 : 0 < sqrt PI) by (apply sqrt_lt_R0; lra). unfold psi. rewrite !Nat.div2_double. replace (2 * S m - S m)%nat with (S m) by lia. replace (2 * m - m)%nat with m by lia.
  assert (P : INR (m + 1) * prodl (map INR (seq (S m + 1) (S m))) = INR (2 * m + 1) * (INR (2 * m + 2) * prodl (map INR (seq (m + 1) m)))).
  { replace (INR (m + 1) * prodl (map INR (seq (S m + 1) (S m)))) with (prodl (map INR (seq (m + 1) (S (S m))))) by (cbn [seq map]; unfold prodl; cbn [fold_right]; replace (S (m + 1)) with (S m + 1)%nat by lia; reflexivity).
    replace (S (S m)) with (m + 2)%nat by lia. rewrite seq_app, map_app. assert (PA : forall a b, prodl (a ++ b) = prodl a * prodl b) by (induction a as [|u a IH]; intros b; unfold prodl in *; cbn; [ring|rewrite IH; ring]). rewrite PA. cbn [seq map]. unfold prodl at 2. cbn [fold_right]. replace (m + 1 + m)%nat with (2 * m + 1)%nat by lia. replace (S (2 * m + 1)) with (2 * m + 2)%nat by lia. ring. }
  assert (M1 : 0 < INR (m + 1)) by (apply lt_0_INR; lia). assert (E2 : INR (2 * m + 2) = 2 * INR (m + 1)) by (rewrite <- (mult_INR 2); f_equal; lia). rewrite E2 in P.
  assert (P' : prodl (map INR (seq (S m + 1) (S m))) = INR (2 * m + 1) * (2 * prodl (map INR (seq (m + 1) m)))). { apply Rmult_eq_reg_l with (INR (m + 1)); [|lra]. rewrite P. ring. }
  rewrite P'. replace (2 * S m + 1)%nat with (2 * m + 1 + 2)%nat by lia. rewrite pow_add. rewrite <- (tech_pow_Rmult (-1)). assert (0 < (2 * sigma) ^ (2 * m + 1)) by (apply pow_lt; lra). replace ((2 * sigma) ^ 2) with (4 * sigma ^ 2) by ring. field. split; [|split]; nra.
Qed.
Lemma psi_spec r sigma : 0 < sigma -> Nat.Even r -> exists h, derivative r (normal (sqrt 2 * sigma)) h /\ psi r sigma = h 0.
Proof.
  intros Hs [m ->]. pose proof PI_RGT_0. assert (S0 : 0 < sqrt PI) by (apply sqrt_lt_R0; lra). assert (S2 : 0 < sqrt 2) by (apply sqrt_lt_R0; lra). pose proof (sqrt_sqrt 2 ltac:(lra)) as E2. set (s := sqrt 2 * sigma). assert (HS : 0 < s) by (now apply Rmult_lt_0_compat). exists (fst (two_step s (2 * m))). split; [now apply two_step_derivative|].
  induction m as [|m IH].
  - change (fst (two_step s (2 * 0))) with (normal s). unfold psi, normal, s. cbn [Nat.mul Nat.div2 Nat.add Nat.sub seq map pow]. unfold prodl. cbn [fold_right]. rewrite root_2_PI. replace (- (0 * (0 * 1) / (2 * (sqrt 2 * sigma * (sqrt 2 * sigma * 1))))) with 0. 2:{ unfold Rdiv. ring. } rewrite exp_0.
    replace (sqrt 2 * sigma * (sqrt 2 * sqrt PI)) with (sqrt 2 * sqrt 2 * sigma * sqrt PI) by ring. rewrite E2. field. lra.
  - rewrite psi_step by easy. replace (2 * S m)%nat with (S (S (2 * m))) by lia. rewrite two_step_zero, IH. f_equal. replace (s ^ 2) with (sqrt 2 * sqrt 2 * sigma ^ 2) by (unfold s; ring). rewrite E2. rewrite Nat.add_1_r. reflexivity.
Qed.
(* the bending of a normal density *)
Lemma normal_bending sigma : 0 < sigma -> bending (normal sigma) (3 / (8 * sqrt PI * sigma ^ 5)).
Proof.
  intros Hs. pose proof PI_RGT_0. assert (S0 : 0 < sqrt PI) by (apply sqrt_lt_R0; lra). assert (SP : 0 < sqrt (2 * PI)) by (apply sqrt_lt_R0; lra). exists (fun x => - (x * normal sigma x) / sigma ^ 2), (fun x => - (x * (- (x * normal sigma x) / sigma ^ 2) + 1 * normal sigma x) / sigma ^ 2), []. split; [|split; [|split]].
  - intros x. now apply normal_derive_s.
  - intros x. unfold normal. smooth. easy.
  - intros x _. exact (proj2 (two_step_derive sigma 0 Hs x)).
  - destruct gaus_bend as (K1 & K2 & cuts & D1 & _ & D2 & _). clear K1 K2 cuts D1 D2.
    assert (G : line_integral (fun x => ((x ^ 2 - 1) * bell x / sqrt (2 * PI)) ^ 2) (3 / (8 * sqrt PI))).
    { pose proof (sqrt_lt_R0 2 ltac:(lra)) as S2. pose proof (sqrt_sqrt 2 ltac:(lra)) as E2. pose proof (line_plus _ _ _ _ (line_mult (/ 4) _ _ bell_4) (line_plus _ _ _ _ (line_mult (-1) _ _ bell_2) bell_line)) as G0. assert (I2 : 0 < / sqrt 2) by (now apply Rinv_0_lt_compat). pose proof (line_mult (/ sqrt (2 * PI) ^ 2) _ _ (line_scale _ (/ sqrt 2) _ I2 G0)) as G.
      apply (line_value _ (/ sqrt (2 * PI) ^ 2 * (/ sqrt 2 * (/ 4 * (3 * sqrt (2 * PI)) + (-1 * sqrt (2 * PI) + sqrt (2 * PI)))))).
      + rewrite root_2_PI. replace (/ (sqrt 2 * sqrt PI) ^ 2 * (/ sqrt 2 * (/ 4 * (3 * (sqrt 2 * sqrt PI)) + (-1 * (sqrt 2 * sqrt PI) + sqrt 2 * sqrt PI)))) with (3 / 4 * / (sqrt 2 * sqrt 2) * / sqrt PI) by (field; lra). rewrite E2. field. lra.
      + apply (line_ext _ _ _) with (2 := G). intros x. cbv beta. rewrite <- bell_sq. replace (x / / sqrt 2) with (x * sqrt 2) by (field; lra).
        assert (P2 : (x * sqrt 2) ^ 2 = 2 * x ^ 2) by (replace ((x * sqrt 2) ^ 2) with (x ^ 2 * (sqrt 2 * sqrt 2)) by ring; rewrite E2; ring). assert (P4 : (x * sqrt 2) ^ 4 = 4 * x ^ 4) by (replace ((x * sqrt 2) ^ 4) with (x ^ 4 * (sqrt 2 * sqrt 2) * (sqrt 2 * sqrt 2)) by ring; rewrite E2; ring). rewrite P2, P4. unfold Rdiv. rewrite !Rpow_mult_distr, pow_inv. field. lra. }
    apply (line_scale _ sigma _ Hs) in G. apply (line_mult (/ sigma ^ 6)) in G. apply (line_value _ (/ sigma ^ 6 * (sigma * (3 / (8 * sqrt PI))))); [field; lra|]. apply (line_ext _ _ _) with (2 := G). intros x. cbv beta. unfold normal, bell. replace (exp (- ((x / sigma) ^ 2 / 2))) with (exp (- (x ^ 2 / (2 * sigma ^ 2)))) by (apply f_equal; field; lra). field. lra.
Qed.
(* bandwidths *)
Lemma amise_least mu2 rk b n h k : 0 < mu2 -> 0 < rk -> 0 < b -> 0 < n -> 0 < h -> 0 < k -> k ^ 5 = rk / (n * mu2 ^ 2 * b) -> amise mu2 rk b n k <= amise mu2 rk b n h /\ (amise mu2 rk b n h = amise mu2 rk b n k -> h = k).
Proof.
  intros Hm Hr Hb Hn Hh Hk E. assert (M2 : 0 < mu2 ^ 2) by (apply pow_lt; lra). set (B := mu2 ^ 2 * b). assert (HB : 0 < B) by (unfold B; nra). assert (ER : rk = n * B * k ^ 5) by (rewrite E; unfold B; field; repeat split; lra).
  assert (D : amise mu2 rk b n h - amise mu2 rk b n k = B / (4 * h) * ((h - k) ^ 2 * (h ^ 3 + 2 * k * h ^ 2 + 3 * k ^ 2 * h + 4 * k ^ 3))). { unfold amise. rewrite ER. unfold B. field. repeat split; lra. }
  assert (C0 : 0 < B / (4 * h)) by (apply Rdiv_lt_0_compat; lra). assert (Q0 : 0 < h ^ 3 + 2 * k * h ^ 2 + 3 * k ^ 2 * h + 4 * k ^ 3). { assert (0 < h ^ 3) by (apply pow_lt; lra). assert (0 < h ^ 2) by (apply pow_lt; lra). assert (0 < k ^ 2) by (apply pow_lt; lra). assert (0 < k ^ 3) by (apply pow_lt; lra). nra. } set (Q := h ^ 3 + 2 * k * h ^ 2 + 3 * k ^ 2 * h + 4 * k ^ 3) in *. pose proof (pow2_ge_0 (h - k)) as S0. split.
  - assert (0 <= B / (4 * h) * ((h - k) ^ 2 * Q)) by (apply Rmult_le_pos; [lra|apply Rmult_le_pos; lra]). lra.
  - intros EQ. rewrite EQ, Rminus_diag_eq in D by reflexivity. symmetry in D. apply Rmult_integral in D as [D|D]; [lra|]. apply Rmult_integral in D as [D|D]; [|lra]. assert (h - k = 0) by (apply Rsqr_0_uniq; unfold Rsqr; rewrite <- D; ring). lra.
Qed.
Lemma fifth_root a : 0 < a -> Rpower a (1 / 5) ^ 5 = a.
Proof. intros H. rewrite <- Rpower_pow by apply exp_pos. rewrite Rpower_mult. replace (1 / 5 * INR 5) with 1 by (cbn; field). now apply Rpower_1. Qed.
Lemma ste_least mu2 rk rdd b n h : 0 < mu2 -> 0 < rk -> 0 < b -> 0 < n -> 0 < h -> let k := Rpower (ste_constant (mu2, rk, rdd) n / b) (1 / 5) in amise mu2 rk b n k <= amise mu2 rk b n h /\ (amise mu2 rk b n h = amise mu2 rk b n k -> h = k).
Proof.
  intros Hm Hr Hb Hn Hh k. assert (M2 : 0 < mu2 ^ 2) by (apply pow_lt; lra). apply amise_least; try easy; [apply exp_pos|]. unfold k, ste_constant. rewrite fifth_root; [field; repeat split; lra|]. apply Rdiv_lt_0_compat; [apply Rdiv_lt_0_compat|]; nra.
Qed.
Lemma amise_constant_least mu2 rk rdd n sigma h : 0 < mu2 -> 0 < rk -> 0 < n -> 0 < sigma -> 0 < h -> exists b, bending (normal sigma) b /\
  (let k := sigma * amise_constant (mu2, rk, rdd) n in amise mu2 rk b n k <= amise mu2 rk b n h /\ (amise mu2 rk b n h = amise mu2 rk b n k -> h = k)).
Proof.
  intros Hm Hr Hn Hs Hh. exists (3 / (8 * sqrt PI * sigma ^ 5)). split; [now apply normal_bending|]. pose proof PI_RGT_0. assert (S0 : 0 < sqrt PI) by (apply sqrt_lt_R0; lra). assert (M2 : 0 < mu2 ^ 2) by (apply pow_lt; lra). assert (S5 : 0 < sigma ^ 5) by (apply pow_lt; lra). intros k.
  apply amise_least; try easy; [apply Rdiv_lt_0_compat; nra|apply Rmult_lt_0_compat; [easy|apply exp_pos]|]. unfold k, amise_constant. rewrite Rpow_mult_distr, fifth_root; [field; repeat split; lra|]. apply Rdiv_lt_0_compat; nra.
Qed.
(* names *)
Lemma dict_get_spec {A} key (d : list (string * A)) v : NoDup (map fst d) -> dict_get key d = Ok v <-> In (key, v) d.
Proof.
  induction d as [|[k w] d IH]; cbn [map fst dict_get In]; intros N; [split; [discriminate|easy]|]. inversion N as [|? ? N1 N2]; subst. destruct (String.eqb key k) eqn:E.
  - apply String.eqb_eq in E. subst. split; [intros H; injection H as <-; now left|]. intros [H|H]; [now inversion H|]. exfalso. apply N1. apply in_map_iff. now exists (k, v).
  - apply String.eqb_neq in E. rewrite IH by easy. split; [now right|]. intros [H|H]; [inversion H; congruence|easy].
Qed.
Lemma dict_get_none {A} key (d : list (string * A)) : (forall v, ~ In (key, v) d) -> dict_get key d = Err KeyError.
Proof.
  induction d as [|[k w] d IH]; cbn [dict_get In]; intros N; [reflexivity|]. destruct (String.eqb key k) eqn:E; [apply String.eqb_eq in E; subst; exfalso; apply (N w); now left|]. apply IH. intros v H. apply (N v). now right.
Qed.
Lemma dict_nodup : NoDup (map fst mkernel_dict).
Proof. cbn. repeat constructor; cbn; intuition discriminate. Qed.
Lemma get_kernel_spec name e : get_kernel name = Ok e <-> In (substring 0 4 name, e) mkernel_dict.
Proof. apply dict_get_spec, dict_nodup. Qed.
Lemma get_kernel_error name : (forall e, ~ In (substring 0 4 name, e) mkernel_dict) -> get_kernel name = Err KeyError.
Proof. apply dict_get_none. Qed.
Lemma documented_names : Forall (fun p => exists e, get_kernel (fst p) = Ok e /\ fst (fst e) = snd p)
  [ ("epanechnikov", Multi 1 1); ("biweight", Multi 2 1); ("triweight", Multi 3 1); ("p1epanechnikov", Product 1 1); ("p1biweight", Product 2 1); ("p1triweight", Product 3 1);
    ("rectangular", Rectangular 1); ("triangular", Triangular 1); ("laplace", Laplace 7); ("logistic", Logistic 7); ("gaussian", Gaussian 4) ]%string.
Proof. repeat constructor; eexists; split; reflexivity. Qed.
Lemma name_refuted : exists e, get_kernel "gaussian" = Ok e /\ get_kernel (snd e) = Err KeyError.
Proof. eexists. split; reflexivity. Qed.
Lemma hmns_errors g short n d : ~ In short ["epan"; "biwe"; "triw"; "gaus"]%string \/ (In short ["biwe"; "triw"]%string /\ (2 < d)%nat) <-> hmns_scale g short n d = Err NotImplementedError.
Proof.
  unfold hmns_scale. destruct (String.eqb short "epan") eqn:E1.
  { apply String.eqb_eq in E1. subst. split; [|discriminate]. intros [H|[H _]]; [exfalso; apply H; now left|]. cbn in H. intuition discriminate. }
  destruct (String.eqb short "biwe" || String.eqb short "triw")%bool eqn:E2.
  - destruct (Nat.ltb 2 d) eqn:L; [apply Nat.ltb_lt in L|apply Nat.ltb_ge in L].
    + split; [reflexivity|]. intros _. right. split; [|easy]. apply orb_prop in E2 as [E2|E2]; apply String.eqb_eq in E2; subst; cbn; tauto.
    + split; [|discriminate]. intros [H|[_ H]]; [|lia]. exfalso. apply H. apply orb_prop in E2 as [E2|E2]; apply String.eqb_eq in E2; subst; cbn; tauto.
  - apply orb_false_elim in E2 as [E2 E3]. apply String.eqb_neq in E1, E2, E3. destruct (String.eqb short "gaus") eqn:E4.
    + apply String.eqb_eq in E4. subst. split; [|discriminate]. intros [H|[H _]]; [exfalso; apply H; cbn; tauto|cbn in H; intuition discriminate].
    + apply String.eqb_neq in E4. split; [reflexivity|]. intros _. left. cbn. intuition congruence.
Qed.
