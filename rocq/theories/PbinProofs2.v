(* The characteristic function of the number of successes and its inversion. *)
From Coq Require Import Reals Lra Lia.
From Coquelicot Require Import Complex.
From Verif Require Import Base DftModel DftProofs CovProofs GeomModel GeomProofs PbinModel PbinSpec PbinProofs.
Local Open Scope R_scope.

Lemma C_eq (a b : C) : fst a = fst b -> snd a = snd b -> a = b.
Proof. destruct a, b. cbn. congruence. Qed.
Lemma fst_plus a b : fst (Cplus a b) = fst a + fst b. Proof. reflexivity. Qed.
Lemma snd_plus a b : snd (Cplus a b) = snd a + snd b. Proof. reflexivity. Qed.
Lemma fst_mult a b : fst (Cmult a b) = fst a * fst b - snd a * snd b. Proof. reflexivity. Qed.
Lemma snd_mult a b : snd (Cmult a b) = fst a * snd b + snd a * fst b. Proof. reflexivity. Qed.

(* a complex number from its modulus and argument *)
Lemma polar (z : C) : Cmult (RtoC (exp_log (log_abs z))) (cis (arctan2 (snd z) (fst z))) = z.
Proof.
  destruct (arctan2_spec (fst z) (snd z)) as [A [B _]]. set (r := sqrt (fst z * fst z + snd z * snd z)) in *.
  assert (E : exp_log (log_abs z) = r).
  { unfold log_abs. cbv zeta. fold r. destruct (Rlt_dec 0 r) as [P|P]; cbn [exp_log]; [apply exp_ln; exact P|]. assert (0 <= r) by apply sqrt_pos. lra. }
  rewrite E. apply C_eq; unfold cis; rewrite ?fst_mult, ?snd_mult; cbn [fst snd RtoC]; lra.
Qed.
Lemma exp_add a b : exp_log (add_log a b) = exp_log a * exp_log b.
Proof. destruct a, b; cbn [add_log exp_log]; try ring. apply exp_plus. Qed.
Definition cprod (l : list C) : C := fold_right Cmult (RtoC 1) l.
Lemma polar_prod l : Cmult (RtoC (exp_log (fold_right add_log (Some 0) (map log_abs l)))) (cis (fold_right Rplus 0 (map (fun z => arctan2 (snd z) (fst z)) l))) = cprod l.
Proof.
  induction l as [|z l IH]; cbn [map fold_right].
  - cbn [exp_log]. rewrite exp_0, cis_0. unfold cprod. cbn [fold_right]. ring.
  - rewrite exp_add, RtoC_mult, cis_add. unfold cprod. cbn [fold_right]. fold (cprod l). rewrite <- IH.
    transitivity (Cmult (Cmult (RtoC (exp_log (log_abs z))) (cis (arctan2 (snd z) (fst z)))) (Cmult (RtoC (exp_log (fold_right add_log (Some 0) (map log_abs l)))) (cis (fold_right Rplus 0 (map (fun z => arctan2 (snd z) (fst z)) l))))); [ring|].
    rewrite polar. reflexivity.
Qed.

(* complex expectations *)
Definition ec (probs : list R) (f : nat -> C) : C := (expect probs (fun k => fst (f k)), expect probs (fun k => snd (f k))).
Lemma ec_ext probs f g : (forall k, (k <= List.length probs)%nat -> f k = g k) -> ec probs f = ec probs g.
Proof. intros H. unfold ec. f_equal; apply expect_ext; intros k K; rewrite H by exact K; reflexivity. Qed.
Lemma ec_cons p probs f : ec (p :: probs) f = Cplus (Cmult (RtoC p) (ec probs (fun k => f (S k)))) (Cmult (RtoC (1 - p)) (ec probs f)).
Proof. apply C_eq; rewrite ?fst_plus, ?snd_plus, ?fst_mult, ?snd_mult; unfold ec; cbn [fst snd RtoC]; rewrite expect_cons; ring. Qed.
Lemma ec_mul probs f c : ec probs (fun k => Cmult c (f k)) = Cmult c (ec probs f).
Proof.
  unfold ec. apply C_eq; cbn [fst snd].
  - rewrite (expect_ext probs _ (fun k => fst c * fst (f k) + - snd c * snd (f k))) by (intros; rewrite fst_mult; ring). rewrite expect_add, !expect_scal, fst_mult. cbn [fst snd]. ring.
  - rewrite (expect_ext probs _ (fun k => fst c * snd (f k) + snd c * fst (f k))) by (intros; rewrite snd_mult; ring). rewrite expect_add, !expect_scal, snd_mult. cbn [fst snd]. ring.
Qed.
Lemma ec_conj probs f : ec probs (fun k => Cconj (f k)) = Cconj (ec probs f).
Proof.
  unfold ec, Cconj. cbn [fst snd]. f_equal. rewrite (expect_ext probs _ (fun k => -1 * snd (f k))) by (intros; ring). rewrite expect_scal. ring.
Qed.
Lemma ec_csum probs n (h : nat -> nat -> C) : ec probs (fun k => csum n (fun i => h i k)) = csum n (fun i => ec probs (h i)).
Proof.
  induction n as [|n IH]; cbn [csum].
  - unfold ec. cbn [fst snd RtoC]. rewrite !expect_const. reflexivity.
  - rewrite <- IH. unfold ec. apply C_eq; rewrite ?fst_plus, ?snd_plus; cbn [fst snd]; [rewrite <- expect_add|rewrite <- expect_add]; reflexivity.
Qed.
Lemma ec_real probs g : ec probs (fun k => RtoC (g k)) = RtoC (expect probs g).
Proof. unfold ec, RtoC. cbn [fst snd]. rewrite expect_const. reflexivity. Qed.

Lemma characteristic probs t : cprod (map (fun p => (1 - p + p * cos t, p * sin t)) probs) = ec probs (fun k => cis (t * INR k)).
Proof.
  induction probs as [|p probs IH].
  - unfold ec. rewrite !expect_nil. cbn [map]. unfold cprod. cbn [fold_right INR]. rewrite Rmult_0_r, cis_0. reflexivity.
  - rewrite ec_cons. cbn [map]. unfold cprod. cbn [fold_right]. fold (cprod (map (fun p => (1 - p + p * cos t, p * sin t)) probs)). rewrite IH.
    rewrite (ec_ext probs (fun k => cis (t * INR (S k))) (fun k => Cmult (cis t) (cis (t * INR k)))).
    + rewrite ec_mul. generalize (ec probs (fun k => cis (t * INR k))) as w. intros w.
      apply C_eq; unfold cis; rewrite ?fst_plus, ?snd_plus, ?fst_mult, ?snd_mult, ?fst_mult, ?snd_mult; cbn [fst snd RtoC]; ring.
    + intros k _. rewrite S_INR, <- cis_add. f_equal. ring.
Qed.

Lemma chi_ec probs n i : pb_chi probs n i = ec probs (fun m => zeta (n + 1) (Z.of_nat i * Z.of_nat m)).
Proof.
  unfold pb_chi. cbv zeta. rewrite polar_prod, characteristic. apply ec_ext. intros m _. unfold zeta. f_equal. rewrite mult_IZR, <- !INR_IZR_INZ.
  assert (P : 0 < INR (n + 1)) by (apply lt_0_INR; lia). field. lra.
Qed.
Lemma half_facts n : let h := (n / 2 + n mod 2)%nat in (h <= n)%nat /\ (n - h <= h)%nat.
Proof. cbv zeta. assert (E := Nat.div_mod n 2 ltac:(lia)). assert (B := Nat.mod_upper_bound n 2 ltac:(lia)). lia. Qed.

Lemma first_nth probs n l : let half := (n / 2 + n mod 2)%nat in (l <= half)%nat ->
  nth l (RtoC 1 :: map (pb_chi probs n) (seq 1 half)) (RtoC 0) = ec probs (fun m => zeta (n + 1) (Z.of_nat l * Z.of_nat m)).
Proof.
  intros half L. destruct l as [|l].
  - cbn [nth]. rewrite (ec_ext probs _ (fun _ => RtoC 1)) by (intros; cbn; apply zeta_0). rewrite ec_real, expect_const. reflexivity.
  - cbn [nth]. rewrite (nth_indep _ (RtoC 0) (pb_chi probs n 0)) by (rewrite map_length, seq_length; lia). rewrite map_nth, seq_nth by lia. apply chi_ec.
Qed.
Lemma slice_rev {A} (d : A) first h k i : List.length first = (h + 1)%nat -> (k <= h)%nat -> (i < k)%nat -> nth i (rev (slice 1 (k + 1) first)) d = nth (k - i) first d.
Proof.
  intros L K I. unfold slice. destruct first as [|a first]; [cbn in L; lia|]. cbn [List.length] in L. replace (k + 1)%nat with (S k) by lia. cbn [firstn skipn].
  assert (LK : List.length (firstn k first) = k) by (rewrite firstn_length; lia).
  rewrite rev_nth by lia. rewrite LK. replace (k - i)%nat with (S (k - S i)) by lia. cbn [nth].
  rewrite <- (firstn_skipn k first) at 2. rewrite app_nth1 by lia. reflexivity.
Qed.
Lemma chi_nth probs n l : (l <= n)%nat -> nth l (chi_values probs n) (RtoC 0) = ec probs (fun m => zeta (n + 1) (Z.of_nat l * Z.of_nat m)).
Proof.
  intros L. unfold chi_values. cbv zeta. destruct (half_facts n) as [H1 H2]. set (half := (n / 2 + n mod 2)%nat) in *.
  set (first := RtoC 1 :: map (pb_chi probs n) (seq 1 half)). assert (LF : List.length first = (half + 1)%nat) by (unfold first; cbn [List.length]; rewrite map_length, seq_length; lia).
  destruct (Nat.le_gt_cases l half) as [A|A].
  - rewrite app_nth1 by lia. apply first_nth. exact A.
  - rewrite app_nth2 by lia. rewrite LF. set (i := (l - (half + 1))%nat).
    assert (LS : List.length (rev (slice 1 (n - half + 1) first)) = (n - half)%nat).
    { rewrite rev_length. unfold slice. rewrite skipn_length, firstn_length. lia. }
    rewrite (nth_indep _ (RtoC 0) (Cconj (RtoC 0))) by (rewrite map_length, LS; unfold i; lia). rewrite map_nth.
    rewrite (slice_rev (RtoC 0) first half (n - half) i LF H2) by (unfold i; lia). unfold first.
    replace (n - half - i)%nat with (n + 1 - l)%nat by (unfold i; lia). 
    assert (FN := first_nth probs n (n + 1 - l)). cbv zeta in FN. fold half in FN. rewrite FN by lia.
    rewrite <- ec_conj. apply ec_ext. intros m _. rewrite Cconj_zeta.
    replace (Z.of_nat l * Z.of_nat m)%Z with (- (Z.of_nat (n + 1 - l) * Z.of_nat m) + Z.of_nat (n + 1) * Z.of_nat m)%Z by (rewrite Nat2Z.inj_sub by lia; ring).
    rewrite zeta_add by lia. rewrite zeta_multiple by lia. ring.
Qed.
Lemma chi_length probs n : List.length (chi_values probs n) = (n + 1)%nat.
Proof.
  unfold chi_values. cbv zeta. destruct (half_facts n) as [H1 H2]. set (half := (n / 2 + n mod 2)%nat) in *. rewrite app_length, map_length, rev_length. unfold slice. rewrite skipn_length, firstn_length. cbn [List.length]. rewrite map_length, seq_length. lia.
Qed.

(* inversion *)
Lemma invert probs k : let n := List.length probs in (k <= n)%nat ->
  csum (n + 1) (fun l => Cmult (ec probs (fun m => zeta (n + 1) (Z.of_nat l * Z.of_nat m))) (zeta (n + 1) (Z.of_nat k * - Z.of_nat l))) = RtoC (INR (n + 1) * pk probs k).
Proof.
  intros n K. assert (HN : (0 < n + 1)%nat) by lia.
  rewrite (csum_ext _ _ (fun l => ec probs (fun m => zeta (n + 1) (Z.of_nat l * (Z.of_nat m - Z.of_nat k))))).
  - rewrite <- ec_csum. rewrite (ec_ext probs _ (fun m => RtoC (INR (n + 1) * (if Nat.eqb k m then 1 else 0)))).
    + rewrite ec_real, expect_scal. reflexivity.
    + intros m M. fold n in M. rewrite orthogonal by exact HN. destruct (Nat.eqb_spec k m) as [->|N].
      * rewrite Z.sub_diag, Z.mod_0_l by lia. rewrite Rmult_1_r. reflexivity.
      * replace ((Z.of_nat m - Z.of_nat k) mod Z.of_nat (n + 1) =? 0)%Z with false; [rewrite Rmult_0_r; reflexivity|]. symmetry. apply Z.eqb_neq. intros E.
        apply Z.mod_divide in E; [|lia]. destruct E as [q E]. assert (q = 0)%Z by nia. lia.
  - intros l _. rewrite <- (ec_mul probs _ (zeta (n + 1) (Z.of_nat k * - Z.of_nat l))) at 1 || (rewrite Cmult_comm, <- ec_mul).
    apply ec_ext. intros m _. rewrite <- zeta_add by exact HN. f_equal. ring.
Qed.
Lemma csum_div n f c : csum n (fun i => Cdiv (f i) c) = Cdiv (csum n f) c.
Proof. unfold Cdiv. apply csum_mul_r. Qed.
Lemma fft_pmf_nth eps probs k : (k <= List.length probs)%nat -> nth k (fft_pmf eps probs (List.length probs)) 0 = pk probs k + eps.
Proof.
  intros K. unfold fft_pmf. cbv zeta. set (n := List.length probs) in *.
  set (F := fun k => fst (fft (n + 1) (fun j => nth j (map (fun z => Cdiv z (RtoC (INR (n + 1)))) (chi_values probs n)) (RtoC 0)) k) + eps).
  rewrite (nth_indep _ 0 (F 0%nat)) by (rewrite map_length, seq_length; lia). rewrite (map_nth F), seq_nth by lia. cbn [Nat.add]. unfold F. f_equal. unfold fft.
  assert (P : 0 < INR (n + 1)) by (apply lt_0_INR; lia). assert (PC : RtoC (INR (n + 1)) <> RtoC 0) by (apply INR_C_neq; lia).
  rewrite (csum_ext _ _ (fun l => Cdiv (Cmult (ec probs (fun m => zeta (n + 1) (Z.of_nat l * Z.of_nat m))) (zeta (n + 1) (Z.of_nat k * - Z.of_nat l))) (RtoC (INR (n + 1))))).
  - rewrite csum_div. assert (IV := invert probs k K). cbv zeta in IV. fold n in IV. rewrite IV. rewrite RtoC_mult. replace (Cdiv (Cmult (RtoC (INR (n + 1))) (RtoC (pk probs k))) (RtoC (INR (n + 1)))) with (RtoC (pk probs k)); [reflexivity|]. field. exact PC.
  - intros l L. rewrite (nth_indep _ (RtoC 0) (Cdiv (RtoC 0) (RtoC (INR (n + 1))))) by (rewrite map_length, chi_length; lia).
    rewrite (map_nth (fun z => Cdiv z (RtoC (INR (n + 1))))). rewrite chi_nth by lia. rewrite cis_zeta_neg. field. exact PC.
Qed.
Lemma fft_pmf_length eps probs n : List.length (fft_pmf eps probs n) = (n + 1)%nat.
Proof. unfold fft_pmf. rewrite map_length, seq_length. reflexivity. Qed.

Lemma local_nth probs x : (x <= List.length probs)%nat -> local_pmf probs x = pk probs x.
Proof.
  intros X. unfold local_pmf. cbv zeta. set (n := List.length probs) in *. assert (P : 0 < INR (n + 1)) by (apply lt_0_INR; lia).
  rewrite (csum_ext _ _ (fun l => Cmult (ec probs (fun m => zeta (n + 1) (Z.of_nat l * Z.of_nat m))) (zeta (n + 1) (Z.of_nat x * - Z.of_nat l)))).
  - assert (IV := invert probs x X). cbv zeta in IV. fold n in IV. rewrite IV. cbn [fst RtoC]. field. lra.
  - intros l L. rewrite Cmult_comm. f_equal.
    + assert (G : forall l (a : C), fold_left (fun product p => Cmult product (Cplus (RtoC 1) (Cmult (Cminus (zeta (n + 1) (Z.of_nat l)) (RtoC 1)) (RtoC p)))) probs a
        = Cmult a (cprod (map (fun p => Cplus (RtoC 1) (Cmult (Cminus (zeta (n + 1) (Z.of_nat l)) (RtoC 1)) (RtoC p))) probs))).
      { clear. intros l. generalize (zeta (n + 1) (Z.of_nat l)) as z. intros z. clear n. induction probs as [|p probs IH]; intros a; cbn [fold_left map]; unfold cprod; cbn [fold_right]; [ring|]. rewrite IH. unfold cprod. ring. }
      change (fun m : Z => cis (2 * PI * IZR m / INR (n + 1))) with (zeta (n + 1)). 
      etransitivity; [apply (G l (RtoC 1))|]. rewrite Cmult_1_l.
      rewrite (map_ext _ (fun p => (1 - p + p * cos (2 * PI * IZR (Z.of_nat l) / INR (n + 1)), p * sin (2 * PI * IZR (Z.of_nat l) / INR (n + 1))) : C)).
      * rewrite characteristic. apply ec_ext. intros m _. unfold zeta. f_equal. rewrite mult_IZR, <- !INR_IZR_INZ. field. lra.
      * intros p. unfold zeta. apply C_eq; unfold Cminus; rewrite ?fst_plus, ?snd_plus, ?fst_mult, ?snd_mult, ?fst_plus, ?snd_plus; unfold cis; cbn [fst snd RtoC Copp]; ring.
    + unfold zeta. f_equal. f_equal. f_equal. f_equal. ring.
Qed.
