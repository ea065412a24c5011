From Coq Require Import Reals List Lra Lia Bool Arith ZArith FunctionalExtensionality.
From Coquelicot Require Import Coquelicot.
From Verif Require Import Base ArSpec PolyModel DftModel DftProofs CsimProofs ArProofs2 ChebSpec ChebProofs PadeProofs OscModel OscSpec.
Import ListNotations.
Local Open Scope R_scope.
Set Bullet Behavior "Strict Subproofs".

(* ---- parts of complex sums ---- *)
Lemma csum_fst n f : fst (csum n f) = sum_to n (fun i => fst (f i)).
Proof. induction n as [|n IH]; [reflexivity|]. cbn [csum sum_to]. unfold Cplus. cbn [fst]. now rewrite IH. Qed.
Lemma csum_snd n f : snd (csum n f) = sum_to n (fun i => snd (f i)).
Proof. induction n as [|n IH]; [reflexivity|]. cbn [csum sum_to]. unfold Cplus. cbn [snd]. now rewrite IH. Qed.
Lemma C_ext (z w : C) : fst z = fst w -> snd z = snd w -> z = w.
Proof. destruct z, w. cbn. congruence. Qed.
Lemma cpoly_fst n c t : fst (cpoly n c t) = poly n (fun k => fst (c k)) t.
Proof. unfold cpoly. rewrite csum_fst. apply sum_ext. intros k _. cbn. ring. Qed.
Lemma cpoly_snd n c t : snd (cpoly n c t) = poly n (fun k => snd (c k)) t.
Proof. unfold cpoly. rewrite csum_snd. apply sum_ext. intros k _. cbn. ring. Qed.
Definition poly' n (f : nat -> R) t := sum_to n (fun k => f k * (INR k * t ^ (k - 1))).
Lemma dpoly_fst n c t : fst (dpoly n c t) = poly' n (fun k => fst (c k)) t.
Proof. unfold dpoly. rewrite csum_fst. apply sum_ext. intros k _. cbn. ring. Qed.
Lemma dpoly_snd n c t : snd (dpoly n c t) = poly' n (fun k => snd (c k)) t.
Proof. unfold dpoly. rewrite csum_snd. apply sum_ext. intros k _. cbn. ring. Qed.

(* ---- derivatives of polynomials ---- *)
Lemma pow_derive k t : is_derive (fun u => u ^ k) t (INR k * t ^ (k - 1)).
Proof. auto_derive; [exact I|]. replace (pred k) with (k - 1)%nat by lia. ring. Qed.
Lemma sum_derive n (f f' : nat -> R -> R) t : (forall k, (k < n)%nat -> is_derive (f k) t (f' k t)) -> is_derive (fun u => sum_to n (fun k => f k u)) t (sum_to n (fun k => f' k t)).
Proof.
  induction n as [|n IH]; intros H; cbn [sum_to]; [apply (is_derive_const (K := R_AbsRing) (V := R_NormedModule) 0 t)|].
  apply (is_derive_plus (fun u => sum_to n (fun k => f k u)) (f n)); [apply IH; intros; apply H; lia|apply H; lia].
Qed.
Lemma poly_derive n f t : is_derive (poly n f) t (poly' n f t).
Proof. apply (sum_derive n (fun k u => f k * u ^ k) (fun k u => f k * (INR k * u ^ (k - 1)))). intros k _. apply is_derive_scal, pow_derive. Qed.
Lemma sum_continuous n (f : nat -> R -> R) t : (forall k, (k < n)%nat -> continuous (f k) t) -> continuous (fun u => sum_to n (fun k => f k u)) t.
Proof.
  induction n as [|n IH]; intros H; cbn [sum_to]; [apply continuous_const|].
  apply (continuous_plus (fun u => sum_to n (fun k => f k u)) (f n)); [apply IH; intros; apply H; lia|apply H; lia].
Qed.
Lemma continuous_pow k t : continuous (fun u => u ^ k) t.
Proof. apply (ex_derive_continuous (fun u => u ^ k)). eexists. apply pow_derive. Qed.
Lemma poly_continuous n f t : continuous (poly n f) t.
Proof. apply (ex_derive_continuous (poly n f)). eexists. apply poly_derive. Qed.
Lemma poly'_continuous n f t : continuous (poly' n f) t.
Proof. apply (sum_continuous n (fun k u => f k * (INR k * u ^ (k - 1)))). intros k _. apply (continuous_scal_r (f k) (fun u => INR k * u ^ (k - 1))). apply (continuous_scal_r (INR k) (fun u => u ^ (k - 1))). apply continuous_pow. Qed.
Lemma cmult_R (f g : R -> R) t : continuous f t -> continuous g t -> continuous (fun u => f u * g u) t.
Proof. intros. now apply (continuous_mult f g). Qed.
Lemma cplus_R (f g : R -> R) t : continuous f t -> continuous g t -> continuous (fun u => f u + g u) t.
Proof. intros. now apply (continuous_plus f g). Qed.
Lemma cminus_R (f g : R -> R) t : continuous f t -> continuous g t -> continuous (fun u => f u - g u) t.
Proof. intros. now apply (continuous_minus f g). Qed.
Lemma phase_continuous g dg t : phase g dg -> continuous g t.
Proof. intros H. apply (ex_derive_continuous g). exists (dg t). apply H. Qed.
Lemma cos_c om g dg t : phase g dg -> continuous (fun u => cos (om * g u)) t.
Proof. intros H. apply (ex_derive_continuous (fun u => cos (om * g u))). eexists. apply (is_derive_comp cos (fun u => om * g u)); [apply is_derive_cos|apply is_derive_scal, H]. Qed.
Lemma sin_c om g dg t : phase g dg -> continuous (fun u => sin (om * g u)) t.
Proof. intros H. apply (ex_derive_continuous (fun u => sin (om * g u))). eexists. apply (is_derive_comp sin (fun u => om * g u)); [apply is_derive_sin|apply is_derive_scal, H]. Qed.

Ltac rring := match goal with |- ?x = ?y => change (@eq R x y) end; ring.
(* the fundamental theorem, for a polynomial times exp(i omega g) *)
Lemma amplitude_integral om g dg n c a b : phase g dg -> integral (oscillating om g (amplitude om dg n c)) a b (boundary om g n c a b).
Proof.
  intros H. split.
  - apply (is_RInt_ext (fun t => poly' n (fun k => fst (c k)) t * cos (om * g t) - poly' n (fun k => snd (c k)) t * sin (om * g t) + om * dg t * (- poly n (fun k => snd (c k)) t * cos (om * g t) - poly n (fun k => fst (c k)) t * sin (om * g t)))).
    { intros t _. unfold oscillating, amplitude, Cmult, Cplus, cis. cbn [fst snd]. rewrite dpoly_fst, dpoly_snd, cpoly_fst, cpoly_snd. rring. }
    replace (fst (boundary om g n c a b)) with (minus (poly n (fun k => fst (c k)) b * cos (om * g b) - poly n (fun k => snd (c k)) b * sin (om * g b)) (poly n (fun k => fst (c k)) a * cos (om * g a) - poly n (fun k => snd (c k)) a * sin (om * g a))).
    2:{ unfold boundary, oscillating, Cminus, Cplus, Copp, Cmult, cis, minus, plus, opp. cbn. rewrite !cpoly_fst, !cpoly_snd. rring. }
    apply (is_RInt_derive (fun t => poly n (fun k => fst (c k)) t * cos (om * g t) - poly n (fun k => snd (c k)) t * sin (om * g t))).
    + intros t _. evar_last. { apply (is_derive_minus (fun u => poly n (fun k => fst (c k)) u * cos (om * g u)) (fun u => poly n (fun k => snd (c k)) u * sin (om * g u))).
        - apply (is_derive_mult (poly n (fun k => fst (c k))) (fun u => cos (om * g u))); [apply poly_derive|apply (is_derive_comp cos (fun u => om * g u)); [apply is_derive_cos|apply is_derive_scal, H]|intros; apply Rmult_comm].
        - apply (is_derive_mult (poly n (fun k => snd (c k))) (fun u => sin (om * g u))); [apply poly_derive|apply (is_derive_comp sin (fun u => om * g u)); [apply is_derive_sin|apply is_derive_scal, H]|intros; apply Rmult_comm]. }
      unfold minus, plus, opp, mult, scal; cbn. unfold mult; cbn. rring.
    + intros t _. repeat first [apply cminus_R | apply cplus_R | apply cmult_R]; try apply poly'_continuous; try apply poly_continuous; try apply continuous_const; try apply (cos_c om g dg t H); try apply (sin_c om g dg t H); try apply (proj2 (H t)).
      apply (continuous_opp (poly n (fun k => snd (c k)))), poly_continuous.
  - apply (is_RInt_ext (fun t => poly' n (fun k => fst (c k)) t * sin (om * g t) + poly' n (fun k => snd (c k)) t * cos (om * g t) + om * dg t * (poly n (fun k => fst (c k)) t * cos (om * g t) - poly n (fun k => snd (c k)) t * sin (om * g t)))).
    { intros t _. unfold oscillating, amplitude, Cmult, Cplus, cis. cbn [fst snd]. rewrite dpoly_fst, dpoly_snd, cpoly_fst, cpoly_snd. rring. }
    replace (snd (boundary om g n c a b)) with (minus (poly n (fun k => fst (c k)) b * sin (om * g b) + poly n (fun k => snd (c k)) b * cos (om * g b)) (poly n (fun k => fst (c k)) a * sin (om * g a) + poly n (fun k => snd (c k)) a * cos (om * g a))).
    2:{ unfold boundary, oscillating, Cminus, Cplus, Copp, Cmult, cis, minus, plus, opp. cbn. rewrite !cpoly_fst, !cpoly_snd. rring. }
    apply (is_RInt_derive (fun t => poly n (fun k => fst (c k)) t * sin (om * g t) + poly n (fun k => snd (c k)) t * cos (om * g t))).
    + intros t _. evar_last. { apply (is_derive_plus (fun u => poly n (fun k => fst (c k)) u * sin (om * g u)) (fun u => poly n (fun k => snd (c k)) u * cos (om * g u))).
        - apply (is_derive_mult (poly n (fun k => fst (c k))) (fun u => sin (om * g u))); [apply poly_derive|apply (is_derive_comp sin (fun u => om * g u)); [apply is_derive_sin|apply is_derive_scal, H]|intros; apply Rmult_comm].
        - apply (is_derive_mult (poly n (fun k => snd (c k))) (fun u => cos (om * g u))); [apply poly_derive|apply (is_derive_comp cos (fun u => om * g u)); [apply is_derive_cos|apply is_derive_scal, H]|intros; apply Rmult_comm]. }
      unfold minus, plus, opp, mult, scal; cbn. unfold mult; cbn. rring.
    + intros t _. repeat first [apply cminus_R | apply cplus_R | apply cmult_R]; try apply poly'_continuous; try apply poly_continuous; try apply continuous_const; try apply (cos_c om g dg t H); try apply (sin_c om g dg t H); try apply (proj2 (H t)).
Qed.
