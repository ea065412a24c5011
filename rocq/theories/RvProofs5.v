From Coq Require Import Reals Lra Lia Psatz.
From Coquelicot Require Import Coquelicot.
From Verif Require Import RvModel RvSpec RvProofs RvProofs2 RvProofs3 RvProofs4.
Local Open Scope R_scope.

Lemma cdf_increasing d x y : coherent d -> inside d x -> inside d y -> (x < y <-> cdf d x < cdf d y).
Proof.
  intros C Hx Hy. pose proof (increasing_cdf d (density d C)) as I. split; [now apply I|]. intros L. destruct (Rtotal_order x y) as [A|[A|A]]; [exact A|subst; lra|]. specialize (I y x Hy Hx A). lra.
Qed.
Lemma ppf_increasing d p q : coherent d -> 0 < p < 1 -> 0 < q < 1 -> (p < q <-> ppf d p < ppf d q).
Proof.
  intros C Hp Hq. destruct (quantile d C p Hp) as [Ip Ep]. destruct (quantile d C q Hq) as [Iq Eq]. rewrite (cdf_increasing d _ _ C Ip Iq), Ep, Eq. tauto.
Qed.
Lemma whole_mass d e : coherent d -> 0 < e < 1 -> exists a b, inside d a /\ inside d b /\ (forall x, inside d x -> x < a -> cdf d x < e) /\ (forall x, inside d x -> b < x -> 1 - e < cdf d x).
Proof.
  intros C He. destruct (quantile d C e He) as [Ip Ep]. destruct (quantile d C (1 - e) ltac:(lra)) as [Iq Eq]. exists (ppf d e), (ppf d (1 - e)). repeat split; try apply Ip; try apply Iq.
  - intros x Hx L. rewrite <- Ep. now apply (proj1 (cdf_increasing d _ _ C Hx Ip)).
  - intros x Hx L. rewrite <- Eq at 1. now apply (proj1 (cdf_increasing d _ _ C Iq Hx)).
Qed.
Lemma interval_mass d a b : coherent d -> inside d a -> inside d b -> a <= b -> (forall x, a <= x <= b -> continuous (pdf d) x) -> is_RInt (pdf d) a b (cdf d b - cdf d a).
Proof.
  intros C Ha Hb L K. apply (is_RInt_derive (cdf d) (pdf d)).
  - intros x. rewrite Rmin_left, Rmax_right by exact L. intros Hx. apply (density d C). destruct (Req_dec x a) as [->|]; [exact Ha|]. destruct (Req_dec x b) as [->|]; [exact Hb|]. apply (inside_between d a x b); trivial; lra.
  - intros x. rewrite Rmin_left, Rmax_right by exact L. apply K.
Qed.
Lemma expon_continuous x : continuous (pdf expon) x.
Proof. apply (ex_derive_continuous (V := R_NormedModule)). cbn. auto_derive. exact I. Qed.
