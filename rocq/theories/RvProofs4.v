From Coq Require Import Reals Lra Lia Psatz.
From Coquelicot Require Import Coquelicot.
From Verif Require Import RvModel RvSpec RvProofs RvProofs2 RvProofs3.
Local Open Scope R_scope.

Lemma sqrt_below a b : 0 <= a -> 0 <= b -> a < b * b -> sqrt a < b.
Proof. intros A B L. pose proof (sqrt_pos a). pose proof (sqrt_sqrt a A). nra. Qed.
Lemma sqrt_above a b : 0 <= b -> b * b < a -> b < sqrt a.
Proof. intros B L. pose proof (sqrt_pos a). assert (0 <= a) by nra. pose proof (sqrt_sqrt a H0). nra. Qed.
Lemma sqrt_atmost a b : 0 <= a -> 0 <= b -> a <= b * b -> sqrt a <= b.
Proof. intros A B L. pose proof (sqrt_pos a). pose proof (sqrt_sqrt a A). nra. Qed.
Lemma triang_coherent c : 0 <= c <= 1 -> coherent (triang c).
Proof.
  intros Hc. apply make; unfold inside; cbn; try exact I.
  - intros x Hx. destruct (Req_EM_T c 0) as [->|N0].
    { split; [lra|]. auto_derive; [exact I|ring]. }
    split.
    { destruct (Rlt_dec x c); [apply div_pos; lra|]. destruct (Req_EM_T c 1); [lra|apply div_pos; lra]. }
    destruct (Req_EM_T c 1) as [E|N1].
    + subst c. destruct (Rlt_dec x 1); [|lra]. apply (glue _ (fun t => t * t / 1) (fun t => t * t) 1).
      * intros t Ht. destruct (Rlt_dec t 1); [reflexivity|lra].
      * intros t Ht. destruct (Rlt_dec t 1); [lra|reflexivity].
      * destruct (Rlt_dec 1 1); [lra|field].
      * right. lra.
      * intros _. auto_derive; [lra|field].
      * lra.
    + apply (glue _ (fun t => t * t / c) (fun t => (t * t - 2 * t + c) / (c - 1)) c).
      * intros t Ht. destruct (Rlt_dec t c); [reflexivity|lra].
      * intros t Ht. destruct (Rlt_dec t c); [lra|reflexivity].
      * destruct (Rlt_dec c c); [lra|field; lra].
      * left. field. lra.
      * intros L. auto_derive; [lra|]. destruct (Rlt_dec x c); [field; lra|]. replace x with c by lra. field. lra.
      * intros L. destruct (Rlt_dec x c); [lra|]. auto_derive; [lra|]. field. lra.
  - intros x Hx. destruct (Req_EM_T c 0); [nra|]. destruct (Rlt_dec x c).
    + split; [apply div_pos; nra|]. apply div_lt1; nra.
    + destruct (Req_EM_T c 1); [lra|]. replace ((x * x - 2 * x + c) / (c - 1)) with (((1 - c) - (1 - x) * (1 - x)) / (1 - c)) by (field; lra). split; [apply div_pos; nra|apply div_lt1; nra].
  - intros q Hq. destruct (Rlt_dec q c) as [L|L].
    + assert (0 < sqrt (c * q)) by (apply sqrt_lt_R0; nra). assert (S : sqrt (c * q) * sqrt (c * q) = c * q) by (apply sqrt_sqrt; nra). assert (sqrt (c * q) < c) by (apply sqrt_below; nra). split; [lra|]. destruct (Req_EM_T c 0); [lra|]. destruct (Rlt_dec (sqrt (c * q)) c); [|lra]. rewrite S. field. lra.
    + assert (c < 1) by lra. assert (0 < sqrt ((1 - c) * (1 - q))) by (apply sqrt_lt_R0; nra). assert (S : sqrt ((1 - c) * (1 - q)) * sqrt ((1 - c) * (1 - q)) = (1 - c) * (1 - q)) by (apply sqrt_sqrt; nra). assert (sqrt ((1 - c) * (1 - q)) < 1) by (apply sqrt_below; nra). set (s := sqrt ((1 - c) * (1 - q))) in *. split; [lra|]. destruct (Req_EM_T c 0) as [->|]; [nra|]. destruct (Rlt_dec (1 - s) c) as [B|B]; [exfalso; nra|]. destruct (Req_EM_T c 1); [lra|]. apply (Rmult_eq_reg_r (c - 1)); [|lra]. unfold Rdiv. rewrite Rmult_assoc, Rinv_l by lra. nra.
Qed.
Lemma trapz_at_c c d : 0 <= c <= d -> trapz_cdf c d c = c / (d - c + 1).
Proof. intros H. unfold trapz_cdf. destruct (Rlt_dec c c); [lra|]. destruct (Rle_dec c d); [f_equal; ring|lra]. Qed.
Lemma trapz_at_d c d : 0 <= c <= d -> trapz_cdf c d d = (2 * d - c) / (d - c + 1).
Proof. intros H. unfold trapz_cdf. destruct (Rlt_dec d c); [lra|]. destruct (Rle_dec d d); [f_equal; ring|lra]. Qed.
Lemma trapz_coherent c d : 0 <= c <= d -> d <= 1 -> coherent (trapz c d).
Proof.
  intros Hc Hd. set (D := d - c + 1). assert (HD : 0 < D) by (unfold D; lra). assert (HU : 0 < 2 / D) by (apply div_pos; lra).
  apply make; unfold inside; cbn; try exact I.
  - intros x Hx. fold D. split.
    { destruct (Rlt_dec x c); [apply div_pos; nra|]. destruct (Rle_dec x d); [exact HU|apply div_pos; nra]. }
    unfold trapz_cdf. fold D. apply (glue _ (fun t => t ^ 2 / c / D) (fun t => if Rle_dec t d then (c + 2 * (t - c)) / D else 1 - (1 - t) ^ 2 / D / (1 - d)) c).
    + intros t Ht. destruct (Rlt_dec t c); [reflexivity|lra].
    + intros t Ht. destruct (Rlt_dec t c); [lra|reflexivity].
    + destruct (Rlt_dec c c); [lra|]. destruct (Rle_dec c d); [|lra]. destruct (Req_dec c 0) as [->|]; [|field; lra]. unfold Rdiv. ring.
    + destruct (Req_dec c 0) as [->|]; [right; lra|left]. destruct (Rle_dec c d); [field; lra|lra].
    + intros L. auto_derive; [lra|]. destruct (Rlt_dec x c); [field; lra|]. replace x with c by lra. destruct (Rle_dec c d); [field; lra|lra].
    + intros L. destruct (Rlt_dec x c); [lra|]. apply (glue _ (fun t => (c + 2 * (t - c)) / D) (fun t => 1 - (1 - t) ^ 2 / D / (1 - d)) d).
      * intros t Ht. destruct (Rle_dec t d); [reflexivity|lra].
      * intros t Ht. destruct (Rle_dec t d); [lra|reflexivity].
      * destruct (Rle_dec d d); [reflexivity|lra].
      * destruct (Req_dec d 1); [right; lra|left]. unfold D in *. field. lra.
      * intros L2. destruct (Rle_dec x d); [|lra]. auto_derive; [lra|field; lra].
      * intros L2. auto_derive; [lra|]. destruct (Rle_dec x d); [replace x with d by lra|]; field; lra.
  - intros x Hx. unfold trapz_cdf. fold D. destruct (Rlt_dec x c).
    + split; [apply div_pos; [apply div_pos|]; nra|]. apply div_lt1; [exact HD|]. apply (Rmult_lt_reg_r c); [lra|]. replace (x ^ 2 / c * c) with (x * x) by (field; lra). unfold D. nra.
    + destruct (Rle_dec x d).
      * split; [apply div_pos; lra|apply div_lt1; unfold D; lra].
      * assert (0 < (1 - x) ^ 2 / D / (1 - d)) by (apply div_pos; [apply div_pos|]; nra). assert ((1 - x) ^ 2 / D / (1 - d) < 1); [|lra]. apply div_lt1; [lra|]. apply (Rmult_lt_reg_r D); [lra|]. replace ((1 - x) ^ 2 / D * D) with ((1 - x) * (1 - x)) by (field; lra). unfold D. nra.
  - intros q Hq. rewrite trapz_at_c, trapz_at_d by exact Hc. replace (1 + d - c) with D by (unfold D; ring). fold D.
    assert (Mc : forall y, q * D < y -> q < y / D). { intros y L. apply (Rmult_lt_reg_r D); [lra|]. replace (y / D * D) with y by (field; lra). exact L. }
    assert (Mn : forall y, y < q * D -> y / D < q). { intros y L. apply (Rmult_lt_reg_r D); [lra|]. replace (y / D * D) with y by (field; lra). exact L. }
    destruct (Rlt_dec q (c / D)) as [A|A].
    + assert (A' : q * D < c). { apply (Rmult_lt_compat_r D) in A; [|lra]. replace (c / D * D) with c in A by (field; lra). exact A. }
      assert (Pc : 0 < c) by nra. assert (S : sqrt (q * c * D) * sqrt (q * c * D) = q * c * D) by (apply sqrt_sqrt; assert (0 < q * c) by nra; nra). assert (sqrt (q * c * D) < c) by (apply sqrt_below; [assert (0 < q * c) by nra; nra|lra|nra]). assert (0 < sqrt (q * c * D)) by (apply sqrt_lt_R0; assert (0 < q * c) by nra; nra). set (s := sqrt (q * c * D)) in *. split; [lra|]. unfold trapz_cdf. fold D. destruct (Rlt_dec s c); [|lra]. replace (s ^ 2) with (q * c * D) by (rewrite <- S; ring). field. lra.
    + assert (A' : c <= q * D). { destruct (Rle_dec c (q * D)); [assumption|]. exfalso. apply A, Mc. lra. }
      destruct (Rle_dec q ((2 * d - c) / D)) as [B|B].
      * assert (B' : q * D <= 2 * d - c). { destruct (Rle_dec (q * D) (2 * d - c)); [assumption|]. exfalso. apply (Rlt_not_le _ _ (Mn (2 * d - c) ltac:(lra)) B). }
        assert (0 < q * D) by nra. assert (q * D < D) by nra. split; [unfold D in *; lra|]. unfold trapz_cdf. fold D. destruct (Rlt_dec (/ 2 * q * D + / 2 * c) c); [lra|]. destruct (Rle_dec (/ 2 * q * D + / 2 * c) d); [|lra]. field. lra.
      * assert (B' : 2 * d - c < q * D). { destruct (Rle_dec (q * D) (2 * d - c)); [|lra]. exfalso. apply B. apply (Rmult_le_reg_r D); [lra|]. replace ((2 * d - c) / D * D) with (2 * d - c) by (field; lra). assumption. }
        assert (K : (1 - q) * D < 1 - d) by (unfold D in *; lra). assert (0 < (1 - q) * D) by nra. assert (Pd : 0 < 1 - d) by lra. assert (S : sqrt ((1 - q) * D * (1 - d)) * sqrt ((1 - q) * D * (1 - d)) = (1 - q) * D * (1 - d)) by (apply sqrt_sqrt; nra). assert (0 < sqrt ((1 - q) * D * (1 - d))) by (apply sqrt_lt_R0; nra). assert (sqrt ((1 - q) * D * (1 - d)) < 1 - d) by (apply sqrt_below; nra). set (s := sqrt ((1 - q) * D * (1 - d))) in *. split; [lra|]. unfold trapz_cdf. fold D. destruct (Rlt_dec (1 - s) c); [lra|]. destruct (Rle_dec (1 - s) d); [lra|]. replace (1 - (1 - s)) with s by ring. replace (s ^ 2) with ((1 - q) * D * (1 - d)) by (rewrite <- S; ring). field. lra.
Qed.
