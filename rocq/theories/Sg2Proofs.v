(* Every matrix has a Moore-Penrose inverse (Greville's recursion over the columns). *)
From Coq Require Import Reals List Lra Lia Bool Arith.
From Verif Require Import Base ArSpec ArProofs2 CsimProofs Sg2Spec.
Import ListNotations.
Local Open Scope R_scope.
Set Bullet Behavior "Strict Subproofs".

Lemma times_assoc n m A B C i j : times m (times n A B) C i j = times n A (times m B C) i j.
Proof.
  unfold times. rewrite (sum_ext m _ (fun k => sum_to n (fun k0 => A i k0 * B k0 k * C k j))).
  - rewrite sum_swap. apply sum_ext. intros k Hk. rewrite <- sum_scal. apply sum_ext. intros. ring.
  - intros k Hk. rewrite Rmult_comm, <- sum_scal. apply sum_ext. intros. ring.
Qed.
Lemma times_ext n A A' B B' i j : (forall k, (k < n)%nat -> A i k = A' i k) -> (forall k, (k < n)%nat -> B k j = B' k j) -> times n A B i j = times n A' B' i j.
Proof. intros H K. unfold times. apply sum_ext. intros k Hk. now rewrite H, K. Qed.
Lemma sum_minus n f g : sum_to n (fun m => f m - g m) = sum_to n f - sum_to n g.
Proof. induction n as [|n IH]; cbn [sum_to]; [ring|]. rewrite IH. ring. Qed.
Lemma sum_scal_r n a f : sum_to n (fun m => f m * a) = sum_to n f * a.
Proof. induction n as [|n IH]; cbn [sum_to]; [ring|]. rewrite IH. ring. Qed.
Lemma sum_squares0 n f : sum_to n (fun m => f m * f m) = 0 -> forall m, (m < n)%nat -> f m = 0.
Proof.
  induction n as [|n IH]; intros H m Hm; [lia|]. cbn [sum_to] in H. assert (A : 0 <= sum_to n (fun m => f m * f m)) by (apply sum_nonneg; intros; apply Rle_0_sqr).
  assert (B : 0 <= f n * f n) by apply Rle_0_sqr. destruct (Nat.eq_dec m n) as [->|E]; [nra|]. apply IH; [lra|lia].
Qed.

Fixpoint greville (p k : nat) (A : nat -> nat -> R) : nat -> nat -> R :=
  match k with
  | O => fun _ _ => 0
  | S k' =>
    let P := greville p k' A in
    let d i := sum_to p (fun r => P i r * A r k') in
    let c r := A r k' - sum_to k' (fun i => A r i * d i) in
    let cc := sum_to p (fun r => c r * c r) in
    let b s := if Req_EM_T cc 0 then sum_to k' (fun i => d i * P i s) / (1 + sum_to k' (fun i => d i * d i)) else c s / cc in
    fun i s => if (i =? k')%nat then b s else P i s - d i * b s
  end.
(* one more column *)
Lemma add_column p k A P d c b P' : moore_penrose p k A P ->
  (forall i, d i = sum_to p (fun r => P i r * A r k)) -> (forall r, c r = A r k - sum_to k (fun i => A r i * d i)) ->
  (forall s, b s = if Req_EM_T (sum_to p (fun r => c r * c r)) 0 then sum_to k (fun i => d i * P i s) / (1 + sum_to k (fun i => d i * d i)) else c s / sum_to p (fun r => c r * c r)) ->
  (forall i s, P' i s = if (i =? k)%nat then b s else P i s - d i * b s) -> moore_penrose p (S k) A P'.
Proof.
  intros [H1 [H2 [H3 H4]]] Hd Hc Hb HP. set (cc := sum_to p (fun r => c r * c r)) in *. set (dd := sum_to k (fun i => d i * d i)) in *.
  assert (Pl : forall i s, (i < k)%nat -> P' i s = P i s - d i * b s). { intros i s Hi. rewrite HP. destruct (Nat.eqb_spec i k); [lia|reflexivity]. }
  assert (Pk : forall s, P' k s = b s). { intros s. rewrite HP, Nat.eqb_refl. reflexivity. }
  assert (DD : 0 <= dd) by (apply sum_nonneg; intros; apply Rle_0_sqr).
  (* PA d = d, A' c = 0 *)
  assert (PAd : forall i, (i < k)%nat -> sum_to k (fun j => times p P A i j * d j) = d i).
  { intros i Hi. rewrite (Hd i). rewrite (sum_ext p _ (fun r => times k (times p P A) P i r * A r k)) by (intros r Hr; now rewrite H2).
    rewrite (sum_ext k _ (fun j => times p P A i j * times p P (fun r _ => A r k) j 0)) by (intros j Hj; rewrite (Hd j); reflexivity).
    change (times k (times p P A) (times p P (fun r _ => A r k)) i 0%nat = times p (times k (times p P A) P) (fun r _ => A r k) i 0%nat). symmetry. apply times_assoc. }
  assert (Atc : forall l, (l < k)%nat -> sum_to p (fun r => c r * A r l) = 0).
  { intros l Hl. rewrite (sum_ext p _ (fun r => A r k * A r l - sum_to k (fun i => A r i * d i) * A r l)) by (intros r Hr; rewrite Hc; ring). rewrite sum_minus.
    assert (E : sum_to p (fun r => sum_to k (fun i => A r i * d i) * A r l) = sum_to p (fun s => A s k * A s l)).
    { (* A d = AP a; (AP) symmetric *)
      rewrite (sum_ext p _ (fun r => sum_to p (fun s => times k A P r s * A s k) * A r l)).
      2:{ intros r Hr. f_equal. rewrite (sum_ext k _ (fun i => A r i * times p P (fun t _ => A t k) i 0)) by (intros i Hi; rewrite Hd; reflexivity).
          change (times k A (times p P (fun t _ => A t k)) r 0%nat = times p (times k A P) (fun t _ => A t k) r 0%nat). symmetry. apply times_assoc. }
      rewrite (sum_ext p _ (fun r => sum_to p (fun s => times k A P r s * A s k * A r l))) by (intros r Hr; rewrite sum_scal_r; reflexivity).
      rewrite sum_swap. apply sum_ext. intros s Hs. rewrite (sum_ext p _ (fun r => A s k * (times k A P s r * A r l))) by (intros r Hr; rewrite (H3 r s) by assumption; ring).
      rewrite sum_scal. f_equal. exact (H1 s l Hs Hl). }
    rewrite E. ring. }
  assert (AP' : forall r s, times (S k) A P' r s = times k A P r s + c r * b s).
  { intros r s. unfold times. cbn [sum_to]. rewrite Pk. rewrite (sum_ext k _ (fun i => A r i * P i s - A r i * d i * b s)) by (intros i Hi; rewrite Pl by exact Hi; ring). rewrite sum_minus, sum_scal_r, Hc. ring. }
  assert (Dp : forall i, (i < k)%nat -> times p P A i k = d i) by (intros i Hi; symmetry; apply Hd).
  destruct (Req_EM_T cc 0) as [Z|Z].
  - (* the column depends on the others *)
    assert (C0 : forall r, (r < p)%nat -> c r = 0) by (apply sum_squares0; exact Z).
    assert (Ad : forall r, (r < p)%nat -> sum_to k (fun i => A r i * d i) = A r k) by (intros r Hr; pose proof (C0 r Hr); rewrite Hc in H; lra).
    assert (bA : forall l, (l < k)%nat -> sum_to p (fun s => b s * A s l) = d l / (1 + dd)).
    { intros l Hl. rewrite (sum_ext p _ (fun s => sum_to k (fun i => d i * P i s * A s l) / (1 + dd))) by (intros s Hs; rewrite Hb, sum_scal_r; unfold Rdiv; ring).
      unfold Rdiv. rewrite sum_scal_r. f_equal. rewrite sum_swap. rewrite (sum_ext k _ (fun i => times p P A l i * d i)).
      2:{ intros i Hi. rewrite (H4 l i) by assumption. unfold times. rewrite Rmult_comm, <- sum_scal. apply sum_ext. intros; ring. }
      now apply PAd. }
    assert (ba : sum_to p (fun s => b s * A s k) = dd / (1 + dd)).
    { rewrite (sum_ext p _ (fun s => sum_to k (fun i => b s * A s i * d i))) by (intros s Hs; rewrite <- (Ad s Hs), <- sum_scal; apply sum_ext; intros; ring).
      rewrite sum_swap. rewrite (sum_ext k _ (fun i => d i * d i * / (1 + dd))) by (intros i Hi; rewrite sum_scal_r, bA by exact Hi; unfold Rdiv; ring). rewrite sum_scal_r. reflexivity. }
    assert (AP0 : forall r s, (r < p)%nat -> times (S k) A P' r s = times k A P r s) by (intros r s Hr; rewrite AP', C0 by exact Hr; ring).
    assert (PA1 : forall i l, (i < k)%nat -> (l < k)%nat -> times p P' A i l = times p P A i l - d i * (d l / (1 + dd))).
    { intros i l Hi Hl. unfold times. rewrite (sum_ext p _ (fun s => P i s * A s l - d i * (b s * A s l))) by (intros s Hs; rewrite Pl by exact Hi; ring). rewrite sum_minus, sum_scal, bA by exact Hl. reflexivity. }
    assert (PA2 : forall i, (i < k)%nat -> times p P' A i k = d i / (1 + dd)).
    { intros i Hi. unfold times. rewrite (sum_ext p _ (fun s => P i s * A s k - d i * (b s * A s k))) by (intros s Hs; rewrite Pl by exact Hi; ring). rewrite sum_minus, sum_scal, ba, <- Hd. field. lra. }
    assert (PA3 : forall l, (l < k)%nat -> times p P' A k l = d l / (1 + dd)).
    { intros l Hl. unfold times. rewrite (sum_ext p _ (fun s => b s * A s l)) by (intros s Hs; now rewrite Pk). now apply bA. }
    split; [|split; [|split]].
    + intros r l Hr Hl. rewrite (times_ext p _ (times k A P) _ A) by (intros; first [now apply AP0|reflexivity]).
      destruct (Nat.eq_dec l k) as [->|E]; [|apply H1; [exact Hr|lia]].
      unfold times at 1. rewrite (sum_ext p _ (fun s => times k A P r s * times k A (fun i _ => d i) s 0)) by (intros s Hs; f_equal; symmetry; exact (Ad s Hs)).
      change (times p (times k A P) (times k A (fun i _ => d i)) r 0%nat = A r k). rewrite <- times_assoc. unfold times at 1. rewrite (sum_ext k _ (fun i => A r i * d i)); [now apply Ad|]. intros i Hi. f_equal. now apply H1.
    + intros l r Hl Hr. rewrite times_assoc. rewrite (times_ext p P' P' _ (times k A P)) by (intros; first [now apply AP0|reflexivity]).
      assert (bAP : sum_to p (fun s => b s * times k A P s r) = b r).
      { rewrite (sum_ext p _ (fun s => (sum_to k (fun i => d i * P i s) * times k A P s r) * / (1 + dd))) by (intros s Hs; rewrite Hb; unfold Rdiv; ring). rewrite sum_scal_r.
        rewrite Hb. unfold Rdiv. f_equal.
        rewrite (sum_ext p _ (fun s => sum_to k (fun i => d i * P i s * times k A P s r))) by (intros s Hs; now rewrite sum_scal_r). rewrite sum_swap. apply sum_ext. intros i Hi.
        rewrite (sum_ext p _ (fun s => d i * (P i s * times k A P s r))) by (intros; ring). rewrite sum_scal. f_equal.
        change (times p P (times k A P) i r = P i r). rewrite <- times_assoc. now apply H2. }
      unfold times at 1. destruct (Nat.eq_dec l k) as [->|E].
      * rewrite (sum_ext p _ (fun s => b s * times k A P s r)) by (intros s Hs; now rewrite Pk). rewrite bAP, Pk. reflexivity.
      * assert (Hl' : (l < k)%nat) by lia. rewrite (sum_ext p _ (fun s => P l s * times k A P s r - d l * (b s * times k A P s r))) by (intros s Hs; rewrite Pl by exact Hl'; ring).
        rewrite sum_minus, sum_scal, bAP, Pl by exact Hl'. f_equal. change (times p P (times k A P) l r = P l r). rewrite <- times_assoc. now apply H2.
    + intros r s Hr Hs. rewrite !AP0 by assumption. now apply H3.
    + intros l m Hl Hm. destruct (Nat.eq_dec l k) as [->|E]; destruct (Nat.eq_dec m k) as [->|E']; try reflexivity.
      * rewrite PA3, PA2 by lia. reflexivity.
      * rewrite PA2, PA3 by lia. reflexivity.
      * rewrite !PA1 by lia. rewrite (H4 l m) by lia. unfold Rdiv. ring.
  - (* the column is new *)
    assert (bA : forall l, (l < k)%nat -> sum_to p (fun s => b s * A s l) = 0).
    { intros l Hl. rewrite (sum_ext p _ (fun s => c s * A s l * / cc)) by (intros s Hs; rewrite Hb; unfold Rdiv; ring). rewrite sum_scal_r, Atc by exact Hl. ring. }
    assert (ca : sum_to p (fun s => c s * A s k) = cc).
    { rewrite (sum_ext p _ (fun s => c s * c s + sum_to k (fun i => c s * A s i * d i))).
      2:{ intros s Hs. replace (A s k) with (c s + sum_to k (fun i => A s i * d i)) by (rewrite Hc; ring). rewrite Rmult_plus_distr_l. f_equal. rewrite <- sum_scal. apply sum_ext. intros; ring. }
      rewrite sum_plus. fold cc. rewrite sum_swap. rewrite (sum_ext k _ (fun _ => 0)) by (intros i Hi; rewrite sum_scal_r, Atc by exact Hi; ring). rewrite sum_0. ring. }
    assert (ba : sum_to p (fun s => b s * A s k) = 1).
    { rewrite (sum_ext p _ (fun s => c s * A s k * / cc)) by (intros s Hs; rewrite Hb; unfold Rdiv; ring). rewrite sum_scal_r, ca. now apply Rinv_r. }
    assert (PA1 : forall i l, (i < k)%nat -> (l < k)%nat -> times p P' A i l = times p P A i l).
    { intros i l Hi Hl. unfold times. rewrite (sum_ext p _ (fun s => P i s * A s l - d i * (b s * A s l))) by (intros s Hs; rewrite Pl by exact Hi; ring). rewrite sum_minus, sum_scal, bA by exact Hl. ring. }
    assert (PA2 : forall i, (i < k)%nat -> times p P' A i k = 0).
    { intros i Hi. unfold times. rewrite (sum_ext p _ (fun s => P i s * A s k - d i * (b s * A s k))) by (intros s Hs; rewrite Pl by exact Hi; ring). rewrite sum_minus, sum_scal, ba, <- Hd. ring. }
    assert (PA3 : forall l, (l < k)%nat -> times p P' A k l = 0).
    { intros l Hl. unfold times. rewrite (sum_ext p _ (fun s => b s * A s l)) by (intros s Hs; now rewrite Pk). now apply bA. }
    assert (PA4 : times p P' A k k = 1). { unfold times. rewrite (sum_ext p _ (fun s => b s * A s k)) by (intros s Hs; now rewrite Pk). exact ba. }
    split; [|split; [|split]].
    + intros r l Hr Hl. rewrite times_assoc. unfold times at 1. cbn [sum_to]. destruct (Nat.eq_dec l k) as [->|E].
      * rewrite (sum_ext k _ (fun _ => 0)) by (intros i Hi; rewrite PA2 by exact Hi; ring). rewrite sum_0, PA4. ring.
      * rewrite PA3 by lia. rewrite (sum_ext k _ (fun i => A r i * times p P A i l)) by (intros i Hi; rewrite PA1 by lia; reflexivity).
        transitivity (times k A (times p P A) r l); [rewrite Rmult_0_r, Rplus_0_r; reflexivity|]. rewrite <- times_assoc. apply H1; [exact Hr|lia].
    + intros l r Hl Hr. unfold times at 1. cbn [sum_to]. destruct (Nat.eq_dec l k) as [->|E].
      * rewrite (sum_ext k _ (fun _ => 0)) by (intros i Hi; rewrite PA3 by exact Hi; ring). rewrite sum_0, PA4. ring.
      * assert (Hl' : (l < k)%nat) by lia. rewrite (PA2 l Hl'). rewrite (sum_ext k _ (fun i => times p P A l i * P i r - times p P A l i * d i * b r)) by (intros i Hi; rewrite (PA1 l i Hl' Hi), (Pl i r Hi); ring).
        rewrite sum_minus, sum_scal_r, (PAd l Hl'). rewrite (Pl l r Hl'). assert (E2 : sum_to k (fun i => times p P A l i * P i r) = P l r) by exact (H2 l r Hl' Hr). rewrite E2. ring.
    + intros r s Hr Hs. rewrite !AP', !Hb. rewrite (H3 r s) by assumption. unfold Rdiv. ring.
    + intros l m Hl Hm. destruct (Nat.eq_dec l k) as [->|E]; destruct (Nat.eq_dec m k) as [->|E']; try reflexivity.
      * rewrite PA3, PA2 by lia. reflexivity.
      * rewrite PA2, PA3 by lia. reflexivity.
      * rewrite !PA1 by lia. apply H4; lia.
Qed.
Lemma greville_inverse p q A : moore_penrose p q A (greville p q A).
Proof.
  induction q as [|k IH].
  - repeat split; intros; lia || reflexivity.
  - eapply add_column; [exact IH|..]; intros; cbn [greville]; reflexivity.
Qed.
Lemma inverse_exists : exists pinv : nat -> nat -> (nat -> nat -> R) -> nat -> nat -> R, forall p q A, moore_penrose p q A (pinv p q A).
Proof. exists greville. exact greville_inverse. Qed.
