(* A square real linear system that has no non-zero solution for the zero right hand side has
   a solution for every right hand side. *)
From Coq Require Import Reals Lra Lia.
From Verif Require Import Base OrthoModel OrthoProofs SplineSpec.
Local Open Scope R_scope.

Lemma all_zero_or_pivot N (f : nat -> R) : (forall i, (i < N)%nat -> f i = 0) \/ exists i, (i < N)%nat /\ f i <> 0.
Proof.
  induction N as [|N [IH|[i [Hi Hf]]]]; [left; lia| |right; exists i; split; [lia|exact Hf]].
  destruct (Req_dec (f N) 0) as [E|E]; [left|right; exists N; split; [lia|exact E]].
  intros i Hi. destruct (Nat.eq_dec i N) as [->|]; [exact E|apply IH; lia].
Qed.
Definition swap_rows (r n i : nat) : nat := if (i =? r)%nat then n else if (i =? n)%nat then r else i.
Lemma swap_invol r n i : swap_rows r n (swap_rows r n i) = i.
Proof.
  unfold swap_rows. destruct (Nat.eqb_spec i r) as [->|].
  - destruct (Nat.eqb_spec n r) as [->|]; [reflexivity|]. now rewrite Nat.eqb_refl.
  - destruct (Nat.eqb_spec i n) as [->|].
    + now rewrite Nat.eqb_refl.
    + destruct (Nat.eqb_spec i r); [lia|]. destruct (Nat.eqb_spec i n); [lia|reflexivity].
Qed.
Lemma swap_lt r n i : (r <= n)%nat -> (i < S n)%nat -> (swap_rows r n i < S n)%nat.
Proof. intros Hr Hi. unfold swap_rows. destruct (Nat.eqb_spec i r); [lia|]. destruct (Nat.eqb_spec i n); lia. Qed.

Definition injective (n : nat) (A : nat -> nat -> R) : Prop :=
  forall s, solves n A (fun _ => 0) s -> forall j, (j < n)%nat -> s j = 0.
Definition extend (n : nat) (s : nat -> R) (v : R) (j : nat) : R := if (j =? n)%nat then v else s j.
Lemma vsum_extend n f s v : vsum (S n) (fun j => f j * extend n s v j) = vsum n (fun j => f j * s j) + f n * v.
Proof.
  cbn [vsum]. unfold extend at 2. rewrite Nat.eqb_refl.
  rewrite (vsum_ext n _ (fun j => f j * s j)); [ring|].
  intros j Hj. unfold extend. destruct (Nat.eqb_spec j n); [lia|reflexivity].
Qed.
Lemma solvable_pivot n : (forall A b, injective n A -> exists s, solves n A b s) ->
  forall A b, A n n <> 0 -> injective (S n) A -> exists s, solves (S n) A b s.
Proof.
  intros IH A b Hp Inj.
  set (B i j := A i j - A i n / A n n * A n j).
  assert (SB : forall i s, vsum n (fun j => B i j * s j)
     = vsum n (fun j => A i j * s j) - A i n / A n n * vsum n (fun j => A n j * s j)).
  { intros i s. rewrite <- vsum_scal, <- vsum_sub. apply vsum_ext. intros. unfold B. ring. }
  assert (G : forall c s, solves n B (fun i => c i - A i n / A n n * c n) s ->
     solves (S n) A c (extend n s ((c n - vsum n (fun j => A n j * s j)) / A n n))).
  { intros c s Hs i Hi. rewrite vsum_extend. destruct (Nat.eq_dec i n) as [->|Hn].
    - field. exact Hp.
    - specialize (Hs i ltac:(lia)). rewrite SB in Hs.
      replace (vsum n (fun j => A i j * s j)) with
        (c i - A i n / A n n * c n + A i n / A n n * vsum n (fun j => A n j * s j)) by lra.
      field. exact Hp. }
  destruct (IH B (fun i => b i - A i n / A n n * b n)) as [s Hs].
  - intros s Hs j Hj.
    assert (Hs' : solves n B (fun i => (fun _ => 0) i - A i n / A n n * (fun _ => 0) n) s).
    { intros i Hi. rewrite (Hs i Hi). ring. }
    specialize (Inj _ (G (fun _ => 0) s Hs') j ltac:(lia)). unfold extend in Inj.
    destruct (Nat.eqb_spec j n); [lia|exact Inj].
  - exists (extend n s ((b n - vsum n (fun j => A n j * s j)) / A n n)). now apply G.
Qed.
Lemma injective_solvable n : forall A b, injective n A -> exists s, solves n A b s.
Proof.
  induction n as [|n IH]; intros A b Inj; [exists (fun _ => 0); intros i Hi; lia|].
  destruct (all_zero_or_pivot (S n) (fun i => A i n)) as [Z|[r [Hr Hp]]].
  - exfalso. assert (E : extend n (fun _ => 0) 1 n = 0).
    { apply Inj; [|lia]. intros i Hi. rewrite vsum_extend, Z by exact Hi. rewrite vsum_0 by (intros; ring). ring. }
    unfold extend in E. rewrite Nat.eqb_refl in E. lra.
  - set (sw := swap_rows r n).
    assert (Sn : sw n = r). { unfold sw, swap_rows. destruct (Nat.eqb_spec n r); [now subst|]. now rewrite Nat.eqb_refl. }
    destruct (solvable_pivot n IH (fun i => A (sw i)) (fun i => b (sw i))) as [s Hs].
    + now rewrite Sn.
    + intros s Hs. apply Inj. intros i Hi. specialize (Hs (sw i) (swap_lt r n i ltac:(lia) Hi)). cbv beta in Hs.
      unfold sw in Hs. rewrite swap_invol in Hs. exact Hs.
    + exists s. intros i Hi. specialize (Hs (sw i) (swap_lt r n i ltac:(lia) Hi)). cbv beta in Hs.
      unfold sw in Hs. rewrite swap_invol in Hs. exact Hs.
Qed.
Lemma injective_unique n A b s t : injective n A -> solves n A b s -> solves n A b t -> forall j, (j < n)%nat -> s j = t j.
Proof.
  intros Inj Hs Ht j Hj. assert (s j - t j = 0); [|lra]. apply (Inj (fun k => s k - t k)); [|exact Hj].
  intros i Hi. rewrite (vsum_ext n _ (fun k => A i k * s k - A i k * t k)) by (intros; ring).
  rewrite vsum_sub, (Hs i Hi), (Ht i Hi). ring.
Qed.
