From Coq Require Import Reals Lra Lia.
From Verif Require Import Base PolyModel GridSpec CovModel CovSpec CovProofs CovProofs2 CovProofs3 CovProofs4 CovProofs5.
Local Open Scope R_scope.

Lemma least_pow2_intro n e : (n <= 2 ^ S e)%nat -> (2 ^ e < n)%nat -> least_pow2 n (2 ^ S e).
Proof.
  intros H1 H2. split; [easy|]. split; [now exists (S e)|]. intros f Hf. apply Nat.pow_le_mono_r; [lia|].
  destruct (le_lt_dec (S e) f); [easy|]. assert (2 ^ f <= 2 ^ e)%nat by (apply Nat.pow_le_mono_r; lia). lia.
Qed.
Lemma missing_refuted L dt v : (0 < L)%nat -> v <> 0 ->
  exists c w, tocovdata (plain L) dt [Some 0; Some 0; Some v; None] = Ok c /\ nth 0 (data c) None = Some w
    /\ w <> sumR (map (fun a => (a - mean_of [0; 0; v]) ^ 2) [0; 0; v]) / 3.
Proof.
  intros HL Hv. destruct (estimate_missing L dt [Some 0; Some 0; Some v; None] 0 0 4) as (c & E & H); [reflexivity|reflexivity|reflexivity|easy|cbn; lia|apply (least_pow2_self 2)|].
  exists c. eexists. split; [exact E|]. split; [apply H; cbn; lia|]. unfold off_centre, missing, lagged, mean_of, sumR, at_R. cbn. intros K. field_simplify in K.
  assert (0 < v * v) by nra. nra.
Qed.
Lemma case_five : exists c, tocovdata (plain 3) 2 (values [1; -1; 1; -1; 0]) = Ok c /\ data c = [Some (4 / 5); Some (- 3 / 5); Some (2 / 5); Some 0] /\ args c = [0; 2; 4; 6].
Proof.
  destruct (estimate_plain 3 2 [1; -1; 1; -1; 0] 8) as (c & E & E1 & E2 & E3 & E4 & E5); [lia|cbn; lia|apply (least_pow2_intro 5 2); cbn; lia|].
  exists c. split; [easy|]. cbn [List.length Nat.sub Nat.min] in *. split.
  - apply (@nth_ext num) with (d := None) (d' := None); [easy|]. rewrite E1. intros i Hi. destruct i as [|[|[|[|i]]]]; [| | | |lia].
    1,2,3: rewrite E5 by lia; cbn [nth]; f_equal; unfold wrapped, lagged, centred, mean_of, sumR, at_R; cbn; lra.
    rewrite E4. reflexivity.
  - apply nth_ext with (d := 0) (d' := 0); [easy|]. rewrite E2. intros i Hi. fold (at_R (args c) i). rewrite E3 by lia. destruct i as [|[|[|[|i]]]]; [| | | |lia]; cbn; lra.
Qed.
