(* Property theorems C21 - C23, C77, C78.  Vocabulary: MarkovSpec.v. *)
From Coq Require Import Reals Lra.
From Verif Require Import Base MarkovModel MarkovSpec MarkovProofs.
Local Open Scope R_scope.

(* ---- C21 ------------------------------------------------------------------- *)
Theorem c21_cmat2nt : forall n F kind, kind = 1%Z \/ kind = 11%Z ->
  exists nt, cmat2nt n F kind = Ok nt /\
    forall i j, (i < n)%nat -> (j < n)%nat -> nt i j = cycles_across n F i j.
Proof. exact cmat2nt_spec. Qed.
Print Assumptions c21_cmat2nt.

Theorem c21_kinds_agree : forall n F,
  exists a b, cmat2nt n F 1 = Ok a /\ cmat2nt n F 11 = Ok b /\ mat_eq n a b.
Proof. exact cmat2nt_kinds. Qed.
Print Assumptions c21_kinds_agree.

Theorem c21_other_kinds_raise : forall n F kind, kind <> 1%Z -> kind <> 11%Z ->
  cmat2nt n F kind = nt2cmat n F kind /\
  cmat2nt n F kind = Err (if Z.eq_dec kind 0 then NotImplementedError
                          else if Z.eq_dec kind (-1) then NotImplementedError else ValueError).
Proof. exact kind_errors. Qed.
Print Assumptions c21_other_kinds_raise.

(* the matrix of the docstring *)
Definition demo : mat := fun i j =>
  match i, j with
  | 0%nat, 1%nat => 5 | 0%nat, 2%nat => 6 | 0%nat, 3%nat => 9
  | 1%nat, 2%nat => 1 | 1%nat, 3%nat => 7 | 2%nat, 3%nat => 4 | _, _ => 0
  end.
Example c21_case : cycles_across 4 demo 2 1 = 23.
Proof. unfold cycles_across, Rsum. cbn. lra. Qed.

(* ---- C22 ------------------------------------------------------------------- *)
Theorem c22_nt2cmat_cmat2nt : forall n F kind kind',
  kind = 1%Z \/ kind = 11%Z -> kind' = 1%Z \/ kind' = 11%Z ->
  (forall i, F i 0%nat = 0) -> (forall j, F (n - 1)%nat j = 0) ->
  exists nt G, cmat2nt n F kind = Ok nt /\ nt2cmat n nt kind' = Ok G /\ mat_eq n G F.
Proof. exact nt2cmat_cmat2nt. Qed.
Print Assumptions c22_nt2cmat_cmat2nt.

Theorem c22_cmat2nt_nt2cmat : forall n nt kind kind',
  kind = 1%Z \/ kind = 11%Z -> kind' = 1%Z \/ kind' = 11%Z ->
  (forall j, nt 0%nat j = 0) -> (forall i, nt i (n - 1)%nat = 0) ->
  exists F G, nt2cmat n nt kind = Ok F /\ cmat2nt n F kind' = Ok G /\ mat_eq n G nt.
Proof. exact cmat2nt_nt2cmat. Qed.
Print Assumptions c22_cmat2nt_nt2cmat.

Example c22_case : (forall i, demo i 0%nat = 0) /\ (forall j, demo 3%nat j = 0).
Proof.
  split; [intros [|[|[|i]]]; reflexivity|]. intros [|[|[|[|j]]]]; reflexivity.
Qed.

(* ---- C23 ------------------------------------------------------------------- *)
(* fr2nt raises for every input *)
Theorem c23_fr2nt_refuted : forall n m fr, (exists e, fr2nt n m fr = Err e) /\
  ((3 <= n)%nat -> fr2nt n n fr = Err IndexError).
Proof. exact (fun n m fr => conj (fr2nt_always_fails n m fr) (fr2nt_fails n fr)). Qed.
Print Assumptions c23_fr2nt_refuted.

(* nt2fr is the mixed difference only for matrices that satisfy an unrelated identity *)
Theorem c23_nt2fr_correct_iff : forall n nt, (2 <= n)%nat ->
  (forall i j, (i < n - 1)%nat -> (j < n - 1)%nat -> nt2fr n nt 0 i j = mixed_diff nt i j) <->
  (forall i j, (i < n - 1)%nat -> (j < n - 1)%nat -> nt i j = nt j (n - 1)%nat).
Proof. exact nt2fr_correct_iff. Qed.
Print Assumptions c23_nt2fr_correct_iff.

Theorem c23_nt2fr_refuted : exists nt, nt2fr 2 nt 0 0%nat 0%nat <> mixed_diff nt 0 0.
Proof. exact nt2fr_wrong. Qed.
Print Assumptions c23_nt2fr_refuted.

(* ---- C77 ------------------------------------------------------------------- *)
(* iter_ and iter_mc, for any rainflow operator f *)
Theorem c77_iter_nonnegative : forall n f frfc fmM0 k eps, (1 <= k)%nat ->
  forall i j, 0 <= fst (raw_iter n f frfc fmM0 k eps) i j.
Proof. exact raw_iter_nonneg. Qed.
Print Assumptions c77_iter_nonnegative.

Theorem c77_iter_consistent : forall n f frfc fmM0 k eps i j, (j < n)%nat ->
  (forall A B, mat_eq n A B -> mat_eq n (f A) (f B)) -> (i < n)%nat ->
  snd (raw_iter n f frfc fmM0 k eps) i j
  = fliplr n (f (fliplr n (fst (raw_iter n f frfc fmM0 k eps)))) i j.
Proof. exact raw_iter_consistent. Qed.
Print Assumptions c77_iter_consistent.

Theorem c77_iter_fixpoint : forall n f frfc M k eps, (1 <= k)%nat -> 0 <= eps ->
  (forall i j, (i < n)%nat -> (j < n)%nat -> 0 <= M i j) ->
  mat_eq n (f (fliplr n M)) (fliplr n frfc) ->
  mat_eq n (fst (raw_iter n f frfc (Some M) k eps)) M.
Proof. exact raw_iter_fixpoint. Qed.
Print Assumptions c77_iter_fixpoint.

Example c77_case : fst (raw_iter 1 (fun A => A) (fun _ _ => 3) (Some (fun _ _ => -7)) 1 0) 0%nat 0%nat = 3.
Proof.
  unfold raw_iter, iter_loop. cbn [fst]. unfold fliplr at 1.
  match goal with |- (if ?c then _ else _) _ _ = _ => destruct c end;
  unfold fliplr; cbv beta; replace (-7 + (3 - -7)) with 3 by lra; apply Rmax_right; lra.
Qed.

(* ---- C78 ------------------------------------------------------------------- *)
Theorem c78_mktestmat_support : forall n s g i j, (0 <= s)%Z -> (forall i j, 0 < g i j) ->
  mktestmat n s g i j <> 0 <->
  (Z.of_nat i < n - 1 - s /\ Z.of_nat i + s <= Z.of_nat j /\ Z.of_nat j < n)%Z.
Proof. exact mktestmat_support. Qed.
Print Assumptions c78_mktestmat_support.

(* documented: numsubzero=0 means that only the diagonal is zero *)
Theorem c78_diagonal_zero_refuted : forall n g, (2 <= n)%Z -> (forall i j, 0 < g i j) ->
  mktestmat n 0 g 0%nat 0%nat <> 0.
Proof. exact mktestmat_diagonal. Qed.
Print Assumptions c78_diagonal_zero_refuted.

Example c78_case : mktestmat 4 1 (fun _ _ => 1) 1%nat 2%nat = 1 /\ mktestmat 4 1 (fun _ _ => 1) 1%nat 1%nat = 0.
Proof. split; reflexivity. Qed.
