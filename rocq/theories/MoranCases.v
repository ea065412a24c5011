(* The uniform distribution meets the hypotheses of the theorems. *)
From Coq Require Import Reals Lra Lia.
From Verif Require Import Base MoranModel MoranSpec MoranProofs MoranProofs2 MoranProofs3.
Local Open Scope R_scope.

Definition uniform : dist := Dist (fun _ => true) (fun _ => Some 0) (fun _ => Some 1) (fun _ _ => 1) (fun _ x => Rmax 0 (Rmin x 1)) (fun _ x => 1 - Rmax 0 (Rmin x 1)).
Lemma uniform_df : distribution_function (cdf uniform []).
Proof.
  split; cbn [uniform cdf].
  - intros x y L. apply Rle_max_compat_l. apply Rle_min_compat_r. exact L.
  - intros x. split; [apply Rmax_l|]. apply Rmax_lub; [lra|apply Rmin_r].
Qed.
Lemma uniform_in v : 0 <= v <= 1 -> inside uniform [] v = true.
Proof. intros [A B]. unfold inside. cbn. destruct (Rle_dec 0 v); [|lra]. destruct (Rle_dec v 1); [reflexivity|lra]. Qed.
Definition thirds : list R := [3; 4].
Lemma thirds_case : 0 < 1 / 1000 /\ argcheck uniform [] = true /\ 0 < 3 /\ distribution_function (cdf uniform []) /\ increasing thirds /\ (forall v, In v thirds -> inside uniform [] ((v - 2) / 3) = true)
  /\ (forall i, (i < List.length thirds)%nat -> cdf uniform [] ((nth i thirds 0 - 2) / 3) = INR (i + 1) / INR (List.length thirds + 1)).
Proof.
  split; [lra|]. split; [reflexivity|]. split; [lra|]. split; [apply uniform_df|]. split; [|split].
  - intros [|i] I; cbn in *; [lra|lia].
  - intros v [<-|[<-|[]]]; apply uniform_in; lra.
  - intros [|[|i]] I; cbn in *; [| |lia]; unfold Rmin, Rmax; repeat (destruct Rle_dec); lra.
Qed.
Lemma tied_case : let x := [2; 3; 3; 9] in (forall v, In v x -> inside uniform [] ((v - 2) / 3) = true -> 0 < pdf uniform [] ((v - 2) / 3))
  /\ repeats (filter (fun v => inside uniform [] ((v - 2) / 3)) x) = 1%nat /\ List.length (filter (fun v => negb (inside uniform [] ((v - 2) / 3))) x) = 1%nat
  /\ exists T, penalized_nlogps (1 / 1000) 1000 uniform [2; 3] x = Ok (Some T).
Proof.
  cbv zeta. split; [intros; cbn; lra|].
  assert (F : filter (fun v => inside uniform [] ((v - 2) / 3)) [2; 3; 3; 9] = [2; 3; 3]).
  { cbn [filter]. rewrite !uniform_in by lra. replace (inside uniform [] ((9 - 2) / 3)) with false; [reflexivity|].
    unfold inside. cbn. destruct (Rle_dec ((9 - 2) / 3) 1); [lra|]. rewrite Bool.andb_false_r. reflexivity. }
  assert (G := filter_len (fun v => inside uniform [] ((v - 2) / 3)) [2; 3; 3; 9]). rewrite F in G |- *. cbn [List.length Nat.sub] in G. split; [|split].
  - cbn [repeats]. destruct (Req_EM_T 2 3); [lra|]. destruct (Req_EM_T 3 3); [reflexivity|lra].
  - symmetry. exact G.
  - eexists. apply (penalized_legal (1 / 1000) 1000 uniform [] 2 3); [reflexivity|lra].
Qed.
