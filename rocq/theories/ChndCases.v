From Coq Require Import Reals List ZArith Lra Lia Bool.
From Verif Require Import Base PolyModel OrthoModel ChebModel ChebSpec ChndModel ChndSpec ChndProofs ChndProofs2 ChndProofs3.
Import ListNotations.
Local Open Scope R_scope.
Set Bullet Behavior "Strict Subproofs".

(* 1 + 2 y + 3 x + 4 x y at the points (2, 3) and (0, 1) *)
Definition c22 : tensor := Tensor [2; 2]%nat (fun idx => match idx with [O; O] => 1 | [O; S O] => 2 | [S O; O] => 3 | [S O; S O] => 4 | _ => 0 end).
Lemma valnd_case : Forall (lt 0) [2; 2]%nat /\ shape c22 = [2; 2]%nat ++ [] /\ flat c22 = [1; 2; 3; 4] /\
  (exists t, chebvalnd c22 [[2; 0]; [3; 1]] = Ok t /\ shape t = [2]%nat /\ get t [0%nat] = 37 /\ get t [1%nat] = 3) /\
  chebvandernd [1%Z; 1%Z] [[2]; [3]] = Ok [[1 * (1 * 1); 1 * (3 * 1); 2 * (1 * 1); 2 * (3 * 1)]].
Proof.
  split; [repeat constructor|]. split; [reflexivity|]. split; [reflexivity|]. split; [|reflexivity].
  eexists. split; [reflexivity|]. split; [reflexivity|]. split; cbn; ring.
Qed.
(* a square system: two points for a straight line.  The data are 5 and 7 *)
Definition solve2 (a : list (list R)) (b : list R) : list R :=
  match a, b with
  | [[p; q]; [r; s]], [u; v] => let d := p * s - q * r in [(u * s - q * v) / d; (p * v - u * r) / d]
  | _, _ => []
  end.
Lemma fit_case : let xs := [(1%nat, [0; 1])] in let z := (1%nat, [5; 7]) in let deg := [1%Z] in
  xs <> [] /\ List.length deg = List.length xs /\ Forall (fun d => (0 <= d)%Z) deg /\ Forall (fun x => fst x = List.length xs /\ List.length (snd x) = 2%nat) xs /\
  2%nat = fold_right Nat.mul 1%nat (map (fun d => Z.to_nat (d + 1)) deg) /\ Forall (fun v => v <> 0) (snd z) /\
  chebvandernd deg (map snd xs) = Ok [[1 * 1; 0 * 1]; [1 * 1; 1 * 1]] /\ solves solve2 (divided [[1 * 1; 0 * 1]; [1 * 1; 1 * 1]] (snd z)).
Proof.
  cbv zeta. split; [discriminate|]. split; [reflexivity|]. split; [repeat constructor; lia|]. split; [repeat constructor|]. split; [reflexivity|].
  split; [repeat constructor; cbn; lra|]. split; [reflexivity|]. intros b Lb. cbn in Lb. destruct b as [|u [|v [|w b]]]; try discriminate. split; [reflexivity|].
  intros i Hi. cbn in Hi. destruct i as [|[|i]]; [..|lia]; unfold dot; cbn; field.
Qed.
Lemma dct_case : Forall (lt 0) [2; 3; 2]%nat /\ Forall2 lt [1; 0; 1]%nat [2; 3; 2]%nat /\ rotate [1; 2; 3; 4]%nat = [1; 3; 4; 2]%nat /\ image [(0, 2); (1, 5)] [0; 1] = [(0 * (2 - 0) + (2 + 0)) / 2; (1 * (5 - 1) + (5 + 1)) / 2].
Proof. repeat split; repeat constructor. Qed.
