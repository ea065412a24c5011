(* Concrete fits that meet the hypotheses of the theorems. *)
From Coq Require Import Reals String Lia Lra.
From Verif Require Import Base FitModel FitSpec.
Local Open Scope string_scope.

Definition ab : list string := ["a"; "b"].
Definition starts : list pyv := [Num 1; Num 2; Num 3; Num 4].
Definition env1 : env := Env (fun _ => None) (fun _ x => Ok (x, 0%Z)) (fun _ F x => Ok ([Num 5; Num 7], 1%Z)).
Definition ff1 : fit_function := fun _ theta => match theta with [Num a; _; _; _] => Ok a | _ => Err ValueError end.
Definition kw1 : kwds := [("fix_a", Num 9); ("method", Str "MPS"); ("floc", Num 8); ("optimizer", Fun 0)].
Lemma ab_legal : legal ab.
Proof.
  unfold legal. cbn. repeat (constructor; [cbn; intuition discriminate|]). constructor.
Qed.
Lemma kw1_fit : fit env1 ff1 ab starts [] kw1 = Ok ([Num 9; Num 5; Num 8; Num 7], [0%nat; 2%nat]) /\ searching kw1 = true.
Proof. split; reflexivity. Qed.
Lemma off_fit : fit env1 ff1 ab starts [Num 6] [("search", Flag false); ("f1", Num 9); ("scale", Num 0); ("flocc", Num 0)] = Ok ([Num 6; Num 9; Num 3; Num 0], [1%nat]).
Proof. reflexivity. Qed.
Lemma twice_fit : fit env1 ff1 ab starts [] [("f0", Num 9); ("fa", Num 9)] = Err ValueError
  /\ fit env1 ff1 ab starts [] [("f0", Num 9); ("fb", Num 9); ("floc", Num 1); ("fscale", Num 2)] = Err ValueError
  /\ fit env1 ff1 ab starts [] [("f2", Num 9)] = Err TypeError /\ fit env1 ff1 ab starts starts [("loc", Num 9)] = Err TypeError.
Proof. repeat split; reflexivity. Qed.
Lemma none_fit : fit env1 ff1 ab starts [] [("f0", Nil); ("floc", Nil)] = Ok ([Num 1; Num 2; Nil; Num 4], [2%nat]).
Proof. reflexivity. Qed.
