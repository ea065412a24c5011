(* Model of src/wafo/misc.py:939-991 ecross, over the real numbers. *)
From Coq Require Import Reals.
From Verif Require Import Base.
Local Open Scope R_scope.

(* lines 989-990, one entry of the index array.  Division by f[i+1] - f[i] = 0
   (numpy: inf or nan) is excluded in the theorems. *)
Definition ecross1 (t f : list R) (v : R) (i : nat) : res R :=
  let* ti := geti t i in
  let* fi := geti f i in
  let* tj := geti t (i + 1) in
  let* fj := geti f (i + 1) in
  Ok (ti + (v - fi) * (tj - ti) / (fj - fi)).

(* the vectorised call: ind is an index array *)
Fixpoint ecross (t f : list R) (ind : list nat) (v : R) : res (list R) :=
  match ind with
  | [] => Ok []
  | i :: ind' =>
      let* a := ecross1 t f v i in
      let* r := ecross t f ind' v in Ok (a :: r)
  end.
