(* What a user expects of a transform of an array *)
From Coq Require Import Reals ZArith List Bool.
From Verif Require Import Base OrthoModel ShiftModel ShiftSpec.
Import ListNotations.
Local Open Scope R_scope.

(* x[idx], zero outside of the array *)
Fixpoint inside (s idx : list nat) : bool := match s, idx with n :: s', i :: idx' => (i <? n)%nat && inside s' idx' | [], [] => true | _, _ => false end.
Definition entry (x : ndarray R) (idx : list nat) : R := if inside (shape x) idx then nth (position (shape x) idx) (elements x) 0 else 0.
(* the separable transform with the matrix C n along the axes that are [on]: the sum over all j of the products of C n k j over these axes
   times g; N are the lengths of the axes, the first of which has the number dim *)
Fixpoint transformed (C : nat -> nat -> nat -> R) (on : nat -> bool) (dim : nat) (N idx : list nat) (g : list nat -> R) : R :=
  match N, idx with
  | n :: N', k :: idx' => if on dim then vsum n (fun j => C n k j * transformed C on (S dim) N' idx' (fun js => g (j :: js)))
                          else transformed C on (S dim) N' idx' (fun js => g (k :: js))
  | _, _ => g []
  end.
(* D n undoes C n up to the factor c n, on rows of length n >= 1 *)
Definition undoes (c : nat -> R) (D C : nat -> nat -> nat -> R) : Prop :=
  forall n i j, (i < n)%nat -> (j < n)%nat -> vsum n (fun k => D n i k * C n k j) = if (i =? j)%nat then c n else 0.
(* the product of c over the axes that are on *)
Fixpoint factor (c : nat -> R) (on : nat -> bool) (dim : nat) (N : list nat) : R :=
  match N with [] => 1 | n :: N' => (if on dim then c n else 1) * factor c on (S dim) N' end.
(* is the axis listed? *)
Definition listed (axes : option (list Z)) (dim : nat) : bool := match axes with None => true | Some a => existsb (Z.eqb (Z.of_nat dim)) a end.
Definition energy (x : ndarray R) : R := fold_right (fun v s => v * v + s) 0 (elements x).
(* the axes are numbered 0, ..., ndim - 1 *)
Definition good_axes (ndim : nat) (axes : option (list Z)) : Prop := match axes with None => True | Some a => Forall (fun v => 0 <= v < Z.of_nat ndim)%Z a end.
(* the axes meant when none are given: all *)
Definition axes_list (ndim : nat) (axes : option (list Z)) : list Z := match axes with Some a => a | None => map Z.of_nat (seq 0 ndim) end.
(* the entries of the matrix C n, rows and columns exchanged *)
Definition transposed (C : nat -> nat -> nat -> R) (n i j : nat) : R := C n j i.
