(* Model of sgolay2d (src/wafo/interpolate.py:176-299) over exact reals.  pinv stands for numpy's pseudo-inverse; the order is not negative.
   Simplified: the half window is at least 1 and smaller than both sides of z (other images raise ValueError here; numpy broadcasts some of them). *)
From Coq Require Import Reals List ZArith Bool Arith.
From Verif Require Import Base ArSpec.
Import ListNotations.
Local Open Scope R_scope.

Definition matrix := nat -> nat -> R.
Record image := Image { rows : nat; cols : nat; px : nat -> nat -> R }.
Inductive deriv := NoDeriv | Col | Row | Both | Other.

(* 233-264 _pad_z: nine zones *)
Definition top (z : image) (s p c : nat) : R := px z 0 c - Rabs (px z (s - p) c - px z 0 c).
Definition bottom (z : image) (p c : nat) : R := let e := px z (rows z - 1) c in e + Rabs (px z (rows z - 2 - p) c - e).
Definition left (z : image) (s r q : nat) : R := px z r 0 - Rabs (px z r (s - q) - px z r 0).
Definition right (z : image) (r q : nat) : R := let e := px z r (cols z - 1) in e + Rabs (px z r (cols z - 2 - q) - e).
Definition pad (z : image) (s : nat) : nat -> nat -> R := fun i j =>
  let p := (i - s - rows z)%nat in                               (* row in the bottom band *)
  let q := (j - s - cols z)%nat in                               (* column in the right band *)
  if (i <? s)%nat then
    if (j <? s)%nat then px z 0 0 - Rabs (px z (s - i) (s - j) - px z 0 0)
    else if (j <? s + cols z)%nat then top z s i (j - s)
    else right z 0 q - Rabs (right z (s - i) q - right z 0 q)
  else if (i <? s + rows z)%nat then
    if (j <? s)%nat then left z s (i - s) j
    else if (j <? s + cols z)%nat then px z (i - s) (j - s)
    else right z (i - s) q
  else
    if (j <? s)%nat then bottom z p 0 - Rabs (bottom z p (s - j) - bottom z p 0)
    else if (j <? s + cols z)%nat then bottom z p (j - s)
    else let e := px z (rows z - 1) (cols z - 1) in e + Rabs (px z (rows z - 2 - p) (cols z - 2 - q) - e).

(* 276 exps *)
Definition exps (order : nat) : list (nat * nat) := flat_map (fun k => map (fun n => (k - n, n)%nat) (seq 0 (k + 1))) (seq 0 (order + 1)).
(* 279-286 the matrix; the point with the number r of the window is in row r / w and column r mod w *)
Definition design (w s order : nat) : matrix := fun r l =>
  let e := nth l (exps order) (0, 0)%nat in (INR (r / w) - INR s) ^ fst e * (INR (r mod w) - INR s) ^ snd e.
(* scipy.signal.fftconvolve(p, k, mode='valid') with a kernel of w x w numbers *)
Definition convolved (z : image) (s w : nat) (k : nat -> R) : image :=
  Image (rows z) (cols z) (fun i j => sum_to w (fun a => sum_to w (fun b => k (a * w + b)%nat * pad z s (i + 2 * s - a) (j + 2 * s - b)))).
(* 176-299 sgolay2d; pinv rows columns matrix *)
Definition sgolay2d (pinv : nat -> nat -> matrix -> matrix) (z : image) (w order : nat) (d : deriv) : res (list image) :=
  let n_terms := ((order + 1) * (order + 2) / 2)%nat in
  if (negb (w mod 2 =? 1) || (w <? 1))%nat%bool then Err TypeError
  else if (w * w <? n_terms)%nat then Err TypeError                                   (* window_size < sqrt(n_terms) *)
  else
    let s := (w / 2)%nat in
    if ((s <? 1) || (rows z <=? s) || (cols z <=? s))%nat%bool then Err ValueError
    else
      let sign := match d with NoDeriv => 1 | _ => -1 end in
      match d with Other => Err KeyError | _ =>
        let dims := match d with NoDeriv => [0] | Col => [1] | Row => [2] | _ => [1; 2] end%nat in
        if existsb (fun i => (List.length (exps order) <=? i)%nat) dims then Err IndexError
        else Ok (map (fun i => convolved z s w (fun r => sign * pinv (w * w)%nat (List.length (exps order)) (design w s order) i r)) dims)
      end.
